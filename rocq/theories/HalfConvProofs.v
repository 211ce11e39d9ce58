(** Proofs about the conversions between half and float. *)
From Verif Require Import Base BaseProofs HalfModel HalfSpec HalfBits.
From Coq Require Import ZifyNat ZifyN ZifyBool.
Ltac Zify.zify_post_hook ::= idtac.
Local Open Scope Z_scope.

Definition hpack (s e m : Z) : Z := s * 2 ^ 15 + e * 2 ^ 10 + m.
Definition hfields (s e m : Z) : Prop := 0 <= s < 2 /\ 0 <= e < 32 /\ 0 <= m < 1024.
Definition fpack (s e m : Z) : Z := s * 2 ^ 31 + e * 2 ^ 23 + m.
Definition ffields (s e m : Z) : Prop := 0 <= s < 2 /\ 0 <= e < 256 /\ 0 <= m < 2 ^ 23.

Lemma mod_unique_small a q r n : 0 <= r < n -> a = q * n + r -> a mod n = r.
Proof. intros. symmetry. apply Z.mod_unique with q; lia. Qed.
Lemma div_unique_small a q r n : 0 <= r < n -> a = q * n + r -> a / n = q.
Proof. intros. symmetry. apply Z.div_unique with r; lia. Qed.

Lemma hpack_fields s e m : hfields s e m -> bits16 (hpack s e m) /\ hsign (hpack s e m) = s /\ hexp (hpack s e m) = e /\ hfrac (hpack s e m) = m.
Proof.
  intros (Hs & He & Hm). unfold hpack, bits16, hsign, hexp, hfrac. split; [lia|]. split; [|split].
  - apply div_unique_small with (e * 2 ^ 10 + m); lia.
  - rewrite (div_unique_small _ (s * 32 + e) m) by lia. apply mod_unique_small with s; lia.
  - apply mod_unique_small with (s * 32 + e); lia.
Qed.
Lemma fpack_fields s e m : ffields s e m -> bits32 (fpack s e m) /\ fsign (fpack s e m) = s /\ fexp (fpack s e m) = e /\ ffrac (fpack s e m) = m.
Proof.
  intros (Hs & He & Hm). unfold fpack, bits32, fsign, fexp, ffrac. split; [lia|]. split; [|split].
  - apply div_unique_small with (e * 2 ^ 23 + m); lia.
  - rewrite (div_unique_small _ (s * 256 + e) m) by lia. apply mod_unique_small with s; lia.
  - apply mod_unique_small with (s * 256 + e); lia.
Qed.
Lemma hpack_of h : bits16 h -> hfields (hsign h) (hexp h) (hfrac h) /\ hpack (hsign h) (hexp h) (hfrac h) = h.
Proof.
  intros H. unfold bits16, hfields, hpack, hsign, hexp, hfrac in *.
  pose proof (Z.div_mod h (2 ^ 10) ltac:(lia)). pose proof (Z.mod_pos_bound h (2 ^ 10) ltac:(lia)).
  pose proof (Z.div_mod (h / 2 ^ 10) (2 ^ 5) ltac:(lia)). pose proof (Z.mod_pos_bound (h / 2 ^ 10) (2 ^ 5) ltac:(lia)).
  assert (E : h / 2 ^ 10 / 2 ^ 5 = h / 2 ^ 15) by (rewrite Z.div_div by lia; reflexivity).
  rewrite E in *. assert (0 <= h / 2 ^ 15 < 2). { split; [apply Z.div_pos; lia|apply Z.div_lt_upper_bound; lia]. }
  lia.
Qed.
Lemma fpack_of f : bits32 f -> ffields (fsign f) (fexp f) (ffrac f) /\ fpack (fsign f) (fexp f) (ffrac f) = f.
Proof.
  intros H. unfold bits32, ffields, fpack, fsign, fexp, ffrac in *.
  pose proof (Z.div_mod f (2 ^ 23) ltac:(lia)). pose proof (Z.mod_pos_bound f (2 ^ 23) ltac:(lia)).
  pose proof (Z.div_mod (f / 2 ^ 23) (2 ^ 8) ltac:(lia)). pose proof (Z.mod_pos_bound (f / 2 ^ 23) (2 ^ 8) ltac:(lia)).
  assert (E : f / 2 ^ 23 / 2 ^ 8 = f / 2 ^ 31) by (rewrite Z.div_div by lia; reflexivity).
  rewrite E in *. assert (0 <= f / 2 ^ 31 < 2). { split; [apply Z.div_pos; lia|apply Z.div_lt_upper_bound; lia]. }
  lia.
Qed.

(** Field extraction as the code writes it. *)
Lemma h_land_e s e m : hfields s e m -> Z.land (hpack s e m) 0x7c00 = e * 2 ^ 10.
Proof. intros F. change 0x7c00 with ((2 ^ 5 - 1) * 2 ^ 10). rewrite land_field by lia. apply hpack_fields in F. unfold hexp in F. destruct F as (_ & _ & F & _). rewrite F. reflexivity. Qed.
Lemma h_land_m s e m : hfields s e m -> Z.land (hpack s e m) 0x3ff = m.
Proof. intros F. change 0x3ff with (2 ^ 10 - 1). rewrite land_low by lia. apply hpack_fields in F. unfold hfrac in F. apply F. Qed.
Lemma h_land_s s e m : hfields s e m -> Z.land (hpack s e m) 0x8000 = s * 2 ^ 15.
Proof.
  intros F. change 0x8000 with ((2 ^ 1 - 1) * 2 ^ 15). rewrite land_field by lia. pose proof (hpack_fields _ _ _ F) as (_ & G & _). unfold hsign in G.
  rewrite G. rewrite Z.mod_small; [reflexivity|]. destruct F; lia.
Qed.
Lemma f_land_e s e m : ffields s e m -> Z.land (fpack s e m) 0x7f800000 = e * 2 ^ 23.
Proof. intros F. change 0x7f800000 with ((2 ^ 8 - 1) * 2 ^ 23). rewrite land_field by lia. apply fpack_fields in F. unfold fexp in F. destruct F as (_ & _ & F & _). rewrite F. reflexivity. Qed.
Lemma f_land_m s e m : ffields s e m -> Z.land (fpack s e m) 0x7fffff = m.
Proof. intros F. change 0x7fffff with (2 ^ 23 - 1). rewrite land_low by lia. apply fpack_fields in F. unfold ffrac in F. apply F. Qed.
Lemma f_land_s s e m : ffields s e m -> Z.land (fpack s e m) 0x80000000 = s * 2 ^ 31.
Proof.
  intros F. change 0x80000000 with ((2 ^ 1 - 1) * 2 ^ 31). rewrite land_field by lia. pose proof (fpack_fields _ _ _ F) as (_ & G & _). unfold fsign in G.
  rewrite G. rewrite Z.mod_small; [reflexivity|]. destruct F; lia.
Qed.
Lemma f_land_q s e m : ffields s e m -> Z.land (fpack s e m) 0x7fc00000 = e * 2 ^ 23 + m / 2 ^ 22 * 2 ^ 22.
Proof.
  intros (Hs & He & Hm). change 0x7fc00000 with ((2 ^ 9 - 1) * 2 ^ 22). rewrite land_field by lia. unfold fpack.
  pose proof (Z.div_mod m (2 ^ 22) ltac:(lia)). pose proof (Z.mod_pos_bound m (2 ^ 22) ltac:(lia)).
  assert (0 <= m / 2 ^ 22 < 2). { split; [apply Z.div_pos; lia|apply Z.div_lt_upper_bound; lia]. }
  rewrite (div_unique_small _ (s * 2 ^ 9 + e * 2 + m / 2 ^ 22) (m mod 2 ^ 22)) by lia.
  rewrite (mod_unique_small _ s (e * 2 + m / 2 ^ 22)) by lia. lia.
Qed.

Ltac sh := rewrite ?Z.shiftl_mul_pow2, ?Z.shiftr_div_pow2 by lia.
(** [st c]: the variable bound next has the value c. *)
Ltac st c := match goal with |- (let x := ?v in @?b x) = ?r => refine (let_to c v b r _ _); [|cbv beta] end.
(** [sp P]: keep the variable bound next as a fresh name, knowing only P. *)
Ltac sp P H := match goal with |- (let x := ?v in @?b x) = ?r => let y := fresh x in refine (let_sp P v b r _ _); [|intros y H; cbv beta in H |- *] end.
Ltac sd c := match goal with |- bind ?v ?b = ?r => refine (do_to c v b r _ _); [|cbv beta] end.
Ltac wid := first [rewrite w16_id by lia | rewrite w32_id by lia].

Lemma shr32_in J a s : 0 <= s < 32 -> 0 <= a < 2 ^ 32 -> shr32 J a s = Ok (a / 2 ^ s).
Proof.
  intros. unfold shr32. replace (s <? 32) with true by lia. cbn [omap bind]. rewrite Z.shiftr_div_pow2 by lia. rewrite w32_id; auto.
  assert (1 <= 2 ^ s). { change 1 with (2 ^ 0). apply Z.pow_le_mono_r; lia. }
  split; [apply Z.div_pos; lia|apply Z.div_lt_upper_bound; nia].
Qed.

Lemma msb32_if (c b : bool) x : msb32 x b -> c = b -> msb32 x c.
Proof. intros ? ->; auto. Qed.


Lemma shl32_in J a s : 0 <= s < 32 -> shl32 J a s = Ok (w32 (a * 2 ^ s)).
Proof. intros. unfold shl32. replace (s <? 32) with true by lia. cbn [omap bind]. rewrite Z.shiftl_mul_pow2 by lia. reflexivity. Qed.

Ltac un f := cbv delta [f]; cbv beta.

(** The exact result of halfToFloat, on all inputs and under every shift semantics. *)
Definition h2f_em (e m : Z) : Z :=
  if e =? 0 then if m =? 0 then 0 else (103 + Z.log2 m) * 2 ^ 23 + (m * 2 ^ (23 - Z.log2 m) - 2 ^ 23)
  else if e =? 31 then 255 * 2 ^ 23 + m * 2 ^ 13
  else (e + 112) * 2 ^ 23 + m * 2 ^ 13.

Lemma subnormal_frac m : 0 < m < 1024 ->
  0 <= Z.log2 m < 10 /\ 0 <= m * 2 ^ (23 - Z.log2 m) - 2 ^ 23 < 2 ^ 23.
Proof.
  intros H. pose proof (Z.log2_spec m ltac:(lia)) as [L1 L2]. pose proof (Z.log2_nonneg m).
  assert (Z.log2 m < 10) by (apply Z.log2_lt_pow2; lia). split; [lia|].
  set (k := Z.log2 m) in *.
  assert (P1 : 2 ^ 23 = 2 ^ k * 2 ^ (23 - k)) by (rewrite <- Z.pow_add_r by lia; f_equal; lia).
  assert (P2 : 2 ^ Z.succ k * 2 ^ (23 - k) = 2 ^ 23 * 2). { rewrite Z.pow_succ_r by lia. lia. }
  assert (0 < 2 ^ (23 - k)) by (apply Z.pow_pos_nonneg; lia).
  assert (2 ^ k * 2 ^ (23 - k) <= m * 2 ^ (23 - k)) by (apply Z.mul_le_mono_nonneg_r; lia).
  assert (m * 2 ^ (23 - k) < 2 ^ Z.succ k * 2 ^ (23 - k)) by (apply Z.mul_lt_mono_pos_r; lia).
  lia.
Qed.

Lemma halfToFloat_eq J s e m : hfields s e m -> halfToFloat J (hpack s e m) = Ok (s * 2 ^ 31 + h2f_em e m).
Proof.
  intros F. pose proof F as (Fs & Fe & Fm). un halfToFloat.
  st (e * 2 ^ 10). { rewrite h_land_e by auto. wid. reflexivity. }
  st m. { rewrite h_land_m by auto. wid. reflexivity. }
  st (s * 2 ^ 15). { rewrite h_land_s by auto. wid. reflexivity. }
  st ((e + 112) * 2 ^ 10). { wid. lia. }
  st (31 - (if m =? 0 then -1 else Z.log2 m)).
  { destruct (m =? 0) eqn:E. { replace m with 0 by lia. rewrite cntlz32_zero. lia. }
    destruct (subnormal_frac m) as [L _]; [lia|]. pose proof (Z.log2_spec m ltac:(lia)).
    rewrite (cntlz32_pos m (Z.log2 m)) by lia. lia. }
  set (k := if m =? 0 then -1 else Z.log2 m).
  assert (Hk : -1 <= k < 10). { unfold k. destruct (m =? 0) eqn:E; [lia|]. destruct (subnormal_frac m) as [L _]; lia. }
  st (s * 2 ^ 31). { sh. wid. lia. }
  st ((e + 112) * 2 ^ 23). { sh. wid; lia. }
  st (m * 2 ^ 13). { sh. wid; lia. }
  st ((e + 112) * 2 ^ 23 + m * 2 ^ 13). { rewrite lor_add by lia. wid; lia. }
  st (23 - k). { wid; lia. }
  st (103 + k). { wid; lia. }
  sd (w32 (m * 2 ^ (23 - k))). { apply shl32_in. lia. }
  sp (fun x => 0 <= x < 2 ^ 23 /\ (m <> 0 -> x = m * 2 ^ (23 - k) - 2 ^ 23)) Hd.
  { change 8388607 with (2 ^ 23 - 1). rewrite land_low by lia.
    pose proof (Z.mod_pos_bound (w32 (m * 2 ^ (23 - k))) (2 ^ 23) ltac:(lia)). rewrite w32_id by lia. split; [lia|].
    intros N. unfold k. replace (m =? 0) with false by lia. destruct (subnormal_frac m) as [L1 L2]; [lia|].
    rewrite w32_id by lia. apply mod_unique_small with 1; lia. }
  st ((103 + k) * 2 ^ 23). { sh. wid; lia. }
  st ((103 + k) * 2 ^ 23 + f_m_denorm). { rewrite lor_add by lia. wid; lia. }
  st (255 * 2 ^ 23 + m * 2 ^ 13). { change 2139095040 with (255 * 2 ^ 23). rewrite lor_add by lia. wid; lia. }
  sp (fun x => msb32 x (e =? 0)) T1. { apply (msb32_if _ (e * 2 ^ 10 - 1 <? 0)); [apply msb32_small; lia|lia]. }
  sp (fun x => msb32 x (negb (m =? 0))) T2. { apply (msb32_if _ (- m <? 0)); [apply msb32_small; lia|lia]. }
  sp (fun x => msb32 x (e =? 31)) T3. { apply (msb32_if _ (31743 - e * 2 ^ 10 <? 0)); [apply msb32_small; lia|lia]. }
  sp (fun x => msb32 x ((e =? 0) && (m =? 0))) T4. { eapply msb32_if; [apply msb32_landn; eauto|]. lia. }
  sp (fun x => msb32 x ((e =? 31) && (m =? 0))) T5. { eapply msb32_if; [apply msb32_landn; eauto|]. lia. }
  sp (fun x => msb32 x (negb (m =? 0) && (e =? 0))) T6. { eapply msb32_if; [apply msb32_land; eauto|]. lia. }
  sp (fun x => msb32 x ((e =? 31) && negb (m =? 0))) T7. { eapply msb32_if; [apply msb32_land; eauto|]. lia. }
  st (if (e =? 0) && (m =? 0) then 2 ^ 32 - 1 else 0). { apply asr31_eq; auto. }
  st (if (e =? 0) && (m =? 0) then 0 else (e + 112) * 2 ^ 23 + m * 2 ^ 13).
  { destruct ((e =? 0) && (m =? 0)). { apply w32_land_nones. } change (Z.lnot 0) with (-1). rewrite Z.land_m1_r. wid; lia. }
  st (if negb (m =? 0) && (e =? 0) then (103 + k) * 2 ^ 23 + f_m_denorm else if (e =? 0) && (m =? 0) then 0 else (e + 112) * 2 ^ 23 + m * 2 ^ 13).
  { apply sels32_eq; auto; [lia|]. destruct ((e =? 0) && (m =? 0)); lia. }
  set (r1 := if negb (m =? 0) && (e =? 0) then _ else _).
  assert (R1 : 0 <= r1 < 2 ^ 31). { unfold r1. destruct (negb (m =? 0) && (e =? 0)), ((e =? 0) && (m =? 0)); lia. }
  st (if (e =? 31) && (m =? 0) then 255 * 2 ^ 23 else r1). { apply sels32_eq; auto; lia. }
  st (if (e =? 31) && negb (m =? 0) then 255 * 2 ^ 23 + m * 2 ^ 13 else if (e =? 31) && (m =? 0) then 255 * 2 ^ 23 else r1).
  { apply sels32_eq; auto; [lia|]. destruct ((e =? 31) && (m =? 0)); lia. }
  assert (R2 : (if (e =? 31) && negb (m =? 0) then 255 * 2 ^ 23 + m * 2 ^ 13 else if (e =? 31) && (m =? 0) then 255 * 2 ^ 23 else r1) = h2f_em e m).
  { unfold h2f_em, r1. destruct (e =? 0) eqn:E0, (e =? 31) eqn:E1, (m =? 0) eqn:E2; cbn [andb negb]; try lia.
    destruct Hd as [_ Hd]. rewrite Hd by lia. reflexivity. }
  rewrite R2. assert (R3 : 0 <= h2f_em e m < 2 ^ 31).
  { rewrite <- R2. destruct ((e =? 31) && negb (m =? 0)), ((e =? 31) && (m =? 0)); lia. }
  st (s * 2 ^ 31 + h2f_em e m). { rewrite lor_add by lia. wid; lia. }
  reflexivity.
Qed.

(** The fraction after the code's rounding step, and with the hidden bit. *)
Definition f2h_round (m : Z) : Z := m + (if Z.testbit m 12 then 2 ^ 13 else 0).
Definition f2h_hidden (m : Z) : Z := if f2h_round m <? 2 ^ 23 then f2h_round m + 2 ^ 23 else f2h_round m.
(** Exponent and fraction of the result; D is what the (possibly out-of-range) shift delivered. *)
Definition f2h_em (D e m : Z) : Z :=
  if (e =? 255) && (2 ^ 22 <=? m) then 0x7e00
  else if e <=? 112 then D / 2 ^ 13
  else if 144 <=? e then 0x7c00
  else if 2 ^ 23 <=? f2h_round m then (e - 111) * 2 ^ 10
  else (e - 112) * 2 ^ 10 + f2h_round m / 2 ^ 13.

Lemma f2h_round_range m : 0 <= m < 2 ^ 23 -> 0 <= f2h_round m < 2 ^ 23 + 2 ^ 13.
Proof. intros. unfold f2h_round. destruct (Z.testbit m 12); lia. Qed.

Lemma land_bit12 m : Z.land m 4096 = if Z.testbit m 12 then 2 ^ 12 else 0.
Proof. change 4096 with (2 ^ 12). apply land_bit. lia. Qed.
Lemma land_bit23 m : 0 <= m < 2 ^ 24 -> Z.land m 8388608 = if 2 ^ 23 <=? m then 2 ^ 23 else 0.
Proof. intros. change 8388608 with (2 ^ 23). rewrite land_bit by lia. rewrite testbit_high by (cbn [Z.add]; lia). reflexivity. Qed.
Lemma lor_bit23 m : 0 <= m < 2 ^ 24 -> Z.lor m 8388608 = if m <? 2 ^ 23 then m + 2 ^ 23 else m.
Proof.
  intros. destruct (m <? 2 ^ 23) eqn:E.
  - change 8388608 with (1 * 2 ^ 23). rewrite lor_add' by lia. lia.
  - replace m with (1 * 2 ^ 23 + (m - 2 ^ 23)) at 1 by lia. rewrite <- lor_add by lia. rewrite Z.lor_comm. change 8388608 with (1 * 2 ^ 23).
    rewrite Z.lor_assoc, Z.lor_diag. rewrite lor_add by lia. lia.
Qed.

Lemma floatToHalf_eq J s e m D : ffields s e m ->
  shr32 J (f2h_hidden m) (w32 (113 - e)) = Ok D -> 0 <= D < 2 ^ 32 ->
  floatToHalf J (fpack s e m) = Ok (w16 (Z.lor (s * 2 ^ 15) (f2h_em D e m))).
Proof.
  intros F HD RD. pose proof F as (Fs & Fe & Fm). un floatToHalf.
  pose proof (f2h_round_range m Fm) as Rr.
  st (s * 2 ^ 31). { rewrite f_land_s by auto. wid. reflexivity. }
  st (e * 2 ^ 23). { rewrite f_land_e by auto. wid. reflexivity. }
  st (s * 2 ^ 15). { sh. replace (s * 2 ^ 31) with (s * 2 ^ 15 * 2 ^ 16) by lia. rewrite Z.div_mul by lia. wid; lia. }
  st m. { rewrite f_land_m by auto. wid. reflexivity. }
  st e. { sh. rewrite Z.div_mul by lia. wid; lia. }
  st (w32 (e - 112)). { reflexivity. }
  st (e * 2 ^ 23 + m / 2 ^ 22 * 2 ^ 22).
  { rewrite f_land_q by auto. assert (0 <= m / 2 ^ 22 < 2) by (split; [apply Z.div_pos; lia|apply Z.div_lt_upper_bound; lia]). wid; lia. }
  st (if Z.testbit m 12 then 2 ^ 12 else 0). { rewrite land_bit12. destruct (Z.testbit m 12); reflexivity. }
  st (if Z.testbit m 12 then 2 ^ 13 else 0). { destruct (Z.testbit m 12); reflexivity. }
  st (f2h_round m). { change (m + (if Z.testbit m 12 then 2 ^ 13 else 0)) with (f2h_round m). wid; lia. }
  st (w32 (113 - e)). { unfold w32. rewrite Zminus_mod_idemp_r. f_equal. lia. }
  st (f2h_hidden m). { rewrite lor_bit23 by lia. fold (f2h_hidden m). apply w32_id. unfold f2h_hidden. destruct (f2h_round m <? 2 ^ 23) eqn:E; lia. }
  sd D. { exact HD. }
  assert (RD13 : 0 <= D / 2 ^ 13 < 2 ^ 19) by (split; [apply Z.div_pos; lia|apply Z.div_lt_upper_bound; lia]).
  st (D / 2 ^ 13). { sh. wid; lia. }
  st (if 2 ^ 23 <=? f2h_round m then 2 ^ 23 else 0). { rewrite land_bit23 by lia. destruct (2 ^ 23 <=? f2h_round m); reflexivity. }
  assert (Rm : 0 <= m / 2 ^ 13 < 2 ^ 10) by (split; [apply Z.div_pos; lia|apply Z.div_lt_upper_bound; lia]).
  st (m / 2 ^ 13). { sh. wid; lia. }
  st (31 * 2 ^ 10 + m / 2 ^ 13). { change 31744 with (31 * 2 ^ 10). rewrite lor_add by lia. wid; lia. }
  st (w32 (e - 111)). { unfold w32. rewrite Zplus_mod_idemp_l. f_equal. lia. }
  sp (fun x => 0 <= x < 2 ^ 32 /\ (113 <= e -> x = (e - 111) * 2 ^ 10)) Hov.
  { split; [apply w32_range|]. intros. sh. rewrite (w32_id (e - 111)) by lia. wid; lia. }
  sp (fun x => 0 <= x < 2 ^ 32 /\ (113 <= e -> x = (e - 112) * 2 ^ 10)) Hno.
  { split; [apply w32_range|]. intros. sh. rewrite (w32_id (e - 112)) by lia. wid; lia. }
  assert (Rr13 : 0 <= f2h_round m / 2 ^ 13 <= 2 ^ 10) by (split; [apply Z.div_pos; lia|apply Z.lt_succ_r; apply Z.div_lt_upper_bound; lia]).
  st (f2h_round m / 2 ^ 13). { sh. wid; lia. }
  sp (fun x => 0 <= x < 2 ^ 32 /\ (113 <= e -> f2h_round m < 2 ^ 23 -> x = (e - 112) * 2 ^ 10 + f2h_round m / 2 ^ 13)) Hen.
  { split; [apply w32_range|]. intros He Hr. destruct Hno as [_ Hno]. rewrite Hno by auto.
    assert (f2h_round m / 2 ^ 13 < 2 ^ 10) by (apply Z.div_lt_upper_bound; lia). rewrite lor_add by lia. wid; lia. }
  sp (fun x => msb32 x (113 <=? e)) T1. { eapply msb32_if; [apply msb32_small; lia|lia]. }
  sp (fun x => msb32 x false) T2.
  { eapply msb32_if. { replace (w32 (143 - w32 (e - 112))) with (w32 (255 - e)). { apply msb32_small; lia. } unfold w32. rewrite Zminus_mod_idemp_r. f_equal; lia. } lia. }
  sp (fun x => msb32 x (e <=? 112)) T3. { eapply msb32_if; [apply msb32_lnot; eauto|]. lia. }
  sp (fun x => msb32 x (m =? 0)) T4. { eapply msb32_if; [apply msb32_small; lia|lia]. }
  sp (fun x => msb32 x (m / 2 ^ 13 =? 0)) T5. { eapply msb32_if; [apply msb32_small; lia|lia]. }
  sp (fun x => msb32 x false) T6. { eapply msb32_if; [apply msb32_land; eauto|]. reflexivity. }
  sp (fun x => msb32 x false) T7. { eapply msb32_if; [apply msb32_land; eauto|]. reflexivity. }
  sp (fun x => msb32 x (144 <=? e)) T8.
  { eapply msb32_if. { replace (w32 (31 - w32 (e - 112))) with (w32 (143 - e)). { apply msb32_small; lia. } unfold w32. rewrite Zminus_mod_idemp_r. f_equal; lia. } lia. }
  sp (fun x => msb32 x (144 <=? e)) T9. { eapply msb32_if; [apply msb32_lor; eauto|]. lia. }
  assert (Rq : 0 <= m / 2 ^ 22 < 2) by (split; [apply Z.div_pos; lia|apply Z.div_lt_upper_bound; lia]).
  sp (fun x => msb32 x (negb ((e =? 255) && (m / 2 ^ 22 =? 1)))) T10. { eapply msb32_if; [apply msb32_small; lia|lia]. }
  sp (fun x => msb32 x (2 ^ 23 <=? f2h_round m)) T11. { eapply msb32_if; [apply msb32_small; destruct (2 ^ 23 <=? f2h_round m); lia|]. destruct (2 ^ 23 <=? f2h_round m); reflexivity. }
  sp (fun x => msb32 x ((e =? 255) && (m / 2 ^ 22 =? 1))) T12. { eapply msb32_if; [apply msb32_lnot; eauto|]. rewrite negb_involutive. reflexivity. }
  sp (fun x => 0 <= x < 2 ^ 32 /\ (113 <= e -> x = if 2 ^ 23 <=? f2h_round m then (e - 111) * 2 ^ 10 else (e - 112) * 2 ^ 10 + f2h_round m / 2 ^ 13)) Hr.
  { rewrite (sels32_eq _ _ _ _ T11) by tauto. destruct (2 ^ 23 <=? f2h_round m) eqn:E; (split; [tauto|]; intros; first [apply Hov; lia|apply Hen; lia]). }
  st h_em_overflow_result. { rewrite (sels32_eq _ _ _ _ T2) by (tauto || lia). reflexivity. }
  st h_em_overflow_result. { rewrite (sels32_eq _ _ _ _ T7) by (tauto || lia). reflexivity. }
  st (if 144 <=? e then 31744 else h_em_overflow_result). { apply sels32_eq; tauto || lia. }
  st (if e <=? 112 then D / 2 ^ 13 else if 144 <=? e then 31744 else h_em_overflow_result).
  { apply sels32_eq; auto; [lia|]. destruct (144 <=? e); [lia|tauto]. }
  st (f2h_em D e m).
  { rewrite (sels32_eq _ _ _ _ T12); [|lia|destruct (e <=? 112); [lia|destruct (144 <=? e); [lia|tauto]]].
    unfold f2h_em. replace (m / 2 ^ 22 =? 1) with (2 ^ 22 <=? m).
    2:{ pose proof (Z.div_mod m (2 ^ 22) ltac:(lia)). pose proof (Z.mod_pos_bound m (2 ^ 22) ltac:(lia)). lia. }
    destruct ((e =? 255) && (2 ^ 22 <=? m)); auto. destruct (e <=? 112) eqn:E1; auto. destruct (144 <=? e) eqn:E2; auto. apply Hr. lia. }
  st (w32 (Z.lor (s * 2 ^ 15) (f2h_em D e m))). { reflexivity. }
  f_equal. unfold w16, w32. rewrite <- Znumtheory.Zmod_div_mod; [reflexivity|lia|lia|]. exists (2 ^ 16). reflexivity.
Qed.
