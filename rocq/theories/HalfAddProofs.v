(** halfAdd: the bit-level code computes the rounded sum. *)
From Verif Require Import Base BaseProofs HalfModel HalfSpec HalfBits HalfConvProofs HalfProofs.
From Coq Require Import ZifyNat ZifyN ZifyBool.
Ltac Zify.zify_post_hook ::= idtac.
Local Open Scope Z_scope.

Lemma msb16_if (c b : bool) x : msb16 x b -> c = b -> msb16 x c.
Proof. intros ? ->; auto. Qed.
Lemma shl16_in J a s : 0 <= s < 32 -> shl16 J a s = Ok (w16 (a * 2 ^ s)).
Proof. intros. unfold shl16. replace (s <? 32) with true by lia. cbn [omap bind]. rewrite Z.shiftl_mul_pow2 by lia. reflexivity. Qed.
Lemma shr16_in J a s : 0 <= s < 32 -> 0 <= a < 2 ^ 16 -> shr16 J a s = Ok (a / 2 ^ s).
Proof.
  intros. unfold shr16. replace (s <? 32) with true by lia. cbn [omap bind]. rewrite Z.shiftr_div_pow2 by lia. rewrite w16_id; auto.
  assert (1 <= 2 ^ s). { change 1 with (2 ^ 0). apply Z.pow_le_mono_r; lia. }
  split; [apply Z.div_pos; lia|apply Z.div_lt_upper_bound; nia].
Qed.
Lemma shl16_any j a s : exists D, shl16 (Some j) a s = Ok D /\ 0 <= D < 2 ^ 16 /\ (0 <= s < 32 -> D = w16 (a * 2 ^ s)).
Proof.
  unfold shl16. destruct (s <? 32) eqn:E; cbn [omap bind bad_shift]; eexists; (split; [reflexivity|]; split; [apply w16_range|]); intros.
  - rewrite Z.shiftl_mul_pow2 by lia. reflexivity.
  - lia.
Qed.

(** ** The computation, without bit tricks *)
Definition signif (e m : Z) : Z := (if e =? 0 then 0 else 2 ^ 10) + m.
Definition jam (b d : Z) : Z := if b mod 2 ^ d =? 0 then b / 2 ^ d else Z.lor (b / 2 ^ d) 1.
(* c and its exponent before rounding *)
Definition add_raw (same : bool) (ea A B : Z) : Z * Z :=
  if same then (A + B, ea)
  else let c0 := Z.abs (A - B) in
       if ea =? 0 then (c0, 0)
       else let n := (if c0 =? 0 then 16 else 15 - Z.log2 c0) - 1 in
            if ea <? n then (c0 * 2 ^ (ea - 1), 0) else (c0 * 2 ^ n, ea - n).
Definition add_round (ea c e : Z) : Z * Z :=
  let c1 := if 2 ^ 14 <=? c then c / 2 else c in
  let e1 := if 2 ^ 14 <=? c then e + 1 else e in
  let e2 := if (ea =? 0) && (2 ^ 13 <=? c1) then e1 + 1 else e1 in
  let c2 := c1 + c1 mod 8 in
  let e3 := if 2 ^ 14 <=? c2 then e2 + 1 else e2 in
  (e3, c2 / 8 mod 2 ^ 10).

Lemma jam_range b d : 0 <= b < 2 ^ 14 -> 0 <= d -> 0 <= jam b d < 2 ^ 14.
Proof.
  intros Hb Hd. pose proof (pow_pos d Hd).
  assert (R : 0 <= b / 2 ^ d < 2 ^ 14) by (split; [apply Z.div_pos; lia|apply Z.div_lt_upper_bound; nia]).
  unfold jam. destruct (b mod 2 ^ d =? 0); auto.
  assert (0 <= Z.lor (b / 2 ^ d) 1) by (apply Z.lor_nonneg; lia). split; [auto|].
  destruct (Z.eq_dec (b / 2 ^ d) 0) as [E|E]. { rewrite E. cbn. lia. }
  apply Z.log2_lt_pow2. { assert (Z.lor (b / 2 ^ d) 1 <> 0); [|lia]. intros X. apply Z.lor_eq_0_iff in X. lia. }
  rewrite Z.log2_lor by lia. change (Z.log2 1) with 0. rewrite Z.max_l by apply Z.log2_nonneg. apply Z.log2_lt_pow2; lia.
Qed.

Lemma signif_range e m : 0 <= m < 1024 -> 0 <= signif e m < 2048.
Proof. intros. unfold signif. destruct (e =? 0); lia. Qed.

Lemma add_raw_range same ea A B : 0 <= ea <= 30 -> 0 <= A < 2 ^ 14 -> 0 <= B < 2 ^ 14 ->
  let '(c, e) := add_raw same ea A B in 0 <= c < 2 ^ 15 /\ 0 <= e <= ea.
Proof.
  intros He HA HB. unfold add_raw. destruct same. { lia. }
  cbv zeta. set (c0 := Z.abs (A - B)). assert (R : 0 <= c0 < 2 ^ 14) by (unfold c0; lia). clearbody c0.
  destruct (ea =? 0) eqn:E. { lia. }
  destruct (c0 =? 0) eqn:Ez.
  - replace c0 with 0 by lia. destruct (ea <? 16 - 1) eqn:El; rewrite Z.mul_0_l; lia.
  - pose proof (Z.log2_spec c0 ltac:(lia)) as [L1 L2]. pose proof (Z.log2_nonneg c0). set (k := Z.log2 c0) in *.
    assert (k < 14) by (apply Z.log2_lt_pow2; lia).
    assert (P : forall i, 0 <= i <= 15 - k - 1 -> 0 <= c0 * 2 ^ i < 2 ^ 15).
    { intros i Hi. pose proof (pow_pos i ltac:(lia)). split; [nia|].
      apply Z.lt_le_trans with (2 ^ Z.succ k * 2 ^ i). { apply Z.mul_lt_mono_pos_r; lia. }
      rewrite <- Z.pow_add_r by lia. apply Z.pow_le_mono_r; lia. }
    destruct (ea <? 15 - k - 1) eqn:El.
    + split; [apply P; lia|lia].
    + split; [apply P; lia|lia].
Qed.

Lemma land_bit14 c : 0 <= c < 2 ^ 15 -> Z.land c 16384 = if 2 ^ 14 <=? c then 2 ^ 14 else 0.
Proof. intros. change 16384 with (2 ^ 14). rewrite land_bit by lia. rewrite testbit_high by (cbn [Z.add]; lia). reflexivity. Qed.
Lemma land_bit13 c : 0 <= c < 2 ^ 14 -> Z.land c 8192 = if 2 ^ 13 <=? c then 2 ^ 13 else 0.
Proof. intros. change 8192 with (2 ^ 13). rewrite land_bit by lia. rewrite testbit_high by (cbn [Z.add]; lia). reflexivity. Qed.

Definition picks (sx ex mx sy ey my sa ea ma sb eb mb : Z) : Prop :=
  (ex < ey /\ (sa, ea, ma) = (sy, ey, my) /\ (sb, eb, mb) = (sx, ex, mx)) \/
  (ey <= ex /\ (sa, ea, ma) = (sx, ex, mx) /\ (sb, eb, mb) = (sy, ey, my)).

Lemma halfAdd_eq j sx ex mx sy ey my sa ea ma sb eb mb :
  hfields sx ex mx -> hfields sy ey my -> picks sx ex mx sy ey my sa ea ma sb eb mb -> ea <= 30 ->
  let A := 8 * signif ea ma in
  let B := jam (8 * signif eb mb) (Z.max ea 1 - Z.max eb 1) in
  let '(c, e) := add_raw (sa =? sb) ea A B in
  let '(e3, m3) := add_round ea c e in
  let s3 := if sa =? sb then sa else if A >? B then sa else sb in
  halfAdd (Some j) (hpack sx ex mx) (hpack sy ey my) =
    Ok (if negb (sa =? sb) && (c =? 0) then 0 else w16 (Z.lor (s3 * 2 ^ 15) (w16 (Z.lor (w16 (e3 * 2 ^ 10)) m3)))).
Proof.
  intros Fx Fy Pk Hea A B.
  assert (Fa : hfields sa ea ma). { destruct Pk as [(_ & E1 & _)|(_ & E1 & _)]; inversion E1; subst; auto. }
  assert (Fb : hfields sb eb mb). { destruct Pk as [(_ & _ & E1)|(_ & _ & E1)]; inversion E1; subst; auto. }
  assert (Heb : eb <= ea). { destruct Pk as [(L & E1 & E2)|(L & E1 & E2)]; inversion E1; inversion E2; subst; lia. }
  pose proof Fa as (Fas & Fae & Fam). pose proof Fb as (Fbs & Fbe & Fbm).
  pose proof Fx as (Fxs & Fxe & Fxm). pose proof Fy as (Fys & Fye & Fym).
  destruct (hpack_fields _ _ _ Fx) as (Bx & _), (hpack_fields _ _ _ Fy) as (By & _). unfold bits16 in Bx, By.
  assert (RA : 0 <= A < 2 ^ 14) by (unfold A; pose proof (signif_range ea ma Fam); lia).
  set (d := Z.max ea 1 - Z.max eb 1) in *.
  assert (Hd : 0 <= d <= 29) by (unfold d; lia).
  assert (RB : 0 <= B < 2 ^ 14) by (apply jam_range; [pose proof (signif_range eb mb Fbm); lia|lia]).
  pose proof (add_raw_range (sa =? sb) ea A B ltac:(lia) RA RB) as Rraw.
  destruct (add_raw (sa =? sb) ea A B) as [c e] eqn:Eraw. destruct Rraw as [Rc Re].
  destruct (add_round ea c e) as [e3 m3] eqn:Ernd.
  cbv zeta. un halfAdd.
  st 8. { reflexivity. }
  st 7. { reflexivity. }
  st (ex * 2 ^ 10). { rewrite h_land_e by auto. wid; lia. }
  st (ey * 2 ^ 10). { rewrite h_land_e by auto. wid; lia. }
  sp (fun t => msb16 t (ex <? ey)) T1. { eapply msb16_if; [apply msb16_small; lia|lia]. }
  st (hpack sa ea ma).
  { rewrite (sels16_eq _ _ _ _ T1) by auto. destruct Pk as [(L & E1 & E2)|(L & E1 & E2)]; inversion E1; subst; [replace (ex <? ey) with true by lia|replace (ex <? ey) with false by lia]; reflexivity. }
  st (sa * 2 ^ 15). { rewrite h_land_s by auto. wid; lia. }
  st (ea * 2 ^ 10). { rewrite h_land_e by auto. wid; lia. }
  st ma. { rewrite h_land_m by auto. wid; lia. }
  st (ea * 2 ^ 10 + ma). { rewrite lor_add by lia. wid; lia. }
  st (hpack sb eb mb).
  { rewrite (sels16_eq _ _ _ _ T1) by auto. destruct Pk as [(L & E1 & E2)|(L & E1 & E2)]; inversion E2; subst; [replace (ex <? ey) with true by lia|replace (ex <? ey) with false by lia]; reflexivity. }
  st (sb * 2 ^ 15). { rewrite h_land_s by auto. wid; lia. }
  st (eb * 2 ^ 10). { rewrite h_land_e by auto. wid; lia. }
  st mb. { rewrite h_land_m by auto. wid; lia. }
  st (eb * 2 ^ 10 + mb). { rewrite lor_add by lia. wid; lia. }
  assert (Ms : forall s, 0 <= s < 2 -> msb16 (s * 2 ^ 15) (s =? 1)).
  { intros s Hs. split; [lia|]. rewrite testbit_high by (cbn [Z.add]; lia). lia. }
  sp (fun t => msb16 t (negb (sa =? sb))) Tdiff.
  { eapply msb16_if; [apply msb16_lxor; apply Ms; lia|]. destruct (sa =? sb) eqn:E1, (sa =? 1) eqn:E2, (sb =? 1) eqn:E3; cbn; lia. }
  sp (fun t => msb16 t false) Tainf. { eapply msb16_if; [apply msb16_small; lia|lia]. }
  sp (fun t => msb16 t (31743 - (eb * 2 ^ 10 + mb) <? 0)) Tbinf. { apply msb16_small; lia. }
  sp (fun t => msb16 t (ea =? 0)) Tund. { eapply msb16_if; [apply msb16_small; lia|lia]. }
  st (if ea =? 0 then 2 ^ 16 - 1 else 0). { apply asr15_eq; auto. }
  sp (fun t => msb16 t false) Tboth. { eapply msb16_if; [apply msb16_land; eauto|reflexivity]. }
  sp (fun t => msb16 t false) Tinv. { eapply msb16_if; [apply msb16_land; eauto|reflexivity]. }
  sp (fun t => msb16 t (negb (ea =? 0))) Tan. { eapply msb16_if; [apply msb16_small; lia|lia]. }
  sp (fun t => msb16 t (negb (eb =? 0))) Tbn. { eapply msb16_if; [apply msb16_small; lia|lia]. }
  st (if negb (ea =? 0) then 2 ^ 16 - 1 else 0). { apply asr15_eq; auto. }
  st (if negb (eb =? 0) then 2 ^ 16 - 1 else 0). { apply asr15_eq; auto. }
  st (if ea =? 0 then 0 else 2 ^ 10). { destruct (ea =? 0); reflexivity. }
  st (if eb =? 0 then 0 else 2 ^ 10). { destruct (eb =? 0); reflexivity. }
  st (signif ea ma). { unfold signif. destruct (ea =? 0); [rewrite Z.lor_0_r; wid; lia|]. change (2 ^ 10) with (1 * 2 ^ 10). rewrite lor_add' by lia. wid; lia. }
  st (signif eb mb). { unfold signif. destruct (eb =? 0); [rewrite Z.lor_0_r; wid; lia|]. change (2 ^ 10) with (1 * 2 ^ 10). rewrite lor_add' by lia. wid; lia. }
  pose proof (signif_range ea ma Fam) as Rsa. pose proof (signif_range eb mb Fbm) as Rsb.
  st ((ea - eb) * 2 ^ 10). { wid; lia. }
  sp (fun t => ea <> 0 -> t = ea * 2 ^ 10 - 14) Hun. { intros. wid; lia. }
  st A. { sh. unfold A. wid; lia. }
  st ea. { sh. rewrite Z.div_mul by lia. wid; lia. }
  sp (fun t => 0 <= t < 2 ^ 16 /\ (ea <> 0 -> t = ea - 1)) Hun2.
  { split; [apply w16_range|]. intros N. rewrite (Hun N). sh. rewrite (div_unique_small _ (ea - 1) 1010) by lia. wid; lia. }
  st (ea - eb). { sh. rewrite Z.div_mul by lia. wid; lia. }
  sp (fun t => msb16 t (negb (ea =? 0) && (eb =? 0))) Tmask. { eapply msb16_if; [apply msb16_landn; eauto|]. rewrite negb_involutive. reflexivity. }
  st d.
  { rewrite (sels16_eq _ _ _ _ Tmask) by lia. unfold d. destruct (ea =? 0) eqn:E1, (eb =? 0) eqn:E2; cbn [negb andb]; lia. }
  clear Hun Hun2 Pk.
  st (8 * signif eb mb). { sh. wid; lia. }
  sd (8 * signif eb mb / 2 ^ d). { apply shr16_in; lia. }
  sd (w16 (1 * 2 ^ d)). { apply shl16_in; lia. }
  sp (fun t => Z.land (8 * signif eb mb) t = (8 * signif eb mb) mod 2 ^ d) Hst.
  { destruct (Z.lt_ge_cases d 16) as [L|G].
    - assert (2 ^ d <= 2 ^ 15) by (apply Z.pow_le_mono_r; lia). pose proof (pow_pos d ltac:(lia)).
      rewrite (w16_id (1 * 2 ^ d)) by lia. rewrite w16_id by lia. rewrite Z.mul_1_l. apply land_low. lia.
    - assert (W : w16 (1 * 2 ^ d) = 0). { unfold w16. replace d with (d - 16 + 16) by lia. rewrite Z.pow_add_r, Z.mul_assoc by lia. apply Z.mod_mul. lia. }
      rewrite W. replace (w16 (0 - 1)) with (2 ^ 16 - 1) by reflexivity. rewrite land_low by lia.
      assert (2 ^ 16 <= 2 ^ d) by (apply Z.pow_le_mono_r; lia). rewrite !Z.mod_small by lia. reflexivity. }
  pose proof (pow_pos d ltac:(lia)) as Pd.
  pose proof (Z.mod_pos_bound (8 * signif eb mb) (2 ^ d) Pd) as Rmod.
  assert (Lmod : (8 * signif eb mb) mod 2 ^ d <= 8 * signif eb mb) by (apply Z.mod_le; lia).
  st ((8 * signif eb mb) mod 2 ^ d). { rewrite Hst. wid; lia. }
  sp (fun t => msb16 t (negb ((8 * signif eb mb) mod 2 ^ d =? 0))) Tsti. { eapply msb16_if; [apply msb16_small; lia|lia]. }
  st (if (8 * signif eb mb) mod 2 ^ d =? 0 then 0 else 1).
  { destruct Tsti as [R1 R2]. rewrite testbit_high in R2 by (cbn [Z.add]; lia). sh.
    destruct ((8 * signif eb mb) mod 2 ^ d =? 0) eqn:E1.
    - rewrite Z.div_small by lia. reflexivity.
    - rewrite (div_unique_small _ 1 (is_sticky_set_msb - 2 ^ 15)) by lia. reflexivity. }
  st B.
  { unfold B, jam. fold d. destruct ((8 * signif eb mb) mod 2 ^ d =? 0) eqn:E1.
    - rewrite Z.lor_0_r. apply w16_id. unfold B, jam in RB. rewrite E1 in RB. lia.
    - apply w16_id. unfold B, jam in RB. rewrite E1 in RB. lia. }
  sp (fun t => msb16 t (A >? B)) Tab. { eapply msb16_if; [apply msb16_small; lia|lia]. }
  sp (fun _ : Z => True) X1. { auto. }
  st (A + B). { wid; lia. }
  sp (fun t => 0 <= t < 2 ^ 16 /\ (A > B -> t = A - B)) Hab. { split; [apply w16_range|]. intros. wid; lia. }
  sp (fun t => 0 <= t < 2 ^ 16 /\ (A <= B -> t = B - A)) Hba. { split; [apply w16_range|]. intros. wid; lia. }
  st (Z.abs (A - B)).
  { rewrite (sels16_eq _ _ _ _ Tab) by tauto. destruct (A >? B) eqn:E1; [rewrite (proj2 Hab) by lia|rewrite (proj2 Hba) by lia]; lia. }
  clear Hab Hba. set (c0 := Z.abs (A - B)) in *. assert (Rc0 : 0 <= c0 < 2 ^ 14) by (unfold c0; lia).
  st ((if A >? B then sa else sb) * 2 ^ 15). { rewrite (sels16_eq _ _ _ _ Tab) by lia. destruct (A >? B); reflexivity. }
  st ((if sa =? sb then sa else if A >? B then sa else sb) * 2 ^ 15).
  { rewrite (sels16_eq _ _ _ _ Tdiff); [|destruct (A >? B); lia|lia]. destruct (sa =? sb); reflexivity. }
  set (s3 := if sa =? sb then sa else if A >? B then sa else sb). assert (Rs3 : 0 <= s3 < 2). { unfold s3. destruct (sa =? sb); [lia|]. destruct (A >? B); lia. }
  set (n := (if c0 =? 0 then 16 else 15 - Z.log2 c0) - 1).
  assert (Rn : 0 < n <= 15 /\ (c0 = 0 -> n = 15)).
  { unfold n. destruct (c0 =? 0) eqn:E1; [lia|]. pose proof (Z.log2_nonneg c0). assert (Z.log2 c0 < 14) by (apply Z.log2_lt_pow2; lia). lia. }
  clearbody s3. st (n + 1).
  { unfold n. destruct (c0 =? 0) eqn:E1. { replace c0 with 0 by lia. rewrite cntlz16_zero. lia. }
    pose proof (Z.log2_spec c0 ltac:(lia)). pose proof (Z.log2_nonneg c0). assert (Z.log2 c0 < 14) by (apply Z.log2_lt_pow2; lia).
    rewrite (cntlz16_pos c0 (Z.log2 c0)) by lia. lia. }
  st n. { wid; lia. }
  sp (fun t => msb16 t (ea <? n)) Tdn. { eapply msb16_if; [apply msb16_small; lia|lia]. }
  st (if ea <? n then 2 ^ 16 - 1 else 0). { apply asr15_eq; auto. }
  sp (fun t => msb16 t (negb (ea =? 0))) Tnorm. { eapply msb16_if; [apply msb16_small; lia|lia]. }
  sp (fun t => ea <> 0 -> t = ea - 1) Hsa. { intros. wid; lia. }
  destruct (shl16_any j c0 diff_denorm_sa) as (D1 & ED1 & RD1 & VD1). sd D1. { exact ED1. }
  destruct (shl16_any j c0 n) as (D2 & ED2 & RD2 & VD2). sd D2. { exact ED2. }
  specialize (VD2 ltac:(lia)).
  sp (fun t => 0 <= t < 2 ^ 16 /\ (n <= ea -> t = ea - n)) Hcen. { split; [apply w16_range|]. intros. wid; lia. }
  st (if ea <? n then D1 else D2). { apply sels16_eq; auto. }
  st (if ea <? n then 0 else c_e_diff_norm).
  { destruct (ea <? n). { apply w16_land_nones. } change (Z.lnot 0) with (-1). rewrite Z.land_m1_r. wid; lia. }
  (* the magnitudes after a subtraction *)
  assert (Hdiff : sa <> sb -> c = (if ea =? 0 then c0 else if ea <? n then D1 else D2) /\ e = (if ea =? 0 then 0 else if ea <? n then 0 else c_e_diff_norm)).
  { intros N. unfold add_raw in Eraw. rewrite (proj2 (Z.eqb_neq sa sb) N) in Eraw. fold c0 in Eraw. cbv zeta in Eraw. fold n in Eraw.
    destruct (ea =? 0) eqn:E1. { injection Eraw as <- <-. auto. }
    rewrite VD1 by lia. rewrite VD2. rewrite (Hsa ltac:(lia)).
    destruct (ea <? n) eqn:E2; injection Eraw as <- <-.
    - rewrite w16_id by lia. auto.
    - rewrite w16_id by lia. rewrite (proj2 Hcen) by lia. auto. }
  clear VD1 VD2 ED1 ED2 Hsa. pose proof (proj1 Hcen) as Rcen. clear Hcen. clearbody c0 n. destruct Rn as [Rn _].
  st (if ea =? 0 then c0 else if ea <? n then D1 else D2).
  { rewrite (sels16_eq _ _ _ _ Tnorm); [|destruct (ea <? n); lia|lia]. destruct (ea =? 0); reflexivity. }
  st (if ea =? 0 then 0 else if ea <? n then 0 else c_e_diff_norm).
  { rewrite (sels16_eq _ _ _ _ Tnorm); [|destruct (ea <? n); lia|lia]. destruct (ea =? 0) eqn:E1; cbn [negb]; lia. }
  set (cd := if ea =? 0 then c0 else if ea <? n then D1 else D2) in *. set (ed := if ea =? 0 then 0 else if ea <? n then 0 else c_e_diff_norm) in *.
  assert (Rcd : 0 <= cd < 2 ^ 16). { unfold cd. destruct (ea =? 0); [lia|]. destruct (ea <? n); lia. }
  assert (Red : 0 <= ed < 2 ^ 16). { unfold ed. destruct (ea =? 0); [lia|]. destruct (ea <? n); lia. }
  clearbody cd ed.
  sp (fun t => sa <> sb -> msb16 t (cd =? 0)) Teqz. { intros N. eapply msb16_if; [apply msb16_small; destruct (Hdiff N); lia|lia]. }
  sp (fun t => msb16 t (negb (sa =? sb) && (c =? 0))) Tez.
  { destruct (sa =? sb) eqn:E1.
    - destruct Tdiff as [R1 R2]. split; [apply w16_range|]. rewrite w16_bit, Z.land_spec, R2 by lia. reflexivity.
    - eapply msb16_if; [apply msb16_land; [exact Tdiff|apply Teqz; lia]|]. destruct (Hdiff ltac:(lia)) as [-> _]. reflexivity. }
  st (if negb (sa =? sb) && (c =? 0) then 2 ^ 16 - 1 else 0). { apply asr15_eq; auto. }
  st c.
  { rewrite (sels16_eq _ _ _ _ Tdiff) by lia. destruct (sa =? sb) eqn:E1; cbn [negb]. { unfold add_raw in Eraw. injection Eraw as <- <-. reflexivity. }
    destruct (Hdiff ltac:(lia)) as [-> _]. reflexivity. }
  st e.
  { rewrite (sels16_eq _ _ _ _ Tdiff) by lia. destruct (sa =? sb) eqn:E1; cbn [negb]. { unfold add_raw in Eraw. injection Eraw as <- <-. reflexivity. }
    destruct (Hdiff ltac:(lia)) as [_ ->]. reflexivity. }
  unfold add_round in Ernd.
  st (if 2 ^ 14 <=? c then 2 ^ 14 else 0). { rewrite land_bit14 by lia. destruct (2 ^ 14 <=? c); reflexivity. }
  sp (fun t => msb16 t (2 ^ 14 <=? c)) Tcar. { eapply msb16_if; [apply msb16_small; destruct (2 ^ 14 <=? c); lia|destruct (2 ^ 14 <=? c); reflexivity]. }
  st (if 2 ^ 14 <=? c then 1 else 0). { rewrite land_bit14 by lia. destruct (2 ^ 14 <=? c); reflexivity. }
  assert (Rc2 : 0 <= c / 2 < 2 ^ 14) by (split; [apply Z.div_pos; lia|apply Z.div_lt_upper_bound; lia]).
  st (c / 2). { sh. change (2 ^ 1) with 2. wid; lia. }
  st (if 2 ^ 14 <=? c then c / 2 else c). { apply sels16_eq; auto; lia. }
  set (c1 := if 2 ^ 14 <=? c then c / 2 else c) in *. assert (Rc1 : 0 <= c1 < 2 ^ 14) by (unfold c1; destruct (2 ^ 14 <=? c) eqn:E1; lia).
  st (if 2 ^ 14 <=? c then e + 1 else e). { destruct (2 ^ 14 <=? c); wid; lia. }
  set (e1 := if 2 ^ 14 <=? c then e + 1 else e) in *. assert (Re1 : 0 <= e1 <= 31) by (unfold e1; destruct (2 ^ 14 <=? c) eqn:E1; lia).
  st (if 2 ^ 13 <=? c1 then 2 ^ 13 else 0). { rewrite land_bit13 by lia. destruct (2 ^ 13 <=? c1); reflexivity. }
  st (if 2 ^ 13 <=? c1 then 1 else 0). { destruct (2 ^ 13 <=? c1); reflexivity. }
  st (if (ea =? 0) && (2 ^ 13 <=? c1) then 1 else 0). { destruct (ea =? 0), (2 ^ 13 <=? c1); reflexivity. }
  st (if (ea =? 0) && (2 ^ 13 <=? c1) then e1 + 1 else e1). { destruct ((ea =? 0) && (2 ^ 13 <=? c1)); wid; lia. }
  set (e2 := if (ea =? 0) && (2 ^ 13 <=? c1) then e1 + 1 else e1) in *. assert (Re2 : 0 <= e2 <= 32) by (unfold e2; destruct ((ea =? 0) && (2 ^ 13 <=? c1)); lia).
  pose proof (Z.mod_pos_bound c1 8 ltac:(lia)) as Rm8.
  st (c1 mod 8). { change 7 with (2 ^ 3 - 1). rewrite land_low by lia. change (2 ^ 3) with 8. wid; lia. }
  st (c1 + c1 mod 8). { wid; lia. }
  set (c2 := c1 + c1 mod 8) in *. assert (Rc2' : 0 <= c2 < 2 ^ 14 + 8) by (unfold c2; lia).
  st (if 2 ^ 14 <=? c2 then 1 else 0). { rewrite land_bit14 by lia. destruct (2 ^ 14 <=? c2); reflexivity. }
  st (if 2 ^ 14 <=? c2 then e2 + 1 else e2). { destruct (2 ^ 14 <=? c2); wid; lia. }
  pose proof (Z.mod_pos_bound (c2 / 8) (2 ^ 10) ltac:(lia)) as Rm10.
  pose proof (f_equal fst Ernd) as E3. pose proof (f_equal snd Ernd) as M3. cbn [fst snd] in E3, M3. clear Ernd.
  st m3. { sh. change 1023 with (2 ^ 10 - 1). rewrite land_low by lia. change (2 ^ 3) with 8. rewrite M3. wid; lia. }
  st (w16 (e3 * 2 ^ 10)). { sh. rewrite E3. reflexivity. }
  st (w16 (Z.lor (w16 (e3 * 2 ^ 10)) m3)). { reflexivity. }
  st (w16 (Z.lor (s3 * 2 ^ 15) (w16 (Z.lor (w16 (e3 * 2 ^ 10)) m3)))). { reflexivity. }
  set (r := w16 (Z.lor (s3 * 2 ^ 15) _)). assert (Rr : 0 <= r < 2 ^ 16) by apply w16_range.
  sp (fun t => t = r) Hr. { destruct Tainf as [R1 R2]. unfold sels16. rewrite (asr15_eq _ false) by (split; auto). rewrite Z.land_0_r. change (w16 0) with 0. rewrite Z.lor_0_l. change (Z.lnot 0) with (-1). rewrite Z.land_m1_r, !w16_id by (auto using w16_range). reflexivity. }
  subst c_inf_result.
  st (if negb (sa =? sb) && (c =? 0) then 0 else r).
  { destruct (negb (sa =? sb) && (c =? 0)). { apply w16_land_nones. } change (Z.lnot 0) with (-1). rewrite Z.land_m1_r. apply w16_id; auto. }
  st (if negb (sa =? sb) && (c =? 0) then 0 else r). { rewrite (sels16_eq _ _ _ _ Tinv); [reflexivity|lia|destruct (negb (sa =? sb) && (c =? 0)); lia]. }
  reflexivity.
Qed.

