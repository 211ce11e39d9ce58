(** Proofs about [half] operations that go through float. *)
From Coq Require Import ZArith Znumtheory Zpow_facts Reals Lra Psatz.
From Flocq Require Import Core Double_rounding IEEE754.BinarySingleNaN IEEE754.Binary IEEE754.Bits.
From Verif Require Import Base HalfModel HalfSpec HalfConvProofs HalfProofs HalfSumProofs HdivModel HdivSpec.
From Coq Require Import ZifyNat ZifyN ZifyBool.
Ltac Zify.zify_post_hook ::= idtac.
Local Open Scope Z_scope.
Notation fmt_half := (FLT_exp (-24) 11).
Notation fmt_float := (FLT_exp (-149) 24).
#[local] Instance prec11 : Prec_gt_0 11 := eq_refl.
#[local] Instance prec24 : Prec_gt_0 24 := eq_refl.
#[local] Instance prec53 : Prec_gt_0 53 := eq_refl.

Lemma bpow_pow2 n : (0 <= n)%Z -> bpow radix2 n = IZR (2 ^ n).
Proof. intros H. now rewrite <- IZR_Zpower. Qed.
Lemma half_real_bpow h : half_real h = (IZR (half_units h) * bpow radix2 (-24))%R.
Proof. unfold half_real, Rdiv. f_equal. change (-24)%Z with (- (24))%Z. rewrite bpow_opp. f_equal. rewrite bpow_pow2 by lia. cbn. lra. Qed.
Lemma float_real_bpow f : float_real f = (IZR (float_units f) * bpow radix2 (-149))%R.
Proof.
  unfold float_real, Rdiv. f_equal. change (-149)%Z with (- (149))%Z. rewrite bpow_opp. f_equal. rewrite bpow_pow2 by lia.
  exact (pow_IZR 2 149).
Qed.

(** ** Halfs as numbers of the format *)
Lemma half_in_format h : bits16 h -> half_finite h -> generic_format radix2 fmt_half (half_real h).
Proof.
  intros B F. apply generic_format_FLT. destruct (half_shape h B F) as (M & q & HM & Hq & E).
  pose proof (half_units_abs h B F) as Ha. rewrite E in Ha.
  apply (FLT_spec _ _ _ _ (Float radix2 (if hsign h =? 0 then M else - M) (q - 24))); cbn [Fnum Fexp].
  - rewrite half_real_bpow. unfold F2R. cbn [Fnum Fexp].
    replace (bpow radix2 (q - 24)) with (IZR (2 ^ q) * bpow radix2 (-24))%R by (rewrite <- bpow_pow2 by lia; rewrite <- bpow_plus; f_equal; lia).
    rewrite <- Rmult_assoc, <- mult_IZR. do 2 f_equal. unfold half_units. rewrite E. destruct (hsign h =? 0); lia.
  - change (Zpower radix2 11) with 2048. change (2 ^ 11) with 2048 in HM. destruct (hsign h =? 0); lia.
  - lia.
Qed.
Lemma half_made s e m : 0 <= s <= 1 -> 0 <= e < 31 -> 0 <= m < 2 ^ 10 -> exists h, bits16 h /\ half_finite h /\ hsign h = s /\ hexp h = e /\ hfrac h = m.
Proof.
  intros Hs He Hm. exists (s * 2 ^ 15 + e * 2 ^ 10 + m). unfold bits16, half_finite, hsign, hexp, hfrac. change (2 ^ 16) with 65536. change (2 ^ 15) with 32768. change (2 ^ 10) with 1024 in *. change (2 ^ 5) with 32.
  assert (E1 : (s * 32768 + e * 1024 + m) / 32768 = s) by (symmetry; apply (Z.div_unique _ _ s (e * 1024 + m)); lia).
  assert (E2 : (s * 32768 + e * 1024 + m) / 1024 = s * 32 + e) by (symmetry; apply (Z.div_unique _ _ (s * 32 + e) m); lia).
  assert (E3 : (s * 32 + e) mod 32 = e) by (symmetry; apply (Z.mod_unique _ _ s); lia).
  assert (E4 : (s * 32768 + e * 1024 + m) mod 1024 = m) by (symmetry; apply (Z.mod_unique _ _ (s * 32 + e)); lia).
  rewrite E1, E2, E3, E4. repeat split; lia.
Qed.
Lemma half_exists M q : Z.abs M < 2 ^ 11 -> 0 <= q <= 29 -> exists h, bits16 h /\ half_finite h /\ half_units h = M * 2 ^ q.
Proof.
  intros HM Hq. change (2 ^ 11) with 2048 in HM.
  assert (P : forall N, 0 <= N < 2048 -> forall s, 0 <= s <= 1 -> exists h, bits16 h /\ half_finite h /\ hsign h = s /\ half_magnitude h = N * 2 ^ q).
  { intros N HN s Hs. revert N HN. apply (natlike_ind (fun q => q <= 29 -> forall N, 0 <= N < 2048 -> exists h, bits16 h /\ half_finite h /\ hsign h = s /\ half_magnitude h = N * 2 ^ q)) with (x := q); try lia.
    - intros _ N HN. destruct (Z_lt_ge_dec N 1024) as [L|G].
      + destruct (half_made s 0 N) as (h & B & F & E1 & E2 & E3); try (change (2 ^ 10) with 1024; lia). exists h. repeat split; auto; try apply B. unfold half_magnitude. rewrite E2, E3. cbn. lia.
      + destruct (half_made s 1 (N - 1024)) as (h & B & F & E1 & E2 & E3); try (change (2 ^ 10) with 1024; lia). exists h. repeat split; auto; try apply B. unfold half_magnitude. rewrite E2, E3. change (2 ^ (1 - 1)) with 1. change (2 ^ 10) with 1024. change (1 =? 0) with false. cbv iota. change (2 ^ 0) with 1. lia.
    - intros k Hk IH Hk' N HN. destruct (Z_lt_ge_dec N 1024) as [L|G].
      + destruct (IH ltac:(lia) (2 * N) ltac:(lia)) as (h & H1 & H2 & H3 & H4). exists h. repeat split; auto; try apply H1. rewrite H4, Z.pow_succ_r by lia. ring.
      + destruct (half_made s (Z.succ k + 1) (N - 1024)) as (h & B & F & E1 & E2 & E3); try (change (2 ^ 10) with 1024; lia). exists h. repeat split; auto; try apply B.
        unfold half_magnitude. rewrite E2, E3. replace (Z.succ k + 1 =? 0) with false by lia. replace (Z.succ k + 1 - 1) with (Z.succ k) by lia. change (2 ^ 10) with 1024. f_equal. lia. }
  destruct (Z_le_gt_dec 0 M) as [L|G].
  - destruct (P M ltac:(lia) 0 ltac:(lia)) as (h & B & F & S & E). exists h. repeat split; auto; try apply B. unfold half_units. rewrite S. exact E.
  - destruct (P (- M) ltac:(lia) 1 ltac:(lia)) as (h & B & F & S & E). exists h. repeat split; auto; try apply B. unfold half_units. rewrite S, E. cbn [Z.eqb]. lia.
Qed.
Lemma format_is_half x : generic_format radix2 fmt_half x -> (Rabs x < bpow radix2 16)%R -> exists h, bits16 h /\ half_finite h /\ half_real h = x.
Proof.
  intros G Hx. apply FLT_format_generic in G; [|reflexivity]. destruct G as [[m e] E Hm He]. cbn [Fnum Fexp] in *. change (Zpower radix2 11) with (2 ^ 11) in Hm.
  assert (H : exists M q, Z.abs M < 2 ^ 11 /\ 0 <= q <= 29 /\ x = (IZR M * bpow radix2 (q - 24))%R).
  { destruct (Z_le_gt_dec e 5) as [L|Gt].
    - exists m, (e + 24). split; [auto|]. split; [lia|]. rewrite E. unfold F2R. cbn [Fnum Fexp]. do 2 f_equal. lia.
    - assert (X : x = (IZR (m * 2 ^ (e - 5)) * bpow radix2 5)%R).
      { rewrite E. unfold F2R. cbn [Fnum Fexp]. rewrite mult_IZR, <- bpow_pow2 by lia. rewrite Rmult_assoc, <- bpow_plus. do 2 f_equal. lia. }
      exists (m * 2 ^ (e - 5)), 29. split; [|split; [lia|]].
      + apply lt_IZR. rewrite abs_IZR. apply (Rmult_lt_reg_r (bpow radix2 5)); [apply bpow_gt_0|].
        rewrite <- bpow_pow2 by lia. rewrite <- bpow_plus. rewrite <- (Rabs_pos_eq (bpow radix2 5)) at 1 by apply bpow_ge_0. rewrite <- Rabs_mult, <- X. exact Hx.
      + rewrite X. do 2 f_equal. }
  destruct H as (M & q & HM & Hq & ->). destruct (half_exists M q HM Hq) as (h & B & F & U). exists h. repeat split; auto; try apply B.
  rewrite half_real_bpow, U, mult_IZR, <- bpow_pow2 by lia. rewrite Rmult_assoc, <- bpow_plus. do 2 f_equal; lia.
Qed.
(** below the overflow threshold rounding stays inside the halfs *)
Lemma rounded_small pick x : (Rabs x < 65520)%R -> (Rabs (half_rounded pick x) < bpow radix2 16)%R.
Proof.
  intros Hx. unfold half_rounded. destruct (round_N_pt radix2 fmt_half pick x) as (_ & N).
  assert (G1 : generic_format radix2 fmt_half 65504).
  { replace 65504%R with (F2R (Float radix2 2047 5)) by (unfold F2R; cbn; lra). apply generic_format_FLT. apply (FLT_spec _ _ _ _ (Float radix2 2047 5)); cbn; [reflexivity|lia|lia]. }
  change (bpow radix2 16) with 65536%R.
  assert (V : Valid_exp fmt_half) by (apply FLT_exp_valid; reflexivity).
  destruct (Rle_or_lt 0 x) as [P|P].
  - rewrite Rabs_pos_eq in Hx by auto. apply Rabs_lt. split.
    + apply Rlt_le_trans with 0%R; [lra|]. apply round_ge_generic; auto; [apply valid_rnd_N|apply generic_format_0].
    + destruct (Rle_or_lt 65536 (round radix2 fmt_half (Znearest pick) x)) as [C|C]; [|exact C].
      specialize (N 65504%R G1). rewrite (Rabs_pos_eq (_ - x)) in N by lra. apply Rabs_ge_inv in N. lra.
  - rewrite Rabs_left in Hx by auto. apply Rabs_lt. split.
    + destruct (Rle_or_lt (round radix2 fmt_half (Znearest pick) x) (-65536)) as [C|C]; [|exact C].
      specialize (N (-65504)%R (generic_format_opp _ _ _ G1)). rewrite (Rabs_left (_ - x)) in N by lra. apply Rabs_ge_inv in N. lra.
    + apply Rle_lt_trans with 0%R; [|lra]. apply round_le_generic; auto; [apply valid_rnd_N|apply generic_format_0|lra].
Qed.
Lemma scaled_abs a x : (Rabs (IZR a * bpow radix2 (-24) - x * bpow radix2 (-149)) = Rabs (IZR a * bpow radix2 125 - x) * bpow radix2 (-149))%R.
Proof.
  rewrite <- (Rabs_pos_eq (bpow radix2 (-149))) at 2 by apply bpow_ge_0. rewrite <- Rabs_mult. f_equal. rewrite Rmult_minus_distr_r, Rmult_assoc, <- bpow_plus. reflexivity.
Qed.
Lemma nearest_dist h h' f : (Z.abs (half_units h * 2 ^ 125 - float_units f) <= Z.abs (half_units h' * 2 ^ 125 - float_units f))%Z <-> (Rabs (half_real h - float_real f) <= Rabs (half_real h' - float_real f))%R.
Proof.
  rewrite !half_real_bpow, float_real_bpow, !scaled_abs.
  assert (E : forall h, (Rabs (IZR (half_units h) * bpow radix2 125 - IZR (float_units f)) = IZR (Z.abs (half_units h * 2 ^ 125 - float_units f)))%R).
  { intros g. rewrite abs_IZR, minus_IZR, mult_IZR, bpow_pow2 by lia. reflexivity. }
  rewrite !E. pose proof (bpow_gt_0 radix2 (-149)) as P. split; intros H.
  - apply Rmult_le_compat_r; [lra|]. now apply IZR_le.
  - apply Rmult_le_reg_r in H; [|exact P]. now apply le_IZR.
Qed.
Lemma f2h_round j f : bits32 f -> float_finite f -> (bpow radix2 (-14) <= Rabs (float_real f) < 65520)%R ->
  exists h, half_of_float (Some j) f = Ok h /\ bits16 h /\ half_finite h /\ hsign h = fsign f /\ half_real h = round radix2 fmt_half ZnearestA (float_real f).
Proof.
  intros B F (H1 & H2).
  assert (A : (Rabs (float_real f) = IZR (float_magnitude f) * bpow radix2 (-149))%R).
  { rewrite float_real_bpow, Rabs_mult, (Rabs_pos_eq (bpow _ _)) by apply bpow_ge_0. rewrite <- abs_IZR. do 2 f_equal.
    destruct (fpack_of f B) as ((Fs & Fe & Fm) & _). unfold float_units, float_magnitude. destruct (fexp f =? 0) eqn:E.
    - destruct (fsign f =? 0); lia.
    - assert (P : 0 < 2 ^ (fexp f - 1)) by (apply pow_pos; lia). assert (0 <= (2 ^ 23 + ffrac f) * 2 ^ (fexp f - 1)) by (apply Z.mul_nonneg_nonneg; lia). destruct (fsign f =? 0); lia. }
  rewrite A in *.
  assert (M1 : 2 ^ 135 <= float_magnitude f).
  { apply le_IZR. rewrite <- bpow_pow2 by lia. apply (Rmult_le_reg_r (bpow radix2 (-149))); [apply bpow_gt_0|]. now rewrite <- bpow_plus. }
  assert (M2 : float_magnitude f < overflow_threshold * 2 ^ 125).
  { apply lt_IZR. rewrite mult_IZR, <- (bpow_pow2 125) by lia. apply (Rmult_lt_reg_r (bpow radix2 (-149))); [apply bpow_gt_0|]. eapply Rlt_le_trans; [exact H2|].
    rewrite Rmult_assoc, <- bpow_plus. unfold overflow_threshold. rewrite mult_IZR, <- bpow_pow2 by lia. rewrite Rmult_assoc, <- bpow_plus. cbn. lra. }
  assert (He : 113 <= fexp f).
  { destruct (fpack_of f B) as ((Fs & Fe & Fm) & _). destruct (Z.le_gt_cases 113 (fexp f)) as [L|G]; auto. exfalso. unfold float_magnitude in M1. destruct (fexp f =? 0) eqn:E.
    - assert (2 ^ 23 < 2 ^ 135) by reflexivity. lia.
    - assert (P : 2 ^ (fexp f - 1) <= 2 ^ 111) by (apply Z.pow_le_mono_r; lia). assert (0 < 2 ^ (fexp f - 1)) by (apply pow_pos; lia).
      assert ((2 ^ 23 + ffrac f) * 2 ^ (fexp f - 1) < 2 ^ 24 * 2 ^ 111); [|change (2 ^ 135) with (2 ^ 24 * 2 ^ 111) in M1; lia].
      apply Z.lt_le_trans with (2 ^ 24 * 2 ^ (fexp f - 1)); [apply Z.mul_lt_mono_pos_r; lia|]. apply Z.mul_le_mono_nonneg_l; lia. }
  destruct (f2h_nearest j f B F He M2) as (h & E & S & (Bh & Fh & N) & T). exists h. split; [exact E|]. split; [exact Bh|]. split; [exact Fh|]. split; [exact S|].
  rewrite <- A in *. clear E S M1 M2 He.
  assert (V : Valid_exp fmt_half) by (apply FLT_exp_valid; reflexivity).
  destruct (format_is_half (round radix2 fmt_half ZnearestA (float_real f))) as (g & Bg & Fg & Eg).
  { apply generic_format_round; auto. apply valid_rnd_N. }
  { now apply rounded_small. }
  pose proof (round_NA_pt radix2 fmt_half (float_real f)) as (Np & Ta). rewrite <- Eg in *.
  assert (D1 : (Rabs (half_real h - float_real f) <= Rabs (half_real g - float_real f))%R) by (apply nearest_dist; now apply N).
  assert (Nh : Rnd_N_pt (generic_format radix2 fmt_half) (float_real f) (half_real h)).
  { split; [now apply half_in_format|]. intros x Gx. eapply Rle_trans; [exact D1|]. now apply Np. }
  pose proof (Ta (half_real h) Nh) as T1.
  assert (D2 : (Rabs (half_real g - float_real f) <= Rabs (half_real h - float_real f))%R) by (apply Np; now apply half_in_format).
  apply nearest_dist in D1. apply nearest_dist in D2. specialize (T g Bg Fg ltac:(lia)).
  assert (T2 : (Rabs (half_real g) <= Rabs (half_real h))%R).
  { rewrite !half_real_bpow, !Rabs_mult, <- !abs_IZR, !half_units_abs by auto. apply Rmult_le_compat_r; [apply Rabs_pos|]. now apply IZR_le. }
  assert (T3 : (Rabs (half_real g) = Rabs (half_real h))%R) by lra.
  destruct (Rabs_eq_Rabs _ _ T3) as [Q|Q]; [now symmetry|].
  (* opposite values: both at the same distance, so f = 0 or the value is 0 *)
  destruct Np as (_ & Np). pose proof (Np (half_real h) (half_in_format h Bh Fh)) as D3. rewrite Q in D3.
  assert (D4 : (Rabs (half_real h - float_real f) <= Rabs (- half_real h - float_real f))%R) by (rewrite <- Q; apply nearest_dist; now apply N).
  assert (half_real h = 0 \/ float_real f = 0)%R as [Z0|Z0].
  { destruct (Req_dec (half_real h) 0) as [Z0|Z0]; [now left|right]. unfold Rabs in D3, D4. repeat destruct Rcase_abs in *; lra. }
  - rewrite Q, Z0. lra.
  - exfalso. rewrite Z0, Rabs_R0 in H1. pose proof (bpow_gt_0 radix2 (-14)). lra.
Qed.

(** ** Bit patterns and Flocq's numbers *)
Lemma sign_B2FF prec emax (x : binary_float prec emax) : sign_FF (B2FF prec emax x) = Bsign prec emax x.
Proof. now destruct x. Qed.
Section Bits.
  Variables mw ew : Z.
  Hypothesis Hmw : 0 < mw.
  Hypothesis Hew : 0 < ew.
  Let low := 3 - 2 ^ (ew - 1) - (mw + 1).
  Lemma aux_cases x : 0 <= x < 2 ^ (mw + ew + 1) ->
    let s := x / 2 ^ (mw + ew) in let e := x / 2 ^ mw mod 2 ^ ew in let m := x mod 2 ^ mw in
    let u := if e =? 0 then m else (2 ^ mw + m) * 2 ^ (e - 1) in
    (s = 0 \/ s = 1) /\
    ((e <> 2 ^ ew - 1 /\ is_finite_FF (binary_float_of_bits_aux mw ew x) = true /\ sign_FF (binary_float_of_bits_aux mw ew x) = negb (s =? 0) /\
      FF2R radix2 (binary_float_of_bits_aux mw ew x) = (IZR (if s =? 0 then u else - u) * bpow radix2 low)%R) \/
     (e = 2 ^ ew - 1 /\ m = 0 /\ binary_float_of_bits_aux mw ew x = F754_infinity (negb (s =? 0))) \/
     (e = 2 ^ ew - 1 /\ m <> 0 /\ is_nan_FF (binary_float_of_bits_aux mw ew x) = true)).
  Proof.
    intros Hx s e m u. assert (Pm : 0 < 2 ^ mw) by (apply pow_pos; lia). assert (Pe : 0 < 2 ^ ew) by (apply pow_pos; lia).
    assert (Pw : 2 ^ (mw + ew) = 2 ^ mw * 2 ^ ew) by (apply Z.pow_add_r; lia).
    assert (Pw1 : 2 ^ (mw + ew + 1) = 2 * 2 ^ (mw + ew)) by (rewrite Z.pow_add_r by lia; lia).
    assert (Pp : 0 < 2 ^ (mw + ew)) by (apply pow_pos; lia).
    assert (Hs : s = 0 \/ s = 1).
    { assert (0 <= s < 2); [|lia]. unfold s. split; [apply Z.div_pos; lia|apply Z.div_lt_upper_bound; lia]. }
    split; [exact Hs|].
    assert (Es : (2 ^ mw * 2 ^ ew <=? x) = negb (s =? 0)).
    { unfold s. rewrite <- Pw. destruct (Z.lt_ge_cases x (2 ^ (mw + ew))) as [L|G].
      - rewrite Z.div_small by lia. cbn. lia.
      - assert (1 <= x / 2 ^ (mw + ew)) by (apply Z.div_le_lower_bound; lia). lia. }
    pose proof (Z.mod_pos_bound x (2 ^ mw) Pm) as Bm. pose proof (Z.mod_pos_bound (x / 2 ^ mw) (2 ^ ew) Pe) as Be.
    fold m in Bm. fold e in Be.
    assert (Sg : forall v : Z, cond_Zopp (negb (s =? 0)) v = if s =? 0 then v else - v) by (intros v; destruct (s =? 0); reflexivity).
    unfold binary_float_of_bits_aux, split_bits. cbv zeta. rewrite Es. fold m e. change (SpecFloat.emin (mw + 1) (2 ^ (ew - 1))) with low.
    destruct (Zeq_bool e 0) eqn:E0.
    - apply Zeq_bool_eq in E0. left. assert (Ne : 2 <= 2 ^ ew) by (change 2 with (2 ^ 1) at 1; apply Z.pow_le_mono_r; lia).
      split; [lia|]. unfold u. replace (e =? 0) with true by lia. destruct m as [|p|p] eqn:Em; [| |lia].
      + split; [reflexivity|]. split; [reflexivity|]. cbn. destruct (s =? 0); cbn; lra.
      + split; [reflexivity|]. split; [reflexivity|]. cbn [FF2R]. unfold F2R. cbn [Fnum Fexp]. now rewrite Sg.
    - apply Zeq_bool_neq in E0. destruct (Zeq_bool e (2 ^ ew - 1)) eqn:E1.
      + apply Zeq_bool_eq in E1. right. destruct m as [|p|p] eqn:Em; [left; auto|right; repeat split; auto; lia|lia].
      + apply Zeq_bool_neq in E1. left. split; [exact E1|]. destruct (m + 2 ^ mw) as [|p|p] eqn:Ep; try lia. split; [reflexivity|]. split; [reflexivity|].
        cbn [FF2R]. unfold F2R. cbn [Fnum Fexp]. rewrite Sg. unfold u. replace (e =? 0) with false by lia. rewrite Z.add_comm in Ep. rewrite Ep.
        replace (e + low - 1) with ((e - 1) + low) by lia. rewrite bpow_plus, <- Rmult_assoc. f_equal. rewrite bpow_pow2 by lia. rewrite <- mult_IZR. f_equal. destruct (s =? 0); lia.
  Qed.
End Bits.

Lemma float_cases f : bits32 f ->
  (fsign f = 0 \/ fsign f = 1) /\
  ((float_finite f /\ is_finite 24 128 (b32_of_bits f) = true /\ Bsign 24 128 (b32_of_bits f) = negb (fsign f =? 0) /\ B2R 24 128 (b32_of_bits f) = float_real f) \/
   (float_inf f /\ b32_of_bits f = B754_infinity 24 128 (negb (fsign f =? 0))) \/
   (float_nan f /\ is_nan 24 128 (b32_of_bits f) = true)).
Proof.
  intros B. assert (E : B2FF 24 128 (b32_of_bits f) = binary_float_of_bits_aux 23 8 f) by (exact (B2FF_FF2B 24 128 _ (binary_float_of_bits_aux_correct 23 8 eq_refl eq_refl eq_refl f))).
  pose proof (aux_cases 23 8 eq_refl eq_refl f B) as C. cbv zeta in C. rewrite <- E in C. destruct C as (S & C). split; [exact S|]. rewrite is_finite_B2FF, FF2R_B2FF, is_nan_B2FF, sign_B2FF in C.
  destruct C as [(C1 & C2 & C3 & C4)|[(C1 & C2 & C3)|(C1 & C2 & C3)]].
  - left. split; [exact C1|]. split; [exact C2|]. split; [exact C3|]. rewrite float_real_bpow. exact C4.
  - right. left. split; [now split|]. apply B2FF_inj. exact C3.
  - right. right. split; [now split|exact C3].
Qed.
Lemma float_of_result q : bits32 (bits_of_b32 q) /\ b32_of_bits (bits_of_b32 q) = q.
Proof.
  split.
  - exact (bits_of_binary_float_range 23 8 eq_refl eq_refl q).
  - exact (binary_float_of_bits_of_binary_float 23 8 eq_refl eq_refl eq_refl q).
Qed.
Lemma result_finite q : is_finite 24 128 q = true -> float_finite (bits_of_b32 q) /\ float_real (bits_of_b32 q) = B2R 24 128 q /\ fsign (bits_of_b32 q) = if Bsign 24 128 q then 1 else 0.
Proof.
  intros F. destruct (float_of_result q) as (B & E). destruct (float_cases _ B) as (S & C). rewrite E in C. destruct C as [(C1 & C2 & C3 & C4)|[(C1 & C2)|(C1 & C2)]].
  - split; [exact C1|]. split; [now symmetry|]. rewrite C3. destruct S as [S|S]; rewrite S; reflexivity.
  - rewrite C2 in F. discriminate.
  - destruct q; discriminate.
Qed.
Lemma h2f_real J h : bits16 h -> half_finite h -> exists f, half_to_float J h = Ok f /\ bits32 f /\ float_finite f /\ fsign f = hsign h /\ float_real f = half_real h.
Proof.
  intros B F. destruct (h2f_value J h B) as (f & E & Bf & S & V & _). destruct (V F) as (Ff & U). exists f. repeat split; auto; try apply Bf.
  rewrite float_real_bpow, half_real_bpow, U, mult_IZR, <- (bpow_pow2 125) by lia. rewrite Rmult_assoc, <- bpow_plus. reflexivity.
Qed.

(** ** No quotient of two halfs lies half way between two halfs *)
Lemma odd_divides N X k : 0 <= k -> Z.Odd N -> (N | X * 2 ^ k) -> (N | X).
Proof.
  intros Hk (c & HN) D. apply (Gauss N (2 ^ k) X); [now rewrite Z.mul_comm|]. apply rel_prime_Zpower_r; [lia|].
  apply Zgcd_1_rel_prime. apply Z.bezout_1_gcd. exists 1, (- c). lia.
Qed.
Lemma quotient_no_tie x y : generic_format radix2 fmt_half x -> generic_format radix2 fmt_half y -> y <> 0%R -> (bpow radix2 (-14) <= Rabs (x / y))%R ->
  forall K, scaled_mantissa radix2 fmt_half (x / y) <> (IZR K + / 2)%R.
Proof.
  intros Gx Gy Hy Hq K E. set (q := (x / y)%R) in *.
  assert (Hq0 : q <> 0%R). { intros Z0. rewrite Z0, Rabs_R0 in Hq. pose proof (bpow_gt_0 radix2 (-14)). lra. }
  apply FLT_format_generic in Gx; [|reflexivity]. apply FLT_format_generic in Gy; [|reflexivity].
  destruct Gx as [[X a] Ex HX _]. destruct Gy as [[Y b] Ey HY _]. cbn [Fnum Fexp] in *. change (Zpower radix2 11) with 2048 in *.
  assert (Hm : -13 <= mag radix2 q). { assert (-14 < mag radix2 q); [|lia]. apply (mag_gt_bpow radix2 q (-14)). exact Hq. }
  assert (Ce : cexp radix2 fmt_half q = mag radix2 q - 11) by (unfold cexp, FLT_exp; lia).
  set (e := cexp radix2 fmt_half q) in *. set (N := 2 * K + 1).
  assert (EN : q = (IZR N * bpow radix2 (e - 1))%R).
  { rewrite <- (scaled_mantissa_mult_bpow radix2 fmt_half q) at 1. fold e. rewrite E. unfold N. rewrite plus_IZR, mult_IZR.
    replace (bpow radix2 e) with (2 * bpow radix2 (e - 1))%R; [lra|]. change 2%R with (bpow radix2 1). rewrite <- bpow_plus. f_equal. lia. }
  assert (HN : 2048 <= Z.abs N).
  { apply le_IZR. rewrite abs_IZR. apply (Rmult_le_reg_r (bpow radix2 (e - 1))); [apply bpow_gt_0|].
    rewrite <- (Rabs_pos_eq (bpow radix2 (e - 1))) at 2 by apply bpow_ge_0. rewrite <- Rabs_mult, <- EN.
    change 2048%R with (bpow radix2 11). rewrite <- bpow_plus. replace (11 + (e - 1)) with (mag radix2 q - 1) by lia. now apply bpow_mag_le. }
  assert (EX : (IZR X * bpow radix2 a = IZR (N * Y) * bpow radix2 (b + (e - 1)))%R).
  { assert (Exq : x = (q * y)%R) by (unfold q; field; exact Hy). rewrite Ex, EN, Ey in Exq. unfold F2R in Exq. cbn [Fnum Fexp] in Exq. rewrite Exq, mult_IZR, bpow_plus. ring. }
  assert (X0 : X <> 0). { intros ->. apply Hq0. unfold q. rewrite Ex. unfold F2R. cbn [Fnum]. unfold Rdiv. ring. }
  assert (D : (N | X)).
  { set (c := b + (e - 1)) in *. destruct (Z.le_gt_cases c a) as [L|L].
    - apply (odd_divides N X (a - c)); [lia|exists K; reflexivity|]. exists Y. apply eq_IZR. rewrite mult_IZR, <- bpow_pow2 by lia.
      apply (Rmult_eq_reg_r (bpow radix2 c)); [|apply Rgt_not_eq, bpow_gt_0]. rewrite Rmult_assoc, <- bpow_plus. replace (a - c + c) with a by lia. rewrite EX, Z.mul_comm. reflexivity.
    - exists (Y * 2 ^ (c - a)). apply eq_IZR. replace (Y * 2 ^ (c - a) * N) with (N * Y * 2 ^ (c - a)) by ring. rewrite (mult_IZR (N * Y)), <- bpow_pow2 by lia.
      apply (Rmult_eq_reg_r (bpow radix2 a)); [|apply Rgt_not_eq, bpow_gt_0]. rewrite Rmult_assoc, <- bpow_plus. replace (c - a + a) with c by lia. exact EX. }
  apply Z.divide_abs_l in D. apply Z.divide_abs_r in D. apply Z.divide_pos_le in D; lia.
Qed.
Lemma round_any_pick p1 p2 v : (forall K, scaled_mantissa radix2 fmt_half v <> (IZR K + / 2)%R) -> round radix2 fmt_half (Znearest p1) v = round radix2 fmt_half (Znearest p2) v.
Proof.
  intros H. unfold round. do 2 f_equal. unfold Znearest. set (s := scaled_mantissa radix2 fmt_half v) in *. destruct (Rcompare_spec (s - IZR (Zfloor s)) (/ 2)) as [L|Q|G]; auto.
  exfalso. apply (H (Zfloor s)). lra.
Qed.
Lemma round_threshold : round radix2 fmt_half ZnearestA 65520 = 65536%R.
Proof.
  unfold round, scaled_mantissa. replace (cexp radix2 fmt_half 65520) with 5.
  - unfold F2R. cbn [Fnum Fexp]. change (- (5))%Z with (-5)%Z; replace (65520 * bpow radix2 (-5))%R with (2047 + / 2)%R by (cbn; lra).
    assert (Fl : Zfloor (2047 + / 2) = 2047) by (apply Zfloor_imp; cbn; lra). assert (Cl : Zceil (2047 + / 2) = 2048) by (apply Zceil_imp; cbn; lra).
    unfold Znearest. rewrite Fl, Cl, Rcompare_Eq by (cbn; lra). change (Zle_bool 0 2047) with true. cbv iota. cbn. lra.
  - symmetry. unfold cexp. rewrite (mag_unique radix2 65520 16); [reflexivity|]. rewrite Rabs_pos_eq by lra. cbn. lra.
Qed.

Lemma round_NA_abs v : (round radix2 fmt_half ZnearestA (Rabs v) <= Rabs (round radix2 fmt_half ZnearestA v))%R.
Proof.
  destruct (Rle_or_lt 0 v) as [P|P].
  - rewrite (Rabs_pos_eq v) by auto. apply Rle_abs.
  - rewrite (Rabs_left v) by auto. rewrite round_NA_opp, <- (Rabs_Ropp (round _ _ _ v)). apply Rle_abs.
Qed.

(** ** Division *)
Lemma float_div_finite nan a b : bits32 a -> bits32 b -> float_finite a -> float_finite b -> float_real b <> 0%R -> (Rabs (float_real a / float_real b) < 65520)%R ->
  bits32 (float_div nan a b) /\ float_finite (float_div nan a b) /\ float_real (float_div nan a b) = round radix2 fmt_float ZnearestE (float_real a / float_real b).
Proof.
  intros Ba Bb Fa Fb Hb Hq. destruct (float_cases a Ba) as (_ & [(_ & A2 & A3 & A4)|[((A1 & _) & _)|((A1 & _) & _)]]); try contradiction.
  destruct (float_cases b Bb) as (_ & [(_ & B2 & B3 & B4)|[((B1 & _) & _)|((B1 & _) & _)]]); try contradiction.
  unfold float_div. set (d := b32_div mode_NE (b32_of_bits a) (b32_of_bits b)).
  assert (C := Bdiv_correct 24 128 eq_refl eq_refl binop_nan_pl32 mode_NE (b32_of_bits a) (b32_of_bits b)). rewrite A4, B4 in C. specialize (C Hb).
  change (Bdiv 24 128 eq_refl eq_refl binop_nan_pl32 mode_NE (b32_of_bits a) (b32_of_bits b)) with d in C. change (SpecFloat.fexp 24 128) with fmt_float in C. cbn [round_mode] in C.
  assert (G1 : generic_format radix2 fmt_float 65520).
  { replace 65520%R with (F2R (Float radix2 4095 4)) by (unfold F2R; cbn; lra). apply generic_format_FLT. apply (FLT_spec _ _ _ _ (Float radix2 4095 4)); cbn; [reflexivity|lia|lia]. }
  assert (R1 : (Rabs (round radix2 fmt_float ZnearestE (float_real a / float_real b)) <= 65520)%R) by (apply abs_round_le_generic; auto; [apply FLT_exp_valid; exact prec24|apply valid_rnd_N|lra]).
  rewrite Rlt_bool_true in C.
  - destruct C as (C1 & C2 & _). rewrite A2 in C2. assert (Nn : is_nan 24 128 d = false) by (destruct d; auto; discriminate). rewrite Nn.
    destruct (float_of_result d) as (Bd & _). destruct (result_finite d C2) as (Fd & Rd & _). split; [exact Bd|]. split; [exact Fd|]. now rewrite Rd.
  - eapply Rle_lt_trans; [exact R1|]. apply Rlt_trans with (bpow radix2 17); [cbn; lra|now apply bpow_lt].
Qed.
Lemma divide_rounds nan j x y : bits16 x -> bits16 y -> half_finite x -> half_finite y -> half_real y <> 0%R -> (bpow radix2 (-14) <= Rabs (half_real x / half_real y) < 65520)%R ->
  exists h, half_divide nan (Some j) x y = Ok h /\ bits16 h /\ half_finite h /\ forall pick, half_real h = half_rounded pick (half_real x / half_real y).
Proof.
  intros Bx By Fx Fy Hy (Q1 & Q2). destruct (h2f_real (Some j) x Bx Fx) as (a & Ea & Ba & Fa & _ & Ra). destruct (h2f_real (Some j) y By Fy) as (b & Eb & Bb & Fb & _ & Rb).
  unfold half_divide. rewrite Ea, Eb. cbn [bind]. rewrite <- Ra, <- Rb in *. destruct (float_div_finite nan a b Ba Bb Fa Fb Hy Q2) as (Bd & Fd & Rd). set (d := float_div nan a b) in *. set (q := (float_real a / float_real b)%R) in *.
  pose proof (half_in_format x Bx Fx) as Gx. pose proof (half_in_format y By Fy) as Gy. rewrite <- Ra in Gx. rewrite <- Rb in Gy.
  assert (RR : round radix2 fmt_half ZnearestA (float_real d) = round radix2 fmt_half ZnearestA q).
  { rewrite Rd. apply (round_round_div_FLT radix2 (-24) 11 (-149) 24 (Zle_bool 0) (fun t => negb (Z.even t))); auto; try lia.
    - exists 1. reflexivity.
    - apply FLT_format_generic; auto. exact prec11.
    - apply FLT_format_generic; auto. exact prec11. }
  assert (P14 : generic_format radix2 fmt_float (bpow radix2 (-14))) by (apply generic_format_bpow; cbn; lia).
  assert (L : (bpow radix2 (-14) <= Rabs (float_real d))%R) by (rewrite Rd; apply abs_round_ge_generic; auto; [apply FLT_exp_valid; exact prec24|apply valid_rnd_N]).
  assert (U : (Rabs (float_real d) < 65520)%R).
  { destruct (Rle_or_lt 65520 (Rabs (float_real d))) as [C|C]; [exfalso|exact C].
    pose proof (rounded_small (Zle_bool 0) q Q2) as S. unfold half_rounded in S. rewrite <- RR in S. pose proof (round_NA_abs (float_real d)) as S1.
    assert (R : (round radix2 fmt_half ZnearestA 65520 <= round radix2 fmt_half ZnearestA (Rabs (float_real d)))%R) by (apply round_le; [apply FLT_exp_valid; exact prec11|apply valid_rnd_N|exact C]).
    rewrite round_threshold in R. change (bpow radix2 16) with 65536%R in S. lra. }
  destruct (f2h_round j d Bd Fd (Logic.conj L U)) as (h & E & Bh & Fh & _ & Rh). exists h. split; [exact E|]. split; [exact Bh|]. split; [exact Fh|]. intros pick.
  rewrite Rh, RR. unfold half_rounded. apply round_any_pick. now apply quotient_no_tie.
Qed.
