(** Special cases of division, and conversions between half, double and integers. *)
From Coq Require Import ZArith Reals Lra Psatz.
From Flocq Require Import Core Relative IEEE754.BinarySingleNaN IEEE754.Binary IEEE754.Bits.
From Verif Require Import Base HalfModel HalfSpec HalfBits HalfConvProofs HalfProofs HalfSumProofs HdivModel HdivSpec HdivProofs.
From Coq Require Import ZifyNat ZifyN ZifyBool.
Ltac Zify.zify_post_hook ::= idtac.
Local Open Scope Z_scope.
Notation fmt_half := (FLT_exp (-24) 11).
Notation fmt_float := (FLT_exp (-149) 24).
Notation fmt_double := (FLT_exp (-1074) 53).
#[local] Instance prec11 : Prec_gt_0 11 := eq_refl.
#[local] Instance prec24 : Prec_gt_0 24 := eq_refl.
#[local] Instance prec53 : Prec_gt_0 53 := eq_refl.

(** ** What a half looks like as a float *)
Definition sign_of (h : Z) : bool := negb (hsign h =? 0).
Lemma hsign_cases h : bits16 h -> hsign h = 0 \/ hsign h = 1.
Proof. intros B. destruct (hpack_of h B) as ((Hs & _ & _) & _). lia. Qed.
Lemma half_real_zero h : bits16 h -> half_finite h -> (half_real h = 0%R <-> half_zero h).
Proof.
  intros B F. rewrite half_real_bpow. pose proof (bpow_gt_0 radix2 (-24)) as P. destruct (hpack_of h B) as ((Hs & He & Hm) & _).
  assert (U : half_units h = 0 <-> half_zero h).
  { pose proof (half_units_abs h B F) as A. unfold half_zero. unfold half_magnitude in A. destruct (hexp h =? 0) eqn:E; [lia|].
    assert (0 < 2 ^ (hexp h - 1)) by (apply pow_pos; lia). assert (0 < (2 ^ 10 + hfrac h) * 2 ^ (hexp h - 1)) by (apply Z.mul_pos_pos; lia). lia. }
  rewrite <- U. split; intros H.
  - apply Rmult_integral in H. destruct H as [H|H]; [now apply eq_IZR|lra].
  - rewrite H. ring.
Qed.
Inductive seen_as : Z -> binary32 -> Prop :=
| seen_finite h q : half_finite h -> is_finite 24 128 q = true -> B2R 24 128 q = half_real h -> Bsign 24 128 q = sign_of h -> seen_as h q
| seen_inf h : half_inf h -> seen_as h (B754_infinity 24 128 (sign_of h))
| seen_nan h q : half_nan h -> is_nan 24 128 q = true -> seen_as h q.
Lemma h2f_seen J h : bits16 h -> exists f, half_to_float J h = Ok f /\ bits32 f /\ fsign f = hsign h /\ seen_as h (b32_of_bits f).
Proof.
  intros B. destruct (h2f_value J h B) as (f & E & Bf & S & V & I & N). exists f. split; [exact E|]. split; [exact Bf|]. split; [exact S|].
  destruct (float_cases f Bf) as (Sf & C). destruct (Z.eq_dec (hexp h) 31) as [H31|H31].
  - destruct (Z.eq_dec (hfrac h) 0) as [H0|H0].
    + destruct (I (Logic.conj H31 H0)) as (I1 & I2). destruct C as [(C1 & _)|[(_ & C2)|((_ & C1) & _)]]; try contradiction. rewrite C2, S. now apply seen_inf.
    + destruct (N (Logic.conj H31 H0)) as (I1 & I2). destruct C as [(C1 & _)|[((_ & C1) & _)|(_ & C2)]]; try contradiction. now apply seen_nan.
  - destruct (V H31) as (Ff & U). destruct C as [(_ & C2 & C3 & C4)|[((C1 & _) & _)|((C1 & _) & _)]]; try contradiction. apply seen_finite; auto.
    + rewrite C4, float_real_bpow, half_real_bpow, U, mult_IZR, <- (bpow_pow2 125) by lia. rewrite Rmult_assoc, <- bpow_plus. reflexivity.
    + unfold sign_of. now rewrite C3, S.
Qed.
Lemma zero_seen h q : bits16 h -> half_zero h -> seen_as h q -> q = B754_zero 24 128 (sign_of h).
Proof.
  intros B Z0 S. assert (F : half_finite h) by (destruct Z0 as (Z0 & _); unfold half_finite; lia). pose proof (proj2 (half_real_zero h B F) Z0) as R0.
  inversion S as [h' q' F' Q1 Q2 Q3|h' I|h' q' I Q]; subst.
  - rewrite R0 in Q2. destruct q as [s|s|s p e|s m e Hm]; try discriminate.
    + cbn in Q3. now subst.
    + exfalso. cbn [B2R] in Q2. unfold F2R in Q2. cbn [Fnum Fexp] in Q2. pose proof (bpow_gt_0 radix2 e) as P. apply Rmult_integral in Q2. destruct Q2 as [Q2|Q2]; [apply eq_IZR in Q2; destruct s; discriminate|lra].
  - destruct I; contradiction.
  - destruct I; contradiction.
Qed.
Lemma finite_seen h q : bits16 h -> half_finite h -> ~ half_zero h -> seen_as h q -> exists m e Hm, q = B754_finite 24 128 (sign_of h) m e Hm.
Proof.
  intros B F N S. inversion S as [h' q' F' Q1 Q2 Q3|h' I|h' q' I Q]; subst.
  - destruct q as [s|s|s p e|s m e Hm]; try discriminate.
    + exfalso. apply N. apply (half_real_zero h B F). now symmetry.
    + cbn in Q3. subst. eauto.
  - destruct I; contradiction.
  - destruct I; contradiction.
Qed.
Lemma inf_seen h q : half_inf h -> seen_as h q -> q = B754_infinity 24 128 (sign_of h).
Proof. intros (I1 & I2) S. inversion S as [h' q' F' Q1 Q2 Q3|h' I|h' q' I Q]; subst; [contradiction|reflexivity|destruct I; contradiction]. Qed.
Lemma nan_seen h q : half_nan h -> seen_as h q -> is_nan 24 128 q = true.
Proof. intros (I1 & I2) S. inversion S as [h' q' F' Q1 Q2 Q3|h' I|h' q' I Q]; subst; [contradiction|destruct I; contradiction|assumption]. Qed.

(** ** Division: infinities, zeros, NaN *)
Definition sign_xor (x y : Z) : Z := (hsign x + hsign y) mod 2.
Lemma xor_sign x y : bits16 x -> bits16 y -> (if xorb (sign_of x) (sign_of y) then 1 else 0) = sign_xor x y.
Proof. intros Bx By. unfold sign_xor, sign_of. destruct (hsign_cases x Bx) as [-> | ->], (hsign_cases y By) as [-> | ->]; reflexivity. Qed.
Lemma f2h_inf_bits j s : exists h, half_of_float (Some j) (bits_of_b32 (B754_infinity 24 128 s)) = Ok h /\ half_inf h /\ hsign h = if s then 1 else 0.
Proof.
  destruct (f2h_inf j (bits_of_b32 (B754_infinity 24 128 s))) as (h & E & S & I).
  - destruct s; (split; [discriminate|reflexivity]).
  - intros (_ & N). apply N. now destruct s.
  - left. destruct s; discriminate.
  - exists h. split; [exact E|]. split; [exact I|]. rewrite S. now destruct s.
Qed.
Lemma f2h_zero_bits j s : small_shift j -> exists h, half_of_float (Some j) (bits_of_b32 (B754_zero 24 128 s)) = Ok h /\ half_zero h /\ hsign h = if s then 1 else 0.
Proof.
  intros Hj. set (h := if s then 0x8000 else 0). assert (B : bits16 h) by (destruct s; (split; [discriminate|reflexivity])).
  assert (Zh : half_zero h) by (destruct s; (split; reflexivity)). exists h. split; [|split; [exact Zh|now destruct s]].
  pose proof (zero_back j h B Zh) as Q. unfold small_shift in Hj. rewrite w32_id in Q by lia. rewrite Z.div_small, Z.lor_0_r, w16_id in Q by (unfold bits16 in *; lia).
  assert (E : halfToFloat (Some j) h = Ok (bits_of_b32 (B754_zero 24 128 s))) by (destruct s; reflexivity). rewrite E in Q. exact Q.
Qed.
Lemma div_start nan J x y : bits16 x -> bits16 y -> exists a b, seen_as x (b32_of_bits a) /\ seen_as y (b32_of_bits b) /\ half_divide nan J x y = half_of_float J (float_div nan a b) /\ half_to_float J x = Ok a /\ half_to_float J y = Ok b.
Proof.
  intros Bx By. destruct (h2f_seen J x Bx) as (a & Ea & _ & _ & Sa). destruct (h2f_seen J y By) as (b & Eb & _ & _ & Sb). exists a, b. unfold half_divide. rewrite Ea, Eb. auto.
Qed.
Lemma divide_inf nan j x y : bits16 x -> bits16 y -> (half_finite x /\ ~ half_zero x /\ half_zero y \/ half_inf x /\ half_finite y) ->
  exists h, half_divide nan (Some j) x y = Ok h /\ half_inf h /\ hsign h = sign_xor x y.
Proof.
  intros Bx By H. destruct (div_start nan (Some j) x y Bx By) as (a & b & Sa & Sb & E & _). rewrite E, <- xor_sign by auto.
  assert (Ed : b32_div mode_NE (b32_of_bits a) (b32_of_bits b) = B754_infinity 24 128 (xorb (sign_of x) (sign_of y))).
  { destruct H as [(Fx & Nx & Zy)|(Ix & Fy)].
    - destruct (finite_seen x _ Bx Fx Nx Sa) as (m & e & Hm & ->). rewrite (zero_seen y _ By Zy Sb). reflexivity.
    - rewrite (inf_seen x _ Ix Sa). inversion Sb as [h' q' F' Q1 Q2 Q3|h' I|h' q' I Q]; subst; try (destruct I; contradiction).
      destruct (b32_of_bits b) as [s|s|s p e|s m e Hm]; try discriminate; cbn in Q3; subst; reflexivity. }
  unfold float_div. rewrite Ed. cbn [is_nan]. apply f2h_inf_bits.
Qed.
Lemma divide_zero nan j x y : small_shift j -> bits16 x -> bits16 y -> (half_zero x /\ half_finite y /\ ~ half_zero y \/ half_finite x /\ half_inf y) ->
  exists h, half_divide nan (Some j) x y = Ok h /\ half_zero h /\ hsign h = sign_xor x y.
Proof.
  intros Hj Bx By H. destruct (div_start nan (Some j) x y Bx By) as (a & b & Sa & Sb & E & _). rewrite E, <- xor_sign by auto.
  assert (Ed : b32_div mode_NE (b32_of_bits a) (b32_of_bits b) = B754_zero 24 128 (xorb (sign_of x) (sign_of y))).
  { destruct H as [(Zx & Fy & Ny)|(Fx & Iy)].
    - destruct (finite_seen y _ By Fy Ny Sb) as (m & e & Hm & ->). rewrite (zero_seen x _ Bx Zx Sa). reflexivity.
    - rewrite (inf_seen y _ Iy Sb). inversion Sa as [h' q' F' Q1 Q2 Q3|h' I|h' q' I Q]; subst; try (destruct I; contradiction).
      destruct (b32_of_bits a) as [s|s|s p e|s m e Hm]; try discriminate; cbn in Q3; subst; reflexivity. }
  unfold float_div. rewrite Ed. cbn [is_nan]. now apply f2h_zero_bits.
Qed.
Lemma divide_nan nan j x y : (forall a b, quiet_nan (nan a b)) -> bits16 x -> bits16 y -> (half_nan x \/ half_nan y \/ half_zero x /\ half_zero y \/ half_inf x /\ half_inf y) ->
  exists h, half_divide nan (Some j) x y = Ok h /\ half_nan h.
Proof.
  intros Hn Bx By H. destruct (div_start nan (Some j) x y Bx By) as (a & b & Sa & Sb & E & _). rewrite E.
  assert (Ed : is_nan 24 128 (b32_div mode_NE (b32_of_bits a) (b32_of_bits b)) = true).
  { destruct H as [Nx|[Ny|[(Zx & Zy)|(Ix & Iy)]]].
    - pose proof (nan_seen x _ Nx Sa) as Q. destruct (b32_of_bits a); try discriminate. destruct (b32_of_bits b); reflexivity.
    - pose proof (nan_seen y _ Ny Sb) as Q. destruct (b32_of_bits b); try discriminate. destruct (b32_of_bits a); reflexivity.
    - rewrite (zero_seen x _ Bx Zx Sa), (zero_seen y _ By Zy Sb). reflexivity.
    - rewrite (inf_seen x _ Ix Sa), (inf_seen y _ Iy Sb). reflexivity. }
  unfold float_div. rewrite Ed. destruct (Hn a b) as (B32 & (N1 & N2) & N3). destruct (f2h_quiet_nan j (nan a b) B32 N1 N3) as (h & Eh & _ & Nh). exists h. now split.
Qed.

(** ** Exact quotients *)
Lemma half_real_inj x y : bits16 x -> bits16 y -> half_finite x -> half_finite y -> half_real x = half_real y -> half_real x <> 0%R -> x = y.
Proof.
  intros Bx By Fx Fy E N. rewrite !half_real_bpow in *. pose proof (bpow_gt_0 radix2 (-24)) as P. apply Rmult_eq_reg_r in E; [|lra]. apply eq_IZR in E. apply units_inj; auto. intros U. apply N. rewrite U. ring.
Qed.
Lemma half_real_bounds h : bits16 h -> half_normal h -> (bpow radix2 (-14) <= Rabs (half_real h) < 65520)%R.
Proof.
  intros B Hn. assert (F : half_finite h) by (unfold half_normal, half_finite in *; lia). pose proof (units_bound h B F) as U. pose proof (half_units_abs h B F) as A.
  rewrite half_real_bpow, Rabs_mult, (Rabs_pos_eq (bpow _ _)), <- abs_IZR by apply bpow_ge_0. split.
  - change (bpow radix2 (-14)) with (bpow radix2 (10 + -24)). rewrite bpow_plus. apply Rmult_le_compat_r; [apply bpow_ge_0|]. change (bpow radix2 10) with (IZR 1024). apply IZR_le. rewrite A.
    unfold half_magnitude. unfold half_normal in Hn. replace (hexp h =? 0) with false by lia. destruct (hpack_of h B) as ((Hs & He & Hm) & _). assert (1 <= 2 ^ (hexp h - 1)) by (pose proof (pow_pos (hexp h - 1)); lia).
    change (2 ^ 10) with 1024 in *. nia.
  - apply Rlt_le_trans with (IZR overflow_threshold * bpow radix2 (-24))%R.
    + apply Rmult_lt_compat_r; [apply bpow_gt_0|]. now apply IZR_lt.
    + unfold overflow_threshold. rewrite mult_IZR, <- bpow_pow2, Rmult_assoc, <- bpow_plus by lia. cbn. lra.
Qed.
Lemma half_rounded_id pick v : generic_format radix2 fmt_half v -> half_rounded pick v = v.
Proof. intros G. unfold half_rounded. apply round_generic; [apply valid_rnd_N|exact G]. Qed.
Lemma divide_exact nan j x y z : bits16 x -> bits16 y -> bits16 z -> half_finite x -> half_finite y -> ~ half_zero y -> half_normal z -> half_real x = (half_real z * half_real y)%R ->
  half_divide nan (Some j) x y = Ok z.
Proof.
  intros Bx By Bz Fx Fy Hy Nz E. assert (Fz : half_finite z) by (unfold half_normal, half_finite in *; lia).
  assert (Hy' : half_real y <> 0%R) by (intros C; apply Hy; now apply half_real_zero).
  assert (Q : (half_real x / half_real y = half_real z)%R) by (rewrite E; field; exact Hy').
  pose proof (half_real_bounds z Bz Nz) as Bd. destruct (divide_rounds nan j x y Bx By Fx Fy Hy') as (h & Eh & Bh & Fh & R); [now rewrite Q|].
  rewrite Eh. f_equal. specialize (R (Zle_bool 0)). rewrite Q, half_rounded_id in R by (now apply half_in_format). apply half_real_inj; auto.
  rewrite R. intros C. rewrite C, Rabs_R0 in Bd. pose proof (bpow_gt_0 radix2 (-14)). lra.
Qed.

(** ** double *)
Lemma double_real_bpow d : double_real d = (IZR (double_units d) * bpow radix2 (-1074))%R.
Proof.
  unfold double_real, Rdiv. f_equal. change (-1074)%Z with (- (1074))%Z. rewrite bpow_opp. f_equal. rewrite bpow_pow2 by lia.
  rewrite (pow_IZR 2 1074). reflexivity.
Qed.
Lemma double_cases d : bits64 d ->
  (dsign d = 0 \/ dsign d = 1) /\
  ((double_finite d /\ is_finite 53 1024 (b64_of_bits d) = true /\ Bsign 53 1024 (b64_of_bits d) = negb (dsign d =? 0) /\ B2R 53 1024 (b64_of_bits d) = double_real d) \/
   (double_inf d /\ b64_of_bits d = B754_infinity 53 1024 (negb (dsign d =? 0))) \/
   (double_nan d /\ is_nan 53 1024 (b64_of_bits d) = true)).
Proof.
  intros B. assert (E : B2FF 53 1024 (b64_of_bits d) = binary_float_of_bits_aux 52 11 d) by (exact (B2FF_FF2B 53 1024 _ (binary_float_of_bits_aux_correct 52 11 eq_refl eq_refl eq_refl d))).
  pose proof (aux_cases 52 11 eq_refl eq_refl d B) as C. cbv zeta in C. rewrite <- E in C. destruct C as (S & C). split; [exact S|]. rewrite is_finite_B2FF, FF2R_B2FF, is_nan_B2FF, sign_B2FF in C.
  destruct C as [(C1 & C2 & C3 & C4)|[(C1 & C2 & C3)|(C1 & C2 & C3)]].
  - left. split; [exact C1|]. split; [exact C2|]. split; [exact C3|]. rewrite double_real_bpow. exact C4.
  - right. left. split; [now split|]. apply B2FF_inj. exact C3.
  - right. right. split; [now split|exact C3].
Qed.
Lemma double_of_result q : bits64 (bits_of_b64 q) /\ b64_of_bits (bits_of_b64 q) = q.
Proof.
  split.
  - exact (bits_of_binary_float_range 52 11 eq_refl eq_refl q).
  - exact (binary_float_of_bits_of_binary_float 52 11 eq_refl eq_refl eq_refl q).
Qed.
Lemma double_result_finite q : is_finite 53 1024 q = true -> double_finite (bits_of_b64 q) /\ double_real (bits_of_b64 q) = B2R 53 1024 q /\ dsign (bits_of_b64 q) = if Bsign 53 1024 q then 1 else 0.
Proof.
  intros F. destruct (double_of_result q) as (B & E). destruct (double_cases _ B) as (S & C). rewrite E in C. destruct C as [(C1 & C2 & C3 & C4)|[(C1 & C2)|(C1 & C2)]].
  - split; [exact C1|]. split; [now symmetry|]. rewrite C3. destruct S as [S|S]; rewrite S; reflexivity.
  - rewrite C2 in F. discriminate.
  - destruct q; discriminate.
Qed.

(** ** To half *)
Lemma normalize_float n e s : (Rabs (F2R (Float radix2 n e)) <= 65520)%R ->
  let q := binary_normalize 24 128 eq_refl eq_refl mode_NE n e s in
  is_finite 24 128 q = true /\ B2R 24 128 q = round radix2 fmt_float ZnearestE (F2R (Float radix2 n e)).
Proof.
  intros H q. pose proof (binary_normalize_correct 24 128 eq_refl eq_refl mode_NE n e s) as C. fold q in C. change (SpecFloat.fexp 24 128) with fmt_float in C. cbn [round_mode] in C.
  assert (G1 : generic_format radix2 fmt_float 65520).
  { replace 65520%R with (F2R (Float radix2 4095 4)) by (unfold F2R; cbn; lra). apply generic_format_FLT. apply (FLT_spec _ _ _ _ (Float radix2 4095 4)); cbn; [reflexivity|lia|lia]. }
  assert (R1 : (Rabs (round radix2 fmt_float ZnearestE (F2R (Float radix2 n e))) <= 65520)%R) by (apply abs_round_le_generic; auto; [apply FLT_exp_valid; exact prec24|apply valid_rnd_N]).
  rewrite Rlt_bool_true in C; [destruct C as (C1 & C2 & _); now split|]. eapply Rle_lt_trans; [exact R1|]. apply Rlt_trans with (bpow radix2 17); [cbn; lra|now apply bpow_lt].
Qed.
Lemma float_of_double_finite nan d : bits64 d -> double_finite d -> (Rabs (double_real d) <= 65520)%R ->
  bits32 (float_of_double nan d) /\ float_finite (float_of_double nan d) /\ float_real (float_of_double nan d) = round radix2 fmt_float ZnearestE (double_real d).
Proof.
  intros B F H. destruct (double_cases d B) as (_ & [(_ & C2 & C3 & C4)|[((C1 & _) & _)|((C1 & _) & _)]]); try contradiction.
  unfold float_of_double. destruct (b64_of_bits d) as [s|s|s p e|s m e Hm]; try discriminate.
  - destruct (float_of_result (B754_zero 24 128 s)) as (Bf & _). destruct (result_finite (B754_zero 24 128 s) eq_refl) as (Ff & Rf & _). split; [exact Bf|]. split; [exact Ff|].
    rewrite Rf, <- C4. cbn [B2R]. rewrite round_0 by apply valid_rnd_N. reflexivity.
  - cbn [B2R] in C4. rewrite <- C4 in *. destruct (normalize_float (cond_Zopp s (Zpos m)) e s H) as (Q1 & Q2).
    set (q := binary_normalize 24 128 eq_refl eq_refl mode_NE (cond_Zopp s (Zpos m)) e s) in *. destruct (float_of_result q) as (Bf & _). destruct (result_finite q Q1) as (Ff & Rf & _).
    split; [exact Bf|]. split; [exact Ff|]. rewrite Rf. exact Q2.
Qed.
Lemma float_small v : (Rabs v <= 65519)%R -> (Rabs (round radix2 fmt_float ZnearestE v) < 65520)%R.
Proof.
  intros H. assert (G1 : generic_format radix2 fmt_float 65519).
  { replace 65519%R with (F2R (Float radix2 65519 0)) by (unfold F2R; cbn; lra). apply generic_format_FLT. apply (FLT_spec _ _ _ _ (Float radix2 65519 0)); cbn; [reflexivity|lia|lia]. }
  apply Rle_lt_trans with 65519%R; [|lra]. apply abs_round_le_generic; auto; [apply FLT_exp_valid; exact prec24|apply valid_rnd_N].
Qed.
Lemma float_big v : (bpow radix2 (-14) <= Rabs v)%R -> (bpow radix2 (-14) <= Rabs (round radix2 fmt_float ZnearestE v))%R.
Proof. intros H. apply abs_round_ge_generic; auto; [apply FLT_exp_valid; exact prec24|apply valid_rnd_N|apply generic_format_bpow; cbn; lia]. Qed.
Lemma half_is_float v : generic_format radix2 fmt_half v -> generic_format radix2 fmt_float v.
Proof.
  intros G. apply FLT_format_generic in G; [|reflexivity]. destruct G as [[m e] E Hm He]. cbn [Fnum Fexp] in *. apply generic_format_FLT. apply (FLT_spec _ _ _ _ (Float radix2 m e)); cbn [Fnum Fexp]; auto; [|lia].
  eapply Z.lt_trans; [exact Hm|reflexivity].
Qed.
Lemma of_double_steps nan j d : bits64 d -> double_finite d -> (bpow radix2 (-14) <= Rabs (double_real d) <= 65519)%R ->
  exists h, half_of_double nan (Some j) d = Ok h /\ bits16 h /\ half_finite h /\
    half_real h = round radix2 fmt_half ZnearestA (round radix2 fmt_float ZnearestE (double_real d)).
Proof.
  intros B F (H1 & H2). destruct (float_of_double_finite nan d B F ltac:(lra)) as (Bf & Ff & Rf). unfold half_of_double.
  destruct (f2h_round j (float_of_double nan d) Bf Ff) as (h & E & Bh & Fh & _ & Rh). { rewrite Rf. split; [now apply float_big|now apply float_small]. }
  exists h. rewrite Rf in Rh. auto.
Qed.
Lemma of_double_faithful nan j d : bits64 d -> double_finite d -> (bpow radix2 (-14) <= Rabs (double_real d) <= 65519)%R ->
  exists h, half_of_double nan (Some j) d = Ok h /\ bits16 h /\ half_finite h /\ (half_real h = half_below (double_real d) \/ half_real h = half_above (double_real d)) /\
    forall v, bits16 v -> half_finite v -> (Rabs (half_real h - double_real d) <= Rabs (half_real v - double_real d) + / 2 ^ 23 * Rabs (double_real d))%R.
Proof.
  intros B F H. destruct (of_double_steps nan j d B F H) as (h & E & Bh & Fh & R). exists h. split; [exact E|]. split; [exact Bh|]. split; [exact Fh|].
  set (x := double_real d) in *. set (f := round radix2 fmt_float ZnearestE x) in *.
  assert (V : Valid_exp fmt_half) by (apply FLT_exp_valid; exact prec11). assert (V' : Valid_exp fmt_float) by (apply FLT_exp_valid; exact prec24).
  pose proof (half_in_format h Bh Fh) as Gh. split.
  - destruct (round_DN_pt radix2 fmt_half x) as (D1 & D2 & D3). destruct (round_UP_pt radix2 fmt_half x) as (U1 & U2 & U3). fold (half_below x) in *. fold (half_above x) in *.
    assert (L : (half_below x <= half_real h)%R).
    { rewrite R. apply round_ge_generic; auto; [apply valid_rnd_N|]. unfold f. apply round_ge_generic; auto; [apply valid_rnd_N|now apply half_is_float]. }
    assert (U : (half_real h <= half_above x)%R).
    { rewrite R. apply round_le_generic; auto; [apply valid_rnd_N|]. unfold f. apply round_le_generic; auto; [apply valid_rnd_N|now apply half_is_float]. }
    destruct (Rle_or_lt (half_real h) x) as [C|C].
    + left. apply Rle_antisym; auto.
    + right. apply Rle_antisym; auto. apply U3; auto. lra.
  - intros v Bv Fv. pose proof (half_in_format v Bv Fv) as Gv. destruct (round_N_pt radix2 fmt_half (Zle_bool 0) f) as (_ & N). rewrite <- R in N. specialize (N (half_real v) Gv).
    assert (Er : (Rabs (f - x) <= / 2 * bpow radix2 (- (24) + 1) * Rabs x)%R).
    { unfold f. apply relative_error_N_FLT; [reflexivity|]. eapply Rle_trans; [|apply H]. apply bpow_le. lia. }
    replace (/ 2 * bpow radix2 (- (24) + 1))%R with (/ 2 ^ 24)%R in Er by (cbn; lra).
    replace (half_real h - x)%R with ((half_real h - f) + (f - x))%R by ring. eapply Rle_trans; [apply Rabs_triang|].
    assert (T : (Rabs (half_real v - f) <= Rabs (half_real v - x) + Rabs (f - x))%R).
    { replace (half_real v - f)%R with ((half_real v - x) + - (f - x))%R by ring. eapply Rle_trans; [apply Rabs_triang|]. rewrite Rabs_Ropp. lra. }
    replace (/ 2 ^ 23)%R with (2 * / 2 ^ 24)%R by (cbn; lra). lra.
Qed.
Lemma of_double_exact nan j d z : bits64 d -> double_finite d -> bits16 z -> half_normal z -> double_real d = half_real z -> half_of_double nan (Some j) d = Ok z.
Proof.
  intros B F Bz Nz E. pose proof (half_real_bounds z Bz Nz) as Bd. assert (Fz : half_finite z) by (unfold half_normal, half_finite in *; lia). pose proof (half_in_format z Bz Fz) as G.
  assert (L : (Rabs (half_real z) <= 65519)%R).
  { pose proof (rounded_small (Zle_bool 0) (half_real z) (proj2 Bd)) as S. rewrite half_rounded_id in S by auto. change (bpow radix2 16) with 65536%R in S.
    destruct (Rle_or_lt (Rabs (half_real z)) 65519) as [C|C]; auto. exfalso.
    (* a half between 65519 and 65536 *)
    apply generic_format_abs in G. apply FLT_format_generic in G; [|reflexivity]. destruct G as [[m e] Em Hm He]. cbn [Fnum Fexp] in *. change (Zpower radix2 11) with 2048 in Hm. rewrite Em in *. unfold F2R in *. cbn [Fnum Fexp] in *.
    destruct (Z.le_gt_cases e 5) as [Le|Ge].
    - assert (bpow radix2 e <= 32)%R by (change 32%R with (bpow radix2 5); now apply bpow_le). pose proof (bpow_gt_0 radix2 e).
      assert (IZR m <= 2047)%R by (apply IZR_le; lia). destruct (Rle_or_lt 0 (IZR m)); nra.
    - assert (Eb : bpow radix2 e = (64 * IZR (2 ^ (e - 6)))%R) by (rewrite <- bpow_pow2 by lia; change 64%R with (bpow radix2 6); rewrite <- bpow_plus; f_equal; lia). rewrite Eb in *.
      replace (IZR m * (64 * IZR (2 ^ (e - 6))))%R with (IZR (64 * (m * 2 ^ (e - 6)))) in * by (rewrite !mult_IZR; ring). apply lt_IZR in C. apply lt_IZR in S. lia. }
  destruct (of_double_steps nan j d B F) as (h & Eh & Bh & Fh & R). { rewrite E. split; [apply Bd|exact L]. }
  rewrite Eh. f_equal. apply half_real_inj; auto.
  - rewrite R, E. rewrite (round_generic radix2 fmt_float) by (try apply valid_rnd_N; now apply half_is_float). apply round_generic; [apply valid_rnd_N|exact G].
  - rewrite R, E. rewrite (round_generic radix2 fmt_float) by (try apply valid_rnd_N; now apply half_is_float). rewrite round_generic by (try apply valid_rnd_N; exact G).
    intros C. rewrite C, Rabs_R0 in Bd. pose proof (bpow_gt_0 radix2 (-14)). lra.
Qed.
Lemma of_int_nearest j n : n <> 0 -> Z.abs n <= 65519 -> exists h, half_of_int (Some j) n = Ok h /\ bits16 h /\ half_finite h /\ half_real h = half_rounded (Zle_bool 0) (IZR n).
Proof.
  intros N H. assert (En : F2R (Float radix2 n 0) = IZR n) by (unfold F2R; cbn; ring).
  assert (A : (1 <= Rabs (IZR n) <= 65519)%R) by (rewrite <- abs_IZR; split; apply IZR_le; lia).
  destruct (normalize_float n 0 false) as (Q1 & Q2). { rewrite En. lra. }
  rewrite En, round_generic in Q2; [|apply valid_rnd_N|].
  - unfold half_of_int, float_of_int. set (q := binary_normalize 24 128 eq_refl eq_refl mode_NE n 0 false) in *. destruct (float_of_result q) as (Bf & _). destruct (result_finite q Q1) as (Ff & Rf & _). rewrite Q2 in Rf.
    destruct (f2h_round j (bits_of_b32 q) Bf Ff) as (h & E & Bh & Fh & _ & Rh).
    { rewrite Rf. split; [|lra]. apply Rle_trans with 1%R; [|lra]. change 1%R with (bpow radix2 0). apply bpow_le. lia. }
    exists h. rewrite Rf in Rh. auto.
  - apply generic_format_FLT. apply (FLT_spec _ _ _ _ (Float radix2 n 0)); cbn [Fnum Fexp]; [now symmetry|change (Zpower radix2 24) with 16777216; lia|lia].
Qed.

(** ** From half *)
Lemma float_is_double v : generic_format radix2 fmt_float v -> generic_format radix2 fmt_double v.
Proof.
  intros G. apply FLT_format_generic in G; [|reflexivity]. destruct G as [[m e] E Hm He]. cbn [Fnum Fexp] in *. apply generic_format_FLT. apply (FLT_spec _ _ _ _ (Float radix2 m e)); cbn [Fnum Fexp]; auto; [|lia].
  eapply Z.lt_trans; [exact Hm|reflexivity].
Qed.
Lemma to_double_exact nan J h : bits16 h -> half_finite h -> exists d, half_to_double nan J h = Ok d /\ bits64 d /\ double_finite d /\ dsign d = hsign h /\ double_real d = half_real h.
Proof.
  intros B F. destruct (h2f_seen J h B) as (f & E & Bf & _ & S). unfold half_to_double. rewrite E. unfold omap. cbn [bind].
  inversion S as [h' q' F' Q1 Q2 Q3|h' I|h' q' I Q]; subst; try (destruct I; contradiction).
  eexists. split; [reflexivity|]. unfold double_of_float. assert (Hs : forall s, s = sign_of h -> hsign h = if s then 1 else 0) by (intros s ->; unfold sign_of; destruct (hsign_cases h B) as [-> | ->]; reflexivity).
  destruct (b32_of_bits f) as [s|s|s p e|s m e Hm] eqn:Ef; try discriminate.
  - destruct (double_of_result (B754_zero 53 1024 s)) as (Bd & _). destruct (double_result_finite (B754_zero 53 1024 s) eq_refl) as (Fd & Rd & Sd). split; [exact Bd|]. split; [exact Fd|]. split; [rewrite Sd; symmetry; now apply Hs|]. rewrite Rd. exact Q2.
  - cbn [B2R] in Q2. cbn [Bsign] in Q3. pose proof (binary_normalize_correct 53 1024 eq_refl eq_refl mode_NE (cond_Zopp s (Zpos m)) e s) as C. set (q := binary_normalize 53 1024 eq_refl eq_refl mode_NE (cond_Zopp s (Zpos m)) e s) in *.
    rewrite Q2 in C. change (SpecFloat.fexp 53 1024) with fmt_double in C. rewrite round_generic in C; [|apply valid_rnd_round_mode|apply float_is_double, half_is_float; now apply half_in_format].
    rewrite Rlt_bool_true in C.
    + destruct C as (C1 & C2 & C3). destruct (double_of_result q) as (Bd & _). destruct (double_result_finite q C2) as (Fd & Rd & Sd). split; [exact Bd|]. split; [exact Fd|]. split; [|now rewrite Rd].
      rewrite Sd, C3, <- Q2. rewrite (Hs s Q3). destruct (Rcompare_spec (F2R (Float radix2 (cond_Zopp s (Zpos m)) e)) 0) as [L|L|L]; destruct s; auto; exfalso; cbn [cond_Zopp] in L.
      * apply Rlt_not_le in L. apply L. apply F2R_ge_0. cbn; lia.
      * apply Rlt_not_le in L. apply L. apply F2R_le_0. cbn; lia.
    + pose proof (units_bound h B F) as U. rewrite half_real_bpow, Rabs_mult, (Rabs_pos_eq (bpow _ _)), <- abs_IZR by apply bpow_ge_0.
      apply Rlt_trans with (IZR overflow_threshold * bpow radix2 (-24))%R; [apply Rmult_lt_compat_r; [apply bpow_gt_0|now apply IZR_lt]|].
      unfold overflow_threshold. rewrite mult_IZR, <- bpow_pow2, Rmult_assoc, <- bpow_plus by lia. apply Rlt_trans with (bpow radix2 17); [cbn; lra|now apply bpow_lt].
Qed.
Lemma to_int_trunc lo hi J h : lo <= 0 <= hi -> bits16 h -> half_finite h ->
  half_to_int lo hi J h = if (lo <=? Ztrunc (half_real h)) && (Ztrunc (half_real h) <=? hi) then Ok (Ztrunc (half_real h)) else UB.
Proof.
  intros Hr B F. destruct (h2f_seen J h B) as (f & E & Bf & _ & S). unfold half_to_int. rewrite E. cbn [bind].
  inversion S as [h' q' F' Q1 Q2 Q3|h' I|h' q' I Q]; subst; try (destruct I; contradiction). unfold int_of_float. rewrite <- Q2.
  destruct (b32_of_bits f) as [s|s|s p e|s m e Hm] eqn:Ef; try discriminate.
  - cbn [B2R]. rewrite (Ztrunc_IZR 0). replace ((lo <=? 0) && (0 <=? hi)) with true by lia. reflexivity.
  - cbn [B2R]. assert (T : Ztrunc (F2R (Float radix2 (cond_Zopp s (Zpos m)) e)) = cond_Zopp s (if 0 <=? e then Zpos m * 2 ^ e else Zpos m / 2 ^ (- e))).
    { assert (P : Ztrunc (F2R (Float radix2 (Zpos m) e)) = if 0 <=? e then Zpos m * 2 ^ e else Zpos m / 2 ^ (- e)).
      { unfold F2R. cbn [Fnum Fexp]. destruct (0 <=? e) eqn:He.
        - rewrite bpow_pow2, <- mult_IZR by lia. apply Ztrunc_IZR.
        - rewrite Ztrunc_floor by (apply Rmult_le_pos; [now apply IZR_le|apply bpow_ge_0]). replace e with (- - e) at 1 by lia. rewrite bpow_opp, bpow_pow2 by lia. apply Zfloor_div. pose proof (pow_pos (- e)). lia. }
      destruct s; cbn [cond_Zopp]; [|exact P]. rewrite <- P. change (Zneg m) with (- Zpos m). rewrite <- Ztrunc_opp. f_equal. unfold F2R. cbn [Fnum Fexp]. rewrite opp_IZR. ring. }
    rewrite T. reflexivity.
Qed.
Lemma to_int_undefined lo hi J h : bits16 h -> ~ half_finite h -> half_to_int lo hi J h = UB.
Proof.
  intros B F. destruct (h2f_seen J h B) as (f & E & Bf & _ & S). unfold half_to_int. rewrite E. cbn [bind].
  inversion S as [h' q' F' Q1 Q2 Q3|h' I|h' q' I Q]; subst; [contradiction| |]; unfold int_of_float.
  - match goal with H : _ = b32_of_bits f |- _ => rewrite <- H end. reflexivity.
  - destruct (b32_of_bits f); try discriminate; reflexivity.
Qed.
Lemma to_double_inf nan J h : bits16 h -> half_inf h -> exists d, half_to_double nan J h = Ok d /\ bits64 d /\ double_inf d /\ dsign d = hsign h.
Proof.
  intros B I. destruct (h2f_seen J h B) as (f & E & Bf & _ & S). unfold half_to_double. rewrite E. unfold omap. cbn [bind]. apply (inf_seen h _ I) in S. unfold double_of_float. rewrite S. eexists. split; [reflexivity|].
  unfold sign_of. destruct (hsign_cases h B) as [-> | ->]; (split; [split; [discriminate|reflexivity]|]); (split; [split; reflexivity|reflexivity]).
Qed.
Lemma double_round_trip nan nan' j h : bits16 h -> half_normal h -> (do d <- half_to_double nan (Some j) h; half_of_double nan' (Some j) d) = Ok h.
Proof.
  intros B N. assert (F : half_finite h) by (unfold half_normal, half_finite in *; lia). destruct (to_double_exact nan (Some j) h B F) as (d & E & Bd & Fd & _ & R). rewrite E. cbn [bind]. now apply of_double_exact.
Qed.
