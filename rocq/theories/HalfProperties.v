(** Properties C35-C38: [half]. *)
From Verif Require Import Base HalfModel HalfSpec HalfBits HalfConvProofs HalfProofs HalfAddProofs HalfSumProofs HalfMulProofs HalfMulAll.
From Coq Require Import ZifyNat ZifyN ZifyBool.
Ltac Zify.zify_post_hook ::= idtac.
Local Open Scope Z_scope.
Local Strategy 1000 [halfAdd halfMul floatToHalf halfToFloat].

(** A machine whose shifter looks at the low five bits of the count. *)
Definition masked_shift (a s : Z) : Z := Z.shiftr a (s mod 32).
Definition round_trip (J : shift_sem) (h : Z) : outcome Z := do f <- half_to_float J h; half_of_float J f.

(** ** C35 *)
(** half -> float is exact for all 65536 patterns, uses no undefined shift, keeps infinities and NaNs. *)
Theorem C35_half_to_float_exact : forall J h, bits16 h ->
  exists f, half_to_float J h = Ok f /\ bits32 f /\ fsign f = hsign h /\
    (half_finite h -> float_finite f /\ float_units f = half_units h * 2 ^ 125) /\
    (half_inf h -> float_inf f) /\ (half_nan h -> float_nan f).
Proof. exact h2f_value. Qed.
Print Assumptions C35_half_to_float_exact.
Example C35_half_to_float_exact_ex : half_to_float None 0x3c00 = Ok 0x3f800000 /\ half_to_float None 0x8001 = Ok 0xb3800000.
Proof. split; vm_compute; reflexivity. Qed.

(** Missing: zeros (their way back goes through an undefined shift) and NaN. *)
Theorem C35_round_trip_partial : forall j h, bits16 h -> ~ half_nan h -> ~ half_zero h -> round_trip (Some j) h = Ok h.
Proof. exact back_and_forth. Qed.
Print Assumptions C35_round_trip_partial.
Example C35_round_trip_partial_ex : bits16 0x03ff /\ ~ half_nan 0x03ff /\ ~ half_zero 0x03ff /\ round_trip (Some masked_shift) 0x03ff = Ok 0x03ff.
Proof. unfold bits16, half_nan, half_zero. vm_compute. intuition congruence. Qed.

(** Zeros come back if the machine returns a small enough value for the out-of-range shift of 2^23. *)
Theorem C35_round_trip_zero_partial : forall j h, bits16 h -> half_zero h -> 0 <= j (2 ^ 23) 113 < 2 ^ 13 -> round_trip (Some j) h = Ok h.
Proof.
  intros j h B Z H. unfold round_trip. pose proof (zero_back j h B Z) as Q. unfold half_to_float, half_of_float.
  rewrite w32_id in Q by lia. rewrite Z.div_small, Z.lor_0_r, w16_id in Q by (unfold bits16 in *; lia). exact Q.
Qed.
Print Assumptions C35_round_trip_zero_partial.
Example C35_round_trip_zero_ex : half_zero 0x8000 /\ 0 <= masked_shift (2 ^ 23) 113 < 2 ^ 13.
Proof. unfold half_zero. vm_compute. intuition congruence. Qed.

Theorem C35_round_trip_undefined_refuted : exists h, bits16 h /\ half_normal h /\ round_trip None h = UB.
Proof. exists 0x3c00. split; [split; vm_compute; congruence|]. split; [split; vm_compute; congruence|]. vm_compute. reflexivity. Qed.
Print Assumptions C35_round_trip_undefined_refuted.
Theorem C35_signalling_nan_refuted : exists h, bits16 h /\ half_nan h /\ exists r, round_trip (Some masked_shift) h = Ok r /\ half_inf r.
Proof. exists 0x7c01. split; [split; vm_compute; congruence|]. split; [split; vm_compute; congruence|]. exists 0x7c00. split; [vm_compute; reflexivity|]. split; reflexivity. Qed.
Print Assumptions C35_signalling_nan_refuted.

(** ** C36 *)
(** From 2^-14 up to the overflow threshold 65520 the nearest half is returned; ties go away from zero.
    Missing: ties to even, subnormal results, NaN payloads, definedness -- all refuted below. *)
Theorem C36_nearest_partial : forall j f, bits32 f -> float_finite f -> 2 ^ 135 <= float_magnitude f < overflow_threshold * 2 ^ 125 ->
  exists h, half_of_float (Some j) f = Ok h /\ hsign h = fsign f /\
    nearest (2 ^ 125) h (float_units f) /\ ties_away (2 ^ 125) h (float_units f).
Proof.
  intros j f B Fi [H1 H2]. apply f2h_nearest; auto. destruct (fpack_of f B) as ((Fs & Fe & Fm) & _).
  destruct (Z.le_gt_cases 113 (fexp f)) as [L|G]; auto. exfalso. unfold float_magnitude in H1. destruct (fexp f =? 0) eqn:E.
  - assert (2 ^ 23 < 2 ^ 135) by reflexivity. lia.
  - assert (P : 2 ^ (fexp f - 1) <= 2 ^ 111) by (apply Z.pow_le_mono_r; lia). assert (0 < 2 ^ (fexp f - 1)) by (apply pow_pos; lia).
    assert ((2 ^ 23 + ffrac f) * 2 ^ (fexp f - 1) < 2 ^ 24 * 2 ^ 111); [|change (2 ^ 135) with (2 ^ 24 * 2 ^ 111) in H1; lia].
    apply Z.lt_le_trans with (2 ^ 24 * 2 ^ (fexp f - 1)); [apply Z.mul_lt_mono_pos_r; lia|]. apply Z.mul_le_mono_nonneg_l; lia.
Qed.
Print Assumptions C36_nearest_partial.
Example C36_nearest_ex : bits32 0x3eaaaaab /\ float_finite 0x3eaaaaab /\ 2 ^ 135 <= float_magnitude 0x3eaaaaab < overflow_threshold * 2 ^ 125 /\
  half_of_float (Some masked_shift) 0x3eaaaaab = Ok 0x3555.
Proof. unfold bits32, float_finite. vm_compute. intuition congruence. Qed.

(** Infinity, and every finite float from 2^17 on (or that rounds up to 65536), becomes an infinity of its sign. *)
Theorem C36_overflow_partial : forall j f, bits32 f -> ~ float_nan f ->
  (144 <= fexp f \/ fexp f = 142 /\ 2 ^ 23 - 2 ^ 12 <= ffrac f) ->
  exists h, half_of_float (Some j) f = Ok h /\ hsign h = fsign f /\ half_inf h.
Proof. exact f2h_inf. Qed.
Print Assumptions C36_overflow_partial.
Example C36_overflow_ex : ~ float_nan 0xff800000 /\ 144 <= fexp 0xff800000 /\ half_of_float (Some masked_shift) 0xff800000 = Ok 0xfc00.
Proof. unfold float_nan. vm_compute. intuition congruence. Qed.

Theorem C36_quiet_nan_partial : forall j f, bits32 f -> float_nan f -> 2 ^ 22 <= ffrac f ->
  exists h, half_of_float (Some j) f = Ok h /\ hsign h = fsign f /\ half_nan h.
Proof. intros j f B [E _] H. apply f2h_quiet_nan; auto. Qed.
Print Assumptions C36_quiet_nan_partial.
Example C36_quiet_nan_ex : bits32 0x7fc00000 /\ float_nan 0x7fc00000 /\ 2 ^ 22 <= ffrac 0x7fc00000.
Proof. unfold bits32, float_nan. vm_compute. intuition congruence. Qed.

(** The conversion is defined by the standard exactly for biased exponents 82 to 113. *)
Theorem C36_defined_refuted : forall f, bits32 f -> (half_of_float None f = UB <-> ~ 82 <= fexp f <= 113).
Proof. intros f B. destruct (fpack_of f B) as (F & E). unfold half_of_float. rewrite <- E at 1. apply f2h_strict; auto. Qed.
Print Assumptions C36_defined_refuted.
Example C36_defined_refuted_ex : half_of_float None 0x3f800000 = UB.
Proof. vm_compute. reflexivity. Qed.

(** 1 + 2^-11 lies halfway between 0x3c00 and 0x3c01; the odd one is chosen. *)
Theorem C36_ties_to_even_refuted : exists h, half_of_float (Some masked_shift) 0x3f801000 = Ok h /\ ~ ties_to_even (2 ^ 125) h (float_units 0x3f801000).
Proof.
  exists 0x3c01. split; [vm_compute; reflexivity|]. intros T. specialize (T 0x3c00).
  assert (X : hfrac 0x3c01 mod 2 = 0); [|discriminate X]. apply T; [split; vm_compute; congruence|vm_compute; congruence|vm_compute; congruence|vm_compute; reflexivity].
Qed.
Print Assumptions C36_ties_to_even_refuted.

(** 70000 gives a NaN, 131071 gives -0, and the largest float below 2^-14 gives half its value. *)
Theorem C36_wrong_values_refuted :
  half_of_float (Some masked_shift) 0x4788b800 = Ok 0x7c46 /\ half_nan 0x7c46 /\
  half_of_float (Some masked_shift) 0x47ffff80 = Ok 0x8000 /\
  half_of_float (Some masked_shift) 0x387fffff = Ok 0x200 /\ ~ nearest (2 ^ 125) 0x200 (float_units 0x387fffff) /\
  half_of_float (Some masked_shift) 0x28800000 = Ok 0x400.
Proof.
  split; [vm_compute; reflexivity|]. split; [split; vm_compute; congruence|]. split; [vm_compute; reflexivity|]. split; [vm_compute; reflexivity|].
  split; [|vm_compute; reflexivity]. intros (_ & _ & N). specialize (N 0x400 ltac:(split; vm_compute; congruence) ltac:(vm_compute; congruence)).
  vm_compute in N. apply N. reflexivity.
Qed.
Print Assumptions C36_wrong_values_refuted.
Theorem C36_signalling_nan_refuted : forall j f, bits32 f -> float_nan f -> ffrac f < 2 ^ 22 ->
  exists h, half_of_float (Some j) f = Ok h /\ half_inf h.
Proof.
  intros j f B [E N] H. destruct (fpack_of f B) as ((_ & _ & Fm) & _). destruct (f2h_signalling_nan j f B E ltac:(lia)) as (h & H1 & _ & H2). exists h. split; auto.
Qed.
Print Assumptions C36_signalling_nan_refuted.

(** ** C37 *)
(** Missing: the two zeros compared with each other, and NaN. *)
Theorem C37_order_partial : forall l r, bits16 l -> bits16 r -> ~ half_nan l -> ~ half_nan r -> ~ (half_zero l /\ half_zero r) ->
  half_lt l r = (order_key l <? order_key r) /\ half_le l r = (order_key l <=? order_key r) /\
  half_gt l r = (order_key l >? order_key r) /\ half_ge l r = (order_key l >=? order_key r) /\
  half_eq l r = (order_key l =? order_key r) /\ half_ne l r = negb (order_key l =? order_key r).
Proof.
  intros l r Bl Br Nl Nr Nz. pose proof (lt_spec l r Bl Br Nl Nr Nz) as L. pose proof (eq_spec l r Bl Br Nl Nr Nz) as E.
  assert (LE : half_le l r = (order_key l <=? order_key r)) by (unfold half_le; rewrite L, E; lia).
  split; [auto|]. split; [auto|]. unfold half_gt, half_ge. rewrite LE, L. split; [lia|]. split; [lia|]. split; [auto|].
  change (half_ne l r) with (negb (half_eq l r)). rewrite E. reflexivity.
Qed.
Print Assumptions C37_order_partial.
Example C37_order_ex : order_key 0xc000 < order_key 0x0001 /\ half_lt 0xc000 0x0001 = true /\ ~ half_nan 0xc000 /\ ~ half_nan 0x0001 /\ ~ (half_zero 0xc000 /\ half_zero 0x0001).
Proof. unfold half_nan, half_zero. vm_compute. intuition congruence. Qed.

Theorem C37_zeros_refuted : half_units 0x8000 = half_units 0 /\ half_eq 0x8000 0 = false /\ half_lt 0x8000 0 = true.
Proof. vm_compute. auto. Qed.
Print Assumptions C37_zeros_refuted.
Theorem C37_nan_refuted : half_nan 0x7e00 /\ half_eq 0x7e00 0x7e00 = true /\ half_lt 0x3c00 0x7e00 = true.
Proof. split; [split; vm_compute; congruence|]. vm_compute. auto. Qed.
Print Assumptions C37_nan_refuted.

(** ** C38 *)
(** Sums of finite halfs below the overflow threshold are correctly rounded (ties away from zero) on every
    machine that returns something for out-of-range shifts. *)
Theorem C38_add_rounds : forall j x y, bits16 x -> bits16 y -> half_finite x -> half_finite y ->
  Z.abs (half_units x + half_units y) < overflow_threshold ->
  exists r, half_plus (Some j) x y = Ok r /\ nearest 1 r (half_units x + half_units y) /\ ties_away 1 r (half_units x + half_units y).
Proof. exact halfAdd_nearest. Qed.
Print Assumptions C38_add_rounds.
Example C38_add_rounds_ex : half_plus (Some masked_shift) 0x3c00 0x1001 = Ok 0x3c01 /\ Z.abs (half_units 0x3c00 + half_units 0x1001) < overflow_threshold.
Proof. split; vm_compute; reflexivity. Qed.

Theorem C38_subtract_rounds : forall j x y, bits16 x -> bits16 y -> half_finite x -> half_finite y ->
  Z.abs (half_units x - half_units y) < overflow_threshold ->
  exists r, half_minus (Some j) x y = Ok r /\ nearest 1 r (half_units x - half_units y) /\ ties_away 1 r (half_units x - half_units y).
Proof.
  intros j x y Bx By Fx Fy H. destruct (halfNeg_units y By) as (B & E1 & _ & _ & U). unfold half_minus, halfSub.
  replace (half_units x - half_units y) with (half_units x + half_units (halfNeg y)) in * by lia.
  apply halfAdd_nearest; auto. unfold half_finite in *. rewrite E1. auto.
Qed.
Print Assumptions C38_subtract_rounds.
Example C38_subtract_rounds_ex : half_minus (Some masked_shift) 0x4000 0x3c00 = Ok 0x3c00.
Proof. vm_compute. reflexivity. Qed.

(** Commutativity; missing: infinities and NaN (refuted below). *)
Theorem C38_add_commutes_partial : forall j x y, bits16 x -> bits16 y -> half_finite x -> half_finite y ->
  half_plus (Some j) x y = half_plus (Some j) y x.
Proof. exact halfAdd_comm. Qed.
Print Assumptions C38_add_commutes_partial.
Example C38_add_commutes_ex : half_finite 0x7bff /\ half_finite 0xfbff /\ half_plus (Some masked_shift) 0x7bff 0xfbff = Ok 0.
Proof. unfold half_finite. vm_compute. intuition congruence. Qed.

Theorem C38_add_zero : forall j x z, bits16 x -> bits16 z -> half_finite x -> half_zero z ->
  exists r, half_plus (Some j) x z = Ok r /\ half_finite r /\ half_units r = half_units x /\ (~ half_zero x -> r = x).
Proof.
  intros j x z Bx Bz Fx [Z1 Z2]. assert (U0 : half_units z = 0) by (unfold half_units, half_magnitude; rewrite Z1, Z2; destruct (hsign z =? 0); reflexivity).
  assert (Fz : half_finite z) by (unfold half_finite; lia). pose proof (units_bound x Bx Fx) as Bd.
  destruct (halfAdd_nearest j x z Bx Bz Fx Fz ltac:(rewrite U0, Z.add_0_r; auto)) as (r & E & N & _). rewrite U0, Z.add_0_r in N.
  pose proof (nearest_exact r x Bx Fx N) as U. destruct N as (Br & Fr & _). exists r. split; [exact E|]. split; [auto|]. split; [auto|].
  intros NZ. apply units_inj; auto. rewrite U. intros Q. apply NZ. pose proof (half_units_abs x Bx Fx) as A. rewrite Q in A.
  unfold half_zero. destruct (hpack_of x Bx) as ((_ & Re & Rm) & _). unfold half_magnitude in A. destruct (hexp x =? 0) eqn:E0; [lia|].
  pose proof (pow_pos (hexp x - 1) ltac:(lia)). change (Z.abs 0) with 0 in A. nia.
Qed.
Print Assumptions C38_add_zero.
Example C38_add_zero_ex : half_plus (Some masked_shift) 0x8001 0x8000 = Ok 0x8001 /\ half_zero 0x8000.
Proof. unfold half_zero. vm_compute. auto. Qed.

Theorem C38_self_difference : forall j x, bits16 x -> half_finite x -> half_minus (Some j) x x = Ok 0.
Proof. exact halfSub_self. Qed.
Print Assumptions C38_self_difference.
Example C38_self_difference_ex : half_finite 0x83ff /\ half_minus (Some masked_shift) 0x83ff 0x83ff = Ok 0.
Proof. unfold half_finite. vm_compute. intuition congruence. Qed.

(** Unary minus flips the sign of the value and nothing else. *)
Theorem C38_negate : forall h, bits16 h -> bits16 (half_negate h) /\ half_negate h <> h /\ half_negate (half_negate h) = h /\ half_units (half_negate h) = - half_units h.
Proof.
  intros h B. rewrite half_negate_eq by auto. destruct (halfNeg_units h B) as (B' & E1 & E2 & E3 & U). split; [auto|]. split.
  { intros Q. rewrite Q in E3. destruct (hpack_of h B) as ((Rs & _) & _). lia. }
  split; [|exact U]. rewrite half_negate_eq by auto. destruct (hpack_of h B) as (F & E). rewrite <- E at 1. rewrite (halfNeg_eq _ _ _ F).
  pose proof F as (Rs & Re & Rm). rewrite halfNeg_eq by (unfold hfields; lia). replace (1 - (1 - hsign h)) with (hsign h) by lia. exact E.
Qed.
Print Assumptions C38_negate.
Example C38_negate_ex : half_negate 0x3c00 = 0xbc00.
Proof. vm_compute. reflexivity. Qed.

(** ++h and --h add and subtract one, rounded. *)
Theorem C38_pre_increment_decrement : forall j h, bits16 h -> half_finite h ->
  (exists r, half_pre_inc (Some j) h = Ok (r, r) /\ nearest 1 r (half_units h + 2 ^ 24)) /\
  (exists r, half_pre_dec (Some j) h = Ok (r, r) /\ nearest 1 r (half_units h - 2 ^ 24)).
Proof.
  intros j h B F.
  assert (T : forall d, Z.abs d = 2 ^ 24 -> Z.abs (half_units h + d) < overflow_threshold).
  { intros d Hd. pose proof (half_units_abs h B F) as A. destruct (half_shape h B F) as (M & q & HM & Hq & Eq). rewrite Eq in A.
    assert (P : 2 ^ q <= 2 ^ 29) by (apply Z.pow_le_mono_r; lia). pose proof (pow_pos q ltac:(lia)).
    assert (M * 2 ^ q <= 2047 * 2 ^ 29) by nia. unfold overflow_threshold. lia. }
  assert (O : bits16 0x3c00 /\ half_finite 0x3c00 /\ half_units 0x3c00 = 2 ^ 24) by (unfold bits16, half_finite; vm_compute; intuition congruence). destruct O as (O1 & O2 & O3).
  split.
  - destruct (C38_add_rounds j h 0x3c00 B O1 F O2) as (r & E & N & _); [rewrite O3; apply T; lia|]. exists r. unfold half_pre_inc. unfold half_plus in E. rewrite E, <- O3. split; [reflexivity|auto].
  - destruct (C38_subtract_rounds j h 0x3c00 B O1 F O2) as (r & E & N & _); [rewrite O3, <- Z.add_opp_r; apply T; reflexivity|]. exists r. unfold half_pre_dec. unfold half_minus in E. rewrite E, <- O3. split; [reflexivity|auto].
Qed.
Print Assumptions C38_pre_increment_decrement.
Example C38_pre_increment_ex : half_pre_inc (Some masked_shift) 0x4000 = Ok (0x4200, 0x4200).
Proof. vm_compute. reflexivity. Qed.

(** h++ and h-- leave the object as it was and return the new value. *)
Theorem C38_post_increment_refuted : forall J h,
  (forall o r, half_post_inc J h = Ok (o, r) -> o = h) /\ (forall o r, half_post_dec J h = Ok (o, r) -> o = h).
Proof. intros J h. unfold half_post_inc, half_post_dec. split; intros o r; [destruct (halfAdd J h 15360)|destruct (halfSub J h 15360)]; cbn [bind]; congruence. Qed.
Print Assumptions C38_post_increment_refuted.
Example C38_post_increment_refuted_ex : half_post_inc (Some masked_shift) 0x3c00 = Ok (0x3c00, 0x4000).
Proof. vm_compute. reflexivity. Qed.

(** Infinities and NaN do not propagate as IEEE 754 asks, addition of infinities depends on the order, and an
    overflowing sum is a NaN. *)
Theorem C38_add_special_refuted :
  half_plus (Some masked_shift) 0x7e00 0x3c00 = Ok 0x7c00 /\ half_nan 0x7e00 /\ half_inf 0x7c00 /\
  half_plus (Some masked_shift) 0xfc00 0xfc00 = Ok 0xfe00 /\ half_nan 0xfe00 /\
  half_plus (Some masked_shift) 0x7c00 0xfc00 <> half_plus (Some masked_shift) 0xfc00 0x7c00 /\
  half_plus (Some masked_shift) 0x7bff 0x7bff = Ok 0x7fff /\ half_nan 0x7fff.
Proof. unfold half_nan, half_inf. vm_compute. intuition congruence. Qed.
Print Assumptions C38_add_special_refuted.
Theorem C38_undefined_refuted : half_plus None 0 0 = UB /\ half_times None 0x3c00 0x3c00 = UB.
Proof. split; vm_compute; reflexivity. Qed.
Print Assumptions C38_undefined_refuted.

(** Products of normal halfs whose exponents sum to a normal result are correctly rounded, unless the product
    of the significands lies in the last half step below 2^21, where the rounding carry is lost (refuted below). *)
Theorem C38_multiply_rounds_partial : forall j x y, bits16 x -> bits16 y -> half_normal x -> half_normal y -> 16 <= hexp x + hexp y ->
  Z.abs (half_units x * half_units y) < overflow_threshold * 2 ^ 24 ->
  ~ (2 ^ 21 - 512 <= (1024 + hfrac x) * (1024 + hfrac y) < 2 ^ 21) ->
  exists r, half_times (Some j) x y = Ok r /\ nearest (2 ^ 24) r (half_units x * half_units y) /\ ties_away (2 ^ 24) r (half_units x * half_units y).
Proof. exact halfMul_nearest. Qed.
Print Assumptions C38_multiply_rounds_partial.
Example C38_multiply_rounds_ex : half_normal 0x3e00 /\ half_normal 0xc100 /\ 16 <= hexp 0x3e00 + hexp 0xc100 /\
  ~ (2 ^ 21 - 512 <= (1024 + hfrac 0x3e00) * (1024 + hfrac 0xc100) < 2 ^ 21) /\ half_times (Some masked_shift) 0x3e00 0xc100 = Ok 0xc380.
Proof. unfold half_normal. vm_compute. intuition congruence. Qed.
(** The order of the factors never matters, on any bit patterns. *)
Theorem C38_multiply_commutes : forall j x y, bits16 x -> bits16 y -> half_times (Some j) x y = half_times (Some j) y x.
Proof. exact halfMul_commutes. Qed.
Print Assumptions C38_multiply_commutes.
Example C38_multiply_commutes_ex : half_times (Some masked_shift) 0x0001 0xfbff = Ok 0x8000 /\ half_times (Some masked_shift) 0xfbff 0x0001 = Ok 0x8000.
Proof. vm_compute. intuition congruence. Qed.
(** Multiplying by one changes nothing, subnormals and infinities included. *)
Theorem C38_multiply_one : forall j x, bits16 x -> ~ half_nan x -> half_times (Some j) x 0x3c00 = Ok x /\ half_times (Some j) 0x3c00 x = Ok x.
Proof. exact halfMul_by_one. Qed.
Print Assumptions C38_multiply_one.
Example C38_multiply_one_ex : ~ half_nan 0x8001 /\ half_times (Some masked_shift) 0x8001 0x3c00 = Ok 0x8001 /\ half_times (Some masked_shift) 0xfbff 0x3c00 = Ok 0xfbff.
Proof. unfold half_nan. vm_compute. intuition congruence. Qed.

(** Below the normal range: the product of two normal halfs is within two units of the exact product, and is the
    nearest half, ties away from zero, when the exponent fields sum to at least 7.  Products that would round up
    to the smallest normal half are excluded (refuted below). *)
Theorem C38_multiply_underflow_partial : forall j x y, bits16 x -> bits16 y -> half_normal x -> half_normal y -> hexp x + hexp y <= 15 ->
  2 * Z.abs (half_units x * half_units y) < 2047 * 2 ^ 24 ->
  exists r, half_times (Some j) x y = Ok r /\ bits16 r /\ hexp r = 0 /\ hsign r = product_sign x y /\
    Z.abs (half_units r * 2 ^ 24 - half_units x * half_units y) < 2 * 2 ^ 24 /\
    (7 <= hexp x + hexp y -> nearest (2 ^ 24) r (half_units x * half_units y) /\ ties_away (2 ^ 24) r (half_units x * half_units y)).
Proof. exact halfMul_small. Qed.
Print Assumptions C38_multiply_underflow_partial.
Example C38_multiply_underflow_ex : half_normal 0x0e55 /\ half_normal 0x9812 /\ hexp 0x0e55 + hexp 0x9812 = 9 /\
  2 * Z.abs (half_units 0x0e55 * half_units 0x9812) < 2047 * 2 ^ 24 /\ half_times (Some masked_shift) 0x0e55 0x9812 = Ok 0x800d.
Proof. unfold half_normal. vm_compute. intuition congruence. Qed.
(** A normal factor of magnitude below two and a zero or subnormal one: within one unit.  Missing: larger normal
    factors, which shift by a negative count (refuted below). *)
Theorem C38_multiply_subnormal_partial : forall j x y, bits16 x -> bits16 y -> 1 <= hexp x <= 15 -> hexp y = 0 ->
  2 * Z.abs (half_units x * half_units y) < 2047 * 2 ^ 24 ->
  exists r, half_times (Some j) x y = Ok r /\ bits16 r /\ hexp r = 0 /\ hsign r = product_sign x y /\
    Z.abs (half_units r * 2 ^ 24 - half_units x * half_units y) < 2 ^ 24 /\
    (hexp x = 15 -> nearest (2 ^ 24) r (half_units x * half_units y) /\ ties_away (2 ^ 24) r (half_units x * half_units y)).
Proof. exact halfMul_subnormal. Qed.
Print Assumptions C38_multiply_subnormal_partial.
Example C38_multiply_subnormal_ex : hexp 0x3e00 = 15 /\ hexp 0x8101 = 0 /\ 2 * Z.abs (half_units 0x3e00 * half_units 0x8101) < 2047 * 2 ^ 24 /\
  half_times (Some masked_shift) 0x3e00 0x8101 = Ok 0x8182.
Proof. vm_compute. intuition congruence. Qed.
(** Two subnormals multiply to a signed zero, which is the nearest half. *)
Theorem C38_multiply_subnormals : forall j x y, bits16 x -> bits16 y -> hexp x = 0 -> hexp y = 0 ->
  half_times (Some j) x y = Ok (product_sign x y * 2 ^ 15).
Proof. exact halfMul_subnormals. Qed.
Print Assumptions C38_multiply_subnormals.
Example C38_multiply_subnormals_ex : hexp 0x03ff = 0 /\ hexp 0x83ff = 0 /\ half_times (Some masked_shift) 0x03ff 0x83ff = Ok 0x8000.
Proof. vm_compute. intuition congruence. Qed.
(** Infinity times any number but zero is the infinity of the right sign; infinity times zero is a NaN; zero times
    a finite number is a zero of the right sign wherever shifting zero by too much gives zero. *)
Theorem C38_multiply_special : forall j x y, bits16 x -> bits16 y ->
  (half_inf x -> ~ half_zero y -> ~ half_nan y -> half_times (Some j) x y = Ok (product_sign x y * 2 ^ 15 + 0x7c00)) /\
  (half_inf x -> half_zero y -> exists r, half_times (Some j) x y = Ok r /\ half_nan r) /\
  (half_finite x -> half_zero y -> (forall s, j 0 s = 0) -> half_times (Some j) x y = Ok (product_sign x y * 2 ^ 15)).
Proof.
  intros j x y Bx By. split; [|split].
  - intros I Z _. now apply halfMul_inf.
  - intros I Z. exists 0xfe00. split; [now apply halfMul_inf_zero|]. unfold half_nan. vm_compute. intuition congruence.
  - intros F Z J. now apply halfMul_zero.
Qed.
Print Assumptions C38_multiply_special.
Example C38_multiply_special_ex : half_inf 0xfc00 /\ half_times (Some masked_shift) 0xfc00 0xbc00 = Ok 0x7c00 /\
  half_times (Some masked_shift) 0xfc00 0x8000 = Ok 0xfe00 /\ half_times (Some masked_shift) 0xfbff 0x0000 = Ok 0x8000.
Proof. unfold half_inf. vm_compute. intuition congruence. Qed.
(** A NaN factor never gives a NaN: the product is an infinity, whatever the other factor. *)
Theorem C38_multiply_nan_refuted : forall j x y, bits16 x -> bits16 y -> half_nan x ->
  half_times (Some j) x y = Ok (product_sign x y * 2 ^ 15 + 0x7c00) /\ half_inf (product_sign x y * 2 ^ 15 + 0x7c00).
Proof.
  intros j x y Bx By N. split; [now apply halfMul_nan|]. unfold product_sign. destruct (hsign x =? hsign y); unfold half_inf; vm_compute; intuition congruence.
Qed.
Print Assumptions C38_multiply_nan_refuted.

(** 1447/1024 * 1449/1024 rounds to 2 but gives 1; 300 * 300 gives NaN; NaN * 1 gives infinity; the smallest
    subnormal times two gives zero, and so does a product of normal halfs that rounds up to the smallest normal half. *)
Theorem C38_multiply_refuted :
  half_times (Some masked_shift) 0x3da7 0x3da9 = Ok 0x3c00 /\ ~ nearest (2 ^ 24) 0x3c00 (half_units 0x3da7 * half_units 0x3da9) /\
  half_times (Some masked_shift) 0x5cb0 0x5cb0 = Ok 0x7d7e /\ half_nan 0x7d7e /\
  half_times (Some masked_shift) 0x7e00 0x3c00 = Ok 0x7c00 /\
  half_times (Some masked_shift) 0x0001 0x4000 = Ok 0 /\
  half_times (Some masked_shift) 0x1da7 0x21a9 = Ok 0 /\ Z.abs (half_units 0x0400 * 2 ^ 24 - half_units 0x1da7 * half_units 0x21a9) < 2 ^ 23.
Proof.
  split; [vm_compute; reflexivity|]. split.
  { intros (_ & _ & N). specialize (N 0x4000 ltac:(split; vm_compute; congruence) ltac:(vm_compute; congruence)). vm_compute in N. apply N. reflexivity. }
  unfold half_nan. vm_compute. intuition congruence.
Qed.
Print Assumptions C38_multiply_refuted.

(** The named constants, in units of 2^-24; e and pi are the halfs nearest to 2.718281828 and 3.141592653. *)
Theorem C38_constants :
  half_units c_one = 2 ^ 24 /\ half_units c_two = 2 * 2 ^ 24 /\ half_units c_negativeTwo = - (2 * 2 ^ 24) /\ half_units c_half * 2 = 2 ^ 24 /\
  half_units c_zero = 0 /\ half_units c_negativeZero = 0 /\ hsign c_negativeZero = 1 /\ hsign c_zero = 0 /\
  half_inf c_infinity /\ hsign c_infinity = 0 /\ half_inf c_negativeInfinity /\ hsign c_negativeInfinity = 1 /\ half_nan c_nan /\
  half_units c_epsilon * 1024 = 2 ^ 24 /\
  (forall h, bits16 h -> half_finite h -> half_units c_min <= half_units h <= half_units c_max) /\
  (forall h, bits16 h -> half_finite h -> 0 < half_units h -> half_units c_minPositiveSubnormal <= half_units h) /\
  (forall h, bits16 h -> half_normal h -> 0 < half_units h -> half_units c_minPositive <= half_units h) /\
  (forall h, bits16 h -> hexp h = 0 -> half_units h <= half_units c_maxSubnormal) /\
  nearest (10 ^ 9) c_e (2718281828 * 2 ^ 24) /\ nearest (10 ^ 9) c_pi (3141592653 * 2 ^ 24).
Proof.
  do 14 (split; [first [vm_compute; reflexivity|split; vm_compute; congruence]|]).
  assert (MB : forall h, bits16 h -> half_finite h -> half_magnitude h <= 2047 * 2 ^ 29).
  { intros h B F. destruct (half_shape h B F) as (M & q & HM & Hq & ->). assert (P : 2 ^ q <= 2 ^ 29) by (apply Z.pow_le_mono_r; lia). pose proof (pow_pos q ltac:(lia)). nia. }
  split; [|split; [|split; [|split; [|split]]]].
  - intros h B F. specialize (MB h B F). pose proof (half_units_abs h B F). change (half_units c_min) with (- (2047 * 2 ^ 29)). change (half_units c_max) with (2047 * 2 ^ 29). lia.
  - intros h B F H. change (half_units c_minPositiveSubnormal) with 1. lia.
  - intros h B N H. change (half_units c_minPositive) with 1024. unfold half_normal in N. pose proof (half_units_abs h B ltac:(unfold half_finite; lia)) as A.
    destruct (hpack_of h B) as ((_ & _ & Rm) & _). unfold half_magnitude in A. replace (hexp h =? 0) with false in A by lia. pose proof (pow_pos (hexp h - 1) ltac:(lia)). nia.
  - intros h B H. change (half_units c_maxSubnormal) with 1023. destruct (hpack_of h B) as ((_ & _ & Rm) & _). unfold half_units, half_magnitude. rewrite H. change (0 =? 0) with true. cbv iota. destruct (hsign h =? 0); lia.
  - apply (nearest_away (10 ^ 9) c_e (2718281828 * 2 ^ 24) 1392 15); try (vm_compute; congruence); try (split; vm_compute; congruence); try reflexivity. right. vm_compute. congruence.
  - apply (nearest_away (10 ^ 9) c_pi (3141592653 * 2 ^ 24) 1608 15); try (vm_compute; congruence); try (split; vm_compute; congruence); try reflexivity. right. vm_compute. congruence.
Qed.
Print Assumptions C38_constants.
(** negativeOne is 2 and negativeHalf is 0.875. *)
Theorem C38_constants_refuted : half_units c_negativeOne = 2 * 2 ^ 24 /\ half_units c_negativeHalf * 8 = 7 * 2 ^ 24.
Proof. vm_compute. auto. Qed.
Print Assumptions C38_constants_refuted.
