(** C93: dividing halfs.  C94: converting halfs from and to double and integer types. *)
From Coq Require Import ZArith Reals Lra Psatz.
From Flocq Require Import Core.
From Verif Require Import Base HalfModel HalfSpec HdivModel HdivSpec HdivProofs HdivConv.
From Coq Require Import ZifyNat ZifyN ZifyBool.
Ltac Zify.zify_post_hook ::= idtac.
Local Open Scope Z_scope.

Ltac bits := split; [discriminate|reflexivity].
(** x86: shifts by the distance modulo 32, and this NaN for an invalid operation. *)
Definition x86_shift (a s : Z) : Z := Z.shiftr a (s mod 32).
Definition x86_nan (_ _ : Z) : Z := 0xffc00000.

(** The quotient of two halfs is correctly rounded - although the float quotient has been rounded before - when it is
    neither subnormal nor too large; there is never a tie to break. *)
Theorem C93_divide_rounded : forall nan j x y, bits16 x -> bits16 y -> half_finite x -> half_finite y -> half_real y <> 0%R ->
  (/ 2 ^ 14 <= Rabs (half_real x / half_real y) < 65520)%R ->
  exists h, half_divide nan (Some j) x y = Ok h /\ bits16 h /\ half_finite h /\ forall pick, half_real h = half_rounded pick (half_real x / half_real y).
Proof. intros nan j x y Bx By Fx Fy Hy H. apply divide_rounds; auto. replace (bpow radix2 (-14)) with (/ 2 ^ 14)%R by (cbn; lra). exact H. Qed.
Print Assumptions C93_divide_rounded.
Example C93_divide_rounded_ex : (half_real 0x3c00 = 1 /\ half_real 0x4200 = 3)%R /\ half_divide x86_nan (Some x86_shift) 0x3c00 0x4200 = Ok 0x3555.
Proof.
  split; [|vm_compute; reflexivity]. unfold half_real. replace (half_units 0x3c00) with 16777216 by reflexivity. replace (half_units 0x4200) with 50331648 by reflexivity. split; cbn; lra.
Qed.

(** A quotient that is a normal half is computed exactly. *)
Theorem C93_divide_exact : forall nan j x y z, bits16 x -> bits16 y -> bits16 z -> half_finite x -> half_finite y -> ~ half_zero y -> half_normal z ->
  half_real x = (half_real z * half_real y)%R -> half_divide nan (Some j) x y = Ok z.
Proof. exact divide_exact. Qed.
Print Assumptions C93_divide_exact.
Example C93_divide_exact_ex : half_divide x86_nan (Some x86_shift) 0x4600 0xc200 = Ok 0xc000.
Proof. vm_compute. reflexivity. Qed.
Theorem C93_divide_self : forall nan j x, bits16 x -> half_finite x -> ~ half_zero x -> half_divide nan (Some j) x x = Ok 0x3c00.
Proof.
  intros nan j x B F N. apply divide_exact; auto; [bits|split; discriminate|].
  unfold half_real. replace (half_units 0x3c00) with 16777216 by reflexivity. field_simplify. cbn. lra.
Qed.
Print Assumptions C93_divide_self.
Example C93_divide_self_ex : bits16 0x0001 /\ half_finite 0x0001 /\ ~ half_zero 0x0001.
Proof. split; [bits|]. split; [discriminate|]. intros (_ & C). discriminate C. Qed.
Theorem C93_divide_one : forall nan j x, bits16 x -> half_normal x -> half_divide nan (Some j) x 0x3c00 = Ok x.
Proof.
  intros nan j x B N. apply divide_exact; auto; try bits; try (unfold half_finite, half_normal in *; lia).
  - discriminate.
  - intros (C & _). discriminate C.
  - unfold half_real at 3. replace (half_units 0x3c00) with 16777216 by reflexivity. field_simplify. cbn. lra.
Qed.
Print Assumptions C93_divide_one.
Example C93_divide_one_ex : bits16 0x7bff /\ half_normal 0x7bff.
Proof. split; [bits|]. split; discriminate. Qed.

(** Dividing by zero and dividing an infinity: an infinity, with the product of the signs. *)
Theorem C93_divide_infinite : forall nan j x y, bits16 x -> bits16 y -> (half_finite x /\ ~ half_zero x /\ half_zero y \/ half_inf x /\ half_finite y) ->
  exists h, half_divide nan (Some j) x y = Ok h /\ half_inf h /\ hsign h = (hsign x + hsign y) mod 2.
Proof. exact divide_inf. Qed.
Print Assumptions C93_divide_infinite.
Example C93_divide_infinite_ex : half_divide x86_nan (Some x86_shift) 0x3c00 0x8000 = Ok 0xfc00 /\ half_divide x86_nan (Some x86_shift) 0xfc00 0xbc00 = Ok 0x7c00.
Proof. vm_compute. auto. Qed.
(** Dividing zero, or dividing by an infinity: zero, with the product of the signs. *)
Theorem C93_divide_zero_partial : forall nan j x y, small_shift j -> bits16 x -> bits16 y -> (half_zero x /\ half_finite y /\ ~ half_zero y \/ half_finite x /\ half_inf y) ->
  exists h, half_divide nan (Some j) x y = Ok h /\ half_zero h /\ hsign h = (hsign x + hsign y) mod 2.
Proof. exact divide_zero. Qed.
Print Assumptions C93_divide_zero_partial.
Example C93_divide_zero_ex : small_shift x86_shift /\ half_divide x86_nan (Some x86_shift) 0x0000 0xc200 = Ok 0x8000.
Proof. split; [|vm_compute; reflexivity]. vm_compute. intuition congruence. Qed.
(** NaN operands, 0 / 0 and infinity / infinity: NaN. *)
Theorem C93_divide_nan : forall nan j x y, (forall a b, quiet_nan (nan a b)) -> bits16 x -> bits16 y ->
  (half_nan x \/ half_nan y \/ half_zero x /\ half_zero y \/ half_inf x /\ half_inf y) ->
  exists h, half_divide nan (Some j) x y = Ok h /\ half_nan h.
Proof. exact divide_nan. Qed.
Print Assumptions C93_divide_nan.
Example C93_divide_nan_ex : (forall a b, quiet_nan (x86_nan a b)) /\ half_divide x86_nan (Some x86_shift) 0x0000 0x8000 = Ok 0xfe00.
Proof. split; [|vm_compute; reflexivity]. intros a b. unfold quiet_nan, float_nan. vm_compute. intuition congruence. Qed.

(** A subnormal quotient is truncated: 2^-13 / 3 is 682.67 units of 2^-24, and 682 is returned; 683 is nearer. *)
Theorem C93_subnormal_refuted : half_divide x86_nan (Some x86_shift) 0x0800 0x4200 = Ok 682 /\ half_units 0x0800 = 2048 /\ half_units 0x4200 = 3 * 2 ^ 24 /\
  Z.abs (683 * 3 - 2048) < Z.abs (682 * 3 - 2048).
Proof. vm_compute. auto. Qed.
Print Assumptions C93_subnormal_refuted.
(** A quotient of 65536 to 131071 gives a NaN or another wrong half instead of an infinity: 65504 / 0.5. *)
Theorem C93_overflow_refuted : half_divide x86_nan (Some x86_shift) 0x7bff 0x3800 = Ok 0x7fff /\ half_nan 0x7fff /\ half_units 0x7bff = 65504 * 2 ^ 24 /\ half_units 0x3800 = 2 ^ 23.
Proof. unfold half_nan. vm_compute. intuition congruence. Qed.
Print Assumptions C93_overflow_refuted.

(** half(double) returns one of the two halfs next to the number, and the nearest up to the rounding error of float. *)
Theorem C94_from_double_faithful_partial : forall nan j d, bits64 d -> double_finite d -> (/ 2 ^ 14 <= Rabs (double_real d) <= 65519)%R ->
  exists h, half_of_double nan (Some j) d = Ok h /\ bits16 h /\ half_finite h /\ (half_real h = half_below (double_real d) \/ half_real h = half_above (double_real d)) /\
    forall v, bits16 v -> half_finite v -> (Rabs (half_real h - double_real d) <= Rabs (half_real v - double_real d) + / 2 ^ 23 * Rabs (double_real d))%R.
Proof. intros nan j d B F H. apply of_double_faithful; auto. replace (bpow radix2 (-14)) with (/ 2 ^ 14)%R by (cbn; lra). exact H. Qed.
Print Assumptions C94_from_double_faithful_partial.
Example C94_from_double_faithful_ex : bits64 0x3fd5555555555555 /\ double_finite 0x3fd5555555555555 /\ half_of_double (fun _ => 0x7fc00000) (Some x86_shift) 0x3fd5555555555555 = Ok 0x3555.
Proof. split; [bits|]. split; [discriminate|]. vm_compute. reflexivity. Qed.
Theorem C94_from_double_exact : forall nan j d z, bits64 d -> double_finite d -> bits16 z -> half_normal z -> double_real d = half_real z -> half_of_double nan (Some j) d = Ok z.
Proof. exact of_double_exact. Qed.
Print Assumptions C94_from_double_exact.
Example C94_from_double_exact_ex : half_of_double (fun _ => 0x7fc00000) (Some x86_shift) 0xc000000000000000 = Ok 0xc000.
Proof. vm_compute. reflexivity. Qed.
(** It is not always the nearest: 1 + 2^-11 - 2^-52 is nearer to 1 than to the next half, which is returned: float rounds
    it up to the middle first. *)
Theorem C94_from_double_nearest_refuted : half_of_double (fun _ => 0x7fc00000) (Some x86_shift) 0x3ff001ffffffffff = Ok 0x3c01 /\
  Z.abs (half_units 0x3c00 * 2 ^ 1050 - double_units 0x3ff001ffffffffff) < Z.abs (half_units 0x3c01 * 2 ^ 1050 - double_units 0x3ff001ffffffffff).
Proof. split; [vm_compute; reflexivity|]. apply Z.ltb_lt. vm_compute. reflexivity. Qed.
Print Assumptions C94_from_double_nearest_refuted.

(** half(n) for an integer: the nearest half, the one of larger magnitude if two are equally near. *)
Theorem C94_from_integer_partial : forall j n, n <> 0 -> Z.abs n <= 65519 ->
  exists h, half_of_int (Some j) n = Ok h /\ bits16 h /\ half_finite h /\ half_real h = half_rounded (Zle_bool 0) (IZR n).
Proof. exact of_int_nearest. Qed.
Print Assumptions C94_from_integer_partial.
Example C94_from_integer_ex : half_of_int (Some x86_shift) 2049 = Ok 0x6801 /\ half_units 0x6801 = 2050 * 2 ^ 24 /\ half_of_int (Some x86_shift) (-65519) = Ok 0xfbff.
Proof. vm_compute. auto. Qed.
(** 70000 becomes a NaN. *)
Theorem C94_from_integer_refuted : exists h, half_of_int (Some x86_shift) 70000 = Ok h /\ half_nan h.
Proof. exists 31814. unfold half_nan. vm_compute. intuition congruence. Qed.
Print Assumptions C94_from_integer_refuted.

(** static_cast<double>(h) is exact, keeps the sign of zero and maps infinities to infinities, whatever the machine
    does for shifts that C++ leaves undefined. *)
Theorem C94_to_double_exact : forall nan J h, bits16 h -> half_finite h ->
  exists d, half_to_double nan J h = Ok d /\ bits64 d /\ double_finite d /\ dsign d = hsign h /\ double_real d = half_real h.
Proof. exact to_double_exact. Qed.
Print Assumptions C94_to_double_exact.
Example C94_to_double_exact_ex : half_to_double (fun _ => 0) None 0x3555 = Ok 0x3fd5540000000000 /\ half_to_double (fun _ => 0) None 0x8001 = Ok 0xbe70000000000000.
Proof. vm_compute. auto. Qed.
Theorem C94_to_double_infinity : forall nan J h, bits16 h -> half_inf h -> exists d, half_to_double nan J h = Ok d /\ bits64 d /\ double_inf d /\ dsign d = hsign h.
Proof. exact to_double_inf. Qed.
Print Assumptions C94_to_double_infinity.
Example C94_to_double_infinity_ex : half_to_double (fun _ => 0) None 0xfc00 = Ok 0xfff0000000000000.
Proof. vm_compute. reflexivity. Qed.
(** A normal half survives the way through double. *)
Theorem C94_double_round_trip : forall nan nan' j h, bits16 h -> half_normal h -> (do d <- half_to_double nan (Some j) h; half_of_double nan' (Some j) d) = Ok h.
Proof. exact double_round_trip. Qed.
Print Assumptions C94_double_round_trip.
Example C94_double_round_trip_ex : half_normal 0x0400 /\ half_normal 0xfbff.
Proof. unfold half_normal. vm_compute. intuition congruence. Qed.
(** static_cast to an integer type with the values lo to hi truncates; a value that does not fit, an infinity or a NaN
    is undefined behaviour. *)
Theorem C94_to_integer : forall lo hi J h, lo <= 0 <= hi -> bits16 h -> half_finite h ->
  half_to_int lo hi J h = if (lo <=? Ztrunc (half_real h)) && (Ztrunc (half_real h) <=? hi) then Ok (Ztrunc (half_real h)) else UB.
Proof. exact to_int_trunc. Qed.
Print Assumptions C94_to_integer.
Example C94_to_integer_ex : half_to_int (-128) 127 None 0xd7ff = Ok (-127) /\ half_to_int (-128) 127 None 0x5800 = UB /\ half_to_int 0 255 None 0xb800 = Ok 0.
Proof. vm_compute. auto. Qed.
Theorem C94_to_integer_undefined : forall lo hi J h, bits16 h -> ~ half_finite h -> half_to_int lo hi J h = UB.
Proof. exact to_int_undefined. Qed.
Print Assumptions C94_to_integer_undefined.
Example C94_to_integer_undefined_ex : bits16 0x7e00 /\ ~ half_finite 0x7e00.
Proof. split; [bits|]. intros C. apply C. reflexivity. Qed.
