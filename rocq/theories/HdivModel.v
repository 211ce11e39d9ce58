(** Model of the operations of [half] that go through float: division, and conversion from and to other types.
    Source: librapid/include/librapid/math/half.hpp.  float and double arithmetic is IEEE 754 with rounding to
    nearest even, as Flocq defines it on bit patterns; which quiet NaN an invalid operation returns is left to the
    machine: [nan]. *)
From Coq Require Import ZArith.
From Flocq Require Import Core IEEE754.BinarySingleNaN IEEE754.Binary IEEE754.Bits.
From Verif Require Import Base HalfModel.
Local Open Scope Z_scope.

(** float / float *)
Definition float_div (nan : Z -> Z -> Z) (a b : Z) : Z :=
  let q := b32_div mode_NE (b32_of_bits a) (b32_of_bits b) in
  if is_nan 24 128 q then nan a b else bits_of_b32 q.
(** operator/=, l.594-597, and operator/, l.663-668: static_cast<float>( *this ) / static_cast<float>(rhs), converted
    by half(float) *)
Definition half_divide (nan : Z -> Z -> Z) (J : shift_sem) (x y : Z) : outcome Z :=
  do a <- half_to_float J x; do b <- half_to_float J y; half_of_float J (float_div nan a b).

(** static_cast<float>(d) for a double and for an integer *)
Definition float_of_double (nan : Z -> Z) (d : Z) : Z :=
  match b64_of_bits d with
  | B754_zero _ _ s => bits_of_b32 (B754_zero 24 128 s)
  | B754_infinity _ _ s => bits_of_b32 (B754_infinity 24 128 s)
  | B754_nan _ _ _ _ _ => nan d
  | B754_finite _ _ s m e _ => bits_of_b32 (binary_normalize 24 128 (eq_refl _) (eq_refl _) mode_NE (cond_Zopp s (Zpos m)) e s)
  end.
Definition float_of_int (n : Z) : Z := bits_of_b32 (binary_normalize 24 128 (eq_refl _) (eq_refl _) mode_NE n 0 false).
(** half(T), l.553-554: half(static_cast<float>(d)) *)
Definition half_of_double (nan : Z -> Z) (J : shift_sem) (d : Z) : outcome Z := half_of_float J (float_of_double nan d).
Definition half_of_int (J : shift_sem) (n : Z) : outcome Z := half_of_float J (float_of_int n).

(** static_cast<T>(f) of a float: to double, and to an integer type with the values lo to hi, where a value that is
    out of range after truncation is undefined *)
Definition double_of_float (nan : Z -> Z) (f : Z) : Z :=
  match b32_of_bits f with
  | B754_zero _ _ s => bits_of_b64 (B754_zero 53 1024 s)
  | B754_infinity _ _ s => bits_of_b64 (B754_infinity 53 1024 s)
  | B754_nan _ _ _ _ _ => nan f
  | B754_finite _ _ s m e _ => bits_of_b64 (binary_normalize 53 1024 (eq_refl _) (eq_refl _) mode_NE (cond_Zopp s (Zpos m)) e s)
  end.
Definition int_of_float (lo hi : Z) (f : Z) : outcome Z :=
  match b32_of_bits f with
  | B754_zero _ _ _ => Ok 0
  | B754_finite _ _ s m e _ =>
      let n := cond_Zopp s (if 0 <=? e then Zpos m * 2 ^ e else Zpos m / 2 ^ (- e)) in
      if (lo <=? n) && (n <=? hi) then Ok n else UB
  | _ => UB
  end.
(** operator T, l.574-577: static_cast<T>(static_cast<float>( *this )) *)
Definition half_to_double (nan : Z -> Z) (J : shift_sem) (h : Z) : outcome Z := omap (double_of_float nan) (half_to_float J h).
Definition half_to_int (lo hi : Z) (J : shift_sem) (h : Z) : outcome Z := do f <- half_to_float J h; int_of_float lo hi f.
