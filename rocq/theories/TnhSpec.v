(** Specification for C109: which complex numbers are the tangents, and what is asked of the real functions. *)
From Coq Require Import ZArith Reals.
From Flocq Require Import Core BinarySingleNaN.
From Verif Require Import AccSpec.
Local Open Scope R_scope.

(** p + qi times cosh (x + yi) is sinh (x + yi). *)
Definition tanh_of (x y p q : R) : Prop :=
  p * (cosh x * cos y) - q * (sinh x * sin y) = sinh x * cos y /\
  p * (sinh x * sin y) + q * (cosh x * cos y) = cosh x * sin y.
(** p + qi times cos (x + yi) is sin (x + yi). *)
Definition tan_of (x y p q : R) : Prop :=
  p * (cos x * cosh y) + q * (sin x * sinh y) = sin x * cosh y /\
  q * (cos x * cosh y) - p * (sin x * sinh y) = cos x * sinh y.

Section Float.
Variables prec emax : Z.
Local Notation num := (binary_float prec emax).
(** [r] is the real number [y] with an error of at most one unit in the last place. *)
Definition within_ulp (r : num) (y : R) : Prop := is_finite r = true /\ Rabs (B2R r - y) <= 2 * unit_roundoff prec * Rabs y.
(** std::tan: one unit in the last place, and no number of the type is so close to a pole that the tangent exceeds the fourth root of
    the largest number (the largest tangent of a double is below 2^64, that of a float below 2^32). *)
Definition good_tan (f : num -> num) (x : num) : Prop :=
  cos (B2R x) <> 0 /\ within_ulp (f x) (tan (B2R x)) /\ Rabs (tan (B2R x)) <= bpow radix2 (emax / 4).
(** std::sinh: one unit in the last place, or infinite with the right sign when the value is near or above the overflow threshold. *)
Definition good_sinh (f : num -> num) (x : num) : Prop :=
  within_ulp (f x) (sinh (B2R x)) \/
  (f x = B754_infinity (Rlt_bool (B2R x) 0) /\ bpow radix2 (emax - 1) <= Rabs (sinh (B2R x))).
(** what is lost when the denominator overflows *)
Definition tanh_tiny : R := bpow radix2 (emax / 4 + 8 - emax).
End Float.
