(** Specification for C110: what is asked of the real functions, and the error of a product of two of them. *)
From Coq Require Import ZArith Reals.
From Flocq Require Import Core BinarySingleNaN.
From Verif Require Import AccSpec.
Local Open Scope R_scope.

Section Float.
Variables prec emax : Z.
Local Notation num := (binary_float prec emax).
(** A library function with relative error [d], and absolute error [h] where results underflow.  It may overflow. *)
Definition accurate (d h : R) (f : R -> R) (lib : num -> num) : Prop :=
  forall x, is_finite x = true -> is_finite (lib x) = true -> Rabs (B2R (lib x) - f (B2R x)) <= d * Rabs (f (B2R x)) + h.
(** Values in [-1, 1] *)
Definition bounded (lib : num -> num) : Prop := forall x, is_finite x = true -> is_finite (lib x) = true /\ Rabs (B2R (lib x)) <= 1.
Definition odd (lib : num -> num) : Prop := forall x, lib (Bopp x) = Bopp (lib x).
Definition even (lib : num -> num) : Prop := forall x, lib (Bopp x) = lib x.
(** The values at zero *)
Definition sine_at_zero (lib : num -> num) : Prop := forall s, lib (B754_zero s) = B754_zero s.
Definition one_at_zero (lib : num -> num) : Prop := forall s, is_finite (lib (B754_zero s)) = true /\ B2R (lib (B754_zero s)) = 1.

(** The error of a product of [a] and [b] when both factors come with the errors above (h for a, h' for b) and it is rounded once. *)
Definition product_error (d h h' a b : R) : R :=
  (1 + unit_roundoff prec) * (((1 + d) * Rabs a + h) * ((1 + d) * Rabs b + h')) - Rabs a * Rabs b + underflow_unit prec emax.
(** The computed number [r] is [a] * [b] up to that error, unless it overflows. *)
Definition product_of (d h h' : R) (r : num) (a b : R) : Prop :=
  is_finite r = true -> Rabs (B2R r - a * b) <= product_error d h h' a b.
(** Complex numbers *)
Definition cconj (z : num * num) : num * num := (fst z, Bopp (snd z)).
Definition cneg (z : num * num) : num * num := (Bopp (fst z), Bopp (snd z)).
(** Zero of either sign *)
Definition is_zero (x : num) : Prop := exists s, x = B754_zero s.
End Float.
