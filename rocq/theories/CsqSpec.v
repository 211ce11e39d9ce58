(** Specification for C102: which complex number is the square root. *)
From Coq Require Import ZArith Reals.
From Flocq Require Import Core BinarySingleNaN.
Local Open Scope R_scope.

(** p + qi is the square root of x + yi in the right half plane.  [neg] tells whether the sign bit of the imaginary part is set: on the
    negative real axis it decides which of the two roots on the imaginary axis is meant. *)
Definition root_of (x y : R) (neg : bool) (p q : R) : Prop :=
  p * p - q * q = x /\ 2 * (p * q) = y /\ 0 <= p /\ if neg then q <= 0 else 0 <= q.

(** Two floating-point numbers that are the same, or are the two zeros. *)
Definition same_but_zero prec emax (x y : binary_float prec emax) : Prop := x = y \/ exists s, x = B754_zero s /\ y = B754_zero (negb s).
