(** What C99 means: the logistic function, and what is expected of the exponential function of the platform. *)
From Coq Require Import ZArith Reals.
From Flocq Require Import Core BinarySingleNaN.
From Verif Require Import AccSpec NumSpec.
Local Open Scope R_scope.

Definition logistic (x : R) : R := / (1 + exp (- x)).

(** An exponential function as C and C++ libraries have it: NaN for NaN, otherwise a number >= 0 or infinity; never decreasing;
    exact at 0 and at the infinities; otherwise with an error of at most two units (and half a subnormal number); infinite only for
    results above half of the overflow threshold. *)
Record good_exp (prec emax : Z) (f : binary_float prec emax -> binary_float prec emax) : Prop := {
  exp_nan : forall x, is_nan x = true -> is_nan (f x) = true;
  exp_number : forall x, is_nan x = false -> f x = B754_infinity false \/ (is_finite (f x) = true /\ 0 <= B2R (f x));
  exp_increasing : forall x y, Bleb x y = true -> Bleb (f x) (f y) = true;
  exp_zero : forall x, is_finite x = true -> B2R x = 0 -> is_finite (f x) = true /\ B2R (f x) = 1;
  exp_plus_infinity : f (B754_infinity false) = B754_infinity false;
  exp_minus_infinity : is_finite (f (B754_infinity true)) = true /\ B2R (f (B754_infinity true)) = 0;
  exp_accurate : forall x, is_finite x = true -> is_finite (f x) = true ->
    Rabs (B2R (f x) - exp (B2R x)) <= 2 * unit_roundoff prec * exp (B2R x) + underflow_unit prec emax;
  exp_overflow : forall x, is_finite x = true -> f x = B754_infinity false -> bpow radix2 (emax - 1) <= exp (B2R x) }.
