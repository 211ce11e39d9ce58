(** What the doubled-precision arithmetic is expected to do. *)
From Coq Require Import ZArith Reals.
From Flocq Require Import Core.
From Verif Require Import EftModel.
Open Scope R_scope.

(** A number of the format with [prec] bits and smallest exponent [emin] *)
Definition is_float (prec emin : Z) (x : R) : Prop := generic_format radix2 (FLT_exp emin prec) x.
Definition is_double (x : R) : Prop := is_float 53 (-1074) x.

(** The 64 bits of a finite double *)
Definition bits64 (b : Z) : Prop := (0 <= b < 2 ^ 64 /\ b mod 2 ^ 63 / 2 ^ 52 < 2047)%Z.

(** exponent(x) + countr_zero(significand(x)) >= exponent(y), or x = 0: x is an integer multiple of the last place of y *)
Definition multiple_of_last_place (prec emin : Z) (x y : R) : Prop :=
  exists k, x = IZR k * ulp radix2 (FLT_exp emin prec) y.

(** The pair holds the rounded square and the whole rest. *)
Definition exact_square (x : R) (p : fmp) : Prop := val0 p = rnd64 (x * x) /\ val0 p + val1 p = x * x.

(** A logarithm accurate to two halves of a unit in the last place *)
Definition good_log (lg : R -> R) : Prop :=
  forall v, 0 < v -> is_double v -> is_double (lg v) /\ Rabs (lg v - ln v) <= bpow radix2 (-52) * Rabs (ln v).
