(** What C87 means: roundings of real numbers. *)
From Coq Require Import ZArith Reals Bool.
From Flocq Require Import Core BinarySingleNaN.
Open Scope R_scope.

(** The integer nearest to x; of two equally near ones, the one further from zero *)
Definition half_away (x : R) (k : Z) : Prop :=
  Rabs (IZR k - x) <= / 2 /\ (Rabs (IZR k - x) = / 2 -> Rabs x < Rabs (IZR k)).
(** The integer part of x: x without its fraction *)
Definition integer_part (x : R) (k : Z) : Prop :=
  Rabs (IZR k) <= Rabs x < Rabs (IZR k) + 1 /\ 0 <= IZR k * x.
(** A power of ten *)
Definition tens (e : Z) : R := powerRZ 10 e.
