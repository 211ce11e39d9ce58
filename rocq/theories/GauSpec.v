(** Specification for C115: what is asked of std::log and of the generator, and the numbers of the polar method. *)
From Coq Require Import ZArith Reals List.
From Flocq Require Import Core BinarySingleNaN.
From Verif Require Import AccSpec.
Import ListNotations.
Local Open Scope R_scope.

Local Notation num := (binary_float 53 1024).
(** A number the uniform distribution on [0, 1) may return *)
Definition uniform (w : num) : Prop := is_finite w = true /\ 0 <= B2R w < 1.
(** std::log is within one unit in the last place between 0 and 1. *)
Definition good_log (lib : num -> num) : Prop := forall s, is_finite s = true -> 0 < B2R s < 1 ->
  is_finite (lib s) = true /\ Rabs (B2R (lib s) - ln (B2R s)) <= 2 * unit_roundoff 53 * Rabs (ln (B2R s)).
(** The polar method: the point v1, v2 in the disc, with s its squared distance from the centre, gives v sqrt (-2 ln s / s) for both
    coordinates v. *)
Definition polar_method (s v : R) : R := v * sqrt (-2 * ln s / s).
(** Relative error *)
Definition within_roundings (k : R) (x y : R) : Prop := Rabs (x - y) <= k * unit_roundoff 53 * Rabs y.
(** A list cut into consecutive pairs; a last single element is dropped. *)
Fixpoint pairs {X} (l : list X) : list (X * X) := match l with a :: b :: l => (a, b) :: pairs l | _ => [] end.
