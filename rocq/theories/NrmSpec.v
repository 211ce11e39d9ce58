(** What C96 and C97 mean: lengths of vectors, and rotations. *)
From Coq Require Import ZArith Reals List.
From Flocq Require Import Core BinarySingleNaN.
From Verif Require Import Base BlasSpec AccSpec ComplexModel.
Import ListNotations.
Local Open Scope R_scope.

(** The Euclidean length of the vector of n numbers f 0, ..., f (n-1), and of n complex numbers. *)
Definition length2 (n : nat) (f : nat -> R) : R := sqrt (total n (fun i => f i * f i)).
Definition clength2 (n : nat) (f : nat -> cx) : R := sqrt (total n (fun i => re (f i) * re (f i) + im (f i) * im (f i))).
(** Element [i] of a strided vector. *)
Definition item {A} (d : A) (m : list A) (x incX n : Z) (i : nat) : A := val d m (elt x incX n (Z.of_nat i)).

(** The rotation (c, s) that the single number z stands for, as the BLAS standard says. *)
Definition recover (z : R) : R * R :=
  if req z 1 then (0, 1)
  else if rlt (Rabs z) 1 then (sqrt (1 - z * z), z)
  else (1 / z, sqrt (1 - (1 / z) * (1 / z))).

(** [square] computes r^2 for 0 <= r <= 1 with a relative error of at most two units and an absolute error of at most
    one subnormal number: any pow accurate to two units in the last place does. *)
Definition good_square (prec emax : Z) (square : binary_float prec emax -> binary_float prec emax) : Prop :=
  forall r, is_finite r = true -> 0 <= B2R r <= 1 ->
    is_finite (square r) = true /\ 0 <= B2R (square r) /\
    Rabs (B2R (square r) - B2R r * B2R r) <= 2 * unit_roundoff prec * (B2R r * B2R r) + 2 * underflow_unit prec emax.
(** The error bound for the length of a vector of [n] numbers. *)
Definition nrm2_bound (prec emax : Z) (n : nat) (len : R) : R :=
  8 * (INR n + 1) * unit_roundoff prec * len + underflow_unit prec emax.
