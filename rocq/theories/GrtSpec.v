(** Specification for C116: the exact rotation, and the range in which it is computed without overflow and underflow. *)
From Coq Require Import ZArith Reals.
From Flocq Require Import Core BinarySingleNaN.
Local Open Scope R_scope.

(** The length of (a, b) *)
Definition length2 (a b : R) : R := sqrt (a * a + b * b).
(** The sign of r: that of the component of larger modulus, b if they are equal *)
Definition sign_of (a b : R) : R := if Rlt_dec (if Rlt_dec (Rabs b) (Rabs a) then a else b) 0 then -1 else 1.
(** Neither the sum of the moduli nor the product of the scale and the root leaves the range of normal numbers. *)
Definition in_range (emax : Z) (a b : R) : Prop := bpow radix2 (7 - emax) <= length2 a b /\ Rabs a + Rabs b <= bpow radix2 (emax - 2).
