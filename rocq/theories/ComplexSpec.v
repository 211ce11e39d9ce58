(** What C46-C48 mean. *)
From Coq Require Import Reals.
From Coquelicot Require Import Complex.
From Verif Require Import ComplexModel.
Local Open Scope R_scope.

(** The complex number (Coquelicot's field C = R * R) represented by an object. *)
Definition toC (z : cx) : C := (re z, im z).

(** r is the quotient z / w *)
Definition quotient (z w r : cx) : Prop := mul r w = z.

(** Principal square root: w^2 = z, Re w >= 0, and Im w >= 0 on the branch cut. *)
Definition principal_root (z w : cx) : Prop :=
  mul w w = z /\ 0 <= re w /\ (re w = 0 -> 0 <= im w).
