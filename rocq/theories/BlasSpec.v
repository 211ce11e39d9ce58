(** What C55 means: the addresses of a strided vector. *)
From Coq Require Import ZArith.
From Verif Require Import Base MatmulSpec.
Local Open Scope Z_scope.

(** Address of element [i] of the vector of [n] elements at [x] with increment [inc]: the BLAS
    convention, where a negative increment walks the same cells from the far end. *)
Definition elt (x inc n i : Z) : Z := if inc <? 0 then x + (n - 1 - i) * (- inc) else x + i * inc.
(** The value at an address. *)
Definition val {A} (d : A) (m : list A) (p : Z) : A := nth (Z.to_nat p) m d.
(** Every element of the vector lies in memory. *)
Definition inside {A} (m : list A) (x inc n : Z) : Prop :=
  forall i, 0 <= i < n -> 0 <= elt x inc n i < Z.of_nat (length m).

(** [m'] differs from [m] only in the given cells. *)
Definition changes {A} (d : A) (m m' : list A) (cells : Z -> Prop) : Prop :=
  length m' = length m /\ forall p, 0 <= p < Z.of_nat (length m) -> ~ cells p -> val d m' p = val d m p.
Definition in_vector (x inc n p : Z) : Prop := exists i, 0 <= i < n /\ p = elt x inc n i.
(** No element of x is overwritten before it is read. *)
Definition read_first (x incX y incY n : Z) : Prop :=
  forall i j, 0 <= i -> i < j -> j < n -> elt y incY n i <> elt x incX n j.
Definition disjoint (x incX y incY n : Z) : Prop :=
  forall i j, 0 <= i < n -> 0 <= j < n -> elt y incY n i <> elt x incX n j.

Fixpoint power {A} (one : A) (mul : A -> A -> A) (a : A) (n : nat) : A :=
  match n with O => one | S n' => mul (power one mul a n') a end.
