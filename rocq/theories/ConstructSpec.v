(** What the construction functions should produce. *)
From Coq Require Import Reals.
From Verif Require Import Base ShapeModel ShapeSpec ViewSpec ConstructModel.

(** [d] is non-empty and rectangular: [s] lists the nesting lengths. *)
Fixpoint has_shape {A} (k : nat) : nest A k -> list N -> Prop :=
  match k return nest A k -> list N -> Prop with
  | O => fun _ s => s = []
  | S k' => fun (d : list (nest A k')) s => match s with
                       | [] => False
                       | e :: s' => e = N.of_nat (length d) /\ d <> [] /\ Forall (fun x => has_shape k' x s') d
                       end
  end.
(** the entry at a multi-index *)
Fixpoint entry {A} (k : nat) : nest A k -> list N -> option A :=
  match k return nest A k -> list N -> option A with
  | O => fun (x : A) idx => match idx with [] => Some x | _ => None end
  | S k' => fun (d : list (nest A k')) idx => match idx with
                         | [] => None
                         | i :: idx' => match nth_error d (N.to_nat i) with Some x => entry k' x idx' | None => None end
                         end
  end.
(** number of scalars in the data *)
Fixpoint count {A} (k : nat) : nest A k -> nat :=
  match k return nest A k -> nat with
  | O => fun _ => 1
  | S k' => fun (d : list (nest A k')) => list_sum (map (count k') d)
  end.

(** An array holding exactly the entries of the nested lists. *)
Definition holds {A} (k : nat) (d : nest A k) (a : arr A) : Prop :=
  has_shape k d (fst a) /\ N.of_nat (length (snd a)) = prod (fst a) /\
  forall idx, in_range idx (fst a) -> element (fst a) (snd a) idx = entry k d idx.

(** Comma initialisation: the first values are overwritten, the rest stay. *)
Definition overwritten {A} (vs old new : list A) : Prop :=
  length new = length old /\
  forall i, nth_error new i = if i <? length vs then nth_error vs i else nth_error old i.

(** Integers of an arithmetic progression from [start] in steps of [step], [n] of them. *)
Definition progression (start step : Z) (n : nat) (l : list Z) : Prop :=
  length l = n /\ forall i, i < n -> nth_error l i = Some (start + Z.of_nat i * step)%Z.
(** The documented number of elements: the largest n with start + n*step not beyond stop. *)
Definition documented_count (start stop step : Z) (n : nat) : Prop :=
  (Z.of_nat n * Z.abs step <= Z.abs (stop - start) < (Z.of_nat n + 1) * Z.abs step)%Z.

Local Open Scope R_scope.
Definition rprogression (start step : R) (n : nat) (l : list R) : Prop :=
  length l = n /\ forall i, (i < n)%nat -> nth_error l i = Some (start + INR i * step).
