(** What C49 means: the elements of a vector, the elementwise value of an expression, sums. *)
From Coq Require Export Ring_theory.
From Verif Require Import Base VectorModel.

(** The N elements a user sees, and the lanes after them. *)
Definition elements {A} (v : vec A) : list A := firstn (dims v) (cells v).
Definition padding {A} (v : vec A) : list A := skipn (dims v) (cells v).

(** The storage of a Vector<T, N> with packets of w lanes. *)
Definition storage {A} (w : nat) (v : vec A) : Prop := length (cells v) = packets w (dims v) * w.

(** Element i of an expression, computed directly from the elements of its operands. *)
Fixpoint value {A} (e : expr A) (i : nat) : option A :=
  match e with
  | V v => nth_error (elements v) i
  | K a => Some a
  | Bin f l r => match value l i, value r i with
                 | Some x, Some y => match f x y with Ok z => Some z | _ => None end
                 | _, _ => None
                 end
  | Un f e => match value e i with
              | Some x => match f x with Ok z => Some z | _ => None end
              | None => None
              end
  end.

(** The elements of an expression are f 0, …, f (N-1). *)
Definition values {A} (e : expr A) (N : nat) (f : nat -> A) : Prop :=
  forall i, i < N -> value e i = Some (f i).

(** All the vectors in the expression have N elements, and there is at least one. *)
Fixpoint all_vectors {A} (P : vec A -> Prop) (e : expr A) : Prop :=
  match e with
  | V v => P v
  | K _ => True
  | Bin _ l r => all_vectors P l /\ all_vectors P r
  | Un _ e => all_vectors P e
  end.
Definition conforming {A} (w N : nat) (e : expr A) : Prop :=
  all_vectors (fun v => dims v = N /\ storage w v) e /\ edims e <> None.

(** Every operation in the expression is defined on all values. *)
Fixpoint total {A} (e : expr A) : Prop :=
  match e with
  | V _ | K _ => True
  | Bin f l r => (forall x y, exists z, f x y = Ok z) /\ total l /\ total r
  | Un f e => (forall x, exists z, f x = Ok z) /\ total e
  end.
(** The scalar operands are zero and zero is mapped to zero. *)
Fixpoint keeps_zero {A} (zero : A) (e : expr A) : Prop :=
  match e with
  | V v => Forall (eq zero) (padding v)
  | K a => a = zero
  | Bin f l r => f zero zero = Ok zero /\ keeps_zero zero l /\ keeps_zero zero r
  | Un f e => f zero = Ok zero /\ keeps_zero zero e
  end.

(** The sum of a list and of f 0, …, f (N-1). *)
Definition total_of {A} (zero : A) (add : A -> A -> A) (l : list A) : A := fold_right add zero l.
Definition sum_below {A} (zero : A) (add : A -> A -> A) (N : nat) (f : nat -> A) : A :=
  total_of zero add (map f (seq 0 N)).
Definition squares {A} (mul : A -> A -> A) (l : list A) : list A := map (fun x => mul x x) l.
Definition products {A} (mul : A -> A -> A) (l r : list A) : list A :=
  map (fun xy => mul (fst xy) (snd xy)) (combine l r).
