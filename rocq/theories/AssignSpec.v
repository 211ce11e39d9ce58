(** What an elementwise expression means. *)
From Verif Require Import Base ShapeModel AssignModel.

(** Element [i] of the expression, from the elements [i] of its operands. *)
Fixpoint value {A} (st : store A) (e : expr A) (i : nat) : option A :=
  match e with
  | EArr id => nth_error (st id) i
  | EScalar x => Some x
  | EUn f a => match value st a i with Some x => Some (f x) | None => None end
  | EBin f a b =>
      match value st a i, value st b i with Some x, Some y => Some (f x y) | _, _ => None end
  end.

(** Every array operand has [n] elements. *)
Fixpoint operands_have {A} (st : store A) (e : expr A) (n : nat) : Prop :=
  match e with
  | EArr id => length (st id) = n
  | EScalar _ => True
  | EUn _ a => operands_have st a n
  | EBin _ a b => operands_have st a n /\ operands_have st b n
  end.

(** The result of [lhs = e] on arrays of [n] elements: lhs holds the value of the expression computed
    from the *old* contents, every other array is untouched. *)
Definition assigned {A} (st : store A) (lhs : nat) (e : expr A) (n : nat) (st' : store A) : Prop :=
  (forall id, id <> lhs -> st' id = st id) /\ length (st' lhs) = n /\
  (forall i, i < n -> exists x, value st e i = Some x /\ nth_error (st' lhs) i = Some x).

(** A complete interleaving of the iterations: each runs all its instructions, nothing else runs. *)
Definition complete {A} (w : nat) (e : expr A) (its : list iteration) (sched : list nat) : Prop :=
  (forall k, In k sched -> k < length its) /\
  forall k it, nth_error its k = Some it -> count_occ Nat.eq_dec sched k = instructions w e it.
