(** What C54 means: a mathematical finite map, and its updates. *)
From Verif Require Import Base MapModel.

Section Spec.
Context {K V : Type}.
Variable keq : forall a b : K, {a = b} + {a <> b}.

(** A strict total order on the keys. *)
Definition total_order (lt : K -> K -> bool) : Prop :=
  (forall a, lt a a = false) /\
  (forall a b c, lt a b = true -> lt b c = true -> lt a c = true) /\
  (forall a b, a <> b -> lt a b = true \/ lt b a = true).

Definition update (f : K -> option V) (k : K) (o : option V) : K -> option V :=
  fun x => if keq x k then o else f x.
Definition effect (f : K -> option V) (c : call K V) : K -> option V :=
  match c with
  | Insert k v | Touch v k => match f k with Some _ => f | None => update f k (Some v) end
  | Put k v => update f k (Some v)
  | Erase k => update f k None
  | Clear => fun _ => None
  end.
(** The map after a history of calls. *)
Definition meaning (cs : list (call K V)) : K -> option V := fold_left effect cs (fun _ => None).
End Spec.

(** Strictly increasing keys. *)
Fixpoint increasing {K V} (lt : K -> K -> bool) (m : list (K * V)) : Prop :=
  match m with
  | [] => True
  | (a, _) :: m' => (forall b, In b (map fst m') -> lt a b = true) /\ increasing lt m'
  end.
