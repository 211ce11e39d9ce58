(** Value semantics of storage: what a history of commands means when every object simply *is* a list. *)
From Verif Require Import Base StorageModel.

Section Spec.
Context {A : Type}.

(** The value of each named object; [None]: no such object. *)
Definition values := nat -> option (list A).

Definition becomes (v : values) (i : nat) (l : list A) (v' : values) : Prop :=
  v' i = Some l /\ forall x, x <> i -> v' x = v x.

Definition spec_step (v : values) (c : cmd A) (v' : values) : Prop :=
  match c with
  | CDefault i => becomes v i [] v'
  | CSize i n => exists l, length l = n /\ becomes v i l v'
  | CFill i n x => becomes v i (repeat x n) v'
  | CList i l => becomes v i l v'
  | CCopyCtor i j | CCopy i j | CAssign i j => exists l, v j = Some l /\ becomes v i l v'
  | CMoveCtor i j | CMoveAssign i j =>
      exists l, v j = Some l /\ v' i = Some l /\ (i <> j -> v' j = Some []) /\
                forall x, x <> i -> x <> j -> v' x = v x
  | CResize i n =>
      exists l e, v i = Some l /\ length e = n - length l /\ becomes v i (firstn n l ++ e) v'
  | CResizeDiscard i n => exists l, length l = n /\ becomes v i l v'
  | CSet i k x => exists l, v i = Some l /\ k < length l /\ becomes v i (upd l k x) v'
  | CGet i k => (exists l, v i = Some l /\ k < length l) /\ forall x, v' x = v x
  | CDestroy i => v' i = None /\ forall x, x <> i -> v' x = v x
  end.

(** The commands a C++ program can contain in a given situation. *)
Definition well_formed (v : values) (c : cmd A) : Prop :=
  match c with
  | CDefault i | CSize i _ | CFill i _ _ | CList i _ => v i = None
  | CCopyCtor i j | CMoveCtor i j | CCopy i j => v i = None /\ v j <> None
  | CAssign i j | CMoveAssign i j => v i <> None /\ v j <> None
  | CResize i _ | CResizeDiscard i _ | CSet i _ _ | CGet i _ | CDestroy i => v i <> None
  end.

(** The value a state gives to each object. *)
Definition content (h : heap A) (s : storage) : list A :=
  match m_begin s with
  | Some a => match block h a with Some l => l | None => [] end
  | None => []
  end.
Definition value_of (st : state A) : values :=
  fun i => option_map (content (st_heap st)) (st_obj st i).

(** Indexing is the caller's responsibility when assertions are off. *)
Definition indexed (asserts : bool) (v : values) (c : cmd A) : Prop :=
  match c with
  | CSet i k _ | CGet i k => asserts = true \/ exists l, v i = Some l /\ k < length l
  | _ => True
  end.

(** The situations in which the code is wrong. *)
(** copy-assigning a non-empty storage to a moved-from one (the only non-owning ones here) *)
Definition no_assign_to_moved (st : state A) (c : cmd A) : Prop :=
  match c with
  | CAssign i j => i = j \/ value_of st j = Some [] \/
                   exists s, st_obj st i = Some s /\ m_owns s = true
  | _ => True
  end.
(** copy-assigning an empty storage to a non-empty one *)
Definition no_assign_from_empty (st : state A) (c : cmd A) : Prop :=
  match c with
  | CAssign i j => value_of st j = Some [] -> value_of st i = Some []
  | _ => True
  end.
(** move-assigning over a storage that has elements, resizing a moved-from storage unchecked *)
Definition no_move_over (asserts : bool) (st : state A) (c : cmd A) : Prop :=
  match c with
  | CMoveAssign i j => i = j \/ value_of st i = Some []
  | CResize i _ | CResizeDiscard i _ => asserts = true \/ exists s, st_obj st i = Some s /\ m_owns s = true
  | _ => True
  end.

Definition allowed (asserts : bool) (st : state A) (c : cmd A) : Prop :=
  well_formed (value_of st) c /\ indexed asserts (value_of st) c /\ no_assign_to_moved st c.
Definition leakfree (asserts : bool) (st : state A) (c : cmd A) : Prop :=
  allowed asserts st c /\ no_move_over asserts st c.
(** the objects a command may change *)
Definition touched (c : cmd A) : list nat :=
  match c with
  | CDefault i | CSize i _ | CFill i _ _ | CList i _ | CCopyCtor i _ | CCopy i _ | CAssign i _
  | CResize i _ | CResizeDiscard i _ | CSet i _ _ | CDestroy i => [i]
  | CMoveCtor i j | CMoveAssign i j => [i; j]
  | CGet _ _ => []
  end.

(** [P] holds of every command in the situation in which it is executed. *)
Fixpoint along (junk : nat -> nat -> A) (asserts : bool) (P : state A -> cmd A -> Prop) (st : state A) (cs : list (cmd A)) : Prop :=
  match cs with
  | [] => True
  | c :: cs => P st c /\ match step junk asserts st c with
                         | (UB, _) => True
                         | (_, st') => along junk asserts P st' cs
                         end
  end.

Definition no_objects (st : state A) : Prop := forall i, st_obj st i = None.
Definition no_blocks (st : state A) : Prop := forall a, block (st_heap st) a = None.

(** ** BitSets *)
Definition bvalue (st : bstate A) (i : nat) : option (list A) :=
  match b_obj st i with Some a => block (b_heap st) a | None => None end.
Definition bspec_step (v : values) (c : bcmd A) (v' : values) : Prop :=
  match c with
  | BNew i l => becomes v i l v'
  | BCopyCtor i j | BMoveCtor i j | BAssign i j | BMoveAssign i j => exists l, v j = Some l /\ becomes v i l v'
  | BWrite i k x => exists l, v i = Some l /\ becomes v i (upd l k x) v'
  | BDestroy i => v' i = None /\ forall x, x <> i -> v' x = v x
  end.
Definition bwell_formed (v : values) (c : bcmd A) : Prop :=
  match c with
  | BNew i _ => v i = None
  | BCopyCtor i j | BMoveCtor i j => v i = None /\ v j <> None
  | BAssign i j | BMoveAssign i j => v i <> None /\ v j <> None
  | BWrite i k _ => exists l, v i = Some l /\ k < length l
  | BDestroy i => v i <> None
  end.
(** construction, deep copies, writes and destruction only *)
Definition bdeep (c : bcmd A) : Prop :=
  match c with BMoveCtor _ _ => False | BAssign i j | BMoveAssign i j => i = j | _ => True end.
Definition ballowed (st : bstate A) (c : bcmd A) : Prop := bwell_formed (bvalue st) c /\ bdeep c.
Fixpoint balong (P : bstate A -> bcmd A -> Prop) (st : bstate A) (cs : list (bcmd A)) : Prop :=
  match cs with
  | [] => True
  | c :: cs => P st c /\ match bstep st c with Ok st' => balong P st' cs | _ => True end
  end.
End Spec.
Arguments values : clear implicits.
