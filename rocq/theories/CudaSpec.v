(** Value semantics of CUDA storages: the commands mean what they mean for Storage ([StorageSpec.spec_step]). *)
From Verif Require Import Base StorageModel StorageSpec CudaModel.

Section Spec.
Context {A : Type}.

(** The elements of a storage: the first [size] of its block (which is longer). *)
Definition content (h : heap A) (s : cstorage) : list A :=
  match c_ptr s, c_size s with
  | Some a, Some n => match block h a with Some l => firstn n l | None => [] end
  | _, _ => []
  end.
Definition value_of (st : cstate A) : values A := fun i => option_map (content (c_heap st)) (c_obj st i).

Definition sized (st : cstate A) (i : nat) : Prop := exists s n, c_obj st i = Some s /\ c_size s = Some n.
Definition owning (st : cstate A) (i : nat) : Prop := exists s, c_obj st i = Some s /\ c_owns s = true.
(** Indexing is never checked. *)
Definition indexed (v : values A) (c : cmd A) : Prop :=
  match c with
  | CSet i k _ | CGet i k => exists l, v i = Some l /\ k < length l
  | _ => True
  end.

(** The situations in which the code is wrong: *)
(** using the size of a default-constructed storage *)
Definition no_uninitialised (st : cstate A) (c : cmd A) : Prop :=
  match c with
  | CCopyCtor _ j | CMoveCtor _ j | CCopy _ j => sized st j
  | CAssign i j => i = j \/ (sized st i /\ sized st j)
  | CMoveAssign i j => i = j \/ sized st j
  | CResize i _ | CResizeDiscard i _ => sized st i
  | _ => True
  end.
(** copy-constructing from a storage that has elements *)
Definition no_copy_construct (st : cstate A) (c : cmd A) : Prop :=
  match c with CCopyCtor _ j => value_of st j = Some [] | _ => True end.
(** copy-assigning a non-empty storage to a moved-from one of another size *)
Definition no_assign_to_moved (st : cstate A) (c : cmd A) : Prop :=
  match c with
  | CAssign i j => i = j \/ value_of st j = Some [] \/ owning st i \/
                   option_map (@length A) (value_of st i) = option_map (@length A) (value_of st j)
  | _ => True
  end.
(** copy-assigning an empty storage to a non-empty one *)
Definition no_assign_from_empty (st : cstate A) (c : cmd A) : Prop :=
  match c with
  | CAssign i j => value_of st j = Some [] -> value_of st i = Some []
  | _ => True
  end.
(** move-assigning over a storage that has elements, resizing a moved-from storage unchecked *)
Definition no_move_over (asserts : bool) (st : cstate A) (c : cmd A) : Prop :=
  match c with
  | CMoveAssign i j => i = j \/ value_of st i = Some []
  | CResize i _ | CResizeDiscard i _ => asserts = true \/ owning st i
  | _ => True
  end.

Definition allowed (st : cstate A) (c : cmd A) : Prop :=
  well_formed (value_of st) c /\ indexed (value_of st) c /\ no_uninitialised st c /\ no_copy_construct st c /\
  no_assign_to_moved st c.
Definition leakfree (asserts : bool) (st : cstate A) (c : cmd A) : Prop := allowed st c /\ no_move_over asserts st c.

(** [P] holds of every command in the situation in which it is executed. *)
Fixpoint along (junk : nat -> nat -> A) (asserts : bool) (P : cstate A -> cmd A -> Prop) (st : cstate A) (cs : list (cmd A)) : Prop :=
  match cs with
  | [] => True
  | c :: cs => P st c /\ match step junk asserts st c with
                         | (UB, _) => True
                         | (_, st') => along junk asserts P st' cs
                         end
  end.
Definition no_objects (st : cstate A) : Prop := forall i, c_obj st i = None.
Definition no_blocks (st : cstate A) : Prop := forall a, block (c_heap st) a = None.
End Spec.
