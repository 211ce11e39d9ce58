(** What device storage should do: every storage *is* a list, every buffer lives exactly as long as something
    refers to it, and an element reference names one element of the storage it was taken from. *)
From Verif Require Import Base OclModel.

Section Spec.
Context {A : Type}.

(** ** Lifetime *)
(** some variable still refers to buffer [a] *)
Definition referenced (st : state A) (a : nat) : Prop := exists i, holds (var st i) = Some a.
Definition allocated (st : state A) (a : nat) : Prop := buf (st_mem st) a <> None.

(** the commands a C++ program can contain in a given situation *)
Definition unused (st : state A) (i : nat) : Prop := i < length (st_env st) /\ var st i = None.
Definition is_storage (st : state A) (i : nat) : Prop := storage_at st i <> None.
Definition is_ref (st : state A) (r : nat) : Prop := exists f, var st r = Some (HRef f).
Definition well_formed (st : state A) (c : cmd A) : Prop :=
  match c with
  | CDefault i | CSize i _ | CFill i _ _ | CList i _ => unused st i
  | CShare i j _ _ | CCopyCtor i j | CMoveCtor i j | CCopy i j | CRef i j _ => unused st i /\ is_storage st j
  | CAssign i j | CMoveAssign i j => is_storage st i /\ is_storage st j
  | CResize i _ | CResizeDiscard i _ => is_storage st i
  | CSetRef r _ | CGetRef r => is_ref st r
  | CDestroy i => var st i <> None
  end.

(** no uninitialised size is read, and an element that is read exists *)
Definition initialised (st : state A) (i : nat) : Prop :=
  exists s n, storage_at st i = Some s /\ o_size s = Some n.
Definition element_exists (st : state A) (r : nat) : Prop :=
  exists f a b, var st r = Some (HRef f) /\ r_buf f = Some a /\ buf (st_mem st) a = Some b /\ r_off f < length (b_data b).
Definition determinate (asserts : bool) (st : state A) (c : cmd A) : Prop :=
  match c with
  | CCopyCtor i j | CMoveCtor i j | CCopy i j | CMoveAssign i j => initialised st j
  | CAssign i j => i = j \/ (initialised st i /\ initialised st j)
  | CResize i _ | CResizeDiscard i _ => initialised st i
  | CRef _ i _ => asserts = true -> initialised st i
  | CGetRef r => element_exists st r
  | _ => True
  end.

(** ** Values *)
Definition values := nat -> option (list A).
Definition content (h : memory A) (s : storage) : list A :=
  match o_buf s with
  | Some a => match buf h a with Some b => b_data b | None => [] end
  | None => []
  end.
Definition value_of (st : state A) : values := fun i => option_map (content (st_mem st)) (storage_at st i).

Definition becomes (v : values) (i : nat) (l : list A) (v' : values) : Prop :=
  v' i = Some l /\ forall x, x <> i -> v' x = v x.
(** reference [r] denotes element [k] of storage [i] *)
Definition denotes (st : state A) (r i k : nat) : Prop :=
  exists f s, var st r = Some (HRef f) /\ storage_at st i = Some s /\
              o_buf s <> None /\ o_buf s = r_buf f /\ r_off f = k.

Definition spec_step (st : state A) (c : cmd A) (v' : values) : Prop :=
  let v := value_of st in
  match c with
  | CDefault i => becomes v i [] v'
  | CSize i n => exists l, length l = n /\ becomes v i l v'
  | CFill i n x => becomes v i (repeat x n) v'
  | CList i l => becomes v i l v'
  | CShare _ _ _ _ => True
  | CCopyCtor i j | CCopy i j | CAssign i j => exists l, v j = Some l /\ becomes v i l v'
  | CMoveCtor i j | CMoveAssign i j =>
      exists l, v j = Some l /\ v' i = Some l /\ (i <> j -> v' j = Some []) /\
                forall x, x <> i -> x <> j -> v' x = v x
  | CResize i n => exists l e, v i = Some l /\ length e = n - length l /\ becomes v i (firstn n l ++ e) v'
  | CResizeDiscard i n => exists l, length l = n /\ becomes v i l v'
  | CRef _ i k => (exists l, v i = Some l) /\ forall x, v' x = v x
  | CSetRef r x =>
      (forall i k, denotes st r i k -> exists l, v i = Some l /\ v' i = Some (upd l k x)) /\
      (forall i, (forall k, ~ denotes st r i k) -> v' i = v i)
  | CGetRef _ => forall x, v' x = v x
  | CDestroy i => v' i = None /\ forall x, x <> i -> v' x = v x
  end.

(** The situations in which the code is wrong, and sharing (which is meant to break independence). *)
Definition no_sharing (c : cmd A) : Prop := match c with CShare _ _ _ _ => False | _ => True end.
(** copy-assigning to a storage that does not own its buffer (here: a moved-from one) changes its size *)
Definition no_assign_to_moved (st : state A) (c : cmd A) : Prop :=
  match c with
  | CAssign i j => i = j \/ value_of st j = Some [] \/
      exists s o, storage_at st i = Some s /\ storage_at st j = Some o /\ (o_owns s = true \/ o_size s = o_size o)
  | _ => True
  end.
(** copy-assigning an empty storage to a non-empty one *)
Definition no_assign_from_empty (st : state A) (c : cmd A) : Prop :=
  match c with
  | CAssign i j => value_of st j = Some [] -> value_of st i = Some []
  | _ => True
  end.

Definition legal (asserts : bool) (st : state A) (c : cmd A) : Prop := well_formed st c /\ determinate asserts st c.
Definition allowed (asserts : bool) (st : state A) (c : cmd A) : Prop :=
  legal asserts st c /\ no_sharing c /\ no_assign_to_moved st c.

(** [P] holds of every command in the situation in which it is executed. *)
Fixpoint along (junk : nat -> nat -> A) (asserts : bool) (P : state A -> cmd A -> Prop) (st : state A) (cs : list (cmd A)) : Prop :=
  match cs with
  | [] => True
  | c :: cs => P st c /\ match step junk asserts st c with
                         | (UB, _) => True
                         | (_, st') => along junk asserts P st' cs
                         end
  end.
(** the variables a command rebinds (assigns to, moves from, resizes, creates or destroys) *)
Definition rebinds (c : cmd A) : list nat :=
  match c with
  | CDefault i | CSize i _ | CFill i _ _ | CList i _ | CShare i _ _ _ | CCopyCtor i _ | CCopy i _ | CAssign i _
  | CResize i _ | CResizeDiscard i _ | CDestroy i | CRef i _ _ => [i]
  | CMoveCtor i j | CMoveAssign i j => [i; j]
  | CSetRef _ _ | CGetRef _ => []
  end.
End Spec.
Arguments values : clear implicits.
