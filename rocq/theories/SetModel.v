(** Model of librapid/include/librapid/datastructures/set.hpp.

    A [Set<ElementType>] is its sorted vector m_data (l.516).  The element type is any type [T] with
    a comparison [ltb] ([operator<]); [a > b] is [ltb b a].  Where it matters the theorems assume
    that [ltb] is a strict total order (true of integers and strings; not of floats with NaN). *)
From Verif Require Import Base.

Section SetModel.
Context {T : Type}.
Variable ltb : T -> T -> bool.

(** [a != b] for a type whose order is total: one of the two is smaller. *)
Definition neqb (a b : T) : bool := ltb a b || ltb b a.

(** sort(), l.488: std::sort.  For a strict total order the result is unique, so any sorting
    algorithm describes it; insertion sort is used here. *)
Fixpoint sort_insert (v : T) (d : list T) : list T :=
  match d with
  | [] => [v]
  | x :: d' => if ltb x v then x :: sort_insert v d' else v :: d
  end.
Fixpoint sort (d : list T) : list T :=
  match d with [] => [] | x :: d' => sort_insert x (sort d') end.

(** prune(), l.491-498: keeps element i when i == 0 or it differs from element i-1. *)
Fixpoint prune_after (prev : T) (d : list T) : list T :=
  match d with
  | [] => []
  | x :: d' => if neqb x prev then x :: prune_after x d' else prune_after x d'
  end.
Definition prune (d : list T) : list T :=
  match d with [] => [] | x :: d' => x :: prune_after x d' end.

(** Constructors from a vector / initialiser list / array storage, l.47-66 *)
Definition of_list (l : list T) : list T := prune (sort l).

(** The binary search shared by contains (l.93-113) and discard (l.200-220): the index of [val], if
    any.  [fuel] bounds the number of iterations; running out of it would be non-termination and is
    reported as [UB]. *)
Fixpoint bsearch (fuel : nat) (d : list T) (val : T) (head tail : Z) : outcome (option nat) :=
  match fuel with
  | O => UB
  | S fuel' =>
      if (head <=? tail)%Z then
        let mid := ((head + tail) / 2)%Z in
        do x <- rd d (Z.to_nat mid);
        if ltb val x then bsearch fuel' d val head (mid - 1)%Z
        else if ltb x val then bsearch fuel' d val (mid + 1)%Z tail
        else Ok (Some (Z.to_nat mid))
      else Ok None
  end.
Definition search (d : list T) (val : T) : outcome (option nat) :=
  bsearch (S (length d)) d val 0 (Z.of_nat (length d) - 1)%Z.

(** contains, l.93-113 *)
Definition contains (d : list T) (val : T) : outcome bool :=
  omap (fun r => match r with Some _ => true | None => false end) (search d val).

(** The insertion loop, l.122-130 *)
Fixpoint insert_loop (d : list T) (val : T) : list T :=
  match d with
  | [] => [val]
  | x :: d' => if ltb val x then val :: x :: d' else x :: insert_loop d' val
  end.
(** insert(val), l.118-131 *)
Definition insert (d : list T) (val : T) : outcome (list T) :=
  do b <- contains d val; if b then Ok d else Ok (insert_loop d val).
(** insert(vector) / insert(initializer_list), l.139-149 *)
Definition insert_many (d : list T) (vals : list T) : outcome (list T) :=
  for_list vals (fun v d => insert d v) d.

(** erase at an index *)
Definition erase (d : list T) (i : nat) : list T := firstn i d ++ skipn (S i) d.
(** discard(val), l.200-220 *)
Definition discard (d : list T) (val : T) : outcome (list T) :=
  do r <- search d val; match r with Some i => Ok (erase d i) | None => Ok d end.
(** discard(vector), l.229-243 *)
Definition discard_many (d : list T) (vals : list T) : outcome (list T) :=
  for_list vals (fun v d => discard d v) d.

(** remove(val), l.251-254; the assertion is present only in builds with assertions. *)
Definition remove (asserts : bool) (d : list T) (val : T) : outcome (list T) :=
  do b <- contains d val;
  if asserts && negb b then Throw RuntimeError else discard d val.
(** remove(vector), l.262-277 *)
Definition remove_many (asserts : bool) (d : list T) (vals : list T) : outcome (list T) :=
  for_list vals (fun v d => remove asserts d v) d.

(** operator[], l.82-88 *)
Definition at_index (asserts : bool) (d : list T) (i : Z) : outcome T :=
  if asserts && negb ((0 <=? i)%Z && (i <? Z.of_nat (length d))%Z) then Throw RuntimeError
  else if (i <? 0)%Z then UB else rd d (Z.to_nat i).

(** The merge loops of operator| & ^ - (l.330-456).  [pA] / [pB] / [pAB] say whether an element found
    only in the left / only in the right / in both is pushed inside the loop, [tA] / [tB] whether the
    remaining elements of the left / right operand are appended after it.  The indices are
    represented by the remaining suffixes. *)
Fixpoint merge (pA pB pAB tA tB : bool) (fuel : nat) (a b : list T) : outcome (list T) :=
  match a, b with
  | x :: a', y :: b' =>
      match fuel with
      | O => UB
      | S f =>
          if ltb x y then
            do r <- merge pA pB pAB tA tB f a' b; Ok (if pA then x :: r else r)
          else if ltb y x then
            do r <- merge pA pB pAB tA tB f a b'; Ok (if pB then y :: r else r)
          else
            do r <- merge pA pB pAB tA tB f a' b'; Ok (if pAB then x :: r else r)
      end
  | _, _ => Ok ((if tA then a else []) ++ (if tB then b else []))
  end.
(** operator|, l.330-359 *)
Definition union (a b : list T) := merge true true true true true (length a + length b) a b.
(** operator&, l.367-390 *)
Definition intersection (a b : list T) := merge false false true false false (length a + length b) a b.
(** operator^, l.398-422: the remaining elements are not appended *)
Definition symdiff (a b : list T) := merge true true false false false (length a + length b) a b.
(** operator-, l.430-456 *)
Definition difference (a b : list T) := merge true false false true false (length a + length b) a b.

(** Calls a user can make on one Set. *)
Inductive op : Type :=
| Insert (v : T) | InsertMany (vs : list T)
| Discard (v : T) | DiscardMany (vs : list T)
| Remove (v : T) | RemoveMany (vs : list T).
Definition step (asserts : bool) (o : op) (d : list T) : outcome (list T) :=
  match o with
  | Insert v => insert d v
  | InsertMany vs => insert_many d vs
  | Discard v => discard d v
  | DiscardMany vs => discard_many d vs
  | Remove v => remove asserts d v
  | RemoveMany vs => remove_many asserts d vs
  end.
Definition run (asserts : bool) (ops : list op) (d : list T) : outcome (list T) :=
  for_list ops (step asserts) d.
End SetModel.
Arguments op T : clear implicits.
