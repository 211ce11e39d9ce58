(** Model of Map and UnorderedMap.  Source: librapid/include/librapid/datastructures/map.hpp.
    Both derive from a standard container.  std::map is a list of pairs in increasing key order
    (the order the iteration of [str] sees); std::unordered_map is a list of pairs in an arbitrary
    order, with insertions at an arbitrary place.  These two are trusted readings of the C++
    standard, not of the library.  get(key) const (l.35-37, 95-97) calls the non-const operator[] in
    a const member function: it does not compile when used and is left out. *)
From Coq Require Import Permutation.
From Verif Require Import Base.

Section Map.
Context {K V : Type}.
(** The comparison: [lt] is std::less, keys are equal when neither is less. *)
Variable lt : K -> K -> bool.
Definition same (a b : K) : bool := negb (lt a b) && negb (lt b a).

(** std::map::find, end() is None *)
Fixpoint find (k : K) (m : list (K * V)) : option (K * V) :=
  match m with
  | [] => None
  | (a, v) :: m' => if same a k then Some (a, v) else find k m'
  end.
(** position-respecting insertion of a key that is not present *)
Fixpoint place (k : K) (v : V) (m : list (K * V)) : list (K * V) :=
  match m with
  | [] => [(k, v)]
  | (a, w) :: m' => if lt k a then (k, v) :: m else (a, w) :: place k v m'
  end.
Fixpoint overwrite (k : K) (v : V) (m : list (K * V)) : list (K * V) :=
  match m with
  | [] => []
  | (a, w) :: m' => if same a k then (a, v) :: m' else (a, w) :: overwrite k v m'
  end.
(** insert (keeps an existing value), m[k] = v, erase(k), clear, m[k] with the default value *)
Definition insert (k : K) (v : V) (m : list (K * V)) : list (K * V) :=
  match find k m with Some _ => m | None => place k v m end.
Definition put (k : K) (v : V) (m : list (K * V)) : list (K * V) :=
  match find k m with Some _ => overwrite k v m | None => place k v m end.
Fixpoint erase (k : K) (m : list (K * V)) : list (K * V) :=
  match m with
  | [] => []
  | (a, w) :: m' => if same a k then m' else (a, w) :: erase k m'
  end.
(** operator[] on a key, for reading: inserts the default value *)
Definition subscript (default : V) (k : K) (m : list (K * V)) : V * list (K * V) :=
  match find k m with Some (_, v) => (v, m) | None => (default, place k default m) end.

(** contains(key), l.11-13, 71-73 *)
Definition contains (k : K) (m : list (K * V)) : bool :=
  match find k m with Some _ => true | None => false end.
(** contains(key, value), l.22-30, 82-90: the flag and the new content of [value] *)
Definition contains_value (k : K) (value : V) (m : list (K * V)) : bool * V :=
  match find k m with Some (_, v) => (true, v) | None => (false, value) end.
(** get(key, default), l.43-48, 103-108 *)
Definition get (k : K) (default : V) (m : list (K * V)) : V :=
  match find k m with Some (_, v) => v | None => default end.
(** str, l.50-62, 110-122: the pieces of text appended (keys and values formatted by fmt) *)
Inductive piece := Open | Indent | Key (k : K) | Colon | Value (v : V) | Newline | Close.
Definition str (m : list (K * V)) : list piece :=
  fold_left (fun s p => s ++ [Indent; Key (fst p)] ++ [Colon] ++ [Value (snd p)] ++ [Newline]) m [Open]
  ++ [Close].

(** A history of calls. *)
Inductive call := Insert (k : K) (v : V) | Put (k : K) (v : V) | Erase (k : K) | Touch (d : V) (k : K) | Clear.
Definition step (m : list (K * V)) (c : call) : list (K * V) :=
  match c with
  | Insert k v => insert k v m
  | Put k v => put k v m
  | Erase k => erase k m
  | Touch d k => snd (subscript d k m)
  | Clear => []
  end.
Definition run (cs : list call) : list (K * V) := fold_left step cs [].

(** The unordered container: after any call the pairs may be in any order (rehashing). *)
Inductive urun : list call -> list (K * V) -> Prop :=
| urun_nil : urun [] []
| urun_step cs c m m' : urun cs m -> Permutation m' (step m c) -> urun (cs ++ [c]) m'.
End Map.
Arguments piece : clear implicits.
Arguments call : clear implicits.
