(** Shared vocabulary of all the models: outcomes, loops, memory cells. *)
From Coq Require Export List Arith NArith ZArith Bool Lia.
From Coq Require Export ZifyBool ZifyNat ZifyN.
Export ListNotations.

(** What a C++ call can do: return a value, throw an exception, or run into undefined behaviour. *)
Inductive exn : Type :=
| RuntimeError            (* std::runtime_error, thrown by LIBRAPID_ASSERT / LIBRAPID_ERROR *)
| RangeError              (* std::range_error *)
| InvalidArgument         (* std::invalid_argument *)
| OutOfRange              (* std::out_of_range *)
| NotImplemented          (* LIBRAPID_NOT_IMPLEMENTED *)
| LengthError.            (* std::length_error *)

Inductive outcome (A : Type) : Type :=
| Ok (a : A)
| Throw (e : exn)
| UB.
Arguments Ok {A} a.
Arguments Throw {A} e.
Arguments UB {A}.

Definition bind {A B} (o : outcome A) (k : A -> outcome B) : outcome B :=
  match o with Ok a => k a | Throw e => Throw e | UB => UB end.

Definition omap {A B} (f : A -> B) (o : outcome A) : outcome B := bind o (fun a => Ok (f a)).

Declare Scope outcome_scope.
Delimit Scope outcome_scope with outcome.
Notation "'do' x <- a ; b" := (bind a (fun x => b))
  (at level 200, x pattern, a at level 100, b at level 200, right associativity) : outcome_scope.
Open Scope outcome_scope.

(** Array cells.  Reading or writing outside the array is undefined behaviour. *)
Definition rd {A} (m : list A) (i : nat) : outcome A :=
  match nth_error m i with Some a => Ok a | None => UB end.

Fixpoint upd {A} (m : list A) (i : nat) (a : A) : list A :=
  match m, i with
  | [], _ => []
  | _ :: t, O => a :: t
  | h :: t, S i' => h :: upd t i' a
  end.

Definition wr {A} (m : list A) (i : nat) (a : A) : outcome (list A) :=
  if i <? length m then Ok (upd m i a) else UB.

(** [for (i = lo; i < hi; ++i) body] threading a state. *)
Fixpoint for_from {S} (n i : nat) (body : nat -> S -> outcome S) (s : S) : outcome S :=
  match n with
  | O => Ok s
  | Datatypes.S n' => do s' <- body i s; for_from n' (Datatypes.S i) body s'
  end.
Definition for_range {S} (lo hi : nat) (body : nat -> S -> outcome S) (s : S) : outcome S :=
  for_from (hi - lo) lo body s.

(** [for (i = hi - 1; i >= lo; --i) body]. *)
Fixpoint for_down_n {S} (n lo : nat) (body : nat -> S -> outcome S) (s : S) : outcome S :=
  match n with
  | O => Ok s
  | Datatypes.S n' => do s' <- body (lo + n') s; for_down_n n' lo body s'
  end.
Definition for_down {S} (hi lo : nat) (body : nat -> S -> outcome S) (s : S) : outcome S :=
  for_down_n (hi - lo) lo body s.

(** A loop over an explicit list of iterations (used for arbitrary thread schedules). *)
Fixpoint for_list {I S} (is : list I) (body : I -> S -> outcome S) (s : S) : outcome S :=
  match is with
  | [] => Ok s
  | i :: is' => do s' <- body i s; for_list is' body s'
  end.
