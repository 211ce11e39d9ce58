(** Vocabulary of the BitSet theorems. *)
From Verif Require Import Base BitSetModel.

(** Position [i] of the raw words (also defined for padding positions). *)
Definition bit (d : words) (i : nat) : bool :=
  N.testbit (nth (i / 64) d 0%N) (N.of_nat (i mod 64)).

(** Every word fits in 64 bits. *)
Definition wf (d : words) : Prop := Forall (fun w => (w < 2 ^ 64)%N) d.

(** No padding position (index >= n) is set. *)
Definition clean (n : nat) (d : words) : Prop := forall j, n <= j -> bit d j = false.

(** A well-formed BitSet<n>: the right number of 64-bit words, no padding position set.  Every
    BitSet reachable by the operations proved to preserve it satisfies this (see
    [C01_history_wellformed] and the preservation parts of the other theorems). *)
Definition ok (n : nat) (d : words) : Prop := length d = numElements n /\ wf d /\ clean n d.

(** What the user reads at position i ([false] where [get] is not defined). *)
Definition posn (d : words) (i : nat) : bool := match get d i with Ok b => b | _ => false end.

(** The value a position must have after a list of writes: that of the last write to it. *)
Definition last_write (ops : list (nat * bool)) (init : nat -> bool) (j : nat) : bool :=
  fold_left (fun acc '(i, v) => if i =? j then v else acc) ops (init j).

(** Number of positions below n at which f holds. *)
Definition count_bits (f : nat -> bool) (n : nat) : nat := length (filter f (seq 0 n)).

(** Distances for which the shift loops of the library do not run into undefined behaviour. *)
Definition shift_defined (n s : nat) : Prop :=
  s = 0 \/ (s / 64 <= numElements n /\ (s mod 64 <> 0 \/ numElements n <= s / 64 + 1)).
