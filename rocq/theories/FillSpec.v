(** Vocabulary for random fills. *)
From Coq Require Import QArith.
From Verif Require Import Base RandomModel FillModel.
Local Open Scope nat_scope.

(** a schedule of [n] threads, and one in which all of them end *)
Definition of_threads (n : nat) (sched : list nat) : Prop := Forall (fun q => q < n) sched.
Definition all_ended {Sd G V} (n : nat) (st : kstate Sd G V) : Prop := forall q, q < n -> k_phase st q = Ended.

(** The seed a thread leaves behind when it started with [s]: after one number, or after none. *)
Section Seeds.
Context {Sd G U : Type} (start : Sd -> G) (draw : G -> U * G) (next_seed : G -> Sd).
Definition first_number (s : Sd) : U := fst (draw (start s)).
Definition seed_after_one (s : Sd) : Sd := next_seed (snd (draw (start s))).
Definition seed_after_none (s : Sd) : Sd := next_seed (start s).
(** the seeds that can descend from [s] *)
Inductive descends (s : Sd) : Sd -> Prop :=
| d_self : descends s s
| d_one t : descends s t -> descends s (seed_after_one t)
| d_none t : descends s t -> descends s (seed_after_none t).
End Seeds.

(** the numbers of the standard generator after setSeed *)
Fixpoint stream {G} (draw : G -> Q * G) (g : G) (n : nat) : list Q :=
  match n with O => [] | S n => fst (draw g) :: stream draw (snd (draw g)) n end.
