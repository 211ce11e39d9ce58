(** What C51 and C52 mean. *)
From Coq Require Import Reals List Sorted.
From Verif Require Import Base TimeModel.
Import ListNotations.
Local Open Scope R_scope.

(** The length of each unit in nanoseconds, and how many of them make the next unit. *)
Definition unit_size (u : unit_name) : R :=
  match u with
  | Ns => 1
  | Us => 1000
  | Ms => 1000000
  | Sec => 1000000000
  | Min => 60 * 1000000000
  | Hour => 3600 * 1000000000
  | Day => 86400 * 1000000000
  | Year => 365 * 86400 * 1000000000
  end.
Definition below_next (u : unit_name) (x : R) : Prop :=
  match u with
  | Ns | Us | Ms => x < 1000
  | Sec | Min => x < 60
  | Hour => x < 24
  | Day => x < 365
  | Year => True
  end.

(** Rounding with relative error eps. *)
Definition rounds_within (eps : R) (rnd : R -> R) : Prop :=
  forall y, Rabs (rnd y - y) <= eps * Rabs y.

(** The calls at which a measurement begins. *)
Definition begins (c : call) : bool :=
  match c with Start | Reset | SetTarget _ => true | _ => false end.
Definition is_stop (c : call) : bool := match c with Stop => true | _ => false end.
(** The measurement in progress after [calls] began at time [s]: the last beginning call, or the
    construction at time [c]. *)
Definition began (c : R) (calls : list (call * R)) (s : R) : Prop :=
  (exists h1 k h2, calls = h1 ++ (k, s) :: h2 /\ begins k = true /\ forall x, In x h2 -> begins (fst x) = false)
  \/ (s = c /\ forall x, In x calls -> begins (fst x) = false).
(** It was stopped at time [e]: the last stop, with no beginning after it. *)
Definition stopped (calls : list (call * R)) (e : R) : Prop :=
  exists h1 h2, calls = h1 ++ (Stop, e) :: h2 /\
                forall x, In x h2 -> begins (fst x) = false /\ is_stop (fst x) = false.
(** It was not stopped. *)
Definition unstopped (calls : list (call * R)) : Prop := forall e, ~ stopped calls e.
(** setTargetTime is only called on a timer that is not stopped. *)
Definition targets_while_running (calls : list (call * R)) : Prop :=
  forall h1 target now h2, calls = h1 ++ (SetTarget target, now) :: h2 -> unstopped h1.

(** A clock that does not run backwards, from [t0] on (readings are never negative). *)
Definition monotone (t0 : R) (readings : list R) : Prop := 0 <= t0 /\ Sorted Rle (t0 :: readings).
