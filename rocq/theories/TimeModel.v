(** Model of formatTime and Timer.  Source: librapid/include/librapid/utils/time.hpp. *)
From Coq Require Import Reals List.
From Verif Require Import Base.
Import ListNotations.
Local Open Scope R_scope.

(** l.60-74 *)
Inductive unit_name := Ns | Us | Ms | Sec | Min | Hour | Day | Year.
Definition prefix : list unit_name := [Ns; Us; Ms; Sec; Min; Hour; Day; Year].
(** l.76: 1e300 is the last one *)
Definition divisor : list R := [1000; 1000; 1000; 60; 60; 24; 365; 10 ^ 300].

Section Format.
(** The rounding of one double operation. *)
Variable rnd : R -> R.

(** The loop of l.77-82 *)
Fixpoint units (ps : list unit_name) (ds : list R) (ns : R) : R * unit_name :=
  match ps, ds with
  | p :: ps', d :: ds' => if Rlt_dec ns d then (ns, p) else units ps' ds' (rnd (ns / d))
  | _, _ => (ns, Year)
  end.
(** formatTime<scale>, l.55-83 *)
Definition formatTime (scale : Z) (time : R) : R * unit_name :=
  units prefix divisor (rnd (time * IZR scale)).
End Format.

(** Timer, l.88-175.  Times are in nanoseconds; each operation that reads the clock is given the
    reading.  The name is left out; clock readings are taken as exact reals. *)
Record timer := mk { m_start : R; m_end : R; m_iters : nat; m_targetTime : R }.

(** constructor l.93-94 with the member initialisers l.168-173 *)
Definition construct (now : R) : timer := mk now (-1) 0 0.
(** setTargetTime l.101-107 ([target] already scaled to nanoseconds) *)
Definition setTargetTime (target now : R) (t : timer) : timer := mk now (m_end t) 0 target.
(** start l.110-113, reset l.119-122 *)
Definition start (now : R) (t : timer) : timer := mk now (-1) (m_iters t) (m_targetTime t).
Definition reset (now : R) (t : timer) : timer := mk now (-1) (m_iters t) (m_targetTime t).
(** stop l.116 *)
Definition stop (now : R) (t : timer) : timer := mk (m_start t) now (m_iters t) (m_targetTime t).
(** elapsed l.127-131 in nanoseconds (other units divide by the scale), average l.136-139 *)
Definition elapsed (now : R) (t : timer) : R :=
  if Req_EM_T (m_end t) (-1) then now - m_start t else m_end t - m_start t.
Definition average (now : R) (t : timer) : R := elapsed now t / INR (m_iters t).
(** isRunning l.141-144 *)
Definition isRunning (now : R) (t : timer) : bool * timer :=
  (if Rlt_dec (now - m_start t) (m_targetTime t) then true else false,
   mk (m_start t) (m_end t) (S (m_iters t)) (m_targetTime t)).

(** Calls on a timer in the order they happen. *)
Inductive call := Start | Stop | Reset | SetTarget (target : R) | IsRunning.
Definition step (t : timer) (c : call * R) : timer :=
  match c with
  | (Start, now) => start now t
  | (Stop, now) => stop now t
  | (Reset, now) => reset now t
  | (SetTarget target, now) => setTargetTime target now t
  | (IsRunning, now) => snd (isRunning now t)
  end.
Definition run (t : timer) (calls : list (call * R)) : timer := fold_left step calls t.

(** while (timer.isRunning()) body;  the successive readings of the clock inside isRunning are
    [clock].  The result counts the executions of the body; None if the readings run out while the
    loop is still going. *)
Fixpoint loop (clock : list R) (t : timer) : option (nat * timer) :=
  match clock with
  | [] => None
  | now :: clock' =>
    let (r, t') := isRunning now t in
    if r then match loop clock' t' with Some (n, t'') => Some (S n, t'') | None => None end
    else Some (O, t')
  end.

(** sleep, l.39-46 with sleepOffset = 0 (l.37): [start] is the first reading, [clock] the following
    ones; returns the reading at which the busy loop ends. *)
Fixpoint sleep (time start : R) (clock : list R) : option R :=
  match clock with
  | [] => None
  | now :: clock' => if Rlt_dec (now - start) time then sleep time start clock' else Some now
  end.
