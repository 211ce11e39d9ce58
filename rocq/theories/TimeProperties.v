(** C51 (formatTime) and C52 (Timer). *)
From Coq Require Import Reals Lra List Sorted Lia.
From Verif Require Import Base TimeModel TimeSpec TimeProofs.
Import ListNotations.
Local Open Scope R_scope.

(** C51: the number and unit denote the duration passed in, the number is below the next unit's
    size and (except for nanoseconds) at least 1.  The bound is the largest double. *)
Theorem C51_formatTime : forall (scale : Z) (time x : R) (u : unit_name),
  time * IZR scale <= 2 ^ 1024 ->
  formatTime (fun y => y) scale time = (x, u) ->
  x * unit_size u = time * IZR scale /\ below_next u x /\ (u <> Ns -> 1 <= x).
Proof.
  intros scale time x u Hb E.
  assert (Hr : rounds_within 0 (fun y => y)).
  { intros y. replace (y - y) with 0 by ring. rewrite Rabs_R0. lra. }
  destruct (format_spec (fun y => y) 0 ltac:(lra) Hr scale time x u Hb E) as (H1 & H2 & H3 & H4).
  split; [|split; [exact H1|intros Hu; specialize (H2 Hu); lra]].
  destruct u; try (cbn [unit_size]; rewrite (H3 eq_refl); ring);
    match goal with |- _ * unit_size ?u = _ => specialize (H4 ltac:(discriminate)) end;
    rewrite Rminus_0_r, Rplus_0_r, pow1, Rmult_1_l in H4; lra.
Qed.
Print Assumptions C51_formatTime.

(** With rounded arithmetic of relative error eps the unit bounds stay the same and the number is
    within a factor (1 +- eps)^7 of the duration (at most seven divisions). *)
Theorem C51_formatTime_rounded : forall (eps : R) (rnd : R -> R) (scale : Z) (time x : R) (u : unit_name),
  0 <= eps <= 1 -> rounds_within eps rnd ->
  rnd (time * IZR scale) <= 2 ^ 1024 ->
  formatTime rnd scale time = (x, u) ->
  below_next u x /\ (u <> Ns -> 1 - eps <= x) /\
  (u = Ns -> x = rnd (time * IZR scale)) /\
  (u <> Ns -> (1 - eps) ^ 7 * rnd (time * IZR scale) <= x * unit_size u
              <= (1 + eps) ^ 7 * rnd (time * IZR scale)).
Proof. intros eps rnd scale time x u He Hr. now apply format_spec. Qed.
Print Assumptions C51_formatTime_rounded.

(** 90 minutes given in seconds: 1.5 hours. *)
Example C51_example :
  5400 * IZR 1000000000 <= 2 ^ 1024 /\ formatTime (fun y => y) 1000000000 5400 = (3 / 2, Hour).
Proof.
  split.
  - rewrite pow_IZR, <- mult_IZR. apply IZR_le. discriminate.
  - unfold formatTime, prefix, divisor. cbn [units].
    repeat (destruct (Rlt_dec _ _); try (exfalso; lra)).
    f_equal. field.
Qed.

(** C52: for any calls on a timer with a clock that does not run backwards, elapsed() is the time
    from the last beginning of a measurement to the stop, or to now if it was not stopped.  The
    hypothesis [targets_while_running] is needed: see below. *)
Theorem C52_elapsed : forall (c now : R) (calls : list (call * R)),
  monotone c (map snd calls ++ [now]) -> targets_while_running calls ->
  let t := run (construct c) calls in
  exists s, began c calls s /\
    (forall s', began c calls s' -> s' = s) /\
    (forall e, stopped calls e -> elapsed now t = e - s) /\
    (unstopped calls -> elapsed now t = now - s) /\
    0 <= elapsed now t <= now - c.
Proof.
  intros c now calls [Hc Hs] Ht t. destruct (began_exists c calls) as [s Hb]. exists s.
  split; [exact Hb|]. split.
  - intros s' Hb'. destruct (fields c calls) as (F & _). now rewrite <- (F s Hb), <- (F s' Hb').
  - now apply elapsed_spec.
Qed.
Print Assumptions C52_elapsed.

Example C52_elapsed_example :
  let calls := [(Start, 5); (IsRunning, 6); (Stop, 8)] in
  monotone 1 (map snd calls ++ [9]) /\ targets_while_running calls /\ began 1 calls 5 /\ stopped calls 8.
Proof.
  cbn zeta. split; [|split; [|split]].
  - split; [lra|]. cbn. repeat constructor; lra.
  - intros h1 tg n h2 E. do 3 (destruct h1 as [|? h1]; [discriminate|injection E as ? E]). now destruct h1.
  - left. exists [], Start, [(IsRunning, 6); (Stop, 8)]. repeat split. intros x [<-|[<-|[]]]; reflexivity.
  - exists [(Start, 5); (IsRunning, 6)], []. split; [reflexivity|]. intros x [].
Qed.

(** setTargetTime on a stopped timer restarts the measurement but does not clear the stop: elapsed()
    is then negative. *)
Theorem C52_elapsed_refuted :
  exists (c now : R) (calls : list (call * R)),
    monotone c (map snd calls ++ [now]) /\ began c calls 5 /\ unstopped calls /\
    elapsed now (run (construct c) calls) = -3.
Proof.
  exists 1, 9, [(Stop, 2); (SetTarget 10, 5)]. split; [|split; [|split]].
  - split; [lra|]. cbn. repeat constructor; lra.
  - left. exists [(Stop, 2)], (SetTarget 10), []. repeat split. intros x [].
  - intros e He. change [(Stop, 2); (SetTarget 10, 5)] with ([(Stop, 2)] ++ [(SetTarget 10, 5)]) in He.
    apply stopped_snoc in He. exact He.
  - cbn. unfold elapsed. cbn. destruct (Req_EM_T 2 (-1)); lra.
Qed.
Print Assumptions C52_elapsed_refuted.

(** The loop 'while (timer.isRunning()) body' after setTargetTime(target): it stops at the first
    check at or past the target, having run the body once for each earlier check; if no check is
    past the target it goes on. *)
Theorem C52_loop : forall (t : timer) (s target : R) (pre post : list R) (now : R),
  (forall r, In r pre -> r - s < target) -> target <= now - s ->
  exists t', loop (pre ++ now :: post) (setTargetTime target s t) = Some (length pre, t') /\
    m_iters t' = (length pre + 1)%nat /\ m_start t' = s /\
    loop pre (setTargetTime target s t) = None.
Proof.
  intros t s target pre post now Hpre Hnow. eexists. split; [now apply loop_spec|].
  split; [reflexivity|]. split; [reflexivity|]. now apply loop_forever.
Qed.
Print Assumptions C52_loop.

(** average() divides by the number of checks, which is one more than the number of times the body
    ran. *)
Theorem C52_average_refuted : forall (s target now e : R) (pre post : list R) (t' : timer) (n : nat),
  0 <= s -> (forall r, In r pre -> r - s < target) -> target <= now - s -> pre <> [] ->
  loop (pre ++ now :: post) (setTargetTime target s (construct 0)) = Some (n, t') ->
  s < e ->
  average e t' = (e - s) / (INR n + 1) /\ average e t' < (e - s) / INR n.
Proof.
  intros s target now e pre post t' n Hs Hpre Hnow Hne E He.
  rewrite (loop_spec pre now post (setTargetTime target s (construct 0)) Hpre Hnow) in E.
  injection E as <- <-. unfold average, elapsed. cbn [m_end m_start m_iters setTargetTime construct].
  destruct (Req_EM_T (-1) (-1)); [|congruence].
  rewrite plus_INR. cbn [INR]. split; [reflexivity|].
  assert (H1 : 0 < INR (length pre)).
  { destruct pre; [congruence|]. apply lt_0_INR. cbn. lia. }
  unfold Rdiv. apply Rmult_lt_compat_l; [lra|]. apply Rinv_lt_contravar; [|lra].
  apply Rmult_lt_0_compat; lra.
Qed.
Print Assumptions C52_average_refuted.

Example C52_loop_example :
  let pre := [1; 4; 8] in
  (forall r, In r pre -> r - 0 < 10) /\ 10 <= 13 - 0 /\ pre <> [] /\
  exists t', loop (pre ++ [13]) (setTargetTime 10 0 (construct 0)) = Some (3%nat, t').
Proof.
  cbn zeta. assert (H : forall r, In r [1; 4; 8] -> r - 0 < 10).
  { intros r [<-|[<-|[<-|[]]]]; lra. }
  split; [exact H|]. split; [lra|]. split; [discriminate|].
  destruct (C52_loop (construct 0) 0 10 [1; 4; 8] [] 13 H ltac:(lra)) as (t' & E & _). exists t'. exact E.
Qed.

(** sleep(time) returns only once at least [time] has passed, at the first clock reading for which
    that is so. *)
Theorem C52_sleep : forall (time start r : R) (clock : list R),
  sleep time start clock = Some r ->
  time <= r - start /\ exists pre post, clock = pre ++ r :: post /\ forall x, In x pre -> x - start < time.
Proof. intros time start r clock; apply sleep_spec. Qed.
Print Assumptions C52_sleep.
