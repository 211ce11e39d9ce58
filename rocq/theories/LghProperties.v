(** C107: the real part of the logarithm of a complex double, for every double. *)
From Coq Require Import ZArith Reals Lia Lra.
From Flocq Require Import Core.
From Verif Require Import EftModel EftSpec EftProofs LghModel LghSpec LghProofs.
Local Open Scope R_scope.

(** Finite numbers, of any size, not both zero: ln |z| with a relative error of 2^-44, up to an absolute error of 2^-95 near the unit
    circle.  No argument is too small or too large. *)
Theorem C107_finite : forall sq lg bx by_, sq = square_fma \/ sq = sqrX2_split -> good_log lg -> bits64 bx -> bits64 by_ ->
  val64 bx <> 0 \/ val64 by_ <> 0 ->
  exists r, logHypot sq lg bx by_ = Num r /\ close r (log_modulus (val64 bx) (val64 by_)).
Proof. exact finite_ok. Qed.
Print Assumptions C107_finite.
(** z = 2^1023 (1 - i) and z = 2^-1074 (1 - i) *)
Example C107_finite_huge : bits64 (2046 * 2 ^ 52) /\ bits64 (2046 * 2 ^ 52 + 2 ^ 63) /\ val64 (2046 * 2 ^ 52) = bpow radix2 1023 /\
  good_log (fun v => rnd64 (ln v)).
Proof.
  split; [split; [lia|reflexivity]|]. split; [split; [lia|reflexivity]|]. split; [|exact rounded_log_good].
  change (val64 (2046 * 2 ^ 52)) with (bpow radix2 52 * bpow radix2 (2046 - 1075)). rewrite <- bpow_plus. reflexivity.
Qed.
Example C107_finite_tiny : exists r, logHypot sqrX2_split (fun v => rnd64 (ln v)) 1 (2 ^ 63 + 1) = Num r /\ close r (log_modulus (val64 1) (val64 (2 ^ 63 + 1))).
Proof.
  apply C107_finite; [auto|exact rounded_log_good|split; [lia|reflexivity]|split; [lia|reflexivity]|]. left.
  change (val64 1) with (1 * bpow radix2 (-1074)). pose proof (bpow_gt_0 radix2 (-1074)). lra.
Qed.

(** Zero: minus infinity. *)
Theorem C107_zero : forall sq lg bx by_, bits64 bx -> bits64 by_ -> val64 bx = 0 -> val64 by_ = 0 -> logHypot sq lg bx by_ = Inf true.
Proof. exact zero_ok. Qed.
Print Assumptions C107_zero.
Example C107_zero_ex : bits64 0 /\ bits64 (2 ^ 63) /\ val64 0 = 0 /\ val64 (2 ^ 63) = 0.
Proof.
  split; [split; [lia|reflexivity]|]. split; [split; [lia|reflexivity]|].
  change (val64 0) with (0 * bpow radix2 (-1074)). change (val64 (2 ^ 63)) with (- (0 * bpow radix2 (-1074))). split; ring.
Qed.

(** For finite numbers the signs and the order of the components do not matter, to the last bit. *)
Theorem C107_symmetric : forall sq lg bx by_ cx cy, bits64 bx -> bits64 by_ -> any64 cx -> any64 cy ->
  same_magnitude bx cx -> same_magnitude by_ cy ->
  logHypot sq lg cx cy = logHypot sq lg bx by_ /\ logHypot sq lg by_ bx = logHypot sq lg bx by_.
Proof.
  intros sq lg bx by_ cx cy Bx By Cx Cy Ex Ey. split; [now apply finite_sign|]. symmetry. now apply finite_sym.
Qed.
Print Assumptions C107_symmetric.
Example C107_symmetric_ex : same_magnitude 1 (2 ^ 63 + 1) /\ any64 (2 ^ 63 + 1).
Proof. split; [reflexivity|split; [discriminate|reflexivity]]. Qed.

(** A NaN in either component gives a NaN. *)
Theorem C107_nan : forall sq lg bx by_, any64 bx -> any64 by_ -> nan64 bx \/ nan64 by_ -> logHypot sq lg bx by_ = NaN.
Proof.
  intros sq lg bx by_ Ax Ay [H|H]; unfold logHypot; rewrite (decode_nan _ H); [reflexivity|]. destruct (decode bx); reflexivity.
Qed.
Print Assumptions C107_nan.
Example C107_nan_ex : nan64 (2047 * 2 ^ 52 + 1) /\ nan64 (4095 * 2 ^ 52 + 2 ^ 51).
Proof. split; (split; [split; [discriminate|reflexivity]|reflexivity]). Qed.

(** An infinite component and no NaN: plus infinity as long as the first infinite component is positive.  Missing: a negative infinite
    component, see below. *)
Theorem C107_infinite_partial : forall sq lg bx by_, any64 bx -> any64 by_ -> ~ nan64 by_ ->
  (logHypot sq lg (infinity false) by_ = Inf false) /\ (bits64 bx -> logHypot sq lg bx (infinity false) = Inf false).
Proof.
  intros sq lg bx by_ Ax Ay NN. unfold logHypot. rewrite decode_inf. split.
  - destruct (decode_split by_ Ay) as [B|[[s ->]|C]]; [now rewrite decode_finite|now rewrite decode_inf|contradiction].
  - intros B. now rewrite decode_finite.
Qed.
Print Assumptions C107_infinite_partial.
Example C107_infinite_ex : any64 (infinity true) /\ ~ nan64 (infinity true) /\ bits64 1.
Proof.
  split; [split; [discriminate|reflexivity]|]. split; [|split; [lia|reflexivity]]. intros [_ H]. vm_compute in H. discriminate.
Qed.

(** The modulus of a number with an infinite component is plus infinity, and so is its logarithm; but the component itself is returned,
    with its sign: log of -inf + 0i has the real part -inf, as if it were the logarithm of zero. *)
Theorem C107_infinite_refuted : ~ forall sq lg bx by_, any64 bx -> any64 by_ -> ~ nan64 bx -> ~ nan64 by_ ->
  (exists s, bx = infinity s) \/ (exists s, by_ = infinity s) -> logHypot sq lg bx by_ = Inf false.
Proof.
  intros H. assert (E : logHypot square_fma ln (infinity true) 0 = Inf true) by reflexivity. rewrite H in E; [discriminate E|..].
  - split; [discriminate|reflexivity].
  - split; [discriminate|reflexivity].
  - intros [_ G]. vm_compute in G. discriminate.
  - intros [_ G]. vm_compute in G. discriminate.
  - left. exists true. reflexivity.
Qed.
Print Assumptions C107_infinite_refuted.

(** What is returned instead: the first infinite component itself. *)
Theorem C107_infinite_component : forall sq lg bx by_ s, any64 by_ -> ~ nan64 by_ -> bits64 bx ->
  logHypot sq lg (infinity s) by_ = Inf s /\ logHypot sq lg bx (infinity s) = Inf s.
Proof.
  intros sq lg bx by_ s Ay NN B. unfold logHypot. rewrite decode_inf. split.
  - destruct (decode_split by_ Ay) as [B'|[[s' ->]|C]]; [now rewrite decode_finite|now rewrite decode_inf|contradiction].
  - now rewrite decode_finite.
Qed.
Print Assumptions C107_infinite_component.
Example C107_infinite_component_ex : logHypot square_fma ln 1 (infinity true) = Inf true /\ logHypot square_fma ln (infinity false) (infinity true) = Inf false.
Proof. split; reflexivity. Qed.
