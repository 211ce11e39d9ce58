(** Property C75: arithmetic on unevaluated sums of two floating-point numbers, and the logarithm of the
    modulus of a complex number computed with it. *)
From Coq Require Import ZArith Reals Lia Lra.
From Flocq Require Import Core.
From Verif Require Import EftModel EftSpec EftProofs.
Open Scope R_scope.
Local Notation pow := (bpow radix2).

(** addX2: in every binary format with at least two bits and gradual underflow, the first component is
    the rounded sum and the two components together are the sum, for all operands. *)
Theorem C75_addX2 : forall prec emin x y, (1 < prec)%Z -> (emin <= 0)%Z -> is_float prec emin x -> is_float prec emin y ->
  let s := addX2 (rnd prec emin) x y in val0 s = rnd prec emin (x + y) /\ val0 s + val1 s = x + y.
Proof. intros prec emin x y Hp He Fx Fy. exact (addX2_exact prec emin Hp He x y Fx Fy). Qed.
Print Assumptions C75_addX2.

Lemma one_double : is_double 1.
Proof. exact format_one. Qed.
Lemma tiny_double : is_double (pow (-60)).
Proof. apply generic_format_bpow. unfold FLT_exp. lia. Qed.
Example C75_addX2_example : val0 (addX2 rnd64 1 (pow (-60))) + val1 (addX2 rnd64 1 (pow (-60))) = 1 + pow (-60).
Proof. apply (C75_addX2 53 (-1074)); [lia|lia|apply one_double|apply tiny_double]. Qed.

(** addSmallX2: the same under the documented requirement on the first operand, or when it is the larger
    one in magnitude. *)
Theorem C75_addSmallX2 : forall prec emin x y, (1 < prec)%Z -> (emin <= 0)%Z -> is_float prec emin x -> is_float prec emin y ->
  multiple_of_last_place prec emin x y \/ Rabs y <= Rabs x ->
  let s := addSmallX2 (rnd prec emin) x y in val0 s = rnd prec emin (x + y) /\ val0 s + val1 s = x + y.
Proof.
  intros prec emin x y Hp He Fx Fy [H|H]; (split; [reflexivity|]).
  - exact (addSmallX2_mult prec emin Hp He x y Fx Fy H).
  - exact (addSmallX2_big prec emin Hp He x y Fx Fy H).
Qed.
Print Assumptions C75_addSmallX2.

Example C75_addSmallX2_example : val0 (addSmallX2 rnd64 1 (pow (-60))) + val1 (addSmallX2 rnd64 1 (pow (-60))) = 1 + pow (-60).
Proof.
  apply (C75_addSmallX2 53 (-1074)); [lia|lia|apply one_double|apply tiny_double|]. right.
  rewrite !Rabs_pos_eq; [|lra|apply bpow_ge_0]. change 1 with (pow 0). apply bpow_le. lia.
Qed.

(** sqrX2 for double, with and without a fused multiply-subtract: exact for zero and for every finite
    double of magnitude at least 2^-485 (and, so that nothing overflows, below 2^511). *)
Theorem C75_sqrX2 : forall b, bits64 b -> val64 b = 0 \/ pow (-485) <= Rabs (val64 b) < pow 511 ->
  exact_square (val64 b) (sqrX2_fma (val64 b)) /\ exact_square (val64 b) (sqrX2_split b).
Proof.
  intros b Hb H. assert (H2 : val64 b = 0 \/ pow (-485) <= Rabs (val64 b)) by tauto.
  split; [exact (sqrX2_fma_exact b Hb H2)|exact (sqrX2_split_exact b Hb H2)].
Qed.
Print Assumptions C75_sqrX2.

Example C75_sqrX2_example : exact_square (val64 witness_x) (sqrX2_split witness_x) /\ val64 witness_x = 13421771 / 16777216.
Proof.
  destruct witness_vals as (Bx & _ & Ex & _). assert (V : val64 witness_x = 13421771 / 16777216) by (rewrite Ex, p24; lra).
  split; [|exact V]. apply C75_sqrX2; [exact Bx|right]. rewrite V, Rabs_pos_eq by lra. split.
  - apply Rle_trans with (pow (-1)); [apply bpow_le; lia|]. rewrite <- half_pow. lra.
  - apply Rlt_le_trans with (pow 0); [change (pow 0) with 1; lra|apply bpow_le; lia].
Qed.

(** "Exact for every double" is false: the square of 2^-600 is lost altogether. *)
Theorem C75_sqrX2_underflow_refuted : ~ (forall b, bits64 b -> Rabs (val64 b) < pow 511 -> exact_square (val64 b) (sqrX2_fma (val64 b))).
Proof.
  intros H. destruct tiny_vals as (B & V). destruct (H _ B) as (_ & E).
  - rewrite V, Rabs_pos_eq by apply bpow_ge_0. apply bpow_lt. lia.
  - rewrite V, (proj1 tiny_square) in E. cbn [val0 val1] in E. rewrite <- bpow_plus in E.
    pose proof (bpow_gt_0 radix2 (-600 + -600)). lra.
Qed.
Print Assumptions C75_sqrX2_underflow_refuted.

(** For float the error term is always zero: the helper rounds the bits of the number as a double, which
    leaves a float unchanged.  So sqrX2<float> is the plain rounded square. *)
Theorem C75_float_square : forall b, bits64 b -> is_float 24 (-149) (val64 b) ->
  sqrX2_float b = Fmp (rnd32 (val64 b * val64 b)) 0.
Proof. exact sqrX2_float_dropped. Qed.
Print Assumptions C75_float_square.

(** normMinusOne<double>: x^2 + y^2 - 1 with one rounding error and a rest of the order of the square of
    the unit roundoff, on the documented range. *)
Theorem C75_norm_minus_one : forall bx by_, bits64 bx -> bits64 by_ ->
  let x := val64 bx in let y := val64 by_ in
  / 2 <= Rabs x < 4096 -> Rabs y <= Rabs x ->
  let bound := pow (-53) * Rabs (x * x + y * y - 1) + pow (-100) * (x * x) in
  Rabs (normMinusOne_fma bx by_ - (x * x + y * y - 1)) <= bound
  /\ Rabs (normMinusOne_split bx by_ - (x * x + y * y - 1)) <= bound.
Proof.
  intros bx by_ Bx By x y Hx Hy bound.
  assert (Big : val64 bx = 0 \/ pow (-485) <= Rabs (val64 bx)).
  { right. apply Rle_trans with (/ 2); [rewrite half_pow; apply bpow_le; lia|exact (proj1 Hx)]. }
  split.
  - apply norm_error; [exact Hx|exact Hy|apply fmt_rnd64|exact (sqrX2_fma_exact bx Bx Big)|exact (near_fma by_ By)].
  - apply norm_error; [exact Hx|exact Hy|apply fmt_rnd64|exact (sqrX2_split_exact bx Bx Big)|exact (near_split by_ By)].
Qed.
Print Assumptions C75_norm_minus_one.

(** Two floats near the unit circle, taken as doubles: the relative error is below one part in ten billion. *)
Example C75_norm_minus_one_example : Rabs (normMinusOne_split witness_x witness_y - 9 / 281474976710656) <= / 10000000000 * (9 / 281474976710656).
Proof.
  destruct witness_vals as (Bx & By & Ex & Ey). pose proof (proj2 (C75_norm_minus_one witness_x witness_y Bx By
    ltac:(rewrite Ex, p24, Rabs_pos_eq by lra; lra) ltac:(rewrite Ex, Ey, p24, !Rabs_pos_eq by lra; lra))) as H.
  rewrite witness_exact in H. eapply Rle_trans; [exact H|].
  rewrite (Rabs_pos_eq (9 / 281474976710656)), Ex, p24 by lra.
  change (pow (-53)) with (/ 9007199254740992). change (pow (-100)) with (/ 1267650600228229401496703205376). lra.
Qed.

(** With float the same numbers give a result of the wrong sign and 900000 times too large. *)
Theorem C75_float_norm_refuted :
  ~ (forall bx by_, bits64 bx -> bits64 by_ -> is_float 24 (-149) (val64 bx) -> is_float 24 (-149) (val64 by_) ->
     let x := val64 bx in let y := val64 by_ in
     / 2 <= Rabs x < 4096 -> Rabs y <= Rabs x ->
     Rabs (normMinusOne_float bx by_ - (x * x + y * y - 1)) <= 900000 * Rabs (x * x + y * y - 1)).
Proof.
  intros H. destruct witness_vals as (Bx & By & Ex & Ey). specialize (H witness_x witness_y Bx By).
  cbv zeta in H. rewrite witness_exact, witness_float in H.
  assert (P : Rabs (- / 33554432 - 9 / 281474976710656) <= 900000 * Rabs (9 / 281474976710656)).
  { apply H.
    - rewrite Ex. apply format32_int; [discriminate|lia].
    - rewrite Ey. apply format32_int; [discriminate|lia].
    - rewrite Ex, p24, Rabs_pos_eq by lra. lra.
    - rewrite Ex, Ey, p24, !Rabs_pos_eq by lra. lra. }
  rewrite Rabs_left1, (Rabs_pos_eq (9 / 281474976710656)) in P by lra. lra.
Qed.
Print Assumptions C75_float_norm_refuted.

(** logP1<double>: for every double above -1 and every logarithm with relative error 2^-52, the result has
    relative error 2^-46, however small the argument. *)
Theorem C75_logp1 : forall lg, good_log lg -> forall x, is_double x -> -1 < x ->
  Rabs (logP1_64 lg x - ln (1 + x)) <= pow (-46) * Rabs (ln (1 + x)).
Proof. intros lg Hlg x Fx Hx. exact (logP1_error lg Hlg x Fx Hx). Qed.
Print Assumptions C75_logp1.

(** The correctly rounded logarithm is such a logarithm. *)
Example C75_logp1_example : good_log (fun v => rnd64 (ln v))
  /\ Rabs (logP1_64 (fun v => rnd64 (ln v)) (pow (-60)) - ln (1 + pow (-60))) <= pow (-46) * Rabs (ln (1 + pow (-60))).
Proof.
  split; [exact rounded_log_good|]. apply C75_logp1; [exact rounded_log_good|apply tiny_double|].
  pose proof (bpow_gt_0 radix2 (-60)). lra.
Qed.

(** logHypot<double> away from overflow and underflow: relative error 2^-44 and absolute error 2^-95,
    also next to the unit circle, where the logarithm itself vanishes. *)
Theorem C75_log_modulus : forall sq lg bx by_, sq = square_fma \/ sq = sqrX2_split -> good_log lg ->
  bits64 bx -> bits64 by_ -> legTiny < val64 bx < legHuge -> 0 < val64 by_ <= val64 bx ->
  let m := ln (sqrt (val64 bx * val64 bx + val64 by_ * val64 by_)) in
  Rabs (logHypot_mid sq lg bx by_ - m) <= pow (-44) * Rabs m + pow (-95).
Proof. intros sq lg bx by_ Hsq Hlg Bx By Hx Hy. exact (logHypot_mid_error sq lg bx by_ Hsq Hlg Bx By Hx Hy). Qed.
Print Assumptions C75_log_modulus.

Example C75_log_modulus_example :
  let lg := fun v => rnd64 (ln v) in let m := ln (sqrt (1 + 9 / 281474976710656)) in
  Rabs (logHypot_mid sqrX2_split lg witness_x witness_y - m) <= pow (-44) * Rabs m + pow (-95).
Proof.
  intros lg m. destruct witness_vals as (Bx & By & Ex & Ey).
  assert (E : val64 witness_x * val64 witness_x + val64 witness_y * val64 witness_y = 1 + 9 / 281474976710656) by (pose proof witness_exact; lra).
  unfold m. rewrite <- E. apply C75_log_modulus; [right; reflexivity|exact rounded_log_good|exact Bx|exact By| |].
  - rewrite Ex, p24. split.
    + unfold legTiny. apply Rle_lt_trans with (14156865331029228 / 10 ^ 20); [|lra].
      apply Rmult_le_compat_l; [lra|]. apply Rinv_le; [apply pow_lt; lra|]. apply Rle_pow; [lra|lia].
    + unfold legHuge. apply Rlt_le_trans with (6703903964971298 * 10 ^ 0); [lra|].
      apply Rmult_le_compat_l; [lra|]. apply Rle_pow; [lra|lia].
  - rewrite Ex, Ey, p24. lra.
Qed.
