(** C99: the Sigmoid activation over float and double. *)
From Coq Require Import ZArith Reals Lia Lra.
From Flocq Require Import Core BinarySingleNaN.
From Verif Require Import Base AccModel AccSpec AccProofs NumModel NumBasics SigModel SigSpec SigProofs SigExp.
From Coq Require Import ZifyNat ZifyN ZifyBool.
Ltac Zify.zify_post_hook ::= idtac.
Local Open Scope R_scope.

Local Notation dbl := (fint 53 1024 eq_refl eq_refl).
Local Notation dexp := (rounded_exp 53 1024 eq_refl eq_refl).

(** The expectations on the exponential function can be met. *)
Theorem C99_exp_exists : forall prec emax (Hp : Prec_gt_0 prec) (Hm : Prec_lt_emax prec emax), (6 <= prec)%Z -> (prec + 3 <= emax)%Z ->
  exists f, good_exp prec emax f.
Proof. intros prec emax Hp Hm P6 PE. exists (rounded_exp prec emax Hp Hm). now apply rounded_exp_good. Qed.
Print Assumptions C99_exp_exists.
Example C99_exp_exists_ex : good_exp 53 1024 dexp.
Proof. apply rounded_exp_good; lia. Qed.

(** Every input that is not NaN, infinities included, is sent to a number between 0 and 1. *)
Theorem C99_range : forall prec emax (Hp : Prec_gt_0 prec) (Hm : Prec_lt_emax prec emax) f, good_exp prec emax f ->
  forall x, is_nan x = false -> is_finite (fforward prec emax Hp Hm f x) = true /\ 0 <= B2R (fforward prec emax Hp Hm f x) <= 1.
Proof. intros prec emax Hp Hm f G x N. now apply forward_range. Qed.
Print Assumptions C99_range.
Example C99_range_ex : is_nan (dbl (-1000)) = false /\ 0 <= B2R (fforward 53 1024 eq_refl eq_refl dexp (dbl (-1000))) <= 1.
Proof. split; [reflexivity|]. apply C99_range; [apply C99_exp_exists_ex|reflexivity]. Qed.

(** The activation never decreases. *)
Theorem C99_monotone : forall prec emax (Hp : Prec_gt_0 prec) (Hm : Prec_lt_emax prec emax) f, good_exp prec emax f ->
  forall x y, Bleb x y = true -> B2R (fforward prec emax Hp Hm f x) <= B2R (fforward prec emax Hp Hm f y).
Proof. intros prec emax Hp Hm f G x y L. now apply forward_mono. Qed.
Print Assumptions C99_monotone.
Example C99_monotone_ex : Bleb (dbl (-3)) (dbl 2) = true /\
  B2R (fforward 53 1024 eq_refl eq_refl dexp (dbl (-3))) <= B2R (fforward 53 1024 eq_refl eq_refl dexp (dbl 2)).
Proof. split; [reflexivity|]. apply C99_monotone; [apply C99_exp_exists_ex|reflexivity]. Qed.

(** At both zeros it is exactly 1/2, at the infinities 1 and 0; NaN stays NaN. *)
Theorem C99_special : forall prec emax (Hp : Prec_gt_0 prec) (Hm : Prec_lt_emax prec emax) f, (3 <= emax)%Z -> good_exp prec emax f ->
  (forall s, B2R (fforward prec emax Hp Hm f (B754_zero s)) = / 2) /\
  B2R (fforward prec emax Hp Hm f (B754_infinity false)) = 1 /\ B2R (fforward prec emax Hp Hm f (B754_infinity true)) = 0 /\
  is_nan (fforward prec emax Hp Hm f B754_nan) = true.
Proof.
  intros prec emax Hp Hm f E G. destruct (forward_infinities prec emax Hp Hm f G). repeat split; auto.
  - intros s. now apply forward_zero.
  - now apply forward_nan.
Qed.
Print Assumptions C99_special.
Example C99_special_ex : B2R (fforward 53 1024 eq_refl eq_refl dexp (B754_zero true)) = / 2.
Proof. apply C99_special; [lia|apply C99_exp_exists_ex]. Qed.

(** The result is the logistic function up to six roundings; where exp(-x) comes near the overflow threshold, up to a number of
    the size of the smallest normal ones. *)
Theorem C99_accuracy : forall prec emax (Hp : Prec_gt_0 prec) (Hm : Prec_lt_emax prec emax) f, (6 <= prec)%Z -> (prec + 3 <= emax)%Z -> good_exp prec emax f ->
  forall x, is_finite x = true ->
  (exp (- B2R x) <= bpow radix2 (emax - 2) ->
   Rabs (B2R (fforward prec emax Hp Hm f x) - logistic (B2R x)) <= 6 * unit_roundoff prec * logistic (B2R x) + underflow_unit prec emax) /\
  Rabs (B2R (fforward prec emax Hp Hm f x) - logistic (B2R x)) <= 6 * unit_roundoff prec * logistic (B2R x) + bpow radix2 (2 - emax).
Proof. intros prec emax Hp Hm f P6 PE G x F. now apply forward_accurate. Qed.
Print Assumptions C99_accuracy.
Example C99_accuracy_ex : exp (- B2R (dbl 1)) <= bpow radix2 (1024 - 2) /\
  Rabs (B2R (fforward 53 1024 eq_refl eq_refl dexp (dbl 1)) - logistic (B2R (dbl 1))) <=
    6 * unit_roundoff 53 * logistic (B2R (dbl 1)) + underflow_unit 53 1024.
Proof.
  assert (V : B2R (dbl 1) = 1) by apply (fone_val 53 1024 eq_refl eq_refl).
  assert (L : exp (- B2R (dbl 1)) <= bpow radix2 (1024 - 2)).
  { apply Rle_trans with (bpow radix2 0); [|apply bpow_le; lia]. change (bpow radix2 0) with 1. rewrite V. assert (Q : exp (Ropp 1) < exp 0) by (apply Rpower.exp_increasing; lra). rewrite exp_0 in Q. lra. }
  split; [exact L|]. apply C99_accuracy; try lia; [apply C99_exp_exists_ex|reflexivity|exact L].
Qed.

(** The derivative computed from an activation between 0 and 1 is y(1-y) up to three roundings and never leaves [0, 1/4]. *)
Theorem C99_backward : forall prec emax (Hp : Prec_gt_0 prec) (Hm : Prec_lt_emax prec emax), (6 <= prec)%Z -> (prec + 3 <= emax)%Z ->
  forall y, is_finite y = true -> 0 <= B2R y <= 1 ->
  is_finite (fbackward prec emax Hp Hm y) = true /\ 0 <= B2R (fbackward prec emax Hp Hm y) <= / 4 /\
  Rabs (B2R (fbackward prec emax Hp Hm y) - B2R y * (1 - B2R y)) <= 3 * unit_roundoff prec * (B2R y * (1 - B2R y)) + underflow_unit prec emax.
Proof. intros prec emax Hp Hm P6 PE y F Y. now apply backward_ok. Qed.
Print Assumptions C99_backward.
Example C99_backward_ex : B2R (fforward 53 1024 eq_refl eq_refl dexp (B754_zero false)) = / 2 /\
  0 <= B2R (fbackward 53 1024 eq_refl eq_refl (fforward 53 1024 eq_refl eq_refl dexp (B754_zero false))) <= / 4.
Proof.
  assert (V : B2R (fforward 53 1024 eq_refl eq_refl dexp (B754_zero false)) = / 2) by (apply C99_special; [lia|apply C99_exp_exists_ex]).
  split; [exact V|]. apply C99_backward; try lia; [apply C99_range; [apply C99_exp_exists_ex|reflexivity]|rewrite V; lra].
Qed.

(** The logistic function lies strictly between 0 and 1 and its derivative is positive. The computed ones reach 0 and 1 from some
    finite input on, and there the derivative is 0: such a neuron no longer learns. *)
Theorem C99_open_interval_refuted : forall f, good_exp 53 1024 f ->
  exists x y : binary_float 53 1024, is_finite x = true /\ is_finite y = true /\
  0 < logistic (B2R x) < 1 /\ 0 < logistic (B2R y) < 1 /\
  B2R (fforward 53 1024 eq_refl eq_refl f x) = 1 /\ B2R (fbackward 53 1024 eq_refl eq_refl (fforward 53 1024 eq_refl eq_refl f x)) = 0 /\
  B2R (fforward 53 1024 eq_refl eq_refl f y) = 0 /\ B2R (fbackward 53 1024 eq_refl eq_refl (fforward 53 1024 eq_refl eq_refl f y)) = 0.
Proof.
  intros f G. exists (dbl 64), (dbl (-2048)).
  assert (OPEN : forall r, 0 < logistic r < 1).
  { intros r. unfold logistic. pose proof (exp_pos (- r)). split; [apply Rinv_0_lt_compat; lra|]. rewrite <- Rinv_1. apply Rinv_lt_contravar; lra. }
  assert (V1 : B2R (dbl 64) = INR 64) by (rewrite INR_IZR_INZ; apply (fint_exact 53 1024 eq_refl eq_refl 64); vm_compute; discriminate).
  assert (V2 : B2R (dbl (-2048)) = - INR 2048) by (rewrite INR_IZR_INZ, <- opp_IZR; apply (fint_exact 53 1024 eq_refl eq_refl (-2048)); vm_compute; discriminate).
  destruct (saturates 53 1024 eq_refl eq_refl f G ltac:(lia) ltac:(lia) (dbl 64) eq_refl) as (_ & A1 & _ & A2).
  { rewrite V1. apply exp_64. }
  destruct (vanishes 53 1024 eq_refl eq_refl f G ltac:(lia) ltac:(lia) (dbl (-2048)) eq_refl) as (_ & B1 & _ & B2).
  { rewrite V2, Ropp_involutive. apply Rle_trans with (bpow radix2 (Z.of_nat 2048)); [apply bpow_le; lia|apply exp_pow]. }
  repeat split; auto; apply OPEN.
Qed.
Print Assumptions C99_open_interval_refuted.

(** In general: the activation is exactly 1 where exp(-x) is at most half a unit, and exactly 0 where it is twice the overflow threshold. *)
Theorem C99_saturation : forall prec emax (Hp : Prec_gt_0 prec) (Hm : Prec_lt_emax prec emax) f, (6 <= prec)%Z -> (prec + 3 <= emax)%Z -> good_exp prec emax f ->
  forall x, is_finite x = true ->
  (exp (- B2R x) <= unit_roundoff prec / 2 -> B2R (fforward prec emax Hp Hm f x) = 1) /\
  (bpow radix2 (emax + 1) <= exp (- B2R x) -> B2R (fforward prec emax Hp Hm f x) = 0).
Proof.
  intros prec emax Hp Hm f P6 PE G x F. split; intros H.
  - now apply (saturates prec emax Hp Hm f G P6 PE x F).
  - now apply (vanishes prec emax Hp Hm f G P6 PE x F).
Qed.
Print Assumptions C99_saturation.
Example C99_saturation_ex : exp (- B2R (dbl 64)) <= unit_roundoff 53 / 2 /\ B2R (fforward 53 1024 eq_refl eq_refl dexp (dbl 64)) = 1.
Proof.
  assert (V : B2R (dbl 64) = INR 64) by (rewrite INR_IZR_INZ; apply (fint_exact 53 1024 eq_refl eq_refl 64); vm_compute; discriminate).
  assert (L : exp (- B2R (dbl 64)) <= unit_roundoff 53 / 2) by (rewrite V; apply exp_64).
  split; [exact L|]. apply (C99_saturation 53 1024 eq_refl eq_refl dexp); try lia; [apply C99_exp_exists_ex|reflexivity|exact L].
Qed.
