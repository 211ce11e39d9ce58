(** C115: normally distributed random numbers in double. *)
From Coq Require Import ZArith Reals List Lia Lra Bool.
From Flocq Require Import Core BinarySingleNaN.
From Verif Require Import Base AccModel AccSpec AccProofs NumModel NumBasics SigExp GauModel GauSpec GauProofs.
From Coq Require Import ZifyNat ZifyN ZifyBool.
Ltac Zify.zify_post_hook ::= idtac.
Import ListNotations.
Local Open Scope R_scope.

Local Notation num64 := (binary_float 53 1024).
Local Notation dbl := (fint 53 1024 eq_refl eq_refl).
Local Notation "x ./ y" := (fdiv 53 1024 eq_refl eq_refl x y) (at level 40).
Local Notation rounded f := (fun x : num64 => rounded_number 53 1024 eq_refl eq_refl (f (B2R x))).

(** A logarithm as accurate as the theorems below ask for exists: the correctly rounded one. *)
Theorem C115_library : forall (Hp : Prec_gt_0 53) (Hm : Prec_lt_emax 53 1024), exists lib, good_log lib.
Proof. intros Hp Hm. eexists. apply (rounded_log Hp Hm). Qed.
Print Assumptions C115_library.

(** The coordinates: 2 w - 1 up to one rounding, never outside [-1, 1], and zero or at least 2^-53. *)
Theorem C115_draw : forall (Hp : Prec_gt_0 53) (Hm : Prec_lt_emax 53 1024) w, uniform w -> let v := draw Hp Hm w in
  is_finite v = true /\ Rabs (B2R v) <= 1 /\ (B2R v = 0 \/ bpow radix2 (-53) <= Rabs (B2R v)) /\ Rabs (B2R v - (2 * B2R w - 1)) <= unit_roundoff 53.
Proof.
  intros Hp Hm w U v. destruct (draw_ok Hp Hm w U) as (F & A & L). split; [exact F|]. split; [exact A|]. split; [exact L|]. apply draw_near, U.
Qed.
Print Assumptions C115_draw.
Example C115_draw_ex : B2SF (draw eq_refl eq_refl (dbl 1 ./ dbl 4)) = B2SF (Bopp (dbl 1 ./ dbl 2)).
Proof. vm_compute. reflexivity. Qed.

(** Which points are used: those inside the unit circle, up to the rounding errors of the squared distance next to the centre and
    the circle. *)
Theorem C115_disc : forall (Hp : Prec_gt_0 53) (Hm : Prec_lt_emax 53 1024) w1 w2, uniform w1 -> uniform w2 ->
  let x := 2 * B2R w1 - 1 in let y := 2 * B2R w2 - 1 in let s := squares Hp Hm (draw Hp Hm w1) (draw Hp Hm w2) in
  (16 * unit_roundoff 53 <= x * x + y * y <= 1 - 16 * unit_roundoff 53 -> again Hp Hm s = false) /\
  (1 + 16 * unit_roundoff 53 <= x * x + y * y -> again Hp Hm s = true).
Proof.
  intros Hp Hm w1 w2 U1 U2 x y s. destruct (disc Hp Hm w1 w2 U1 U2) as [D1 D2]. fold x y s in D1, D2.
  destruct (squares_ok Hp Hm _ _ (draw_ok Hp Hm w1 U1) (draw_ok Hp Hm w2 U2)) as ([F _] & P & _). fold s in F, P.
  pose proof (again_ok Hp Hm s F P) as A. split; intros H.
  - apply A, D1, H.
  - specialize (D2 H). destruct (again Hp Hm s); [reflexivity|]. destruct A as [A _]. specialize (A eq_refl). lra.
Qed.
Print Assumptions C115_disc.
Example C115_disc_ex :
  again eq_refl eq_refl (squares eq_refl eq_refl (draw eq_refl eq_refl (dbl 1 ./ dbl 4)) (draw eq_refl eq_refl (dbl 1 ./ dbl 8))) = false /\
  again eq_refl eq_refl (squares eq_refl eq_refl (draw eq_refl eq_refl (dbl 1 ./ dbl 8)) (draw eq_refl eq_refl (dbl 1 ./ dbl 8))) = true.
Proof. split; vm_compute; reflexivity. Qed.

(** A call that has to draw numbers skips the pairs whose point is not used, takes the first pair that is, and returns the values of the
    polar method at the computed squared distance for its two coordinates, each with a relative error of five unit roundoffs. *)
Theorem C115_pair : forall (Hp : Prec_gt_0 53) (Hm : Prec_lt_emax 53 1024) lib ws g1 g2 rest, good_log lib -> Forall uniform ws ->
  fresh Hp Hm lib ws = Some (g1, g2, rest) ->
  exists before w1 w2, ws = before ++ w1 :: w2 :: rest /\ length before = (2 * length (pairs before))%nat /\
    Forall (fun w => ~ 0 < B2R (squares Hp Hm (draw Hp Hm (fst w)) (draw Hp Hm (snd w))) < 1) (pairs before) /\
    let v1 := B2R (draw Hp Hm w1) in let v2 := B2R (draw Hp Hm w2) in let s := B2R (squares Hp Hm (draw Hp Hm w1) (draw Hp Hm w2)) in
    0 < s < 1 /\ within_roundings 3 s (v1 * v1 + v2 * v2) /\ is_finite g1 = true /\ is_finite g2 = true /\
    within_roundings 5 (B2R g1) (polar_method s v1) /\ within_roundings 5 (B2R g2) (polar_method s v2).
Proof.
  intros Hp Hm lib ws g1 g2 rest LOG U H. destruct (fresh_ok Hp Hm lib ws g1 g2 rest U H) as (b & w1 & w2 & E & L & R & U1 & U2 & A & -> & ->).
  exists b, w1, w2. split; [exact E|]. split; [exact L|]. split; [exact R|]. cbv zeta.
  destruct (pair_ok Hp Hm lib LOG w1 w2 U1 U2 A) as (S & N & K). destruct (K _ (or_introl eq_refl)) as [[F1 _] W1].
  destruct (K _ (or_intror eq_refl)) as [[F2 _] W2]. auto 10.
Qed.
Print Assumptions C115_pair.
Example C115_pair_ex : exists g1 g2, fresh eq_refl eq_refl (rounded ln) [dbl 0; dbl 0; dbl 1 ./ dbl 4; dbl 1 ./ dbl 2; dbl 0] = Some (g1, g2, [dbl 0]).
Proof.
  eexists. eexists. cbn [fresh].
  replace (again eq_refl eq_refl (squares eq_refl eq_refl (draw eq_refl eq_refl (dbl 0)) (draw eq_refl eq_refl (dbl 0)))) with true
    by (symmetry; vm_compute; reflexivity).
  replace (again eq_refl eq_refl (squares eq_refl eq_refl (draw eq_refl eq_refl (dbl 1 ./ dbl 4)) (draw eq_refl eq_refl (dbl 1 ./ dbl 2)))) with false
    by (symmetry; vm_compute; reflexivity).
  reflexivity.
Qed.

(** The loop goes on for ever only if no pair is usable. *)
Theorem C115_waits : forall (Hp : Prec_gt_0 53) (Hm : Prec_lt_emax 53 1024) lib ws, Forall uniform ws ->
  fresh Hp Hm lib ws = None <->
  Forall (fun w => ~ 0 < B2R (squares Hp Hm (draw Hp Hm (fst w)) (draw Hp Hm (snd w))) < 1) (pairs ws).
Proof. intros Hp Hm lib ws U. exact (fresh_none Hp Hm lib ws U). Qed.
Print Assumptions C115_waits.
Example C115_waits_ex : fresh eq_refl eq_refl (rounded ln) [dbl 0; dbl 0; dbl 1 ./ dbl 2] = None.
Proof.
  cbn [fresh].
  replace (again eq_refl eq_refl (squares eq_refl eq_refl (draw eq_refl eq_refl (dbl 0)) (draw eq_refl eq_refl (dbl 0)))) with true
    by (symmetry; vm_compute; reflexivity).
  reflexivity.
Qed.

(** Two calls share one point: the second returns what the first computed, and draws nothing. *)
Theorem C115_second : forall (Hp : Prec_gt_0 53) (Hm : Prec_lt_emax 53 1024) lib ws g p rest,
  gaussian Hp Hm lib (None, ws) = Some (g, (p, rest)) ->
  exists g2, fresh Hp Hm lib ws = Some (g, g2, rest) /\ gaussian Hp Hm lib (p, rest) = Some (g2, (None, rest)).
Proof.
  intros Hp Hm lib ws g p rest H. unfold gaussian in *. cbn [fst snd] in *. destruct (fresh Hp Hm lib ws) as [[[a b] r]|]; [|discriminate].
  injection H as -> <- ->. exists b. split; reflexivity.
Qed.
Print Assumptions C115_second.
Example C115_second_ex : exists g1 g2, gaussians eq_refl eq_refl (rounded ln) 2 (None, [dbl 1 ./ dbl 4; dbl 1 ./ dbl 2]) = Some ([g1; g2], (None, [])).
Proof.
  eexists. eexists. cbn [gaussians]. unfold gaussian. cbn [fst snd fresh].
  replace (again eq_refl eq_refl (squares eq_refl eq_refl (draw eq_refl eq_refl (dbl 1 ./ dbl 4)) (draw eq_refl eq_refl (dbl 1 ./ dbl 2)))) with false
    by (symmetry; vm_compute; reflexivity).
  reflexivity.
Qed.

(** However many calls are made, every result is finite and at most 12.25 in modulus: the tails beyond are never reached. *)
Theorem C115_bounded : forall (Hp : Prec_gt_0 53) (Hm : Prec_lt_emax 53 1024) lib n ws gs st, good_log lib -> Forall uniform ws ->
  gaussians Hp Hm lib n (None, ws) = Some (gs, st) ->
  length gs = n /\ forall g, In g gs -> is_finite g = true /\ Rabs (B2R g) <= 49 / 4.
Proof.
  intros Hp Hm lib n ws gs st LOG U H. destruct (gaussians_ok Hp Hm lib LOG n (None, ws) gs st) as (L & F & _); auto.
  - split; [intros g E; discriminate E|exact U].
  - split; [exact L|]. intros g G. rewrite Forall_forall in F. exact (F g G).
Qed.
Print Assumptions C115_bounded.
Example C115_bounded_ex : good_log (rounded ln) /\ Forall uniform [dbl 1 ./ dbl 4; dbl 1 ./ dbl 2].
Proof.
  assert (Q : B2R (dbl 1 ./ dbl 4) = / 4 /\ B2R (dbl 1 ./ dbl 2) = / 2).
  { split.
    - transitivity (F2R (Float radix2 4503599627370496 (-54))); [reflexivity|unfold F2R; simpl; lra].
    - transitivity (F2R (Float radix2 4503599627370496 (-53))); [reflexivity|unfold F2R; simpl; lra]. }
  destruct Q as [Q1 Q2]. split; [apply rounded_log|]. constructor; [|constructor; [|constructor]]; (split; [reflexivity|]).
  - rewrite Q1. lra.
  - rewrite Q2. lra.
Qed.

(** randomGaussian<float> rounds the result to float; it stays finite and in the same bounds. *)
Theorem C115_float : forall (Hp : Prec_gt_0 53) (Hm : Prec_lt_emax 53 1024) (Hp' : Prec_gt_0 24) (Hm' : Prec_lt_emax 24 128) (g : num64),
  is_finite g = true -> Rabs (B2R g) <= 49 / 4 -> let f := as_float Hp Hm Hp' Hm' g in
  is_finite f = true /\ Rabs (B2R f) <= 49 / 4 /\ B2R f = nearest 24 128 (B2R g).
Proof. exact float_ok. Qed.
Print Assumptions C115_float.
Example C115_float_ex : B2SF (as_float eq_refl eq_refl eq_refl eq_refl (dbl 3)) = B2SF (dbl 3).
Proof. vm_compute. reflexivity. Qed.
