(** Proofs for C110. *)
From Coq Require Import ZArith Reals Lia Lra Bool.
From Flocq Require Import Core Relative BinarySingleNaN.
From Verif Require Import AccModel AccSpec AccProofs NumModel NumSpec NumBasics NrmModel NrmFloat CsqModel CsqProofs CsqFinal TnhFinal SigExp CexModel CexSpec.
From Coq Require Import ZifyNat ZifyN ZifyBool.
Ltac Zify.zify_post_hook ::= idtac.
Local Open Scope R_scope.

Section Float.
Variables prec emax : Z.
Context (Hp : Prec_gt_0 prec) (Hm : Prec_lt_emax prec emax).
Local Notation num := (binary_float prec emax).
Local Notation fzero := (fzero prec emax).
Local Notation fone := (fone prec emax Hp Hm).
Local Notation fmul := (fmul prec emax Hp Hm).
Local Notation flt := (flt prec emax).
Local Notation feq := (feq prec emax).
Local Notation fisInf := (fisInf prec emax).
Local Notation fcopySign := (fcopySign prec emax).
Local Notation vabs := (vabs prec emax).
Local Notation rn := (nearest prec emax).
Local Notation u := (unit_roundoff prec).
Local Notation eta := (underflow_unit prec emax).

(** ** Products *)
Lemma product_bound d h h' a b A B : 0 <= d -> 0 <= h -> 0 <= h' ->
  Rabs (a - A) <= d * Rabs A + h -> Rabs (b - B) <= d * Rabs B + h' ->
  Rabs (rn (a * b) - A * B) <= product_error prec emax d h h' A B.
Proof.
  intros D H H' EA EB. unfold product_error. pose proof (rn_rel prec emax Hp (a * b)) as E. pose proof (u_pos prec) as U.
  pose proof (Rabs_pos A) as PA. pose proof (Rabs_pos B) as PB.
  set (X := (1 + d) * Rabs A + h) in *. set (Y := (1 + d) * Rabs B + h') in *.
  assert (AX : Rabs a <= X). { replace a with (a - A + A) by ring. eapply Rle_trans; [apply Rabs_triang|]. unfold X. lra. }
  assert (BY : Rabs b <= Y). { replace b with (b - B + B) by ring. eapply Rle_trans; [apply Rabs_triang|]. unfold Y. lra. }
  assert (M : Rabs (a * b) <= X * Y) by (rewrite Rabs_mult; apply Rmult_le_compat; auto using Rabs_pos).
  assert (N : Rabs (a * b - A * B) <= X * Y - Rabs A * Rabs B).
  { replace (a * b - A * B) with ((a - A) * b + A * (b - B)) by ring. eapply Rle_trans; [apply Rabs_triang|]. rewrite !Rabs_mult.
    assert (S1 : Rabs (a - A) * Rabs b <= (d * Rabs A + h) * Y) by (apply Rmult_le_compat; auto using Rabs_pos).
    assert (S2 : Rabs A * Rabs (b - B) <= Rabs A * (d * Rabs B + h')) by (apply Rmult_le_compat_l; auto).
    replace (X * Y - Rabs A * Rabs B) with ((d * Rabs A + h) * Y + Rabs A * (d * Rabs B + h')) by (unfold X, Y; ring). lra. }
  replace (rn (a * b) - A * B) with ((rn (a * b) - a * b) + (a * b - A * B)) by ring. eapply Rle_trans; [apply Rabs_triang|].
  pose proof (Rmult_le_compat_l u _ _ ltac:(lra) M). lra.
Qed.
Lemma product_ok d h h' f g (lf lg : num -> num) x y : 0 <= d -> 0 <= h -> 0 <= h' ->
  accurate prec emax d h f lf -> accurate prec emax d h' g lg -> is_finite x = true -> is_finite y = true ->
  product_of prec emax d h h' (fmul (lf x) (lg y)) (f (B2R x)) (g (B2R y)).
Proof.
  intros D H H' AF AG FX FY F. destruct (fmul_finite prec emax Hp Hm _ _ F) as (F1 & F2 & V). rewrite V. apply product_bound; auto.
Qed.
Lemma mul_one (x : num) : fmul x fone = x.
Proof.
  destruct (fone_val prec emax Hp Hm) as (F1 & V1). destruct (is_finite x) eqn:F.
  - assert (E : rn (B2R x * B2R fone) = B2R x) by (rewrite V1, Rmult_1_r; apply rn_id, num_format).
    destruct (fmul_small prec emax Hp Hm x fone F F1) as (G & V); [rewrite E; apply finite_lt|]. rewrite E in V.
    pose proof (Bmult_correct prec emax Hp Hm mode_NE x fone) as C. change (Bmult mode_NE x fone) with (fmul x fone) in C.
    rewrite Rlt_bool_true in C by (change (Rabs (rn (B2R x * B2R fone)) < bpow radix2 emax); rewrite E; apply finite_lt).
    destruct C as (_ & _ & C). apply B2R_Bsign_inj; auto. rewrite C by (apply finite_not_nan, G).
    rewrite (pos_sign prec emax fone F1 ltac:(lra)). now rewrite xorb_false_r.
  - pose proof (pos_sign prec emax fone F1 ltac:(lra)) as S1. pose proof V1 as V2. destruct x as [s|s| |s m e He]; try discriminate F.
    + destruct fone as [s'|s'| |s' m' e' He'] eqn:E; try discriminate F1; [cbn in V2; lra|]. cbn in S1. subst s'. cbn. now destruct s.
    + destruct fone; reflexivity.
Qed.

Section Library.
Variables libExp libSin libCos libSinh libCosh : num -> num.
Local Notation fexpMul := (fexpMul prec emax Hp Hm libExp).
Local Notation fcexp := (fcexp prec emax Hp Hm libExp libSin libCos).
Local Notation polar_special := (polar_special prec emax Hp Hm libSin libCos).
Local Notation fpolar := (fpolar prec emax Hp Hm libSin libCos).
Local Notation fccosh := (fccosh prec emax Hp Hm libSin libCos libSinh libCosh).
Local Notation fcsinh := (fcsinh prec emax Hp Hm libSin libCos libSinh libCosh).
Local Notation fccos := (fccos prec emax Hp Hm libSin libCos libSinh libCosh).
Local Notation fcsin := (fcsin prec emax Hp Hm libSin libCos libSinh libCosh).

Lemma expMul_eq x y : fexpMul x y = fmul (libExp x) y.
Proof. apply mul_one. Qed.
Lemma finite_branch x : is_finite x = true -> negb (is_nan x) && negb (fisInf x) = true.
Proof. now destruct x. Qed.
Lemma exp_finite_eq x y : is_finite x = true -> fcexp x y = (fmul (libExp x) (libCos y), fmul (libExp x) (libSin y)).
Proof. intros F. unfold CexModel.fcexp. rewrite (finite_branch x F), !expMul_eq. reflexivity. Qed.

Lemma exp_bounded x y : is_finite x = true -> is_finite y = true -> is_finite (libExp x) = true -> bounded prec emax libSin -> bounded prec emax libCos ->
  let z := fcexp x y in
  is_finite (fst z) = true /\ is_finite (snd z) = true /\ Rabs (B2R (fst z)) <= Rabs (B2R (libExp x)) /\ Rabs (B2R (snd z)) <= Rabs (B2R (libExp x)).
Proof.
  intros FX FY FE BS BC. cbv zeta. rewrite (exp_finite_eq x y FX). cbn [fst snd].
  assert (G : forall c : num, is_finite c = true -> Rabs (B2R c) <= 1 -> is_finite (fmul (libExp x) c) = true /\ Rabs (B2R (fmul (libExp x) c)) <= Rabs (B2R (libExp x))).
  { intros c Fc Bc. assert (L : Rabs (rn (B2R (libExp x) * B2R c)) <= Rabs (B2R (libExp x))).
    { rewrite <- rn_abs by auto. apply rn_le_format; auto; [apply generic_format_abs, num_format|]. rewrite Rabs_mult.
      pose proof (Rmult_le_compat_l _ _ _ (Rabs_pos (B2R (libExp x))) Bc). lra. }
    destruct (fmul_small prec emax Hp Hm (libExp x) c FE Fc) as (G1 & G2); [eapply Rle_lt_trans; [exact L|apply finite_lt]|].
    split; [exact G1|]. rewrite G2. exact L. }
  destruct (BS y FY) as (S1 & S2). destruct (BC y FY) as (C1 & C2). destruct (G _ S1 S2), (G _ C1 C2). auto.
Qed.

(** ** Symmetries *)
Lemma opp_inf x : fisInf (Bopp x) = fisInf x. Proof. now destruct x. Qed.
Lemma opp_nan (x : num) : is_nan (Bopp x) = is_nan x. Proof. now destruct x. Qed.
Lemma opp_opp (x : num) : Bopp (Bopp x) = x. Proof. apply Bopp_involutive. Qed.
Lemma opp_zero (x : num) : feq (Bopp x) fzero = feq x fzero.
Proof. destruct x as [[]|[]| |[] m e H]; reflexivity. Qed.
Lemma opp_copy (r x : num) : is_nan x = false -> is_nan r = false -> fcopySign r (Bopp x) = Bopp (fcopySign r x).
Proof.
  intros N M. unfold CsqModel.fcopySign. rewrite Bsign_Bopp by exact N. destruct (Bsign r), (Bsign x); cbn; rewrite ?opp_opp; reflexivity.
Qed.
Lemma special_conj rho theta : odd prec emax libSin -> even prec emax libCos -> is_nan theta = false ->
  polar_special rho (Bopp theta) = cconj prec emax (polar_special rho theta).
Proof.
  unfold odd, even. intros OS EC N. unfold CexModel.polar_special, cconj. rewrite opp_inf, opp_nan, opp_zero, OS, EC, mul_opp_r.
  destruct (is_nan theta || fisInf theta); [|destruct (feq theta fzero); reflexivity]. destruct (fisInf rho) eqn:I; [reflexivity|]. cbn [fst snd].
  destruct (is_nan rho) eqn:M; [|rewrite opp_copy by auto; reflexivity]. destruct rho; try discriminate M. unfold CsqModel.fcopySign. destruct theta as [[]|[]| |[] ? ? ?]; reflexivity.
Qed.
Lemma exp_conj x y : odd prec emax libSin -> even prec emax libCos -> is_nan y = false -> fcexp x (Bopp y) = cconj prec emax (fcexp x y).
Proof.
  unfold odd, even. intros OS EC N. unfold CexModel.fcexp. rewrite !expMul_eq, OS, EC, mul_opp_r, !special_conj by auto.
  destruct (negb (is_nan x) && negb (fisInf x)); [reflexivity|]. destruct (fisInf x); [|reflexivity]. destruct (flt x fzero); reflexivity.
Qed.
Lemma polar_conj rho theta : odd prec emax libSin -> even prec emax libCos -> is_nan theta = false -> fpolar rho (Bopp theta) = cconj prec emax (fpolar rho theta).
Proof.
  unfold odd, even. intros OS EC N. unfold CexModel.fpolar. rewrite OS, EC, mul_opp_r, !special_conj by auto.
  destruct (negb (is_nan rho) && negb (fisInf rho) && negb (feq rho fzero)); [reflexivity|]. destruct (Bsign rho); reflexivity.
Qed.
Lemma polar_opp rho theta : is_nan rho = false -> fpolar (Bopp rho) theta = cneg prec emax (fpolar rho theta).
Proof.
  intros N. unfold CexModel.fpolar. rewrite opp_inf, opp_nan, opp_zero, !mul_opp_l, opp_opp, Bsign_Bopp by auto.
  destruct (negb (is_nan rho) && negb (fisInf rho) && negb (feq rho fzero)); [reflexivity|]. unfold cneg.
  destruct (Bsign rho); cbn [negb fst snd]; rewrite ?opp_opp; [now destruct (polar_special _ _)|reflexivity].
Qed.
End Library.

(** ** Correct rounding meets the expectations *)
Lemma rounded_value r : let x := rounded_number prec emax Hp Hm r in
  (Rabs (rn r) < bpow radix2 emax -> is_finite x = true) /\ (is_finite x = true -> B2R x = rn r).
Proof.
  cbv zeta. unfold rounded_number. set (m := ZnearestE _). set (e := cexp _ _ _).
  pose proof (binary_normalize_correct prec emax Hp Hm mode_NE m e false) as C.
  cbv zeta in C. change (F2R {| Fnum := m; Fexp := e |}) with (rn r) in C.
  change (round radix2 (SpecFloat.fexp prec emax) (round_mode mode_NE) (rn r)) with (rn (rn r)) in C.
  rewrite (rn_id prec emax (rn r)) in C by (apply generic_format_round; [typeclasses eauto|apply valid_rnd_N]).
  destruct (Rlt_bool_spec (Rabs (rn r)) (bpow radix2 emax)) as [L|L]; [destruct C as (C1 & C2 & _); auto|]. split; [lra|].
  intros F. exfalso. rewrite <- is_finite_SF_B2SF in F. rewrite C in F. unfold binary_overflow in F. cbn in F. destruct (Rlt_bool (rn r) 0); discriminate F.
Qed.
Lemma rounded_accurate f : accurate prec emax u eta f (fun x => rounded_number prec emax Hp Hm (f (B2R x))).
Proof. intros x Fx F. destruct (rounded_value (f (B2R x))) as (_ & V). rewrite (V F). apply rn_rel; auto. Qed.
Lemma rounded_bounded f : (0 < emax)%Z -> (forall x, Rabs (f x) <= 1) -> bounded prec emax (fun x => rounded_number prec emax Hp Hm (f (B2R x))).
Proof.
  intros E B x Fx. destruct (rounded_value (f (B2R x))) as (F & V).
  assert (L : Rabs (rn (f (B2R x))) <= 1).
  { rewrite <- rn_abs by auto. apply rn_le_format; auto. apply one_format; auto. }
  assert (F' : is_finite (rounded_number prec emax Hp Hm (f (B2R x))) = true).
  { apply F. eapply Rle_lt_trans; [exact L|]. change 1 with (bpow radix2 0). now apply bpow_lt. }
  split; [exact F'|]. now rewrite (V F').
Qed.

(** ** The real axis *)
Lemma is_one (c : num) : is_finite c = true -> B2R c = 1 -> c = fone.
Proof.
  intros F V. destruct (fone_val prec emax Hp Hm) as (F1 & V1). apply B2R_inj; [| |congruence].
  - destruct c; try discriminate F; cbn in V; [lra|reflexivity].
  - destruct fone; try discriminate F1; cbn in V1; [lra|reflexivity].
Qed.
Lemma one_mul (x : num) : fmul fone x = x.
Proof.
  destruct (fone_val prec emax Hp Hm) as (F1 & V1). destruct (is_finite x) eqn:F.
  - assert (E : rn (B2R fone * B2R x) = B2R x) by (rewrite V1, Rmult_1_l; apply rn_id, num_format).
    destruct (fmul_small prec emax Hp Hm fone x F1 F) as (G & V); [rewrite E; apply finite_lt|]. rewrite E in V.
    pose proof (Bmult_correct prec emax Hp Hm mode_NE fone x) as C. change (Bmult mode_NE fone x) with (fmul fone x) in C.
    rewrite Rlt_bool_true in C by (change (Rabs (rn (B2R fone * B2R x)) < bpow radix2 emax); rewrite E; apply finite_lt).
    destruct C as (_ & _ & C). apply B2R_Bsign_inj; auto. rewrite C by (apply finite_not_nan, G).
    rewrite (pos_sign prec emax fone F1 ltac:(lra)). now rewrite xorb_false_l.
  - pose proof (pos_sign prec emax fone F1 ltac:(lra)) as S1. pose proof V1 as V2. destruct x as [s|s| |s m e He]; try discriminate F.
    + destruct fone as [s'|s'| |s' m' e' He'] eqn:E; try discriminate F1; [cbn in V2; lra|]. cbn in S1. subst s'. cbn. now destruct s.
    + destruct fone; reflexivity.
Qed.
Lemma zero_mul (x : num) s : is_finite x = true -> is_zero prec emax (fmul x (B754_zero s)) /\ is_zero prec emax (fmul (B754_zero s) x).
Proof. intros F. split; destruct x; try discriminate F; eexists; reflexivity. Qed.
Lemma opp_is_zero x : is_zero prec emax x -> is_zero prec emax (Bopp x).
Proof. intros (s & ->). eexists. reflexivity. Qed.

Lemma bound_ok d h a b : (5 <= prec)%Z -> 0 <= d <= 4 * u -> 0 <= h <= eta -> (h = 0 \/ Rabs b <= 1) ->
  product_error prec emax d h 0 a b <= 10 * u * Rabs (a * b) + 3 * eta.
Proof.
  intros P D H B. unfold product_error. rewrite Rabs_mult, Rplus_0_r. pose proof (u_pos prec) as U. pose proof (eta_pos prec emax) as E.
  assert (U5 : u <= / 32) by (unfold unit_roundoff; replace (/ 32) with (bpow radix2 (-5)) by (cbn; lra); apply bpow_le; lia).
  pose proof (Rabs_pos a) as PA. pose proof (Rabs_pos b) as PB. assert (PAB : 0 <= Rabs a * Rabs b) by (now apply Rmult_le_pos).
  assert (K1 : (1 + u) * ((1 + d) * (1 + d)) <= 1 + 10 * u).
  { assert ((1 + d) * (1 + d) <= (1 + 4 * u) * (1 + 4 * u)) by (apply Rmult_le_compat; lra).
    assert ((1 + u) * ((1 + d) * (1 + d)) <= (1 + u) * ((1 + 4 * u) * (1 + 4 * u))) by (apply Rmult_le_compat_l; lra).
    assert (u * u <= / 32 * u) by (apply Rmult_le_compat_r; lra). assert (u * (u * u) <= / 32 * (/ 32 * u)) by (apply Rmult_le_compat; try lra; apply Rmult_le_pos; lra). lra. }
  assert (K2 : (1 + u) * (h * ((1 + d) * Rabs b)) <= 2 * eta).
  { destruct B as [-> |B]; [lra|]. assert ((1 + d) * Rabs b <= 1 + 4 * u) by (replace (1 + 4 * u) with ((1 + 4 * u) * 1) by ring; apply Rmult_le_compat; lra).
    assert (h * ((1 + d) * Rabs b) <= eta * (1 + 4 * u)) by (apply Rmult_le_compat; try lra; apply Rmult_le_pos; lra).
    assert ((1 + u) * (h * ((1 + d) * Rabs b)) <= (1 + u) * (eta * (1 + 4 * u))) by (apply Rmult_le_compat_l; lra).
    assert (eta * ((1 + u) * (1 + 4 * u)) <= eta * 2).
    { apply Rmult_le_compat_l; [lra|]. apply Rle_trans with ((1 + / 32) * (1 + 4 * / 32)); [apply Rmult_le_compat; lra|lra]. }
    lra. }
  pose proof (Rmult_le_compat_r _ _ _ PAB K1). nra.
Qed.
End Float.
