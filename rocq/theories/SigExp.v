(** An exponential function that meets the expectations of SigSpec: the exact one, rounded to nearest. *)
From Coq Require Import ZArith Reals Lia Lra Bool.
From Flocq Require Import Core Relative BinarySingleNaN.
From Verif Require Import Base AccModel AccSpec AccProofs NumModel NumSpec NumBasics NrmFloat SigSpec SigProofs.
From Coq Require Import ZifyNat ZifyN ZifyBool.
Ltac Zify.zify_post_hook ::= idtac.
Local Open Scope R_scope.

Section Rounded.
Variables prec emax : Z.
Context (Hp : Prec_gt_0 prec) (Hm : Prec_lt_emax prec emax).
Local Notation num := (binary_float prec emax).
Local Notation rn := (nearest prec emax).
Local Notation u := (unit_roundoff prec).
Local Notation eta := (underflow_unit prec emax).
Local Notation big := (bpow radix2 emax).
Local Notation fexp := (FLT_exp (3 - emax - prec) prec).
Local Notation format := (generic_format radix2 fexp).
Local Notation inf := (@B754_infinity prec emax false).

Definition rounded_number (r : R) : num :=
  binary_normalize prec emax Hp Hm mode_NE (ZnearestE (scaled_mantissa radix2 fexp r)) (cexp radix2 fexp r) false.
Definition rounded_exp (x : num) : num :=
  match x with
  | B754_nan => B754_nan
  | B754_infinity true => B754_zero false
  | B754_infinity false => inf
  | _ => rounded_number (exp (B2R x))
  end.

Lemma rounded_cases r : 0 <= r ->
  (is_finite (rounded_number r) = true /\ B2R (rounded_number r) = rn r /\ rn r < big) \/ (rounded_number r = inf /\ big <= rn r).
Proof.
  intros H. unfold rounded_number. set (m := ZnearestE _). set (e := cexp _ _ _).
  pose proof (binary_normalize_correct prec emax Hp Hm mode_NE m e false) as C.
  cbv zeta in C. change (F2R {| Fnum := m; Fexp := e |}) with (rn r) in C.
  change (round radix2 (SpecFloat.fexp prec emax) (round_mode mode_NE) (rn r)) with (rn (rn r)) in C.
  assert (P : 0 <= rn r) by (apply rn_pos; auto).
  rewrite (rn_id prec emax (rn r)) in C by (apply generic_format_round; [typeclasses eauto|apply valid_rnd_N]).
  rewrite (Rabs_pos_eq _ P) in C. destruct (Rlt_bool_spec (rn r) big) as [L|L].
  - left. destruct C as (C1 & C2 & _). auto.
  - right. split; [|exact L]. rewrite (Rlt_bool_false _ _ P) in C.
    destruct (binary_normalize prec emax Hp Hm mode_NE m e false); cbn in C; try discriminate C. now injection C as ->.
Qed.
Lemma rounded_fin (x : num) : is_finite x = true -> rounded_exp x = rounded_number (exp (B2R x)).
Proof. destruct x as [s|[|]| |s m e He]; try discriminate; reflexivity. Qed.
Lemma exp_cases (x : num) : is_finite x = true ->
  (is_finite (rounded_exp x) = true /\ B2R (rounded_exp x) = rn (exp (B2R x)) /\ rn (exp (B2R x)) < big) \/
  (rounded_exp x = inf /\ big <= rn (exp (B2R x))).
Proof. intros F. rewrite (rounded_fin x F). apply rounded_cases. left. apply exp_pos. Qed.

Theorem rounded_exp_good : (6 <= prec)%Z -> (prec + 3 <= emax)%Z -> good_exp prec emax rounded_exp.
Proof.
  intros P6 PE. assert (POS : forall r, 0 <= rn (exp r)) by (intros r; apply rn_pos; [auto|left; apply exp_pos]).
  assert (NUM : forall x : num, is_nan x = false -> rounded_exp x = inf \/ (is_finite (rounded_exp x) = true /\ 0 <= B2R (rounded_exp x))).
  { intros x N. destruct (is_finite x) eqn:F.
    - destruct (exp_cases x F) as [(G & V & _)|(I & _)]; [right; rewrite V; auto|left; auto].
    - destruct x as [s|[|]| |s m e He]; try discriminate F; try discriminate N; cbn; [right; split; [auto|lra]|left; auto]. }
  constructor.
  - intros x N. destruct x as [s|[|]| |s m e He]; try discriminate N. reflexivity.
  - exact NUM.
  - intros x y L. destruct (le_num prec emax x y L) as (Nx & Ny). destruct (is_finite x) eqn:Fx, (is_finite y) eqn:Fy.
    + apply le_fin in L; auto. assert (M : rn (exp (B2R x)) <= rn (exp (B2R y))).
      { apply rn_le; auto. destruct L as [L| ->]; [left; now apply Rpower.exp_increasing|right; auto]. }
      destruct (exp_cases y Fy) as [(G & V & Q)|(I & _)].
      * destruct (exp_cases x Fx) as [(G' & V' & _)|(_ & Q')]; [|lra]. apply le_fin; auto. lra.
      * rewrite I. apply (le_inf prec emax). destruct (NUM x Nx) as [->|(G & _)]; [reflexivity|now apply finite_not_nan].
    + destruct y as [s|[|]| |s m e He]; try discriminate Fy; try discriminate Ny.
      * destruct x as [s|[|]| |[|] m e He]; try discriminate Fx; discriminate L.
      * apply (le_inf prec emax). destruct (NUM x Nx) as [->|(G & _)]; [reflexivity|now apply finite_not_nan].
    + destruct x as [s|[|]| |s m e He]; try discriminate Fx; try discriminate Nx.
      * change (Bleb (B754_zero false) (rounded_exp y) = true). destruct (NUM y Ny) as [->|(G & Q)]; [reflexivity|]. apply le_fin; auto.
      * exfalso. rewrite (inf_le prec emax y L) in Fy. discriminate Fy.
    + destruct x as [s|[|]| |s m e He], y as [s'|[|]| |s' m' e' He']; try discriminate; reflexivity.
  - intros x F Z. assert (R1 : rn (exp (B2R x)) = 1) by (rewrite Z, exp_0; apply rn_id, (one_format prec emax Hp Hm)).
    destruct (exp_cases x F) as [(G & V & _)|(_ & Q)]; [split; [auto|congruence]|]. exfalso. rewrite R1 in Q.
    change 1 with (bpow radix2 0) in Q. apply le_bpow in Q. lia.
  - reflexivity.
  - cbn. auto.
  - intros x F G. destruct (exp_cases x F) as [(_ & V & _)|(I & _)]; [|rewrite I in G; discriminate G]. rewrite V.
    eapply Rle_trans; [apply (rn_rel prec emax Hp)|]. pose proof (exp_pos (B2R x)) as E. rewrite Rabs_pos_eq by lra.
    pose proof (u_pos prec). assert (0 <= u * exp (B2R x)) by (apply Rmult_le_pos; lra). lra.
  - intros x F I. destruct (exp_cases x F) as [(G & _)|(_ & Q)]; [rewrite I in G; discriminate G|].
    destruct (Rle_lt_dec (bpow radix2 (emax - 1)) (exp (B2R x))) as [|N]; auto. exfalso.
    assert (T : rn (exp (B2R x)) <= bpow radix2 (emax - 1)) by (apply rn_le_format; [auto|apply big_format; [auto|lia]|lra]).
    assert (bpow radix2 (emax - 1) < big) by (apply bpow_lt; lia). lra.
Qed.
End Rounded.
