(** Proofs for C99. *)
From Coq Require Import ZArith Reals Lia Lra Bool.
From Flocq Require Import Core Relative Sterbenz Plus_error BinarySingleNaN.
From Verif Require Import Base AccModel AccSpec AccProofs NumModel NumSpec NumBasics NrmFloat SigModel SigSpec.
From Coq Require Import ZifyNat ZifyN ZifyBool.
Ltac Zify.zify_post_hook ::= idtac.
Local Open Scope R_scope.

Section Sig.
Variables prec emax : Z.
Context (Hp : Prec_gt_0 prec) (Hm : Prec_lt_emax prec emax).
Local Notation num := (binary_float prec emax).
Local Notation fone := (fone prec emax Hp Hm).
Local Notation fadd := (fadd prec emax Hp Hm).
Local Notation fmul := (fmul prec emax Hp Hm).
Local Notation fsub := (fsub prec emax Hp Hm).
Local Notation fdiv := (fdiv prec emax Hp Hm).
Local Notation fneg := (fneg prec emax).
Local Notation rn := (nearest prec emax).
Local Notation u := (unit_roundoff prec).
Local Notation v := (u / (1 + u)).
Local Notation eta := (underflow_unit prec emax).
Local Notation big := (bpow radix2 emax).
Local Notation format := (generic_format radix2 (FLT_exp (3 - emax - prec) prec)).
Local Notation inf := (@B754_infinity prec emax false).

(** Numbers from [a] up to infinity *)
Definition from (a : R) (s : num) : Prop := s = inf \/ (is_finite s = true /\ a <= B2R s).

Lemma fm1 : format 1.
Proof. exact (one_format prec emax Hp Hm). Qed.
Lemma one_fin : is_finite fone = true. Proof. apply fone_val. Qed.
Lemma one_val : B2R fone = 1. Proof. apply fone_val. Qed.

Lemma neg_le (x y : num) : Bleb x y = true -> Bleb (fneg y) (fneg x) = true.
Proof.
  unfold NumModel.fneg. intros H.
  destruct x as [[|]|[|]| |[|] mx ex Hx], y as [[|]|[|]| |[|] my ey Hy]; try discriminate H; try reflexivity.
  all: match goal with |- Bleb (Bopp ?b) (Bopp ?a) = true =>
    pose proof (Bleb_correct prec emax a b eq_refl eq_refl) as C; rewrite H in C;
    pose proof (Bleb_correct prec emax (Bopp b) (Bopp a) eq_refl eq_refl) as D;
    rewrite !B2R_Bopp in D; rewrite D; apply Rle_bool_true; symmetry in C;
    destruct (Rle_bool_spec (B2R a) (B2R b)) as [L|L]; [lra|discriminate C] end.
Qed.

(** 1 + e *)
Lemma add_one (e : num) : from 0 e ->
  (is_finite (fadd fone e) = true /\ is_finite e = true /\ B2R (fadd fone e) = rn (1 + B2R e) /\ 1 <= B2R (fadd fone e)) \/
  (fadd fone e = inf /\ (e = inf \/ is_finite e = true /\ big <= rn (1 + B2R e))).
Proof.
  intros [->|(F & L)].
  - right. split; [|auto]. unfold AccModel.fadd. pose proof one_fin as O. destruct fone; try discriminate O; reflexivity.
  - pose proof (Bplus_correct prec emax Hp Hm mode_NE fone e one_fin F) as C. rewrite one_val in C.
    change (round radix2 (SpecFloat.fexp prec emax) (round_mode mode_NE) (1 + B2R e)) with (rn (1 + B2R e)) in C.
    assert (G : 1 <= rn (1 + B2R e)) by (apply rn_ge_format; [auto|apply fm1|lra]).
    destruct (Rlt_bool_spec (Rabs (rn (1 + B2R e))) big) as [Q|Q].
    + left. destruct C as (C1 & C2 & _). unfold AccModel.fadd. rewrite C1. auto.
    + right. destruct C as (C1 & C2). split.
      * unfold AccModel.fadd. change (Bsign fone) with false in C1 || rewrite (fone_sign prec emax Hp Hm) in C1.
        destruct (Bplus mode_NE fone e); cbn in C1; try discriminate C1. now injection C1 as ->.
      * right. split; auto. rewrite Rabs_pos_eq in Q by lra. exact Q.
Qed.
Lemma add_one_from (e : num) : from 0 e -> from 1 (fadd fone e).
Proof. intros H. destruct (add_one e H) as [(F & _ & _ & L)|(E & _)]; [right; auto|left; auto]. Qed.
Lemma le_inf (x : num) : is_nan x = false -> Bleb x inf = true.
Proof. destruct x as [s|[|]| |s m e He]; try discriminate; try reflexivity; now destruct s. Qed.
Lemma from_num a (x : num) : from a x -> is_nan x = false.
Proof. intros [->|(F & _)]; [reflexivity|now apply finite_not_nan]. Qed.
Lemma inf_le (x : num) : Bleb inf x = true -> x = inf.
Proof. destruct x as [s|[|]| |s m e He]; try discriminate; try reflexivity; now destruct s. Qed.
Lemma le_fin (x y : num) : is_finite x = true -> is_finite y = true -> (Bleb x y = true <-> B2R x <= B2R y).
Proof.
  intros Fx Fy. rewrite (Bleb_correct _ _ x y Fx Fy). split.
  - intros H. destruct (Rle_bool_spec (B2R x) (B2R y)); [auto|discriminate].
  - apply Rle_bool_true.
Qed.
Lemma add_one_mono (a b : num) : from 0 a -> from 0 b -> Bleb a b = true -> Bleb (fadd fone a) (fadd fone b) = true.
Proof.
  intros A B L. destruct (add_one b B) as [(Fs & Fb & V & _)|(E & _)].
  - destruct (add_one a A) as [(Ft & Fa & W & _)|(E & D)].
    + apply le_fin; auto. rewrite V, W. apply rn_le; auto. apply le_fin in L; auto. lra.
    + exfalso. destruct D as [->|(Fa & D)]; [rewrite (inf_le b L) in Fb; discriminate|].
      apply le_fin in L; auto. assert (M : rn (1 + B2R a) <= rn (1 + B2R b)) by (apply rn_le; auto; lra).
      rewrite <- V in M. pose proof (finite_lt prec emax (fadd fone b)) as Q. pose proof (Rle_abs (B2R (fadd fone b))). lra.
  - rewrite E. apply le_inf. apply (from_num 1), add_one_from, A.
Qed.
(** 1 / s *)
Lemma inv_val (s : num) : from 1 s -> is_finite (fdiv fone s) = true /\ 0 <= B2R (fdiv fone s) <= 1 /\
  (s = inf -> B2R (fdiv fone s) = 0) /\ (is_finite s = true -> B2R (fdiv fone s) = rn (/ B2R s)).
Proof.
  intros [->|(F & L)].
  - assert (E : exists z, fdiv fone inf = B754_zero z).
    { unfold NumModel.fdiv. pose proof one_fin as O. destruct fone; try discriminate O; cbn; eauto. }
    destruct E as (z & ->). cbn. split; [reflexivity|]. split; [lra|]. split; [reflexivity|discriminate].
  - assert (I : 0 < / B2R s <= 1) by (split; [apply Rinv_0_lt_compat; lra|rewrite <- Rinv_1; apply Rinv_le; lra]).
    assert (R0 : 0 <= rn (/ B2R s)) by (apply rn_pos; [auto|lra]).
    assert (R1 : rn (/ B2R s) <= 1) by (apply rn_le_format; [auto|apply fm1|lra]).
    destruct (fdiv_small prec emax Hp Hm fone s one_fin) as (G & V); [lra| |].
    + rewrite one_val. replace (1 / B2R s) with (/ B2R s) by (field; lra). rewrite Rabs_pos_eq by auto.
      apply Rle_lt_trans with 1; auto. change 1 with (bpow radix2 0). apply bpow_lt. unfold Prec_gt_0 in Hp. pose proof (prec_emax prec emax Hm). lia.
    + rewrite one_val in V. replace (1 / B2R s) with (/ B2R s) in V by (field; lra). rewrite V.
      repeat split; auto. intros ->. discriminate F.
Qed.
Lemma inv_mono (s t : num) : from 1 s -> from 1 t -> Bleb s t = true -> B2R (fdiv fone t) <= B2R (fdiv fone s).
Proof.
  intros S T L. destruct (inv_val s S) as (_ & (A & _) & I1 & V1). destruct (inv_val t T) as (_ & _ & I2 & V2).
  destruct T as [E|(Ft & Lt)]; [rewrite (I2 E); auto|]. destruct S as [E|(Fs & Ls)]; [subst s; rewrite (inf_le t L) in Ft; discriminate|].
  rewrite (V1 Fs), (V2 Ft). apply rn_le; auto. apply le_fin in L; auto. apply Rinv_le; lra.
Qed.

Variable f : num -> num.
Hypothesis GE : good_exp prec emax f.
Local Notation fwd := (fforward prec emax Hp Hm f).
Local Notation bwd := (fbackward prec emax Hp Hm).

Lemma exp_from (x : num) : is_nan x = false -> from 0 (f x).
Proof. intros N. destruct (exp_number _ _ _ GE x N) as [|(F & L)]; [left|right]; auto. Qed.
Lemma neg_num (x : num) : is_nan x = false -> is_nan (fneg x) = false.
Proof. now destruct x. Qed.
Lemma forward_range (x : num) : is_nan x = false -> is_finite (fwd x) = true /\ 0 <= B2R (fwd x) <= 1.
Proof. intros N. destruct (inv_val _ (add_one_from _ (exp_from _ (neg_num x N)))) as (A & B & _). auto. Qed.
Lemma le_num (x y : num) : Bleb x y = true -> is_nan x = false /\ is_nan y = false.
Proof. destruct x as [s|[|]| |s m e He], y as [s'|[|]| |s' m' e' He']; try discriminate; auto. Qed.
Lemma forward_mono (x y : num) : Bleb x y = true -> B2R (fwd x) <= B2R (fwd y).
Proof.
  intros L. destruct (le_num x y L) as (Nx & Ny). unfold fforward.
  apply inv_mono; try (apply add_one_from, exp_from, neg_num; auto).
  apply add_one_mono; try (apply exp_from, neg_num; auto). apply (exp_increasing _ _ _ GE), neg_le, L.
Qed.
Lemma forward_nan (x : num) : is_nan x = true -> is_nan (fwd x) = true.
Proof.
  intros N. unfold fforward. assert (E : is_nan (f (fneg x)) = true) by (apply (exp_nan _ _ _ GE); now destruct x).
  destruct (f (fneg x)); try discriminate E. unfold AccModel.fadd, NumModel.fdiv. pose proof one_fin as O. destruct fone; try discriminate O; reflexivity.
Qed.
Lemma two_format : (3 <= emax)%Z -> format 2 /\ 2 < big.
Proof.
  intros E3. pose proof (prec_emax prec emax Hm) as PE. unfold Prec_gt_0 in Hp. change 2 with (bpow radix2 1).
  split; [apply big_format; [auto|lia]|apply bpow_lt; lia].
Qed.
Lemma forward_zero (x : num) : (3 <= emax)%Z -> is_finite x = true -> B2R x = 0 -> is_finite (fwd x) = true /\ B2R (fwd x) = / 2.
Proof.
  intros E3 F Z. assert (Fn : is_finite (fneg x) = true /\ B2R (fneg x) = 0).
  { unfold NumModel.fneg. rewrite is_finite_Bopp, B2R_Bopp, Z. split; [auto|lra]. }
  destruct (exp_zero _ _ _ GE (fneg x)) as (G & V); [apply Fn|apply Fn|].
  assert (T : format 2) by (apply two_format, E3).
  assert (R2 : rn (1 + B2R (f (fneg x))) = 2) by (rewrite V; replace (1 + 1) with 2 by lra; apply rn_id; auto).
  unfold fforward. destruct (add_one (f (fneg x))) as [(Fs & _ & W & L)|(_ & [E|(_ & Q)])]; [right; split; [auto|lra]| | |].
  - destruct (inv_val (fadd fone (f (fneg x)))) as (I & _ & _ & J); [right; auto|]. split; [exact I|]. rewrite (J Fs), W, R2.
    apply rn_id. change (/ 2) with (bpow radix2 (-1)). apply big_format; [auto|]. unfold Prec_gt_0 in Hp. pose proof (prec_emax prec emax Hm). lia.
  - rewrite E in G. discriminate G.
  - exfalso. rewrite R2 in Q. pose proof (proj2 (two_format E3)). lra.
Qed.
Lemma forward_infinities : B2R (fwd inf) = 1 /\ B2R (fwd (B754_infinity true)) = 0.
Proof.
  split.
  - change (fwd inf) with (fdiv fone (fadd fone (f (B754_infinity true)))). destruct (exp_minus_infinity _ _ _ GE) as (F & V).
    assert (R1 : rn (1 + B2R (f (B754_infinity true))) = 1) by (rewrite V, Rplus_0_r; apply rn_id, fm1).
    destruct (add_one (f (B754_infinity true))) as [(Fs & _ & W & L)|(_ & [E|(_ & Q)])]; [right; split; [auto|lra]| | |].
    + destruct (inv_val (fadd fone (f (B754_infinity true)))) as (_ & _ & _ & J); [right; auto|]. rewrite (J Fs), W, R1, Rinv_1. apply rn_id, fm1.
    + rewrite E in F. discriminate F.
    + exfalso. rewrite R1 in Q. change 1 with (bpow radix2 0) in Q. apply le_bpow in Q. unfold Prec_gt_0 in Hp. pose proof (prec_emax prec emax Hm). lia.
  - change (fwd (B754_infinity true)) with (fdiv fone (fadd fone (f inf))). rewrite (exp_plus_infinity _ _ _ GE).
    destruct (inv_val (fadd fone inf)) as (_ & _ & I & _); [apply add_one_from; left; auto|]. apply I.
    destruct (add_one inf) as [(_ & F & _)|(E & _)]; [left; auto|discriminate F|exact E].
Qed.

(** Accuracy *)
Hypothesis (P6 : (6 <= prec)%Z) (PE : (prec + 3 <= emax)%Z).
Lemma sum_close (E e s : R) : 0 < E -> 0 <= e -> Rabs (e - E) <= 2 * u * E + eta -> Rabs (s - (1 + e)) <= u * (1 + e) ->
  Rabs (s - (1 + E)) <= 4 * u * (1 + E).
Proof.
  intros HE He A B. pose proof (u_pos prec) as U. pose proof (small_u prec P6) as SU. pose proof (small_eta prec emax P6 PE) as SE. pose proof (eta_pos prec emax) as EP.
  assert (UE : 0 <= u * E) by (apply Rmult_le_pos; lra).
  apply Rabs_le_inv in A. apply Rabs_le_inv in B. apply Rabs_le.
  assert (C : u * (1 + e) <= u * (1 + E + 2 * u * E + eta)) by (apply Rmult_le_compat_l; lra).
  assert (D : u * (2 * u * E + eta) <= / 64 * (2 * u * E + eta)) by (apply Rmult_le_compat_r; [|exact SU]; assert (0 <= u * E) by auto; lra).
  lra.
Qed.
Lemma quotient_close (S s r : R) : 1 <= S -> 1 <= s -> Rabs (s - S) <= 4 * u * S -> Rabs (r - / s) <= u * / s + eta -> Rabs (r - / S) <= 6 * u * / S + eta.
Proof.
  intros HS Hs A B. pose proof (u_pos prec) as U. pose proof (small_u prec P6) as SU.
  assert (IS : 0 < / S) by (apply Rinv_0_lt_compat; lra). assert (Is : 0 < / s) by (apply Rinv_0_lt_compat; lra).
  assert (D : Rabs (/ s - / S) <= 4 * u * / s).
  { replace (/ s - / S) with (- (s - S) * (/ s * / S)) by (field; lra). rewrite Rabs_mult, Rabs_Ropp, (Rabs_pos_eq (/ s * / S)) by (apply Rmult_le_pos; lra).
    replace (4 * u * / s) with (4 * u * S * (/ s * / S)) by (field; lra). apply Rmult_le_compat_r; [apply Rmult_le_pos; lra|exact A]. }
  assert (K : / s <= / S * (16 / 15)).
  { apply Rabs_le_inv in D. assert (u * / s <= / 64 * / s) by (apply Rmult_le_compat_r; lra). lra. }
  replace (r - / S) with ((r - / s) + (/ s - / S)) by ring. eapply Rle_trans; [apply Rabs_triang|].
  assert (5 * u * / s <= 5 * u * (/ S * (16 / 15))) by (apply Rmult_le_compat_l; lra). assert (0 <= u * / S) by (apply Rmult_le_pos; lra). lra.
Qed.
Lemma forward_accurate (x : num) : is_finite x = true ->
  (exp (- B2R x) <= bpow radix2 (emax - 2) -> Rabs (B2R (fwd x) - logistic (B2R x)) <= 6 * u * logistic (B2R x) + eta) /\
  Rabs (B2R (fwd x) - logistic (B2R x)) <= 6 * u * logistic (B2R x) + bpow radix2 (2 - emax).
Proof.
  intros F. set (E := exp (- B2R x)). pose proof (exp_pos (- B2R x)) as E0. fold E in E0.
  assert (Fn : is_finite (fneg x) = true) by (unfold NumModel.fneg; now rewrite is_finite_Bopp).
  assert (Vn : B2R (fneg x) = - B2R x) by (unfold NumModel.fneg; apply B2R_Bopp).
  pose proof (u_pos prec) as U. pose proof (eta_pos prec emax) as EP.
  assert (L0 : 0 < logistic (B2R x)) by (apply Rinv_0_lt_compat; fold E; lra).
  assert (EN : eta <= bpow radix2 (2 - emax)) by (rewrite (eta_pow prec emax); apply bpow_le; lia).
  assert (UL : 0 <= 6 * u * logistic (B2R x)) by (apply Rmult_le_pos; lra).
  assert (BL : forall k, bpow radix2 k <= E -> logistic (B2R x) <= bpow radix2 (- k)).
  { intros k H. unfold logistic. fold E. rewrite bpow_opp. apply Rinv_le; [apply bpow_gt_0|lra]. }
  assert (DONE : Rabs (B2R (fwd x) - logistic (B2R x)) <= 6 * u * logistic (B2R x) + eta \/
                 (B2R (fwd x) = 0 /\ bpow radix2 (emax - 2) < E)).
  { unfold fforward. pose proof (exp_from (fneg x) (finite_not_nan prec emax _ Fn)) as FR.
    destruct (add_one _ FR) as [(Fs & Fe & W & L)|(I & D)].
    - left. destruct (inv_val _ (or_intror (conj Fs L))) as (_ & _ & _ & J). rewrite (J Fs). unfold logistic. fold E.
      destruct FR as [Q|(_ & Le)]; [rewrite Q in Fe; discriminate Fe|].
      pose proof (exp_accurate _ _ _ GE (fneg x) Fn Fe) as A. rewrite Vn in A. fold E in A.
      apply (quotient_close (1 + E) (B2R (fadd fone (f (fneg x))))); auto; try lra.
      + apply (sum_close E (B2R (f (fneg x)))); auto. rewrite W.
        eapply Rle_trans; [apply (add_rel prec emax Hp); [apply fm1|apply num_format]|]. rewrite Rabs_pos_eq by lra. apply Rmult_le_compat_r; [lra|apply v_le].
      + eapply Rle_trans; [apply (rn_rel prec emax Hp)|]. rewrite (Rabs_pos_eq (/ _)) by (left; apply Rinv_0_lt_compat; lra). lra.
    - right. split; [destruct (inv_val _ (or_introl I)) as (_ & _ & J & _); apply J, I|].
      destruct D as [Q|(Fe & Q)].
      + apply Rlt_le_trans with (bpow radix2 (emax - 1)); [apply bpow_lt; lia|]. pose proof (exp_overflow _ _ _ GE (fneg x) Fn Q) as H. now rewrite Vn in H.
      + destruct (Rlt_le_dec (bpow radix2 (emax - 2)) E) as [|N]; auto. exfalso.
        pose proof (exp_accurate _ _ _ GE (fneg x) Fn Fe) as A. rewrite Vn in A. fold E in A. apply Rabs_le_inv in A.
        pose proof (small_u prec P6) as SU. pose proof (small_eta prec emax P6 PE) as SE.
        assert (UE : u * E <= / 64 * E) by (apply Rmult_le_compat_r; lra).
        assert (B4 : 1 <= bpow radix2 (emax - 2) / 4).
        { replace (bpow radix2 (emax - 2) / 4) with (bpow radix2 (emax - 4)); [change 1 with (bpow radix2 0); apply bpow_le; lia|].
          replace (emax - 2)%Z with (emax - 4 + 2)%Z by lia. rewrite bpow_plus. change (bpow radix2 2) with 4. field. }
        assert (S : 1 + B2R (f (fneg x)) <= bpow radix2 (emax - 1)).
        { replace (bpow radix2 (emax - 1)) with (2 * bpow radix2 (emax - 2)); [lra|].
          replace (emax - 1)%Z with (emax - 2 + 1)%Z by lia. rewrite bpow_plus. change (bpow radix2 1) with 2. ring. }
        assert (T : rn (1 + B2R (f (fneg x))) <= bpow radix2 (emax - 1)) by (apply rn_le_format; [auto|apply big_format; [auto|lia]|exact S]).
        assert (bpow radix2 (emax - 1) < big) by (apply bpow_lt; lia). lra. }
  split.
  - intros H. destruct DONE as [D|(_ & D)]; [exact D|lra].
  - destruct DONE as [D|(D & G)]; [lra|]. rewrite D. replace (0 - logistic (B2R x)) with (- logistic (B2R x)) by ring. rewrite Rabs_Ropp, Rabs_pos_eq by lra.
    pose proof (BL _ (Rlt_le _ _ G)) as Q. replace (- (emax - 2))%Z with (2 - emax)%Z in Q by lia. lra.
Qed.

(** Backward *)
Lemma fm_half : format (/ 2).
Proof. change (/ 2) with (bpow radix2 (-1)). apply big_format; [auto|]. lia. Qed.
Lemma fm_quarter : format (/ 4).
Proof. change (/ 4) with (bpow radix2 (-2)). apply big_format; [auto|]. lia. Qed.
Lemma ulp_at k : (3 - emax <= k)%Z -> ulp radix2 (FLT_exp (3 - emax - prec) prec) (bpow radix2 k) = bpow radix2 (k + 1 - prec).
Proof. intros H. rewrite ulp_bpow. f_equal. unfold FLT_exp. lia. Qed.
Lemma rn_quarter z : z < / 4 + u / 4 -> rn z <= / 4.
Proof.
  intros H. apply (round_N_le_midp radix2 (FLT_exp (3 - emax - prec) prec)); [apply fm_quarter|].
  change (/ 4) with (bpow radix2 (-2)). rewrite succ_eq_pos by apply bpow_ge_0. rewrite ulp_at by lia.
  replace (bpow radix2 (-2 + 1 - prec)) with (u / 2); [change (bpow radix2 (-2)) with (/ 4); lra|].
  unfold unit_roundoff. replace (-2 + 1 - prec)%Z with (- prec + -1)%Z by lia. rewrite bpow_plus. change (bpow radix2 (-1)) with (/ 2). field.
Qed.
Lemma rn_one_minus y : 0 <= y <= / 2 -> rn (1 - y) <= 1 - y + u / 2.
Proof.
  intros H. pose proof (u_pos prec) as U. destruct (Req_dec y 0) as [->|N]; [rewrite Rminus_0_r, (rn_id prec emax) by apply fm1; lra|].
  assert (A : Rabs (rn (1 - y) - (1 - y)) <= / 2 * ulp radix2 (FLT_exp (3 - emax - prec) prec) (1 - y)) by (apply error_le_half_ulp; typeclasses eauto).
  assert (B : ulp radix2 (FLT_exp (3 - emax - prec) prec) (1 - y) = u).
  { rewrite ulp_neq_0 by lra. unfold cexp. rewrite (mag_unique_pos radix2 (1 - y) 0).
    - unfold FLT_exp, unit_roundoff. f_equal. lia.
    - change (bpow radix2 (0 - 1)) with (/ 2). change (bpow radix2 0) with 1. lra. }
  rewrite B in A. apply Rabs_le_inv in A. lra.
Qed.
Lemma backward_ok (y : num) : is_finite y = true -> 0 <= B2R y <= 1 ->
  is_finite (bwd y) = true /\ 0 <= B2R (bwd y) <= / 4 /\
  Rabs (B2R (bwd y) - B2R y * (1 - B2R y)) <= 3 * u * (B2R y * (1 - B2R y)) + eta.
Proof.
  intros F (Y0 & Y1). pose proof (u_pos prec) as U. pose proof (small_u prec P6) as SU. pose proof (eta_pos prec emax) as EP.
  set (Y := B2R y) in *. assert (D0 : 0 <= rn (1 - Y)) by (apply rn_pos; [auto|lra]).
  assert (D1 : rn (1 - Y) <= 1) by (apply rn_le_format; [auto|apply fm1|lra]).
  assert (ONE : 1 < big) by (change 1 with (bpow radix2 0); apply bpow_lt; lia).
  destruct (fsub_small prec emax Hp Hm fone y one_fin F) as (Fd & Vd); [rewrite one_val; fold Y; rewrite Rabs_pos_eq; lra|].
  rewrite one_val in Vd. fold Y in Vd.
  assert (DR : Rabs (rn (1 - Y) - (1 - Y)) <= u * (1 - Y)).
  { replace (1 - Y) with (1 + - Y) by ring. eapply Rle_trans; [apply (add_rel prec emax Hp); [apply fm1|apply generic_format_opp, num_format]|].
    rewrite Rabs_pos_eq by lra. apply Rmult_le_compat_r; [lra|apply v_le]. }
  set (d := rn (1 - Y)) in *.
  assert (Q : Y * d < / 4 + u / 4).
  { destruct (Rlt_le_dec Y (/ 2)) as [L|G].
    - assert (Z : d <= 1 - Y + u / 2) by (apply rn_one_minus; lra).
      assert (A1 : Y * d <= Y * (1 - Y + u / 2)) by (apply Rmult_le_compat_l; lra).
      assert (A2 : 0 <= (Y - / 2) * (Y - / 2)) by apply Rle_0_sqr.
      assert (A3 : Y * (u / 2) < / 2 * (u / 2)) by (apply Rmult_lt_compat_r; lra). lra.
    - assert (Z : d = 1 - Y).
      { apply (rn_id prec emax). apply (sterbenz radix2 (FLT_exp (3 - emax - prec) prec)); [apply fm1|apply num_format|fold Y; lra]. }
      rewrite Z. assert (A2 : 0 <= (Y - / 2) * (Y - / 2)) by apply Rle_0_sqr. lra. }
  assert (P0 : 0 <= rn (Y * d)) by (apply rn_pos; [auto|apply Rmult_le_pos; lra]).
  assert (P1 : rn (Y * d) <= / 4) by (apply rn_quarter, Q).
  destruct (fmul_small prec emax Hp Hm y (fsub fone y) F Fd) as (Fr & Vr); [rewrite Vd; fold Y; rewrite Rabs_pos_eq; lra|].
  rewrite Vd in Vr. fold Y in Vr. unfold fbackward. rewrite Vr. split; [exact Fr|]. split; [lra|].
  replace (rn (Y * d) - Y * (1 - Y)) with ((rn (Y * d) - Y * d) + Y * (d - (1 - Y))) by ring.
  eapply Rle_trans; [apply Rabs_triang|]. rewrite (Rabs_mult Y), (Rabs_pos_eq Y) by lra.
  assert (B1 : Rabs (rn (Y * d) - Y * d) <= u * (Y * d) + eta).
  { eapply Rle_trans; [apply (rn_rel prec emax Hp)|]. rewrite Rabs_pos_eq by (apply Rmult_le_pos; lra). lra. }
  assert (B2 : Y * Rabs (d - (1 - Y)) <= Y * (u * (1 - Y))) by (apply Rmult_le_compat_l; lra).
  assert (B3 : d <= (1 - Y) * (1 + u)) by (apply Rabs_le_inv in DR; lra).
  assert (B4 : u * (Y * d) <= u * (Y * ((1 - Y) * (1 + u)))) by (apply Rmult_le_compat_l; [lra|apply Rmult_le_compat_l; lra]).
  assert (B5 : 0 <= Y * (1 - Y)) by (apply Rmult_le_pos; lra).
  assert (B6 : u * u * (Y * (1 - Y)) <= u * / 64 * (Y * (1 - Y))) by (apply Rmult_le_compat_r; [lra|apply Rmult_le_compat_l; lra]).
  assert (B7 : 0 <= u * (Y * (1 - Y))) by (apply Rmult_le_pos; lra). lra.
Qed.

(** Saturation *)
Lemma rn_near_one z : 1 <= z -> z < 1 + u -> rn z = 1.
Proof.
  intros A B. apply Rle_antisym.
  - apply (round_N_le_midp radix2 (FLT_exp (3 - emax - prec) prec)); [apply fm1|].
    change 1 with (bpow radix2 0). rewrite succ_eq_pos by apply bpow_ge_0. rewrite ulp_at by lia.
    replace (bpow radix2 (0 + 1 - prec)) with (2 * u); [change (bpow radix2 0) with 1; lra|].
    unfold unit_roundoff. replace (0 + 1 - prec)%Z with (1 + - prec)%Z by lia. rewrite bpow_plus. reflexivity.
  - apply rn_ge_format; [auto|apply fm1|exact A].
Qed.
Lemma saturates (x : num) : is_finite x = true -> exp (- B2R x) <= u / 2 ->
  is_finite (fwd x) = true /\ B2R (fwd x) = 1 /\ is_finite (bwd (fwd x)) = true /\ B2R (bwd (fwd x)) = 0.
Proof.
  intros F L. pose proof (u_pos prec) as U. pose proof (small_u prec P6) as SU. pose proof (small_eta prec emax P6 PE) as SE. pose proof (eta_pos prec emax) as EP.
  assert (Fn : is_finite (fneg x) = true) by (unfold NumModel.fneg; now rewrite is_finite_Bopp).
  assert (Vn : B2R (fneg x) = - B2R x) by (unfold NumModel.fneg; apply B2R_Bopp).
  pose proof (exp_pos (- B2R x)) as E0.
  assert (B1 : 1 < bpow radix2 (emax - 1)) by (change 1 with (bpow radix2 0); apply bpow_lt; lia).
  destruct (exp_number _ _ _ GE (fneg x) (finite_not_nan prec emax _ Fn)) as [I|(Fe & Le)].
  { exfalso. pose proof (exp_overflow _ _ _ GE _ Fn I) as H. rewrite Vn in H. lra. }
  pose proof (exp_accurate _ _ _ GE _ Fn Fe) as A. rewrite Vn in A. apply Rabs_le_inv in A.
  assert (UE : u * exp (- B2R x) <= / 64 * exp (- B2R x)) by (apply Rmult_le_compat_r; lra).
  assert (R1 : rn (1 + B2R (f (fneg x))) = 1) by (apply rn_near_one; lra).
  assert (V1 : is_finite (fwd x) = true /\ B2R (fwd x) = 1).
  { unfold fforward. destruct (add_one (f (fneg x))) as [(Fs & _ & W & K)|(_ & [Q|(_ & Q)])]; [right; auto| | |].
    - destruct (inv_val _ (or_intror (conj Fs K))) as (I & _ & _ & J). split; [exact I|]. rewrite (J Fs), W, R1, Rinv_1. apply rn_id, fm1.
    - rewrite Q in Fe. discriminate Fe.
    - exfalso. rewrite R1 in Q. assert (1 < big) by (change 1 with (bpow radix2 0); apply bpow_lt; lia). lra. }
  destruct V1 as (F1 & V1). split; [exact F1|]. split; [exact V1|].
  destruct (backward_ok (fwd x) F1) as (Fb & _ & Ab); [lra|]. split; [exact Fb|].
  assert (Fd : B2R (fsub fone (fwd x)) = 0 /\ is_finite (fsub fone (fwd x)) = true).
  { destruct (fsub_small prec emax Hp Hm fone (fwd x) one_fin F1) as (G & W).
    - rewrite one_val, V1. replace (1 - 1) with 0 by ring. rewrite (rn_0 prec emax), Rabs_R0. apply bpow_gt_0.
    - split; [|exact G]. rewrite W, one_val, V1. replace (1 - 1) with 0 by ring. apply (rn_0 prec emax). }
  unfold fbackward. destruct Fd as (Vd & Fd). destruct (fmul_small prec emax Hp Hm (fwd x) _ F1 Fd) as (_ & W).
  - rewrite Vd, Rmult_0_r, (rn_0 prec emax), Rabs_R0. apply bpow_gt_0.
  - rewrite W, Vd, Rmult_0_r. apply (rn_0 prec emax).
Qed.
Lemma vanishes (x : num) : is_finite x = true -> bpow radix2 (emax + 1) <= exp (- B2R x) ->
  is_finite (fwd x) = true /\ B2R (fwd x) = 0 /\ is_finite (bwd (fwd x)) = true /\ B2R (bwd (fwd x)) = 0.
Proof.
  intros F L. pose proof (u_pos prec) as U. pose proof (small_u prec P6) as SU. pose proof (small_eta prec emax P6 PE) as SE. pose proof (eta_pos prec emax) as EP.
  assert (Fn : is_finite (fneg x) = true) by (unfold NumModel.fneg; now rewrite is_finite_Bopp).
  assert (Vn : B2R (fneg x) = - B2R x) by (unfold NumModel.fneg; apply B2R_Bopp).
  assert (B1 : 2 <= big) by (change 2 with (bpow radix2 1); apply bpow_le; lia).
  assert (B2 : bpow radix2 (emax + 1) = 2 * big) by (rewrite bpow_plus; change (bpow radix2 1) with 2; ring).
  assert (I : f (fneg x) = inf).
  { destruct (exp_number _ _ _ GE (fneg x) (finite_not_nan prec emax _ Fn)) as [I|(Fe & Le)]; auto. exfalso.
    pose proof (exp_accurate _ _ _ GE _ Fn Fe) as A. rewrite Vn in A. apply Rabs_le_inv in A.
    assert (UE : u * exp (- B2R x) <= / 64 * exp (- B2R x)) by (apply Rmult_le_compat_r; lra).
    pose proof (finite_lt prec emax (f (fneg x))) as Q. pose proof (Rle_abs (B2R (f (fneg x)))). lra. }
  assert (V : is_finite (fwd x) = true /\ B2R (fwd x) = 0).
  { unfold fforward. rewrite I. destruct (inv_val (fadd fone inf)) as (J & _ & K & _); [apply add_one_from; left; auto|]. split; [exact J|].
    apply K. destruct (add_one inf) as [(_ & G & _)|(E & _)]; [left; auto|discriminate G|exact E]. }
  destruct V as (F1 & V1). split; [exact F1|]. split; [exact V1|].
  destruct (backward_ok (fwd x) F1) as (Fb & _ & _); [lra|]. split; [exact Fb|].
  assert (D : is_finite (fsub fone (fwd x)) = true).
  { destruct (fsub_small prec emax Hp Hm fone (fwd x) one_fin F1) as (G & _); [|exact G].
    rewrite one_val, V1, Rminus_0_r, (rn_id prec emax 1 fm1), Rabs_R1. lra. }
  unfold fbackward. destruct (fmul_small prec emax Hp Hm (fwd x) _ F1 D) as (_ & W); rewrite V1, Rmult_0_l, (rn_0 prec emax) in *.
  - rewrite Rabs_R0. apply bpow_gt_0.
  - exact W.
Qed.
End Sig.

Lemma exp_pow (n : nat) : bpow radix2 (Z.of_nat n) <= exp (INR n).
Proof.
  assert (E2 : 2 <= exp 1) by (left; pose proof (exp_ineq1 1); lra). induction n as [|n IH].
  - cbn. rewrite exp_0. lra.
  - rewrite S_INR, exp_plus, Nat2Z.inj_succ, <- Z.add_1_r, bpow_plus. change (bpow radix2 1) with 2.
    apply Rmult_le_compat; try lra. apply bpow_ge_0.
Qed.
Lemma exp_64 : exp (- INR 64) <= unit_roundoff 53 / 2.
Proof.
  rewrite exp_Ropp. apply Rle_trans with (/ bpow radix2 (Z.of_nat 64)); [apply Rinv_le; [apply bpow_gt_0|apply exp_pow]|].
  rewrite <- bpow_opp. unfold unit_roundoff. replace (bpow radix2 (- (53)) / 2) with (bpow radix2 (-54)).
  - apply bpow_le. cbn. lia.
  - replace (-54)%Z with (- (53) + -1)%Z by lia. rewrite bpow_plus. reflexivity.
Qed.
