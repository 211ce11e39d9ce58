(** Proofs for C102: scaling, and the square root of finite numbers. *)
From Coq Require Import ZArith Reals Lia Lra Bool.
From Flocq Require Import Core Relative Mult_error BinarySingleNaN.
From Verif Require Import AccModel AccSpec AccProofs NumModel NumSpec NumBasics NrmModel NrmSpec NrmFloat CsqModel CsqSpec CsqError CsqProofs.
From Coq Require Import ZifyNat ZifyN ZifyBool.
Ltac Zify.zify_post_hook ::= idtac.
Local Open Scope R_scope.

(** ** The exact root *)
Definition major (x y : R) : R := sqrt ((Rabs x + hyp x y) / 2).
Definition minor (x y : R) : R := Rabs y / (2 * major x y).
Lemma hyp_abs x y : hyp (Rabs x) (Rabs y) = hyp x y.
Proof. unfold hyp. rewrite <- !Rabs_mult, !Rabs_pos_eq by apply Rle_0_sqr. reflexivity. Qed.
Lemma hyp_nonzero x y : x <> 0 \/ y <> 0 -> 0 < hyp x y.
Proof.
  intros H. apply sqrt_lt_R0. destruct H as [H|H]; [pose proof (Rsqr_pos_lt x H); pose proof (Rle_0_sqr y)|pose proof (Rsqr_pos_lt y H); pose proof (Rle_0_sqr x)]; unfold Rsqr in *; lra.
Qed.
Lemma major_sq x y : major x y * major x y = (Rabs x + hyp x y) / 2.
Proof. apply sqrt_sqrt. pose proof (Rabs_pos x). pose proof (hyp_pos x y). lra. Qed.
Lemma major_pos x y : x <> 0 \/ y <> 0 -> 0 < major x y.
Proof. intros H. apply sqrt_lt_R0. pose proof (Rabs_pos x). pose proof (hyp_nonzero x y H). lra. Qed.
Lemma minor_sq x y : x <> 0 \/ y <> 0 -> minor x y * minor x y = (hyp x y - Rabs x) / 2.
Proof.
  intros H. pose proof (major_pos x y H) as M. unfold minor.
  replace (Rabs y / (2 * major x y) * (Rabs y / (2 * major x y))) with (Rabs y * Rabs y / (4 * (major x y * major x y))) by (field; lra). rewrite major_sq.
  assert (E : Rabs y * Rabs y = (hyp x y - Rabs x) * (hyp x y + Rabs x)).
  { replace ((hyp x y - Rabs x) * (hyp x y + Rabs x)) with (hyp x y * hyp x y - Rabs x * Rabs x) by ring. rewrite hyp_sq, <- !Rabs_mult, !Rabs_pos_eq by apply Rle_0_sqr. ring. }
  rewrite E. pose proof (Rabs_pos x). pose proof (hyp_nonzero x y H). field. lra.
Qed.
Lemma minor_pos x y : x <> 0 \/ y <> 0 -> 0 <= minor x y <= major x y.
Proof.
  intros H. pose proof (major_pos x y H) as M.
  assert (P : 0 <= minor x y) by (apply Rmult_le_pos; [apply Rabs_pos|left; apply Rinv_0_lt_compat; lra]). split; [exact P|].
  apply Rsqr_incr_0; unfold Rsqr; try lra. rewrite minor_sq, major_sq by exact H. pose proof (Rabs_pos x). lra.
Qed.
Lemma root_right x y (neg : bool) : x <> 0 \/ y <> 0 -> 0 <= x -> (if neg then y <= 0 else 0 <= y) -> root_of x y neg (major x y) (if neg then - minor x y else minor x y).
Proof.
  intros H X Y. pose proof (major_pos x y H). pose proof (minor_pos x y H). pose proof (major_sq x y) as E1. pose proof (minor_sq x y H) as E2. rewrite (Rabs_pos_eq x) in E1, E2 by auto.
  assert (E3 : 2 * (major x y * minor x y) = Rabs y) by (unfold minor; field; lra).
  unfold root_of. destruct neg; repeat split; try lra.
  - rewrite Rabs_left1 in E3 by auto. lra.
  - rewrite Rabs_pos_eq in E3 by auto. lra.
Qed.
Lemma root_left x y (neg : bool) : x <> 0 \/ y <> 0 -> x <= 0 -> (if neg then y <= 0 else 0 <= y) -> root_of x y neg (minor x y) (if neg then - major x y else major x y).
Proof.
  intros H X Y. pose proof (major_pos x y H). pose proof (minor_pos x y H). pose proof (major_sq x y) as E1. pose proof (minor_sq x y H) as E2. rewrite (Rabs_left1 x) in E1, E2 by auto.
  assert (E3 : 2 * (minor x y * major x y) = Rabs y) by (unfold minor; field; lra).
  unfold root_of. destruct neg; repeat split; try lra.
  - rewrite Rabs_left1 in E3 by auto. lra.
  - rewrite Rabs_pos_eq in E3 by auto. lra.
Qed.
(** there is only one root *)
Lemma root_unique x y neg p q p' q' : root_of x y neg p q -> root_of x y neg p' q' -> p = p' /\ q = q'.
Proof.
  intros (A & B & C & D) (A' & B' & C' & D').
  assert (M : p * p + q * q = p' * p' + q' * q').
  { assert (S : (p * p + q * q) * (p * p + q * q) = (p' * p' + q' * q') * (p' * p' + q' * q')).
    { replace ((p * p + q * q) * (p * p + q * q)) with ((p * p - q * q) * (p * p - q * q) + (2 * (p * q)) * (2 * (p * q))) by ring. rewrite A, B, <- A', <- B'. ring. }
    pose proof (Rle_0_sqr p). pose proof (Rle_0_sqr q). pose proof (Rle_0_sqr p'). pose proof (Rle_0_sqr q'). apply Rsqr_inj; unfold Rsqr in *; lra. }
  split.
  - apply Rsqr_inj; unfold Rsqr; lra.
  - assert (Q : q * q = q' * q') by lra. destruct neg; [|apply Rsqr_inj; unfold Rsqr; lra].
    enough (- q = - q') by lra. apply Rsqr_inj; unfold Rsqr; lra.
Qed.

Section Float.
Variables prec emax : Z.
Context (Hp : Prec_gt_0 prec) (Hm : Prec_lt_emax prec emax).
Hypothesis (P24 : (24 <= prec)%Z) (PE : (3 * prec + 8 <= emax)%Z) (P53 : (prec <= 53)%Z).
Local Notation num := (binary_float prec emax).
Local Notation fzero := (fzero prec emax).
Local Notation fone := (fone prec emax Hp Hm).
Local Notation fadd := (fadd prec emax Hp Hm).
Local Notation fmul := (fmul prec emax Hp Hm).
Local Notation fdiv := (fdiv prec emax Hp Hm).
Local Notation fint := (fint prec emax Hp Hm).
Local Notation flt := (flt prec emax).
Local Notation fle := (fle prec emax).
Local Notation feq := (feq prec emax).
Local Notation vabs := (vabs prec emax).
Local Notation fsqrt := (fsqrt prec emax Hp Hm).
Local Notation fldexp := (fldexp prec emax Hp Hm).
Local Notation lit := (lit prec emax Hp Hm).
Local Notation fhyp := (fhyp prec emax Hp Hm).
Local Notation fscale := (fscale prec emax Hp Hm).
Local Notation fcabs := (fcabs prec emax Hp Hm).
Local Notation fcsqrt := (fcsqrt prec emax Hp Hm).
Local Notation fcopySign := (fcopySign prec emax).
Local Notation rn := (nearest prec emax).
Local Notation u := (unit_roundoff prec).
Local Notation v := (u / (1 + u)).
Local Notation eta := (underflow_unit prec emax).
Local Notation big := (bpow radix2 emax).
Local Notation top := (bpow radix2 (emax - 2)).
Local Notation emin := (3 - emax - prec)%Z.
Local Notation format := (generic_format radix2 (FLT_exp emin prec)).
Local Notation near := (near u).
Local Notation is := (is prec emax).
Local Notation safe := (safe prec emax).
Local Notation u0 := (u_pos prec).
Local Notation us := (u_small prec P24).

(** ** Scaling *)
Lemma lit_pow e : (emin <= e < emax)%Z -> is_finite (lit 1 e) = true /\ B2R (lit 1 e) = bpow radix2 e.
Proof.
  intros E. pose proof (big_format prec emax Hp e ltac:(lia)) as G. rewrite <- (rn_id prec emax (bpow radix2 e) G), <- (Rmult_1_l (bpow radix2 e)). apply lit_val.
  rewrite Rmult_1_l, rn_id by exact G. rewrite Rabs_pos_eq by apply bpow_ge_0. apply bpow_lt. lia.
Qed.
Lemma below x k : is_finite (x : num) = true -> (k <= 0)%Z -> Rabs (rn (B2R x * bpow radix2 k)) < big.
Proof.
  intros F K. pose proof (finite_lt prec emax x) as L. apply Rle_lt_trans with (Rabs (B2R x)); [|exact L]. rewrite <- rn_abs by exact Hp.
  apply rn_le_format; [exact Hp|apply generic_format_abs, num_format|]. rewrite Rabs_mult, (Rabs_pos_eq (bpow radix2 k)) by apply bpow_ge_0.
  rewrite <- (Rmult_1_r (Rabs (B2R x))) at 2. apply Rmult_le_compat_l; [apply Rabs_pos|]. change 1 with (bpow radix2 0). apply bpow_le. lia.
Qed.
Lemma tiny_val : is_finite (flegTiny prec emax Hp Hm) = true /\ B2R (flegTiny prec emax Hp Hm) = bpow radix2 (2 - emax + prec).
Proof.
  unfold flegTiny, feps, fmin. destruct (lit_pow (1 - prec)) as [Fe Ve]; [lia|]. destruct (lit_pow (2 - emax)) as [Fm Vm]; [lia|].
  destruct (fzero_val prec emax) as [Fz Vz]. rewrite (feq_val prec emax _ _ Fe Fz), Ve, Vz, Req_bool_false by (apply Rgt_not_eq, bpow_gt_0).
  destruct (fint_exact prec emax Hp Hm 2) as [F2 V2]; [pose proof (pow_prec prec P24); lia|].
  assert (E1 : B2R (fint 2) * B2R (lit 1 (2 - emax)) = bpow radix2 (3 - emax)).
  { rewrite V2, Vm. change (IZR 2) with (bpow radix2 1). rewrite <- bpow_plus. f_equal. lia. }
  destruct (fmul_small prec emax Hp Hm _ _ F2 Fm) as [F3 V3].
  { rewrite E1, rn_id by (apply big_format; [exact Hp|lia]). rewrite Rabs_pos_eq by apply bpow_ge_0. apply bpow_lt. lia. }
  rewrite E1, rn_id in V3 by (apply big_format; [exact Hp|lia]).
  assert (E2 : B2R (fmul (fint 2) (lit 1 (2 - emax))) / B2R (lit 1 (1 - prec)) = bpow radix2 (2 - emax + prec)).
  { rewrite V3, Ve. unfold Rdiv. rewrite <- bpow_opp, <- bpow_plus. f_equal. lia. }
  destruct (fdiv_small prec emax Hp Hm (fmul (fint 2) (lit 1 (2 - emax))) (lit 1 (1 - prec)) F3) as [F4 V4].
  { rewrite Ve. apply Rgt_not_eq, bpow_gt_0. }
  { rewrite E2, rn_id by (apply big_format; [exact Hp|lia]). rewrite Rabs_pos_eq by apply bpow_ge_0. apply bpow_lt. lia. }
  rewrite E2, rn_id in V4 by (apply big_format; [exact Hp|lia]). auto.
Qed.
Definition exponent (e : Z) : Prop := e = 4%Z \/ e = (-2)%Z \/ e = (-2 * prec)%Z.
Lemma scale_ok (a b : num) : is_finite a = true -> is_finite b = true -> 0 <= B2R b <= B2R a -> 0 < B2R a ->
  exists a' b' e, fscale a b = (a', b', e) /\ exponent e /\ is_finite a' = true /\ is_finite b' = true /\
    B2R a' = B2R a * bpow radix2 (- e) /\ B2R b' = rn (B2R b * bpow radix2 (- e)) /\
    bpow radix2 (3 - emax + prec) <= B2R a' <= bpow radix2 (emax - 4) /\
    (e = 4%Z -> 1 <= B2R a) /\ (e = (-2)%Z -> B2R a < 1) /\ (e = (-2 * prec)%Z -> B2R a < bpow radix2 (2 - emax + prec)).
Proof.
  intros Fa Fb BA AP. destruct (fone_val prec emax Hp Hm) as [F1 V1]. unfold CsqModel.fscale. rewrite (fle_val prec emax fone a F1 Fa), V1.
  pose proof (num_format prec emax a) as Ga. pose proof (finite_lt prec emax a) as La. rewrite Rabs_pos_eq in La by lra.
  assert (GE : bpow radix2 emin <= B2R a).
  { apply (generic_format_ge_bpow radix2 (FLT_exp emin prec)); auto. intros e. unfold FLT_exp. lia. }
  destruct (Rle_bool_spec 1 (B2R a)) as [L|L].
  - destruct (lit_pow (-4)) as [F4 V4]; [lia|].
    assert (G : format (B2R a * bpow radix2 (-4))).
    { apply mult_bpow_exact_FLT; [exact Ga|]. assert (1 <= mag radix2 (B2R a))%Z by (apply mag_ge_bpow; rewrite Rabs_pos_eq by lra; exact L). lia. }
    destruct (fmul_small prec emax Hp Hm a (lit 1 (-4)) Fa F4) as [Fa' Va']; [rewrite V4; apply below; [auto|lia]|].
    destruct (fmul_small prec emax Hp Hm b (lit 1 (-4)) Fb F4) as [Fb' Vb']; [rewrite V4; apply below; [auto|lia]|].
    rewrite V4 in Va', Vb'. rewrite rn_id in Va' by exact G.
    exists (fmul a (lit 1 (-4))), (fmul b (lit 1 (-4))), 4%Z. split; [reflexivity|]. split; [left; reflexivity|]. cbn [Z.opp]. repeat split; auto; try lia.
    + rewrite Va'. apply Rle_trans with (1 * bpow radix2 (-4)); [rewrite Rmult_1_l; apply bpow_le; lia|]. apply Rmult_le_compat_r; [apply bpow_ge_0|exact L].
    + rewrite Va'. unfold Z.sub. rewrite bpow_plus. apply Rmult_le_compat_r; [apply bpow_ge_0|lra].
  - destruct tiny_val as [Ft Vt]. rewrite (flt_val prec emax a _ Fa Ft), Vt. destruct (Rlt_bool_spec (B2R a) (bpow radix2 (2 - emax + prec))) as [T|T].
    + cbv zeta. set (e := (-2 * prec)%Z). assert (Ee : (- e = 2 * prec)%Z) by (unfold e; lia). rewrite Ee.
      assert (UA : B2R a * bpow radix2 (2 * prec) <= bpow radix2 (emax - 4)).
      { apply Rle_trans with (bpow radix2 (2 - emax + prec) * bpow radix2 (2 * prec)); [apply Rmult_le_compat_r; [apply bpow_ge_0|lra]|]. rewrite <- bpow_plus. apply bpow_le. lia. }
      assert (UB : 0 <= B2R b * bpow radix2 (2 * prec) <= bpow radix2 (emax - 4)).
      { split; [apply Rmult_le_pos; [lra|apply bpow_ge_0]|]. eapply Rle_trans; [|exact UA]. apply Rmult_le_compat_r; [apply bpow_ge_0|lra]. }
      assert (G : format (B2R a * bpow radix2 (2 * prec))) by (apply mult_bpow_pos_exact_FLT; [exact Ga|lia]).
      destruct (fldexp_small prec emax Hp Hm a (2 * prec) Fa) as [Fa' Va'].
      { apply (rn_small prec emax Hp _ (emax - 4)); try lia. rewrite Rabs_pos_eq; [exact UA|]. apply Rmult_le_pos; [lra|apply bpow_ge_0]. }
      destruct (fldexp_small prec emax Hp Hm b (2 * prec) Fb) as [Fb' Vb'].
      { apply (rn_small prec emax Hp _ (emax - 4)); try lia. rewrite Rabs_pos_eq by lra. lra. }
      rewrite rn_id in Va' by exact G.
      exists (fldexp a (2 * prec)), (fldexp b (2 * prec)), e. rewrite Ee. split; [reflexivity|]. split; [right; right; reflexivity|]. repeat split; auto; try lia.
      * rewrite Va'. apply Rle_trans with (bpow radix2 emin * bpow radix2 (2 * prec)); [rewrite <- bpow_plus; apply bpow_le; lia|]. apply Rmult_le_compat_r; [apply bpow_ge_0|exact GE].
      * rewrite Va'. exact UA.
    + destruct (fint_exact prec emax Hp Hm 4) as [F4 V4]; [pose proof (pow_prec prec P24); lia|]. change (IZR 4) with (bpow radix2 2) in V4.
      assert (T4 : 4 <= bpow radix2 (emax - 4)) by (change 4 with (bpow radix2 2); apply bpow_le; lia). change (bpow radix2 2) with 4 in *.
      assert (G : format (B2R a * 4)) by (change 4 with (bpow radix2 2); apply mult_bpow_pos_exact_FLT; [exact Ga|lia]).
      destruct (fmul_small prec emax Hp Hm a (fint 4) Fa F4) as [Fa' Va'].
      { rewrite V4. apply (rn_small prec emax Hp _ (emax - 4)); try lia. rewrite Rabs_pos_eq by lra. lra. }
      destruct (fmul_small prec emax Hp Hm b (fint 4) Fb F4) as [Fb' Vb'].
      { rewrite V4. apply (rn_small prec emax Hp _ (emax - 4)); try lia. rewrite Rabs_pos_eq by lra. lra. }
      rewrite V4 in Va', Vb'. rewrite rn_id in Va' by exact G.
      exists (fmul a (fint 4)), (fmul b (fint 4)), (-2)%Z. split; [reflexivity|]. split; [right; left; reflexivity|]. cbn [Z.opp]. change (bpow radix2 2) with 4. repeat split; auto; try lia.
      * rewrite Va'. apply Rle_trans with (bpow radix2 (2 - emax + prec) * bpow radix2 2); [rewrite <- bpow_plus; apply bpow_le; lia|]. change (bpow radix2 2) with 4. lra.
      * rewrite Va'. lra.
Qed.

(** ** The modulus *)
Lemma fcabs_ok (re im : num) : is_finite re = true -> is_finite im = true -> B2R re <> 0 \/ B2R im <> 0 ->
  exists rho e a, fcabs re im = (rho, e) /\ exponent e /\ is 8 rho (hyp (B2R re) (B2R im) * bpow radix2 (- e)) /\
    a = Rmax (Rabs (B2R re)) (Rabs (B2R im)) * bpow radix2 (- e) /\ bpow radix2 (3 - emax + prec) <= a <= bpow radix2 (emax - 4) /\
    (B2R im = 0 -> B2R rho = Rabs (B2R re) * bpow radix2 (- e)).
Proof.
  intros Fr Fi NZ. destruct (vabs_val prec emax re Fr) as [Fr' Vr]. destruct (vabs_val prec emax im Fi) as [Fi' Vi].
  unfold CsqModel.fcabs. cbv zeta. rewrite !finite_not_nan by assumption.
  assert (NI : fisInf prec emax (vabs re) || fisInf prec emax (vabs im) = false) by (destruct (vabs re); try discriminate Fr'; destruct (vabs im); try discriminate Fi'; reflexivity). rewrite NI.
  assert (SW : exists a b, (if flt (vabs re) (vabs im) then (vabs im, vabs re) else (vabs re, vabs im)) = (a, b) /\ is_finite a = true /\ is_finite b = true /\ 0 <= B2R b <= B2R a /\
    B2R a = Rmax (Rabs (B2R re)) (Rabs (B2R im)) /\ hyp (B2R a) (B2R b) = hyp (B2R re) (B2R im) /\ (B2R im = 0 -> B2R b = 0 /\ B2R a = Rabs (B2R re))).
  { rewrite (flt_val prec emax _ _ Fr' Fi'), Vr, Vi. pose proof (Rabs_pos (B2R re)). pose proof (Rabs_pos (B2R im)).
    destruct (Rlt_bool_spec (Rabs (B2R re)) (Rabs (B2R im))) as [L|L].
    - exists (vabs im), (vabs re). rewrite Vr, Vi. rewrite Rmax_right, hyp_sym, hyp_abs by lra. repeat split; auto; try lra; exfalso; match goal with Z : B2R im = 0 |- _ => rewrite Z, Rabs_R0 in L end; lra.
    - exists (vabs re), (vabs im). rewrite Vr, Vi. rewrite Rmax_left, hyp_abs by lra. repeat split; auto; try lra. match goal with Z : B2R im = 0 |- _ => rewrite Z end. apply Rabs_R0. }
  destruct SW as (a & b & -> & Fa & Fb & BA & Va & VH & VZ). cbn iota.
  assert (AP : 0 < B2R a).
  { rewrite Va. destruct NZ as [N|N]; [eapply Rlt_le_trans; [apply Rabs_pos_lt, N|apply Rmax_l]|eapply Rlt_le_trans; [apply Rabs_pos_lt, N|apply Rmax_r]]. }
  destruct (fzero_val prec emax) as [Fz Vz]. rewrite (feq_val prec emax a _ Fa Fz), Vz, Req_bool_false by lra.
  destruct (scale_ok a b Fa Fb BA AP) as (a' & b' & e & -> & X & Fa' & Fb' & Va' & Vb' & AB & _). cbn iota.
  pose proof (bpow_gt_0 radix2 (- e)) as S. set (s := bpow radix2 (- e)) in *.
  assert (B2 : 0 <= B2R b * s <= B2R a * s) by (split; [apply Rmult_le_pos; lra|apply Rmult_le_compat_r; lra]).
  assert (BA' : 0 <= B2R b' <= B2R a').
  { rewrite Vb'. split; [apply rn_pos; [exact Hp|lra]|]. apply rn_le_format; [exact Hp|apply num_format|rewrite Va'; lra]. }
  pose proof (fhyp_ok prec emax Hp Hm P24 PE P53 a' b' Fa' Fb' BA' (proj1 AB) (proj2 AB)) as I.
  exists (fhyp a' b'), e, (B2R a'). split; [reflexivity|]. split; [exact X|]. split; [|split; [rewrite Va', Va; reflexivity|split; [exact AB|]]].
  - rewrite <- VH, <- (hyp_scale _ _ s (Rlt_le _ _ S)). set (h := hyp (B2R a * s) (B2R b * s)). set (h' := hyp (B2R a') (B2R b')) in *.
    pose proof (hyp_close (B2R a * s) (B2R b * s) (B2R a') (B2R b')) as C. fold h h' in C. rewrite Va', Rminus_eq_0, Rabs_R0, Rplus_0_l, Vb' in C.
    pose proof (rn_rel prec emax Hp (B2R b * s)) as E. rewrite (Rabs_pos_eq (B2R b * s)) in E by lra.
    pose proof (eta_A prec emax a' b' (proj1 AB)) as EA. rewrite Va' in EA.
    assert (HA : B2R a * s <= h) by (apply hyp_ge; lra).
    assert (HB : B2R b * s <= 3 / 4 * h).
    { apply Rsqr_incr_0; unfold Rsqr; [|lra|lra]. replace (3 / 4 * h * (3 / 4 * h)) with (9 / 16 * (h * h)) by field. unfold h. rewrite hyp_sq.
      assert (B2R b * s * (B2R b * s) <= B2R a * s * (B2R a * s)) by (apply Rmult_le_compat; lra). assert (0 <= B2R b * s * (B2R b * s)) by (apply Rmult_le_pos; lra). lra. }
    pose proof u0 as U0. pose proof us as U1.
    assert (E1 : u * (B2R b * s) <= u * (3 / 4 * h)) by (apply Rmult_le_compat_l; lra).
    assert (E2 : u * (u * (B2R a * s)) <= u * (/ 1048576 * h)) by (apply Rmult_le_compat_l; [lra|]; apply Rmult_le_compat; lra).
    assert (N : near (7 / 8) h' h) by (unfold CsqError.near; assert (0 <= u * h) by (apply Rmult_le_pos; lra); lra).
    destruct I as [F N7]. split; [exact F|].
    pose proof (near_bounds u U0 U1 (7 / 8) h' h ltac:(lra) ltac:(lra) N) as Bh.
    unfold CsqError.near in *. replace (B2R (fhyp a' b') - h) with ((B2R (fhyp a' b') - h') + (h' - h)) by ring. eapply Rle_trans; [apply Rabs_triang|].
    assert (u * h' <= u * (h * (1 + / 16384))) by (apply Rmult_le_compat_l; lra). assert (0 <= u * h) by (apply Rmult_le_pos; lra). lra.
  - intros Z. destruct (VZ Z) as [Zb Za]. rewrite Zb, Rmult_0_l, rn_0 in Vb'.
    unfold CsqModel.fhyp. cbv zeta. destruct (tmp_ok prec emax Hp Hm P24 PE a' b' Fa' Fb' BA' (proj2 AB)) as (Ft & Vt & _).
    rewrite (feq_val prec emax _ _ Ft Fa'), Vt, Vb', Rminus_0_r, rn_id by apply num_format. rewrite Req_bool_true by reflexivity. rewrite Va', Za. reflexivity.
Qed.
End Float.
