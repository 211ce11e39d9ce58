(** Rounding and the operations on IEEE numbers, in terms of their real values. *)
From Coq Require Import ZArith Reals List Lia Lra Bool.
From Flocq Require Import Core Relative Plus_error BinarySingleNaN.
From Verif Require Import Base BaseProofs ShapeModel AccModel AccSpec AccProofs NumModel NumSpec.
Import ListNotations.
Open Scope R_scope.

Section Basic.
Variables prec emax : Z.
Context (Hp : Prec_gt_0 prec) (Hm : Prec_lt_emax prec emax).
Local Notation num := (binary_float prec emax).
Local Notation fzero := (fzero prec emax).
Local Notation fone := (fone prec emax Hp Hm).
Local Notation fadd := (fadd prec emax Hp Hm).
Local Notation fmul := (fmul prec emax Hp Hm).
Local Notation fsub := (fsub prec emax Hp Hm).
Local Notation fdiv := (fdiv prec emax Hp Hm).
Local Notation fint := (fint prec emax Hp Hm).
Local Notation flt := (flt prec emax).
Local Notation fle := (fle prec emax).
Local Notation feq := (feq prec emax).
Local Notation rn := (nearest prec emax).
Local Notation u := (unit_roundoff prec).
Local Notation v := (u / (1 + u)).
Local Notation eta := (underflow_unit prec emax).
Local Notation big := (bpow radix2 emax).
Local Notation format := (generic_format radix2 (FLT_exp (3 - emax - prec) prec)).

Lemma prec_emax : (prec < emax)%Z.
Proof. exact Hm. Qed.
Lemma u_half : u <= / 2.
Proof.
  unfold unit_roundoff. change (/ 2) with (bpow radix2 (-1)). apply bpow_le. unfold Prec_gt_0 in Hp. lia.
Qed.
Lemma v_third : v <= / 3.
Proof.
  pose proof (u_pos prec). pose proof u_half. apply Rmult_le_reg_r with (1 + u); [lra|].
  unfold Rdiv. rewrite Rmult_assoc, Rinv_l by lra. lra.
Qed.

(** Rounding: monotone, odd, relative and absolute errors *)
Lemma rn_le x y : x <= y -> rn x <= rn y.
Proof. intros H. apply round_le; [typeclasses eauto|typeclasses eauto|exact H]. Qed.
Lemma rn_opp x : rn (- x) = - rn x.
Proof. unfold nearest. rewrite round_NE_opp. reflexivity. Qed.
Lemma rn_abs x : rn (Rabs x) = Rabs (rn x).
Proof. unfold nearest. rewrite round_NE_abs; [reflexivity|typeclasses eauto]. Qed.
Lemma rn_le_format x y : format y -> x <= y -> rn x <= y.
Proof. intros F H. rewrite <- (rn_id prec emax y F). apply rn_le, H. Qed.
Lemma rn_ge_format x y : format y -> y <= x -> y <= rn x.
Proof. intros F H. rewrite <- (rn_id prec emax y F). apply rn_le, H. Qed.
Lemma rn_pos x : 0 <= x -> 0 <= rn x.
Proof. intros H. apply rn_ge_format; [apply generic_format_0|exact H]. Qed.
Lemma rn_neg x : x <= 0 -> rn x <= 0.
Proof. intros H. apply rn_le_format; [apply generic_format_0|exact H]. Qed.
Lemma rn_err x : Rabs (rn x - x) <= v * Rabs x + eta.
Proof.
  destruct (mul_err prec emax Hp x) as (e & t & He & Ht & _ & E). rewrite E.
  replace (x * (1 + e) + t - x) with (e * x + t) by ring. eapply Rle_trans; [apply Rabs_triang|].
  rewrite Rabs_mult. pose proof (Rabs_pos x). pose proof (Rmult_le_compat_r (Rabs x) _ _ H He). lra.
Qed.
(** The largest number of the format, and below the overflow threshold *)
Lemma big_format k : (3 - emax - prec <= k)%Z -> format (bpow radix2 k).
Proof. intros H. apply generic_format_bpow. unfold FLT_exp. unfold Prec_gt_0 in Hp. lia. Qed.
Lemma rn_small x k : (k < emax)%Z -> (3 - emax - prec <= k)%Z -> Rabs x <= bpow radix2 k -> Rabs (rn x) < big.
Proof.
  intros H1 H2 H. rewrite <- rn_abs. apply Rle_lt_trans with (bpow radix2 k).
  - apply rn_le_format; [apply big_format, H2|exact H].
  - apply bpow_lt, H1.
Qed.

(** Operations *)
Lemma finite_lt (x : num) : Rabs (B2R x) < big.
Proof. apply abs_B2R_lt_emax. Qed.
Lemma fzero_val : is_finite fzero = true /\ B2R fzero = 0.
Proof. split; reflexivity. Qed.
Lemma fone_val : is_finite fone = true /\ B2R fone = 1.
Proof. split; [apply is_finite_Bone|apply Bone_correct]. Qed.
Lemma fsub_small (x y : num) : is_finite x = true -> is_finite y = true -> Rabs (rn (B2R x - B2R y)) < big ->
  is_finite (fsub x y) = true /\ B2R (fsub x y) = rn (B2R x - B2R y).
Proof.
  intros Fx Fy L. pose proof (Bminus_correct prec emax Hp Hm mode_NE x y Fx Fy) as C. rewrite Rlt_bool_true in C by exact L.
  split; apply C.
Qed.
Lemma overflow_finite (z : num) m s : B2SF z = binary_overflow prec emax m s -> mode_NE = m -> is_finite z = true -> False.
Proof. intros H <- F. destruct z; cbn in *; discriminate. Qed.
Lemma fsub_finite (x y : num) : is_finite (fsub x y) = true ->
  is_finite x = true /\ is_finite y = true /\ B2R (fsub x y) = rn (B2R x - B2R y) /\ Rabs (rn (B2R x - B2R y)) < big.
Proof.
  intros H. unfold NumModel.fsub in *. assert (F : is_finite x = true /\ is_finite y = true).
  { destruct x as [sx|sx| |sx mx ex Hx], y as [sy|sy| |sy my ey Hy]; cbn in H; auto; try discriminate H.
    destruct (Bool.eqb sx (negb sy)); discriminate H. }
  destruct F as (Fx & Fy). split; auto. split; auto. pose proof (Bminus_correct prec emax Hp Hm mode_NE x y Fx Fy) as C.
  destruct (Rlt_bool _ _) eqn:E.
  - destruct C as (C & _). split; [exact C|]. rewrite <- C at 1. apply abs_B2R_lt_emax.
  - destruct C as (C & _). exfalso. eapply overflow_finite; eauto.
Qed.
Lemma fdiv_small (x y : num) : is_finite x = true -> B2R y <> 0 -> Rabs (rn (B2R x / B2R y)) < big ->
  is_finite (fdiv x y) = true /\ B2R (fdiv x y) = rn (B2R x / B2R y).
Proof.
  intros Fx Ny L. pose proof (Bdiv_correct prec emax Hp Hm mode_NE x y Ny) as C. rewrite Rlt_bool_true in C by exact L.
  destruct C as (C1 & C2 & _). rewrite Fx in C2. split; auto.
Qed.
Lemma fdiv_finite (x y : num) : is_finite (fdiv x y) = true -> is_finite y = true ->
  is_finite x = true /\ B2R y <> 0 /\ B2R (fdiv x y) = rn (B2R x / B2R y).
Proof.
  intros H Fy. unfold NumModel.fdiv in *.
  assert (N : B2R y <> 0).
  { destruct y as [sy|sy| |sy my ey Hy]; try discriminate Fy.
    - destruct x; cbn in H; discriminate H.
    - cbn. apply F2R_neq_0. cbn. destruct sy; discriminate. }
  assert (Fx : is_finite x = true).
  { destruct y as [sy|sy| |sy my ey Hy]; try discriminate Fy; destruct x; cbn in H; auto; discriminate H. }
  split; auto. split; auto. pose proof (Bdiv_correct prec emax Hp Hm mode_NE x y N) as C.
  destruct (Rlt_bool _ _); [apply C|]. exfalso. eapply overflow_finite; eauto.
Qed.
Lemma fint_exact z : (Z.abs z <= 2 ^ prec)%Z -> is_finite (fint z) = true /\ B2R (fint z) = IZR z.
Proof.
  intros H. unfold NumModel.fint. pose proof (binary_normalize_correct prec emax Hp Hm mode_NE z 0 false) as C. cbv zeta in C.
  assert (E : F2R (Float radix2 z 0) = IZR z) by (unfold F2R; cbn; ring). rewrite E in C.
  assert (R : round radix2 (SpecFloat.fexp prec emax) (round_mode mode_NE) (IZR z) = IZR z).
  { apply (rn_id prec emax). apply fmt_int; auto. }
  rewrite R in C. rewrite Rlt_bool_true in C.
  - split; apply C.
  - apply Rle_lt_trans with (bpow radix2 prec); [|apply bpow_lt, prec_emax].
    rewrite <- abs_IZR. replace (bpow radix2 prec) with (IZR (2 ^ prec)).
    + apply IZR_le, H.
    + rewrite <- IZR_Zpower; [reflexivity|]. unfold Prec_gt_0 in Hp. lia.
Qed.
Lemma flt_val (x y : num) : is_finite x = true -> is_finite y = true -> flt x y = Rlt_bool (B2R x) (B2R y).
Proof. apply Bltb_correct. Qed.
Lemma fle_val (x y : num) : is_finite x = true -> is_finite y = true -> fle x y = Rle_bool (B2R x) (B2R y).
Proof. apply Bleb_correct. Qed.
Lemma feq_val (x y : num) : is_finite x = true -> is_finite y = true -> feq x y = Req_bool (B2R x) (B2R y).
Proof. apply Beqb_correct. Qed.
Lemma finite_not_nan (x : num) : is_finite x = true -> is_nan x = false.
Proof. destruct x; auto; discriminate. Qed.
Lemma vabs_val (x : num) : is_finite x = true -> is_finite (vabs prec emax x) = true /\ B2R (vabs prec emax x) = Rabs (B2R x).
Proof.
  intros F. unfold vabs. rewrite flt_val by auto. destruct (Rlt_bool_spec (B2R x) (B2R fzero)) as [H|H]; cbn in H.
  - unfold fneg. rewrite is_finite_Bopp, B2R_Bopp. split; auto. rewrite Rabs_left; auto.
  - split; auto. rewrite Rabs_pos_eq; auto.
Qed.
Lemma vmax2_val (x y : num) : is_finite x = true -> is_finite y = true ->
  is_finite (vmax2 prec emax x y) = true /\ B2R (vmax2 prec emax x y) = Rmax (B2R x) (B2R y).
Proof.
  intros Fx Fy. unfold vmax2. rewrite flt_val by auto. destruct (Rlt_bool_spec (B2R y) (B2R x)) as [H|H]; split; auto.
  - rewrite Rmax_left; lra.
  - rewrite Rmax_right; lra.
Qed.
Lemma vmin2_val (x y : num) : is_finite x = true -> is_finite y = true ->
  is_finite (vmin2 prec emax x y) = true /\ B2R (vmin2 prec emax x y) = Rmin (B2R x) (B2R y).
Proof.
  intros Fx Fy. unfold vmin2. rewrite flt_val by auto. destruct (Rlt_bool_spec (B2R x) (B2R y)) as [H|H]; split; auto.
  - rewrite Rmin_left; lra.
  - rewrite Rmin_right; lra.
Qed.
End Basic.
