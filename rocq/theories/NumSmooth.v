(** Proofs about clamp, smoothStep and isClose over IEEE numbers. *)
From Coq Require Import ZArith Reals List Lia Lra Bool.
From Coquelicot Require Import Coquelicot.
From Flocq Require Import Core Relative Plus_error BinarySingleNaN.
From Verif Require Import Base BaseProofs ShapeModel AccModel AccSpec AccProofs NumModel NumSpec NumBasics.
Import ListNotations.
Open Scope R_scope.

(** ** Perlin's polynomial *)
Lemma perlin_derive t : is_derive perlin t (30 * t ^ 2 * (1 - t) ^ 2).
Proof. unfold perlin. auto_derive; [trivial|]. ring. Qed.
Lemma perlin_lipschitz a b : 0 <= a <= 1 -> 0 <= b <= 1 -> Rabs (perlin a - perlin b) <= 2 * Rabs (a - b).
Proof.
  intros Ha Hb. destruct (MVT_gen perlin b a (fun t => 30 * t ^ 2 * (1 - t) ^ 2)) as (c & Hc & E).
  - intros x _. apply perlin_derive.
  - intros x _. apply continuity_pt_filterlim. apply (ex_derive_continuous perlin). exists (30 * x ^ 2 * (1 - x) ^ 2). apply perlin_derive.
  - rewrite E, Rabs_mult. apply Rmult_le_compat_r; [apply Rabs_pos|].
    assert (C : 0 <= c <= 1). { unfold Rmin, Rmax in Hc. destruct (Rle_dec b a); lra. }
    assert (Q : 0 <= c * (1 - c) <= / 4) by (pose proof (pow2_ge_0 (c - / 2)); split; nra).
    replace (30 * c ^ 2 * (1 - c) ^ 2) with (30 * (c * (1 - c)) ^ 2) by ring. rewrite Rabs_pos_eq by nra. nra.
Qed.

Lemma mul_range x y a b : 0 <= x <= a -> 0 <= y <= b -> 0 <= x * y <= a * b.
Proof. intros H1 H2. split; [apply Rmult_le_pos; lra|apply Rmult_le_compat; lra]. Qed.
(** limiting to [0, 1] *)
Lemma unit_clamp_range x : 0 <= unit_clamp x <= 1.
Proof. unfold unit_clamp, Rmax, Rmin. destruct (Rle_dec x 1), (Rle_dec 0 _); lra. Qed.
Lemma unit_clamp_lip x y : Rabs (unit_clamp x - unit_clamp y) <= Rabs (x - y).
Proof.
  unfold unit_clamp, Rmax, Rmin. unfold Rabs. destruct (Rle_dec x 1), (Rle_dec y 1); repeat destruct (Rle_dec _ _); repeat destruct (Rcase_abs _); lra.
Qed.

Section Smooth.
Variables prec emax : Z.
Context (Hp : Prec_gt_0 prec) (Hm : Prec_lt_emax prec emax).
Local Notation num := (binary_float prec emax).
Local Notation fzero := (fzero prec emax).
Local Notation fone := (fone prec emax Hp Hm).
Local Notation fadd := (fadd prec emax Hp Hm).
Local Notation fmul := (fmul prec emax Hp Hm).
Local Notation fsub := (fsub prec emax Hp Hm).
Local Notation fdiv := (fdiv prec emax Hp Hm).
Local Notation fint := (fint prec emax Hp Hm).
Local Notation rn := (nearest prec emax).
Local Notation u := (unit_roundoff prec).
Local Notation v := (u / (1 + u)).
Local Notation eta := (underflow_unit prec emax).
Local Notation big := (bpow radix2 emax).
Local Notation format := (generic_format radix2 (FLT_exp (3 - emax - prec) prec)).

Definition smoothR (s : R) : R := rn (rn (rn (s * s) * s) * rn (rn (s * rn (rn (s * 6) - 15)) + 10)).

Section Eight.
Hypothesis P8 : (8 <= prec)%Z.
Lemma u_256 : u <= / 256.
Proof. unfold unit_roundoff. change (/ 256) with (bpow radix2 (-8)). apply bpow_le. lia. Qed.
Lemma eta_u : eta <= u * / 64.
Proof.
  unfold underflow_unit, unit_roundoff. change (/ 64) with (bpow radix2 (-6)). change (/ 2) with (bpow radix2 (-1)). rewrite <- !bpow_plus. apply bpow_le.
  pose proof (prec_emax prec emax Hm). lia.
Qed.
Lemma int_format z : (Z.abs z <= 256)%Z -> format (IZR z).
Proof.
  intros H. apply fmt_int; auto. apply Z.le_trans with (1 := H). change 256%Z with (2 ^ 8)%Z. apply Z.pow_le_mono_r; lia.
Qed.
Lemma rn_range x a b : (Z.abs a <= 256)%Z -> (Z.abs b <= 256)%Z -> IZR a <= x <= IZR b -> IZR a <= rn x <= IZR b.
Proof. intros A B H. split; [apply rn_ge_format|apply rn_le_format]; try apply H; auto; apply int_format; auto. Qed.
Lemma range_small x : -16 <= x <= 16 -> Rabs x < big.
Proof.
  intros H. apply Rle_lt_trans with 16; [apply Rabs_le; lra|]. change 16 with (bpow radix2 4). apply bpow_lt.
  pose proof (prec_emax prec emax Hm). lia.
Qed.

Lemma smooth_ranges s : 0 <= s <= 1 ->
  0 <= rn (s * 6) <= 6 /\ -15 <= rn (rn (s * 6) - 15) <= -9 /\ -15 <= rn (s * rn (rn (s * 6) - 15)) <= 0 /\
  -5 <= rn (rn (s * rn (rn (s * 6) - 15)) + 10) <= 10 /\ 0 <= rn (s * s) <= 1 /\ 0 <= rn (rn (s * s) * s) <= 1 /\ -5 <= smoothR s <= 10.
Proof.
  intros H.
  assert (A : 0 <= rn (s * 6) <= 6) by (apply (rn_range _ 0 6); [lia|lia|lra]).
  assert (B : -15 <= rn (rn (s * 6) - 15) <= -9) by (apply (rn_range _ (-15) (-9)); [lia|lia|lra]).
  set (b := rn (rn (s * 6) - 15)) in *.
  assert (C : -15 <= rn (s * b) <= 0) by (apply (rn_range _ (-15) 0); [lia|lia|nra]).
  assert (D : -5 <= rn (rn (s * b) + 10) <= 10) by (apply (rn_range _ (-5) 10); [lia|lia|lra]).
  assert (Q : 0 <= rn (s * s) <= 1) by (apply (rn_range _ 0 1); [lia|lia|nra]).
  assert (P : 0 <= rn (rn (s * s) * s) <= 1) by (apply (rn_range _ 0 1); [lia|lia|nra]).
  repeat (split; auto). all: unfold smoothR; fold b.
  - apply (rn_range _ (-5) 10); [lia|lia|nra].
  - apply (rn_range _ (-5) 10); [lia|lia|nra].
Qed.
Lemma smooth_val (s : num) : is_finite s = true -> 0 <= B2R s <= 1 ->
  is_finite (fsmooth prec emax Hp Hm s) = true /\ B2R (fsmooth prec emax Hp Hm s) = smoothR (B2R s).
Proof.
  intros F H. destruct (smooth_ranges (B2R s) H) as (R1 & R2 & R3 & R4 & R5 & R6 & R7). unfold fsmooth, smoothR in *.
  assert (I : forall z, (Z.abs z <= 256)%Z -> is_finite (fint z) = true /\ B2R (fint z) = IZR z).
  { intros z Hz. apply fint_exact. apply Z.le_trans with (1 := Hz). change 256%Z with (2 ^ 8)%Z. apply Z.pow_le_mono_r; lia. }
  destruct (I 6%Z) as (F6 & V6); [lia|]. destruct (I 15%Z) as (F15 & V15); [lia|]. destruct (I 10%Z) as (F10 & V10); [lia|].
  destruct (fmul_small prec emax Hp Hm s (fint 6) F F6) as (A1 & A2); [rewrite V6; apply range_small; lra|]. rewrite V6 in A2.
  destruct (fsub_small prec emax Hp Hm _ (fint 15) A1 F15) as (B1 & B2); [rewrite A2, V15; apply range_small; lra|]. rewrite A2, V15 in B2.
  destruct (fmul_small prec emax Hp Hm s _ F B1) as (C1 & C2); [rewrite B2; apply range_small; lra|]. rewrite B2 in C2.
  destruct (fadd_small prec emax Hp Hm _ (fint 10) C1 F10) as (D1 & D2); [rewrite C2, V10; apply range_small; lra|]. rewrite C2, V10 in D2.
  destruct (fmul_small prec emax Hp Hm s s F F) as (E1 & E2); [apply range_small; lra|].
  destruct (fmul_small prec emax Hp Hm _ s E1 F) as (G1 & G2); [rewrite E2; apply range_small; lra|]. rewrite E2 in G2.
  destruct (fmul_small prec emax Hp Hm _ _ G1 D1) as (H1 & H2); [rewrite G2, D2; apply range_small; lra|]. rewrite G2, D2 in H2. auto.
Qed.
Lemma part x c : 0 <= x <= c -> v * x <= c * u.
Proof. intros H. pose proof (u_pos prec). pose proof (v_le prec). pose proof (v_pos prec). apply Rle_trans with (u * x); [apply Rmult_le_compat_r; lra|nra]. Qed.
Lemma smooth_error s : format s -> 0 <= s <= 1 -> Rabs (smoothR s - perlin s) <= 100 * u /\ 0 <= smoothR s.
Proof.
  intros Fs H. destruct (smooth_ranges s H) as (R1 & R2 & R3 & R4 & R5 & R6 & R7). unfold smoothR in *.
  pose proof (u_pos prec) as U0. pose proof (v_le prec) as VL. pose proof (v_pos prec) as V0. pose proof eta_u as EU. pose proof u_256 as U8.
  assert (SS : 0 <= s * s <= 1) by (pose proof (mul_range s s 1 1 H H); lra).
  assert (S3 : 0 <= s * s * s <= 1) by (pose proof (mul_range (s * s) s 1 1 SS H); lra).
  pose proof (rn_err prec emax Hp (s * 6)) as E1. set (a := rn (s * 6)) in *. rewrite (Rabs_pos_eq (s * 6)) in E1 by lra.
  pose proof (add_rel prec emax Hp a (-15) (rn_format prec emax Hp _) (int_format (-15) ltac:(lia))) as E2. change (a + -15) with (a - 15) in E2.
  set (b := rn (a - 15)) in *. rewrite (Rabs_left (a - 15)) in E2 by lra.
  pose proof (rn_err prec emax Hp (s * b)) as E3. set (c := rn (s * b)) in *. rewrite (Rabs_left1 (s * b)) in E3 by nra.
  pose proof (add_rel prec emax Hp c 10 (rn_format prec emax Hp _) (int_format 10 ltac:(lia))) as E4. set (d := rn (c + 10)) in *.
  assert (E4' : Rabs (d - (c + 10)) <= 10 * u).
  { eapply Rle_trans; [exact E4|]. assert (Rabs (c + 10) <= 10) by (apply Rabs_le; lra). pose proof (Rabs_pos (c + 10)). nra. }
  pose proof (rn_err prec emax Hp (s * s)) as E5. set (q := rn (s * s)) in *. rewrite (Rabs_pos_eq (s * s)) in E5 by lra.
  pose proof (rn_err prec emax Hp (q * s)) as E6. set (p := rn (q * s)) in *. pose proof (mul_range q s 1 1 R5 H) as QS. rewrite (Rabs_pos_eq (q * s)) in E6 by lra.
  pose proof (rn_err prec emax Hp (p * d)) as E7.
  assert (A1 : Rabs (a - 6 * s) <= 7 * u). { replace (6 * s) with (s * 6) by ring. eapply Rle_trans; [exact E1|]. pose proof (part (s * 6) 6 ltac:(lra)). lra. }
  assert (B1 : Rabs (b - (6 * s - 15)) <= 22 * u).
  { replace (b - (6 * s - 15)) with ((b - (a - 15)) + (a - 6 * s)) by ring. eapply Rle_trans; [apply Rabs_triang|].
    pose proof (part (- (a - 15)) 15 ltac:(lra)). lra. }
  assert (C1 : Rabs (c - s * (6 * s - 15)) <= 38 * u).
  { replace (c - s * (6 * s - 15)) with ((c - s * b) + s * (b - (6 * s - 15))) by ring. eapply Rle_trans; [apply Rabs_triang|].
    rewrite (Rabs_mult s), (Rabs_pos_eq s) by lra. pose proof (Rabs_pos (b - (6 * s - 15))).
    pose proof (mul_range s (Rabs (b - (6 * s - 15))) 1 (22 * u) H ltac:(lra)). pose proof (mul_range s (- b) 1 15 H ltac:(lra)). pose proof (part (- (s * b)) 15 ltac:(lra)). lra. }
  set (D := s * (6 * s - 15) + 10).
  assert (D0 : 1 <= D <= 10) by (unfold D; clear - H; split; nra).
  assert (D1 : Rabs (d - D) <= 48 * u).
  { replace (d - D) with ((d - (c + 10)) + (c - s * (6 * s - 15))) by (unfold D; ring). eapply Rle_trans; [apply Rabs_triang|]. lra. }
  assert (Q1 : Rabs (q - s * s) <= 2 * u) by (eapply Rle_trans; [exact E5|]; pose proof (part (s * s) 1 SS); lra).
  assert (P1 : Rabs (p - s * s * s) <= 4 * u).
  { replace (p - s * s * s) with ((p - q * s) + s * (q - s * s)) by ring. eapply Rle_trans; [apply Rabs_triang|].
    rewrite (Rabs_mult s), (Rabs_pos_eq s) by lra. pose proof (Rabs_pos (q - s * s)). 
    pose proof (part (q * s) 1 ltac:(lra)). pose proof (mul_range s (Rabs (q - s * s)) 1 (2 * u) H ltac:(lra)). lra. }
  assert (dp : 0 < d) by (apply Rabs_le_inv in D1; lra).
  split.
  - replace (perlin s) with (s * s * s * D) by (unfold perlin, D; ring).
    replace (rn (p * d) - s * s * s * D) with ((rn (p * d) - p * d) + ((p - s * s * s) * d + s * s * s * (d - D))) by ring.
    eapply Rle_trans; [apply Rabs_triang|]. pose proof (Rabs_triang ((p - s * s * s) * d) (s * s * s * (d - D))) as T.
    rewrite (Rabs_mult (p - s * s * s)), (Rabs_mult (s * s * s)), (Rabs_pos_eq d), (Rabs_pos_eq (s * s * s)) in T by lra.
    pose proof (mul_range p d 1 10 R6 ltac:(lra)) as PD. rewrite (Rabs_pos_eq (p * d)) in E7 by lra.
    pose proof (Rabs_pos (p - s * s * s)). pose proof (Rabs_pos (d - D)).
    pose proof (mul_range (Rabs (p - s * s * s)) d (4 * u) 10 ltac:(lra) ltac:(lra)) as T1. pose proof (mul_range (s * s * s) (Rabs (d - D)) 1 (48 * u) S3 ltac:(lra)) as T2.
    pose proof (part (p * d) 10 ltac:(lra)). lra.
  - apply rn_pos; auto. apply Rmult_le_pos; lra.
Qed.
Lemma smooth_ends : smoothR 0 = 0 /\ smoothR 1 = 1.
Proof.
  unfold smoothR. split.
  - rewrite !Rmult_0_l, rn_0, Rmult_0_l, rn_0, Rmult_0_l, rn_0. reflexivity.
  - assert (R : forall z, (Z.abs z <= 256)%Z -> rn (IZR z) = IZR z) by (intros; apply rn_id, int_format; auto).
    rewrite !Rmult_1_l. rewrite (R 6%Z) by lia. replace (6 - 15) with (IZR (-9)) by (rewrite <- minus_IZR; reflexivity). rewrite (R (-9)%Z) by lia.
    rewrite (R (-9)%Z) by lia. replace (IZR (-9) + 10) with (IZR 1) by (rewrite <- plus_IZR; reflexivity). rewrite !(R 1%Z) by lia.
    repeat (rewrite Rmult_1_l, (R 1%Z) by lia). reflexivity.
Qed.
End Eight.

(** ** The argument of smoothStep: finite or infinite with the sign of the quotient *)
Lemma sign_val (x : num) : is_finite x = true -> B2R x <> 0 -> Bsign x = Rlt_bool (B2R x) 0.
Proof.
  destruct x as [s|s| |s m e Hx]; cbn; intros F N; try discriminate F; [lra|]. destruct s; cbn.
  - rewrite Rlt_bool_true; auto. apply F2R_lt_0. cbn. lia.
  - rewrite Rlt_bool_false; auto. apply F2R_ge_0. cbn. lia.
Qed.
Lemma sf_inf (x : num) s : B2SF x = SpecFloat.S754_infinity s -> x = B754_infinity s.
Proof. destruct x; cbn; intros H; inversion H; reflexivity. Qed.
Lemma fsub_cases (x y : num) : is_finite x = true -> is_finite y = true ->
  (is_finite (fsub x y) = true /\ B2R (fsub x y) = rn (B2R x - B2R y)) \/
  (big <= Rabs (rn (B2R x - B2R y)) /\ fsub x y = B754_infinity (Rlt_bool (B2R x - B2R y) 0)).
Proof.
  intros Fx Fy. destruct (Rlt_or_le (Rabs (rn (B2R x - B2R y))) big) as [L|L]; [left; apply fsub_small; auto|right]. split; auto.
  pose proof (Bminus_correct prec emax Hp Hm mode_NE x y Fx Fy) as C. rewrite Rlt_bool_false in C by exact L. destruct C as (C1 & C2).
  apply sf_inf in C1. unfold NumModel.fsub. rewrite C1. f_equal.
  assert (N : forall (a b : num), is_finite a = true -> is_finite b = true -> big <= Rabs (rn (B2R a - B2R b)) -> B2R a <> 0).
  { intros a b Fa Fb H E. rewrite E, Rminus_0_l, rn_opp, Rabs_Ropp, rn_id in H by apply num_format. pose proof (finite_lt prec emax b). lra. }
  pose proof (N x y Fx Fy L) as Nx. assert (Ny : B2R y <> 0).
  { apply (N y x Fy Fx). replace (B2R y - B2R x) with (- (B2R x - B2R y)) by ring. rewrite rn_opp, Rabs_Ropp. exact L. }
  rewrite (sign_val x Fx Nx) in *. rewrite (sign_val y Fy Ny) in C2.
  destruct (Rlt_bool_spec (B2R x) 0), (Rlt_bool_spec (B2R y) 0); try discriminate C2; symmetry; [apply Rlt_bool_true; lra|apply Rlt_bool_false; lra].
Qed.
Lemma fdiv_cases (x y : num) : is_finite x = true -> is_finite y = true -> 0 < B2R y ->
  (is_finite (fdiv x y) = true /\ B2R (fdiv x y) = rn (B2R x / B2R y)) \/
  (big <= Rabs (rn (B2R x / B2R y)) /\ fdiv x y = B754_infinity (Rlt_bool (B2R x) 0)).
Proof.
  intros Fx Fy Py. destruct (Rlt_or_le (Rabs (rn (B2R x / B2R y))) big) as [L|L]; [left; apply fdiv_small; auto; lra|right]. split; auto.
  pose proof (Bdiv_correct prec emax Hp Hm mode_NE x y ltac:(lra)) as C. rewrite Rlt_bool_false in C by exact L.
  apply sf_inf in C. unfold NumModel.fdiv. rewrite C. f_equal.
  assert (Nx : B2R x <> 0).
  { intros E. rewrite E in L. unfold Rdiv in L. rewrite Rmult_0_l, rn_0, Rabs_R0 in L. pose proof (bpow_gt_0 radix2 emax). lra. }
  rewrite (sign_val x Fx Nx), (sign_val y Fy ltac:(lra)), (Rlt_bool_false (B2R y)) by lra. apply xorb_false_r.
Qed.
Lemma finf_div s (y : num) : is_finite y = true -> 0 < B2R y -> fdiv (B754_infinity s) y = B754_infinity s.
Proof.
  intros F P. unfold NumModel.fdiv. destruct y as [sy|sy| |sy m e Hy]; cbn in *; try discriminate F; try lra.
  destruct sy; [exfalso|rewrite xorb_false_r; reflexivity].
  assert (F2R (Float radix2 (Zneg m) e) < 0) by (apply F2R_lt_0; cbn; lia). cbn in *. lra.
Qed.
Lemma ratio_num (t l h : num) : is_finite t = true -> is_finite l = true -> is_finite h = true -> B2R l < B2R h ->
  rn (B2R h - B2R l) < big ->
  let x := fdiv (fsub t l) (fsub h l) in
  0 < rn (B2R h - B2R l) /\
  ((is_finite x = true /\ B2R x = rn (rn (B2R t - B2R l) / rn (B2R h - B2R l))) \/
   (x = B754_infinity true /\ B2R t < B2R l) \/ (x = B754_infinity false /\ B2R h < B2R t)).
Proof.
  intros Ft Fl Fh L D x.
  assert (G : 0 < rn (B2R h - B2R l)).
  { pose proof (add_rel prec emax Hp (B2R h) (- B2R l) (num_format _ _ h) (generic_format_opp _ _ _ (num_format _ _ l))) as E.
    change (B2R h + - B2R l) with (B2R h - B2R l) in E. rewrite (Rabs_pos_eq (B2R h - B2R l)) in E by lra. apply Rabs_le_inv in E.
    pose proof (v_third prec Hp). pose proof (v_pos prec). nra. }
  split; auto. destruct (fsub_small prec emax Hp Hm h l Fh Fl) as (F1 & V1); [rewrite Rabs_pos_eq; lra|].
  assert (B1 : forall z : num, is_finite z = true -> Rabs (B2R z) < big) by (intros; apply finite_lt).
  destruct (fsub_cases t l Ft Fl) as [(F2 & V2)|(O2 & V2)].
  - destruct (fdiv_cases (fsub t l) (fsub h l) F2 F1) as [(F3 & V3)|(O3 & V3)]; [rewrite V1; auto|left; split; auto; unfold x; rewrite V3, V2, V1; reflexivity|].
    right. unfold x. rewrite V3, V2. rewrite V2, V1 in O3.
    assert (Nz : B2R t - B2R l <> 0).
    { intros E. rewrite E, rn_0 in O3. unfold Rdiv in O3. rewrite Rmult_0_l, rn_0, Rabs_R0 in O3. pose proof (bpow_gt_0 radix2 emax). lra. }
    destruct (Rlt_bool_spec (rn (B2R t - B2R l)) 0) as [S|S].
    + left. split; auto. apply Rnot_le_lt. intros H. pose proof (rn_pos prec emax Hp (B2R t - B2R l) ltac:(lra)). lra.
    + right. split; auto. apply Rnot_le_lt. intros H.
      assert (Q : 0 <= rn (rn (B2R t - B2R l) / rn (B2R h - B2R l)) <= 1).
      { assert (0 < / rn (B2R h - B2R l)) by (apply Rinv_0_lt_compat; auto). split.
        - apply rn_pos; auto. apply Rmult_le_pos; lra.
        - apply rn_le_format; auto.
          + change 1 with (bpow radix2 0). apply big_format; auto. pose proof (prec_emax prec emax Hm). unfold Prec_gt_0 in Hp. lia.
          + apply Rmult_le_reg_r with (rn (B2R h - B2R l)); auto. unfold Rdiv. rewrite Rmult_assoc, Rinv_l, Rmult_1_r, Rmult_1_l by lra. apply rn_le; auto. lra. }
      rewrite Rabs_pos_eq in O3 by apply Q. assert (1 < big); [|lra]. change 1 with (bpow radix2 0). apply bpow_lt.
      pose proof (prec_emax prec emax Hm). unfold Prec_gt_0 in Hp. lia.
  - right. unfold x. rewrite V2, finf_div by (rewrite ?V1; auto).
    destruct (Rlt_bool_spec (B2R t - B2R l) 0) as [S|S]; [left; split; auto; lra|right; split; auto].
    apply Rnot_le_lt. intros H. assert (rn (B2R t - B2R l) <= rn (B2R h - B2R l)) by (apply rn_le; auto; lra).
    rewrite Rabs_pos_eq in O2 by (apply rn_pos; auto). lra.
Qed.
Lemma clamp_unit asserts (x : num) : is_finite x = true -> exists y, fclamp prec emax asserts x fzero fone = Ok y /\ is_finite y = true /\ B2R y = unit_clamp (B2R x).
Proof.
  intros F. destruct (fone_val prec emax Hp Hm) as (O1 & O2). unfold fclamp, check. rewrite !flt_val, O2 by auto. cbn [B2R AccModel.fzero].
  rewrite (Rlt_bool_true 0 1) by lra. rewrite andb_false_r. cbn [bind]. unfold unit_clamp.
  destruct (Rlt_bool_spec (B2R x) 0); [exists fzero; repeat split; auto; cbn; rewrite Rmax_left; auto; unfold Rmin; destruct (Rle_dec _ _); lra|].
  destruct (Rlt_bool_spec 1 (B2R x)); [exists fone; repeat split; auto; rewrite O2, Rmin_right, Rmax_right; lra|].
  exists x. repeat split; auto. rewrite Rmin_left, Rmax_right; lra.
Qed.
Lemma clamp_inf asserts s : fclamp prec emax asserts (B754_infinity s) fzero fone = Ok (if s then fzero else fone).
Proof.
  destruct (fone_val prec emax Hp Hm) as (O1 & O2).
  assert (L : NumModel.flt prec emax fzero fone = true) by (rewrite flt_val, O2 by auto; apply Rlt_bool_true; cbn; lra).
  unfold fclamp, check. rewrite L. rewrite andb_false_r. cbn [bind]. destruct s; cbn [NumModel.flt]; [reflexivity|].
  replace (NumModel.flt prec emax (B754_infinity false) fzero) with false by reflexivity.
  destruct fone as [a|a| |a m e Hx]; try discriminate O1; reflexivity.
Qed.
Lemma smoothStep_ok asserts (t l h : num) : (8 <= prec)%Z -> is_finite t = true -> is_finite l = true -> is_finite h = true -> B2R l < B2R h ->
  rn (B2R h - B2R l) < big ->
  exists r, fsmoothStep prec emax Hp Hm asserts t l h = Ok r /\ is_finite r = true /\ 0 <= B2R r /\
    Rabs (B2R r - perlin (unit_clamp (ratio (B2R t) (B2R l) (B2R h)))) <= 108 * u /\
    (B2R t <= B2R l -> B2R r = 0) /\ (B2R h <= B2R t -> B2R r = 1).
Proof.
  intros P8 Ft Fl Fh L D. destruct (smooth_ends P8) as (S0 & S1). pose proof (u_pos prec) as U0.
  destruct (fone_val prec emax Hp Hm) as (O1 & O2).
  assert (C0 : forall x, x <= 0 -> unit_clamp x = 0) by (intros; unfold unit_clamp; rewrite Rmax_left; auto; unfold Rmin; destruct (Rle_dec _ _); lra).
  assert (C1 : forall x, 1 <= x -> unit_clamp x = 1) by (intros; unfold unit_clamp; rewrite Rmin_right, Rmax_right; lra).
  assert (Q0 : perlin 0 = 0) by (unfold perlin; ring). assert (Q1 : perlin 1 = 1) by (unfold perlin; ring).
  assert (IH : 0 < / (B2R h - B2R l)) by (apply Rinv_0_lt_compat; lra).
  assert (RT0 : B2R t <= B2R l -> ratio (B2R t) (B2R l) (B2R h) <= 0) by (intros; unfold ratio, Rdiv; nra).
  assert (RT1 : B2R h <= B2R t -> 1 <= ratio (B2R t) (B2R l) (B2R h)).
  { intros; unfold ratio. apply Rmult_le_reg_r with (B2R h - B2R l); [lra|]. unfold Rdiv. rewrite Rmult_assoc, Rinv_l; lra. }
  unfold fsmoothStep. destruct (ratio_num t l h Ft Fl Fh L D) as (G & [(F & V)|[(E & T)|(E & T)]]).
  - set (x := fdiv (fsub t l) (fsub h l)) in *. destruct (clamp_unit asserts x F) as (y & -> & Fy & Vy). cbn [bind].
    assert (Yr : 0 <= B2R y <= 1) by (rewrite Vy; apply unit_clamp_range).
    destruct (smooth_val P8 y Fy Yr) as (F2 & V2). destruct (smooth_error P8 (B2R y) (num_format _ _ y) Yr) as (E2 & N2).
    exists (fsmooth prec emax Hp Hm y). split; auto. split; auto. rewrite V2. split; auto.
    set (d := rn (B2R h - B2R l)) in *. set (n := rn (B2R t - B2R l)) in *. assert (ID : 0 < / d) by (apply Rinv_0_lt_compat; auto).
    assert (X0 : B2R t <= B2R l -> B2R y = 0).
    { intros H. rewrite Vy. apply C0. rewrite V. apply rn_neg; auto. assert (n <= 0) by (apply rn_neg; auto; lra). unfold Rdiv. nra. }
    assert (F1' : format 1).
    { change 1 with (bpow radix2 0). apply big_format; auto. pose proof (prec_emax prec emax Hm). unfold Prec_gt_0 in Hp. lia. }
    assert (X1 : B2R h <= B2R t -> B2R y = 1).
    { intros H. rewrite Vy. apply C1. rewrite V. apply rn_ge_format; auto. assert (d <= n) by (apply rn_le; auto; lra).
      apply Rmult_le_reg_r with d; auto. unfold Rdiv. rewrite Rmult_assoc, Rinv_l; lra. }
    split; [|split; intros H; [rewrite (X0 H)|rewrite (X1 H)]; auto].
    destruct (Rle_or_lt (B2R t) (B2R l)) as [H|H].
    { rewrite (X0 H), S0, (C0 _ (RT0 H)), Q0, Rminus_0_r, Rabs_R0. lra. }
    destruct (Rle_or_lt (B2R h) (B2R t)) as [H'|H'].
    { rewrite (X1 H'), S1, (C1 _ (RT1 H')), Q1. replace (1 - 1) with 0 by ring. rewrite Rabs_R0. lra. }
    set (r := ratio (B2R t) (B2R l) (B2R h)) in *.
    assert (YE : Rabs (B2R y - unit_clamp r) <= 4 * u).
    { rewrite Vy. eapply Rle_trans; [apply unit_clamp_lip|]. rewrite V.
      pose proof (add_rel prec emax Hp (B2R h) (- B2R l) (num_format _ _ h) (generic_format_opp _ _ _ (num_format _ _ l))) as A1.
      pose proof (add_rel prec emax Hp (B2R t) (- B2R l) (num_format _ _ t) (generic_format_opp _ _ _ (num_format _ _ l))) as A2.
      change (B2R h + - B2R l) with (B2R h - B2R l) in A1. change (B2R t + - B2R l) with (B2R t - B2R l) in A2. fold d in A1. fold n in A2.
      rewrite (Rabs_pos_eq (B2R h - B2R l)) in A1 by lra. rewrite (Rabs_pos_eq (B2R t - B2R l)) in A2 by lra.
      apply Rabs_le_inv in A1. apply Rabs_le_inv in A2. pose proof (v_le prec) as VL. pose proof (v_pos prec) as V0. pose proof (v_eq prec) as VE.
      pose proof (eta_u P8) as EU. pose proof (u_256 P8) as U8.
      set (H0 := B2R h - B2R l) in *. set (T0 := B2R t - B2R l) in *.
      assert (T0p : 0 < T0 < H0) by (unfold T0, H0; lra). assert (RR : r = T0 / H0) by reflexivity.
      assert (Rr : 0 < r < 1). { rewrite RR. unfold Rdiv. split; [apply Rmult_lt_0_compat; lra|]. apply Rmult_lt_reg_r with H0; [lra|]. rewrite Rmult_assoc, Rinv_l; lra. }
      assert (RT : r * H0 = T0) by (rewrite RR; field; lra).
      assert (Yy : Rabs (n / d - r) <= 2 * u * r).
      { assert (K : Rabs (n - r * d) <= 2 * u * r * d).
        { replace (n - r * d) with ((n - T0) + r * (H0 - d)) by (rewrite <- RT; ring). apply Rabs_le.
          assert (W : v * T0 = r * (v * H0)) by (rewrite <- RT; ring).
          assert (DB : v * H0 * (1 + u) <= u * d * (1 + u)).
          { replace (v * H0 * (1 + u)) with (u * H0) by (rewrite <- VE at 1; ring). clearbody d n H0 T0. clear - A1 U0 VE V0 T0p U8 VL. 
            assert (K1 : H0 * (1 - v) <= d) by lra. assert (K2 : (1 - v) * (1 + u) = 1) by lra.
            assert (K3 : H0 * (1 - v) * (1 + u) <= d * (1 + u)) by (apply Rmult_le_compat_r; lra).
            replace (H0 * (1 - v) * (1 + u)) with H0 in K3 by (rewrite Rmult_assoc, K2; ring).
            pose proof (Rmult_le_compat_l u _ _ (Rlt_le _ _ U0) K3). lra. }
          apply Rmult_le_reg_r in DB; [|lra]. assert (r * (v * H0) <= r * (u * d)) by (apply Rmult_le_compat_l; lra).
          assert (M1 : r * (H0 - d) <= r * (v * H0)) by (apply Rmult_le_compat_l; lra).
          assert (M2 : r * - (v * H0) <= r * (H0 - d)) by (apply Rmult_le_compat_l; lra). lra. }
        replace (n / d - r) with ((n - r * d) / d) by (field; lra). unfold Rdiv. rewrite Rabs_mult, (Rabs_pos_eq (/ d)) by lra.
        apply Rmult_le_reg_r with d; auto. rewrite Rmult_assoc, Rinv_l, Rmult_1_r by lra. exact K. }
      pose proof (rn_err prec emax Hp (n / d)) as E3. apply Rabs_le_inv in Yy.
      assert (N0 : 0 <= n / d) by (apply Rmult_le_pos; [apply rn_pos; auto; lra|lra]). rewrite (Rabs_pos_eq (n / d)) in E3 by exact N0.
      replace (rn (n / d) - r) with ((rn (n / d) - n / d) + (n / d - r)) by ring. eapply Rle_trans; [apply Rabs_triang|].
      assert (Rabs (n / d - r) <= 2 * u) by (apply Rabs_le; nra). assert (v * (n / d) <= u * (1 + / 128)) by nra. nra. }
    replace (smoothR (B2R y) - perlin (unit_clamp r)) with ((smoothR (B2R y) - perlin (B2R y)) + (perlin (B2R y) - perlin (unit_clamp r))) by ring.
    eapply Rle_trans; [apply Rabs_triang|]. pose proof (perlin_lipschitz (B2R y) (unit_clamp r) Yr (unit_clamp_range r)). lra.
  - rewrite E, clamp_inf. cbn [bind]. destruct (smooth_val P8 fzero eq_refl) as (F2 & V2); [cbn; lra|]. cbn [B2R AccModel.fzero] in V2. rewrite S0 in V2.
    exists (fsmooth prec emax Hp Hm fzero). split; auto. split; auto. rewrite V2, C0 by (apply RT0; lra). rewrite Q0, Rminus_0_r, Rabs_R0. repeat split; try lra.
  - rewrite E, clamp_inf. cbn [bind]. destruct (smooth_val P8 fone O1) as (F2 & V2); [rewrite O2; lra|]. rewrite O2, S1 in V2.
    exists (fsmooth prec emax Hp Hm fone). split; auto. split; auto. rewrite V2, C1 by (apply RT1; lra). rewrite Q1. replace (1 - 1) with 0 by ring. rewrite Rabs_R0. repeat split; try lra.
Qed.

(** ** isClose *)
Lemma rn_max x y : rn (Rmax x y) = Rmax (rn x) (rn y).
Proof.
  unfold Rmax. destruct (Rle_dec x y) as [H|H].
  - destruct (Rle_dec (rn x) (rn y)) as [H'|H']; auto. exfalso. apply H', rn_le; auto.
  - destruct (Rle_dec (rn x) (rn y)) as [H'|H']; auto. apply Rle_antisym; auto. apply rn_le; auto. lra.
Qed.
Lemma isClose_val (a b t r : num) : is_finite a = true -> is_finite b = true -> is_finite t = true -> is_finite r = true ->
  Rabs (rn (B2R b - B2R a)) < big -> Rabs (rn (B2R r * Rmax (Rabs (B2R a)) (Rabs (B2R b)))) < big ->
  fisClose prec emax Hp Hm a b t r = Rle_bool (rn (Rabs (B2R b - B2R a))) (rn (tolerance (B2R a) (B2R b) (B2R t) (B2R r))).
Proof.
  intros Fa Fb Ft Fr D M. unfold fisClose. destruct (fsub_small prec emax Hp Hm b a Fb Fa D) as (F1 & V1).
  destruct (vabs_val prec emax _ F1) as (F2 & V2). destruct (vabs_val prec emax a Fa) as (F3 & V3). destruct (vabs_val prec emax b Fb) as (F4 & V4).
  destruct (vmax2_val prec emax _ _ F3 F4) as (F5 & V5). rewrite V3, V4 in V5.
  destruct (fmul_small prec emax Hp Hm r _ Fr F5) as (F6 & V6); [rewrite V5; exact M|]. rewrite V5 in V6.
  destruct (vmax2_val prec emax _ t F6 Ft) as (F7 & V7). rewrite fle_val by auto. rewrite V2, V1, V7, V6. unfold tolerance.
  rewrite rn_abs, rn_max by exact Hp. rewrite (rn_id prec emax (B2R t)) by apply num_format. reflexivity.
Qed.
(** true whenever the exact comparison is, and only if it nearly is *)
Lemma isClose_sound (a b t r : num) : is_finite a = true -> is_finite b = true -> is_finite t = true -> is_finite r = true ->
  Rabs (rn (B2R b - B2R a)) < big -> Rabs (rn (B2R r * Rmax (Rabs (B2R a)) (Rabs (B2R b)))) < big ->
  let tol := tolerance (B2R a) (B2R b) (B2R t) (B2R r) in
  (Rabs (B2R b - B2R a) <= tol -> fisClose prec emax Hp Hm a b t r = true) /\
  (fisClose prec emax Hp Hm a b t r = true -> 0 <= tol -> Rabs (B2R b - B2R a) <= tol * (1 + 3 * u) + 2 * eta).
Proof.
  intros Fa Fb Ft Fr D M tol. rewrite isClose_val by auto. fold tol. split.
  - intros H. apply Rle_bool_true, rn_le; auto.
  - intros H T0. destruct (Rle_bool_spec (rn (Rabs (B2R b - B2R a))) (rn tol)) as [L|]; [|discriminate H].
    pose proof (add_rel prec emax Hp (B2R b) (- B2R a) (num_format _ _ b) (generic_format_opp _ _ _ (num_format _ _ a))) as E.
    change (B2R b + - B2R a) with (B2R b - B2R a) in E. rewrite rn_abs in L by exact Hp.
    set (x := B2R b - B2R a) in *. pose proof (rn_err prec emax Hp tol) as E2. rewrite (Rabs_pos_eq tol) in E2 by exact T0. apply Rabs_le_inv in E2.
    assert (Lx : Rabs x * (1 - v) <= Rabs (rn x)).
    { pose proof (Rabs_triang_inv x (x - rn x)) as T. replace (x - (x - rn x)) with (rn x) in T by ring.
      rewrite <- (Rabs_Ropp (x - rn x)) in T. replace (- (x - rn x)) with (rn x - x) in T by ring. lra. }
    pose proof (u_pos prec) as U0. pose proof (u_half prec Hp) as UH. pose proof (v_eq prec) as VE. pose proof (v_le prec) as VL. pose proof (v_pos prec) as V0. pose proof (eta_pos prec emax) as E0.
    assert (L2 : Rabs x * (1 - v) <= tol * (1 + v) + eta) by lra.
    assert (K2 : (1 - v) * (1 + u) = 1) by lra.
    assert (K3 : Rabs x * (1 - v) * (1 + u) <= (tol * (1 + v) + eta) * (1 + u)) by (apply Rmult_le_compat_r; lra).
    replace (Rabs x * (1 - v) * (1 + u)) with (Rabs x) in K3 by (rewrite Rmult_assoc, K2; ring).
    replace ((tol * (1 + v) + eta) * (1 + u)) with (tol * (1 + u + v * (1 + u)) + eta * (1 + u)) in K3 by ring. rewrite VE in K3. nra.
Qed.
Lemma isClose_sym (a b t r : num) : is_finite a = true -> is_finite b = true -> is_finite t = true -> is_finite r = true ->
  Rabs (rn (B2R b - B2R a)) < big -> Rabs (rn (B2R r * Rmax (Rabs (B2R a)) (Rabs (B2R b)))) < big ->
  fisClose prec emax Hp Hm a b t r = fisClose prec emax Hp Hm b a t r.
Proof.
  intros Fa Fb Ft Fr D M. rewrite !isClose_val; auto.
  - unfold tolerance. rewrite (Rabs_minus_sym (B2R b)), (Rmax_comm (Rabs (B2R b))). reflexivity.
  - replace (B2R a - B2R b) with (- (B2R b - B2R a)) by ring. rewrite rn_opp, Rabs_Ropp. exact D.
  - rewrite Rmax_comm. exact M.
Qed.
Lemma fsub_nan_l (y : num) : fsub B754_nan y = B754_nan. Proof. destruct y; reflexivity. Qed.
Lemma fsub_nan_r (x : num) : fsub x B754_nan = B754_nan. Proof. destruct x; reflexivity. Qed.
Lemma isClose_nan (a b t r : num) : is_nan a = true \/ is_nan b = true -> fisClose prec emax Hp Hm a b t r = false.
Proof.
  intros H. unfold fisClose. assert (E : fsub b a = B754_nan).
  { destruct H as [H|H]; [destruct a|destruct b]; try discriminate H; [apply fsub_nan_r|apply fsub_nan_l]. }
  rewrite E. reflexivity.
Qed.
(** ** clamp *)
Lemma clamp_ok asserts (x lo hi : num) : is_finite lo = true -> is_finite hi = true ->
  (asserts = true -> ~ B2R lo < B2R hi -> fclamp prec emax asserts x lo hi = Throw RuntimeError) /\
  (B2R lo < B2R hi -> is_finite x = true -> exists y, fclamp prec emax asserts x lo hi = Ok y /\ is_finite y = true /\ B2R y = Rmax (B2R lo) (Rmin (B2R x) (B2R hi))) /\
  (B2R lo < B2R hi -> is_nan x = true -> exists y, fclamp prec emax asserts x lo hi = Ok y /\ is_nan y = true) /\
  (B2R lo < B2R hi -> fclamp prec emax asserts (B754_infinity true) lo hi = Ok lo /\ fclamp prec emax asserts (B754_infinity false) lo hi = Ok hi).
Proof.
  intros Fl Fh. unfold fclamp, check. rewrite !(flt_val prec emax lo hi) by auto. split; [|split; [|split]].
  - intros -> N. rewrite Rlt_bool_false by lra. reflexivity.
  - intros L F. rewrite Rlt_bool_true by exact L. rewrite andb_false_r. cbn [bind]. rewrite !flt_val by auto.
    destruct (Rlt_bool_spec (B2R x) (B2R lo)); [exists lo; repeat split; auto; rewrite Rmin_left, Rmax_left; lra|].
    destruct (Rlt_bool_spec (B2R hi) (B2R x)); [exists hi; repeat split; auto; rewrite Rmin_right, Rmax_right; lra|].
    exists x. repeat split; auto. rewrite Rmin_left, Rmax_right; lra.
  - intros L F. rewrite Rlt_bool_true by exact L. rewrite andb_false_r. cbn [bind]. destruct x; try discriminate F.
    exists B754_nan. split; auto. destruct lo; try discriminate Fl; destruct hi; try discriminate Fh; reflexivity.
  - intros L. rewrite Rlt_bool_true by exact L. rewrite andb_false_r. cbn [bind].
    destruct lo as [|[]| |]; try discriminate Fl; destruct hi as [|[]| |]; try discriminate Fh; split; reflexivity.
Qed.
End Smooth.
