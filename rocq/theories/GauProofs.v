(** Proofs for C115. *)
From Coq Require Import ZArith Reals List Lia Lra Bool.
From Flocq Require Import Core Relative Plus_error Mult_error BinarySingleNaN.
From Verif Require Import Base BaseProofs AccModel AccSpec AccProofs NumModel NumSpec NumBasics NumInterp NumRandom NrmModel NrmSpec NrmFloat CsqModel
  CsqError SigExp CexProofs GauModel GauSpec.
From Coq Require Import ZifyNat ZifyN ZifyBool.
Ltac Zify.zify_post_hook ::= idtac.
Import ListNotations.
Local Open Scope R_scope.

Section Gauss.
Context (Hp : Prec_gt_0 53) (Hm : Prec_lt_emax 53 1024).
Local Notation num := (binary_float 53 1024).
Local Notation fint := (fint 53 1024 Hp Hm).
Local Notation fmul := (fmul 53 1024 Hp Hm).
Local Notation fadd := (fadd 53 1024 Hp Hm).
Local Notation rn := (nearest 53 1024).
Local Notation u := (unit_roundoff 53).
Local Notation eta := (underflow_unit 53 1024).
Local Notation format := (generic_format radix2 (FLT_exp (3 - 1024 - 53) 53)).
Local Notation draw := (draw Hp Hm).
Local Notation squares := (squares Hp Hm).
Local Notation again := (again Hp Hm).
Local Notation is := (is 53 1024).
Local Notation near := (near u).
Local Notation safe := (safe 53 1024).

Lemma P24 : (24 <= 53)%Z. Proof. lia. Qed.
Lemma PE : (3 * 53 + 8 <= 1024)%Z. Proof. lia. Qed.
Lemma u_val : u = bpow radix2 (-53). Proof. reflexivity. Qed.
Lemma u_pos53 : 0 < u <= / 1048576.
Proof. split; [apply u_pos|apply u_small; lia]. Qed.
(** 16 eta <= u y from 2^-1000 <= y *)
Lemma room y : bpow radix2 (-1000) <= y -> 16 * eta <= u * y.
Proof.
  intros H. unfold underflow_unit. rewrite u_val. change 16 with (bpow radix2 4). change (/ 2) with (bpow radix2 (-1)).
  rewrite <- !bpow_plus. apply Rle_trans with (bpow radix2 (-53) * bpow radix2 (-1000)).
  - rewrite <- bpow_plus. apply bpow_le. lia.
  - apply Rmult_le_compat_l; [apply bpow_ge_0|auto].
Qed.

(** ** One draw *)
Lemma grid x : format x -> / 2 <= x -> exists k : Z, x = IZR k * bpow radix2 (-53).
Proof.
  intros F H. unfold generic_format in F.
  set (e := cexp radix2 (FLT_exp (3 - 1024 - 53) 53) x) in *. set (m := Ztrunc (scaled_mantissa radix2 (FLT_exp (3 - 1024 - 53) 53) x)) in *.
  assert (E : (-53 <= e)%Z).
  { unfold e, cexp, FLT_exp. assert (0 <= mag radix2 x)%Z; [|lia].
    apply mag_ge_bpow. change (bpow radix2 (0 - 1)) with (/ 2). rewrite Rabs_pos_eq by lra. exact H. }
  exists (m * 2 ^ (e + 53))%Z. rewrite F. unfold F2R. cbn [Fnum Fexp]. rewrite mult_IZR.
  replace e with ((e + 53) + -53)%Z at 1 by lia. rewrite bpow_plus. rewrite <- (IZR_Zpower radix2) by lia. cbn [radix_val radix2]. ring.
Qed.
Lemma draw_ok w : uniform w -> is_finite (draw w) = true /\ Rabs (B2R (draw w)) <= 1 /\
  (B2R (draw w) = 0 \/ bpow radix2 (-53) <= Rabs (B2R (draw w))).
Proof.
  intros [F W]. pose proof u_pos53 as U.
  destruct (fint_exact 53 1024 Hp Hm (-1)) as [F1 V1]; [lia|]. destruct (fint_exact 53 1024 Hp Hm 1) as [F2 V2]; [lia|].
  pose proof (below_one 53 1024 Hp (B2R w) ltac:(lia) (num_format _ _ w) ltac:(lra)) as W1.
  destruct (random_ok 53 1024 Hp Hm (fint (-1)) (fint 1) w F1 F2 F) as (G & V & B).
  - rewrite V1, V2. lra.
  - lra.
  - apply (rn_small 53 1024 Hp _ 1); try lia. rewrite V1, V2. change (bpow radix2 1) with 2. rewrite Rabs_pos_eq by lra. lra.
  - unfold GauModel.draw. rewrite V1, V2 in B. split; [exact G|]. split; [apply Rabs_le; lra|].
    rewrite V. unfold ran. rewrite V1, V2. set (x := rn (rn (1 - -1) * B2R w)).
    assert (FX : format x) by (apply generic_format_round; typeclasses eauto).
    destruct (Rle_lt_dec (/ 2) x) as [L|L].
    + destruct (grid x FX L) as [k K]. rewrite K.
      replace (-1 + IZR k * bpow radix2 (-53)) with (IZR (k - 2 ^ 53) * bpow radix2 (-53)).
      2:{ rewrite minus_IZR, Rmult_minus_distr_r. change (IZR (2 ^ 53)) with (bpow radix2 53). rewrite <- bpow_plus. simpl (bpow radix2 (53 + -53)). ring. }
      destruct (Z.eq_dec (k - 2 ^ 53) 0) as [-> |N].
      * left. rewrite Rmult_0_l. apply rn_0.
      * right. rewrite <- rn_abs by auto. apply rn_ge_format; auto; [apply big_format; auto; lia|].
        rewrite Rabs_mult, (Rabs_pos_eq (bpow radix2 (-53))) by apply bpow_ge_0. rewrite <- abs_IZR.
        rewrite <- (Rmult_1_l (bpow radix2 (-53))) at 1. apply Rmult_le_compat_r; [apply bpow_ge_0|]. apply IZR_le. lia.
    + right. apply Rle_trans with (/ 2); [change (/ 2) with (bpow radix2 (-1)); apply bpow_le; lia|].
      rewrite <- rn_abs by auto. apply rn_ge_format; auto; [change (/ 2) with (bpow radix2 (-1)); apply big_format; auto; lia|].
      assert (0 <= x) by (unfold x; apply rn_pos; auto; apply Rmult_le_pos; [apply rn_pos; auto; lra|lra]).
      rewrite Rabs_left by lra. lra.
Qed.

(** ** The squared distance *)
Definition fine (v : num) : Prop := is_finite v = true /\ Rabs (B2R v) <= 1 /\ (B2R v = 0 \/ bpow radix2 (-53) <= Rabs (B2R v)).
Lemma sq_low x : bpow radix2 (-53) <= Rabs x -> bpow radix2 (-106) <= x * x.
Proof.
  intros H. replace (x * x) with (Rabs x * Rabs x) by (rewrite <- Rabs_mult; apply Rabs_pos_eq; nra).
  replace (bpow radix2 (-106)) with (bpow radix2 (-53) * bpow radix2 (-53)) by (rewrite <- bpow_plus; reflexivity).
  apply Rmult_le_compat; auto; apply bpow_ge_0.
Qed.
Lemma sq_high x : Rabs x <= 1 -> 0 <= x * x <= 1.
Proof. intros H. apply Rabs_le_inv in H. split; nra. Qed.
Lemma big_top y : y <= 2 -> y <= bpow radix2 (1024 - 2).
Proof. intros H. apply Rle_trans with (bpow radix2 1); [exact H|]. apply bpow_le. lia. Qed.
Lemma square_ok v : fine v -> is (19 / 16) (fmul v v) (B2R v * B2R v) /\ (B2R v <> 0 -> bpow radix2 (-106) <= B2R (fmul v v)).
Proof.
  intros (F & H & L). pose proof (sq_high _ H) as S. pose proof u_pos53 as U.
  assert (B : Rabs (rn (B2R v * B2R v)) < bpow radix2 1024).
  { apply (rn_small 53 1024 Hp _ 0); try lia. rewrite Rabs_pos_eq by lra. change (bpow radix2 0) with 1. lra. }
  destruct (fmul_small 53 1024 Hp Hm v v F F B) as [G V]. split; [split; [exact G|]|]; rewrite V.
  - apply (near_mono u (proj1 U) (0 + 9 / 8)); [lra|lra|]. apply near_rn; auto; try lia; try lra; [|apply near_refl].
    destruct L as [-> |L]; [left; ring|right; apply room]. apply Rle_trans with (bpow radix2 (-106)); [apply bpow_le; lia|apply sq_low; auto].
  - intros N. destruct L as [L|L]; [contradiction|]. apply rn_ge_format; auto; [apply big_format; auto; lia|apply sq_low; auto].
Qed.
Lemma squares_ok v1 v2 : fine v1 -> fine v2 -> let s := squares v1 v2 in
  is (37 / 16) s (B2R v1 * B2R v1 + B2R v2 * B2R v2) /\ 0 <= B2R s /\ (B2R s <> 0 -> bpow radix2 (-106) <= B2R s).
Proof.
  intros H1 H2 s. destruct (square_ok v1 H1) as [S1 L1]. destruct (square_ok v2 H2) as [S2 L2].
  pose proof (sq_high _ (proj1 (proj2 H1))) as B1. pose proof (sq_high _ (proj1 (proj2 H2))) as B2. pose proof u_pos53 as U.
  assert (I : is (37 / 16) s (B2R v1 * B2R v1 + B2R v2 * B2R v2)).
  { replace (37 / 16) with (19 / 16 + 9 / 8) by lra. unfold s, GauModel.squares. apply is_add; auto; try lra; try lia. apply big_top. lra. }
  split; [exact I|].
  assert (P1 : 0 <= B2R (fmul v1 v1)).
  { pose proof (is_bounds 53 1024 P24 (19 / 16) _ _ ltac:(lra) (proj1 B1) S1). nra. }
  assert (P2 : 0 <= B2R (fmul v2 v2)).
  { pose proof (is_bounds 53 1024 P24 (19 / 16) _ _ ltac:(lra) (proj1 B2) S2). nra. }
  assert (Q1 : B2R (fmul v1 v1) <= 2).
  { pose proof (is_bounds 53 1024 P24 (19 / 16) _ _ ltac:(lra) (proj1 B1) S1). lra. }
  assert (Q2 : B2R (fmul v2 v2) <= 2).
  { pose proof (is_bounds 53 1024 P24 (19 / 16) _ _ ltac:(lra) (proj1 B2) S2). lra. }
  destruct (fadd_small 53 1024 Hp Hm _ _ (proj1 S1) (proj1 S2)) as [G V].
  { apply (rn_small 53 1024 Hp _ 2); try lia. rewrite Rabs_pos_eq by lra. change (bpow radix2 2) with 4. lra. }
  assert (E : B2R s = rn (B2R (fmul v1 v1) + B2R (fmul v2 v2))) by exact V.
  split; [rewrite E; apply rn_pos; auto; lra|]. intros N.
  assert (D : B2R v1 <> 0 \/ B2R v2 <> 0).
  { destruct (Req_dec (B2R v1) 0) as [Z1|]; [|auto]. destruct (Req_dec (B2R v2) 0) as [Z2|]; [|auto]. exfalso. apply N.
    destruct I as [_ I]. unfold CsqError.near in I. rewrite Z1, Z2 in I. replace (0 * 0 + 0 * 0) with 0 in I by ring.
    rewrite Rmult_0_r, Rminus_0_r in I. apply Rabs_le_inv in I. lra. }
  rewrite E. apply rn_ge_format; auto; [apply big_format; auto; lia|]. destruct D as [D|D]; [specialize (L1 D)|specialize (L2 D)]; lra.
Qed.
Lemma again_ok s : is_finite s = true -> 0 <= B2R s -> again s = false <-> 0 < B2R s < 1.
Proof.
  intros F P. destruct (fint_exact 53 1024 Hp Hm 1) as [F1 V1]; [lia|]. destruct (fint_exact 53 1024 Hp Hm 0) as [F0 V0]; [lia|].
  unfold GauModel.again. rewrite fle_val, feq_val, V1, V0 by auto. destruct (Rle_bool_spec 1 (B2R s)); destruct (Req_bool_spec (B2R s) 0); cbn; split; intros; try discriminate; try lra; auto.
Qed.

(** ** The logarithm *)
Lemma ln_mono x y : 0 < x -> x <= y -> ln x <= ln y.
Proof. intros X [H| ->]; [left; apply ln_increasing; auto|right; reflexivity]. Qed.
Lemma ln_2 : ln 2 <= 7 / 10.
Proof.
  rewrite <- (ln_exp (7 / 10)). apply ln_mono; [lra|].
  replace (7 / 10) with (INR 64 * (7 / 640)) by (simpl; field). 
  assert (E : forall n x, exp (INR n * x) = exp x ^ n).
  { induction n as [|n IH]; intros x; [simpl; rewrite Rmult_0_l; apply exp_0|]. rewrite S_INR, Rmult_plus_distr_r, exp_plus, IH, Rmult_1_l. simpl. ring. }
  rewrite E. apply Rle_trans with ((1 + 7 / 640) ^ 64).
  - replace 64%nat with (2 * (2 * (2 * (2 * (2 * 2)))))%nat by reflexivity. rewrite !pow_mult. 
    assert (S : forall a b c, 0 <= a -> a <= b -> c <= a * a -> c <= b ^ 2) by (intros; nra).
    apply (S (14143 / 10000)); try lra.
  - apply pow_incr. split; [lra|]. left. apply exp_ineq1. lra.
Qed.
Lemma ln_low s : bpow radix2 (-106) <= s < 1 -> - ln s <= 742 / 10 /\ 1 - s <= - ln s.
Proof.
  intros [L H]. pose proof (bpow_gt_0 radix2 (-106)). split.
  - assert (ln (bpow radix2 (-106)) <= ln s) by (apply ln_mono; auto).
    assert (E : ln (bpow radix2 (-106)) = - (106 * ln 2)).
    { change (bpow radix2 (-106)) with (/ IZR (2 ^ 106)). rewrite ln_Rinv by (apply IZR_lt; reflexivity).
      replace (IZR (2 ^ 106)) with (2 ^ 106) by (rewrite pow_IZR; reflexivity). rewrite ln_pow by lra. simpl INR. lra. }
    pose proof ln_2. lra.
  - assert (1 + ln s <= s); [|lra]. rewrite <- (exp_ln s) at 2 by lra.
    destruct (Req_dec (ln s) 0) as [-> |N]; [rewrite exp_0; lra|]. left. apply exp_ineq1; auto.
Qed.

(** ** The results *)
Variable libLog : num -> num.
Hypothesis LOG : good_log libLog.
Local Notation multiplier := (multiplier Hp Hm libLog).
Local Notation fresh := (fresh Hp Hm libLog).
Local Notation gaussian := (gaussian Hp Hm libLog).
Local Notation gaussians := (gaussians Hp Hm libLog).
Lemma sqrt_low y : bpow radix2 (-2000) <= y -> bpow radix2 (-1000) <= sqrt y.
Proof.
  intros H. rewrite <- (sqrt_square (bpow radix2 (-1000))) by apply bpow_ge_0. apply sqrt_le_1_alt. rewrite <- bpow_plus. exact H.
Qed.
Lemma radicand s : bpow radix2 (-106) <= s <= 1 - u -> 2 * u <= -2 * ln s <= 1484 / 10 /\ 2 * u <= -2 * ln s / s <= bpow radix2 120.
Proof.
  intros H. pose proof u_pos53 as U. pose proof (bpow_gt_0 radix2 (-106)) as B. destruct (ln_low s) as [L1 L2]; [lra|]. split; [lra|].
  assert (S : 0 < s) by lra. unfold Rdiv. split.
  - apply Rle_trans with (2 * u * / 1); [lra|]. apply Rmult_le_compat; try lra. apply Rinv_le; lra.
  - apply Rle_trans with (bpow radix2 8 * / bpow radix2 (-106)).
    + apply Rmult_le_compat; try lra; [left; apply Rinv_0_lt_compat; auto|change (bpow radix2 8) with 256; lra|apply Rinv_le; lra].
    + rewrite <- bpow_opp, <- bpow_plus. apply bpow_le. lia.
Qed.
Lemma multiplier_ok s : is_finite s = true -> bpow radix2 (-106) <= B2R s < 1 ->
  is (107 / 32) (multiplier s) (sqrt (-2 * ln (B2R s) / B2R s)).
Proof.
  intros F H. pose proof u_pos53 as U. pose proof (bpow_gt_0 radix2 (-106)) as B0.
  pose proof (below_one 53 1024 Hp (B2R s) ltac:(lia) (num_format _ _ s) ltac:(lra)) as S1.
  destruct (radicand (B2R s)) as [R1 R2]; [lra|]. destruct (LOG s F ltac:(lra)) as [FL AL].
  set (y := -2 * ln (B2R s)) in *.
  destruct (fint_exact 53 1024 Hp Hm (-2)) as [F2 V2]; [lia|].
  assert (T : 2 * u <= bpow radix2 (1024 - 2)) by (apply big_top; lra).
  assert (W : bpow radix2 (-1000) <= 2 * u) by (apply Rle_trans with u; [rewrite u_val; apply bpow_le; lia|lra]).
  assert (N : near 2 (-2 * B2R (libLog s)) y).
  { unfold CsqError.near, y. replace (-2 * B2R (libLog s) - -2 * ln (B2R s)) with (-2 * (B2R (libLog s) - ln (B2R s))) by ring.
    rewrite Rabs_mult, (Rabs_left (-2)) by lra. rewrite (Rabs_left (ln (B2R s))) in AL by (unfold y in *; lra). lra. }
  assert (I1 : is (25 / 8) (fmul (fint (-2)) (libLog s)) y).
  { destruct (fmul_small 53 1024 Hp Hm (fint (-2)) (libLog s) F2 FL) as [G V].
    { rewrite V2. apply near_fits with 2 y; auto; try lia; try lra. split; [lra|]. apply Rle_trans with (bpow radix2 8); [change (bpow radix2 8) with 256; lra|apply bpow_le; lia]. }
    split; [exact G|]. rewrite V, V2. replace (25 / 8) with (2 + 9 / 8) by lra. apply near_rn; auto; try lia; try lra. right. apply room. lra. }
  replace (107 / 32) with ((25 / 8 + 0 + 19 / 16) / 2 + 19 / 16) by lra. unfold GauModel.multiplier. apply is_sqrt; try lra; try lia.
  - apply room, sqrt_low. apply Rle_trans with (bpow radix2 (-1000)); [apply bpow_le; lia|lra].
  - apply is_div; auto; try lra; try lia.
    + eapply Rle_trans; [apply R2|]. apply bpow_le. lia.
    + right. apply room. lra.
    + apply is_refl; auto.
Qed.
Lemma deviate_ok v m y : fine v -> bpow radix2 (-900) <= y <= bpow radix2 900 -> is (107 / 32) m y ->
  is_finite (fmul v m) = true /\ within_roundings 5 (B2R (fmul v m)) (B2R v * y).
Proof.
  intros (F & H & L) Y [G N]. pose proof u_pos53 as U. pose proof (bpow_gt_0 radix2 (-900)) as B0.
  pose proof (near_mul u (proj1 U) (proj2 U) 0 (107 / 32) (Rabs (B2R v)) (Rabs (B2R v)) (B2R m) y ltac:(lra) ltac:(lra) (Rabs_pos _) ltac:(lra) (near_refl _ _) N) as M.
  assert (P : 0 <= Rabs (B2R v) * y) by (apply Rmult_le_pos; [apply Rabs_pos|lra]).
  assert (MP : 0 <= B2R m) by (pose proof (near_bounds u (proj1 U) (proj2 U) (107 / 32) (B2R m) y ltac:(lra) ltac:(lra) N); lra).
  assert (A : Rabs (B2R v * B2R m) = Rabs (B2R v) * B2R m) by (rewrite Rabs_mult, (Rabs_pos_eq (B2R m)) by auto; reflexivity).
  assert (S : safe (Rabs (B2R v) * y)).
  { destruct L as [-> |L]; [left; rewrite Rabs_R0; ring|right]. apply room.
    apply Rle_trans with (bpow radix2 (-53) * bpow radix2 (-900)); [rewrite <- bpow_plus; apply bpow_le; lia|].
    apply Rmult_le_compat; try lra; apply bpow_ge_0. }
  destruct (fmul_small 53 1024 Hp Hm v m F G) as [GF V].
  { rewrite <- rn_abs by auto. rewrite A. rewrite <- (Rabs_pos_eq (rn _)).
    - apply near_fits with (0 + 107 / 32 + / 16) (Rabs (B2R v) * y); auto; try lia; try lra. split; [auto|].
      apply Rle_trans with (1 * bpow radix2 900); [apply Rmult_le_compat; try lra; apply Rabs_pos|]. rewrite Rmult_1_l. apply bpow_le. lia.
    - apply rn_pos; auto. apply Rmult_le_pos; [apply Rabs_pos|auto]. }
  split; [exact GF|]. rewrite V. unfold within_roundings.
  assert (Q : near 5 (rn (Rabs (B2R v) * B2R m)) (Rabs (B2R v) * y)).
  { apply (near_mono u (proj1 U) (0 + 107 / 32 + / 16 + 9 / 8)); [lra|auto|]. apply near_rn; auto; try lia; lra. }
  unfold CsqError.near in Q. rewrite Rabs_mult, (Rabs_pos_eq y) by lra.
  destruct (Rle_lt_dec 0 (B2R v)) as [K|K].
  - rewrite (Rabs_pos_eq (B2R v)) in * by auto. exact Q.
  - rewrite (Rabs_left (B2R v)) in * by auto. replace (- B2R v * B2R m) with (- (B2R v * B2R m)) in Q by ring. rewrite rn_opp in Q.
    rewrite <- Rabs_Ropp. replace (- (rn (B2R v * B2R m) - B2R v * y)) with (- rn (B2R v * B2R m) - - B2R v * y) by ring. exact Q.
Qed.
Lemma size_ok s v q g : bpow radix2 (-106) <= s <= 1 - u -> v * v <= q -> q * (1 - / 16384) <= s ->
  within_roundings 5 g (polar_method s v) -> Rabs g <= 49 / 4.
Proof.
  intros S V Q W. pose proof u_pos53 as U. pose proof (bpow_gt_0 radix2 (-106)) as B0. destruct (radicand s S) as [R1 R2].
  unfold within_roundings, polar_method in W. set (y := sqrt (-2 * ln s / s)) in *.
  assert (Y0 : 0 <= y) by apply sqrt_pos.
  assert (YY : y * y = -2 * ln s / s) by (apply sqrt_sqrt; lra).
  assert (X : (v * y) * (v * y) <= 14845 / 100).
  { replace (v * y * (v * y)) with (v * v * (y * y)) by ring. rewrite YY.
    assert (K : v * v * / s <= 10001 / 10000).
    { apply Rmult_le_reg_r with s; [lra|]. rewrite Rmult_assoc, Rinv_l, Rmult_1_r by lra. lra. }
    unfold Rdiv. replace (v * v * (-2 * ln s * / s)) with ((v * v * / s) * (-2 * ln s)) by ring.
    apply Rle_trans with (10001 / 10000 * (1484 / 10)); [|lra]. apply Rmult_le_compat; try lra.
    apply Rmult_le_pos; [nra|left; apply Rinv_0_lt_compat; lra]. }
  assert (Z : Rabs (v * y) <= 122 / 10).
  { apply Rabs_le. split; nra. }
  assert (D : Rabs (g - v * y) <= / 1000).
  { eapply Rle_trans; [exact W|]. apply Rle_trans with (5 * / 1048576 * (122 / 10)); [|lra]. apply Rmult_le_compat; try lra. apply Rabs_pos. }
  replace g with ((g - v * y) + v * y) by ring. eapply Rle_trans; [apply Rabs_triang|]. lra.
Qed.

(** ** Calls *)
Definition accepted (w : num * num) : Prop := 0 < B2R (squares (draw (fst w)) (draw (snd w))) < 1.
Definition small (g : num) : Prop := is_finite g = true /\ Rabs (B2R g) <= 49 / 4.
Lemma pair_ok w1 w2 : uniform w1 -> uniform w2 -> let v1 := draw w1 in let v2 := draw w2 in let s := squares v1 v2 in
  again s = false -> 0 < B2R s < 1 /\ within_roundings 3 (B2R s) (B2R v1 * B2R v1 + B2R v2 * B2R v2) /\
  forall v, v = v1 \/ v = v2 -> small (fmul v (multiplier s)) /\ within_roundings 5 (B2R (fmul v (multiplier s))) (polar_method (B2R s) (B2R v)).
Proof.
  intros U1 U2 v1 v2 s A. pose proof (draw_ok w1 U1) as D1. pose proof (draw_ok w2 U2) as D2. fold v1 in D1. fold v2 in D2.
  destruct (squares_ok v1 v2 D1 D2) as (I & P & L). fold s in I, P, L. destruct I as [F N]. pose proof u_pos53 as U.
  pose proof (proj1 (again_ok s F P) A) as S. specialize (L ltac:(lra)).
  pose proof (sq_high _ (proj1 (proj2 D1))) as Q1. pose proof (sq_high _ (proj1 (proj2 D2))) as Q2.
  pose proof (below_one 53 1024 Hp (B2R s) ltac:(lia) (num_format _ _ s) ltac:(lra)) as S1.
  split; [exact S|]. split.
  { unfold within_roundings. rewrite (Rabs_pos_eq (_ + _)) by lra. unfold CsqError.near in N. eapply Rle_trans; [exact N|].
    apply Rmult_le_compat_r; [lra|]. apply Rmult_le_compat_r; lra. }
  pose proof (near_bounds u (proj1 U) (proj2 U) (37 / 16) (B2R s) (B2R v1 * B2R v1 + B2R v2 * B2R v2) ltac:(lra) ltac:(lra) N) as B.
  destruct (radicand (B2R s)) as [R1 R2]; [lra|].
  intros v HV. destruct (deviate_ok v (multiplier s) (sqrt (-2 * ln (B2R s) / B2R s))) as [G W].
  - destruct HV as [-> | ->]; assumption.
  - split.
    + apply Rle_trans with (bpow radix2 (-60)); [apply bpow_le; lia|]. rewrite <- (sqrt_square (bpow radix2 (-60))) by apply bpow_ge_0.
      apply sqrt_le_1_alt. rewrite <- bpow_plus. apply Rle_trans with u; [rewrite u_val; apply bpow_le; lia|lra].
    + apply Rle_trans with (bpow radix2 60); [|apply bpow_le; lia]. rewrite <- (sqrt_square (bpow radix2 60)) by apply bpow_ge_0.
      apply sqrt_le_1_alt. rewrite <- bpow_plus. apply R2.
  - apply multiplier_ok; auto. lra.
  - split; [split; [exact G|]|exact W]. apply (size_ok (B2R s) (B2R v) (B2R v1 * B2R v1 + B2R v2 * B2R v2)); auto; try lra.
    destruct HV as [-> | ->]; lra.
Qed.
Lemma reject w1 w2 : uniform w1 -> uniform w2 -> again (squares (draw w1) (draw w2)) = true <-> ~ accepted (w1, w2).
Proof.
  intros U1 U2. destruct (squares_ok _ _ (draw_ok w1 U1) (draw_ok w2 U2)) as ([F _] & P & _). unfold accepted. cbn [fst snd].
  pose proof (again_ok _ F P) as A. destruct (again _) eqn:E; split; intros H; auto; try discriminate.
  - intros C. apply A in C. discriminate.
  - exfalso. apply H, A. reflexivity.
Qed.

Lemma fresh_ok ws g1 g2 rest : Forall uniform ws -> fresh ws = Some (g1, g2, rest) ->
  exists before w1 w2, ws = before ++ w1 :: w2 :: rest /\ length before = (2 * length (pairs before))%nat /\
    Forall (fun w => ~ accepted w) (pairs before) /\ uniform w1 /\ uniform w2 /\ again (squares (draw w1) (draw w2)) = false /\
    g1 = fmul (draw w1) (multiplier (squares (draw w1) (draw w2))) /\ g2 = fmul (draw w2) (multiplier (squares (draw w1) (draw w2))).
Proof.
  remember (length ws) as n. assert (L : (length ws <= n)%nat) by lia. clear Heqn. revert ws L.
  induction n as [|n IH]; intros ws L U H.
  - destruct ws; [discriminate|cbn in L; lia].
  - destruct ws as [|w1 [|w2 ws]]; [discriminate|discriminate|]. inversion U as [|? ? U1 U']; subst. inversion U' as [|? ? U2 U'']; subst.
    cbn [GauModel.fresh] in H. destruct (again _) eqn:A.
    + destruct (IH ws ltac:(cbn in L; lia) U'' H) as (b & w1' & w2' & E & LB & R & K). exists (w1 :: w2 :: b), w1', w2'.
      split; [rewrite E; reflexivity|]. split; [cbn [length pairs]; lia|]. split; [|exact K]. cbn [pairs]. constructor; [|exact R]. apply reject; auto.
    + injection H as <- <- <-. exists [], w1, w2.
      split; [reflexivity|]. split; [reflexivity|]. split; [constructor|]. split; [exact U1|]. split; [exact U2|]. split; [exact A|]. split; reflexivity.
Qed.
Lemma fresh_none ws : Forall uniform ws -> fresh ws = None <-> Forall (fun w => ~ accepted w) (pairs ws).
Proof.
  remember (length ws) as n. assert (L : (length ws <= n)%nat) by lia. clear Heqn. revert ws L.
  induction n as [|n IH]; intros ws L U.
  - destruct ws; [cbn; split; auto|cbn in L; lia].
  - destruct ws as [|w1 [|w2 ws]]; [cbn; split; auto..|]. inversion U as [|? ? U1 U']; subst. inversion U' as [|? ? U2 U'']; subst.
    specialize (IH ws ltac:(cbn in L; lia) U''). cbn [GauModel.fresh pairs]. pose proof (reject w1 w2 U1 U2) as R. destruct (again _) eqn:A.
    + rewrite IH. split; intros H; [constructor; [apply R; reflexivity|auto]|inversion H; auto].
    + split; [discriminate|]. intros H. inversion H as [|? ? K]; subst. apply R in K. discriminate.
Qed.
Definition good_state (st : option num * list num) : Prop := (forall g, fst st = Some g -> small g) /\ Forall uniform (snd st).
Lemma gaussian_ok st g st' : good_state st -> gaussian st = Some (g, st') -> small g /\ good_state st'.
Proof.
  intros [P U] H. destruct st as [p ws]. unfold GauModel.gaussian in H. cbn [fst snd] in *. destruct p as [next|].
  - injection H as <- <-. split; [apply P; reflexivity|]. split; [intros g E; discriminate|exact U].
  - destruct (fresh ws) as [[[g1 g2] rest]|] eqn:E; [|discriminate]. injection H as <- <-.
    destruct (fresh_ok _ _ _ _ U E) as (b & w1 & w2 & EW & _ & _ & U1 & U2 & A & -> & ->).
    destruct (pair_ok w1 w2 U1 U2 A) as (_ & _ & K). split; [apply K; auto|]. split.
    + cbn [fst]. intros g [= <-]. apply K; auto.
    + cbn [snd]. rewrite EW in U. apply Forall_app in U. destruct U as [_ U]. inversion U as [|? ? _ U']; subst. inversion U'; auto.
Qed.
Lemma gaussians_ok n st gs st' : good_state st -> gaussians n st = Some (gs, st') -> length gs = n /\ Forall small gs /\ good_state st'.
Proof.
  revert st gs st'. induction n as [|n IH]; intros st gs st' S H; cbn [GauModel.gaussians] in H.
  - injection H as <- <-. auto.
  - destruct (gaussian st) as [[g st1]|] eqn:E; [|discriminate]. destruct (gaussian_ok _ _ _ S E) as [G S1].
    destruct (gaussians n st1) as [[gs1 st2]|] eqn:E2; [|discriminate]. injection H as <- <-. destruct (IH _ _ _ S1 E2) as (L & F & S2).
    split; [cbn [length]; now rewrite L|]. split; [constructor; auto|auto].
Qed.
End Gauss.

(** ** Where the points lie *)
Section Disc.
Context (Hp : Prec_gt_0 53) (Hm : Prec_lt_emax 53 1024).
Local Notation num := (binary_float 53 1024).
Local Notation rn := (nearest 53 1024).
Local Notation u := (unit_roundoff 53).
Lemma draw_near w : uniform w -> Rabs (B2R (draw Hp Hm w) - (2 * B2R w - 1)) <= u.
Proof.
  intros [F W]. pose proof u_pos53 as U.
  destruct (fint_exact 53 1024 Hp Hm (-1)) as [F1 V1]; [lia|]. destruct (fint_exact 53 1024 Hp Hm 1) as [F2 V2]; [lia|].
  pose proof (below_one 53 1024 Hp (B2R w) ltac:(lia) (num_format _ _ w) ltac:(lra)) as W1.
  destruct (random_ok 53 1024 Hp Hm (fint 53 1024 Hp Hm (-1)) (fint 53 1024 Hp Hm 1) w F1 F2 F) as (G & V & B).
  - rewrite V1, V2. lra.
  - lra.
  - apply (rn_small 53 1024 Hp _ 1); try lia. rewrite V1, V2. change (bpow radix2 1) with 2. rewrite Rabs_pos_eq by lra. lra.
  - unfold draw. rewrite V. unfold ran. rewrite V1, V2.
    assert (E : rn (1 - -1) = 2). { replace (1 - -1) with (bpow radix2 1) by (change (bpow radix2 1) with 2; lra). change 2 with (bpow radix2 1). apply rn_id. apply big_format; auto; lia. }
    assert (F2w : generic_format radix2 (FLT_exp (3 - 1024 - 53) 53) (2 * B2R w)).
    { replace (2 * B2R w) with (B2R w * bpow radix2 1) by (change (bpow radix2 1) with 2; ring). apply mult_bpow_pos_exact_FLT; try apply num_format; auto; lia. }
    rewrite E, (rn_id _ _ _ F2w). replace (2 * B2R w - 1) with (-1 + 2 * B2R w) by ring.
    eapply Rle_trans; [apply add_rel; auto; rewrite <- V1; apply num_format|].
    pose proof (v_le 53) as VL. apply Rle_trans with (u * 1); [|lra]. apply Rmult_le_compat; try lra.
    + unfold Rdiv. apply Rmult_le_pos; [lra|left; apply Rinv_0_lt_compat; lra].
    + apply Rabs_pos.
    + apply Rabs_le. lra.
Qed.
Lemma disc w1 w2 : uniform w1 -> uniform w2 ->
  let x := 2 * B2R w1 - 1 in let y := 2 * B2R w2 - 1 in let s := B2R (squares Hp Hm (draw Hp Hm w1) (draw Hp Hm w2)) in
  (16 * u <= x * x + y * y <= 1 - 16 * u -> 0 < s < 1) /\ (1 + 16 * u <= x * x + y * y -> 1 <= s).
Proof.
  intros U1 U2 x y s. pose proof (draw_near w1 U1) as N1. pose proof (draw_near w2 U2) as N2. fold x in N1. fold y in N2.
  destruct (draw_ok Hp Hm w1 U1) as (F1 & A1 & L1). destruct (draw_ok Hp Hm w2 U2) as (F2 & A2 & L2).
  destruct (squares_ok Hp Hm _ _ (conj F1 (conj A1 L1)) (conj F2 (conj A2 L2))) as ([_ I] & P & _). fold s in I, P.
  set (v1 := B2R (draw Hp Hm w1)) in *. set (v2 := B2R (draw Hp Hm w2)) in *. unfold CsqError.near in I.
  pose proof u_pos53 as U. destruct U1 as [_ B1]. destruct U2 as [_ B2].
  assert (X : -1 <= x <= 1) by (unfold x; lra). assert (Y : -1 <= y <= 1) by (unfold y; lra).
  apply Rabs_le_inv in N1, N2, A1, A2, I. set (uu := u) in *. clearbody x y v1 v2 s uu. clear - N1 N2 A1 A2 I U X Y P.
  assert (D : forall v x, - uu <= v - x <= uu -> -1 <= x <= 1 -> -1 <= v <= 1 -> - (2 * uu) <= v * v - x * x <= 2 * uu).
  { intros v z N Z V. apply Rabs_le_inv. replace (v * v - z * z) with ((v - z) * (v + z)) by ring.
    rewrite Rabs_mult, (Rmult_comm 2). apply Rmult_le_compat; try apply Rabs_pos; apply Rabs_le; lra. }
  pose proof (D _ _ N1 X A1) as D1. pose proof (D _ _ N2 Y A2) as D2.
  set (q := v1 * v1 + v2 * v2) in *. set (r := x * x + y * y) in *.
  assert (Q : r - 4 * uu <= q <= r + 4 * uu) by (unfold q, r; lra).
  assert (Q2 : 0 <= q <= 2) by (unfold q; split; nra). clearbody q r.
  assert (E : 0 <= 37 / 16 * uu * q <= 5 * uu) by (split; nra). split; intros H; [|lra]. split; [|lra].
  assert (37 / 16 * uu * q < q); [|lra]. assert (0 < q) by lra. nra.
Qed.
End Disc.

(** ** Conversion to float *)
Lemma convert_ok prec emax prec' emax' (Hp' : Prec_gt_0 prec') (Hm' : Prec_lt_emax prec' emax') (x : binary_float prec emax) :
  is_finite x = true -> Rabs (nearest prec' emax' (B2R x)) < bpow radix2 emax' ->
  is_finite (fconvert prec' emax' Hp' Hm' x) = true /\ B2R (fconvert prec' emax' Hp' Hm' x) = nearest prec' emax' (B2R x).
Proof.
  destruct x as [s|s| |s m e He]; try discriminate; intros _ H.
  - cbn [fconvert B2R is_finite]. split; [reflexivity|]. rewrite rn_0. reflexivity.
  - cbn [fconvert]. pose proof (binary_normalize_correct prec' emax' Hp' Hm' mode_NE (cond_Zopp s (Zpos m)) e s) as C. cbv zeta in C.
    change (F2R {| Fnum := cond_Zopp s (Zpos m); Fexp := e |}) with (B2R (B754_finite s m e He)) in C.
    change (round radix2 (SpecFloat.fexp prec' emax') (round_mode mode_NE) (B2R (B754_finite s m e He)))
      with (nearest prec' emax' (B2R (B754_finite s m e He))) in C.
    rewrite Rlt_bool_true in C by exact H. split; apply C.
Qed.
Lemma float_ok (Hp : Prec_gt_0 53) (Hm : Prec_lt_emax 53 1024) (Hp' : Prec_gt_0 24) (Hm' : Prec_lt_emax 24 128) (g : binary_float 53 1024) :
  is_finite g = true -> Rabs (B2R g) <= 49 / 4 -> let f := as_float Hp Hm Hp' Hm' g in
  is_finite f = true /\ Rabs (B2R f) <= 49 / 4 /\ B2R f = nearest 24 128 (B2R g).
Proof.
  intros F B f.
  assert (Q : generic_format radix2 (FLT_exp (3 - 128 - 24) 24) (49 / 4)).
  { replace (49 / 4) with (F2R (Float radix2 49 (-2))) by (unfold F2R; simpl; lra). apply generic_format_F2R. intros _. unfold cexp.
    rewrite (mag_unique_pos radix2 _ 4); [unfold FLT_exp; lia|]. unfold F2R; simpl; lra. }
  assert (L : Rabs (nearest 24 128 (B2R g)) <= 49 / 4) by (rewrite <- rn_abs by auto; apply rn_le_format; auto).
  assert (L' : 49 / 4 < bpow radix2 4) by (simpl; lra).
  destruct (convert_ok 53 1024 24 128 Hp' Hm' g F) as [F1 V1].
  { apply Rle_lt_trans with (49 / 4); [exact L|]. apply Rlt_trans with (bpow radix2 4); [exact L'|apply bpow_lt; lia]. }
  assert (FM : generic_format radix2 (FLT_exp (3 - 1024 - 53) 53) (nearest 24 128 (B2R g))).
  { apply (generic_inclusion_mag radix2 (FLT_exp (3 - 128 - 24) 24)); [intros _; unfold FLT_exp; lia|]. apply generic_format_round; typeclasses eauto. }
  destruct (convert_ok 24 128 53 1024 Hp Hm (fconvert 24 128 Hp' Hm' g) F1) as [F2 V2].
  { rewrite V1, (rn_id _ _ _ FM). apply Rle_lt_trans with (49 / 4); [exact L|]. apply Rlt_trans with (bpow radix2 4); [exact L'|apply bpow_lt; lia]. }
  rewrite V1, (rn_id _ _ _ FM) in V2. unfold f, as_float. rewrite V2. auto.
Qed.

(** ** The logarithm, correctly rounded *)
Lemma rounded_log (Hp : Prec_gt_0 53) (Hm : Prec_lt_emax 53 1024) : good_log (fun s => rounded_number 53 1024 Hp Hm (ln (B2R s))).
Proof.
  intros s F H. pose proof u_pos53 as U. destruct (rounded_value 53 1024 Hp Hm (ln (B2R s))) as [G V].
  pose proof (below_one 53 1024 Hp (B2R s) ltac:(lia) (num_format _ _ s) ltac:(lra)) as S1.
  assert (L : bpow radix2 (-1074) <= B2R s).
  { assert (I : is_finite_strict s = true) by (destruct s; try discriminate; [cbn in H; lra|reflexivity]).
    pose proof (abs_B2R_ge_emin 53 1024 s I) as E. rewrite Rabs_pos_eq in E by lra. exact E. }
  assert (N : -752 <= ln (B2R s) <= - unit_roundoff 53).
  { split.
    - assert (M : ln (bpow radix2 (-1074)) <= ln (B2R s)) by (apply ln_mono; [apply bpow_gt_0|auto]).
      rewrite bpow_exp, ln_exp in M. pose proof ln_2. change (IZR radix2) with 2 in M. lra.
    - assert (K : 1 + ln (B2R s) <= B2R s); [|lra]. rewrite <- (exp_ln (B2R s)) at 2 by lra.
      destruct (Req_dec (ln (B2R s)) 0) as [-> |N]; [rewrite exp_0; lra|]. left. apply exp_ineq1; auto. }
  assert (B : Rabs (nearest 53 1024 (ln (B2R s))) < bpow radix2 1024).
  { apply (rn_small 53 1024 Hp _ 10); try lia. rewrite Rabs_left by lra. simpl. lra. }
  specialize (G B). split; [exact G|]. rewrite (V G). eapply Rle_trans; [apply rn_rel; auto|].
  rewrite (Rabs_left (ln (B2R s))) by lra.
  assert (R : 16 * underflow_unit 53 1024 <= unit_roundoff 53 * - ln (B2R s)).
  { apply room. apply Rle_trans with (unit_roundoff 53); [rewrite u_val; apply bpow_le; lia|lra]. }
  assert (0 <= underflow_unit 53 1024) by (unfold underflow_unit; pose proof (bpow_ge_0 radix2 (3 - 1024 - 53)); lra). lra.
Qed.
