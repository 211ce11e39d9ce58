(** Proofs for C107. *)
From Coq Require Import ZArith Reals Lia Lra.
From Flocq Require Import Core Relative.
From Verif Require CfunProofs.
From Verif Require Import EftModel EftSpec EftProofs LghModel LghSpec.
Local Open Scope R_scope.
Local Notation pow := (bpow radix2).
Local Notation format64 := (generic_format radix2 (FLT_exp (-1074) 53)).

(** ** Bits *)
Lemma abs_bits b : bits64 b -> bits64 (abs64 b) /\ val64 (abs64 b) = Rabs (val64 b) /\ 0 <= val64 (abs64 b).
Proof.
  intros [R F]. unfold abs64, val64. pose proof (Z.mod_pos_bound b (2 ^ 63) ltac:(lia)) as M.
  rewrite (proj2 (Z.ltb_lt (b mod 2 ^ 63) (2 ^ 63))) by lia.
  pose proof (magnitude_nonneg (b mod 2 ^ 63) ltac:(lia)) as P. split; [|split; [|exact P]].
  - split; [lia|]. rewrite Z.mod_mod by lia. exact F.
  - destruct (Z.ltb_spec b (2 ^ 63)) as [L|L].
    + rewrite Z.mod_small in * by lia. now rewrite Rabs_pos_eq.
    + assert (E : (b mod 2 ^ 63 = b - 2 ^ 63)%Z) by (symmetry; apply Z.mod_unique with 1%Z; lia).
      rewrite E in *. now rewrite Rabs_Ropp, Rabs_pos_eq.
Qed.
Lemma decode_finite b : bits64 b -> decode b = Num (val64 b).
Proof. intros [_ F]. unfold decode. destruct (Z.eqb_spec (b mod 2 ^ 63 / 2 ^ 52) 2047) as [E|N]; [lia|reflexivity]. Qed.
Lemma decode_inf s : decode (infinity s) = Inf s.
Proof. destruct s; reflexivity. Qed.
Lemma decode_nan b : nan64 b -> decode b = NaN.
Proof.
  intros [R G]. unfold decode, any64 in *. set (m := (b mod 2 ^ 63)%Z) in *. pose proof (Z.mod_pos_bound b (2 ^ 63) ltac:(lia)) as M. fold m in M.
  assert (E : (m / 2 ^ 52 = 2047)%Z) by (symmetry; apply (Z.div_unique m (2 ^ 52) 2047 (m - 2047 * 2 ^ 52)); lia).
  rewrite E, Z.eqb_refl.
  assert (Q : (b mod 2 ^ 52 = m mod 2 ^ 52)%Z).
  { unfold m. rewrite (Z.div_mod b (2 ^ 63)) at 1 by lia. replace (2 ^ 63 * (b / 2 ^ 63) + b mod 2 ^ 63)%Z with (b mod 2 ^ 63 + (2 ^ 11 * (b / 2 ^ 63)) * 2 ^ 52)%Z by lia.
    apply Z.mod_add. lia. }
  rewrite Q. assert (Q2 : (m mod 2 ^ 52 = m - 2047 * 2 ^ 52)%Z) by (symmetry; apply (Z.mod_unique m (2 ^ 52) 2047); lia).
  rewrite Q2. destruct (Z.eqb_spec (m - 2047 * 2 ^ 52) 0); [lia|reflexivity].
Qed.
Lemma decode_split b : any64 b -> bits64 b \/ (exists s, b = infinity s) \/ nan64 b.
Proof.
  intros R. unfold any64 in R. unfold bits64, nan64, any64. set (m := (b mod 2 ^ 63)%Z). pose proof (Z.mod_pos_bound b (2 ^ 63) ltac:(lia)) as M. fold m in M.
  destruct (Z_lt_ge_dec m (2047 * 2 ^ 52)) as [L|G].
  - left. split; [exact R|]. apply Z.div_lt_upper_bound; lia.
  - right. destruct (Z.eq_dec m (2047 * 2 ^ 52)) as [E|N]; [left|right; split; [exact R|lia]].
    destruct (Z_lt_ge_dec b (2 ^ 63)) as [L|L].
    + exists false. unfold infinity. unfold m in E. rewrite Z.mod_small in E by lia. exact E.
    + exists true. unfold infinity. unfold m in E. assert (E2 : (b mod 2 ^ 63 = b - 2 ^ 63)%Z) by (symmetry; apply Z.mod_unique with 1%Z; lia). lia.
Qed.

(** Larger bits, larger number *)
Lemma magnitude_step m : (0 <= m)%Z -> magnitude m < magnitude (m + 1).
Proof.
  intros H. destruct (mag_parts m H) as (E & f & -> & Hf & HE). destruct (Z.eq_dec E 0) as [->|NE].
  - assert (C : magnitude (0 * 2 ^ 52 + f) = IZR f * pow (-1074)).
    { unfold magnitude. rewrite Z.mul_0_l, Z.add_0_l, Z.div_small, Z.mod_small by lia. reflexivity. }
    rewrite C. assert (D : magnitude (0 * 2 ^ 52 + f + 1) = IZR (f + 1) * pow (-1074)).
    { destruct (Z.eq_dec (f + 1) (2 ^ 52)) as [Q|N].
      - replace (0 * 2 ^ 52 + f + 1)%Z with (1 * 2 ^ 52 + 0)%Z by lia. rewrite magnitude_carry by lia. now rewrite Q, Z.add_0_r.
      - unfold magnitude. rewrite Z.mul_0_l, Z.add_0_l, Z.div_small, Z.mod_small by lia. reflexivity. }
    rewrite D. apply Rmult_lt_compat_r; [apply bpow_gt_0|]. apply IZR_lt. lia.
  - rewrite <- Z.add_assoc, !magnitude_carry by lia. apply Rmult_lt_compat_r; [apply bpow_gt_0|]. apply IZR_lt. lia.
Qed.
Lemma magnitude_mono m m' : (0 <= m)%Z -> (m < m')%Z -> magnitude m < magnitude m'.
Proof.
  intros H L. assert (G : forall k, (0 <= k)%Z -> magnitude m < magnitude (m + 1 + k)).
  { intros k Hk. revert k Hk. apply (natlike_ind (fun k => magnitude m < magnitude (m + 1 + k))).
    - rewrite Z.add_0_r. now apply magnitude_step.
    - intros k Hk I. replace (m + 1 + Z.succ k)%Z with (m + 1 + k + 1)%Z by lia. eapply Rlt_trans; [exact I|]. apply magnitude_step. lia. }
  replace m' with (m + 1 + (m' - m - 1))%Z by lia. apply G. lia.
Qed.
Lemma abs_inj b c : val64 (abs64 b) = val64 (abs64 c) -> abs64 b = abs64 c.
Proof.
  unfold abs64, val64. pose proof (Z.mod_pos_bound b (2 ^ 63) ltac:(lia)) as M. pose proof (Z.mod_pos_bound c (2 ^ 63) ltac:(lia)) as M'.
  rewrite (proj2 (Z.ltb_lt (b mod 2 ^ 63) (2 ^ 63))), (proj2 (Z.ltb_lt (c mod 2 ^ 63) (2 ^ 63))) by lia. intros E.
  destruct (Z.lt_trichotomy (b mod 2 ^ 63) (c mod 2 ^ 63)) as [L|[Q|L]]; [|exact Q|].
  - pose proof (magnitude_mono _ _ (proj1 M) L). lra.
  - pose proof (magnitude_mono _ _ (proj1 M') L). lra.
Qed.
Lemma val_range b : bits64 b -> Rabs (val64 b) < pow 1024 /\ (val64 b <> 0 -> pow (-1074) <= Rabs (val64 b)).
Proof.
  intros H. destruct (abs_bits b H) as (B & <- & P). set (m := abs64 b) in *. assert (M : (0 <= m < 2 ^ 63)%Z) by (apply Z.mod_pos_bound; lia).
  assert (V : val64 m = magnitude m) by (unfold val64; rewrite (proj2 (Z.ltb_lt m (2 ^ 63))) by lia; reflexivity).
  split.
  - rewrite V. destruct (finite_mag m B) as [L _]. specialize (L (proj2 M)).
    replace (pow 1024) with (magnitude (2047 * 2 ^ 52 + 0)) by (rewrite magnitude_carry by lia; rewrite Z.add_0_r; change (IZR (2 ^ 52)) with (pow 52); rewrite <- bpow_plus; reflexivity).
    apply magnitude_mono; lia.
  - intros N. rewrite V. assert (N0 : m <> 0%Z).
    { intros E. apply N. assert (Z0 : val64 m = 0) by (rewrite V, E; change (magnitude 0) with (0 * pow (-1074)); apply Rmult_0_l).
      destruct (abs_bits b H) as (_ & A & _). fold m in A. rewrite Z0 in A. destruct (Req_dec (val64 b) 0) as [Q|Q]; [exact Q|]. apply Rabs_no_R0 in Q. congruence. }
    replace (pow (-1074)) with (magnitude 1) by (change (magnitude 1) with (1 * pow (-1074)); apply Rmult_1_l).
    destruct (Z.eq_dec m 1) as [->|N1]; [lra|]. apply Rlt_le, magnitude_mono; lia.
Qed.

(** ** The branch for tiny and huge numbers *)
Lemma cl_near : Rabs (cl - CfunProofs.cl_lit) <= / 1000000000000000000000.
Proof.
  unfold cl. change (14286068203094172321214581765680755 / 10000000000000000000000000000000000000000) with CfunProofs.cl_lit.
  assert (E1 : Rabs (rnd 64 (-16445) CfunProofs.cl_lit - CfunProofs.cl_lit) <= / 2 * pow (-64 + 1) * Rabs CfunProofs.cl_lit).
  { unfold rnd. apply relative_error_N_FLT; [lia|]. apply Rle_trans with (pow (-1000)); [apply bpow_le; lia|].
    apply Rle_trans with (pow (-20)); [apply bpow_le; lia|]. unfold CfunProofs.cl_lit. rewrite Rabs_pos_eq by lra. change (pow (-20)) with (/ 1048576). lra. }
  change (pow (-64 + 1)) with (/ 9223372036854775808) in E1.
  set (l := rnd 64 (-16445) CfunProofs.cl_lit) in *. pose proof (rnd64_err l) as E2. rewrite u_val in E2.
  assert (TT : pow (-1075) <= pow (-120)) by (apply bpow_le; lia). change (pow (-120)) with (/ 1329227995784915872903807060280344576) in TT.
  assert (C : 0 <= CfunProofs.cl_lit <= / 500000) by (unfold CfunProofs.cl_lit; lra). rewrite (Rabs_pos_eq CfunProofs.cl_lit) in E1 by lra.
  apply Rabs_le_inv in E1. rewrite (Rabs_pos_eq l) in E2.
  - apply Rabs_le_inv in E2. apply Rabs_le. split; lra.
  - assert (/ 1000000 <= CfunProofs.cl_lit) by (unfold CfunProofs.cl_lit; lra). lra.
Qed.
Lemma ln2_bounds : 69 / 100 <= ln 2 <= 7 / 10.
Proof.
  pose proof CfunProofs.ln2_literals as L. apply Rabs_le_inv in L. unfold CfunProofs.cm_lit, CfunProofs.cl_lit in L.
  assert (/ 10 ^ 33 <= / 1000) by (apply Rinv_le; [lra|]; replace (10 ^ 33) with (1000 * 10 ^ 30) by (rewrite <- (tech_pow_Rmult); simpl; ring); pose proof (pow_R1_Rle 10 30 ltac:(lra)); lra).
  lra.
Qed.
Lemma ln_pow e : ln (pow e) = IZR e * ln 2.
Proof.
  assert (N : forall k, (0 <= k)%Z -> ln (pow k) = IZR k * ln 2).
  { apply (natlike_ind (fun k => ln (pow k) = IZR k * ln 2)); [cbn; rewrite ln_1; ring|]. intros k Hk I.
    unfold Z.succ. rewrite bpow_plus, ln_mult, I, plus_IZR by apply bpow_gt_0. change (pow 1) with 2. ring. }
  destruct (Z_le_gt_dec 0 e) as [H|H]; [now apply N|].
  replace e with (- - e)%Z by lia. rewrite bpow_opp, ln_Rinv by apply bpow_gt_0. rewrite N by lia. rewrite (opp_IZR (- e)). ring.
Qed.

Section Far.
Variables (lg : R -> R) (x y : R).
Hypothesis Hlg : good_log lg.
Hypothesis Fx : format64 x.
Hypothesis Hy : 0 < y <= x.
Let e := (mag radix2 x - 1)%Z.
Hypothesis He : (-1074 <= e <= 1023)%Z.
Hypothesis Hfar : (e <= -480 \/ 500 <= e)%Z.
Let X := x * pow (- e).
Let Y := y * pow (- e).
Let S := X * X + Y * Y.

Lemma scaled_x : 1 <= X < 2.
Proof.
  unfold X, e. destruct (mag radix2 x) as [k Hk]. cbn [mag_val]. pose proof (Hk ltac:(lra)) as Hb. rewrite Rabs_pos_eq in Hb by lra.
  assert (P : 0 < pow (- (k - 1))) by apply bpow_gt_0. split.
  - replace 1 with (pow (k - 1) * pow (- (k - 1))) by (rewrite <- bpow_plus; replace (k - 1 + - (k - 1))%Z with 0%Z by lia; reflexivity).
    apply Rmult_le_compat_r; lra.
  - replace 2 with (pow k * pow (- (k - 1))) by (rewrite <- bpow_plus; replace (k + - (k - 1))%Z with 1%Z by lia; reflexivity).
    apply Rmult_lt_compat_r; lra.
Qed.
Lemma scaled_exact : rnd64 X = X.
Proof.
  unfold rnd64, rnd. apply round_generic; [typeclasses eauto|]. unfold X. rewrite Fx. unfold F2R. cbn [Fnum Fexp].
  set (m := Ztrunc (scaled_mantissa radix2 (FLT_exp (-1074) 53) x)). rewrite Rmult_assoc, <- bpow_plus.
  pose proof scaled_x as SX.
  set (c := (cexp radix2 (FLT_exp (-1074) 53) x + - e)%Z).
  assert (C : (-52 <= c)%Z) by (unfold c, cexp, FLT_exp, e; lia).
  assert (XE : X = IZR m * pow c).
  { unfold X. rewrite Fx at 1. unfold F2R. cbn [Fnum Fexp]. fold m. rewrite Rmult_assoc, <- bpow_plus. reflexivity. }
  apply fmt64; [|lia].
  assert (Q : IZR (Z.abs m) <= IZR (2 ^ 53)); [|now apply le_IZR in Q].
  rewrite abs_IZR. apply Rmult_le_reg_r with (pow c); [apply bpow_gt_0|].
  replace (Rabs (IZR m) * pow c) with (Rabs X) by (rewrite XE, Rabs_mult, (Rabs_pos_eq (pow c)) by apply bpow_ge_0; reflexivity).
  rewrite Rabs_pos_eq by lra. apply Rle_trans with 2; [lra|]. change (IZR (2 ^ 53)) with (pow 53). rewrite <- bpow_plus.
  change 2 with (pow 1) at 1. apply bpow_le. lia.
Qed.
Lemma scaled_y : 0 < Y <= X.
Proof. assert (P : 0 < pow (- e)) by apply bpow_gt_0. unfold X, Y. split; [apply Rmult_lt_0_compat; lra|apply Rmult_le_compat_r; lra]. Qed.
Lemma scaled_norm : 1 <= S <= 8.
Proof. pose proof scaled_x. pose proof scaled_y. unfold S. split; nra. Qed.
Lemma far_norm : Rabs (rnd64 (rnd64 (X * X) + rnd64 (rnd64 Y * rnd64 Y)) - S) <= / 100000000000000 * S.
Proof.
  pose proof scaled_x as SX. pose proof scaled_y as SY.
  assert (TT : pow (-1075) <= pow (-120)) by (apply bpow_le; lia). change (pow (-120)) with (/ 1329227995784915872903807060280344576) in TT.
  pose proof (rnd64_err Y) as EY. rewrite u_val, (Rabs_pos_eq Y) in EY by lra. set (Y' := rnd64 Y) in *. apply Rabs_le_inv in EY.
  assert (BY : - / 1000000000000000 <= Y' - Y <= / 1000000000000000) by (split; lra).
  assert (BQ : - / 200000000000000 <= Y' * Y' - Y * Y <= / 200000000000000).
  { replace (Y' * Y' - Y * Y) with ((Y' - Y) * (2 * Y + (Y' - Y))) by ring. set (d := Y' - Y) in *.
    assert (W : 0 <= Rabs d <= / 1000000000000000) by (split; [apply Rabs_pos|apply Rabs_le; lra]).
    assert (Q : Rabs (d * (2 * Y + d)) <= / 200000000000000).
    { rewrite Rabs_mult. assert (Rabs (2 * Y + d) <= 5) by (apply Rabs_le; lra). pose proof (Rabs_pos (2 * Y + d)).
      apply Rle_trans with (/ 1000000000000000 * 5); [apply Rmult_le_compat; lra|lra]. }
    now apply Rabs_le_inv in Q. }
  assert (PY : 0 <= Y' * Y') by nra.
  pose proof (rnd64_err (Y' * Y')) as EQ. rewrite u_val, (Rabs_pos_eq (Y' * Y')) in EQ by lra. set (q := rnd64 (Y' * Y')) in *. apply Rabs_le_inv in EQ.
  assert (PX : 1 <= X * X <= 4) by (split; nra). assert (PYY : 0 <= Y * Y <= 4) by (split; nra).
  pose proof (rnd64_err (X * X)) as EX. rewrite u_val, (Rabs_pos_eq (X * X)) in EX by lra. set (p := rnd64 (X * X)) in *. apply Rabs_le_inv in EX.
  pose proof (rnd64_err (p + q)) as ES. rewrite u_val in ES. assert (PS : 0 <= p + q <= 9) by (split; lra). rewrite (Rabs_pos_eq (p + q)) in ES by lra.
  apply Rabs_le_inv in ES. unfold S. apply Rabs_le. split; lra.
Qed.
Lemma far_log n : Rabs (n - S) <= / 100000000000000 * S -> 0 < n /\ n <= 9 /\ Rabs (ln n - ln S) <= / 50000000000000.
Proof.
  intros H. pose proof scaled_norm as SN. set (g := (n - S) / S).
  assert (En : n = S * (1 + g)) by (unfold g; field; lra).
  assert (Bg : Rabs g <= / 100000000000000).
  { unfold g, Rdiv. rewrite Rabs_mult, (Rabs_pos_eq (/ S)) by (apply Rlt_le, Rinv_0_lt_compat; lra).
    apply Rmult_le_reg_r with S; [lra|]. rewrite Rmult_assoc, Rinv_l by lra. lra. }
  pose proof (Rabs_le_inv _ _ Bg) as Bg2.
  split; [rewrite En; apply Rmult_lt_0_compat; lra|]. split; [apply Rabs_le_inv in H; lra|].
  rewrite En, ln_mult by lra. replace (ln S + ln (1 + g) - ln S) with ((ln (1 + g) - g) + g) by ring.
  pose proof (ln_near g ltac:(lra)) as LN. eapply Rle_trans; [apply Rabs_triang|].
  assert (g * g <= / 100000000000000 * Rabs g).
  { rewrite <- (Rabs_pos_eq (g * g)) by (apply Rle_0_sqr). rewrite Rabs_mult. apply Rmult_le_compat_r; [apply Rabs_pos|lra]. }
  pose proof (Rabs_pos g). lra.
Qed.
Lemma far_modulus : ln (sqrt (x * x + y * y)) = ln S / 2 + IZR e * ln 2.
Proof.
  pose proof scaled_norm as SN. assert (P : 0 < pow e) by apply bpow_gt_0.
  assert (E : x * x + y * y = S * (pow e * pow e)).
  { assert (Q : pow (- e) * pow e = 1) by (rewrite <- bpow_plus; replace (- e + e)%Z with 0%Z by lia; reflexivity).
    unfold S, X, Y. replace ((x * pow (- e) * (x * pow (- e)) + y * pow (- e) * (y * pow (- e))) * (pow e * pow e))
      with ((x * x + y * y) * ((pow (- e) * pow e) * (pow (- e) * pow e))) by ring. rewrite Q. ring. }
  rewrite E, sqrt_mult by nra. rewrite sqrt_square by lra. rewrite ln_mult; [|apply sqrt_lt_R0; lra|lra]. rewrite ln_pow.
  f_equal. assert (Q : sqrt S * sqrt S = S) by (apply sqrt_sqrt; lra). pose proof (sqrt_lt_R0 S ltac:(lra)) as P2.
  assert (ln S = ln (sqrt S) + ln (sqrt S)) by (rewrite <- ln_mult by lra; congruence). lra.
Qed.
Lemma far_error :
  let n := rnd64 (rnd64 (rnd64 X * rnd64 X) + rnd64 (rnd64 Y * rnd64 Y)) in
  let r := rnd64 (rnd64 (rnd64 (lg n * / 2) + rnd64 (IZR e * cl)) + rnd64 (IZR e * cm)) in
  Rabs (r - ln (sqrt (x * x + y * y))) <= pow (-44) * Rabs (ln (sqrt (x * x + y * y))).
Proof.
  cbv zeta. rewrite far_modulus, scaled_exact. pose proof far_norm as FN.
  set (n := rnd64 (rnd64 (X * X) + rnd64 (rnd64 Y * rnd64 Y))) in *. assert (Fn : is_double n) by apply fmt_rnd64.
  destruct (far_log n FN) as (Pn & Un & LN). destruct (Hlg n Pn Fn) as (_ & G). change (pow (-52)) with (/ 4503599627370496) in G.
  pose proof scaled_norm as SN. assert (LS : 0 <= ln S <= 7).
  { split.
    - destruct (Req_dec S 1) as [->|N]; [rewrite ln_1; lra|]. rewrite <- ln_1. apply Rlt_le, ln_increasing; lra.
    - pose proof (CfunProofs.ln_le1 S ltac:(lra)). lra. }
  assert (Ln : Rabs (ln n) <= 8) by (apply Rabs_le; apply Rabs_le_inv in LN; lra).
  assert (TT : pow (-1075) <= pow (-120)) by (apply bpow_le; lia). change (pow (-120)) with (/ 1329227995784915872903807060280344576) in TT.
  assert (G2 : Rabs (lg n - ln n) <= / 500000000000000) by lra. apply Rabs_le_inv in G2. apply Rabs_le_inv in LN. apply Rabs_le_inv in Ln.
  assert (RE : forall v b, Rabs v <= b -> rnd64 v - v <= b * / 9000000000000000 + / 1000000000000000000 /\ - (b * / 9000000000000000 + / 1000000000000000000) <= rnd64 v - v).
  { intros v b Hv. pose proof (rnd64_err v) as E. rewrite u_val in E. apply Rabs_le_inv in E. pose proof (Rabs_pos v). split; lra. }
  pose proof (RE (lg n * / 2) 5 ltac:(apply Rabs_le; lra)) as R1. set (s := rnd64 (lg n * / 2)) in *.
  assert (EB : -1074 <= IZR e <= 1023) by (split; [apply (IZR_le (-1074))|apply (IZR_le e 1023)]; lia).
  pose proof cl_near as CN. apply Rabs_le_inv in CN. pose proof CfunProofs.ln2_literals as LL.
  assert (I33 : / 10 ^ 33 <= / 1000000000000000000000).
  { apply Rinv_le; [lra|]. replace 1000000000000000000000 with (10 ^ 21) by ring. apply Rle_pow; [lra|lia]. }
  assert (LL2 : Rabs (CfunProofs.cm_lit + CfunProofs.cl_lit - ln 2) <= / 1000000000000000000000) by lra. apply Rabs_le_inv in LL2.
  change CfunProofs.cm_lit with cm in *.
  assert (CL : / 1000000 <= cl <= / 500000) by (unfold CfunProofs.cl_lit in *; lra).
  assert (CM : 69 / 100 <= cm <= 7 / 10) by (unfold cm; lra).
  assert (MB : forall a b, 0 <= b -> - b <= a <= b -> Rabs (IZR e * a) <= 1074 * b).
  { intros a b Hb Ha. rewrite Rabs_mult. apply Rmult_le_compat; try apply Rabs_pos; apply Rabs_le; lra. }
  pose proof (RE (IZR e * cl) 1 ltac:(pose proof (MB cl (/ 500000) ltac:(lra) ltac:(lra)); lra)) as R2.
  pose proof (MB cl (/ 500000) ltac:(lra) ltac:(lra)) as B2. apply Rabs_le_inv in B2.
  pose proof (MB cm (7 / 10) ltac:(lra) ltac:(lra)) as B3. 
  pose proof (RE (IZR e * cm) 800 ltac:(lra)) as R3. apply Rabs_le_inv in B3.
  pose proof (MB (cm + cl - ln 2) (/ 500000000000000000000) ltac:(lra) ltac:(lra)) as B4. apply Rabs_le_inv in B4.
  set (t1 := rnd64 (IZR e * cl)) in *. set (t2 := rnd64 (IZR e * cm)) in *.
  pose proof (RE (s + t1) 10 ltac:(apply Rabs_le; lra)) as R4. set (w := rnd64 (s + t1)) in *.
  pose proof (RE (w + t2) 1000 ltac:(apply Rabs_le; lra)) as R5. set (r := rnd64 (w + t2)) in *.
  assert (DM : IZR e * (cm + cl - ln 2) = IZR e * cm + IZR e * cl - IZR e * ln 2) by ring. rewrite DM in B4.
  assert (TOT : Rabs (r - (ln S / 2 + IZR e * ln 2)) <= / 1000000000000) by (apply Rabs_le; split; lra).
  pose proof ln2_bounds as L2.
  assert (BIG : 300 <= Rabs (ln S / 2 + IZR e * ln 2)).
  { destruct Hfar as [F|F].
    - assert (K : IZR e <= -480) by (apply (IZR_le e (-480)); lia). assert (IZR e * ln 2 <= -300 - 5) by (clear - K L2; nra). rewrite Rabs_left1; lra.
    - assert (K : 500 <= IZR e) by (apply (IZR_le 500 e); lia). assert (305 <= IZR e * ln 2) by (clear - K L2; nra). rewrite Rabs_pos_eq; lra. }
  eapply Rle_trans; [exact TOT|]. change (pow (-44)) with (/ 17592186044416). lra.
Qed.
End Far.

(** ** All finite numbers *)
Lemma tiny_exponent x : 0 < x -> x <= legTiny -> (mag radix2 x - 1 <= -480)%Z.
Proof.
  intros P H. assert (L : x < pow (-480)).
  { apply Rle_lt_trans with (1 := H). unfold legTiny. change (pow (-480)) with (/ IZR (2 ^ 480)).
    apply Rmult_lt_reg_r with (IZR (2 ^ 480)); [apply IZR_lt; reflexivity|]. rewrite Rinv_l by (apply not_0_IZR; discriminate).
    replace (10 ^ 162) with (IZR (10 ^ 162)) by (rewrite (pow_IZR 10 162); reflexivity).
    apply Rmult_lt_reg_r with (IZR (10 ^ 162)); [apply IZR_lt; reflexivity|].
    replace (14156865331029228 / IZR (10 ^ 162) * IZR (2 ^ 480) * IZR (10 ^ 162)) with (14156865331029228 * IZR (2 ^ 480)) by (field; apply not_0_IZR; discriminate).
    rewrite Rmult_1_l, <- mult_IZR. apply IZR_lt. apply Z.ltb_lt. vm_compute. reflexivity. }
  assert (M : (mag radix2 x <= -480)%Z) by (apply mag_le_bpow; [lra|]; rewrite Rabs_pos_eq; lra). lia.
Qed.
Lemma huge_exponent x : legHuge <= x -> (500 <= mag radix2 x - 1)%Z.
Proof.
  intros H. assert (L : pow 501 <= x).
  { apply Rle_trans with (2 := H). unfold legHuge. change (pow 501) with (IZR (2 ^ 501)).
    replace (10 ^ 138) with (IZR (10 ^ 138)) by (rewrite (pow_IZR 10 138); reflexivity). rewrite <- mult_IZR. apply IZR_le. apply Z.leb_le. vm_compute. reflexivity. }
  pose proof (bpow_gt_0 radix2 501) as P. assert (M : (502 <= mag radix2 x)%Z) by (apply mag_ge_bpow; rewrite Rabs_pos_eq by lra; exact L). lia.
Qed.
Lemma exponent_range b : bits64 b -> 0 < val64 b -> (-1074 <= mag radix2 (val64 b) - 1 <= 1023)%Z.
Proof.
  intros B P. destruct (val_range b B) as [U L]. specialize (L ltac:(lra)). rewrite Rabs_pos_eq in U, L by lra.
  assert (M1 : (-1073 <= mag radix2 (val64 b))%Z) by (apply mag_ge_bpow; rewrite Rabs_pos_eq by lra; exact L).
  assert (M2 : (mag radix2 (val64 b) <= 1024)%Z) by (apply mag_le_bpow; [lra|]; rewrite Rabs_pos_eq; lra). lia.
Qed.
Lemma far_ok lg bx by_ : good_log lg -> bits64 bx -> bits64 by_ -> 0 < val64 by_ <= val64 bx -> (val64 bx <= legTiny \/ legHuge <= val64 bx) ->
  close (logHypot_far lg bx by_) (log_modulus (val64 bx) (val64 by_)).
Proof.
  intros Hlg Bx By Hy Hf. unfold close, log_modulus, logHypot_far.
  assert (P95 : 0 <= pow (-95)) by apply bpow_ge_0.
  pose proof (far_error lg (val64 bx) (val64 by_) Hlg ltac:(apply val64_format; destruct Bx; lia) Hy (exponent_range bx Bx ltac:(lra))) as E.
  assert (F : (mag radix2 (val64 bx) - 1 <= -480 \/ 500 <= mag radix2 (val64 bx) - 1)%Z).
  { destruct Hf as [H|H]; [left; apply tiny_exponent; lra|right; apply huge_exponent; lra]. }
  specialize (E F). cbv zeta in E |- *. lra.
Qed.

Lemma log_modulus_abs x y : log_modulus (Rabs x) (Rabs y) = log_modulus x y.
Proof. unfold log_modulus. f_equal. f_equal. rewrite <- !Rabs_mult, !Rabs_pos_eq by (apply Rle_0_sqr). reflexivity. Qed.
Lemma log_modulus_sym x y : log_modulus x y = log_modulus y x.
Proof. unfold log_modulus. f_equal. f_equal. ring. Qed.
Lemma log_modulus_0 x : 0 < x -> log_modulus x 0 = ln x.
Proof. intros H. unfold log_modulus. f_equal. replace (x * x + 0 * 0) with (x * x) by ring. apply sqrt_square. lra. Qed.

Lemma ordered_ok sq lg bx by_ : sq = square_fma \/ sq = sqrX2_split -> good_log lg -> bits64 bx -> bits64 by_ -> 0 <= val64 by_ <= val64 bx -> 0 < val64 bx ->
  exists r, (if Req_EM_T (val64 by_) 0 then
      if Req_EM_T (val64 bx) 0 then Inf true else Num (lg (val64 bx))
    else if Rlt_dec legTiny (val64 bx) then
      if Rlt_dec (val64 bx) legHuge then Num (logHypot_mid sq lg bx by_) else Num (logHypot_far lg bx by_)
    else Num (logHypot_far lg bx by_)) = Num r /\ close r (log_modulus (val64 bx) (val64 by_)).
Proof.
  intros Hsq Hlg Bx By Hy Px. destruct (Req_EM_T (val64 by_) 0) as [E0|N0].
  - destruct (Req_EM_T (val64 bx) 0) as [Z|_]; [lra|]. eexists. split; [reflexivity|]. rewrite E0, log_modulus_0 by lra.
    destruct (Hlg (val64 bx) Px) as (_ & G); [apply val64_format; destruct Bx; lia|]. unfold close.
    assert (0 <= pow (-95)) by apply bpow_ge_0. assert (pow (-52) <= pow (-44)) by (apply bpow_le; lia). pose proof (Rabs_pos (ln (val64 bx))). nra.
  - destruct (Rlt_dec legTiny (val64 bx)) as [T|T]; [destruct (Rlt_dec (val64 bx) legHuge) as [U|U]|].
    + eexists. split; [reflexivity|]. apply logHypot_mid_error; auto; lra.
    + eexists. split; [reflexivity|]. apply far_ok; auto; lra.
    + eexists. split; [reflexivity|]. apply far_ok; auto; lra.
Qed.
Lemma finite_ok sq lg bx by_ : sq = square_fma \/ sq = sqrX2_split -> good_log lg -> bits64 bx -> bits64 by_ -> (val64 bx <> 0 \/ val64 by_ <> 0) ->
  exists r, logHypot sq lg bx by_ = Num r /\ close r (log_modulus (val64 bx) (val64 by_)).
Proof.
  intros Hsq Hlg Bx By N. unfold logHypot. rewrite !decode_finite by assumption. unfold logHypot_finite.
  destruct (abs_bits bx Bx) as (Ax & Vx & Px). destruct (abs_bits by_ By) as (Ay & Vy & Py).
  rewrite <- (log_modulus_abs (val64 bx)), <- Vx, <- Vy.
  assert (NZ : val64 (abs64 bx) <> 0 \/ val64 (abs64 by_) <> 0) by (rewrite Vx, Vy; destruct N as [N|N]; [left|right]; now apply Rabs_no_R0).
  destruct (Rlt_dec (val64 (abs64 bx)) (val64 (abs64 by_))) as [L|L]; cbn [fst snd].
  - rewrite log_modulus_sym. apply ordered_ok; auto; lra.
  - apply ordered_ok; auto; lra.
Qed.
Lemma zero_ok sq lg bx by_ : bits64 bx -> bits64 by_ -> val64 bx = 0 -> val64 by_ = 0 -> logHypot sq lg bx by_ = Inf true.
Proof.
  intros Bx By Zx Zy. unfold logHypot. rewrite !decode_finite by assumption. unfold logHypot_finite.
  destruct (abs_bits bx Bx) as (Ax & Vx & Px). destruct (abs_bits by_ By) as (Ay & Vy & Py). rewrite Zx, Rabs_R0 in Vx. rewrite Zy, Rabs_R0 in Vy.
  destruct (Rlt_dec (val64 (abs64 bx)) (val64 (abs64 by_))) as [L|L]; [lra|]; cbn [fst snd].
  destruct (Req_EM_T (val64 (abs64 by_)) 0); [|contradiction]. destruct (Req_EM_T (val64 (abs64 bx)) 0); [reflexivity|contradiction].
Qed.
Lemma finite_sym sq lg bx by_ : bits64 bx -> bits64 by_ -> logHypot sq lg bx by_ = logHypot sq lg by_ bx.
Proof.
  intros Bx By. unfold logHypot. rewrite !decode_finite by assumption. unfold logHypot_finite.
  destruct (Rlt_dec (val64 (abs64 bx)) (val64 (abs64 by_))) as [L|L], (Rlt_dec (val64 (abs64 by_)) (val64 (abs64 bx))) as [M|M]; cbn [fst snd]; try lra; auto.
  now rewrite (abs_inj bx by_ ltac:(lra)).
Qed.
Lemma same_decode b c : bits64 b -> any64 c -> same_magnitude b c -> bits64 c /\ abs64 c = abs64 b.
Proof.
  intros [R F] C E. unfold same_magnitude in E. split; [split; [exact C|now rewrite <- E]|]. unfold abs64. now rewrite E.
Qed.
Lemma finite_sign sq lg bx by_ cx cy : bits64 bx -> bits64 by_ -> any64 cx -> any64 cy -> same_magnitude bx cx -> same_magnitude by_ cy ->
  logHypot sq lg cx cy = logHypot sq lg bx by_.
Proof.
  intros Bx By Cx Cy Ex Ey. destruct (same_decode _ _ Bx Cx Ex) as [Dx Ax]. destruct (same_decode _ _ By Cy Ey) as [Dy Ay].
  unfold logHypot. rewrite !decode_finite by assumption. unfold logHypot_finite. now rewrite Ax, Ay.
Qed.
