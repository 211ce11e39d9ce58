From Coq Require Import Reals ZArith Lra Lia Bool Psatz.
From Verif Require Import ComplexModel ComplexSpec ComplexProofs CfunModel CfunSpec.
Local Open Scope R_scope.

(** ** Angles *)
Lemma atan2s_ok bit x y : (x <> 0 \/ y <> 0) ->
  sqrt (x * x + y * y) * cos (atan2s bit y x) = x /\ sqrt (x * x + y * y) * sin (atan2s bit y x) = y.
Proof.
  intros H. unfold atan2s. destruct (rlt x 0 && req y 0) eqn:E; [|now apply atan2_ok].
  apply andb_true_iff in E. destruct E as (E1 & E2). apply rltP in E1. apply reqP in E2. subst y.
  replace (x * x + 0 * 0) with (Rsqr x) by (unfold Rsqr; ring). rewrite sqrt_Rsqr_abs, Rabs_left by lra.
  destruct bit; rewrite ?cos_neg, ?sin_neg, cos_PI, sin_PI; split; ring.
Qed.
Lemma atan2_range y x : - PI < atan2 y x <= PI.
Proof. exact (arg_range (mk x y)). Qed.
Lemma atan2s_range bit y x : - PI <= atan2s bit y x <= PI.
Proof.
  unfold atan2s. pose proof PI_RGT_0. destruct (rlt x 0 && req y 0); [destruct bit; lra|]. pose proof (atan2_range y x). lra.
Qed.
(** on the right half plane *)
Lemma atan2_right y x : 0 <= x -> - (PI / 2) <= atan2 y x <= PI / 2.
Proof.
  intros H. unfold atan2. pose proof PI_RGT_0. destruct (rlt 0 x) eqn:E.
  - pose proof (atan_bound (y / x)). lra.
  - apply rltF in E. replace (rlt x 0) with false by (symmetry; apply rltF; lra). destruct (rlt 0 y); [lra|]. destruct (rlt y 0); lra.
Qed.
Lemma atan2_nonneg y x : 0 <= y -> 0 <= x -> 0 <= atan2 y x.
Proof.
  intros Hy H. unfold atan2. pose proof PI_RGT_0. destruct (rlt 0 x) eqn:E.
  - apply rltP in E. rewrite <- atan_0. destruct (Req_dec y 0) as [->|N]; [unfold Rdiv; rewrite Rmult_0_l; lra|].
    left. apply atan_increasing. apply Rdiv_lt_0_compat; lra.
  - apply rltF in E. replace (rlt x 0) with false by (symmetry; apply rltF; lra). destruct (rlt 0 y); [lra|].
    destruct (rlt y 0) eqn:F; [apply rltP in F; lra|lra].
Qed.

(** ** Logarithm *)
Lemma cabs_pos z : z <> zero -> 0 < cabs z.
Proof. exact (mag_pos z). Qed.
Lemma nonzero_cases z : z <> zero -> re z <> 0 \/ im z <> 0.
Proof.
  intros H. destruct (Req_dec (re z) 0) as [E|]; auto. right. intros F. apply H. apply cx_eq; auto.
Qed.
Lemma cexp_eq z : cexp z = mk (exp (re z) * cos (im z)) (exp (re z) * sin (im z)).
Proof. apply cx_eq; unfold cexp, expMul; cbn [re im]; simpl; ring. Qed.
Lemma cexp_log ni z : z <> zero -> cexp (clog ni z) = z.
Proof.
  intros H. rewrite cexp_eq. unfold clog. cbn [re im]. rewrite exp_ln by now apply cabs_pos.
  destruct (atan2s_ok ni (re z) (im z) (nonzero_cases z H)) as (A & B). unfold cabs. apply cx_eq; cbn [re im]; auto.
Qed.
Lemma cexp_nonzero z : cexp z <> zero.
Proof.
  intros H. pose proof (cabs_exp z) as E. rewrite H in E. unfold cabs, zero in E. cbn [re im] in E.
  replace (0 * 0 + 0 * 0) with 0 in E by ring. rewrite sqrt_0 in E. pose proof (exp_pos (re z)). lra.
Qed.
(** angles with equal sine and cosine in (-PI, PI] are equal *)
Lemma angle_unique a b : - PI < a <= PI -> - PI < b <= PI -> cos a = cos b -> sin a = sin b -> a = b.
Proof.
  intros Ha Hb C S. pose proof PI_RGT_0.
  assert (C1 : cos (a - b) = 1) by (rewrite cos_minus, C, S; pose proof (sc1 b); nra).
  assert (S1 : sin ((a - b) / 2) = 0).
  { pose proof (cos_2a_sin ((a - b) / 2)) as D. replace (2 * ((a - b) / 2)) with (a - b) in D by field. rewrite C1 in D. nra. }
  assert (L : - PI < (a - b) / 2 < PI) by lra.
  destruct (Rtotal_order ((a - b) / 2) 0) as [N|[N|N]]; [|lra|].
  - assert (P : 0 < sin (- ((a - b) / 2))) by (apply sin_gt_0; lra). rewrite sin_neg in P. lra.
  - assert (P : 0 < sin ((a - b) / 2)) by (apply sin_gt_0; lra). lra.
Qed.
Lemma clog_range ni z : - PI <= im (clog ni z) <= PI.
Proof. apply atan2s_range. Qed.
Lemma clog_range_plus z : - PI < im (clog false z) <= PI.
Proof.
  unfold clog, atan2s. cbn [im]. pose proof PI_RGT_0. destruct (rlt (re z) 0 && req (im z) 0); [lra|apply atan2_range].
Qed.
Lemma clog_exp z : - PI < im z <= PI -> clog false (cexp z) = z.
Proof.
  intros H. pose proof (cexp_log false (cexp z) (cexp_nonzero z)) as E. pose proof (clog_range_plus (cexp z)) as R.
  assert (RE : re (clog false (cexp z)) = re z) by (unfold clog; cbn [re]; rewrite cabs_exp; apply ln_exp).
  apply cx_eq; auto. rewrite !cexp_eq in E. assert (E1 := f_equal re E). assert (E2 := f_equal im E). cbn [re im] in E1, E2.
  rewrite <- !cexp_eq in E1, E2. rewrite RE in E1, E2. pose proof (exp_pos (re z)).
  apply angle_unique; auto; nra.
Qed.
Lemma clog_exp_minus z : - PI <= im z < PI -> im (cexp z) = 0 -> clog true (cexp z) = z \/ im z = 0.
Proof.
  intros H I. rewrite cexp_eq in I |- *. cbn [im] in I. pose proof (exp_pos (re z)). assert (S0 : sin (im z) = 0) by nra. pose proof PI_RGT_0.
  destruct (Rtotal_order (im z) 0) as [N|[N|N]]; [|now right|].
  - left. assert (im z = - PI).
    { destruct (Req_dec (im z) (- PI)) as [|M]; auto. exfalso. assert (P : 0 < sin (- im z)) by (apply sin_gt_0; lra). rewrite sin_neg in P. lra. }
    unfold clog, cabs, atan2s. cbn [re im]. rewrite H2, cos_neg, sin_neg, cos_PI, sin_PI.
    replace (rlt (exp (re z) * -1) 0) with true by (symmetry; apply rltP; lra).
    replace (req (exp (re z) * - 0) 0) with true by (symmetry; apply reqP; ring). cbn [andb]. apply cx_eq; cbn [re im]; [|lra].
    replace (_ + _) with (Rsqr (exp (re z))) by (unfold Rsqr; ring). rewrite sqrt_Rsqr by lra. apply ln_exp.
  - exfalso. assert (P : 0 < sin (im z)) by (apply sin_gt_0; lra). lra.
Qed.

(** ** Powers *)
Lemma mul_l_eq c z : mul_l c z = mk (c * re z) (c * im z).
Proof. apply cx_eq; unfold mul_l, mul_assign, of_real; cbn [re im cread]; ring. Qed.
Lemma mul_r_eq z c : mul_r z c = mk (re z * c) (im z * c).
Proof. reflexivity. Qed.
Lemma mul_eq z w : mul z w = mk (re z * re w - im z * im w) (re z * im w + im z * re w).
Proof. reflexivity. Qed.
Lemma clog_of_pos ni x : 0 < x -> clog ni (of_real x) = mk (ln x) 0.
Proof.
  intros H. unfold clog, cabs, of_real, atan2s, atan2. cbn [re im].
  replace (rlt x 0) with false by (symmetry; apply rltF; lra). cbn [andb]. rewrite (proj2 (rltP 0 x)) by lra.
  replace (0 / x) with 0 by (unfold Rdiv; ring). rewrite atan_0. f_equal. replace (x * x + 0 * 0) with (Rsqr x) by (unfold Rsqr; ring). rewrite sqrt_Rsqr; lra.
Qed.
Lemma conj_exp z : conj (cexp z) = cexp (conj z).
Proof. rewrite !cexp_eq. unfold conj. cbn [re im]. rewrite cos_neg, sin_neg. apply cx_eq; cbn [re im]; ring. Qed.
Lemma conj_log_neg x : x < 0 -> conj (clog false (of_real x)) = clog true (of_real x).
Proof.
  intros H. unfold clog, conj, of_real, atan2s. cbn [re im]. rewrite (proj2 (rltP x 0)) by lra. rewrite (proj2 (reqP 0 0)) by lra. reflexivity.
Qed.
Lemma pow_rr_pos x c : 0 < x -> pow_rr x c = cexp (mul_l c (clog false (of_real x))).
Proof.
  intros H. unfold pow_rr. rewrite (proj2 (rleP 0 x)) by lra. rewrite clog_of_pos by lra. rewrite mul_l_eq, cexp_eq. cbn [re im].
  rewrite Rmult_0_r, cos_0, sin_0. unfold rpow. rewrite (proj2 (reqF x 0)) by lra. apply cx_eq; cbn [re im]; [|ring]. unfold Rpower. ring.
Qed.
Lemma pow_rr_ok x c : x <> 0 -> pow_rr x c = cexp (mul_l c (clog false (of_real x))).
Proof.
  intros H. destruct (Rlt_dec 0 x); [now apply pow_rr_pos|]. unfold pow_rr. rewrite (proj2 (rleF 0 x)) by lra. reflexivity.
Qed.
Lemma of_real_eta z : im z = 0 -> of_real (re z) = z.
Proof. intros H. apply cx_eq; cbn; auto. Qed.
Lemma pow_cr_ok ni z c : z <> zero -> pow_cr ni z c = cexp (mul_l c (clog ni z)).
Proof.
  intros H. unfold pow_cr. destruct (req (im z) 0) eqn:E; [|reflexivity]. apply reqP in E.
  assert (N : re z <> 0) by (destruct (nonzero_cases z H); auto; congruence). rewrite pow_rr_ok by auto. rewrite of_real_eta by auto.
  destruct ni; [|reflexivity]. rewrite conj_exp. f_equal. rewrite !mul_l_eq. unfold conj. cbn [re im]. f_equal.
  destruct (Rlt_dec (re z) 0) as [L|L].
  - pose proof (conj_log_neg (re z) L) as Q. rewrite of_real_eta in Q by auto. assert (Q2 := f_equal im Q). unfold conj in Q2. cbn [re im] in Q2. rewrite <- Q2. ring.
  - assert (P : 0 < re z) by lra. pose proof (clog_of_pos false (re z) P) as Q. pose proof (clog_of_pos true (re z) P) as Q'.
    rewrite of_real_eta in Q, Q' by auto. rewrite Q, Q'. cbn [im]. ring.
Qed.
Lemma mul_l_mul c z : mul_l c z = mul (of_real c) z.
Proof. rewrite mul_l_eq, mul_eq. unfold of_real. cbn [re im]. apply cx_eq; cbn [re im]; ring. Qed.
Lemma mul_comm_c a b : mul a b = mul b a.
Proof. rewrite !mul_eq. apply cx_eq; cbn [re im]; ring. Qed.
Lemma pow_cc_ok ni z w : z <> zero -> pow_cc ni z w = cexp (mul w (clog ni z)).
Proof.
  intros H. unfold pow_cc. destruct (req (im w) 0) eqn:E.
  - apply reqP in E. rewrite pow_cr_ok by auto. rewrite mul_l_mul, of_real_eta; auto.
  - destruct (req (im z) 0 && rlt 0 (re z)) eqn:F; [|reflexivity]. apply andb_true_iff in F. destruct F as (F1 & F2). apply reqP in F1. apply rltP in F2.
    f_equal. pose proof (clog_of_pos ni (re z) F2) as Q. rewrite of_real_eta in Q by auto. rewrite Q, mul_r_eq, mul_eq. cbn [re im]. apply cx_eq; cbn [re im]; ring.
Qed.
Lemma pow_rc_ok x w : x <> 0 -> pow_rc x w = cexp (mul w (clog false (of_real x))).
Proof.
  intros H. unfold pow_rc. destruct (req (im w) 0) eqn:E.
  - apply reqP in E. rewrite pow_rr_ok by auto. rewrite mul_l_mul, of_real_eta; auto.
  - destruct (rlt 0 x) eqn:F; [|reflexivity]. apply rltP in F. rewrite clog_of_pos by auto. f_equal. rewrite mul_r_eq, mul_eq. cbn [re im]. apply cx_eq; cbn [re im]; ring.
Qed.
Lemma cexp_nat w k : cexp (mul_l (INR k) w) = cpow (cexp w) k.
Proof.
  induction k.
  - rewrite mul_l_eq. cbn [INR cpow]. rewrite !Rmult_0_l. rewrite cexp_eq. cbn [re im]. rewrite exp_0, cos_0, sin_0. f_equal; ring.
  - cbn [cpow]. rewrite <- IHk, <- cexp_plus. f_equal. rewrite !mul_l_eq, S_INR. unfold add, add_assign. cbn [re im cread]. apply cx_eq; cbn [re im]; ring.
Qed.
Lemma cpow_mul a b k : cpow (mul a b) k = mul (cpow a k) (cpow b k).
Proof.
  induction k; cbn [cpow].
  - rewrite mul_eq. cbn [re im]. apply cx_eq; cbn [re im]; ring.
  - rewrite IHk. rewrite !mul_eq. cbn [re im]. apply cx_eq; cbn [re im]; ring.
Qed.
Lemma cpow_exp w k : cpow (cexp w) k = cexp (mul_l (INR k) w).
Proof. symmetry. apply cexp_nat. Qed.

Lemma cexp_mul_0 w : cexp (mul_l 0 w) = of_real 1.
Proof. rewrite mul_l_eq, !Rmult_0_l, cexp_eq. cbn [re im]. rewrite exp_0, cos_0, sin_0. unfold of_real. f_equal; ring. Qed.
Lemma pow_rr_0 x : pow_rr x 0 = of_real 1.
Proof.
  unfold pow_rr. destruct (rle 0 x); [|apply cexp_mul_0]. unfold rpow. destruct (req x 0).
  - rewrite (proj2 (reqP 0 0)) by reflexivity. reflexivity.
  - unfold Rpower. rewrite Rmult_0_l, exp_0. reflexivity.
Qed.
Lemma pow_cr_0 ni z : pow_cr ni z 0 = of_real 1.
Proof.
  unfold pow_cr. destruct (req (im z) 0); [|apply cexp_mul_0]. rewrite pow_rr_0. destruct ni; [|reflexivity].
  unfold conj, of_real. cbn [re im]. f_equal. ring.
Qed.

(** ** The double-length helpers are exact on reals *)
Lemma sqrError_exact hh x p : sqrError hh x p = x * x - p.
Proof. unfold sqrError. ring. Qed.
Lemma normMinusOne_exact hh x y : normMinusOne hh x y = x * x + y * y - 1.
Proof.
  unfold normMinusOne, addX1, addSmallX2', addX2, addSmallX2, sqrX2. rewrite !sqrError_exact. cbn [fst snd]. ring.
Qed.

(** ** Square roots with a sign bit *)
Lemma root_cases n ni z : (0 < n_digits n)%Z -> bit_ok ni (im z) ->
  root n ni z = (if rlt (re z) 0 && req (im z) 0 && n_signed n && ni then conj (sqrt_mp (n_legTiny n) (n_digits n) z)
                 else sqrt_mp (n_legTiny n) (n_digits n) z).
Proof.
  intros Hd (B1 & B2). unfold root, sqrt_mp, csqrt. destruct (fabs true (sqrt 2) 0 (sqrt 2 + 1) (n_legTiny n) (n_digits n) z) as (rho & e) eqn:F.
  destruct (e =? 0)%Z eqn:E.
  - apply Z.eqb_eq in E. subst e. destruct (Req_dec (re z) 0) as [Z1|Z1], (Req_dec (im z) 0) as [Z2|Z2].
    + replace (rlt (re z) 0) with false by (symmetry; apply rltF; lra). reflexivity.
    + exfalso. assert (N : z <> zero) by (intros ->; apply Z2; reflexivity). pose proof sqrt2_bounds.
      destruct (fabs_spec true (sqrt 2) 0 (sqrt 2 + 1) (n_legTiny n) (n_digits n) z 0 Hd) as (r & e & Q & Q2 & _); auto; try lra.
      { replace (sqrt 2 - sqrt 2) with 0 by ring. replace (0 + (sqrt 2 + 1) - (1 + sqrt 2)) with 0 by ring. rewrite Rabs_R0; lra. }
      rewrite F in Q. assert (Q3 := f_equal snd Q). cbn [snd] in Q3. lia.
    + exfalso. assert (N : z <> zero) by (intros ->; apply Z1; reflexivity). pose proof sqrt2_bounds.
      destruct (fabs_spec true (sqrt 2) 0 (sqrt 2 + 1) (n_legTiny n) (n_digits n) z 0 Hd) as (r & e & Q & Q2 & _); auto; try lra.
      { replace (sqrt 2 - sqrt 2) with 0 by ring. replace (0 + (sqrt 2 + 1) - (1 + sqrt 2)) with 0 by ring. rewrite Rabs_R0; lra. }
      rewrite F in Q. assert (Q3 := f_equal snd Q). cbn [snd] in Q3. lia.
    + exfalso. assert (N : z <> zero) by (intros ->; apply Z1; reflexivity). pose proof sqrt2_bounds.
      destruct (fabs_spec true (sqrt 2) 0 (sqrt 2 + 1) (n_legTiny n) (n_digits n) z 0 Hd) as (r & e & Q & Q2 & _); auto; try lra.
      { replace (sqrt 2 - sqrt 2) with 0 by ring. replace (0 + (sqrt 2 + 1) - (1 + sqrt 2)) with 0 by ring. rewrite Rabs_R0; lra. }
      rewrite F in Q. assert (Q3 := f_equal snd Q). cbn [snd] in Q3. lia.
  - set (q := ldexp (sqrt _) _). assert (Q0 : 0 <= q).
    { unfold q, ldexp. apply Rmult_le_pos; [apply sqrt_pos|]. left. apply pow2_pos. }
    clearbody q. destruct (Rlt_dec (re z) 0) as [L|L].
    + rewrite (proj2 (rltP (re z) 0)) by auto. rewrite (proj2 (rleF 0 (re z))) by auto. cbn [andb].
      unfold copy_sign, copySign. rewrite (Rabs_right q) by lra.
      destruct (Rtotal_order (im z) 0) as [I|[I|I]].
      * rewrite (B1 I). rewrite (proj2 (rltP (im z) 0)) by auto. rewrite (proj2 (reqF (im z) 0)) by lra. cbn [andb]. destruct (n_signed n); reflexivity.
      * rewrite (proj2 (rltF (im z) 0)) by lra. rewrite (proj2 (reqP (im z) 0)) by auto. cbn [andb].
        destruct (n_signed n); [|reflexivity]. destruct ni; reflexivity.
      * rewrite (B2 I). rewrite (proj2 (rltF (im z) 0)) by lra. rewrite (proj2 (reqF (im z) 0)) by lra. cbn [andb]. destruct (n_signed n); reflexivity.
    + rewrite (proj2 (rltF (re z) 0)) by lra. rewrite (proj2 (rleP 0 (re z))) by lra. reflexivity.
Qed.
Lemma root_ok n ni x y : (0 < n_digits n)%Z -> bit_ok ni y ->
  let w := root n ni (mk x y) in
  re w * re w - im w * im w = x /\ 2 * (re w * im w) = y /\ 0 <= re w
  /\ (y = 0 -> x < 0 -> re w = 0 /\ im w = if n_signed n && ni then - sqrt (- x) else sqrt (- x)).
Proof.
  intros Hd Hb w. unfold w. rewrite root_cases by auto. cbn [re im].
  destruct (csqrt_exact (n_legTiny n) (n_digits n) (mk x y) Hd) as (A & B & C).
  set (s := sqrt_mp _ _ _) in *. clearbody s. rewrite mul_eq in A. assert (A1 := f_equal re A). assert (A2 := f_equal im A). cbn [re im] in A1, A2. clear A w.
  assert (N : y = 0 -> x < 0 -> re s = 0 /\ im s = sqrt (- x)).
  { intros Hy Hx. assert (R0 : re s = 0). { assert (P0 : re s * im s = 0) by lra. apply Rmult_integral in P0. destruct P0 as [|P0]; auto. exfalso. rewrite P0 in A1. pose proof (Rle_0_sqr (re s)) as Z0. unfold Rsqr in Z0. lra. }
    split; auto. specialize (C R0). symmetry. apply sqrt_lem_1; try lra. rewrite R0 in A1. lra. }
  destruct (rlt x 0 && req y 0) eqn:G.
  - apply andb_true_iff in G. destruct G as (G1 & G2). apply rltP in G1. apply reqP in G2. destruct (N G2 G1) as (N1 & N2). cbn [andb].
    destruct (n_signed n && ni) eqn:E; unfold conj; cbn [re im]; (split; [nra|split; [nra|split; [lra|intros _ _; split; lra]]]).
  - cbn [andb]. split; [lra|split; [lra|split; [lra|]]].
    intros Hy Hx. exfalso. rewrite (proj2 (rltP x 0)), (proj2 (reqP y 0)) in G by auto. discriminate.
Qed.

(** ** Real area sine *)
Lemma rasinh_sinh x : sinh (rasinh x) = x.
Proof.
  unfold rasinh, sinh. set (s := sqrt (x * x + 1)). assert (S2 : s * s = x * x + 1) by (apply sqrt_sqrt; nra).
  assert (S0 : 0 <= s) by apply sqrt_pos. assert (P : 0 < x + s) by nra. rewrite exp_Ropp, exp_ln by auto.
  assert (Q : / (x + s) = s - x) by (apply (Rmult_eq_reg_l (x + s)); [rewrite Rinv_r by lra; nra|lra]). rewrite Q. lra.
Qed.
Lemma rasinh_cosh x c : 0 <= c -> c * c = x * x + 1 -> cosh (rasinh x) = c.
Proof.
  intros H0 H. pose proof (cosh_sinh (rasinh x)) as C. rewrite rasinh_sinh in C. pose proof (cosh_ge1 (rasinh x)). nra.
Qed.
Lemma rasinh_nonneg x : 0 <= x -> 0 <= rasinh x.
Proof.
  intros H. unfold rasinh. set (s := sqrt (x * x + 1)). assert (S2 : s * s = x * x + 1) by (apply sqrt_sqrt; nra).
  assert (S0 : 0 <= s) by apply sqrt_pos. destruct (Req_dec (x + s) 1) as [E|E]; [rewrite E, ln_1; lra|]. rewrite <- ln_1. left. apply ln_increasing; nra.
Qed.
Lemma rasinh_neg x : x < 0 -> rasinh x < 0.
Proof.
  intros H. unfold rasinh. set (s := sqrt (x * x + 1)). assert (S2 : s * s = x * x + 1) by (apply sqrt_sqrt; nra).
  assert (S0 : 0 <= s) by apply sqrt_pos. rewrite <- ln_1. apply ln_increasing; nra.
Qed.
Lemma rasinh_opp x : rasinh (- x) = - rasinh x.
Proof.
  unfold rasinh. replace (- x * - x) with (x * x) by ring. set (s := sqrt (x * x + 1)). assert (S2 : s * s = x * x + 1) by (apply sqrt_sqrt; nra).
  assert (S0 : 0 <= s) by apply sqrt_pos. assert (0 < x + s) by nra. rewrite <- ln_Rinv by auto. f_equal. apply (Rmult_eq_reg_l (x + s)); [rewrite Rinv_r by lra; nra|lra].
Qed.
Lemma sq_le x y : 0 <= y -> x * x <= y * y -> x <= y.
Proof. intros H0 H. apply Rnot_lt_le. intros L. nra. Qed.
Lemma ln_le1 x : 0 < x -> ln x <= x - 1.
Proof. intros H. pose proof (exp_ineq1_le (ln x)). rewrite exp_ln in H0 by auto. lra. Qed.
Lemma ln_quot x y : 0 < x -> 0 < y -> ln (x / y) = ln x - ln y.
Proof. intros Hx Hy. unfold Rdiv. rewrite ln_mult by (auto; now apply Rinv_0_lt_compat). rewrite ln_Rinv by auto. ring. Qed.
Lemma ln_mono x y : 0 < x -> x <= y -> ln x <= ln y.
Proof. intros H [L| ->]; [left; now apply ln_increasing|lra]. Qed.

(** the scaled evaluation of asinh: [a] the scale, [a * b] the argument *)
Lemma unscale_pos a b K : 1 <= a -> 0 < b -> 0 < K -> K <= b * b ->
  0 <= unscale a (rasinh b) - rasinh (a * b) <= / (4 * K).
Proof.
  intros Ha Hb HK HKb. unfold unscale. rewrite (proj2 (reqF a 0)) by lra. rewrite (proj2 (rleP 0 (rasinh b))) by (apply rasinh_nonneg; lra).
  unfold rasinh. set (s := sqrt (b * b + 1)). assert (S2 : s * s = b * b + 1) by (apply sqrt_sqrt; nra). assert (S0 : 0 <= s) by apply sqrt_pos.
  set (t := sqrt (a * b * (a * b) + 1)). assert (T2 : t * t = a * b * (a * b) + 1) by (apply sqrt_sqrt; nra). assert (T0 : 0 <= t) by apply sqrt_pos.
  assert (P : 0 < b + s) by lra. assert (AB : 0 < a * b) by nra. assert (AB2 : a * b < t) by nra.
  rewrite <- ln_mult by lra.
  assert (TS : t <= (b + s) * a - a * b). { assert (t <= s * a) by (apply sq_le; nra). lra. }
  split.
  - assert (ln (a * b + t) <= ln ((b + s) * a)) by (apply ln_mono; lra). lra.
  - assert (Q : ln ((b + s) * a) - ln (a * b + t) = ln ((b + s) * a / (a * b + t))) by (rewrite ln_quot; nra).
    rewrite Q. apply Rle_trans with ((b + s) * a / (a * b + t) - 1); [apply ln_le1; apply Rdiv_lt_0_compat; nra|].
    assert (U : (b + s) * a / (a * b + t) <= (b + s) * a / (2 * (a * b))).
    { apply Rmult_le_compat_l; [nra|]. apply Rinv_le_contravar; lra. }
    assert (V : (b + s) * a / (2 * (a * b)) = (b + s) / (2 * b)) by (field; lra). rewrite V in U.
    assert (SB : s <= b + / (2 * b)). { assert (s * s <= (b + / (2 * b)) * (b + / (2 * b))). { assert (I : b * / (2 * b) = / 2) by (field; lra). assert (0 < / (2 * b)) by (apply Rinv_0_lt_compat; lra). nra. }
      assert (0 < / (2 * b)) by (apply Rinv_0_lt_compat; lra). apply sq_le; lra. }
    assert (W : (b + s) / (2 * b) <= (2 * b + / (2 * b)) / (2 * b)). { apply Rmult_le_compat_r; [left; apply Rinv_0_lt_compat; lra|lra]. }
    assert (X : (2 * b + / (2 * b)) / (2 * b) = 1 + / (4 * (b * b))) by (field; lra).
    assert (Y : / (4 * (b * b)) <= / (4 * K)) by (apply Rinv_le_contravar; lra). lra.
Qed.
Lemma unscale_opp a b : 0 < b -> unscale a (rasinh (- b)) = - unscale a (rasinh b).
Proof.
  intros H. unfold unscale. destruct (req a 0); [apply rasinh_opp|]. rewrite (proj2 (rleP 0 (rasinh b))) by (apply rasinh_nonneg; lra).
  rewrite (proj2 (rleF 0 (rasinh (- b)))) by (apply rasinh_neg; lra). rewrite rasinh_opp. ring.
Qed.
Lemma unscale_error a b K : 1 <= a -> 0 < K -> K <= b * b -> Rabs (unscale a (rasinh b) - rasinh (a * b)) <= / (4 * K).
Proof.
  intros Ha HK HKb. destruct (Rtotal_order b 0) as [L|[L|L]].
  - replace b with (- - b) by ring. rewrite unscale_opp by lra. replace (a * - - b) with (- (a * - b)) by ring. rewrite (rasinh_opp (a * - b)).
    pose proof (unscale_pos a (- b) K Ha ltac:(lra) HK ltac:(nra)). rewrite Rabs_left1; lra.
  - subst b. nra.
  - pose proof (unscale_pos a b K Ha L HK HKb). rewrite Rabs_right; lra.
Qed.
(** whichever branch computes it: beta2 = beta * scale and beta2^2 = A (A - 2) with scale^2 <= A *)
Lemma branch_error (B a b t A : R) : 2 <= B -> B < a -> a * b = t -> t * t = A * (A - 2) -> a * a <= A -> Rabs (unscale a (rasinh b) - rasinh t) <= / (2 * (B * B)).
Proof.
  intros HB Ha E HT HA. rewrite <- E.
  assert (Q : B * B / 2 <= b * b).
  { assert (A2 : a * a - 2 <= b * b). { assert (a * a * (b * b) = A * (A - 2)) by (rewrite <- HT, <- E; ring). assert (a * a * (a * a - 2) <= A * (A - 2)) by (assert (4 <= a * a) by nra; apply Rmult_le_compat; lra).
      apply (Rmult_le_reg_l (a * a)); [nra|lra]. } nra. }
  eapply Rle_trans; [apply (unscale_error a b (B * B / 2)); nra|]. right. field. lra.
Qed.
Lemma unscale0 v : unscale 0 v = v.
Proof. unfold unscale. now rewrite (proj2 (reqP 0 0)). Qed.

(** ** Inverse cosine *)
Lemma two_roots (pr pi qr qi t : R) : pr * pi = t -> qr * qi = t -> pr * pr - pi * pi + (qr * qr - qi * qi) = 2 ->
  let A := pr * pr + qr * qr in let b := pr * qi + pi * qr in 2 <= A /\ b * b = A * (A - 2).
Proof.
  intros H1 H2 H3 A b. unfold A, b. split; [nra|].
  replace ((pr * qi + pi * qr) * (pr * qi + pi * qr)) with (pr * pr * (qi * qi) + (pr * pi) * (qr * qi) + (pr * pi) * (qr * qi) + qr * qr * (pi * pi)) by ring.
  replace ((pr * pi) * (qr * qi) + (pr * pi) * (qr * qi)) with ((pr * pi) * (pr * pi) + (qr * qi) * (qr * qi)) by (rewrite H1, H2; ring).
  replace (pr * pr + qr * qr - 2) with (pi * pi + qi * qi) by lra.
  replace (pr * pr * (qi * qi) + pr * pi * (qr * qi) + pr * pi * (qr * qi) + qr * qr * (pi * pi)) with (pr * pr * (qi * qi) + (pr * pi * (pr * pi) + qr * qi * (qr * qi)) + qr * qr * (pi * pi)) by (rewrite H1, H2; ring). ring.
Qed.

Lemma bit_neg b x : bit_ok b x -> bit_ok (negb b) (- x).
Proof. intros (A & B). split; intros H; [rewrite B by lra|rewrite A by lra]; reflexivity. Qed.
(** the angle 2 atan2(q, p) *)
Lemma double_angle q p A : p * p + q * q = A -> 0 < A ->
  A * cos (2 * atan2 q p) = p * p - q * q /\ A * sin (2 * atan2 q p) = 2 * p * q.
Proof.
  intros E HA. destruct (atan2_ok p q) as (C & S).
  { destruct (Req_dec p 0) as [->|]; auto. right. intros ->. lra. }
  rewrite E in C, S. set (t := atan2 q p) in *. assert (R : sqrt A * sqrt A = A) by (apply sqrt_sqrt; lra).
  rewrite cos_2a, sin_2a. rewrite <- C, <- S. set (r := sqrt A) in *. rewrite <- R. split; ring.
Qed.
Lemma moderate_leg n x y u v : 0 < n_arcBig n -> u * u - v * v = x -> 2 * (u * v) = y -> sqrt (x * x + y * y) <= n_arcBig n * n_arcBig n ->
  u <= n_arcBig n /\ v <= n_arcBig n /\ - n_arcBig n <= v.
Proof.
  intros HB Hx Hy H. set (B := n_arcBig n) in *.
  assert (E : sqrt (x * x + y * y) = u * u + v * v).
  { replace (x * x + y * y) with ((u * u + v * v) * (u * u + v * v)) by (subst x y; ring). apply sqrt_square. nra. }
  rewrite E in H. repeat split; [apply sq_le; nra|apply sq_le; nra|]. assert (- v <= B) by (apply sq_le; nra). lra.
Qed.
Lemma modulus_shift x y : sqrt ((1 + x) * (1 + x) + y * y) <= sqrt (x * x + y * y) + 1.
Proof.
  pose proof (triangle (mk x y) (mk 1 0)) as T. unfold cabs, add, add_assign in T. cbn [re im cread] in T.
  replace (1 * 1 + 0 * 0) with 1 in T by ring. rewrite sqrt_1 in T. replace (x + 1) with (1 + x) in T by ring. replace (y + 0) with y in T by ring. exact T.
Qed.
Lemma cacos_ok n ni z : good_num n -> 2 <= n_arcBig n -> bit_ok ni (im z) ->
  let w := cacos n ni z in
  exists v, ccos (mk (re w) v) = z /\ 0 <= re w <= PI /\ Rabs (im w - v) <= / (2 * (n_arcBig n * n_arcBig n)) /\ (moderate n z -> im w = v).
Proof.
  intros (Hd & HB & _) HB2 Hb w. unfold w, cacos. set (x := re z) in *. set (y := im z) in *.
  assert (Hb' := bit_neg _ _ Hb). pose proof (root_ok n (negb ni) (1 + x) (- y) Hd Hb') as P. pose proof (root_ok n (negb ni) (1 - x) (- y) Hd Hb') as Q.
  set (p := root n (negb ni) (mk (1 + x) (- y))) in *. set (q := root n (negb ni) (mk (1 - x) (- y))) in *.
  cbv zeta in P, Q. destruct P as (P1 & P2 & P3 & _). destruct Q as (Q1 & Q2 & Q3 & _).
  assert (HP : moderate n z -> re p <= n_arcBig n /\ im p <= n_arcBig n /\ - n_arcBig n <= im p).
  { intros M. apply (moderate_leg n (1 + x) (- y)); auto. unfold moderate, cabs in M. fold x y in M. pose proof (modulus_shift x y). replace (- y * - y) with (y * y) by ring. lra. }
  clearbody p q. set (pr := re p) in *. set (pi := im p) in *. set (qr := re q) in *. set (qi := im q) in *. set (B := n_arcBig n) in *.
  destruct (two_roots pr pi qr qi (- y / 2)) as (A2 & T2); try lra. set (A := pr * pr + qr * qr) in *. set (t := pr * qi + pi * qr) in *.
  destruct (double_angle qr pr A eq_refl ltac:(lra)) as (DC & DS).
  set (u := 2 * atan2 qr pr) in *.
  assert (CH : cosh (rasinh t) = A - 1) by (apply rasinh_cosh; lra).
  match goal with |- exists v, ccos (mk (re ?G) v) = z /\ _ =>
    assert (F : exists V, G = mk u V /\ Rabs (V - rasinh t) <= / (2 * (B * B)) /\ (moderate n z -> V = rasinh t)) end.
  { assert (E0 : 0 <= / (2 * (B * B))) by (left; apply Rinv_0_lt_compat; clear - HB2; nra).
    destruct (rlt B pr) eqn:L1; [|destruct (rlt B pi) eqn:L2; [|destruct (rlt pi (- B)) eqn:L3]]; (eexists; split; [reflexivity|split]).
    - apply rltP in L1. apply (branch_error B pr _ t A); auto; [unfold t; field; lra|unfold A; clear - P1 Q1; nra].
    - intros M. apply rltP in L1. destruct (HP M) as (M1 & M2 & M3). lra.
    - apply rltP in L2. apply (branch_error B pi _ t A); auto; [unfold t; field; lra|unfold A; clear - P1 Q1; nra].
    - intros M. apply rltP in L2. destruct (HP M) as (M1 & M2 & M3). lra.
    - apply rltP in L3. apply (branch_error B (- pi) _ t A); auto; [lra|unfold t; field; lra|unfold A; clear - P1 Q1; nra].
    - intros M. apply rltP in L3. destruct (HP M) as (M1 & M2 & M3). lra.
    - rewrite unscale0. fold t. rewrite Rminus_diag_eq, Rabs_R0 by auto. auto.
    - intros _. rewrite unscale0. reflexivity. }
  destruct F as (V & -> & F2 & F3). cbn [re im]. exists (rasinh t). split; [|split; [|split; auto]].
  - unfold ccos. cbn [re im]. rewrite rasinh_sinh, CH. apply cx_eq; cbn [re im].
    + fold x. apply (Rmult_eq_reg_l A); [|lra]. replace (A * ((A - 1) * cos u)) with ((A - 1) * (A * cos u)) by ring. rewrite DC.
      assert (E1 : 2 * x = (pr * pr - qr * qr) - (pi * pi - qi * qi)) by lra.
      assert (E2 : (pi * pi - qi * qi) * A = - (pr * pr - qr * qr) * (A - 2)).
      { replace (A - 2) with (pi * pi + qi * qi) by (unfold A; lra). unfold A. assert (pr * pi * (pr * pi) = qr * qi * (qr * qi)) by (replace (pr * pi) with (qr * qi) by lra; ring). lra. }
      assert (E3 : A * (2 * x) = A * (pr * pr - qr * qr) - (pi * pi - qi * qi) * A) by (rewrite E1; ring). rewrite E2 in E3. lra.
    + fold y. apply (Rmult_eq_reg_l A); [|lra]. replace (A * (- t * sin u)) with (- t * (A * sin u)) by ring. rewrite DS. unfold t, A.
      replace (- (pr * qi + pi * qr) * (2 * pr * qr)) with (- (pr * pr * (2 * (qr * qi)) + qr * qr * (2 * (pr * pi)))) by ring. rewrite P2, Q2. ring.
  - unfold u. pose proof (atan2_right qr pr P3). pose proof (atan2_nonneg qr pr Q3 P3). lra.
Qed.

(** ** Inverse hyperbolic sine *)
Lemma casinh_ok n nr z : good_num n -> 2 <= n_arcBig n -> bit_ok nr (re z) ->
  let w := casinh n nr z in
  exists u, csinh (mk u (im w)) = z /\ - (PI / 2) <= im w <= PI / 2 /\ Rabs (re w - u) <= / (2 * (n_arcBig n * n_arcBig n)) /\ (moderate n z -> re w = u).
Proof.
  intros (Hd & HB & _) HB2 Hb w. unfold w, casinh. set (x := re z) in *. set (y := im z) in *.
  assert (Hb' := bit_neg _ _ Hb). pose proof (root_ok n nr (1 - y) x Hd Hb) as P. pose proof (root_ok n (negb nr) (1 + y) (- x) Hd Hb') as Q.
  set (p := root n nr (mk (1 - y) x)) in *. set (q := root n (negb nr) (mk (1 + y) (- x))) in *.
  cbv zeta in P, Q. destruct P as (P1 & P2 & P3 & _). destruct Q as (Q1 & Q2 & Q3 & _).
  assert (HP : moderate n z -> re p <= n_arcBig n /\ im p <= n_arcBig n /\ - n_arcBig n <= im p).
  { intros M. apply (moderate_leg n (1 - y) x); auto. unfold moderate, cabs in M. fold x y in M. pose proof (modulus_shift (- y) x) as H.
    replace (- y * - y + x * x) with (x * x + y * y) in H by ring. replace (1 + - y) with (1 - y) in H by ring. lra. }
  replace (re (mul p q)) with (re p * re q - im p * im q) by reflexivity.
  clearbody p q. set (pr := re p) in *. set (pi := im p) in *. set (qr := re q) in *. set (qi := im q) in *. set (B := n_arcBig n) in *.
  destruct (two_roots pr pi qr (- qi) (x / 2)) as (A2 & T2); try lra. set (A := pr * pr + qr * qr) in *.
  assert (TE : pr * - qi + pi * qr = pi * qr - pr * qi) by ring. rewrite TE in T2. clear TE. set (t := pi * qr - pr * qi) in *.
  set (c := pr * qr - pi * qi) in *.
  assert (CH : cosh (rasinh t) = A - 1) by (apply rasinh_cosh; lra).
  assert (A1 : A - 1 = (pr * pr + qr * qr + pi * pi + qi * qi) / 2) by (unfold A; lra).
  assert (CY : c * c + y * y = (A - 1) * (A - 1)).
  { assert (Y : y = (qr * qr - qi * qi - pr * pr + pi * pi) / 2) by lra.
    assert (E1 : (A - 1 - y) * (A - 1 + y) = (pr * pr + qi * qi) * (qr * qr + pi * pi)) by (rewrite A1, Y; field).
    assert (E2 : c * c = (pr * pr + qi * qi) * (qr * qr + pi * pi)).
    { unfold c. assert (X1 : pr * pi = x / 2) by lra. assert (X2 : qr * qi = - x / 2) by lra.
      replace ((pr * qr - pi * qi) * (pr * qr - pi * qi)) with (pr * pr * (qr * qr) - (pr * pi) * (qr * qi) - (pr * pi) * (qr * qi) + pi * pi * (qi * qi)) by ring.
      replace ((pr * pr + qi * qi) * (qr * qr + pi * pi)) with (pr * pr * (qr * qr) + (pr * pi) * (pr * pi) + (qr * qi) * (qr * qi) + pi * pi * (qi * qi)) by ring.
      rewrite X1, X2. field. }
    rewrite E2, <- E1. ring. }
  assert (TC : t * c = x * (A - 1)).
  { rewrite A1. unfold t, c. replace ((pi * qr - pr * qi) * (pr * qr - pi * qi)) with ((pr * pi) * (qr * qr + qi * qi) - (qr * qi) * (pr * pr + pi * pi)) by ring.
    replace (pr * pi) with (x / 2) by lra. replace (qr * qi) with (- x / 2) by lra. field. }
  assert (C0 : 0 <= c).
  { unfold c. assert (X1 : pr * pi = x / 2) by lra. assert (X2 : qr * qi = - x / 2) by lra.
    assert (X3 : (pr * qr) * (pi * qi) = - (x * x / 4)) by (replace (pr * qr * (pi * qi)) with ((pr * pi) * (qr * qi)) by ring; rewrite X1, X2; field).
    destruct (Req_dec (pr * qr) 0) as [Z|Z].
    - apply Rmult_integral in Z. destruct Z as [Z|Z].
      + rewrite Z in *. assert (qi = 0) by nra. rewrite H. lra.
      + rewrite Z in *. assert (pi = 0) by nra. rewrite H. lra.
    - assert (0 < pr * qr) by nra. assert (0 <= x * x) by nra. nra. }
  match goal with |- exists u, csinh (mk u (im ?G)) = z /\ _ =>
    assert (F : exists V, G = mk V (atan2 y c) /\ Rabs (V - rasinh t) <= / (2 * (B * B)) /\ (moderate n z -> V = rasinh t)) end.
  { assert (E0 : 0 <= / (2 * (B * B))) by (left; apply Rinv_0_lt_compat; clear - HB2; nra).
    destruct (rlt B pr) eqn:L1; [|destruct (rlt B pi) eqn:L2; [|destruct (rlt pi (- B)) eqn:L3]]; (eexists; split; [reflexivity|split]).
    - apply rltP in L1. apply (branch_error B pr _ t A); auto; [unfold t; field; lra|unfold A; clear - P1 Q1; nra].
    - intros M. apply rltP in L1. destruct (HP M) as (M1 & M2 & M3). lra.
    - apply rltP in L2. apply (branch_error B pi _ t A); auto; [unfold t; field; lra|unfold A; clear - P1 Q1; nra].
    - intros M. apply rltP in L2. destruct (HP M) as (M1 & M2 & M3). lra.
    - apply rltP in L3. apply (branch_error B (- pi) _ t A); auto; [lra|unfold t; field; lra|unfold A; clear - P1 Q1; nra].
    - intros M. apply rltP in L3. destruct (HP M) as (M1 & M2 & M3). lra.
    - rewrite unscale0. fold t. rewrite Rminus_diag_eq, Rabs_R0 by auto. auto.
    - intros _. rewrite unscale0. reflexivity. }
  destruct F as (V & -> & F2 & F3). cbn [re im]. exists (rasinh t). split; [|split; [|split; auto]].
  - destruct (atan2_ok c y) as (D1 & D2). { destruct (Req_dec c 0) as [->|]; auto. right. intros ->. nra. }
    rewrite CY, sqrt_square in D1, D2 by lra. unfold csinh. cbn [re im]. rewrite rasinh_sinh, CH. apply cx_eq; cbn [re im]; [|exact D2].
    fold x. apply (Rmult_eq_reg_l (A - 1)); [|lra]. replace ((A - 1) * (t * cos (atan2 y c))) with (t * ((A - 1) * cos (atan2 y c))) by ring. rewrite D1. lra.
  - apply atan2_right. exact C0.
Qed.

(** ** Inverse hyperbolic cosine *)
Lemma cacosh_ok n ni z : good_num n -> 2 <= n_arcBig n -> bit_ok ni (im z) ->
  let w := cacosh n ni z in
  exists u, ccosh (mk u (im w)) = z /\ - PI <= im w <= PI /\ Rabs (re w - u) <= / (2 * (n_arcBig n * n_arcBig n)) /\ (moderate n z -> re w = u)
    /\ (n_signed n = true \/ im z <> 0 \/ - 1 <= re z -> 0 <= u)
    /\ (n_signed n = false -> im z = 0 -> re z < - 1 -> u < 0).
Proof.
  intros (Hd & HB & _) HB2 Hb w. unfold w, cacosh. set (x := re z) in *. set (y := im z) in *.
  assert (Hb' := bit_neg _ _ Hb). pose proof (root_ok n (negb ni) (x - 1) (- y) Hd Hb') as P. pose proof (root_ok n ni (x + 1) y Hd Hb) as Q.
  pose proof (root_ok n ni (x - 1) y Hd Hb) as S0.
  set (p := root n (negb ni) (mk (x - 1) (- y))) in *. set (q := root n ni (mk (x + 1) y)) in *. set (s := root n ni (mk (x - 1) y)) in *.
  cbv zeta in P, Q, S0. destruct P as (P1 & P2 & P3 & P4). destruct Q as (Q1 & Q2 & Q3 & Q4). destruct S0 as (S1 & S2 & S3 & S4).
  assert (HP : moderate n z -> re p <= n_arcBig n /\ im p <= n_arcBig n /\ - n_arcBig n <= im p).
  { intros M. apply (moderate_leg n (x - 1) (- y)); auto. unfold moderate, cabs in M. fold x y in M. pose proof (modulus_shift (- x) y) as H.
    replace (- x * - x) with (x * x) in H by ring. replace ((1 + - x) * (1 + - x)) with ((x - 1) * (x - 1)) in H by ring. replace (- y * - y) with (y * y) by ring. lra. }
  clearbody p q s. set (pr := re p) in *. set (pi := im p) in *. set (qr := re q) in *. set (qi := im q) in *. set (sr := re s) in *. set (si := im s) in *. set (B := n_arcBig n) in *.
  assert (SP : si * si = pi * pi).
  { assert (E1 : (sr * sr + si * si) * (sr * sr + si * si) = (pr * pr + pi * pi) * (pr * pr + pi * pi)).
    { replace ((sr * sr + si * si) * (sr * sr + si * si)) with ((sr * sr - si * si) * (sr * sr - si * si) + (2 * (sr * si)) * (2 * (sr * si))) by ring.
      replace ((pr * pr + pi * pi) * (pr * pr + pi * pi)) with ((pr * pr - pi * pi) * (pr * pr - pi * pi) + (2 * (pr * pi)) * (2 * (pr * pi))) by ring.
      rewrite S1, S2, P1, P2. ring. }
    assert (E2 : sr * sr + si * si = pr * pr + pi * pi).
    { assert (0 <= sr * sr + si * si) by nra. assert (0 <= pr * pr + pi * pi) by nra. apply Rle_antisym; apply sq_le; lra. }
    lra. }
  destruct (two_roots qr qi pi (- pr) (y / 2)) as (A2 & T2); try lra. set (A := qr * qr + pi * pi) in *.
  assert (TE : qr * - pr + qi * pi = - (pr * qr - pi * qi)) by ring. rewrite TE in T2. clear TE. set (t := pr * qr - pi * qi) in *.
  assert (T3 : t * t = A * (A - 2)) by (rewrite <- T2; ring). clear T2.
  destruct (double_angle si qr A) as (DC & DS); [unfold A; lra|lra|]. set (v := 2 * atan2 si qr) in *.
  assert (CH : cosh (rasinh t) = A - 1) by (apply rasinh_cosh; lra).
  match goal with |- exists u, ccosh (mk u (im ?G)) = z /\ _ =>
    assert (F : exists V, G = mk V v /\ Rabs (V - rasinh t) <= / (2 * (B * B)) /\ (moderate n z -> V = rasinh t)) end.
  { assert (E0 : 0 <= / (2 * (B * B))) by (left; apply Rinv_0_lt_compat; clear - HB2; nra).
    destruct (rlt B pr) eqn:L1; [|destruct (rlt B pi) eqn:L2]; (eexists; split; [reflexivity|split]).
    - apply rltP in L1. apply (branch_error B pr _ t A); auto; [unfold t; field; lra|unfold A; clear - P1 Q1; nra].
    - intros M. apply rltP in L1. destruct (HP M) as (M1 & M2 & M3). lra.
    - apply rltP in L2. apply (branch_error B pi _ t A); auto; [unfold t; field; lra|unfold A; clear - P1 Q1; nra].
    - intros M. apply rltP in L2. destruct (HP M) as (M1 & M2 & M3). lra.
    - rewrite unscale0. fold t. rewrite Rminus_diag_eq, Rabs_R0 by auto. auto.
    - intros _. rewrite unscale0. reflexivity. }
  (* the conjugate root, off the real axis *)
  assert (CJ : y <> 0 -> t = sr * qr + si * qi).
  { intros Hy. assert (sr * sr = pr * pr) by lra. assert (E : sr = pr) by (apply Rle_antisym; apply sq_le; lra).
    assert (N : pr <> 0) by (intros Z; rewrite Z, Rmult_0_l in P2; lra).
    assert (E1 : pi = - si) by (apply (Rmult_eq_reg_l pr); [|auto]; rewrite E in S2; lra). unfold t. rewrite E, E1. ring. }
  destruct F as (V & -> & F2 & F3). cbn [re im]. exists (rasinh t). split; [|split; [|split; [auto|split; [auto|split]]]].
  - unfold ccosh. cbn [re im]. rewrite rasinh_sinh, CH. apply cx_eq; cbn [re im].
    + fold x. apply (Rmult_eq_reg_l A); [|lra]. replace (A * ((A - 1) * cos v)) with ((A - 1) * (A * cos v)) by ring. rewrite DC, SP.
      assert (E1 : 2 * x = (qr * qr - pi * pi) - (qi * qi - pr * pr)) by lra.
      assert (E2 : (qi * qi - pr * pr) * A = - (qr * qr - pi * pi) * (A - 2)).
      { replace (A - 2) with (qi * qi + pr * pr) by (unfold A; lra). unfold A. assert (pr * pi * (pr * pi) = qr * qi * (qr * qi)) by (replace (pr * pi) with (- (qr * qi)) by lra; ring). lra. }
      assert (E3 : A * (2 * x) = A * (qr * qr - pi * pi) - (qi * qi - pr * pr) * A) by (rewrite E1; ring). rewrite E2 in E3. lra.
    + fold y. apply (Rmult_eq_reg_l A); [|lra]. replace (A * (t * sin v)) with (t * (A * sin v)) by ring. rewrite DS.
      destruct (Req_dec y 0) as [Hy|Hy].
      * rewrite Hy, Rmult_0_r. rewrite Hy in *. assert (M0 : qr * qi = 0) by lra.
        replace (t * (2 * qr * si)) with (2 * si * (pr * (qr * qr) - pi * (qr * qi))) by (unfold t; ring). rewrite M0.
        destruct (Req_dec si 0) as [->|N]; [ring|]. assert (pi <> 0) by (intros Z; rewrite Z in SP; clear - SP N; nra). assert (pr = 0) by (clear - P2 H; nra). rewrite H0. ring.
      * rewrite (CJ Hy). unfold A. rewrite <- SP. replace ((sr * qr + si * qi) * (2 * qr * si)) with (qr * qr * (2 * (sr * si)) + si * si * (2 * (qr * qi))) by ring. rewrite S2, Q2. ring.
  - unfold v. pose proof (atan2_right si qr Q3). lra.
  - intros H. apply rasinh_nonneg. destruct (Req_dec y 0) as [Hy|Hy].
    + unfold t. rewrite Hy in *. assert (M1 : qr * qi = 0) by lra. assert (M2 : pr * pi = 0) by lra. destruct (Rlt_dec x (-1)) as [L|L].
      * destruct H as [H|[H|H]]; [|lra|lra]. destruct P4 as (E1 & E2); [lra|lra|]. destruct Q4 as (E3 & E4); [lra|lra|]. rewrite E1, E2, E4, H.
        pose proof (sqrt_pos (- (x - 1))). pose proof (sqrt_pos (- (x + 1))). destruct ni; cbn [negb andb]; nra.
      * assert (qi = 0) by (apply Rmult_integral in M1; destruct M1 as [M1|]; auto; rewrite M1 in Q1; nra). rewrite H0. nra.
    + rewrite (CJ Hy). assert (E : (sr * qr) * (si * qi) = y * y / 4) by (replace (sr * qr * (si * qi)) with ((sr * si) * (qr * qi)) by ring; replace (sr * si) with (y / 2) by lra; replace (qr * qi) with (y / 2) by lra; field).
      assert (0 < y * y) by nra. assert (0 <= sr * qr) by nra. nra.
  - intros H Hy L. apply rasinh_neg. destruct P4 as (E1 & E2); [lra|lra|]. destruct Q4 as (E3 & E4); [lra|lra|]. unfold t. rewrite E1, E2, E4, H. cbn [andb].
    assert (0 < sqrt (- (x - 1))) by (apply sqrt_lt_R0; lra). assert (0 < sqrt (- (x + 1))) by (apply sqrt_lt_R0; lra). nra.
Qed.

(** ** Inverse hyperbolic tangent *)
Lemma from_exp z w : mul (mul (cexp w) (cexp w)) (sub one z) = add one z -> csinh w = mul z (ccosh w) /\ ccosh w <> zero.
Proof.
  intros H.
  assert (I : mul (cexp (neg w)) (cexp w) = one).
  { rewrite <- cexp_plus. rewrite <- cexp_zero. f_equal. apply cx_eq; unfold add, neg, add_assign, zero; cbn [re im cread]; ring. }
  assert (E : csinh w = mul z (ccosh w)).
  { pose proof (ccosh_exp w) as C. pose proof (csinh_exp w) as S. set (a := cexp w) in *. set (b := cexp (neg w)) in *. clearbody a b.
    assert (K : mul a (sub one z) = mul b (add one z)).
    { rewrite <- H. transitivity (mul (mul b a) (mul a (sub one z))); [rewrite I|]; rewrite !mul_eq; unfold one; cbn [re im]; apply cx_eq; cbn [re im]; ring. }
    apply (f_equal re) in C as C1. apply (f_equal im) in C as C2. apply (f_equal re) in S as S1. apply (f_equal im) in S as S2.
    apply (f_equal re) in K as K1. apply (f_equal im) in K as K2.
    unfold sub, add, sub_assign, add_assign in *. rewrite !mul_eq in *. unfold two, one in *. cbn [re im cread] in *.
    apply cx_eq; cbn [re im]; [replace (re (ccosh w)) with ((re a + re b) / 2) by lra|replace (re (ccosh w)) with ((re a + re b) / 2) by lra]; replace (im (ccosh w)) with ((im a + im b) / 2) by lra.
    - replace (re (csinh w)) with ((re a - re b) / 2) by lra. lra.
    - replace (im (csinh w)) with ((im a - im b) / 2) by lra. lra. }
  split; auto. intros Z. pose proof (ccosh_csinh w) as C. rewrite E, Z in C. apply (f_equal re) in C. unfold sub, sub_assign in C. rewrite !mul_eq in C. unfold zero, one in C. cbn [re im cread] in C. lra.
Qed.
(** |1 + z|^2, |1 - z|^2 and the exact value, for z <> 1 and z <> -1 *)
Definition Np (r y : R) : R := (1 + r) * (1 + r) + y * y.
Definition Nm (r y : R) : R := (1 - r) * (1 - r) + y * y.
Definition cexp_sq u v : mul (cexp (mk u v)) (cexp (mk u v)) = mk (exp (2 * u) * cos (2 * v)) (exp (2 * u) * sin (2 * v)).
Proof.
  rewrite <- cexp_plus, cexp_eq. unfold add, add_assign. cbn [re im cread]. replace (2 * u) with (u + u) by ring. replace (2 * v) with (v + v) by ring. reflexivity.
Qed.
Lemma atanh_values r y u v : 0 < Nm r y -> 0 < Np r y ->
  exp (2 * u) * cos (2 * v) * Nm r y = 1 - r * r - y * y -> exp (2 * u) * sin (2 * v) * Nm r y = 2 * y ->
  (csinh (mk u v) = mul (mk r y) (ccosh (mk u v)) /\ ccosh (mk u v) <> zero)
  /\ (csinh (mk (- u) v) = mul (mk (- r) y) (ccosh (mk (- u) v)) /\ ccosh (mk (- u) v) <> zero).
Proof.
  intros Hm Hp C S. set (e := exp (2 * u)) in *. set (c := cos (2 * v)) in *. set (s := sin (2 * v)) in *.
  assert (E1 : e * c * (1 - r) + e * s * y = 1 + r).
  { apply (Rmult_eq_reg_r (Nm r y)); [|lra]. replace ((e * c * (1 - r) + e * s * y) * Nm r y) with ((e * c * Nm r y) * (1 - r) + (e * s * Nm r y) * y) by ring. rewrite C, S. unfold Nm. ring. }
  assert (E2 : e * s * (1 - r) - e * c * y = y).
  { apply (Rmult_eq_reg_r (Nm r y)); [|lra]. replace ((e * s * (1 - r) - e * c * y) * Nm r y) with ((e * s * Nm r y) * (1 - r) - (e * c * Nm r y) * y) by ring. rewrite C, S. unfold Nm. ring. }
  split; apply from_exp; rewrite cexp_sq.
  - fold e c s. unfold sub, add, sub_assign, add_assign, one. rewrite mul_eq. cbn [re im cread]. apply cx_eq; cbn [re im]; lra.
  - replace (2 * - u) with (- (2 * u)) by ring. rewrite exp_Ropp. fold e c s. assert (e0 : 0 < e) by apply exp_pos.
    assert (cs : s * s + c * c = 1) by apply sc1.
    unfold sub, add, sub_assign, add_assign, one. rewrite mul_eq. cbn [re im cread].
    assert (F1 : c * (1 + r) + s * y = e * (1 - r)). { transitivity (e * (1 - r) * (s * s + c * c)); [|rewrite cs; ring].
      transitivity (c * (e * c * (1 - r) + e * s * y) + s * (e * s * (1 - r) - e * c * y)); [rewrite E1, E2; reflexivity|ring]. }
    assert (F2 : s * (1 + r) - c * y = e * y).
    { transitivity (e * y * (s * s + c * c)); [|rewrite cs; ring].
      transitivity (s * (e * c * (1 - r) + e * s * y) - c * (e * s * (1 - r) - e * c * y)); [rewrite E1, E2; reflexivity|ring]. }
    apply cx_eq; cbn [re im]; apply (Rmult_eq_reg_l e); try lra.
    + replace (e * (/ e * c * (1 - - r) - / e * s * (0 - y))) with (c * (1 + r) + s * y) by (field; lra). rewrite F1. ring.
    + replace (e * (/ e * c * (0 - y) + / e * s * (1 - - r))) with (s * (1 + r) - c * y) by (field; lra). rewrite F2. ring.
Qed.
Definition au (r y : R) : R := / 4 * ln (Np r y / Nm r y).
Definition av (ni : bool) (r y : R) : R := / 2 * atan2s ni (2 * y) (1 - r * r - y * y).
Lemma N_prod r y : (1 - r * r - y * y) * (1 - r * r - y * y) + 2 * y * (2 * y) = Np r y * Nm r y.
Proof. unfold Np, Nm. ring. Qed.
Lemma exp_half x : exp (/ 2 * x) * exp (/ 2 * x) = exp x.
Proof. rewrite <- exp_plus. f_equal. lra. Qed.
Lemma atanh_exact ni r y : 0 < Nm r y -> 0 < Np r y ->
  exp (2 * au r y) * cos (2 * av ni r y) * Nm r y = 1 - r * r - y * y /\ exp (2 * au r y) * sin (2 * av ni r y) * Nm r y = 2 * y.
Proof.
  intros Hm Hp. unfold av. replace (2 * (/ 2 * atan2s ni (2 * y) (1 - r * r - y * y))) with (atan2s ni (2 * y) (1 - r * r - y * y)) by field.
  set (X := 1 - r * r - y * y). destruct (atan2s_ok ni X (2 * y)) as (C & S).
  { destruct (Req_dec X 0) as [Z|]; auto. right. intros Z2. pose proof (N_prod r y) as N. fold X in N. rewrite Z, Z2 in N. nra. }
  assert (N : X * X + 2 * y * (2 * y) = Np r y * Nm r y) by apply N_prod. rewrite N in C, S.
  assert (E : exp (2 * au r y) * Nm r y = sqrt (Np r y * Nm r y)).
  { symmetry. apply sqrt_lem_1; [nra|pose proof (exp_pos (2 * au r y)); nra|].
    unfold au. replace (2 * (/ 4 * ln (Np r y / Nm r y))) with (/ 2 * ln (Np r y / Nm r y)) by field.
    set (h := exp (/ 2 * _)). assert (H : h * h = Np r y / Nm r y) by (unfold h; rewrite exp_half; apply exp_ln; now apply Rdiv_lt_0_compat).
    replace (h * Nm r y * (h * Nm r y)) with (h * h * (Nm r y * Nm r y)) by ring. rewrite H. field. lra. }
  set (e := exp _) in *. rewrite <- E in C, S. split; [rewrite <- C at 2|rewrite <- S at 2]; ring.
Qed.
Lemma au_nonneg r y : 0 <= r -> 0 < Nm r y -> 0 <= au r y /\ (r = 0 -> au r y = 0).
Proof.
  intros Hr Hm. assert (L : 1 <= Np r y / Nm r y).
  { apply (Rmult_le_reg_r (Nm r y)); auto. unfold Rdiv. rewrite Rmult_assoc, Rinv_l by lra. unfold Np, Nm. nra. }
  split.
  - unfold au. apply Rmult_le_pos; [lra|]. rewrite <- ln_1. apply ln_mono; lra.
  - intros ->. unfold au. replace (Np 0 y) with (Nm 0 y) by (unfold Np, Nm; ring). unfold Rdiv. rewrite Rinv_r by lra. rewrite ln_1. ring.
Qed.
Lemma atan_small t : Rabs (atan t) <= Rabs t.
Proof.
  assert (H : forall t, 0 <= t -> 0 <= atan t <= t).
  { intros s [L| <-]; [|rewrite atan_0; lra]. assert (P : 0 < atan s) by (rewrite <- atan_0; now apply atan_increasing). split; [lra|].
    destruct (MVT_cor2 atan (fun x => / (1 + x ^ 2)) 0 s L) as (c & E & C); [intros c _; apply derivable_pt_lim_atan|].
    rewrite atan_0 in E. assert (0 <= c ^ 2) by nra. assert (/ (1 + c ^ 2) <= 1) by (rewrite <- Rinv_1; apply Rinv_le_contravar; lra). nra. }
  destruct (Rle_dec 0 t) as [L|L].
  - destruct (H t L). rewrite !Rabs_right; lra.
  - destruct (H (- t)) as (A & B); [lra|]. rewrite atan_opp in A, B. rewrite !Rabs_left1; lra.
Qed.
Lemma au_large r y : 0 <= r -> 4 <= r * r + y * y -> Rabs (r / (r * r + y * y) - au r y) <= 10 / (r * r + y * y).
Proof.
  intros Hr HZ. set (Z := r * r + y * y) in *.
  assert (M : Nm r y = Z + 1 - 2 * r) by (unfold Nm, Z; ring). assert (P : Np r y = Z + 1 + 2 * r) by (unfold Np, Z; ring).
  assert (rZ : r * r <= Z) by (unfold Z; nra). clearbody Z.
  assert (M4 : Z / 4 <= Nm r y). { rewrite M. destruct (Rle_dec r 2); [lra|]. nra. }
  assert (Mp : 0 < Nm r y) by lra. assert (Pp : 0 < Np r y) by lra.
  assert (Q : 0 < Np r y / Nm r y) by now apply Rdiv_lt_0_compat.
  assert (U : au r y <= r / Nm r y).
  { unfold au. pose proof (ln_le1 _ Q). assert (E : / 4 * (Np r y / Nm r y - 1) = r / Nm r y) by (rewrite P, M; field; lra). lra. }
  assert (L : r / Np r y <= au r y).
  { unfold au. pose proof (ln_le1 (/ (Np r y / Nm r y)) (Rinv_0_lt_compat _ Q)) as H. rewrite ln_Rinv in H by auto.
    assert (E : / 4 * (1 - / (Np r y / Nm r y)) = r / Np r y) by (rewrite P, M; field; lra). lra. }
  assert (D1 : r / Nm r y - r / Z <= 10 / Z).
  { replace (r / Nm r y - r / Z) with (r * (2 * r - 1) / Nm r y / Z) by (rewrite M; field; lra).
    apply Rmult_le_compat_r; [left; apply Rinv_0_lt_compat; lra|]. apply (Rmult_le_reg_r (Nm r y)); auto. unfold Rdiv. rewrite Rmult_assoc, Rinv_l by lra. nra. }
  assert (D2 : r / Z - r / Np r y <= 10 / Z).
  { replace (r / Z - r / Np r y) with (r * (2 * r + 1) / Np r y / Z) by (rewrite P; field; lra).
    apply Rmult_le_compat_r; [left; apply Rinv_0_lt_compat; lra|]. apply (Rmult_le_reg_r (Np r y)); auto. unfold Rdiv. rewrite Rmult_assoc, Rinv_l by lra. nra. }
  apply Rabs_le. lra.
Qed.
Lemma av_large bit B r y : 2 <= B -> B * B <= r * r + y * y -> bit_ok bit y -> Rabs ((if bit then - (PI / 2) else PI / 2) - av bit r y) <= 2 / B.
Proof.
  intros HB HZ (B1 & B2). assert (X0 : 1 - r * r - y * y < 0) by nra. unfold av, atan2s. rewrite (proj2 (rltP _ 0)) by auto. cbn [andb].
  assert (P0 : 0 <= 2 / B) by (left; apply Rdiv_lt_0_compat; lra).
  destruct (Req_dec y 0) as [->|N].
  { rewrite (proj2 (reqP _ _)) by ring. destruct bit; rewrite Rminus_diag_eq, Rabs_R0 by lra; auto. }
  rewrite (proj2 (reqF _ _)) by lra. unfold atan2. rewrite (proj2 (rltF 0 _)) by lra. rewrite (proj2 (rltP _ 0)) by auto.
  assert (T : Rabs (atan (2 * y / (1 - r * r - y * y))) <= 2 * (2 / B)).
  { eapply Rle_trans; [apply atan_small|]. replace (2 * y / (1 - r * r - y * y)) with (2 * - y / (r * r + y * y - 1)) by (field; nra).
    unfold Rdiv. rewrite Rabs_mult, (Rabs_right (/ _)) by (left; apply Rinv_0_lt_compat; nra). rewrite Rabs_mult, (Rabs_right 2) by lra. rewrite Rabs_Ropp.
    assert (Q : Rabs y * / (r * r + y * y - 1) <= 2 * / B); [|lra].
    apply (Rmult_le_reg_r (r * r + y * y - 1)); [nra|]. rewrite Rmult_assoc, Rinv_l by nra. apply (Rmult_le_reg_r B); [lra|].
    replace (2 * / B * (r * r + y * y - 1) * B) with (2 * (r * r + y * y - 1)) by (field; lra).
    assert (Y2 : Rabs y * Rabs y = y * y) by (rewrite <- Rabs_mult; apply Rabs_right; nra). pose proof (Rabs_pos y). nra. }
  set (t := atan _) in *. apply Rabs_def2 in T || apply abs_le2 in T.
  destruct (Rlt_dec y 0) as [L|L].
  - rewrite (B1 L). rewrite (proj2 (rleF 0 (2 * y))) by lra. apply Rabs_le. lra.
  - rewrite B2 by lra. rewrite (proj2 (rleP 0 (2 * y))) by lra. apply Rabs_le. lra.
Qed.
Lemma copy_val n u nr x : bit_ok nr x -> 0 <= u -> (x = 0 -> u = 0) -> copy_sign n u nr x = if rlt x 0 then - u else u.
Proof.
  intros (B1 & B2) Hu H0. unfold copy_sign. rewrite Rabs_right by lra. destruct (n_signed n); [|reflexivity].
  destruct (Rtotal_order x 0) as [L|[L|L]].
  - rewrite B1, (proj2 (rltP x 0)) by auto. reflexivity.
  - rewrite (H0 L). rewrite (proj2 (rltF x 0)) by lra. destruct nr; ring.
  - rewrite B2, (proj2 (rltF x 0)) by lra. reflexivity.
Qed.
Lemma copy_bit n u ni y : bit_ok ni y -> 0 <= u -> exists b, bit_ok b y /\ copy_sign n u ni y = if b then - u else u.
Proof.
  intros Hb Hu. unfold copy_sign. rewrite Rabs_right by lra. destruct (n_signed n); [now exists ni|]. exists (rlt y 0). split; [|reflexivity].
  split; intros H; [now apply rltP|apply rltF; lra].
Qed.
Lemma av_range ni r y : - (PI / 2) <= av ni r y <= PI / 2.
Proof. unfold av. pose proof (atan2s_range ni (2 * y) (1 - r * r - y * y)). lra. Qed.

Lemma catanh_ok n nr ni z : good_num n -> 2 <= n_arcBig n -> bit_ok nr (re z) -> bit_ok ni (im z) -> z <> mk 1 0 -> z <> mk (-1) 0 ->
  exists w, catanh n nr ni z = Some w /\ - (PI / 2) <= im w <= PI / 2 /\
  exists w', (csinh w' = mul z (ccosh w') /\ ccosh w' <> zero)
    /\ Rabs (re w - re w') <= 10 / (n_arcBig n * n_arcBig n) /\ Rabs (im w - im w') <= 2 / n_arcBig n
    /\ (Rabs (re z) <= n_arcBig n -> Rabs (im z) <= n_arcBig n -> w = w').
Proof.
  intros (Hd & HB & HL) HB2 Hr Hi N1 N2. unfold catanh. set (x := re z) in *. set (y := im z) in *. set (r := Rabs x). set (B := n_arcBig n) in *.
  assert (r0 : 0 <= r) by apply Rabs_pos. assert (rx : r * r = x * x) by (unfold r; rewrite <- Rabs_mult; apply Rabs_right; nra).
  assert (yy : Rabs y * Rabs y = y * y) by (rewrite <- Rabs_mult; apply Rabs_right; nra).
  assert (NE : r = 1 -> y <> 0).
  { intros R1 Y0. unfold r in R1. destruct (Rle_dec 0 x).
    - rewrite Rabs_right in R1 by lra. apply N1. apply cx_eq; auto.
    - rewrite Rabs_left1 in R1 by lra. apply N2. apply cx_eq; auto. cbn [re]. fold x. lra. }
  assert (Mp : 0 < Nm r y). { unfold Nm. destruct (Req_dec r 1) as [E|E]; [specialize (NE E); nra|nra]. }
  assert (Pp : 0 < Np r y) by (unfold Np; nra).
  assert (ZE : (x < 0 -> z = mk (- r) y) /\ (0 <= x -> z = mk r y)).
  { split; intros H; apply cx_eq; cbn [re im]; auto; fold x; unfold r; [rewrite Rabs_left|rewrite Rabs_right]; lra. }
  assert (x0 : x = 0 -> r = 0) by (intros E; unfold r; rewrite E; apply Rabs_R0).
  assert (e10 : 0 <= 10 / (B * B)) by (left; apply Rdiv_lt_0_compat; nra). assert (e2 : 0 <= 2 / B) by (left; apply Rdiv_lt_0_compat; lra).
  destruct (au_nonneg r y r0 Mp) as (AU & AU0).
  (* the exact value *)
  assert (EX : forall u v, exp (2 * u) * cos (2 * v) * Nm r y = 1 - r * r - y * y -> exp (2 * u) * sin (2 * v) * Nm r y = 2 * y ->
    let w' := mk (if rlt x 0 then - u else u) v in csinh w' = mul z (ccosh w') /\ ccosh w' <> zero).
  { intros u v H1 H2 w'. destruct (atanh_values r y u v Mp Pp H1 H2) as (V1 & V2). unfold w'. destruct (rlt x 0) eqn:S.
    - apply rltP in S. rewrite (proj1 ZE S). exact V2.
    - apply rltF in S. rewrite (proj2 ZE S). exact V1. }
  (* the asymptotic branches *)
  assert (BIG : B * B <= r * r + y * y -> forall u, u = r / (r * r + y * y) ->
    let w := mk (copy_sign n u nr x) (copy_sign n (PI / 2) ni y) in - (PI / 2) <= im w <= PI / 2 /\
    exists w', (csinh w' = mul z (ccosh w') /\ ccosh w' <> zero) /\ Rabs (re w - re w') <= 10 / (B * B) /\ Rabs (im w - im w') <= 2 / B).
  { intros HZ u Hu w. pose proof PI_RGT_0. destruct (copy_bit n (PI / 2) ni y Hi ltac:(lra)) as (b & Hb & Eb). unfold w. cbn [re im]. rewrite Eb.
    split; [destruct b; lra|]. destruct (atanh_exact b r y Mp Pp) as (X1 & X2). eexists. split; [exact (EX _ _ X1 X2)|]. cbn [re im]. split; [|now apply av_large].
    assert (Zp : 4 <= r * r + y * y) by nra.
    assert (u0 : 0 <= u) by (rewrite Hu; apply Rmult_le_pos; [auto|left; apply Rinv_0_lt_compat; lra]).
    rewrite copy_val by (auto; intros E; rewrite Hu, (x0 E); unfold Rdiv; ring).
    assert (D : Rabs (u - au r y) <= 10 / (B * B)).
    { rewrite Hu. eapply Rle_trans; [apply au_large; auto|]. apply Rmult_le_compat_l; [lra|]. apply Rinv_le_contravar; nra. }
    destruct (rlt x 0); auto. replace (- u - - au r y) with (- (u - au r y)) by ring. now rewrite Rabs_Ropp. }
  destruct (rlt B r) eqn:L1; [|destruct (rlt B (Rabs y)) eqn:L2; [|destruct (req r 1) eqn:L3]].
  - apply rltP in L1. eexists. split; [reflexivity|].
    destruct (BIG ltac:(nra) (1 / r / (1 + y / r * (y / r)))) as (G1 & w' & G2 & G3 & G4); [field; nra|]. split; [exact G1|]. exists w'. split; [exact G2|]. split; [exact G3|]. split; [exact G4|]. intros H. fold r in H. lra.
  - apply rltP in L2. assert (y <> 0) by (intros E; rewrite E, Rabs_R0 in L2; lra). eexists. split; [reflexivity|].
    destruct (BIG ltac:(nra) (r / y / y / (1 + r / y * (r / y)))) as (G1 & w' & G2 & G3 & G4); [field; nra|]. split; [exact G1|]. exists w'. split; [exact G2|]. split; [exact G3|]. split; [exact G4|]. intros _ H1. lra.
  - apply reqP in L3. cbn [negb]. specialize (NE L3). rewrite (proj2 (reqF y 0) NE). eexists. split; [reflexivity|].
    set (m := Rabs y) in *. assert (m0 : 0 < m) by (apply Rabs_pos_lt; auto). pose proof PI_RGT_0.
    set (u := ln (sqrt (sqrt (4 + y * y)) / sqrt m)). set (f := atan2 m 2).
    assert (F : 0 <= f <= PI / 2) by (split; [apply atan2_nonneg; lra|apply atan2_right; lra]).
    destruct (atan2_ok 2 m) as (FC & FS); [left; lra|]. fold f in FC, FS. replace (2 * 2 + m * m) with (4 + y * y) in FC, FS by lra.
    set (q := sqrt (4 + y * y)) in *. assert (q2 : q * q = 4 + y * y) by (apply sqrt_sqrt; nra). assert (q0 : 0 < q) by (apply sqrt_lt_R0; nra).
    assert (EU : exp (2 * u) * m = q).
    { replace (2 * u) with (u + u) by ring. rewrite exp_plus. unfold u. rewrite exp_ln by (apply Rdiv_lt_0_compat; apply sqrt_lt_R0; auto).
      assert (S1 : sqrt q * sqrt q = q) by (apply sqrt_sqrt; lra). assert (S2 : sqrt m * sqrt m = m) by (apply sqrt_sqrt; lra). assert (S3 : 0 < sqrt m) by now apply sqrt_lt_R0.
      set (a := sqrt q) in *. set (d := sqrt m) in *. rewrite <- S2, <- S1. field. lra. }
    assert (u0 : 0 <= u).
    { apply Rnot_lt_le. intros Lu. assert (E1 : exp (2 * u) < 1) by (rewrite <- exp_0; apply exp_increasing; lra). assert (q < m) by nra. nra. }
    assert (NM : Nm r y = m * m) by (unfold Nm; rewrite L3, yy; ring).
    cbn [re im]. destruct (copy_bit n (/ 2 * (PI / 2 + f)) ni y Hi ltac:(lra)) as (b & Hb & Eb). rewrite Eb.
    rewrite copy_val by (auto; intros E; specialize (x0 E); lra).
    split; [destruct b; lra|]. eexists. split; [apply (EX u)|split; [|split]].
    + instantiate (1 := if b then - (/ 2 * (PI / 2 + f)) else / 2 * (PI / 2 + f)). rewrite NM, L3.
      assert (CC : cos (2 * (if b then - (/ 2 * (PI / 2 + f)) else / 2 * (PI / 2 + f))) = - sin f).
      { rewrite <- cos_shift. rewrite <- cos_PI_x || idtac. destruct b.
        - replace (2 * - (/ 2 * (PI / 2 + f))) with (- (PI / 2 + f)) by field. rewrite cos_neg, cos_plus, cos_minus, cos_PI2, sin_PI2. ring.
        - replace (2 * (/ 2 * (PI / 2 + f))) with (PI / 2 + f) by field. rewrite cos_plus, cos_minus, cos_PI2, sin_PI2. ring. }
      rewrite CC. replace (exp (2 * u) * - sin f * (m * m)) with (- (exp (2 * u) * m) * sin f * m) by ring. rewrite EU.
      replace (- q * sin f * m) with (- (q * sin f) * m) by ring. rewrite FS. lra.
    + rewrite NM.
      assert (SS : sin (2 * (if b then - (/ 2 * (PI / 2 + f)) else / 2 * (PI / 2 + f))) = if b then - cos f else cos f).
      { destruct b.
        - replace (2 * - (/ 2 * (PI / 2 + f))) with (- (PI / 2 + f)) by field. rewrite sin_neg, sin_plus, cos_PI2, sin_PI2. ring.
        - replace (2 * (/ 2 * (PI / 2 + f))) with (PI / 2 + f) by field. rewrite sin_plus, cos_PI2, sin_PI2. ring. }
      rewrite SS. destruct Hb as (Hb1 & Hb2). destruct (Rlt_dec y 0) as [Ly|Ly].
      * rewrite (Hb1 Ly). replace (exp (2 * u) * - cos f * (m * m)) with (- (exp (2 * u) * m) * cos f * m) by ring. rewrite EU.
        replace (- q * cos f * m) with (- (q * cos f) * m) by ring. rewrite FC. unfold m. rewrite Rabs_left by lra. ring.
      * rewrite Hb2 by lra. replace (exp (2 * u) * cos f * (m * m)) with ((exp (2 * u) * m) * cos f * m) by ring. rewrite EU.
        rewrite FC. unfold m. rewrite Rabs_right by lra. ring.
    + cbn [re]. rewrite Rminus_diag_eq, Rabs_R0 by auto. auto.
    + cbn [im]. rewrite Rminus_diag_eq, Rabs_R0 by auto. auto.
    + auto.
  - apply reqF in L3. cbn [negb]. eexists. split; [reflexivity|].
    assert (E1 : / 4 * n_logP1 n (4 * r / ((1 - r) * (1 - r) + Rabs y * Rabs y)) = au r y).
    { rewrite yy. fold (Nm r y). rewrite HL.
      - unfold au. f_equal. f_equal. unfold Nm in *. unfold Np. field. lra.
      - assert (0 <= 4 * r / Nm r y) by (apply Rmult_le_pos; [lra|left; now apply Rinv_0_lt_compat]). lra. }
    rewrite E1. assert (E2 : (1 - r) * (1 + r) - Rabs y * Rabs y = 1 - r * r - y * y) by (rewrite yy; ring). rewrite E2. fold (av ni r y).
    cbn [re im]. split; [apply av_range|]. rewrite copy_val by auto.
    destruct (atanh_exact ni r y Mp Pp) as (X1 & X2). eexists. split; [exact (EX _ _ X1 X2)|]. cbn [re im]. rewrite !Rminus_diag_eq, Rabs_R0 by auto. auto.
Qed.
Lemma catanh_pole n nr ni : 1 <= n_arcBig n -> catanh n nr ni (mk 1 0) = None /\ catanh n nr ni (mk (-1) 0) = None.
Proof.
  intros H. unfold catanh. cbn [re im]. assert (E : Rabs (-1) = 1) by (rewrite Rabs_left; lra). rewrite E, Rabs_R1, Rabs_R0.
  rewrite (proj2 (rltF _ 1)), (proj2 (rltF _ 0)), (proj2 (reqP 1 1)), (proj2 (reqP 0 0)) by lra. auto.
Qed.

(** ** The logarithm of the modulus on a floating type *)
Lemma ln_cubic x : Rabs x <= / 2 -> Rabs (ln (1 + x) - (x - / 2 * x * x)) <= 2 * (Rabs x * Rabs x * Rabs x).
Proof.
  intros H. apply abs_le2 in H.
  assert (D : forall c, - / 2 <= c <= / 2 -> derivable_pt_lim (fun t => ln (1 + t) - (t - / 2 * t * t)) c (/ (1 + c) - (1 - c))).
  { intros c Hc. apply (derivable_pt_lim_minus (fun t => ln (1 + t)) (fun t => t - / 2 * t * t)).
    - replace (/ (1 + c)) with (/ (1 + c) * (0 + 1)) by ring. apply (derivable_pt_lim_comp (fun t => 1 + t) ln).
      + apply (derivable_pt_lim_plus (fun _ => 1) (fun t => t)); [apply derivable_pt_lim_const|apply derivable_pt_lim_id].
      + apply derivable_pt_lim_ln. lra.
    - apply (derivable_pt_lim_minus (fun t => t) (fun t => / 2 * t * t)); [apply derivable_pt_lim_id|].
      replace c with (/ 2 * 1 * c + / 2 * c * 1) at 2 by field.
      replace (/ 2 * 1 * c + / 2 * c * 1) with (((0 * c + / 2 * 1)) * c + / 2 * c * 1) by ring.
      apply (derivable_pt_lim_mult (fun t => / 2 * t) (fun t => t)); [|apply derivable_pt_lim_id].
      apply (derivable_pt_lim_mult (fun _ => / 2) (fun t => t)); [apply derivable_pt_lim_const|apply derivable_pt_lim_id]. }
  assert (B : forall c, - / 2 <= c <= / 2 -> 0 <= / (1 + c) - (1 - c) <= 2 * (c * c)).
  { intros c Hc. replace (/ (1 + c) - (1 - c)) with (c * c * / (1 + c)) by (field; lra).
    assert (0 < / (1 + c)) by (apply Rinv_0_lt_compat; lra). assert (/ (1 + c) <= / / 2) by (apply Rinv_le_contravar; lra). nra. }
  assert (Z0 : ln (1 + 0) - (0 - / 2 * 0 * 0) = 0) by (rewrite Rplus_0_r, ln_1; ring).
  destruct (Rtotal_order x 0) as [L|[L|L]].
  - destruct (MVT_cor2 (fun t => ln (1 + t) - (t - / 2 * t * t)) (fun c => / (1 + c) - (1 - c)) x 0 L) as (c & E & C); [intros c Hc; apply D; lra|].
    assert (Hc := B c ltac:(lra)). cbv beta in E. rewrite Z0 in E. set (g := ln (1 + x) - _) in *. set (h := / (1 + c) - (1 - c)) in *.
    assert (G : g = h * x) by lra. assert (Hs : h <= 2 * (x * x)) by nra. rewrite G, Rabs_mult, (Rabs_right h) by lra.
    assert (X : Rabs x * Rabs x = x * x) by (rewrite <- Rabs_mult; apply Rabs_right; nra). rewrite X. pose proof (Rabs_pos x). nra.
  - subst x. rewrite Z0, Rabs_R0. lra.
  - destruct (MVT_cor2 (fun t => ln (1 + t) - (t - / 2 * t * t)) (fun c => / (1 + c) - (1 - c)) 0 x L) as (c & E & C); [intros c Hc; apply D; lra|].
    assert (Hc := B c ltac:(lra)). cbv beta in E. rewrite Z0 in E. set (g := ln (1 + x) - _) in *. set (h := / (1 + c) - (1 - c)) in *.
    assert (G : g = h * x) by lra. assert (Hs : h <= 2 * (x * x)) by nra. rewrite G, Rabs_mult, (Rabs_right h) by lra.
    assert (X : Rabs x * Rabs x = x * x) by (rewrite <- Rabs_mult; apply Rabs_right; nra). rewrite X. pose proof (Rabs_pos x). nra.
Qed.
Lemma logP1_error eps maxv x : 0 < eps <= / 2 -> 0 < maxv -> -1 < x ->
  Rabs (logP1 eps maxv x - ln (1 + x)) <= 2 * (eps * eps * eps) + / maxv.
Proof.
  intros He Hm Hx. assert (M0 : 0 < / maxv) by now apply Rinv_0_lt_compat. assert (E3 : 0 < eps * eps * eps) by (repeat apply Rmult_lt_0_compat; lra).
  unfold logP1. destruct (rle x (- / 2) || rle 2 x).
  - destruct (req x maxv) eqn:E.
    + apply reqP in E. subst x. assert (Q : 0 <= ln (1 + maxv) - ln maxv <= / maxv).
      { split; [pose proof (ln_mono maxv (1 + maxv) Hm ltac:(lra)); lra|]. rewrite <- ln_quot by lra.
        eapply Rle_trans; [apply ln_le1; apply Rdiv_lt_0_compat; lra|]. right. field. lra. }
      rewrite Rabs_left1; lra.
    + rewrite Rminus_diag_eq, Rabs_R0 by auto. lra.
  - destruct (rlt (Rabs x) eps) eqn:E.
    + apply rltP in E. assert (Q : (if req x 0 then x else x - / 2 * x * x) = x - / 2 * x * x) by (destruct (req x 0) eqn:Z; auto; apply reqP in Z; subst x; ring).
      rewrite Q, Rabs_minus_sym. eapply Rle_trans; [apply ln_cubic; lra|]. pose proof (Rabs_pos x).
      assert (Rabs x * Rabs x * Rabs x <= eps * eps * eps) by (repeat apply Rmult_le_compat; nra). lra.
    + unfold addSmallX2. cbn [fst snd]. replace (x - (1 + x - 1)) with 0 by ring. unfold Rdiv. rewrite Rmult_0_l, Rplus_0_r. rewrite Rminus_diag_eq, Rabs_R0 by auto. lra.
Qed.
Lemma logHypot_error hh eps maxv tiny huge cm cl ilogb x y : 0 < eps <= / 2 -> 0 < maxv -> (x <> 0 \/ y <> 0) ->
  Rabs (logHypot hh eps maxv tiny huge cm cl ilogb x y - ln (sqrt (x * x + y * y)))
  <= eps * eps * eps + / (2 * maxv) + Rabs (IZR (ilogb (Rmax (Rabs x) (Rabs y)))) * Rabs (cm + cl - ln 2).
Proof.
  intros He Hm Hz. assert (M0 : 0 < / (2 * maxv)) by (apply Rinv_0_lt_compat; lra). assert (M1 : / (2 * maxv) = / maxv * / 2) by (field; lra). assert (E3 : 0 < eps * eps * eps) by (repeat apply Rmult_lt_0_compat; lra).
  assert (K0 : forall e, 0 <= Rabs (IZR e) * Rabs (cm + cl - ln 2)) by (intros; apply Rmult_le_pos; apply Rabs_pos).
  unfold logHypot. set (a0 := Rabs x). set (b0 := Rabs y). set (aX := if rlt a0 b0 then b0 else a0). set (aY := if rlt a0 b0 then a0 else b0).
  assert (MX : Rmax a0 b0 = aX).
  { unfold aX. destruct (rlt a0 b0) eqn:E; [apply rltP in E; apply Rmax_right; lra|apply rltF in E; apply Rmax_left; lra]. }
  assert (NN : x * x + y * y = aX * aX + aY * aY).
  { assert (X : a0 * a0 = x * x) by (unfold a0; rewrite <- Rabs_mult; apply Rabs_right; nra). assert (Y : b0 * b0 = y * y) by (unfold b0; rewrite <- Rabs_mult; apply Rabs_right; nra).
    unfold aX, aY. destruct (rlt a0 b0); lra. }
  assert (aX0 : 0 < aX).
  { unfold aX. assert (0 <= a0) by apply Rabs_pos. assert (0 <= b0) by apply Rabs_pos. destruct (rlt a0 b0) eqn:E; [apply rltP in E; lra|]. apply rltF in E.
    destruct Hz as [Hz|Hz]; apply Rabs_pos_lt in Hz; fold a0 b0 in Hz; lra. }
  rewrite NN, MX. clearbody aX aY. clear NN MX a0 b0.
  assert (LH : forall s, 0 < s -> ln (sqrt s) = ln s * / 2).
  { intros s Hs. assert (R : sqrt s * sqrt s = s) by (apply sqrt_sqrt; lra). assert (0 < sqrt s) by now apply sqrt_lt_R0. rewrite <- R at 2. rewrite ln_mult by auto. field. }
  assert (S0 : 0 < aX * aX + aY * aY) by nra. specialize (K0 (ilogb aX)).
  destruct (req aY 0) eqn:Y0.
  { apply reqP in Y0. rewrite Y0. replace (aX * aX + 0 * 0) with (aX * aX) by ring. rewrite sqrt_square by lra. rewrite Rminus_diag_eq, Rabs_R0 by auto. lra. }
  apply reqF in Y0. destruct (rlt tiny aX && rlt aX huge).
  - assert (P1 : forall t, t = aX * aX + aY * aY - 1 -> Rabs (logP1 eps maxv t * / 2 - ln (sqrt (aX * aX + aY * aY))) <= eps * eps * eps + / (2 * maxv)).
    { intros t Ht. rewrite LH by auto. replace (aX * aX + aY * aY) with (1 + t) by lra. rewrite <- Rmult_minus_distr_r, Rabs_mult, (Rabs_right (/ 2)) by lra.
      pose proof (logP1_error eps maxv t He Hm ltac:(lra)). lra. }
    destruct (req aX 1) eqn:X1.
    + apply reqP in X1. assert (Q := P1 (aY * aY) ltac:(rewrite X1; ring)). lra.
    + destruct (rlt (/ 2) (aX * aX + aY * aY) && rlt (aX * aX + aY * aY) 3).
      * assert (Q := P1 (normMinusOne hh aX aY) (normMinusOne_exact hh aX aY)). lra.
      * rewrite LH by auto. rewrite Rminus_diag_eq, Rabs_R0 by auto. lra.
  - set (e := ilogb aX) in *. unfold ldexp. set (k := powerRZ 2 (- e)). assert (k0 : 0 < k) by apply pow2_pos.
    assert (LK : ln k = - IZR e * ln 2).
    { unfold k. rewrite <- (Rpower_1 2) at 1 by lra. destruct e as [|p|p].
      - cbn. rewrite ln_1. ring.
      - cbn. rewrite ln_Rinv by (apply pow_lt; rewrite Rpower_1; lra). rewrite Rpower_1 by lra. rewrite <- Rpower_pow by lra. unfold Rpower. rewrite ln_exp. rewrite INR_IPR. unfold IZR. ring.
      - cbn. rewrite Rpower_1 by lra. rewrite <- Rpower_pow by lra. unfold Rpower. rewrite ln_exp. rewrite INR_IPR. unfold IZR. ring. }
    rewrite LH by auto. replace (aX * k * (aX * k) + aY * k * (aY * k)) with ((aX * aX + aY * aY) * (k * k)) by ring.
    rewrite ln_mult, ln_mult by nra. rewrite LK. set (l := ln (aX * aX + aY * aY)).
    replace ((l + (- IZR e * ln 2 + - IZR e * ln 2)) * / 2 + IZR e * cl + IZR e * cm - l * / 2) with (IZR e * (cm + cl - ln 2)) by field.
    rewrite Rabs_mult. lra.
Qed.

(** ** The constants cm and cl (l.370-371) add up to ln 2 *)
Fixpoint lsum (x : R) (k : nat) : R := match k with O => 0 | S k => lsum x k + x ^ (2 * k + 1) / INR (2 * k + 1) end.
Fixpoint lder (x : R) (k : nat) : R := match k with O => 0 | S k => lder x k + x ^ (2 * k) end.
Lemma lder_sum x k : (1 - x * x) * lder x k = 1 - x ^ (2 * k).
Proof.
  induction k; [cbn; ring|]. cbn [lder]. rewrite Rmult_plus_distr_l, IHk. replace (2 * S k)%nat with (S (S (2 * k))) by lia. cbn [pow]. ring.
Qed.
Lemma lsum_der k x : derivable_pt_lim (fun t => lsum t k) x (lder x k).
Proof.
  induction k; cbn [lsum lder]; [apply derivable_pt_lim_const|].
  apply (derivable_pt_lim_plus (fun t => lsum t k) (fun t => t ^ (2 * k + 1) / INR (2 * k + 1))); [exact IHk|].
  assert (N : INR (2 * k + 1) <> 0) by (apply not_0_INR; lia).
  replace (x ^ (2 * k)) with (INR (2 * k + 1) * x ^ pred (2 * k + 1) * / INR (2 * k + 1) + x ^ (2 * k + 1) * 0).
  2:{ replace (pred (2 * k + 1)) with (2 * k)%nat by lia. field. auto. }
  apply (derivable_pt_lim_mult (fun t => t ^ (2 * k + 1)) (fun _ => / INR (2 * k + 1))); [apply derivable_pt_lim_pow|apply derivable_pt_lim_const].
Qed.
Lemma ln2_series k : 0 <= ln 2 - 2 * lsum (/ 3) k <= (/ 3) ^ (2 * k).
Proof.
  set (g := fun t => ln (1 + t) - ln (1 - t) - 2 * lsum t k).
  assert (D : forall c, 0 <= c <= / 3 -> derivable_pt_lim g c (/ (1 + c) - - / (1 - c) - 2 * lder c k)).
  { intros c Hc. unfold g. apply (derivable_pt_lim_minus (fun t => ln (1 + t) - ln (1 - t)) (fun t => 2 * lsum t k)).
    - apply (derivable_pt_lim_minus (fun t => ln (1 + t)) (fun t => ln (1 - t))).
      + replace (/ (1 + c)) with (/ (1 + c) * (0 + 1)) by ring. apply (derivable_pt_lim_comp (fun t => 1 + t) ln).
        * apply (derivable_pt_lim_plus (fun _ => 1) (fun t => t)); [apply derivable_pt_lim_const|apply derivable_pt_lim_id].
        * apply derivable_pt_lim_ln. lra.
      + replace (- / (1 - c)) with (/ (1 - c) * (0 - 1)) by ring. apply (derivable_pt_lim_comp (fun t => 1 - t) ln).
        * apply (derivable_pt_lim_minus (fun _ => 1) (fun t => t)); [apply derivable_pt_lim_const|apply derivable_pt_lim_id].
        * apply derivable_pt_lim_ln. lra.
    - apply (derivable_pt_lim_scal (fun t => lsum t k)). apply lsum_der. }
  destruct (MVT_cor2 g (fun c => / (1 + c) - - / (1 - c) - 2 * lder c k) 0 (/ 3)) as (c & E & C); [lra|exact D|].
  assert (G0 : g 0 = 0).
  { unfold g. rewrite Rplus_0_r, Rminus_0_r, ln_1. assert (Z : lsum 0 k = 0). { clear. induction k; cbn [lsum]; [auto|]. rewrite IHk. rewrite pow_ne_zero by lia. unfold Rdiv. ring. } rewrite Z. ring. }
  assert (G1 : g (/ 3) = ln 2 - 2 * lsum (/ 3) k).
  { unfold g. rewrite <- ln_quot by lra. do 2 f_equal. field. }
  rewrite <- G1. rewrite G0 in E.
  assert (DV : / (1 + c) - - / (1 - c) - 2 * lder c k = 2 * c ^ (2 * k) * / (1 - c * c)).
  { assert (L : lder c k = (1 - c ^ (2 * k)) * / (1 - c * c)). { apply (Rmult_eq_reg_l (1 - c * c)); [|nra]. rewrite lder_sum. field. nra. }
    rewrite L. field. split; [nra|]. split; nra. }
  rewrite DV in E. assert (P0 : 0 <= c ^ (2 * k)) by (apply pow_le; lra). assert (P1 : c ^ (2 * k) <= (/ 3) ^ (2 * k)) by (apply pow_incr; lra).
  assert (I : 1 <= / (1 - c * c) <= 3 / 2).
  { split; [rewrite <- Rinv_1; apply Rinv_le_contravar; nra|]. replace (3 / 2) with (/ (2 / 3)) by field. apply Rinv_le_contravar; nra. }
  set (a := c ^ (2 * k)) in *. set (b := (/ 3) ^ (2 * k)) in *. set (d := / (1 - c * c)) in *. assert (a * d <= b * (3 / 2)) by (apply Rmult_le_compat; lra). nra.
Qed.
Fixpoint zsum (N : Z) (k : nat) : Z := match k with O => 0%Z | S k => (zsum N k + N / (3 ^ Z.of_nat (2 * k + 1) * Z.of_nat (2 * k + 1)))%Z end.
Lemma zsum_ok N k : IZR (zsum N k) <= IZR N * lsum (/ 3) k <= IZR (zsum N k) + INR k.
Proof.
  induction k; [cbn [zsum lsum INR]; lra|]. cbn [zsum lsum]. set (d := (3 ^ Z.of_nat (2 * k + 1) * Z.of_nat (2 * k + 1))%Z).
  assert (d0 : (0 < d)%Z) by (unfold d; apply Z.mul_pos_pos; [apply Z.pow_pos_nonneg; lia|lia]).
  assert (T : (/ 3) ^ (2 * k + 1) / INR (2 * k + 1) = / IZR d).
  { unfold d. rewrite mult_IZR, <- pow_IZR, <- INR_IZR_INZ. rewrite pow_inv. field. split; [apply not_0_INR; lia|apply pow_nonzero; lra]. }
  rewrite T. assert (D := Z.div_mod N d ltac:(lia)). assert (M := Z.mod_pos_bound N d d0).
  set (q := (N / d)%Z) in *. set (r := (N mod d)%Z) in *. clearbody q r d. apply IZR_lt in d0 as d0'. destruct M as (M1 & M2). apply IZR_le in M1. apply IZR_lt in M2.
  apply (f_equal IZR) in D. rewrite plus_IZR, mult_IZR in D. rewrite plus_IZR, S_INR.
  assert (Q : IZR q <= IZR N * / IZR d <= IZR q + 1).
  { split; apply (Rmult_le_reg_r (IZR d)); auto; rewrite Rmult_assoc, Rinv_l by lra; lra. }
  lra.
Qed.
(** the literals of l.370-371 *)
Definition cm_lit : R := 22713 / 32768.
Definition cl_lit : R := 14286068203094172321214581765680755 / 10000000000000000000000000000000000000000.
Lemma ln2_literals : Rabs (cm_lit + cl_lit - ln 2) <= / 10 ^ 33.
Proof.
  pose proof (ln2_series 40) as L. pose proof (zsum_ok 10000000000000000000000000000000000000000 40) as Z.
  assert (E : zsum 10000000000000000000000000000000000000000 40 = 3465735902799726547086160607290882840359%Z) by (vm_compute; reflexivity).
  rewrite E in Z. clear E. assert (I40 : INR 40 = 40) by (rewrite INR_IZR_INZ; reflexivity). rewrite I40 in Z.
  assert (T : (/ 3) ^ (2 * 40) <= / 10 ^ 38).
  { rewrite pow_inv. apply Rinv_le_contravar; [apply pow_lt; lra|]. rewrite !pow_IZR. apply IZR_le. vm_compute. discriminate. }
  set (l := lsum (/ 3) 40) in *. set (t := (/ 3) ^ (2 * 40)) in *. clearbody l t. unfold cm_lit, cl_lit.
  assert (P38 : / 10 ^ 38 = 1 / 100000000000000000000000000000000000000) by (rewrite pow_IZR; unfold Rdiv; rewrite Rmult_1_l; do 2 f_equal).
  assert (P33 : / 10 ^ 33 = 1 / 1000000000000000000000000000000000) by (rewrite pow_IZR; unfold Rdiv; rewrite Rmult_1_l; do 2 f_equal).
  rewrite P38 in T. rewrite P33. apply Rabs_le. lra.
Qed.

(** ** Circular inverses *)
Lemma cabs_rot z : cabs (mk (- im z) (re z)) = cabs z.
Proof. unfold cabs. cbn [re im]. f_equal. ring. Qed.
Lemma casin_ok n ni z : good_num n -> 2 <= n_arcBig n -> bit_ok ni (im z) ->
  let w := casin n ni z in
  exists v, csin (mk (re w) v) = z /\ - (PI / 2) <= re w <= PI / 2 /\ Rabs (im w - v) <= / (2 * (n_arcBig n * n_arcBig n)) /\ (moderate n z -> im w = v).
Proof.
  intros Hn HB Hb w. unfold w, casin. pose proof (casinh_ok n (negb ni) (mk (- im z) (re z)) Hn HB (bit_neg _ _ Hb)) as H. cbv zeta in H.
  destruct (casinh n (negb ni) (mk (- im z) (re z))) as [ar ai]. cbn [re im] in *. destruct H as (u & H1 & H2 & H3 & H4). exists (- u). split; [|split; [auto|split]].
  - unfold csinh in H1. cbn [re im] in H1. unfold csin. cbn [re im]. rewrite cosh_neg, sinh_neg.
    assert (E1 := f_equal re H1). assert (E2 := f_equal im H1). cbn [re im] in E1, E2. apply cx_eq; cbn [re im]; lra.
  - replace (- ar - - u) with (- (ar - u)) by ring. now rewrite Rabs_Ropp.
  - intros M. rewrite H4; auto. unfold moderate. now rewrite cabs_rot.
Qed.
Lemma catan_ok n nr ni z : good_num n -> 2 <= n_arcBig n -> bit_ok nr (re z) -> bit_ok ni (im z) -> z <> mk 0 1 -> z <> mk 0 (-1) ->
  exists w, catan n nr ni z = Some w /\ - (PI / 2) <= re w <= PI / 2 /\
  exists w', (csin w' = mul z (ccos w') /\ ccos w' <> zero)
    /\ Rabs (re w - re w') <= 2 / n_arcBig n /\ Rabs (im w - im w') <= 10 / (n_arcBig n * n_arcBig n)
    /\ (Rabs (re z) <= n_arcBig n -> Rabs (im z) <= n_arcBig n -> w = w').
Proof.
  intros Hn HB Hr Hi N1 N2. unfold catan.
  destruct (catanh_ok n (negb ni) nr (mk (- im z) (re z)) Hn HB (bit_neg _ _ Hi) Hr) as (a & E & R & a' & (V1 & V2) & D1 & D2 & D3).
  { intros Q. apply N2. assert (Q1 := f_equal re Q). assert (Q2 := f_equal im Q). cbn [re im] in Q1, Q2. apply cx_eq; cbn [re im]; lra. }
  { intros Q. apply N1. assert (Q1 := f_equal re Q). assert (Q2 := f_equal im Q). cbn [re im] in Q1, Q2. apply cx_eq; cbn [re im]; lra. }
  rewrite E. eexists. split; [reflexivity|]. cbn [re im]. split; [auto|]. exists (mk (im a') (- re a')).
  assert (CC : ccos (mk (im a') (- re a')) = ccosh a').
  { unfold ccos, ccosh. cbn [re im]. rewrite cosh_neg, sinh_neg. apply cx_eq; cbn [re im]; ring. }
  split; [split|split; [|split]]; cbn [re im]; auto.
  - rewrite CC. rewrite mul_eq in V1 |- *. unfold csin, csinh in *. cbn [re im] in *. rewrite cosh_neg, sinh_neg.
    assert (E1 := f_equal re V1). assert (E2 := f_equal im V1). cbn [re im] in E1, E2. apply cx_eq; cbn [re im]; lra.
  - rewrite CC. auto.
  - replace (- re a - - re a') with (- (re a - re a')) by ring. now rewrite Rabs_Ropp.
  - intros B1 B2. cbn [re im] in D3. rewrite D3; auto. rewrite Rabs_Ropp. auto.
Qed.
Lemma catan_pole n nr ni : 1 <= n_arcBig n -> catan n nr ni (mk 0 1) = None /\ catan n nr ni (mk 0 (-1)) = None.
Proof.
  intros H. unfold catan. cbn [re im]. replace (- -1) with 1 by ring. replace (- (1)) with (-1) by ring.
  destruct (catanh_pole n (negb ni) nr H) as (A & B). rewrite A, B. auto.
Qed.

(** ** Powers: consequences *)
Lemma pow_nat ni z k : z <> zero -> pow_cr ni z (INR k) = cpow z k.
Proof. intros H. rewrite pow_cr_ok, cexp_nat, cexp_log by auto. reflexivity. Qed.
Lemma pow_root ni z k : z <> zero -> (0 < k)%nat -> cpow (pow_cr ni z (/ INR k)) k = z.
Proof.
  intros H Hk. rewrite pow_cr_ok by auto. rewrite cpow_exp. rewrite <- (cexp_log ni z H) at 2. f_equal. rewrite !mul_l_eq. cbn [re im].
  assert (INR k <> 0) by (apply not_0_INR; lia). apply cx_eq; cbn [re im]; field; auto.
Qed.
Lemma pow_add ni z a b : z <> zero -> pow_cc ni z (add a b) = mul (pow_cc ni z a) (pow_cc ni z b).
Proof.
  intros H. rewrite !pow_cc_ok by auto. rewrite <- cexp_plus. f_equal. unfold add, add_assign. rewrite !mul_eq. cbn [re im cread]. apply cx_eq; cbn [re im]; ring.
Qed.
Lemma pow_zero_base ni c : 0 < c -> pow_cr ni zero c = zero.
Proof.
  intros H. unfold pow_cr, zero. cbn [re im]. rewrite (proj2 (reqP 0 0)) by auto. unfold pow_rr. rewrite (proj2 (rleP 0 0)) by lra. unfold rpow.
  rewrite (proj2 (reqP 0 0)) by auto. rewrite (proj2 (reqF c 0)) by lra. destruct ni; unfold conj; cbn [re im]; apply cx_eq; cbn [re im]; ring.
Qed.
Lemma cbrt_ok ni z : cpow (ccbrt ni z) 3 = z.
Proof.
  unfold ccbrt. replace (1 / 3) with (/ INR 3) by (cbn [INR]; field). destruct (Req_dec (re z * re z + im z * im z) 0) as [E|E].
  - assert (z = zero) by (apply cx_eq; cbn [re im zero]; nra). subst z. rewrite pow_zero_base by (cbn [INR]; apply Rinv_0_lt_compat; lra).
    cbn [cpow]. rewrite !mul_eq. unfold zero. cbn [re im]. apply cx_eq; cbn [re im]; ring.
  - apply pow_root; [intros ->; apply E; cbn [re im zero]; ring|lia].
Qed.
Lemma exp_base b z : 0 < b -> pow_rc b z = cexp (mul_l (ln b) z).
Proof.
  intros H. rewrite pow_rc_ok by lra. rewrite clog_of_pos by auto. f_equal. rewrite mul_eq, mul_l_eq. cbn [re im]. apply cx_eq; cbn [re im]; ring.
Qed.
Lemma clog_nonzero bi z : z <> zero -> z <> one -> clog bi z <> zero.
Proof. intros H H1 E. apply H1. rewrite <- (cexp_log bi z H). rewrite E. apply cexp_zero. Qed.
Lemma clog_base_ok ni bi z b : z <> zero -> b <> zero -> b <> one ->
  exists l, clog_base ni bi z b = Some l /\ pow_cc bi b l = z.
Proof.
  intros Hz Hb H1. unfold clog_base. destruct (div_correct (clog ni z) (Other (clog bi b))) as (q & E & M); [cbn [cread]; now apply clog_nonzero|].
  exists q. split; [exact E|]. rewrite pow_cc_ok by auto. cbn [cread] in M. unfold quotient in M. rewrite M || rewrite mul_comm_c, M || idtac. now apply cexp_log.
Qed.

(** ** Statements used by the properties *)
Lemma clog_real_ok ni z b : z <> zero -> 0 < b -> b <> 1 -> pow_rc b (clog_real ni z b) = z.
Proof.
  intros Hz Hb H1. rewrite exp_base by auto. rewrite <- (cexp_log ni z Hz) at 2. f_equal.
  assert (ln b <> 0) by (intros E; apply H1; apply ln_inv; [auto|lra|now rewrite ln_1]).
  unfold clog_real, div_r, div_scalar. rewrite mul_l_eq. cbn [re im sread]. apply cx_eq; cbn [re im]; field; auto.
Qed.
Lemma acsc_ok n ni z : good_num n -> 2 <= n_arcBig n -> z <> zero -> (forall r, mul r z = one -> bit_ok ni (im r) /\ moderate n r) ->
  exists w, cacsc n ni z = Some w /\ mul (csin w) z = one /\ - (PI / 2) <= re w <= PI / 2.
Proof.
  intros Hn HB Hz H. unfold cacsc. destruct (div_l_ok 1 z Hz) as (r & E & M). rewrite E. destruct (H r M) as (Hb & Hm).
  destruct (casin_ok n ni r Hn HB Hb) as (v & V1 & V2 & _ & V4). specialize (V4 Hm). eexists. split; [reflexivity|].
  split; [|auto]. rewrite <- V4, cx_eta in V1. now rewrite V1.
Qed.
Lemma asec_ok n ni z : good_num n -> 2 <= n_arcBig n -> z <> zero -> (forall r, mul r z = one -> bit_ok ni (im r) /\ moderate n r) ->
  exists w, casec n ni z = Some w /\ mul (ccos w) z = one /\ 0 <= re w <= PI.
Proof.
  intros Hn HB Hz H. unfold casec. destruct (div_l_ok 1 z Hz) as (r & E & M). rewrite E. destruct (H r M) as (Hb & Hm).
  destruct (cacos_ok n ni r Hn HB Hb) as (v & V1 & V2 & _ & V4). specialize (V4 Hm). eexists. split; [reflexivity|].
  split; [|auto]. rewrite <- V4, cx_eta in V1. now rewrite V1.
Qed.
Lemma acot_ok n nr ni z : good_num n -> 2 <= n_arcBig n -> z <> zero -> z <> mk 0 1 -> z <> mk 0 (-1) ->
  (forall r, mul r z = one -> bit_ok nr (re r) /\ bit_ok ni (im r) /\ Rabs (re r) <= n_arcBig n /\ Rabs (im r) <= n_arcBig n) ->
  exists w, cacot n nr ni z = Some w /\ mul (csin w) z = ccos w /\ ccos w <> zero /\ - (PI / 2) <= re w <= PI / 2.
Proof.
  intros Hn HB Hz N1 N2 H. unfold cacot. destruct (div_l_ok 1 z Hz) as (r & E & M). rewrite E. destruct (H r M) as (Hr & Hi & B1 & B2).
  assert (M1 := f_equal re M). assert (M2 := f_equal im M). rewrite mul_eq in M1, M2. unfold of_real in M1, M2. cbn [re im] in M1, M2.
  destruct (catan_ok n nr ni r Hn HB Hr Hi) as (w & W1 & W2 & w' & (V1 & V2) & _ & _ & V3).
  { intros ->. cbn [re im] in M1, M2. apply N2. apply cx_eq; cbn [re im]; lra. }
  { intros ->. cbn [re im] in M1, M2. apply N1. apply cx_eq; cbn [re im]; lra. }
  specialize (V3 B1 B2). subst w'. exists w. split; [auto|]. split; [|auto]. rewrite V1.
  transitivity (mul (mul r z) (ccos w)); [rewrite !mul_eq; cbn [re im]; apply cx_eq; cbn [re im]; ring|].
  rewrite M. rewrite mul_eq. unfold of_real. cbn [re im]. apply cx_eq; cbn [re im]; ring.
Qed.
