(** C68 (logarithm), C69 (powers), C70 (inverse functions) of Complex numbers. *)
From Coq Require Import Reals ZArith Lra Lia Bool.
From Verif Require Import ComplexModel ComplexSpec ComplexProofs CfunModel CfunSpec CfunProofs.
Local Open Scope R_scope.

(** C68: log is the inverse of exp with imaginary part in [-PI, PI], for either sign of a zero imaginary part. *)
Theorem C68_exp_log : forall ni z, z <> zero -> cexp (clog ni z) = z /\ - PI <= im (clog ni z) <= PI.
Proof. intros ni z H. split; [now apply cexp_log|apply clog_range]. Qed.
Print Assumptions C68_exp_log.

(** On the branch cut the sign bit picks the side. *)
Theorem C68_branch_cut : forall x, x < 0 -> clog false (of_real x) = mk (ln (- x)) PI /\ clog true (of_real x) = mk (ln (- x)) (- PI).
Proof.
  intros x H. unfold clog, cabs, of_real, atan2s. cbn [re im]. rewrite (proj2 (rltP x 0)), (proj2 (reqP 0 0)) by auto. cbn [andb].
  replace (x * x + 0 * 0) with ((- x) * (- x)) by ring. rewrite sqrt_square by lra. auto.
Qed.
Print Assumptions C68_branch_cut.

Theorem C68_log_exp : forall z, - PI < im z <= PI -> clog false (cexp z) = z.
Proof. exact clog_exp. Qed.
Print Assumptions C68_log_exp.

(** Logarithms to a base are the exponents that give the argument back. *)
Theorem C68_bases : forall ni bi z,
  z <> zero ->
  (forall b, b <> zero -> b <> one -> exists l, clog_base ni bi z b = Some l /\ pow_cc bi b l = z)
  /\ (forall b, 0 < b -> b <> 1 -> pow_rc b (clog_real ni z b) = z)
  /\ cexp2 (clog2 ni z) = z /\ cexp10 (clog10 ni z) = z.
Proof.
  intros ni bi z H. repeat split.
  - intros b Hb H1. now apply clog_base_ok.
  - intros b Hb H1. now apply clog_real_ok.
  - apply (clog_real_ok ni z 2); auto; lra.
  - apply (clog_real_ok ni z 10); auto; lra.
Qed.
Print Assumptions C68_bases.

(** The float algorithm: whatever highHalf and ilogb return, the result differs from ln |z| by at most eps^3 (the
    truncated series), 1 / (2 max), and |ilogb| / 10^33 (the split constant); no step loses anything else. *)
Theorem C68_modulus_algorithm : forall highHalf eps maxv legTiny legHuge ilogb x y,
  0 < eps <= / 2 -> 0 < maxv -> (x <> 0 \/ y <> 0) ->
  Rabs (logHypot highHalf eps maxv legTiny legHuge cm_lit cl_lit ilogb x y - ln (sqrt (x * x + y * y)))
  <= eps * eps * eps + / (2 * maxv) + Rabs (IZR (ilogb (Rmax (Rabs x) (Rabs y)))) * / 10 ^ 33.
Proof.
  intros hh eps maxv tiny huge ilogb x y He Hm Hz. eapply Rle_trans; [now apply logHypot_error|].
  apply Rplus_le_compat_l. apply Rmult_le_compat_l; [apply Rabs_pos|apply ln2_literals].
Qed.
Print Assumptions C68_modulus_algorithm.

Example C68_example : mk 0 (-3) <> zero /\ cexp (clog true (mk 0 (-3))) = mk 0 (-3) /\ - PI < im (mk 5 3) <= PI /\ clog false (cexp (mk 5 3)) = mk 5 3.
Proof.
  assert (N : mk 0 (-3) <> zero) by (intros E; apply (f_equal im) in E; cbn in E; lra).
  assert (P : - PI < im (mk 5 3) <= PI). { cbn [im]. pose proof PI2_3_2. lra. }
  split; [auto|]. split; [now apply cexp_log|]. split; [auto|now apply clog_exp].
Qed.

(** C69: every overload and every branch of pow computes exp(w log z). *)
Theorem C69_pow_is_exp_log : forall ni z x c w,
  (z <> zero -> pow_cc ni z w = cexp (mul w (clog ni z)))
  /\ (z <> zero -> pow_cr ni z c = cexp (mul (of_real c) (clog ni z)))
  /\ (x <> 0 -> pow_rc x w = cexp (mul w (clog false (of_real x))))
  /\ (0 < c -> pow_cr ni zero c = zero).
Proof.
  intros ni z x c w. split; [apply pow_cc_ok|]. split; [|split; [apply pow_rc_ok|apply pow_zero_base]].
  intros H. rewrite pow_cr_ok, mul_l_mul by auto. reflexivity.
Qed.
Print Assumptions C69_pow_is_exp_log.

(** Laws: natural powers are repeated products, roots are undone by powers, exponents add. *)
Theorem C69_power_laws : forall ni z, z <> zero ->
  (forall k, pow_cr ni z (INR k) = cpow z k)
  /\ (forall k, (0 < k)%nat -> cpow (pow_cr ni z (/ INR k)) k = z)
  /\ (forall a b, pow_cc ni z (add a b) = mul (pow_cc ni z a) (pow_cc ni z b)).
Proof.
  intros ni z H. split; [|split].
  - intros k. now apply pow_nat.
  - intros k Hk. now apply pow_root.
  - intros a b. now apply pow_add.
Qed.
Print Assumptions C69_power_laws.

Theorem C69_cube_root : forall ni z, cpow (ccbrt ni z) 3 = z.
Proof. exact cbrt_ok. Qed.
Print Assumptions C69_cube_root.

(** Anything to the power zero is one, zero included. *)
Theorem C69_zero_power : forall ni z x, pow_cr ni z 0 = of_real 1 /\ pow_cc ni z zero = of_real 1 /\ pow_rc x zero = of_real 1.
Proof.
  intros ni z x. split; [exact (pow_cr_0 ni z)|]. split.
  - unfold pow_cc, zero. cbn [im re]. rewrite (proj2 (reqP 0 0)) by reflexivity. exact (pow_cr_0 ni z).
  - unfold pow_rc, zero. cbn [im re]. rewrite (proj2 (reqP 0 0)) by reflexivity. exact (pow_rr_0 x).
Qed.
Print Assumptions C69_zero_power.

Theorem C69_exponentials : forall z, cexp2 z = cexp (mul_l (ln 2) z) /\ cexp10 z = cexp (mul_l (ln 10) z).
Proof. intros z. split; apply exp_base; lra. Qed.
Print Assumptions C69_exponentials.

Example C69_example : mk (-2) 0 <> zero /\ pow_cr true (mk (-2) 0) (INR 3) = mk (-8) 0.
Proof.
  assert (N : mk (-2) 0 <> zero) by (intros E; apply (f_equal re) in E; cbn in E; lra). split; [auto|].
  rewrite pow_nat by auto. cbn [cpow]. rewrite !mul_eq. cbn [re im]. apply cx_eq; cbn [re im]; ring.
Qed.

(** C70.  Each inverse function returns a point of its principal range.  One component of the result is exact; the other is exact up to
    1 / (2 arcBig^2) (arcBig = sqrt(max) / 4), and exact when no intermediate value had to be scaled. *)
Theorem C70_acos : forall n ni z, good_num n -> 2 <= n_arcBig n -> bit_ok ni (im z) ->
  let w := cacos n ni z in
  exists v, ccos (mk (re w) v) = z /\ 0 <= re w <= PI
    /\ Rabs (im w - v) <= / (2 * (n_arcBig n * n_arcBig n)) /\ (moderate n z -> im w = v).
Proof. exact cacos_ok. Qed.
Print Assumptions C70_acos.

Theorem C70_asin : forall n ni z, good_num n -> 2 <= n_arcBig n -> bit_ok ni (im z) ->
  let w := casin n ni z in
  exists v, csin (mk (re w) v) = z /\ - (PI / 2) <= re w <= PI / 2
    /\ Rabs (im w - v) <= / (2 * (n_arcBig n * n_arcBig n)) /\ (moderate n z -> im w = v).
Proof. exact casin_ok. Qed.
Print Assumptions C70_asin.

Theorem C70_asinh : forall n nr z, good_num n -> 2 <= n_arcBig n -> bit_ok nr (re z) ->
  let w := casinh n nr z in
  exists u, csinh (mk u (im w)) = z /\ - (PI / 2) <= im w <= PI / 2
    /\ Rabs (re w - u) <= / (2 * (n_arcBig n * n_arcBig n)) /\ (moderate n z -> re w = u).
Proof. exact casinh_ok. Qed.
Print Assumptions C70_asinh.

(** acosh: the real part is non-negative for types with signed zeros, and off the cut for the others. *)
Theorem C70_acosh_partial : forall n ni z, good_num n -> 2 <= n_arcBig n -> bit_ok ni (im z) ->
  let w := cacosh n ni z in
  exists u, ccosh (mk u (im w)) = z /\ - PI <= im w <= PI
    /\ Rabs (re w - u) <= / (2 * (n_arcBig n * n_arcBig n)) /\ (moderate n z -> re w = u)
    /\ (n_signed n = true \/ im z <> 0 \/ - 1 <= re z -> 0 <= u).
Proof.
  intros n ni z Hn HB Hb w. destruct (cacosh_ok n ni z Hn HB Hb) as (u & A & B & C & D & E & _). exists u. auto.
Qed.
Print Assumptions C70_acosh_partial.

(** For multi-precision components, acosh of every real number below -1 has a negative real part. *)
Theorem C70_acosh_refuted : forall n ni z, good_num n -> 2 <= n_arcBig n -> bit_ok ni (im z) ->
  n_signed n = false -> im z = 0 -> re z < -1 -> moderate n z -> re (cacosh n ni z) < 0.
Proof.
  intros n ni z Hn HB Hb S I R M. destruct (cacosh_ok n ni z Hn HB Hb) as (u & _ & _ & _ & D & _ & F). cbv zeta in D. rewrite (D M). now apply F.
Qed.
Print Assumptions C70_acosh_refuted.

(** atanh and atan: exact (both components) inside the square of half side arcBig, and outside it within 2 / arcBig
    and 10 / arcBig^2 of an exact value; infinite exactly at the two poles. *)
Theorem C70_atanh : forall n nr ni z, good_num n -> 2 <= n_arcBig n -> bit_ok nr (re z) -> bit_ok ni (im z) ->
  (z = mk 1 0 \/ z = mk (-1) 0 -> catanh n nr ni z = None)
  /\ (z <> mk 1 0 -> z <> mk (-1) 0 ->
      exists w, catanh n nr ni z = Some w /\ - (PI / 2) <= im w <= PI / 2 /\
      exists w', (csinh w' = mul z (ccosh w') /\ ccosh w' <> zero)
        /\ Rabs (re w - re w') <= 10 / (n_arcBig n * n_arcBig n) /\ Rabs (im w - im w') <= 2 / n_arcBig n
        /\ (Rabs (re z) <= n_arcBig n -> Rabs (im z) <= n_arcBig n -> w = w')).
Proof.
  intros n nr ni z Hn HB Hr Hi. split; [|now apply catanh_ok].
  destruct (catanh_pole n nr ni ltac:(lra)) as (A & B). now intros [-> | ->].
Qed.
Print Assumptions C70_atanh.

Theorem C70_atan : forall n nr ni z, good_num n -> 2 <= n_arcBig n -> bit_ok nr (re z) -> bit_ok ni (im z) ->
  (z = mk 0 1 \/ z = mk 0 (-1) -> catan n nr ni z = None)
  /\ (z <> mk 0 1 -> z <> mk 0 (-1) ->
      exists w, catan n nr ni z = Some w /\ - (PI / 2) <= re w <= PI / 2 /\
      exists w', (csin w' = mul z (ccos w') /\ ccos w' <> zero)
        /\ Rabs (re w - re w') <= 2 / n_arcBig n /\ Rabs (im w - im w') <= 10 / (n_arcBig n * n_arcBig n)
        /\ (Rabs (re z) <= n_arcBig n -> Rabs (im z) <= n_arcBig n -> w = w')).
Proof.
  intros n nr ni z Hn HB Hr Hi. split; [|now apply catan_ok].
  destruct (catan_pole n nr ni ltac:(lra)) as (A & B). now intros [-> | ->].
Qed.
Print Assumptions C70_atan.

(** The reciprocal functions: csc(acsc z) = sec(asec z) = z and cot(acot z) = z, written without division. *)
Theorem C70_reciprocals : forall n nr ni z, good_num n -> 2 <= n_arcBig n -> z <> zero ->
  (forall r, mul r z = one -> bit_ok nr (re r) /\ bit_ok ni (im r) /\ moderate n r /\ Rabs (re r) <= n_arcBig n /\ Rabs (im r) <= n_arcBig n) ->
  (exists w, cacsc n ni z = Some w /\ mul (csin w) z = one /\ - (PI / 2) <= re w <= PI / 2)
  /\ (exists w, casec n ni z = Some w /\ mul (ccos w) z = one /\ 0 <= re w <= PI)
  /\ (z <> mk 0 1 -> z <> mk 0 (-1) ->
      exists w, cacot n nr ni z = Some w /\ mul (csin w) z = ccos w /\ ccos w <> zero /\ - (PI / 2) <= re w <= PI / 2).
Proof.
  intros n nr ni z Hn HB Hz H. split; [|split].
  - apply acsc_ok; auto. intros r M. destruct (H r M) as (A & B & C & D & E). auto.
  - apply asec_ok; auto. intros r M. destruct (H r M) as (A & B & C & D & E). auto.
  - intros N1 N2. apply acot_ok; auto. intros r M. destruct (H r M) as (A & B & C & D & E). auto.
Qed.
Print Assumptions C70_reciprocals.

Definition example_num (signed : bool) : num :=
  {| n_signed := signed; n_arcBig := 1000; n_legTiny := / 100; n_digits := 53; n_logP1 := fun x => ln (1 + x) |}.
Example C70_example : forall s, good_num (example_num s) /\ 2 <= n_arcBig (example_num s) /\ bit_ok false (im (mk (-3) 0))
  /\ bit_ok true (im (mk (-3) 0)) /\ moderate (example_num s) (mk (-3) 0) /\ re (mk (-3) 0) < -1.
Proof.
  intros s. unfold good_num, example_num, bit_ok, moderate, cabs. cbn [n_digits n_arcBig n_logP1 re im].
  replace (-3 * -3 + 0 * 0) with (3 * 3) by ring. rewrite sqrt_square by lra. repeat split; try lra; try lia.
Qed.
Example C70_reciprocal_example : mk (-2) 0 <> zero /\ forall s r, mul r (mk (-2) 0) = one ->
  bit_ok true (re r) /\ bit_ok false (im r) /\ moderate (example_num s) r /\ Rabs (re r) <= n_arcBig (example_num s) /\ Rabs (im r) <= n_arcBig (example_num s).
Proof.
  split; [intros E; apply (f_equal re) in E; cbn in E; lra|]. intros s r M.
  assert (M1 := f_equal re M). assert (M2 := f_equal im M). rewrite mul_eq in M1, M2. unfold one in *. cbn [re im] in M1, M2.
  assert (R : re r = - / 2) by lra. assert (I : im r = 0) by lra. unfold bit_ok, moderate, cabs, example_num. cbn [n_arcBig]. rewrite R, I.
  rewrite Rabs_R0, Rabs_left by lra. replace (- / 2 * - / 2 + 0 * 0) with (/ 2 * / 2) by field. rewrite sqrt_square by lra. repeat split; intros; try lra; try reflexivity.
Qed.
