(** Complex products and quotients of IEEE numbers against their exact values. *)
From Coq Require Import ZArith Reals List Lia Lra Bool.
From Flocq Require Import Core BinarySingleNaN.
From Verif Require Import Base BaseProofs AccModel AccSpec AccProofs NumModel NumSpec NumBasics.
Import ListNotations.
Open Scope R_scope.

(** ** Facts about real numbers *)
Lemma modulus_pos a b : 0 <= modulus a b.
Proof. apply sqrt_pos. Qed.
Lemma modulus_sq a b : modulus a b * modulus a b = a * a + b * b.
Proof. unfold modulus. rewrite sqrt_sqrt; [ring|]. nra. Qed.
Lemma modulus_sym a b : modulus a b = modulus b a.
Proof. unfold modulus. f_equal. ring. Qed.
Lemma modulus_opp a b : modulus (- a) b = modulus a b.
Proof. unfold modulus. f_equal. ring. Qed.
Lemma modulus_ge_l a b : Rabs a <= modulus a b.
Proof. unfold modulus. rewrite <- sqrt_Rsqr_abs. apply sqrt_le_1_alt. unfold Rsqr. nra. Qed.
Lemma modulus_ge_r a b : Rabs b <= modulus a b.
Proof. rewrite modulus_sym. apply modulus_ge_l. Qed.
Lemma modulus_le a b : modulus a b <= Rabs a + Rabs b.
Proof.
  pose proof (Rabs_pos a). pose proof (Rabs_pos b). unfold modulus. rewrite <- (sqrt_Rsqr (Rabs a + Rabs b)) by lra. apply sqrt_le_1_alt.
  unfold Rsqr. pose proof (Rsqr_abs a) as A. pose proof (Rsqr_abs b) as B. unfold Rsqr in *. nra.
Qed.
Lemma cauchy a b c d : Rabs (a * c) + Rabs (b * d) <= modulus a b * modulus c d.
Proof.
  pose proof (modulus_pos a b). pose proof (modulus_pos c d). rewrite !Rabs_mult.
  pose proof (Rabs_pos a). pose proof (Rabs_pos b). pose proof (Rabs_pos c). pose proof (Rabs_pos d).
  apply Rsqr_incr_0; [|nra|nra]. unfold Rsqr.
  replace (modulus a b * modulus c d * (modulus a b * modulus c d)) with ((modulus a b * modulus a b) * (modulus c d * modulus c d)) by ring.
  rewrite !modulus_sq.
  pose proof (Rsqr_abs a) as A. pose proof (Rsqr_abs b) as B. pose proof (Rsqr_abs c) as C. pose proof (Rsqr_abs d) as D. unfold Rsqr in *.
  rewrite A, B, C, D. pose proof (Rle_0_sqr (Rabs a * Rabs d - Rabs b * Rabs c)) as S. unfold Rsqr in S. lra.
Qed.
Lemma sub_l x y z e1 e2 : Rabs (x - y) <= e1 -> Rabs (y - z) <= e2 -> Rabs (x - z) <= e1 + e2.
Proof. intros H1 H2. replace (x - z) with ((x - y) + (y - z)) by ring. eapply Rle_trans; [apply Rabs_triang|]. lra. Qed.
Lemma abs_of x y e : Rabs (x - y) <= e -> Rabs x <= Rabs y + e.
Proof. intros H. replace x with (y + (x - y)) by ring. eapply Rle_trans; [apply Rabs_triang|]. lra. Qed.

Section Cplx.
Variables prec emax : Z.
Context (Hp : Prec_gt_0 prec) (Hm : Prec_lt_emax prec emax).
Local Notation num := (binary_float prec emax).
Local Notation fzero := (fzero prec emax).
Local Notation fadd := (fadd prec emax Hp Hm).
Local Notation fmul := (fmul prec emax Hp Hm).
Local Notation fsub := (fsub prec emax Hp Hm).
Local Notation fdiv := (fdiv prec emax Hp Hm).
Local Notation flt := (flt prec emax).
Local Notation feq := (feq prec emax).
Local Notation rn := (nearest prec emax).
Local Notation u := (unit_roundoff prec).
Local Notation v := (u / (1 + u)).
Local Notation eta := (underflow_unit prec emax).
Local Notation big := (bpow radix2 emax).
Local Notation format := (generic_format radix2 (FLT_exp (3 - emax - prec) prec)).

Lemma eta_normal : eta = u * normal_min emax.
Proof.
  unfold underflow_unit, unit_roundoff, normal_min. change (/ 2) with (bpow radix2 (-1)). rewrite <- !bpow_plus. f_equal. ring.
Qed.

(** ** Products *)
Lemma two_products x y : Rabs (rn (rn x + rn y) - (x + y)) <= dot_bound prec emax 2 (Rabs x + Rabs y).
Proof.
  pose proof (dot_any_order prec emax Hp [x; y] (rn (rn x + rn y))) as H. unfold size_sum, exact_sum in H. cbn [map fold_right length] in H.
  rewrite !Rplus_0_r in H. apply H. apply (added_both prec emax [rn x] [rn y]); constructor.
Qed.
Lemma two_bound x y s : Rabs x + Rabs y <= s -> Rabs (rn (rn x + rn y) - (x + y)) <= 2 * u * s + 4 * eta.
Proof.
  intros H. eapply Rle_trans; [apply two_products|]. unfold dot_bound. cbn [INR].
  pose proof (u_pos prec). pose proof (u_half prec Hp). pose proof (eta_pos prec emax). nra.
Qed.
Lemma emax_2 : (2 <= emax)%Z.
Proof. pose proof (prec_emax prec emax Hm). unfold Prec_gt_0 in Hp. lia. Qed.
Lemma part_small x : Rabs x <= bpow radix2 (emax - 2) -> Rabs (rn x) <= bpow radix2 (emax - 2).
Proof.
  intros H. rewrite <- (rn_abs prec emax Hp). apply rn_le_format; auto. apply big_format; auto. pose proof emax_2. unfold Prec_gt_0 in Hp. lia.
Qed.
Lemma below_big k : (k < emax)%Z -> bpow radix2 k < big.
Proof. apply bpow_lt. Qed.
Lemma pair_small x y : Rabs x <= bpow radix2 (emax - 2) -> Rabs y <= bpow radix2 (emax - 2) -> Rabs (rn (rn x + rn y)) < big.
Proof.
  intros Hx Hy. apply part_small in Hx. apply part_small in Hy. apply rn_small with (emax - 1)%Z; try lia; auto.
  - pose proof emax_2. unfold Prec_gt_0 in Hp. lia.
  - eapply Rle_trans; [apply Rabs_triang|]. replace (emax - 1)%Z with (1 + (emax - 2))%Z by ring. rewrite bpow_plus. change (bpow radix2 1) with 2. lra.
Qed.
Local Notation cmul := (cmul prec emax Hp Hm).

Lemma mul_re (z w : fcomplex prec emax) : is_finite (fst (cmul z w)) = true ->
  Rabs (B2R (fst (cmul z w)) - rmul_re z w) <= 2 * u * (cmodulus z * cmodulus w) + 4 * eta.
Proof.
  destruct z as [a b], w as [c d]. unfold rmul_re, cmodulus. cbn [NumModel.cmul fst snd]. intros H.
  destruct (fsub_finite prec emax Hp Hm _ _ H) as (F1 & F2 & V & _).
  destruct (fmul_finite prec emax Hp Hm _ _ F1) as (_ & _ & V1). destruct (fmul_finite prec emax Hp Hm _ _ F2) as (_ & _ & V2).
  rewrite V, V1, V2. unfold Rminus. rewrite <- rn_opp. apply two_bound. rewrite Rabs_Ropp. apply cauchy.
Qed.
Lemma mul_im (z w : fcomplex prec emax) : is_finite (snd (cmul z w)) = true ->
  Rabs (B2R (snd (cmul z w)) - rmul_im z w) <= 2 * u * (cmodulus z * cmodulus w) + 4 * eta.
Proof.
  destruct z as [a b], w as [c d]. unfold rmul_im, cmodulus. cbn [NumModel.cmul fst snd]. intros H.
  destruct (fadd_finite prec emax Hp Hm _ _ H) as (F1 & F2 & V).
  destruct (fmul_finite prec emax Hp Hm _ _ F1) as (_ & _ & V1). destruct (fmul_finite prec emax Hp Hm _ _ F2) as (_ & _ & V2).
  rewrite V, V1, V2. apply two_bound. rewrite (modulus_sym (B2R c)). apply cauchy.
Qed.
Lemma mul_safe (z w : fcomplex prec emax) : cfinite z = true -> cfinite w = true ->
  cmodulus z * cmodulus w <= bpow radix2 (emax - 2) -> cfinite (cmul z w) = true.
Proof.
  destruct z as [a b], w as [c d]. unfold cmodulus, cfinite. cbn [NumModel.cmul fst snd]. intros Fz Fw B.
  apply andb_true_iff in Fz. destruct Fz as (Fa & Fb). apply andb_true_iff in Fw. destruct Fw as (Fc & Fd).
  pose proof (cauchy (B2R a) (B2R b) (B2R c) (B2R d)) as C1. pose proof (cauchy (B2R a) (B2R b) (B2R d) (B2R c)) as C2.
  rewrite (modulus_sym (B2R d)) in C2.
  pose proof (Rabs_pos (B2R a * B2R c)). pose proof (Rabs_pos (B2R b * B2R d)). pose proof (Rabs_pos (B2R a * B2R d)). pose proof (Rabs_pos (B2R b * B2R c)).
  assert (S : forall x, Rabs x <= bpow radix2 (emax - 2) -> Rabs (rn x) < big).
  { intros x Hx. eapply Rle_lt_trans; [apply part_small, Hx|]. apply below_big. lia. }
  destruct (fmul_small prec emax Hp Hm a c Fa Fc ltac:(apply S; lra)) as (F1 & V1).
  destruct (fmul_small prec emax Hp Hm b d Fb Fd ltac:(apply S; lra)) as (F2 & V2).
  destruct (fmul_small prec emax Hp Hm a d Fa Fd ltac:(apply S; lra)) as (F3 & V3).
  destruct (fmul_small prec emax Hp Hm b c Fb Fc ltac:(apply S; lra)) as (F4 & V4).
  apply andb_true_iff. split.
  - apply fsub_small; auto. rewrite V1, V2. unfold Rminus. rewrite <- rn_opp. apply pair_small; [lra|rewrite Rabs_Ropp; lra].
  - apply fadd_small; auto. rewrite V3, V4. apply pair_small; lra.
Qed.
(** by the conjugate: a real number *)
Lemma mul_conj (a b : num) : is_finite (snd (cmul (a, b) (a, fneg prec emax b))) = true ->
  B2R (snd (cmul (a, b) (a, fneg prec emax b))) = 0.
Proof.
  cbn [NumModel.cmul fst snd]. intros H. destruct (fadd_finite prec emax Hp Hm _ _ H) as (F1 & F2 & V).
  destruct (fmul_finite prec emax Hp Hm _ _ F1) as (_ & _ & V1). destruct (fmul_finite prec emax Hp Hm _ _ F2) as (_ & _ & V2).
  rewrite V, V1, V2. unfold fneg. rewrite B2R_Bopp. replace (B2R a * - B2R b) with (- (B2R b * B2R a)) by ring. rewrite rn_opp.
  replace (- rn (B2R b * B2R a) + rn (B2R b * B2R a)) with 0 by ring. apply rn_0.
Qed.

(** ** Quotients: the computation on real numbers *)
Definition ratioR (C D : R) : R := rn (D / C).
Definition denR (C D : R) : R := rn (C + rn (ratioR C D * D)).
Definition numR (p q C D : R) : R := rn (p + rn (q * ratioR C D)).
Definition quoR (p q C D : R) : R := rn (numR p q C D / denR C D).

Hypothesis P8 : (8 <= prec)%Z.
Lemma u_small : u <= / 256.
Proof. unfold unit_roundoff. change (/ 256) with (bpow radix2 (-8)). apply bpow_le. lia. Qed.
Lemma eta_small : eta <= u * / 64.
Proof.
  rewrite eta_normal. apply Rmult_le_compat_l; [pose proof (u_pos prec); lra|]. unfold normal_min. change (/ 64) with (bpow radix2 (-6)).
  apply bpow_le. pose proof (prec_emax prec emax Hm). lia.
Qed.
Lemma ratio_exact C D : C <> 0 -> Rabs D <= Rabs C -> Rabs (D / C) <= 1.
Proof.
  intros N H. unfold Rdiv. rewrite Rabs_mult, Rabs_inv. pose proof (Rabs_pos_lt C N).
  apply Rmult_le_reg_r with (Rabs C); auto. rewrite Rmult_assoc, Rinv_l by lra. lra.
Qed.
Lemma ratio_le C D : C <> 0 -> Rabs D <= Rabs C -> Rabs (ratioR C D) <= 1.
Proof.
  intros N H. unfold ratioR. rewrite <- rn_abs by exact Hp. apply (rn_le_format prec emax Hp); [|apply ratio_exact; auto].
  change 1 with (bpow radix2 0). apply big_format; auto. pose proof (prec_emax prec emax Hm). lia.
Qed.
(** the product rounded twice *)
Lemma prod_error q C D : let r := D / C in Rabs r <= 1 ->
  Rabs (rn (q * ratioR C D) - q * r) <= (2 * u + / 128 * u) * (Rabs q * Rabs r) + (/ 63 * u) * Rabs q + eta.
Proof.
  intros r R1. unfold ratioR. fold r. pose proof (rn_err prec emax Hp r) as E1. set (w := rn r) in *.
  pose proof (rn_err prec emax Hp (q * w)) as E2.
  pose proof (u_pos prec) as U0. pose proof u_small as US. pose proof (v_pos prec) as V0. pose proof (v_le prec) as VU.
  pose proof eta_small as ES. pose proof (eta_pos prec emax) as E0.
  assert (Q1 : Rabs (q * w - q * r) <= Rabs q * (u * Rabs r + u * / 64)).
  { replace (q * w - q * r) with (q * (w - r)) by ring. rewrite Rabs_mult. apply Rmult_le_compat_l; [apply Rabs_pos|].
    pose proof (Rmult_le_compat_r (Rabs r) _ _ (Rabs_pos r) VU). lra. }
  pose proof (abs_of _ _ _ Q1) as Q2. rewrite (Rabs_mult q r) in Q2.
  assert (Q3 : v * Rabs (q * w) <= u * (Rabs q * Rabs r + Rabs q * (u * Rabs r + u * / 64))).
  { apply Rmult_le_compat; auto; try lra. apply Rabs_pos. }
  eapply Rle_trans; [apply (sub_l _ _ _ _ _ E2 Q1)|].
  assert (K : Rabs q * (u * Rabs r + u * / 64) * u <= Rabs q * (u * Rabs r + u * / 64) * / 256).
  { apply Rmult_le_compat_l; [|exact US]. pose proof (Rabs_pos q). pose proof (Rabs_pos r). apply Rmult_le_pos; auto.
    apply Rplus_le_le_0_compat; [apply Rmult_le_pos; lra|lra]. }
  assert (K1 : 0 <= u * (Rabs q * Rabs r)) by (apply Rmult_le_pos; [lra|apply Rmult_le_pos; apply Rabs_pos]).
  assert (K2 : 0 <= u * Rabs q) by (apply Rmult_le_pos; [lra|apply Rabs_pos]). lra.
Qed.
Lemma num_error p q C D : let r := D / C in Rabs r <= 1 -> format p ->
  Rabs (numR p q C D - (p + q * r)) <= (3 * u + / 16 * u) * (Rabs p + Rabs q * Rabs r) + (/ 60 * u) * Rabs q + (1 + / 128) * eta.
Proof.
  intros r R1 Fp. pose proof (prod_error q C D R1) as E. fold r in E. unfold numR.
  set (t := rn (q * ratioR C D)) in *. assert (Ft : format t) by apply (rn_format prec emax Hp).
  pose proof (add_rel prec emax Hp p t Fp Ft) as E3.
  assert (E4 : Rabs (p + t - (p + q * r)) <= (2 * u + / 128 * u) * (Rabs q * Rabs r) + (/ 63 * u) * Rabs q + eta) by (replace (p + t - (p + q * r)) with (t - q * r) by ring; exact E).
  pose proof (abs_of _ _ _ E4) as E5. pose proof (Rabs_triang p (q * r)) as T. rewrite (Rabs_mult q r) in T.
  pose proof (u_pos prec) as U0. pose proof u_small as US. pose proof (v_pos prec) as V0. pose proof (v_le prec) as VU. pose proof (eta_pos prec emax) as E0.
  set (S := Rabs p + Rabs q * Rabs r) in *. pose proof (Rabs_pos p). pose proof (Rabs_pos q). pose proof (Rabs_pos r).
  assert (QR : 0 <= Rabs q * Rabs r <= S) by (unfold S; split; [apply Rmult_le_pos; auto|lra]).
  assert (UQ : 0 <= u * (Rabs q * Rabs r) <= u * S) by (split; [apply Rmult_le_pos; lra|apply Rmult_le_compat_l; lra]).
  assert (UQ2 : 0 <= u * Rabs q) by (apply Rmult_le_pos; lra).
  set (e := (2 * u + / 128 * u) * (Rabs q * Rabs r) + / 63 * u * Rabs q + eta) in *.
  assert (Ee : 0 <= e) by (unfold e; lra).
  assert (E6 : v * Rabs (p + t) <= u * S + / 256 * e).
  { eapply Rle_trans; [apply Rmult_le_compat; [exact V0|apply Rabs_pos|exact VU|]; apply E5|].
    pose proof (Rmult_le_compat_r e _ _ Ee US). pose proof (Rmult_le_compat_l u _ _ (Rlt_le _ _ U0) T). rewrite Rmult_plus_distr_l. lra. }
  eapply Rle_trans; [apply (sub_l _ _ _ _ _ E3 E4)|]. fold e. eapply Rle_trans; [apply Rplus_le_compat_r, E6|]. unfold e. lra.
Qed.

Lemma normal_pos : 0 < normal_min emax.
Proof. apply bpow_gt_0. Qed.
Lemma den_exact C D : C <> 0 -> C + D * (D / C) = C * (1 + (D / C) * (D / C)).
Proof. intros N. field. exact N. Qed.
Lemma den_abs C D : C <> 0 -> Rabs (C + D * (D / C)) = Rabs C * (1 + (D / C) * (D / C)).
Proof.
  intros N. rewrite den_exact by exact N. rewrite Rabs_mult. f_equal. apply Rabs_pos_eq. pose proof (Rle_0_sqr (D / C)) as S. unfold Rsqr in S. lra.
Qed.
Lemma den_err C D : format C -> normal_min emax <= Rabs C -> Rabs D <= Rabs C ->
  Rabs (denR C D - (C + D * (D / C))) <= (3 * u + / 32 * u) * Rabs (C + D * (D / C)).
Proof.
  intros FC NC DC. pose proof normal_pos as NP. assert (N : C <> 0) by (intros ->; rewrite Rabs_R0 in NC; lra).
  pose proof (ratio_exact C D N DC) as R1. pose proof (prod_error D C D R1) as E. pose proof (den_abs C D N) as DA. set (r := D / C) in *.
  unfold denR. rewrite (Rmult_comm (ratioR C D) D). set (t := rn (D * ratioR C D)) in *. assert (Ft : format t) by apply (rn_format prec emax Hp).
  pose proof (add_rel prec emax Hp C t FC Ft) as E3. set (X := C + D * r) in *.
  pose proof (u_pos prec) as U0. pose proof u_small as US. pose proof (v_pos prec) as V0. pose proof (v_le prec) as VU. pose proof (eta_pos prec emax) as E0.
  assert (EN : eta <= u * Rabs C) by (rewrite eta_normal; apply Rmult_le_compat_l; lra).
  pose proof (Rabs_pos C) as C0. assert (RR : r * r = Rabs r * Rabs r) by (rewrite <- Rabs_mult, Rabs_pos_eq; auto; pose proof (Rle_0_sqr r) as S; exact S).
  pose proof (Rabs_pos r) as R0. assert (R2 : 0 <= Rabs r * Rabs r <= 1) by (split; [apply Rmult_le_pos; auto|]; pose proof (Rmult_le_compat _ _ _ _ R0 R0 R1 R1); lra).
  assert (DE : Rabs D = Rabs C * Rabs r) by (rewrite <- Rabs_mult; f_equal; unfold r; field; auto).
  rewrite RR in DA.
  assert (E4 : Rabs (C + t - X) <= (2 * u + / 32 * u - / 120 * u) * Rabs X).
  { replace (C + t - X) with (t - D * r) by (unfold X; ring). eapply Rle_trans; [exact E|]. rewrite DE, DA.
    set (k := Rabs r) in *. set (c := Rabs C) in *. set (y := u * c) in *. assert (Y0 : 0 <= y) by (unfold y; apply Rmult_le_pos; lra).
    replace ((2 * u + / 128 * u) * (c * k * k)) with (y * ((2 + / 128) * (k * k))) by (unfold y; ring).
    replace (/ 63 * u * (c * k)) with (y * (/ 63 * k)) by (unfold y; ring).
    replace ((2 * u + / 32 * u - / 120 * u) * (c * (1 + k * k))) with (y * ((2 + / 32 - / 120) * (1 + k * k))) by (unfold y; ring).
    apply Rle_trans with (y * ((2 + / 128) * (k * k) + / 63 * k + 1)); [rewrite !Rmult_plus_distr_l; lra|].
    apply Rmult_le_compat_l; [exact Y0|]. lra. }
  pose proof (abs_of _ _ _ E4) as E5. pose proof (Rabs_pos X) as X0.
  assert (UX : 0 <= u * Rabs X) by (apply Rmult_le_pos; lra).
  assert (E6 : v * Rabs (C + t) <= u * (Rabs X + / 120 * Rabs X)).
  { apply Rmult_le_compat; auto; [apply Rabs_pos|]. eapply Rle_trans; [exact E5|]. apply Rplus_le_compat_l, Rmult_le_compat_r; lra. }
  eapply Rle_trans; [apply (sub_l _ _ _ _ _ E3 E4)|]. lra.
Qed.
(** the quotient of two numbers that are nearly known *)
Lemma quo_perturb n d N E e1 e2 : E <> 0 -> 0 <= e2 <= / 64 -> 0 <= e1 ->
  Rabs (n - N) <= e1 * Rabs E -> Rabs (d - E) <= e2 * Rabs E ->
  d <> 0 /\ Rabs (n / d - N / E) <= (e1 + e2 * Rabs (N / E)) * (1 + / 63).
Proof.
  intros NE [e20 E2] E1 Hn Hd. pose proof (Rabs_pos_lt E NE) as PE.
  assert (Ld : Rabs E * (63 / 64) <= Rabs d).
  { pose proof (Rabs_triang_inv E (E - d)) as T. replace (E - (E - d)) with d in T by ring. rewrite (Rabs_minus_sym E d) in T.
    pose proof (Rmult_le_compat_r (Rabs E) _ _ (Rlt_le _ _ PE) E2). lra. }
  assert (Nd : d <> 0) by (intros ->; rewrite Rabs_R0 in Ld; lra). split; [exact Nd|].
  replace (n / d - N / E) with (((n - N) - N / E * (d - E)) / d) by (field; auto).
  unfold Rdiv at 1. rewrite Rabs_mult, Rabs_inv. pose proof (Rabs_pos_lt d Nd) as Pd.
  apply Rmult_le_reg_r with (Rabs d); [exact Pd|]. rewrite Rmult_assoc, Rinv_l, Rmult_1_r by lra.
  assert (T : Rabs (n - N - N / E * (d - E)) <= (e1 + e2 * Rabs (N / E)) * Rabs E).
  { eapply Rle_trans; [apply Rabs_triang|]. rewrite Rabs_Ropp, Rabs_mult.
    pose proof (Rmult_le_compat_l (Rabs (N / E)) _ _ (Rabs_pos _) Hd). lra. }
  eapply Rle_trans; [exact T|]. rewrite Rmult_assoc. apply Rmult_le_compat_l; [|lra].
  apply Rplus_le_le_0_compat; auto. apply Rmult_le_pos; auto. apply Rabs_pos.
Qed.
(** sizes: the numerator against the denominator *)
Lemma sizes p q C D : C <> 0 -> let r := D / C in let W := modulus C D in let G := modulus p q / W in let E := Rabs (C + D * r) in
  0 < W /\ 0 < E /\ 0 <= G /\ Rabs p + Rabs q * Rabs r <= G * E /\ Rabs q <= G * E /\ W <= E.
Proof.
  intros N r W G E. pose proof (Rabs_pos_lt C N) as PC. pose proof (modulus_ge_l C D) as WC. fold W in WC.
  assert (PW : 0 < W) by lra. pose proof (den_abs C D N) as DA. fold r in DA. fold E in DA.
  assert (CE : Rabs C * E = W * W).
  { unfold W. rewrite modulus_sq, DA. replace (Rabs C * (Rabs C * (1 + r * r))) with ((Rabs C * Rabs C) * (1 + r * r)) by ring.
    rewrite <- Rabs_mult, Rabs_pos_eq by (pose proof (Rle_0_sqr C) as S; exact S). unfold r. field. exact N. }
  assert (PE : 0 < E). { rewrite DA. apply Rmult_lt_0_compat; auto. pose proof (Rle_0_sqr r) as S. unfold Rsqr in S. lra. }
  pose proof (modulus_pos p q) as Z0. set (Z := modulus p q) in *.
  assert (G0 : 0 <= G) by (apply Rmult_le_pos; [exact Z0|left; apply Rinv_0_lt_compat, PW]).
  assert (WE : W <= E). { apply Rmult_le_reg_l with W; auto. rewrite <- CE. apply Rmult_le_compat_r; lra. }
  assert (ZG : Z = G * W) by (unfold G; field; lra).
  repeat split; auto.
  - apply Rmult_le_reg_r with (Rabs C); auto. rewrite Rmult_assoc, (Rmult_comm E), CE, <- Rmult_assoc, <- ZG.
    replace ((Rabs p + Rabs q * Rabs r) * Rabs C) with (Rabs (p * C) + Rabs (q * D)); [apply cauchy|].
    rewrite !Rabs_mult. replace D with (r * C) at 1 by (unfold r; field; auto). rewrite Rabs_mult. ring.
  - pose proof (modulus_ge_r p q) as Q. fold Z in Q. rewrite ZG in Q. pose proof (Rmult_le_compat_l G _ _ G0 WE). lra.
Qed.
Lemma quo_error p q C D : format p -> format C -> normal_min emax <= Rabs C -> Rabs D <= Rabs C ->
  let W := modulus C D in let G := modulus p q / W in let X := (p * C + q * D) / (C ^ 2 + D ^ 2) in
  denR C D <> 0 /\ Rabs X <= G /\
  Rabs (numR p q C D / denR C D - X) <= (6 * u + / 2 * u) * G + (1 + / 16) * (eta / W) /\
  Rabs (quoR p q C D - X) <= 8 * u * G + (2 / W + 1) * eta.
Proof.
  intros Fp FC NC DC W G X. pose proof normal_pos as NP. assert (N : C <> 0) by (intros ->; rewrite Rabs_R0 in NC; lra).
  destruct (sizes p q C D N) as (PW & PE & G0 & S1 & S2 & S3). fold W in PW, S3. change (modulus p q / modulus C D) with G in *.
  pose proof (num_error p q C D (ratio_exact C D N DC) Fp) as EN. pose proof (den_err C D FC NC DC) as ED.
  set (r := D / C) in *. set (E := C + D * r) in *. set (M := p + q * r) in *.
  pose proof (u_pos prec) as U0. pose proof u_small as US. pose proof (v_pos prec) as V0. pose proof (v_le prec) as VU. pose proof (eta_pos prec emax) as E0.
  assert (NE : E <> 0) by (intros K; rewrite K, Rabs_R0 in PE; lra).
  assert (XE : X = M / E).
  { unfold X, M, E, r. pose proof (Rle_0_sqr D) as S; pose proof (Rlt_0_sqr C N) as S'; unfold Rsqr in *. field. repeat split; auto; simpl; lra. }
  assert (PI : 0 < / W) by (apply Rinv_0_lt_compat, PW). set (h := eta / W).
  assert (h0 : 0 <= h) by (unfold h; apply Rmult_le_pos; lra).
  assert (hE : eta <= h * Rabs E).
  { apply Rle_trans with (h * W); [unfold h; right; field; lra|]. apply Rmult_le_compat_l; auto. }
  assert (XG : Rabs (M / E) <= G).
  { unfold Rdiv. rewrite Rabs_mult, Rabs_inv. apply Rmult_le_reg_r with (Rabs E); auto. rewrite Rmult_assoc, Rinv_l, Rmult_1_r by lra.
    eapply Rle_trans; [|exact S1]. unfold M. eapply Rle_trans; [apply Rabs_triang|]. rewrite Rabs_mult. lra. }
  assert (UG : 0 <= u * G) by (apply Rmult_le_pos; lra).
  set (e1 := (3 * u + / 12 * u) * G + (1 + / 128) * h).
  assert (e10 : 0 <= e1) by (unfold e1; lra).
  assert (EN1 : Rabs (numR p q C D - M) <= e1 * Rabs E).
  { eapply Rle_trans; [exact EN|].
    pose proof (Rmult_le_compat_l u _ _ (Rlt_le _ _ U0) S1) as A1. pose proof (Rmult_le_compat_l u _ _ (Rlt_le _ _ U0) S2) as A2.
    assert (A3 : 0 <= u * (G * Rabs E)) by (apply Rmult_le_pos; [lra|apply Rmult_le_pos; lra]).
    replace (e1 * Rabs E) with ((3 + / 12) * (u * (G * Rabs E)) + (1 + / 128) * (h * Rabs E)) by (unfold e1; ring). lra. }
  destruct (quo_perturb (numR p q C D) (denR C D) M E e1 (3 * u + / 32 * u) NE ltac:(lra) e10 EN1 ED) as (Nd & Q).
  rewrite XE. split; [exact Nd|]. split; [exact XG|].
  assert (Q2 : Rabs (numR p q C D / denR C D - M / E) <= (6 * u + / 2 * u) * G + (1 + / 16) * h).
  { eapply Rle_trans; [exact Q|].
    assert (K : (3 * u + / 32 * u) * Rabs (M / E) <= (3 * u + / 32 * u) * G) by (apply Rmult_le_compat_l; lra).
    apply Rle_trans with ((e1 + (3 * u + / 32 * u) * G) * (1 + / 63)); [apply Rmult_le_compat_r; lra|]. unfold e1. lra. }
  split; [exact Q2|]. unfold quoR. pose proof (rn_err prec emax Hp (numR p q C D / denR C D)) as ER.
  pose proof (abs_of _ _ _ Q2) as AQ.
  assert (K : v * Rabs (numR p q C D / denR C D) <= u * (G + (/ 32 * G + (1 + / 16) * h))).
  { apply Rmult_le_compat; auto; [apply Rabs_pos|]. eapply Rle_trans; [exact AQ|].
    assert ((6 * u + / 2 * u) * G <= / 32 * G) by (apply Rmult_le_compat_r; lra). lra. }
  eapply Rle_trans; [apply (sub_l _ _ _ _ _ ER Q2)|].
  replace ((2 / W + 1) * eta) with (2 * h + eta) by (unfold h; field; lra).
  assert (uh : u * h <= / 256 * h) by (apply Rmult_le_compat_r; auto). lra.
Qed.

(** ** Quotients of IEEE numbers *)
Lemma cmod_val (x : num) : is_finite x = true -> is_finite (cmod prec emax x) = true /\ B2R (cmod prec emax x) = Rabs (B2R x).
Proof. exact (vabs_val prec emax x). Qed.
Lemma ratio_val (c d : num) : is_finite d = true -> B2R c <> 0 -> Rabs (B2R d) <= Rabs (B2R c) ->
  is_finite (fdiv d c) = true /\ B2R (fdiv d c) = ratioR (B2R c) (B2R d).
Proof.
  intros Fd N H. apply fdiv_small; auto. eapply Rle_lt_trans; [apply (ratio_le _ _ N H)|]. change 1 with (bpow radix2 0). apply below_big.
  pose proof (prec_emax prec emax Hm). lia.
Qed.
Lemma by_ratio q C D : C <> 0 -> Rabs D <= Rabs C -> Rabs (q * ratioR C D) <= Rabs q.
Proof.
  intros N H. rewrite Rabs_mult. pose proof (ratio_le C D N H). pose proof (Rmult_le_compat_l (Rabs q) _ _ (Rabs_pos q) H0). lra.
Qed.
Lemma den_val (c d : num) : is_finite c = true -> is_finite d = true -> B2R c <> 0 -> Rabs (B2R d) <= Rabs (B2R c) -> Rabs (B2R c) <= bpow radix2 (emax - 2) ->
  is_finite (fadd c (fmul (fdiv d c) d)) = true /\ B2R (fadd c (fmul (fdiv d c) d)) = denR (B2R c) (B2R d).
Proof.
  intros Fc Fd N H B. destruct (ratio_val c d Fd N H) as (F1 & V1). pose proof (by_ratio (B2R d) _ _ N H) as K. rewrite Rmult_comm in K.
  destruct (fmul_small prec emax Hp Hm (fdiv d c) d F1 Fd) as (F2 & V2).
  { rewrite V1. eapply Rle_lt_trans; [apply part_small|apply (below_big (emax - 2)); lia]. lra. }
  rewrite V1 in V2. destruct (fadd_small prec emax Hp Hm c _ Fc F2) as (F3 & V3).
  { rewrite V2. pose proof (pair_small (B2R c) (ratioR (B2R c) (B2R d) * B2R d) B ltac:(lra)) as PS. rewrite (rn_id prec emax (B2R c) (num_format _ _ c)) in PS. exact PS. }
  rewrite V2 in V3. split; auto.
Qed.
Lemma numR_small p q C D : format p -> C <> 0 -> Rabs D <= Rabs C -> Rabs p <= bpow radix2 (emax - 2) -> Rabs q <= bpow radix2 (emax - 2) ->
  Rabs (rn (q * ratioR C D)) < big /\ Rabs (numR p q C D) < big.
Proof.
  intros Fp N H P Q. pose proof (by_ratio q C D N H) as K. split.
  - eapply Rle_lt_trans; [apply part_small|apply (below_big (emax - 2)); lia]. lra.
  - unfold numR. pose proof (pair_small p (q * ratioR C D) P ltac:(lra)) as PS. rewrite (rn_id prec emax p Fp) in PS. exact PS.
Qed.
Lemma quo_small p q C D : format p -> format C -> normal_min emax <= Rabs C -> Rabs D <= Rabs C ->
  modulus p q / modulus C D <= bpow radix2 (emax - 2) -> Rabs (quoR p q C D) < big.
Proof.
  intros Fp FC NC DC GB. destruct (quo_error p q C D Fp FC NC DC) as (_ & X1 & E & _). apply abs_of in E. unfold quoR.
  set (G := modulus p q / modulus C D) in *. set (W := modulus C D) in *.
  pose proof (u_pos prec) as U0. pose proof u_small as US. pose proof normal_pos as NP.
  assert (NW : normal_min emax <= W) by (pose proof (modulus_ge_l C D) as K; fold W in K; lra).
  assert (h1 : eta / W <= u). { rewrite eta_normal. unfold Rdiv. rewrite Rmult_assoc. rewrite <- (Rmult_1_r u) at 2. apply Rmult_le_compat_l; [lra|].
    apply Rmult_le_reg_r with W; [lra|]. rewrite Rmult_assoc, Rinv_l by lra. lra. }
  assert (G0 : 0 <= G) by (pose proof (Rabs_pos ((p * C + q * D) / (C ^ 2 + D ^ 2))); lra).
  assert (ug : u * G <= / 256 * G) by (apply Rmult_le_compat_r; auto).
  assert (one : 1 <= bpow radix2 (emax - 2)) by (change 1 with (bpow radix2 0); apply bpow_le; pose proof (prec_emax prec emax Hm); lia).
  apply rn_small with (emax - 1)%Z; auto; try lia; [pose proof emax_2; lia|].
  eapply Rle_trans; [exact E|]. replace (emax - 1)%Z with (1 + (emax - 2))%Z by ring. rewrite bpow_plus. change (bpow radix2 1) with 2. lra.
Qed.

Local Notation cdiv := (cdiv prec emax Hp Hm).
(** which of the two formulas is used *)
Lemma div_real (a b c d : num) : is_finite c = true -> is_finite d = true -> divisor (c, d) -> Rabs (B2R d) < Rabs (B2R c) ->
  let wr := fdiv d c in let wd := fadd c (fmul wr d) in
  cdiv (a, b) (c, d) = (fdiv (fadd a (fmul b wr)) wd, fdiv (fsub b (fmul a wr)) wd) /\
  is_finite wd = true /\ B2R wd = denR (B2R c) (B2R d) /\ is_finite wr = true /\ B2R wr = ratioR (B2R c) (B2R d) /\
  normal_min emax <= Rabs (B2R c) /\ B2R wd <> 0.
Proof.
  intros Fc Fd [N1 N2] L wr wd. cbn [fst snd] in N1, N2. rewrite Rmax_left in N1, N2 by lra. pose proof normal_pos as NP.
  assert (N : B2R c <> 0) by (intros E; rewrite E, Rabs_R0 in N1; lra).
  destruct (ratio_val c d Fd N ltac:(lra)) as (F1 & V1). destruct (den_val c d Fc Fd N ltac:(lra) N2) as (F2 & V2).
  fold wr in F1, V1, F2, V2. fold wd in F2, V2.
  destruct (quo_error 0 0 (B2R c) (B2R d) (generic_format_0 _ _) (num_format _ _ c) N1 ltac:(lra)) as (Nd & _).
  destruct (cmod_val c Fc) as (F3 & V3). destruct (cmod_val d Fd) as (F4 & V4).
  split; [|repeat split; auto; rewrite V2; exact Nd]. unfold NumModel.cdiv.
  rewrite (finite_not_nan _ _ c Fc), (finite_not_nan _ _ d Fd). cbn [orb]. rewrite (flt_val prec emax _ _ F4 F3), V3, V4, Rlt_bool_true by exact L.
  change (fadd c (fmul (fdiv d c) d)) with wd. change (fdiv d c) with wr. rewrite (finite_not_nan _ _ wd F2). cbn [orb].
  rewrite (feq_val prec emax wd fzero F2) by reflexivity. rewrite Req_bool_false; [reflexivity|]. rewrite V2. exact Nd.
Qed.
Lemma div_imag (a b c d : num) : is_finite c = true -> is_finite d = true -> divisor (c, d) -> Rabs (B2R c) <= Rabs (B2R d) ->
  let wr := fdiv c d in let wd := fadd d (fmul wr c) in
  cdiv (a, b) (c, d) = (fdiv (fadd (fmul a wr) b) wd, fdiv (fsub (fmul b wr) a) wd) /\
  is_finite wd = true /\ B2R wd = denR (B2R d) (B2R c) /\ is_finite wr = true /\ B2R wr = ratioR (B2R d) (B2R c) /\
  normal_min emax <= Rabs (B2R d) /\ B2R wd <> 0.
Proof.
  intros Fc Fd [N1 N2] L wr wd. cbn [fst snd] in N1, N2. rewrite Rmax_right in N1, N2 by lra. pose proof normal_pos as NP.
  assert (N : B2R d <> 0) by (intros E; rewrite E, Rabs_R0 in N1; lra).
  destruct (ratio_val d c Fc N ltac:(lra)) as (F1 & V1). destruct (den_val d c Fd Fc N ltac:(lra) N2) as (F2 & V2).
  fold wr in F1, V1, F2, V2. fold wd in F2, V2.
  destruct (quo_error 0 0 (B2R d) (B2R c) (generic_format_0 _ _) (num_format _ _ d) N1 ltac:(lra)) as (Nd & _).
  destruct (cmod_val c Fc) as (F3 & V3). destruct (cmod_val d Fd) as (F4 & V4).
  split; [|repeat split; auto; rewrite V2; exact Nd]. unfold NumModel.cdiv.
  rewrite (finite_not_nan _ _ c Fc), (finite_not_nan _ _ d Fd). cbn [orb]. rewrite (flt_val prec emax _ _ F4 F3), V3, V4, Rlt_bool_false by exact L.
  rewrite (feq_val prec emax d fzero Fd) by reflexivity. rewrite (Req_bool_false (B2R d)) by (cbn; exact N).
  change (fadd d (fmul (fdiv c d) c)) with wd. change (fdiv c d) with wr. rewrite (finite_not_nan _ _ wd F2). cbn [orb].
  rewrite (feq_val prec emax wd fzero F2) by reflexivity. rewrite Req_bool_false; [reflexivity|]. rewrite V2. exact Nd.
Qed.
(** a numerator computed from p, q and the ratio *)
Lemma numer_add (p q wr : num) C D : B2R wr = ratioR C D -> is_finite (fadd p (fmul q wr)) = true ->
  B2R (fadd p (fmul q wr)) = numR (B2R p) (B2R q) C D.
Proof.
  intros E H. destruct (fadd_finite prec emax Hp Hm _ _ H) as (_ & F & V). destruct (fmul_finite prec emax Hp Hm _ _ F) as (_ & _ & V2).
  rewrite V, V2, E. reflexivity.
Qed.
Lemma numer_add' (p q wr : num) C D : B2R wr = ratioR C D -> is_finite (fadd (fmul q wr) p) = true ->
  B2R (fadd (fmul q wr) p) = numR (B2R p) (B2R q) C D.
Proof.
  intros E H. destruct (fadd_finite prec emax Hp Hm _ _ H) as (F & _ & V). destruct (fmul_finite prec emax Hp Hm _ _ F) as (_ & _ & V2).
  rewrite V, V2, E. unfold numR. f_equal. ring.
Qed.
Lemma numer_sub (p q wr : num) C D : B2R wr = ratioR C D -> is_finite (fsub p (fmul q wr)) = true ->
  B2R (fsub p (fmul q wr)) = numR (B2R p) (- B2R q) C D.
Proof.
  intros E H. destruct (fsub_finite prec emax Hp Hm _ _ H) as (_ & F & V & _). destruct (fmul_finite prec emax Hp Hm _ _ F) as (_ & _ & V2).
  rewrite V, V2, E. unfold numR. replace (- B2R q * ratioR C D) with (- (B2R q * ratioR C D)) by ring. rewrite rn_opp. reflexivity.
Qed.
Lemma numer_sub' (p q wr : num) C D : B2R wr = ratioR C D -> is_finite (fsub (fmul q wr) p) = true ->
  B2R (fsub (fmul q wr) p) = numR (- B2R p) (B2R q) C D.
Proof.
  intros E H. destruct (fsub_finite prec emax Hp Hm _ _ H) as (F & _ & V & _). destruct (fmul_finite prec emax Hp Hm _ _ F) as (_ & _ & V2).
  rewrite V, V2, E. unfold numR. f_equal. ring.
Qed.
Lemma quo_of (n wd : num) p q C D : is_finite wd = true -> B2R wd = denR C D -> (is_finite n = true -> B2R n = numR p q C D) ->
  is_finite (fdiv n wd) = true -> B2R (fdiv n wd) = quoR p q C D.
Proof.
  intros Fw Vw Vn H. destruct (fdiv_finite prec emax Hp Hm _ _ H Fw) as (Fn & _ & V). rewrite V, (Vn Fn), Vw. reflexivity.
Qed.
Lemma opp_format x : format x -> format (- x).
Proof. apply generic_format_opp. Qed.
Lemma div_error (z w : fcomplex prec emax) : cfinite w = true -> divisor w ->
  (is_finite (fst (cdiv z w)) = true -> Rabs (B2R (fst (cdiv z w)) - rdiv_re z w) <= 8 * u * (cmodulus z / cmodulus w) + (2 / cmodulus w + 1) * eta) /\
  (is_finite (snd (cdiv z w)) = true -> Rabs (B2R (snd (cdiv z w)) - rdiv_im z w) <= 8 * u * (cmodulus z / cmodulus w) + (2 / cmodulus w + 1) * eta).
Proof.
  destruct z as [a b], w as [c d]. unfold cfinite, cmodulus, rdiv_re, rdiv_im, quot_re, quot_im. cbn [fst snd]. intros F Dv.
  apply andb_true_iff in F. destruct F as (Fc & Fd).
  destruct (Rlt_or_le (Rabs (B2R d)) (Rabs (B2R c))) as [L|L].
  - destruct (div_real a b c d Fc Fd Dv L) as (E & Fw & Vw & Fr & Vr & N & _). rewrite E. cbn [fst snd]. split; intros H.
    + rewrite (quo_of _ _ _ _ _ _ Fw Vw (numer_add a b _ _ _ Vr) H). apply quo_error; try apply num_format; auto. lra.
    + rewrite (quo_of _ _ _ _ _ _ Fw Vw (numer_sub b a _ _ _ Vr) H).
      destruct (quo_error (B2R b) (- B2R a) (B2R c) (B2R d) (num_format _ _ b) (num_format _ _ c) N ltac:(lra)) as (_ & _ & _ & Q).
      rewrite (modulus_sym (B2R b)), modulus_opp in Q. replace (B2R b * B2R c - B2R a * B2R d) with (B2R b * B2R c + - B2R a * B2R d) by ring. exact Q.
  - destruct (div_imag a b c d Fc Fd Dv L) as (E & Fw & Vw & Fr & Vr & N & _). rewrite E. cbn [fst snd].
    rewrite (modulus_sym (B2R c)). replace (B2R c ^ 2 + B2R d ^ 2) with (B2R d ^ 2 + B2R c ^ 2) by ring. split; intros H.
    + rewrite (quo_of _ _ _ _ _ _ Fw Vw (numer_add' b a _ _ _ Vr) H).
      destruct (quo_error (B2R b) (B2R a) (B2R d) (B2R c) (num_format _ _ b) (num_format _ _ d) N ltac:(lra)) as (_ & _ & _ & Q).
      rewrite (modulus_sym (B2R b)) in Q. rewrite (Rplus_comm (B2R a * B2R c)). exact Q.
    + rewrite (quo_of _ _ _ _ _ _ Fw Vw (numer_sub' a b _ _ _ Vr) H).
      destruct (quo_error (- B2R a) (B2R b) (B2R d) (B2R c) (opp_format _ (num_format _ _ a)) (num_format _ _ d) N ltac:(lra)) as (_ & _ & _ & Q).
      rewrite modulus_opp in Q. replace (B2R b * B2R c - B2R a * B2R d) with (- B2R a * B2R d + B2R b * B2R c) by ring. exact Q.
Qed.
Lemma div_safe (z w : fcomplex prec emax) : cfinite z = true -> cfinite w = true -> divisor w ->
  Rabs (B2R (fst z)) <= bpow radix2 (emax - 2) -> Rabs (B2R (snd z)) <= bpow radix2 (emax - 2) -> cmodulus z / cmodulus w <= bpow radix2 (emax - 2) ->
  cfinite (cdiv z w) = true.
Proof.
  destruct z as [a b], w as [c d]. unfold cfinite, cmodulus. cbn [fst snd]. intros Fz F Dv Ba Bb G.
  apply andb_true_iff in Fz. destruct Fz as (Fa & Fb). apply andb_true_iff in F. destruct F as (Fc & Fd). pose proof normal_pos as NP.
  destruct (Rlt_or_le (Rabs (B2R d)) (Rabs (B2R c))) as [L|L].
  - destruct (div_real a b c d Fc Fd Dv L) as (E & Fw & Vw & Fr & Vr & N & Nw). rewrite E. cbn [fst snd].
    assert (NC : B2R c <> 0) by (intros K; rewrite K, Rabs_R0 in N; lra).
    destruct (numR_small (B2R a) (B2R b) (B2R c) (B2R d) (num_format _ _ a) NC ltac:(lra) Ba Bb) as (P1 & P2).
    destruct (numR_small (B2R b) (- B2R a) (B2R c) (B2R d) (num_format _ _ b) NC ltac:(lra) Bb ltac:(rewrite Rabs_Ropp; exact Ba)) as (P3 & P4).
    replace (- B2R a * ratioR (B2R c) (B2R d)) with (- (B2R a * ratioR (B2R c) (B2R d))) in P3 by ring. rewrite rn_opp, Rabs_Ropp in P3.
    destruct (fmul_small prec emax Hp Hm b _ Fb Fr ltac:(rewrite Vr; exact P1)) as (F1 & V1).
    destruct (fmul_small prec emax Hp Hm a _ Fa Fr ltac:(rewrite Vr; exact P3)) as (F2 & V2).
    assert (F3 : is_finite (fadd a (fmul b (fdiv d c))) = true) by (apply fadd_small; auto; rewrite V1, Vr; exact P2).
    assert (F4 : is_finite (fsub b (fmul a (fdiv d c))) = true).
    { apply fsub_small; auto. rewrite V2, Vr. unfold numR in P4. replace (- B2R a * ratioR (B2R c) (B2R d)) with (- (B2R a * ratioR (B2R c) (B2R d))) in P4 by ring.
      rewrite rn_opp in P4. exact P4. }
    apply andb_true_iff. split; apply fdiv_small; auto; rewrite Vw.
    + rewrite (numer_add a b _ _ _ Vr F3). apply quo_small; try apply num_format; auto; lra.
    + rewrite (numer_sub b a _ _ _ Vr F4). apply quo_small; try apply num_format; auto; [lra|]. rewrite (modulus_sym (B2R b)), modulus_opp. exact G.
  - destruct (div_imag a b c d Fc Fd Dv L) as (E & Fw & Vw & Fr & Vr & N & Nw). rewrite E. cbn [fst snd]. rewrite (modulus_sym (B2R c)) in G.
    assert (NC : B2R d <> 0) by (intros K; rewrite K, Rabs_R0 in N; lra).
    destruct (numR_small (B2R b) (B2R a) (B2R d) (B2R c) (num_format _ _ b) NC ltac:(lra) Bb Ba) as (P1 & P2).
    destruct (numR_small (- B2R a) (B2R b) (B2R d) (B2R c) (opp_format _ (num_format _ _ a)) NC ltac:(lra) ltac:(rewrite Rabs_Ropp; exact Ba) Bb) as (P3 & P4).
    destruct (fmul_small prec emax Hp Hm a _ Fa Fr ltac:(rewrite Vr; exact P1)) as (F1 & V1).
    destruct (fmul_small prec emax Hp Hm b _ Fb Fr ltac:(rewrite Vr; exact P3)) as (F2 & V2).
    assert (F3 : is_finite (fadd (fmul a (fdiv c d)) b) = true) by (apply fadd_small; auto; rewrite V1, Vr, Rplus_comm; exact P2).
    assert (F4 : is_finite (fsub (fmul b (fdiv c d)) a) = true).
    { apply fsub_small; auto. rewrite V2, Vr. unfold numR in P4. rewrite Rplus_comm in P4. exact P4. }
    apply andb_true_iff. split; apply fdiv_small; auto; rewrite Vw.
    + rewrite (numer_add' b a _ _ _ Vr F3). apply quo_small; try apply num_format; auto. rewrite (modulus_sym (B2R b)). exact G.
    + rewrite (numer_sub' a b _ _ _ Vr F4). apply quo_small; try apply num_format; auto; [apply opp_format, num_format|]. rewrite modulus_opp. exact G.
Qed.
(** a number divided by itself: the real part is exact *)
Lemma fmul_comm_val (x y : num) : is_finite (fmul x y) = true -> is_finite (fmul y x) = true -> B2R (fmul x y) = B2R (fmul y x).
Proof.
  intros H1 H2. destruct (fmul_finite prec emax Hp Hm _ _ H1) as (_ & _ & V1). destruct (fmul_finite prec emax Hp Hm _ _ H2) as (_ & _ & V2).
  rewrite V1, V2, Rmult_comm. reflexivity.
Qed.
Lemma quo_self C D : C <> 0 -> denR C D <> 0 -> quoR C D C D = 1.
Proof.
  intros N Nd. unfold quoR. replace (numR C D C D) with (denR C D) by (unfold numR, denR; rewrite (Rmult_comm D); reflexivity).
  replace (denR C D / denR C D) with 1 by (field; exact Nd). apply rn_id. change 1 with (bpow radix2 0). apply big_format; auto. pose proof (prec_emax prec emax Hm). lia.
Qed.
Lemma div_self (z : fcomplex prec emax) : cfinite z = true -> divisor z ->
  cfinite (cdiv z z) = true /\ B2R (fst (cdiv z z)) = 1.
Proof.
  intros F Dv. assert (S : cfinite (cdiv z z) = true).
  { destruct Dv as [N1 N2]. pose proof normal_pos as NP.
    apply div_safe; auto; [split; auto| | |].
    - eapply Rle_trans; [apply Rmax_l|apply N2].
    - eapply Rle_trans; [apply Rmax_r|apply N2].
    - unfold cmodulus. destruct z as [a b]. cbn [fst snd] in *.
      assert (P : modulus (B2R a) (B2R b) <> 0).
      { pose proof (modulus_ge_l (B2R a) (B2R b)). pose proof (modulus_ge_r (B2R a) (B2R b)).
        pose proof (Rmax_lub _ _ _ H H0). lra. }
      replace (modulus (B2R a) (B2R b) / modulus (B2R a) (B2R b)) with 1 by (field; exact P).
      change 1 with (bpow radix2 0). apply bpow_le. pose proof (prec_emax prec emax Hm). lia. }
  split; [exact S|]. destruct z as [a b]. unfold cfinite in *. cbn [fst snd] in *. apply andb_true_iff in F. destruct F as (Fa & Fb). apply andb_true_iff in S. destruct S as (S & _).
  pose proof normal_pos as NP.
  destruct (Rlt_or_le (Rabs (B2R b)) (Rabs (B2R a))) as [L|L].
  - destruct (div_real a b a b Fa Fb Dv L) as (E & Fw & Vw & Fr & Vr & N & Nw). rewrite E in *. cbn [fst] in *.
    rewrite (quo_of _ _ _ _ _ _ Fw Vw (numer_add a b _ _ _ Vr) S). apply quo_self; [|rewrite <- Vw; exact Nw].
    intros K; rewrite K, Rabs_R0 in N; lra.
  - destruct (div_imag a b a b Fa Fb Dv L) as (E & Fw & Vw & Fr & Vr & N & Nw). rewrite E in *. cbn [fst] in *.
    rewrite (quo_of _ _ _ _ _ _ Fw Vw (numer_add' b a _ _ _ Vr) S). apply quo_self; [|rewrite <- Vw; exact Nw].
    intros K; rewrite K, Rabs_R0 in N; lra.
Qed.
(** division by zero *)
Lemma div_zero (z : fcomplex prec emax) s1 s2 : cdiv z (B754_zero s1, B754_zero s2) = (B754_nan, B754_nan).
Proof. destruct z as [a b]. destruct s1, s2; reflexivity. Qed.
End Cplx.
