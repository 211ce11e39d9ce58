(** Proofs about linspace, arange and the random numbers over IEEE numbers. *)
From Coq Require Import ZArith Reals List Lia Lra Bool.
From Flocq Require Import Core Relative Plus_error BinarySingleNaN.
From Verif Require Import Base BaseProofs ShapeModel AccModel AccSpec AccProofs NumModel NumSpec NumBasics.
Import ListNotations.
Open Scope R_scope.

Lemma abs_div_pos x y : 0 < y -> Rabs (x / y) = Rabs x / y.
Proof. intros H. unfold Rdiv. rewrite Rabs_mult, (Rabs_pos_eq (/ y)); auto. left. apply Rinv_0_lt_compat, H. Qed.

(** The four roundings of one element of linspace. *)
Lemma four_roundings u v eta D a q E (r1 r2 : R) : 0 < u -> v * (1 + u) = u -> v <= / 3 -> 0 <= v -> 0 < eta -> 0 <= D ->
  Rabs (q - E) <= ((1 + v) ^ 3 - 1) * D + (1 + v) * eta + eta ->
  Rabs (r1 - (a + q)) <= v * Rabs (a + q) ->
  Rabs (r1 - (a + E)) <= u * Rabs (a + E) + 4 * u * D + 4 * eta.
Proof.
  intros U0 VU V3 V0 E0 D0 Hq Hr.
  assert (A : Rabs (a + q) <= Rabs (a + E) + Rabs (q - E)).
  { replace (a + q) with ((a + E) + (q - E)) by ring. apply Rabs_triang. }
  assert (B : Rabs (r1 - (a + E)) <= Rabs (r1 - (a + q)) + Rabs (q - E)).
  { replace (r1 - (a + E)) with ((r1 - (a + q)) + (q - E)) by ring. apply Rabs_triang. }
  assert (VU' : v <= u) by nra.
  assert (C : Rabs (q - E) <= 3 * u * D + 7 / 3 * eta).
  { eapply Rle_trans; [exact Hq|]. assert ((1 + v) ^ 3 - 1 <= 3 * u) by nra. nra. }
  pose proof (Rabs_pos (a + E)). pose proof (Rabs_pos (q - E)).
  assert (v * Rabs (a + q) <= u * Rabs (a + E) + / 3 * Rabs (q - E)) by nra. nra.
Qed.

Section Seq.
Variables prec emax : Z.
Context (Hp : Prec_gt_0 prec) (Hm : Prec_lt_emax prec emax).
Local Notation num := (binary_float prec emax).
Local Notation fzero := (fzero prec emax).
Local Notation fone := (fone prec emax Hp Hm).
Local Notation fadd := (fadd prec emax Hp Hm).
Local Notation fmul := (fmul prec emax Hp Hm).
Local Notation fsub := (fsub prec emax Hp Hm).
Local Notation fdiv := (fdiv prec emax Hp Hm).
Local Notation fint := (fint prec emax Hp Hm).
Local Notation rn := (nearest prec emax).
Local Notation u := (unit_roundoff prec).
Local Notation v := (u / (1 + u)).
Local Notation eta := (underflow_unit prec emax).
Local Notation big := (bpow radix2 emax).
Local Notation format := (generic_format radix2 (FLT_exp (3 - emax - prec) prec)).
Local Notation at_i := (linspace_at prec emax Hp Hm).

(** The computed element as a real function of exact data *)
Definition lin (a b den : R) (i : R) : R := rn (a + rn (rn (rn (b - a) * i) / den)).
Lemma linspace_finite (a b : num) den i : (0 < den <= 2 ^ prec)%Z -> (Z.of_nat i <= 2 ^ prec)%Z ->
  is_finite (at_i a b (fint den) i) = true ->
  is_finite a = true /\ is_finite b = true /\ B2R (at_i a b (fint den) i) = lin (B2R a) (B2R b) (IZR den) (INR i).
Proof.
  intros Hd Hi F. unfold linspace_at in *. destruct (fint_exact prec emax Hp Hm den) as (F1 & V1); [lia|].
  destruct (fint_exact prec emax Hp Hm (Z.of_nat i)) as (F2 & V2); [lia|]. rewrite <- INR_IZR_INZ in V2.
  destruct (fadd_finite _ _ Hp Hm _ _ F) as (Fa & Fq & E1). destruct (fdiv_finite _ _ Hp Hm _ _ Fq F1) as (Fm & _ & E2).
  destruct (fmul_finite _ _ Hp Hm _ _ Fm) as (Fs & _ & E3). destruct (fsub_finite _ _ Hp Hm _ _ Fs) as (Fb & _ & E4 & _).
  split; auto. split; auto. unfold lin. rewrite E1, E2, E3, E4, V1, V2. reflexivity.
Qed.
Lemma lin_error a b den i : format a -> format b -> 1 <= den -> 0 <= i ->
  Rabs (lin a b den i - (a + (b - a) * i / den)) <= u * Rabs (a + (b - a) * i / den) + 4 * u * (Rabs (b - a) * i / den) + 4 * eta.
Proof.
  intros Fa Fb Hd Hi. unfold lin. pose proof (u_pos prec) as U0. pose proof (v_eq prec) as VE. pose proof (v_third prec Hp) as V3.
  pose proof (v_pos prec) as V0. pose proof (eta_pos prec emax) as E0.
  set (d := rn (b - a)). set (m := rn (d * i)). set (q := rn (m / den)).
  assert (Dp : 0 <= Rabs (b - a) * i / den).
  { apply Rmult_le_pos; [apply Rmult_le_pos; [apply Rabs_pos|exact Hi]|]. left. apply Rinv_0_lt_compat. lra. }
  apply (four_roundings u v eta _ a q _ (rn (a + q)) 0); auto.
  - assert (H1 : Rabs (d - (b - a)) <= v * Rabs (b - a)).
    { unfold d. replace (b - a) with (b + - a) by ring. apply add_rel; auto. apply generic_format_opp, Fa. }
    pose proof (rn_err prec emax Hp (d * i)) as H2. fold m in H2. pose proof (rn_err prec emax Hp (m / den)) as H3. fold q in H3.
    rewrite abs_div_pos in H3 by lra. rewrite Rabs_mult, (Rabs_pos_eq i) in H2 by exact Hi.
    assert (Ad : Rabs d <= (1 + v) * Rabs (b - a)).
    { replace d with ((d - (b - a)) + (b - a)) by ring. eapply Rle_trans; [apply Rabs_triang|]. lra. }
    assert (H2' : Rabs (m - (b - a) * i) <= ((1 + v) ^ 2 - 1) * (Rabs (b - a) * i) + eta).
    { replace (m - (b - a) * i) with ((m - d * i) + (d - (b - a)) * i) by ring. eapply Rle_trans; [apply Rabs_triang|].
      rewrite (Rabs_mult _ i), (Rabs_pos_eq i) by exact Hi.
      assert (Rabs d * i <= (1 + v) * Rabs (b - a) * i) by (apply Rmult_le_compat_r; lra).
      assert (Rabs (d - (b - a)) * i <= v * Rabs (b - a) * i) by (apply Rmult_le_compat_r; lra).
      assert (v * (Rabs d * i) <= v * ((1 + v) * Rabs (b - a) * i)) by (apply Rmult_le_compat_l; lra). nra. }
    assert (Am : Rabs m <= (1 + v) ^ 2 * (Rabs (b - a) * i) + eta).
    { replace m with ((m - (b - a) * i) + (b - a) * i) by ring. eapply Rle_trans; [apply Rabs_triang|].
      rewrite (Rabs_mult _ i), (Rabs_pos_eq i) by exact Hi. lra. }
    replace (q - (b - a) * i / den) with ((q - m / den) + (m - (b - a) * i) / den) by (field; lra).
    eapply Rle_trans; [apply Rabs_triang|]. rewrite abs_div_pos by lra.
    assert (ID : 0 < / den <= 1).
    { split; [apply Rinv_0_lt_compat; lra|]. rewrite <- Rinv_1. apply Rinv_le; lra. }
    assert (Am' : Rabs m / den <= (1 + v) ^ 2 * (Rabs (b - a) * i / den) + eta).
    { unfold Rdiv in *. apply Rle_trans with (((1 + v) ^ 2 * (Rabs (b - a) * i) + eta) * / den); [apply Rmult_le_compat_r; lra|]. nra. }
    assert (Hm' : Rabs (m - (b - a) * i) / den <= ((1 + v) ^ 2 - 1) * (Rabs (b - a) * i / den) + eta).
    { unfold Rdiv in *. apply Rle_trans with ((((1 + v) ^ 2 - 1) * (Rabs (b - a) * i) + eta) * / den); [apply Rmult_le_compat_r; lra|]. nra. }
    assert (v * (Rabs m / den) <= v * ((1 + v) ^ 2 * (Rabs (b - a) * i / den) + eta)) by (apply Rmult_le_compat_l; lra).
    set (D := Rabs (b - a) * i / den) in *. clearbody D. clear - H3 H Am' Hm' Dp V0 E0. nra.
  - apply add_rel; [exact Hp|exact Fa|]. apply rn_format. exact Hp.
Qed.
Lemma lin_first a b den : format a -> lin a b den 0 = a.
Proof.
  intros Fa. unfold lin. rewrite Rmult_0_r, rn_0. unfold Rdiv. rewrite Rmult_0_l, rn_0, Rplus_0_r. apply rn_id; auto.
Qed.
Lemma lin_mono a b den i j : 0 < den -> a <= b -> i <= j -> lin a b den i <= lin a b den j.
Proof.
  intros Hd Hab Hij. unfold lin. apply rn_le; auto. apply Rplus_le_compat_l, rn_le; auto.
  apply Rmult_le_compat_r; [left; apply Rinv_0_lt_compat, Hd|]. apply rn_le; auto. apply Rmult_le_compat_l; auto.
  apply rn_pos; auto. lra.
Qed.
Lemma lin_anti a b den i j : 0 < den -> b <= a -> i <= j -> lin a b den j <= lin a b den i.
Proof.
  intros Hd Hab Hij. unfold lin. apply rn_le; auto. apply Rplus_le_compat_l, rn_le; auto.
  apply Rmult_le_compat_r; [left; apply Rinv_0_lt_compat, Hd|]. apply rn_le; auto.
  assert (rn (b - a) <= 0) by (apply rn_neg; auto; lra). nra.
Qed.

(** Without overflow *)
Lemma linspace_small (a b : num) den i k : is_finite a = true -> is_finite b = true -> (0 < den <= 2 ^ prec)%Z -> (Z.of_nat i <= den)%Z ->
  (k + 3 <= emax)%Z -> (3 - emax - prec <= k)%Z -> (Rabs (B2R a) + Rabs (B2R b)) * IZR den <= bpow radix2 k ->
  is_finite (at_i a b (fint den) i) = true.
Proof.
  intros Fa Fb Hd Hi K1 K2 B. unfold linspace_at.
  destruct (fint_exact prec emax Hp Hm den) as (F1 & V1); [lia|].
  destruct (fint_exact prec emax Hp Hm (Z.of_nat i)) as (F2 & V2); [lia|]. rewrite <- INR_IZR_INZ in V2.
  set (x := B2R a) in *. set (y := B2R b) in *. pose proof (Rabs_pos x) as X0. pose proof (Rabs_pos y) as Y0.
  assert (D1 : 1 <= IZR den) by (apply IZR_le; lia).
  assert (I1 : 0 <= INR i <= IZR den) by (split; [apply pos_INR|rewrite INR_IZR_INZ; apply IZR_le; lia]).
  assert (XY : Rabs (y - x) <= Rabs x + Rabs y).
  { unfold Rminus. eapply Rle_trans; [apply Rabs_triang|]. rewrite Rabs_Ropp. lra. }
  pose proof (Rabs_pos (y - x)) as YX0.
  assert (B0 : Rabs x + Rabs y <= bpow radix2 k) by nra.
  assert (B1 : Rabs (y - x) * INR i <= bpow radix2 k) by nra.
  assert (R : forall z e, (k <= e)%Z -> (e < emax)%Z -> Rabs z <= bpow radix2 e -> Rabs (rn z) <= bpow radix2 e).
  { intros z e He He' Hz. rewrite <- rn_abs by exact Hp. apply rn_le_format; auto. apply big_format; auto; lia. }
  assert (L : forall e, (e < emax)%Z -> bpow radix2 e < big) by (intros; apply bpow_lt; lia).
  assert (K : forall e, bpow radix2 (e + 1) = 2 * bpow radix2 e) by (intros; rewrite bpow_plus; change (bpow radix2 1) with 2; ring).
  assert (Ad : Rabs (rn (y - x)) <= bpow radix2 k) by (apply R; [lia|lia|lra]).
  destruct (fsub_small prec emax Hp Hm b a Fb Fa) as (G1 & W1); [fold x y; specialize (L k); lra || (apply Rle_lt_trans with (bpow radix2 k); [exact Ad|apply L; lia])|].
  fold x y in W1. pose proof (v_third prec Hp) as V3. pose proof (v_pos prec) as VP.
  assert (Ad2 : Rabs (rn (y - x)) <= 2 * Rabs (y - x)).
  { assert (E : Rabs (rn (y - x) - (y - x)) <= v * Rabs (y - x)).
    { replace (y - x) with (y + - x) by ring. apply add_rel; auto; [apply num_format|apply generic_format_opp, num_format]. }
    replace (rn (y - x)) with ((rn (y - x) - (y - x)) + (y - x)) by ring. eapply Rle_trans; [apply Rabs_triang|]. nra. }
  assert (Am : Rabs (rn (rn (y - x) * INR i)) <= bpow radix2 (k + 1)).
  { apply R; [lia|lia|]. rewrite K, Rabs_mult, (Rabs_pos_eq (INR i)) by lra. nra. }
  destruct (fmul_small prec emax Hp Hm (fsub b a) (fint (Z.of_nat i)) G1 F2) as (G2 & W2).
  { rewrite W1, V2. apply Rle_lt_trans with (1 := Am), L. lia. }
  rewrite W1, V2 in W2.
  assert (Aq : Rabs (rn (rn (rn (y - x) * INR i) / IZR den)) <= bpow radix2 (k + 1)).
  { apply R; [lia|lia|]. rewrite abs_div_pos by lra. apply Rle_trans with (2 := Am). unfold Rdiv.
    rewrite <- (Rmult_1_r (Rabs (rn (rn (y - x) * INR i)))) at 2. apply Rmult_le_compat_l; [apply Rabs_pos|]. rewrite <- Rinv_1. apply Rinv_le; lra. }
  destruct (fdiv_small prec emax Hp Hm (fmul (fsub b a) (fint (Z.of_nat i))) (fint den) G2) as (G3 & W3).
  { rewrite V1. lra. }
  { rewrite W2, V1. apply Rle_lt_trans with (1 := Aq), L. lia. }
  rewrite W2, V1 in W3. apply (fadd_small prec emax Hp Hm); auto. rewrite W3. fold x.
  apply Rle_lt_trans with (bpow radix2 (k + 2)); [|apply L; lia]. apply R; [lia|lia|].
  replace (k + 2)%Z with (k + 1 + 1)%Z by ring. rewrite K. eapply Rle_trans; [apply Rabs_triang|]. pose proof (K k). lra.
Qed.
(** Integers *)
Lemma linspace_integers (a b : num) den s i : (0 < den <= 2 ^ prec)%Z -> (Z.of_nat i <= den)%Z ->
  is_finite a = true -> is_finite b = true -> integral (B2R a) -> B2R b = B2R a + IZR den * IZR s ->
  Rabs (B2R a) <= bpow radix2 prec -> Rabs (B2R b) <= bpow radix2 prec -> Rabs (B2R b - B2R a) * IZR den <= bpow radix2 prec ->
  is_finite (at_i a b (fint den) i) = true /\ B2R (at_i a b (fint den) i) = B2R a + INR i * IZR s.
Proof.
  intros Hd Hi Fa Fb (za & Ia) Eb La Lb Lab. unfold linspace_at.
  destruct (fint_exact prec emax Hp Hm den) as (F1 & V1); [lia|].
  destruct (fint_exact prec emax Hp Hm (Z.of_nat i)) as (F2 & V2); [lia|].
  assert (D1 : 1 <= IZR den) by (apply IZR_le; lia).
  assert (I1 : 0 <= IZR (Z.of_nat i) <= IZR den) by (split; apply IZR_le; lia).
  assert (Z1 : B2R b - B2R a = IZR (den * s)) by (rewrite Eb, mult_IZR; ring).
  assert (P : forall z, Rabs (IZR z) <= bpow radix2 prec -> rn (IZR z) = IZR z /\ Rabs (rn (IZR z)) < big).
  { intros z Hz. assert (E : rn (IZR z) = IZR z) by (apply rn_id; apply integral_format; auto; exists z; auto).
    split; auto. rewrite E. apply Rle_lt_trans with (1 := Hz). apply bpow_lt. exact Hm. }
  pose proof (Rabs_pos (IZR (den * s))) as N0. rewrite Z1 in Lab.
  destruct (P (den * s)%Z) as (E1 & L1); [nra|].
  destruct (fsub_small prec emax Hp Hm b a Fb Fa) as (G1 & W1); [rewrite Z1; auto|]. rewrite Z1, E1 in W1.
  destruct (P (den * s * Z.of_nat i)%Z) as (E2 & L2). { rewrite mult_IZR, Rabs_mult, (Rabs_pos_eq (IZR (Z.of_nat i))) by lra. nra. }
  destruct (fmul_small prec emax Hp Hm (fsub b a) (fint (Z.of_nat i)) G1 F2) as (G2 & W2).
  { rewrite W1, V2, <- mult_IZR. auto. }
  rewrite W1, V2, <- mult_IZR, E2 in W2.
  assert (Q : IZR (den * s * Z.of_nat i) / IZR den = IZR (s * Z.of_nat i)) by (rewrite !mult_IZR; field; lra).
  assert (Ls : Rabs (IZR (s * Z.of_nat i)) <= Rabs (IZR (den * s))).
  { rewrite !mult_IZR, !Rabs_mult, (Rabs_pos_eq (IZR (Z.of_nat i))), (Rabs_pos_eq (IZR den)) by lra. pose proof (Rabs_pos (IZR s)). nra. }
  destruct (P (s * Z.of_nat i)%Z) as (E3 & L3); [nra|].
  destruct (fdiv_small prec emax Hp Hm (fmul (fsub b a) (fint (Z.of_nat i))) (fint den) G2) as (G3 & W3).
  { rewrite V1. lra. }
  { rewrite W2, V1, Q. auto. }
  rewrite W2, V1, Q, E3 in W3.
  assert (Bt : Rabs (IZR (za + s * Z.of_nat i)) <= bpow radix2 prec).
  { rewrite plus_IZR, mult_IZR. rewrite Ia in La. assert (Lb' : Rabs (IZR za + IZR den * IZR s) <= bpow radix2 prec) by (rewrite <- Ia, <- Eb; auto).
    apply Rabs_le_inv in La. apply Rabs_le_inv in Lb'. apply Rabs_le. destruct (Rle_or_lt 0 (IZR s)); nra. }
  destruct (P (za + s * Z.of_nat i)%Z Bt) as (E4 & L4).
  destruct (fadd_small prec emax Hp Hm a (fdiv (fmul (fsub b a) (fint (Z.of_nat i))) (fint den)) Fa G3) as (G4 & W4).
  { rewrite W3, Ia, <- plus_IZR. auto. }
  split; auto. rewrite W4, W3, Ia, <- plus_IZR, E4, plus_IZR, mult_IZR, INR_IZR_INZ. ring.
Qed.

(** ** arange *)
Definition ari (a s i : R) : R := rn (a + rn (i * s)).
Lemma ari_first a s : format a -> ari a s 0 = a.
Proof. intros Fa. unfold ari. rewrite Rmult_0_l, rn_0, Rplus_0_r. apply rn_id; auto. Qed.
Lemma ari_opp a s i : ari (- a) (- s) i = - ari a s i.
Proof.
  unfold ari. replace (i * - s) with (- (i * s)) by ring. rewrite rn_opp.
  replace (- a + - rn (i * s)) with (- (a + rn (i * s))) by ring. apply rn_opp.
Qed.
Lemma ari_mono a s i j : 0 <= s -> i <= j -> ari a s i <= ari a s j.
Proof. intros Hs H. apply rn_le; auto. apply Rplus_le_compat_l, rn_le; auto. nra. Qed.
Lemma ari_error a s i : format a -> 0 <= i ->
  Rabs (ari a s i - (a + i * s)) <= u * Rabs (a + i * s) + 2 * u * (i * Rabs s) + 2 * eta.
Proof.
  intros Fa Hi. unfold ari. pose proof (u_pos prec) as U0. pose proof (v_le prec) as VL. pose proof (v_third prec Hp) as V3.
  pose proof (v_pos prec) as V0. pose proof (eta_pos prec emax) as E0.
  pose proof (rn_err prec emax Hp (i * s)) as H1. set (p := rn (i * s)) in *.
  assert (H2 : Rabs (rn (a + p) - (a + p)) <= v * Rabs (a + p)) by (apply add_rel; auto; apply rn_format; auto).
  rewrite Rabs_mult, (Rabs_pos_eq i) in H1 by exact Hi.
  assert (A : Rabs (a + p) <= Rabs (a + i * s) + Rabs (p - i * s)).
  { replace (a + p) with ((a + i * s) + (p - i * s)) by ring. apply Rabs_triang. }
  assert (B : Rabs (rn (a + p) - (a + i * s)) <= Rabs (rn (a + p) - (a + p)) + Rabs (p - i * s)).
  { replace (rn (a + p) - (a + i * s)) with ((rn (a + p) - (a + p)) + (p - i * s)) by ring. apply Rabs_triang. }
  pose proof (Rabs_pos s). pose proof (Rabs_pos (a + i * s)). pose proof (Rabs_pos (p - i * s)).
  assert (0 <= i * Rabs s) by (apply Rmult_le_pos; auto). set (E := Rabs (a + i * s)) in *. set (T := i * Rabs s) in *.
  set (d := Rabs (p - i * s)) in *. clearbody E T d.
  assert (v * Rabs (a + p) <= u * E + / 3 * d) by nra. nra.
Qed.
(** a positive number is at least twice the underflow unit *)
Lemma pos_min (x : num) : 0 < B2R x -> eta <= / 2 * B2R x.
Proof.
  intros H. assert (S : is_finite_strict x = true).
  { destruct x as [s|s| |s m e Hx]; cbn in *; auto; lra. }
  pose proof (abs_B2R_ge_emin prec emax x S) as M. rewrite Rabs_pos_eq in M by lra. unfold underflow_unit.
  replace (SpecFloat.emin prec emax) with (3 - emax - prec)%Z in M by (unfold SpecFloat.emin; ring). lra.
Qed.
Lemma ari_end a b s n i : 0 < s -> eta <= / 2 * s -> 1 <= n -> 16 * u * n <= 1 -> 0 <= i <= n - 1 -> n * s <= (b - a) * (1 + u) ^ 2 ->
  a + rn (i * s) <= b.
Proof.
  intros S0 SE N1 UN I NS. pose proof (u_pos prec) as U0. pose proof (v_le prec) as VL.
  pose proof (rn_err prec emax Hp (i * s)) as H1. apply Rabs_le_inv in H1. rewrite Rabs_pos_eq in H1 by nra.
  assert (U1 : 16 * u <= 1) by nra.
  assert (IS : 0 <= i * s) by (apply Rmult_le_pos; lra).
  assert (P : rn (i * s) <= i * s * (1 + u) + / 2 * s) by (pose proof (Rmult_le_compat_r _ _ _ IS VL); lra).
  apply Rle_trans with (a + (i * s * (1 + u) + / 2 * s)); [lra|].
  assert (K : (i * (1 + u) + / 2) * (1 + u) ^ 2 <= n).
  { assert (C3 : (1 + u) ^ 3 <= 1 + 4 * u) by nra. assert (C2 : (1 + u) ^ 2 <= 1 + 3 * u) by nra.
    replace ((i * (1 + u) + / 2) * (1 + u) ^ 2) with (i * (1 + u) ^ 3 + / 2 * (1 + u) ^ 2) by ring.
    assert (i * (1 + u) ^ 3 <= i * (1 + 4 * u)) by (apply Rmult_le_compat_l; lra). nra. }
  assert (Q : (i * (1 + u) + / 2) * s * (1 + u) ^ 2 <= (b - a) * (1 + u) ^ 2).
  { apply Rle_trans with (n * s); auto. replace ((i * (1 + u) + / 2) * s * (1 + u) ^ 2) with ((i * (1 + u) + / 2) * (1 + u) ^ 2 * s) by ring.
    apply Rmult_le_compat_r; lra. }
  apply Rmult_le_reg_r in Q; [|apply pow_lt; lra]. lra.
Qed.
(** The number of elements, from a quotient above one half *)
Lemma quotient_count a b s : format a -> format b -> 0 < s -> (3 <= emax)%Z -> 0 < rn (rn (b - a) / s) ->
  let n := IZR (Ztrunc (rn (rn (b - a) / s))) in
  0 < b - a /\ n * s <= (b - a) * (1 + u) ^ 2 /\ (b - a) / s * (1 - u) ^ 2 - 1 < n.
Proof.
  intros Fa Fb S0 Em Q0 n. pose proof (u_pos prec) as U0. pose proof (v_le prec) as VL. pose proof (v_pos prec) as V0. pose proof (u_half prec Hp) as UH.
  assert (D0 : 0 < rn (b - a)).
  { apply Rnot_le_lt. intros H. assert (rn (rn (b - a) / s) <= 0); [|lra]. apply rn_neg; auto. unfold Rdiv.
    assert (0 < / s) by (apply Rinv_0_lt_compat, S0). nra. }
  assert (BA : 0 < b - a) by (apply Rnot_le_lt; intros H; pose proof (rn_neg prec emax Hp (b - a) H); lra).
  split; [exact BA|].
  assert (H1 : Rabs (rn (b - a) - (b - a)) <= v * Rabs (b - a)).
  { replace (b - a) with (b + - a) by ring. apply add_rel; auto. apply generic_format_opp, Fa. }
  rewrite (Rabs_pos_eq (b - a)) in H1 by lra. apply Rabs_le_inv in H1.
  set (d := rn (b - a)) in *. set (q := rn (d / s)) in *. set (y := d / s) in *.
  assert (IS : 0 < / s) by (apply Rinv_0_lt_compat, S0).
  assert (Y0 : 0 < y) by (apply Rmult_lt_0_compat; auto).
  assert (Tq : Ztrunc q = Zfloor q) by (apply Ztrunc_floor; lra).
  assert (N1 : n <= q) by (unfold n; fold q; rewrite Tq; apply Zfloor_lb).
  assert (N2 : q < n + 1) by (unfold n; fold q; rewrite Tq; apply Zfloor_ub).
  assert (N0 : 0 <= n) by (unfold n; fold q; rewrite Tq; apply IZR_le, Zfloor_lub; lra).
  assert (YS : y * s = d) by (unfold y; field; lra).
  assert (F1 : format 1) by (change 1 with (bpow radix2 0); apply big_format; auto; unfold Prec_gt_0 in Hp; lia).
  assert (HdU : d <= (b - a) * (1 + u)).
  { pose proof (Rmult_le_compat_r (b - a) _ _ (Rlt_le _ _ BA) VL). lra. }
  destruct (Rlt_or_le y 1) as [Hy|Hy].
  - assert (Q1 : q <= 1) by (apply rn_le_format; auto; lra).
    destruct (Req_dec n 0) as [N|N].
    + rewrite N. split; [nra|]. unfold Rdiv. assert ((b - a) * / s * (1 - u) ^ 2 < 1); [|lra].
      assert (Hd : (b - a) * (1 - u) <= d) by nra.
      assert (Hd2 : (b - a) * (1 - u) * / s <= y) by (unfold y, Rdiv; apply Rmult_le_compat_r; lra).
      assert (0 < (b - a) * (1 - u) * / s) by (repeat apply Rmult_lt_0_compat; lra).
      replace ((b - a) * / s * (1 - u) ^ 2) with ((b - a) * (1 - u) * / s * (1 - u)) by ring. nra.
    + assert (NZ : n = 1).
      { assert (NI : n = IZR (Ztrunc q)) by reflexivity. clearbody n. subst n. f_equal. assert (Ztrunc q <= 1)%Z by (apply le_IZR; lra).
        assert (0 <= Ztrunc q)%Z by (apply le_IZR; lra). assert (Ztrunc q <> 0)%Z by (intros E; apply N; rewrite E; reflexivity). lia. }
      assert (QE : q = 1) by lra.
      assert (E : Rabs (q - y) <= u * Rabs y).
      { unfold q. destruct (Rlt_or_le y (/ 2)) as [Hh|Hh].
        - exfalso. assert (q <= / 2); [|lra]. unfold q. apply rn_le_format; auto; [|fold y; lra].
          change (/ 2) with (bpow radix2 (-1)). apply big_format; auto. unfold Prec_gt_0 in Hp. lia.
        - pose proof (relative_error_N_FLT radix2 (3 - emax - prec) prec Hp (fun z => negb (Z.even z)) y) as RE.
          replace (/ 2 * bpow radix2 (- prec + 1)) with u in RE by (unfold unit_roundoff; rewrite bpow_plus; change (bpow radix2 1) with 2; field).
          apply RE. rewrite Rabs_pos_eq by lra. apply Rle_trans with (2 := Hh). change (/ 2) with (bpow radix2 (-1)). apply bpow_le. lia. }
      rewrite (Rabs_pos_eq y) in E by lra. apply Rabs_le_inv in E.
      assert (Hn : n <= y * (1 + u)) by lra. split.
      * apply Rle_trans with (y * (1 + u) * s); [apply Rmult_le_compat_r; lra|]. replace (y * (1 + u) * s) with (y * s * (1 + u)) by ring. rewrite YS.
        replace ((b - a) * (1 + u) ^ 2) with ((b - a) * (1 + u) * (1 + u)) by ring. apply Rmult_le_compat_r; lra.
      * unfold Rdiv. assert (Hd : (b - a) * (1 - u) <= d) by nra.
        assert (Hd2 : (b - a) * (1 - u) * / s <= y) by (unfold y, Rdiv; apply Rmult_le_compat_r; lra).
        assert (0 < (b - a) * (1 - u) * / s) by (repeat apply Rmult_lt_0_compat; lra).
        replace ((b - a) * / s * (1 - u) ^ 2) with ((b - a) * (1 - u) * / s * (1 - u)) by ring. nra.
  - assert (E : Rabs (q - y) <= u * Rabs y).
    { pose proof (relative_error_N_FLT radix2 (3 - emax - prec) prec Hp (fun z => negb (Z.even z)) y) as RE.
      replace (/ 2 * bpow radix2 (- prec + 1)) with u in RE by (unfold unit_roundoff; rewrite bpow_plus; change (bpow radix2 1) with 2; field).
      apply RE. rewrite Rabs_pos_eq by lra. apply Rle_trans with (2 := Hy). change 1 with (bpow radix2 0). apply bpow_le. lia. }
    rewrite (Rabs_pos_eq y) in E by lra. apply Rabs_le_inv in E.
    assert (Hn : n <= y * (1 + u)) by lra. split.
    * apply Rle_trans with (y * (1 + u) * s); [apply Rmult_le_compat_r; lra|]. replace (y * (1 + u) * s) with (y * s * (1 + u)) by ring. rewrite YS.
        replace ((b - a) * (1 + u) ^ 2) with ((b - a) * (1 + u) * (1 + u)) by ring. apply Rmult_le_compat_r; lra.
    * unfold Rdiv. assert (Hd : (b - a) * (1 - u) <= d) by nra.
      assert (Hd2 : (b - a) * (1 - u) * / s <= y) by (unfold y, Rdiv; apply Rmult_le_compat_r; lra).
      replace ((b - a) * / s * (1 - u) ^ 2) with ((b - a) * (1 - u) * / s * (1 - u)) by ring.
      assert ((b - a) * (1 - u) * / s * (1 - u) <= y * (1 - u)) by (apply Rmult_le_compat_r; lra). nra.
Qed.

Lemma vabs_finite (x : num) : is_finite (vabs prec emax x) = true -> is_finite x = true.
Proof. unfold vabs. destruct (NumModel.flt prec emax x fzero); auto. unfold fneg. rewrite is_finite_Bopp. auto. Qed.
Lemma arange_quotient (a b s : num) l : is_finite a = true -> is_finite b = true -> is_finite s = true ->
  farange prec emax Hp Hm true a b s = Ok l ->
  B2R s <> 0 /\ Rabs (rn (B2R b - B2R a)) < big /\ 0 < rn (rn (B2R b - B2R a) / B2R s) /\ l = map (arange_at prec emax Hp Hm a s) (seq 0 (Z.to_nat (Ztrunc (rn (rn (B2R b - B2R a) / B2R s))))).
Proof.
  intros Fa Fb Fs H. unfold farange, check in H. rewrite feq_val in H by auto.
  destruct (Req_bool_spec (B2R s) (B2R fzero)) as [E|N]; [discriminate H|]. cbn in N. cbn [andb negb bind] in H.
  set (q := fdiv (fsub b a) s) in *. destruct (NumModel.flt prec emax fzero q) eqn:L; [|discriminate H]. cbn [andb negb bind] in H.
  unfold to_int64 in H. destruct (is_finite (vabs prec emax q)) eqn:Fq; [|discriminate H].
  destruct (_ && _); [|discriminate H]. cbn [bind] in H. pose proof (vabs_finite q Fq) as Fq'.
  destruct (fdiv_finite prec emax Hp Hm _ _ Fq' Fs) as (Fd & _ & E1). destruct (fsub_finite prec emax Hp Hm _ _ Fd) as (_ & _ & E2 & DB).
  rewrite E2 in E1. fold q in E1. rewrite flt_val in L by auto. destruct (Rlt_bool_spec (B2R fzero) (B2R q)) as [Q0|]; [|discriminate L]. cbn in Q0.
  split; auto. split; auto. split; [rewrite <- E1; exact Q0|]. assert (T : Btrunc (vabs prec emax q) = Ztrunc (B2R q)).
  { apply eq_IZR. rewrite Btrunc_correct by exact Hm. rewrite round_FIX_IZR. destruct (vabs_val prec emax q Fq') as (_ & ->). rewrite Rabs_pos_eq; auto. lra. }
  rewrite T in H. rewrite <- E1. congruence.
Qed.
Lemma quotient_opp a b s : rn (rn (- b - - a) / - s) = rn (rn (b - a) / s).
Proof.
  replace (- b - - a) with (- (b - a)) by ring. rewrite rn_opp. f_equal. destruct (Req_dec s 0) as [-> |N]; [|field; auto].
  unfold Rdiv. rewrite Ropp_0, Rinv_0. ring.
Qed.
Lemma arange_ok (a b s : num) l : (3 <= emax)%Z -> is_finite a = true -> is_finite b = true -> is_finite s = true ->
  farange prec emax Hp Hm true a b s = Ok l ->
  let r := (B2R b - B2R a) / B2R s in
  B2R s <> 0 /\ 0 < r /\ r * (1 - u) ^ 2 - 1 < INR (length l) <= r * (1 + u) ^ 2 /\
  ((16 * Z.of_nat (length l) <= 2 ^ prec)%Z -> forall i x, nth_error l i = Some x ->
    is_finite x = true /\ B2R x = ari (B2R a) (B2R s) (INR i) /\ between (B2R a) (B2R b) (B2R x)).
Proof.
  intros Em Fa Fb Fs H r. destruct (arange_quotient a b s l Fa Fb Fs H) as (N & DB & Q0 & ->). rewrite map_length, seq_length.
  set (q := rn (rn (B2R b - B2R a) / B2R s)) in *. pose proof (u_pos prec) as U0. pose proof (u_half prec Hp) as UH.
  assert (T0 : (0 <= Ztrunc q)%Z) by (rewrite Ztrunc_floor by lra; apply Zfloor_lub; lra).
  assert (IN : INR (Z.to_nat (Ztrunc q)) = IZR (Ztrunc q)) by (rewrite INR_IZR_INZ, Z2Nat.id; auto).
  set (sg := if Rlt_dec 0 (B2R s) then 1 else -1).
  assert (SG : (sg = 1 \/ sg = -1) /\ 0 < sg * B2R s).
  { unfold sg. destruct (Rlt_dec 0 (B2R s)); split; auto; lra. }
  assert (QQ : q = rn (rn (sg * B2R b - sg * B2R a) / (sg * B2R s))).
  { destruct SG as ([E|E] & _); rewrite E.
    - rewrite !Rmult_1_l. reflexivity.
    - replace (-1 * B2R b) with (- B2R b) by ring. replace (-1 * B2R a) with (- B2R a) by ring. replace (-1 * B2R s) with (- B2R s) by ring.
      symmetry. apply quotient_opp. }
  assert (FS : forall x : num, format (sg * B2R x)).
  { intros x. destruct SG as ([E|E] & _); rewrite E; [rewrite Rmult_1_l; apply num_format|].
    replace (-1 * B2R x) with (- B2R x) by ring. apply generic_format_opp, num_format. }
  assert (Q0' := Q0). rewrite QQ in Q0'.
  destruct (quotient_count (sg * B2R a) (sg * B2R b) (sg * B2R s) (FS a) (FS b) (proj2 SG) Em Q0') as (BA & C1 & C2). rewrite <- QQ in C1, C2.
  assert (RR : (sg * B2R b - sg * B2R a) / (sg * B2R s) = r).
  { unfold r. destruct SG as ([E|E] & _); rewrite E; field; lra. }
  split; auto. split; [rewrite <- RR; apply Rmult_lt_0_compat; [lra|apply Rinv_0_lt_compat, (proj2 SG)]|]. rewrite IN. rewrite RR in C2. split; [split; [exact C2|]|].
  - apply Rmult_le_reg_r with (sg * B2R s); [apply SG|]. replace (r * (1 + u) ^ 2 * (sg * B2R s)) with ((sg * B2R b - sg * B2R a) * (1 + u) ^ 2); [exact C1|].
    rewrite <- RR. field. destruct SG. lra.
  - intros L i x Hx. rewrite nth_error_map in Hx. destruct (nth_error (seq 0 (Z.to_nat (Ztrunc q))) i) as [j|] eqn:Ej; [|discriminate Hx].
    injection Hx as <-. assert (Hi : (i < Z.to_nat (Ztrunc q))%nat) by (rewrite <- (seq_length (Z.to_nat (Ztrunc q)) 0); apply nth_error_Some; congruence).
    rewrite (nth_error_nth' _ O) in Ej by (rewrite seq_length; auto). rewrite seq_nth in Ej by auto. injection Ej as <-. cbn [Nat.add].
    rewrite Z2Nat.id in L by auto.
    assert (I2 : INR i <= IZR (Ztrunc q) - 1). { rewrite INR_IZR_INZ, <- minus_IZR. apply IZR_le. lia. }
    assert (I0 : 0 <= INR i) by apply pos_INR.
    assert (UN : 16 * u * IZR (Ztrunc q) <= 1).
    { apply IZR_le in L. rewrite mult_IZR in L. replace (IZR (2 ^ prec)) with (bpow radix2 prec) in L
        by (rewrite <- IZR_Zpower; [reflexivity|unfold Prec_gt_0 in Hp; lia]).
      unfold unit_roundoff. rewrite bpow_opp. pose proof (bpow_gt_0 radix2 prec). apply Rmult_le_reg_r with (bpow radix2 prec); auto.
      replace (16 * / bpow radix2 prec * IZR (Ztrunc q) * bpow radix2 prec) with (16 * IZR (Ztrunc q)) by (field; lra). lra. }
    assert (PM : eta <= / 2 * (sg * B2R s)).
    { destruct SG as ([E|E] & S0); rewrite E in *; [rewrite Rmult_1_l in *; apply pos_min; auto|].
      replace (-1 * B2R s) with (B2R (Bopp s)) in * by (rewrite B2R_Bopp; ring). apply pos_min; auto. }
    pose proof (ari_end (sg * B2R a) (sg * B2R b) (sg * B2R s) (IZR (Ztrunc q)) (INR i) (proj2 SG) PM ltac:(lra) UN ltac:(lra) C1) as UB1.
    assert (LB1 : 0 <= rn (INR i * (sg * B2R s))) by (apply rn_pos; auto; apply Rmult_le_pos; [auto|left; apply SG]).
    assert (SS : rn (INR i * (sg * B2R s)) = sg * rn (INR i * B2R s)).
    { destruct SG as ([E|E] & _); rewrite E; [rewrite !Rmult_1_l; auto|]. replace (INR i * (-1 * B2R s)) with (- (INR i * B2R s)) by ring. rewrite rn_opp. ring. }
    rewrite SS in UB1, LB1.
    assert (BT : forall x, sg * B2R a <= sg * x <= sg * B2R b -> between (B2R a) (B2R b) x).
    { intros x. destruct SG as ([E|E] & _); rewrite E; unfold between; intros Hx.
      - rewrite Rmin_left, Rmax_right by lra. lra.
      - rewrite Rmin_right, Rmax_left by lra. lra. }
    assert (BTn : between (B2R a) (B2R b) (B2R a + rn (INR i * B2R s))) by (apply BT; lra).
    assert (RB : forall x, between (B2R a) (B2R b) x -> between (B2R a) (B2R b) (rn x) /\ Rabs (rn x) < big).
    { intros x (X1 & X2). assert (Y : between (B2R a) (B2R b) (rn x)).
      { split; [apply rn_ge_format|apply rn_le_format]; auto.
        - unfold Rmin. destruct (Rle_dec _ _); apply num_format.
        - unfold Rmax. destruct (Rle_dec _ _); apply num_format. }
      split; auto. destruct Y as (Y1 & Y2). pose proof (finite_lt prec emax a) as A1. pose proof (finite_lt prec emax b) as B1.
      apply Rabs_lt_inv in A1. apply Rabs_lt_inv in B1. apply Rabs_lt. unfold Rmin, Rmax in *. destruct (Rle_dec (B2R a) (B2R b)); lra. }
    destruct (RB _ BTn) as (R1 & R2). unfold arange_at.
    destruct (fint_exact prec emax Hp Hm (Z.of_nat i)) as (F2 & V2); [lia|]. rewrite <- INR_IZR_INZ in V2.
    destruct (fmul_small prec emax Hp Hm (fint (Z.of_nat i)) s F2 Fs) as (F3 & V3).
    { rewrite V2. assert (G : sg * rn (INR i * B2R s) <= rn (sg * B2R b - sg * B2R a)).
      { apply rn_ge_format; auto; [|lra]. rewrite <- SS. apply rn_format, Hp. }
      assert (G2 : rn (sg * B2R b - sg * B2R a) <= Rabs (rn (B2R b - B2R a))).
      { destruct SG as ([E|E] & _); rewrite E; [rewrite !Rmult_1_l; apply Rle_abs|].
        replace (-1 * B2R b - -1 * B2R a) with (- (B2R b - B2R a)) by ring. rewrite rn_opp, <- Rabs_Ropp. apply Rle_abs. }
      apply Rle_lt_trans with (2 := DB). apply Rle_trans with (sg * rn (INR i * B2R s)); [|lra].
      destruct SG as ([E|E] & _); rewrite E in *; [rewrite Rabs_pos_eq; lra|rewrite Rabs_left1; lra]. }
    rewrite V2 in V3. destruct (fadd_small prec emax Hp Hm a (fmul (fint (Z.of_nat i)) s) Fa F3) as (F4 & V4); [rewrite V3; exact R2|].
    split; auto. rewrite V4, V3. split; [reflexivity|exact R1].
Qed.
End Seq.
