(** Proofs for C100. *)
From Coq Require Import ZArith Reals List Lia Lra Permutation.
From Flocq Require Import Core Relative BinarySingleNaN.
From Verif Require Import Base MatmulSpec AccModel AccSpec AccLinear AccProofs NumModel NumSpec NumBasics NrmModel NrmSpec NrmFloat VectorModel VectorSpec VectorProofs MagModel.
From Coq Require Import ZifyNat ZifyN ZifyBool.
Ltac Zify.zify_post_hook ::= idtac.
Import ListNotations.
Local Open Scope R_scope.

(** ** Real numbers *)
Lemma root_close S m c : 0 < S -> 0 <= m -> Rabs (m - S) <= c * S -> Rabs (sqrt m - sqrt S) <= c * sqrt S.
Proof.
  intros HS Hm H. assert (L : 0 < sqrt S) by (apply sqrt_lt_R0; auto). pose proof (sqrt_pos m) as M.
  pose proof (sqrt_sqrt S (Rlt_le _ _ HS)) as E1. pose proof (sqrt_sqrt m Hm) as E2.
  assert (C : 0 <= c) by (apply Rmult_le_reg_r with S; [lra|]; pose proof (Rabs_pos (m - S)); lra).
  set (l := sqrt S) in *. set (k := sqrt m) in *.
  assert (D : Rabs (k - l) * (k + l) = Rabs (m - S)).
  { rewrite <- (Rabs_pos_eq (k + l)) at 1 by lra. rewrite <- Rabs_mult. f_equal. rewrite <- E1, <- E2. ring. }
  apply Rmult_le_reg_r with (k + l); [lra|]. rewrite D. eapply Rle_trans; [exact H|]. rewrite <- E1.
  replace (c * (l * l)) with (c * l * l) by ring. apply Rmult_le_compat_l; [apply Rmult_le_pos; lra|lra].
Qed.
Lemma near_one a c : 0 <= a -> Rabs (a * a - 1) <= c -> Rabs (a - 1) <= c.
Proof.
  intros A H. eapply Rle_trans; [|exact H]. replace (a * a - 1) with ((a - 1) * (a + 1)) by ring. rewrite Rabs_mult, (Rabs_pos_eq (a + 1)) by lra.
  rewrite <- (Rmult_1_r (Rabs (a - 1))) at 1. apply Rmult_le_compat_l; [apply Rabs_pos|lra].
Qed.
Lemma square_close y r k d : 0 <= k <= / 8 -> 0 <= d <= / 8 -> Rabs y <= 1 -> Rabs (r - y) <= k * Rabs y + d ->
  Rabs (r * r - y * y) <= (17 / 8) * k * (y * y) + 3 * d.
Proof.
  intros K D Y H. replace (r * r - y * y) with ((r - y) * (2 * y + (r - y))) by ring. rewrite Rabs_mult.
  pose proof (Rabs_pos y) as Y0. pose proof (Rabs_pos (r - y)) as R0. replace (y * y) with (Rabs y * Rabs y) by (rewrite <- Rabs_mult; apply Rabs_pos_eq, Rle_0_sqr).
  set (a := Rabs y) in *.
  assert (A2 : Rabs (2 * y + (r - y)) <= 2 * a + (k * a + d)).
  { eapply Rle_trans; [apply Rabs_triang|]. rewrite Rabs_mult, (Rabs_pos_eq 2) by lra. fold a. lra. }
  assert (KA : 0 <= k * a) by (apply Rmult_le_pos; lra).
  apply Rle_trans with ((k * a + d) * (2 * a + (k * a + d))); [apply Rmult_le_compat; auto using Rabs_pos|].
  replace ((k * a + d) * (2 * a + (k * a + d))) with (k * (2 + k) * (a * a) + d * (2 * a + 2 * (k * a) + d)) by ring.
  assert (AA : 0 <= a * a) by (apply Rmult_le_pos; lra). assert (KA2 : k * a <= / 8 * 1) by (apply Rmult_le_compat; lra).
  apply Rplus_le_compat.
  - apply Rmult_le_compat_r; [auto|]. rewrite (Rmult_comm (17 / 8)). apply Rmult_le_compat_l; lra.
  - rewrite (Rmult_comm 3). apply Rmult_le_compat_l; lra.
Qed.
Lemma total_ext n f g : (forall i, (i < n)%nat -> f i = g i) -> AccSpec.total n f = AccSpec.total n g.
Proof. unfold AccSpec.total. induction n as [|n IH]; intros H; cbn [sum]; auto. rewrite IH by (intros; apply H; lia). now rewrite H by lia. Qed.
Lemma total_le n f g : (forall i, (i < n)%nat -> f i <= g i) -> AccSpec.total n f <= AccSpec.total n g.
Proof.
  unfold AccSpec.total. induction n as [|n IH]; intros H; cbn [sum]; [lra|]. pose proof (IH (fun i Hi => H i ltac:(lia))). pose proof (H n ltac:(lia)). lra.
Qed.
Lemma total_lin n a b f : AccSpec.total n (fun i => a * f i + b) = a * AccSpec.total n f + INR n * b.
Proof. unfold AccSpec.total. induction n as [|n IH]; [cbn; ring|]. cbn [sum]. rewrite IH, S_INR. ring. Qed.
Lemma total_diff n f g : AccSpec.total n f - AccSpec.total n g = AccSpec.total n (fun i => f i - g i).
Proof. unfold AccSpec.total. induction n as [|n IH]; cbn [sum]; [ring|]. rewrite <- IH. ring. Qed.
Lemma total_sq_pos n f : 0 <= AccSpec.total n (fun i => f i * f i).
Proof. unfold AccSpec.total. induction n as [|n IH]; cbn [sum]; [lra|]. pose proof (Rle_0_sqr (f n)). unfold Rsqr in *. lra. Qed.
Lemma total_sq_term n f k : (k < n)%nat -> f k * f k <= AccSpec.total n (fun i => f i * f i).
Proof.
  unfold AccSpec.total. induction n as [|n IH]; intros H; [lia|]. cbn [sum]. destruct (Nat.eq_dec k n) as [->|N].
  - pose proof (total_sq_pos n f) as T. unfold AccSpec.total in T. lra.
  - pose proof (IH ltac:(lia)). pose proof (Rle_0_sqr (f n)). unfold Rsqr in *. lra.
Qed.
Lemma length2_sq n f : length2 n f * length2 n f = AccSpec.total n (fun i => f i * f i).
Proof. unfold length2. apply sqrt_sqrt, total_sq_pos. Qed.
Lemma length2_term n f k : (k < n)%nat -> Rabs (f k) <= length2 n f.
Proof. intros H. unfold length2. rewrite <- sqrt_Rsqr_abs. apply sqrt_le_1_alt. unfold Rsqr. now apply (total_sq_term n f). Qed.

Section Mag.
Variables prec emax : Z.
Context (Hp : Prec_gt_0 prec) (Hm : Prec_lt_emax prec emax).
Local Notation num := (binary_float prec emax).
Local Notation fzero := (fzero prec emax).
Local Notation fadd := (fadd prec emax Hp Hm).
Local Notation fmul := (fmul prec emax Hp Hm).
Local Notation fdiv := (fdiv prec emax Hp Hm).
Local Notation fsqrt := (fsqrt prec emax Hp Hm).
Local Notation rn := (nearest prec emax).
Local Notation u := (unit_roundoff prec).
Local Notation eta := (underflow_unit prec emax).
Local Notation big := (bpow radix2 emax).
Local Notation tiny := (normal_min emax).
Hypothesis (P6 : (6 <= prec)%Z) (PE : (prec + 3 <= emax)%Z).

Lemma eta_tiny : eta = u * tiny.
Proof.
  unfold underflow_unit, unit_roundoff, normal_min. change (/ 2) with (bpow radix2 (-1)). rewrite <- !bpow_plus. f_equal. lia.
Qed.
Lemma tiny_u : 2 * tiny <= u.
Proof. unfold unit_roundoff, normal_min. change 2 with (bpow radix2 1). rewrite <- bpow_plus. apply bpow_le. lia. Qed.
Lemma tiny_pos : 0 < tiny. Proof. apply bpow_gt_0. Qed.
Lemma count_eta n : 64 * INR n * u <= 1 -> 128 * (INR n * eta) <= u.
Proof.
  intros K. pose proof tiny_pos as T. pose proof tiny_u as TU. pose proof (u_pos prec) as U.
  assert (0 <= INR n) by apply pos_INR. rewrite eta_tiny.
  replace (128 * (INR n * (u * tiny))) with (2 * (64 * INR n * u) * tiny) by ring.
  assert ((64 * INR n * u) * tiny <= 1 * tiny) by (apply Rmult_le_compat_r; lra). lra.
Qed.

(** ** Sums do not overflow *)
Definition kept (l : list num) (s : num) : Prop :=
  fadded prec emax l s /\
  (Forall (fun a => is_finite a = true) l -> 64 * INR (length (filter nz (map B2R l))) * u <= 1 -> 2 * size_sum (map B2R l) < big -> is_finite s = true).
Lemma kept_none : kept [] fzero.
Proof. split; [apply fadded_none|reflexivity]. Qed.
Lemma kept_one x : kept [x] x.
Proof. split; [apply fadded_one|]. intros F _ _. now inversion F. Qed.
Lemma kept_perm l l' s : Permutation l l' -> kept l s -> kept l' s.
Proof.
  intros P (A & B). split; [eapply fadded_perm; eauto|]. intros F K L. apply B.
  - eapply Permutation_Forall; [apply Permutation_sym, P|exact F].
  - rewrite (Permutation_length (filter_perm nz _ _ (Permutation_map B2R P))). exact K.
  - unfold size_sum. rewrite (exact_perm _ _ (Permutation_map Rabs (Permutation_map B2R P))). exact L.
Qed.
Lemma kept_both l1 l2 s1 s2 : kept l1 s1 -> kept l2 s2 -> kept (l1 ++ l2) (fadd s1 s2).
Proof.
  intros (A1 & B1) (A2 & B2). split; [now apply fadded_both|]. intros F K L. apply Forall_app in F. destruct F as (F1 & F2).
  rewrite map_app, filter_app, app_length, plus_INR in K. rewrite map_app, size_app in L. pose proof (u_pos prec) as U.
  set (c1 := INR (length (filter nz (map B2R l1)))) in *. set (c2 := INR (length (filter nz (map B2R l2)))) in *.
  assert (C1 : 0 <= c1) by apply pos_INR. assert (C2 : 0 <= c2) by apply pos_INR.
  assert (D1 : 0 <= c1 * u) by (apply Rmult_le_pos; lra). assert (D2 : 0 <= c2 * u) by (apply Rmult_le_pos; lra).
  pose proof (size_pos (map B2R l1)) as S1. pose proof (size_pos (map B2R l2)) as S2.
  assert (G1 : is_finite s1 = true) by (apply B1; auto; lra). assert (G2 : is_finite s2 = true) by (apply B2; auto; lra).
  destruct (A1 G1) as (_ & V1). destruct (A2 G2) as (_ & V2). pose proof (added_both _ _ _ _ _ _ V1 V2) as V. rewrite <- map_app in V.
  apply (fadd_small prec emax Hp Hm); auto.
  assert (AC : acc prec emax 0 (map B2R (l1 ++ l2)) (rn (B2R s1 + B2R s2))).
  { apply added_acc; auto. intros x Hx. apply in_map_iff in Hx. destruct Hx as (a & <- & _). apply num_format. }
  apply acc_nz in AC. set (l := filter nz (map B2R (l1 ++ l2))) in *. destruct (nz_sums (map B2R (l1 ++ l2))) as (N1 & N2). fold l in N1, N2.
  assert (Q : Rabs (rn (B2R s1 + B2R s2) - exact_sum l) <= (INR (length l - 1) * u + 0) * size_sum l).
  { apply (acc_padded prec emax Hp 0 l 0); [pose proof (v_pos prec); lra|]. cbn [repeat]. now rewrite app_nil_r. }
  assert (LE : INR (length l - 1) * u <= / 64).
  { assert (INR (length l - 1) <= c1 + c2) by (unfold c1, c2; rewrite <- plus_INR, <- app_length, <- filter_app, <- map_app; apply le_INR; fold l; lia).
    assert (INR (length l - 1) * u <= (c1 + c2) * u) by (apply Rmult_le_compat_r; lra). lra. }
  assert (SZ : size_sum l = size_sum (map B2R l1) + size_sum (map B2R l2)) by (rewrite N2, map_app; apply size_app).
  assert (M : (INR (length l - 1) * u + 0) * size_sum l <= / 64 * size_sum l) by (apply Rmult_le_compat_r; [apply size_pos|lra]).
  pose proof (exact_size l) as ES. pose proof (Rabs_triang_inv (rn (B2R s1 + B2R s2)) (exact_sum l)). lra.
Qed.

Variables (w : nat) (asserts : bool).
Hypothesis Hw : (0 < w)%nat.
Local Notation fmag2 := (fmag2 prec emax Hp Hm w asserts).
Local Notation fmag := (fmag prec emax Hp Hm w asserts).
Local Notation fnorm := (fnorm prec emax Hp Hm w asserts).

Lemma squares_finite (x : vec num) n : storage w x -> dims x = n -> Forall (fun a => fis_zero prec emax a = true) (padding x) ->
  Forall (fun a => is_finite a = true) (elements x) -> 64 * INR n * u <= 1 ->
  let S := exact_sum (map (fun a => B2R a * B2R a) (elements x)) in 4 * S < big ->
  exists r, ssum2 w fzero fadd fmul x = Ok r /\ is_finite r = true.
Proof.
  intros Hs Dx HZ HF K S HS. set (g := fun p : list num => times2 fmul p p).
  assert (Eg : forall p, g p = map (fun a => fmul a a) p).
  { intros p. unfold g, times2. induction p as [|a p IH]; cbn; [auto|]. rewrite IH. auto. }
  destruct (lanes_sum w fzero fadd kept Hw kept_none kept_one kept_both kept_perm g x) as (r & E & (_ & H)); auto.
  { intros p. rewrite Eg, map_length. auto. }
  { intros p q. rewrite !Eg, map_app. auto. }
  exists r. split; [exact E|]. rewrite Eg, (cells_split x), map_app in H.
  pose proof (u_pos prec) as U. pose proof (small_u prec P6) as SU. pose proof (small_eta prec emax P6 PE) as SE. pose proof (eta_pos prec emax) as EP.
  pose proof (elements_length w Hw x Hs) as LE. rewrite Dx in LE.
  assert (ONE : 8 <= big) by (change 8 with (bpow radix2 3); apply bpow_le; lia).
  assert (ZR : rn 0 = 0) by apply rn_0.
  assert (PADV : forall a, fis_zero prec emax a = true -> is_finite (fmul a a) = true /\ B2R (fmul a a) = 0).
  { intros a Ha. destruct a; try discriminate Ha. cbn. auto. }
  assert (ELV : Forall (fun a => is_finite (fmul a a) = true /\ B2R (fmul a a) = rn (B2R a * B2R a) /\ rn (B2R a * B2R a) <= (1 + u) * (B2R a * B2R a) + eta) (elements x)).
  { apply Forall_forall. intros a Ha.
    assert (SQ : B2R a * B2R a <= S).
    { unfold S. clear - Ha. induction (elements x) as [|b l IH]; [destruct Ha|]. unfold exact_sum in *. cbn [map fold_right].
      assert (P : 0 <= fold_right Rplus 0 (map (fun a => B2R a * B2R a) l)).
      { clear. induction l as [|c l IH]; cbn [map fold_right]; [lra|]. pose proof (Rle_0_sqr (B2R c)). unfold Rsqr in *. lra. }
      destruct Ha as [->|Ha]; [lra|]. pose proof (Rle_0_sqr (B2R b)). unfold Rsqr in *. pose proof (IH Ha). lra. }
    assert (SQ0 : 0 <= B2R a * B2R a) by apply Rle_0_sqr.
    pose proof (rn_rel prec emax Hp (B2R a * B2R a)) as RR. rewrite (Rabs_pos_eq _ SQ0) in RR. apply Rabs_le_inv in RR.
    assert (R0 : 0 <= rn (B2R a * B2R a)) by (apply rn_pos; auto).
    assert (US : u * (B2R a * B2R a) <= / 64 * (B2R a * B2R a)) by (apply Rmult_le_compat_r; lra).
    destruct (fmul_small prec emax Hp Hm a a) as (A & B).
    - apply (proj1 (Forall_forall _ _) HF a Ha).
    - apply (proj1 (Forall_forall _ _) HF a Ha).
    - rewrite Rabs_pos_eq by auto. lra.
    - split; [exact A|]. split; [exact B|]. lra. }
  assert (PZ : map B2R (map (fun a => fmul a a) (padding x)) = repeat 0 (length (padding x))).
  { clear - HZ PADV. induction HZ as [|a l Ha H IH]; cbn [map length repeat]; auto. rewrite IH. now rewrite (proj2 (PADV a Ha)). }
  assert (NE : (length (filter nz (map B2R (map (fun a => fmul a a) (elements x)))) <= n)%nat).
  { eapply Nat.le_trans; [apply filter_len|]. rewrite !map_length. lia. }
  assert (SZ : size_sum (map B2R (map (fun a => fmul a a) (elements x))) <= (1 + u) * S + INR n * eta).
  { rewrite <- LE. unfold S. clear - ELV. unfold size_sum, exact_sum. induction ELV as [|a l (A & B & C) H IH]; cbn [map fold_right length]; [cbn; lra|].
    rewrite S_INR, B. rewrite (Rabs_pos_eq (rn (B2R a * B2R a))) by (apply rn_pos; [auto|apply Rle_0_sqr]). lra. }
  apply H.
  - apply Forall_app. split; apply Forall_map.
    + eapply Forall_impl; [|exact ELV]. intros a (A & _). exact A.
    + eapply Forall_impl; [|exact HZ]. intros a A. now apply PADV.
  - rewrite map_app, PZ, nz_zeros. eapply Rle_trans; [|exact K]. apply Rmult_le_compat_r; [lra|]. apply Rmult_le_compat_l; [lra|]. now apply le_INR.
  - rewrite map_app, PZ. rewrite (proj2 (sums_zeros _ _)). pose proof (count_eta n K) as CE.
    assert (S0 : 0 <= S). { unfold S, exact_sum. clear. induction (elements x) as [|c l IH]; cbn [map fold_right]; [lra|]. pose proof (Rle_0_sqr (B2R c)). unfold Rsqr in *. lra. }
    assert (u * S <= / 64 * S) by (apply Rmult_le_compat_r; lra). lra.
Qed.

(** ** The length is never negative *)
Local Notation inf := (@B754_infinity prec emax false).
Definition above0 (s : num) : Prop := s = inf \/ (is_finite s = true /\ 0 <= B2R s).
Lemma square_above (a : num) : is_nan a = false -> above0 (fmul a a).
Proof.
  intros N. destruct (is_finite a) eqn:F.
  - pose proof (Bmult_correct prec emax Hp Hm mode_NE a a) as C. change (round radix2 (SpecFloat.fexp prec emax) (round_mode mode_NE) (B2R a * B2R a)) with (rn (B2R a * B2R a)) in C.
    assert (R0 : 0 <= rn (B2R a * B2R a)) by (apply rn_pos; [auto|apply Rle_0_sqr]). destruct (Rlt_bool_spec (Rabs (rn (B2R a * B2R a))) big) as [Q|Q].
    + right. destruct C as (C1 & C2 & _). unfold AccModel.fmul. rewrite C1, C2, F. auto.
    + left. unfold AccModel.fmul. rewrite Bool.xorb_nilpotent in C. destruct (Bmult mode_NE a a); cbn in C; try discriminate C. now injection C as ->.
  - destruct a as [s|s| |s m0 e0 H]; try discriminate F; try discriminate N. left. unfold AccModel.fmul. cbn. now rewrite Bool.xorb_nilpotent.
Qed.
Lemma sum_above (a b : num) : above0 a -> above0 b -> above0 (fadd a b).
Proof.
  intros [->|(Fa & A)] [->|(Fb & B)]; [left; reflexivity|left; destruct b; try discriminate Fb; reflexivity|left; destruct a; try discriminate Fa; reflexivity|].
  pose proof (Bplus_correct prec emax Hp Hm mode_NE a b Fa Fb) as C. change (round radix2 (SpecFloat.fexp prec emax) (round_mode mode_NE) (B2R a + B2R b)) with (rn (B2R a + B2R b)) in C.
  assert (R0 : 0 <= rn (B2R a + B2R b)) by (apply rn_pos; [auto|lra]). destruct (Rlt_bool_spec (Rabs (rn (B2R a + B2R b))) big) as [Q|Q].
  - right. destruct C as (C1 & C2 & _). unfold AccModel.fadd. rewrite C1, C2. auto.
  - left. destruct C as (C1 & C2). assert (SA : Bsign a = false).
    { destruct (Bsign a) eqn:SG; auto. exfalso. assert (Z : B2R a = 0).
      { destruct a as [s|s| |[|] m0 e0 H]; try discriminate; auto. cbn in A. exfalso.
        assert (F2R (Float radix2 (Z.neg m0) e0) < 0) by (apply F2R_lt_0; reflexivity). cbn in *. lra. }
      rewrite Z, Rplus_0_l, (rn_id prec emax) in Q by apply num_format. pose proof (finite_lt prec emax b). lra. }
    unfold AccModel.fadd. rewrite SA in C1. destruct (Bplus mode_NE a b); cbn in C1; try discriminate C1. now injection C1 as ->.
Qed.
Lemma root_above (a : num) : above0 a -> above0 (fsqrt a).
Proof.
  intros [->|(F & A)]; [left; reflexivity|]. right. destruct (Req_dec (B2R a) 0) as [Z|NZ].
  - destruct a as [s|s| |s m0 e0 H]; try discriminate F; [cbn; split; [auto|lra]|]. exfalso. revert Z. apply F2R_neq_0. now destruct s.
  - destruct (fsqrt_ok prec emax Hp Hm a F) as (G & V); [lra|]. split; [exact G|]. rewrite V. apply rn_pos; [auto|apply sqrt_pos].
Qed.
Lemma mag_above junk N e f : conforming w N e -> VectorSpec.total e -> keeps_zero fzero e -> values e N f ->
  (forall i, (i < N)%nat -> is_nan (f i) = false) -> length junk = (packets w N * w)%nat ->
  exists m, fmag junk e = Ok m /\ above0 m.
Proof.
  intros HC HT HK HV HF Hj. unfold MagModel.fmag, MagModel.fmag2, mag2. rewrite (eval_assign w asserts junk N e HC).
  destruct (assign_Ok_total w asserts Hw N (fresh N junk) e eq_refl Hj HC HT) as (z & EZ). rewrite EZ. cbn [bind].
  pose proof (assign_zero_padding w fzero Hw asserts N (fresh N junk) e z eq_refl Hj HC HK EZ) as HZ.
  destruct (assign_elements w asserts Hw N (fresh N junk) e z eq_refl Hj HC EZ) as (Dz & Sz & EL).
  pose proof (value_some_ext w asserts Hw N e f HC HV z Dz Sz EL) as EE.
  set (g := fun p : list num => times2 fmul p p).
  assert (Eg : forall p, g p = map (fun a => fmul a a) p).
  { intros p. unfold g, times2. induction p as [|a p IH]; cbn; [auto|]. rewrite IH. auto. }
  destruct (lanes_sum w fzero fadd (fun l s => Forall above0 l -> above0 s) Hw) with (g := g) (v := z) as (r & E & H); auto.
  { intros _. right. cbn. split; [auto|lra]. }
  { intros a H. now inversion H. }
  { intros l1 l2 s1 s2 H1 H2 H. apply Forall_app in H. apply sum_above; tauto. }
  { intros l l' s P H1 H2. apply H1. eapply Permutation_Forall; [apply Permutation_sym, P|exact H2]. }
  { intros p. rewrite Eg, map_length. auto. }
  { intros p q. rewrite !Eg, map_app. auto. }
  change (ssum2 w fzero fadd fmul z = Ok r) in E. rewrite E. exists (fsqrt r). split; [reflexivity|]. apply root_above, H. rewrite Eg. apply Forall_map. rewrite (cells_split z). apply Forall_app. split.
  - rewrite EE. apply Forall_forall. intros a Ha. apply in_map_iff in Ha. destruct Ha as (i & <- & Hi). apply in_seq in Hi. apply square_above, HF. lia.
  - eapply Forall_impl; [|exact HZ]. intros a <-. apply square_above. reflexivity.
Qed.

Variables (N : nat) (e : expr num) (f : nat -> num).
Hypothesis (HC : conforming w N e) (HT : VectorSpec.total e) (HK : keeps_zero fzero e) (HV : values e N f).
Hypothesis (HF : forall i, (i < N)%nat -> is_finite (f i) = true) (HN : (0 < N)%nat) (K : 64 * INR N * u <= 1).
Local Notation x i := (B2R (f i)).
Local Notation L := (length2 N (fun i => B2R (f i))).
Hypothesis (LOW : 64 * INR N * tiny <= L * L) (HIGH : 4 * (L * L) < big).

Lemma list_total : exact_sum (map (fun a => B2R a * B2R a) (map f (seq 0 N))) = AccSpec.total N (fun i => x i * x i).
Proof. rewrite map_map, total_list. reflexivity. Qed.
Lemma mag2_ok junk : length junk = (packets w N * w)%nat ->
  exists m, fmag2 junk e = Ok m /\ is_finite m = true /\ Rabs (B2R m - L * L) <= dot_bound prec emax N (L * L).
Proof.
  intros Hj. unfold MagModel.fmag2, mag2. rewrite (eval_assign w asserts junk N e HC).
  destruct (assign_Ok_total w asserts Hw N (fresh N junk) e eq_refl Hj HC HT) as (z & EZ). rewrite EZ. cbn [bind].
  pose proof (assign_zero_padding w fzero Hw asserts N (fresh N junk) e z eq_refl Hj HC HK EZ) as HZ.
  destruct (assign_elements w asserts Hw N (fresh N junk) e z eq_refl Hj HC EZ) as (Dz & Sz & EL).
  pose proof (value_some_ext w asserts Hw N e f HC HV z Dz Sz EL) as EE.
  assert (ZZ : Forall (fun a => fis_zero prec emax a = true) (padding z)) by (eapply Forall_impl; [|exact HZ]; intros a <-; reflexivity).
  destruct (squares_finite z N Sz Dz ZZ) as (r & E & F); auto.
  { rewrite EE. apply Forall_forall. intros a Ha. apply in_map_iff in Ha. destruct Ha as (i & <- & Hi). apply in_seq in Hi. apply HF. lia. }
  { rewrite EE, list_total, <- length2_sq. exact HIGH. }
  exists r. split; [exact E|]. split; [exact F|].
  destruct (vector_squares_ok prec emax Hp Hm w z Hw Sz ZZ) as (r' & E' & H). rewrite E in E'. injection E' as <-. destruct (H F) as (_ & Q).
  rewrite EE, Dz, list_total, <- length2_sq in Q. unfold size_sum in Q. rewrite map_map in Q.
  rewrite (map_ext _ (fun a => B2R a * B2R a)) in Q by (intros a; apply Rabs_pos_eq, Rle_0_sqr). rewrite list_total, <- length2_sq in Q. exact Q.
Qed.
Lemma len_pos : 0 < L /\ 64 * eta <= u * L.
Proof.
  pose proof tiny_pos as T. pose proof (u_pos prec) as U. pose proof (small_eta prec emax P6 PE) as SE. rewrite eta_tiny in *.
  assert (N1 : 1 <= INR N) by (change 1 with (INR 1); apply le_INR; lia).
  assert (NT : 1 * tiny <= INR N * tiny) by (apply Rmult_le_compat_r; lra).
  assert (L0 : 0 <= L) by apply sqrt_pos.
  assert (LP : 0 < L). { destruct L0 as [|Z]; auto. exfalso. rewrite <- Z in LOW. lra. }
  split; [exact LP|]. destruct (Rle_lt_dec L 1) as [G|G].
  - assert (L * L <= L * 1) by (apply Rmult_le_compat_l; lra).
    replace (64 * (u * tiny)) with (u * (64 * tiny)) by ring. apply Rmult_le_compat_l; lra.
  - assert (u * 1 <= u * L) by (apply Rmult_le_compat_l; lra). lra.
Qed.
Lemma mag_ok junk : length junk = (packets w N * w)%nat ->
  exists m, fmag2 junk e = Ok m /\ is_finite (fsqrt m) = true /\ Rabs (B2R (fsqrt m) - L) <= (INR N + 2) * u * L.
Proof.
  intros Hj. destruct (mag2_ok junk Hj) as (m & E & F & Q). exists m. split; [exact E|].
  destruct len_pos as (LP & EL). pose proof (u_pos prec) as U. pose proof (small_u prec P6) as SU. pose proof (eta_pos prec emax) as EP.
  pose proof (pos_INR N) as N0. assert (NU : 0 <= INR N * u) by (apply Rmult_le_pos; lra).
  set (S := L * L) in *. assert (SP : 0 < S) by (apply Rmult_lt_0_compat; auto).
  set (c := (INR N + / 32) * u).
  assert (CE : Rabs (B2R m - S) <= c * S).
  { eapply Rle_trans; [exact Q|]. unfold dot_bound, c. rewrite eta_tiny.
    assert (A : INR N * (1 + INR N * u) * (u * tiny) <= / 32 * u * S).
    { replace (INR N * (1 + INR N * u) * (u * tiny)) with ((1 + INR N * u) * (u * (INR N * tiny))) by ring.
      assert (B : u * (INR N * tiny) <= u * (/ 64 * S)) by (apply Rmult_le_compat_l; lra).
      assert (B0 : 0 <= u * (INR N * tiny)) by (apply Rmult_le_pos; [lra|]; apply Rmult_le_pos; [lra|left; apply tiny_pos]).
      apply Rle_trans with (2 * (u * (/ 64 * S))); [|lra]. apply Rmult_le_compat; lra. }
    lra. }
  assert (C0 : 0 <= c <= / 32) by (unfold c; split; lra).
  assert (CS : c * S <= / 32 * S) by (apply Rmult_le_compat_r; lra).
  assert (M0 : 0 < B2R m) by (apply Rabs_le_inv in CE; lra).
  destruct (fsqrt_ok prec emax Hp Hm m F M0) as (Fs & Vs). split; [exact Fs|]. rewrite Vs.
  pose proof (root_close S (B2R m) c SP (Rlt_le _ _ M0) CE) as RC.
  assert (SL : sqrt S = L) by (apply sqrt_square; lra). rewrite SL in RC.
  pose proof (rn_rel prec emax Hp (sqrt (B2R m))) as RR. rewrite (Rabs_pos_eq (sqrt (B2R m))) in RR by apply sqrt_pos.
  set (v := sqrt (B2R m)) in *. replace (rn v - L) with ((rn v - v) + (v - L)) by ring. eapply Rle_trans; [apply Rabs_triang|].
  assert (VL : v <= (1 + / 32) * L).
  { apply Rabs_le_inv in RC. assert (c * L <= / 32 * L) by (apply Rmult_le_compat_r; lra). lra. }
  assert (UV : u * v <= u * ((1 + / 32) * L)) by (apply Rmult_le_compat_l; lra). assert (UL : 0 <= u * L) by (apply Rmult_le_pos; lra).
  unfold c in RC. lra.
Qed.
Lemma ratio_ok (m : num) i : is_finite m = true -> Rabs (B2R m - L) <= (INR N + 2) * u * L -> (i < N)%nat ->
  is_finite (fdiv (f i) m) = true /\
  Rabs (B2R (fdiv (f i) m) - x i / L) <= 2 * (INR N + 2) * u * Rabs (x i / L) + eta.
Proof.
  intros Fm Q Hi. destruct len_pos as (LP & EL). pose proof (u_pos prec) as U. pose proof (small_u prec P6) as SU. pose proof (small_eta prec emax P6 PE) as SE. pose proof (eta_pos prec emax) as EP.
  pose proof (pos_INR N) as N0. assert (NU : 0 <= INR N * u) by (apply Rmult_le_pos; lra).
  set (M := B2R m) in *. set (k := (INR N + 2) * u) in *. assert (K0 : 0 <= k <= 3 / 64) by (unfold k; lra).
  assert (KL : k * L <= 3 / 64 * L) by (apply Rmult_le_compat_r; lra). assert (Q2 := Rabs_le_inv _ _ Q).
  assert (MP : 61 / 64 * L <= M) by lra. assert (M0 : 0 < M) by lra.
  assert (X : Rabs (x i) <= L) by (apply (length2_term N (fun i => B2R (f i)) i Hi)).
  set (y := x i / L). assert (Y1 : Rabs y <= 1).
  { unfold y, Rdiv. rewrite Rabs_mult, (Rabs_pos_eq (/ L)) by (left; apply Rinv_0_lt_compat; auto). apply Rmult_le_reg_r with L; [auto|]. rewrite Rmult_assoc, Rinv_l by lra. lra. }
  pose proof (Rabs_pos y) as Y0.
  assert (IM : L / M <= 64 / 61).
  { apply Rmult_le_reg_r with M; [auto|]. unfold Rdiv. rewrite Rmult_assoc, Rinv_l by lra. lra. }
  assert (IM0 : 0 < L / M) by (apply Rdiv_lt_0_compat; auto).
  assert (EM : x i / M = y * (L / M)) by (unfold y; field; lra).
  assert (AM : Rabs (x i / M) <= 64 / 61 * Rabs y).
  { rewrite EM, Rabs_mult, (Rabs_pos_eq (L / M)) by lra. rewrite Rmult_comm. apply Rmult_le_compat_r; auto. }
  pose proof (rn_rel prec emax Hp (x i / M)) as RR.
  assert (UA : u * Rabs (x i / M) <= u * (64 / 61 * Rabs y)) by (apply Rmult_le_compat_l; lra).
  assert (UY : 0 <= u * Rabs y <= / 64 * 1) by (split; [apply Rmult_le_pos; lra|apply Rmult_le_compat; lra]).
  destruct (fdiv_small prec emax Hp Hm (f i) m (HF i Hi)) as (Fd & Vd); [fold M; lra| |].
  { fold M. pose proof (Rabs_triang_inv (rn (x i / M)) (x i / M)). assert (8 <= big) by (change 8 with (bpow radix2 3); apply bpow_le; lia). lra. }
  split; [exact Fd|]. rewrite Vd. fold M.
  replace (rn (x i / M) - y) with ((rn (x i / M) - x i / M) + y * ((L - M) / M)) by (unfold y; field; lra).
  eapply Rle_trans; [apply Rabs_triang|]. rewrite (Rabs_mult y).
  assert (D : Rabs ((L - M) / M) <= 64 / 61 * k).
  { unfold Rdiv. rewrite Rabs_mult, (Rabs_pos_eq (/ M)) by (left; apply Rinv_0_lt_compat; auto). rewrite Rabs_minus_sym.
    apply Rle_trans with (k * L * / M); [apply Rmult_le_compat_r; [left; apply Rinv_0_lt_compat; auto|exact Q]|].
    replace (k * L * / M) with (k * (L / M)) by (unfold Rdiv; ring). rewrite Rmult_comm. apply Rmult_le_compat_r; lra. }
  assert (YD : Rabs y * Rabs ((L - M) / M) <= Rabs y * (64 / 61 * k)) by (apply Rmult_le_compat_l; auto).
  assert (NY : 0 <= INR N * u * Rabs y) by (apply Rmult_le_pos; lra).
  unfold k in YD. lra.
Qed.
Lemma norm_ok junk junk' : length junk = (packets w N * w)%nat -> length junk' = (packets w N * w)%nat ->
  exists v, fnorm junk junk' e = Ok v /\ dims v = N /\ storage w v /\
    (forall i, (i < N)%nat -> is_finite (nth i (elements v) fzero) = true /\
       Rabs (B2R (nth i (elements v) fzero) - x i / L) <= 2 * (INR N + 2) * u * Rabs (x i / L) + eta) /\
    Rabs (length2 N (fun i => B2R (nth i (elements v) fzero)) - 1) <= 6 * (INR N + 2) * u.
Proof.
  intros Hj Hj'. destruct (mag_ok junk Hj) as (m & E & F & Q). unfold MagModel.fnorm, norm. unfold MagModel.fmag2 in E. rewrite E. cbn [bind].
  set (e' := Bin (fun a b => Ok (fdiv a b)) e (VectorModel.K (fsqrt m))).
  assert (C' : conforming w N e').
  { destruct HC as (A & B). split; [split; [exact A|exact I]|]. cbn. now destruct (edims e). }
  assert (T' : VectorSpec.total e') by (split; [intros a b; eexists; reflexivity|split; [exact HT|exact I]]).
  assert (V' : values e' N (fun i => fdiv (f i) (fsqrt m))) by (intros i Hi; cbn; now rewrite (HV i Hi)).
  rewrite (eval_assign w asserts junk' N e' C').
  destruct (assign_Ok_total w asserts Hw N (fresh N junk') e' eq_refl Hj' C' T') as (z & EZ).
  destruct (assign_elements w asserts Hw N (fresh N junk') e' z eq_refl Hj' C' EZ) as (Dz & Sz & EL).
  pose proof (value_some_ext w asserts Hw N e' _ C' V' z Dz Sz EL) as EE.
  exists z. split; [exact EZ|]. split; [exact Dz|]. split; [exact Sz|].
  assert (NTH : forall i, (i < N)%nat -> nth i (elements z) fzero = fdiv (f i) (fsqrt m)).
  { intros i Hi. apply nth_error_nth. rewrite (proj1 (EL i Hi)). now apply V'. }
  assert (ALL : forall i, (i < N)%nat -> is_finite (nth i (elements z) fzero) = true /\
       Rabs (B2R (nth i (elements z) fzero) - x i / L) <= 2 * (INR N + 2) * u * Rabs (x i / L) + eta).
  { intros i Hi. rewrite (NTH i Hi). now apply ratio_ok. }
  split; [exact ALL|].
  destruct len_pos as (LP & _). pose proof (u_pos prec) as U. pose proof (small_u prec P6) as SU. pose proof (small_eta prec emax P6 PE) as SE. pose proof (eta_pos prec emax) as EP.
  pose proof (pos_INR N) as N0. assert (NU : 0 <= INR N * u) by (apply Rmult_le_pos; lra).
  set (r := fun i => B2R (nth i (elements z) fzero)) in *. set (k := 2 * (INR N + 2) * u). assert (K0 : 0 <= k <= / 8) by (unfold k; lra).
  apply near_one; [apply sqrt_pos|]. rewrite length2_sq.
  assert (Y : AccSpec.total N (fun i => x i / L * (x i / L)) = 1).
  { rewrite (total_ext N _ (fun i => / (L * L) * (x i * x i) + 0)) by (intros i Hi; field; lra). rewrite total_lin, <- length2_sq. field. lra. }
  rewrite <- Y, total_diff. eapply Rle_trans; [apply total_abs|].
  eapply Rle_trans; [apply (total_le N _ (fun i => 17 / 8 * k * (x i / L * (x i / L)) + 3 * eta))|].
  - intros i Hi. apply square_close; [exact K0|lra| |apply (ALL i Hi)].
    assert (X : Rabs (x i) <= L) by (apply (length2_term N (fun i => B2R (f i)) i Hi)).
    unfold Rdiv. rewrite Rabs_mult, (Rabs_pos_eq (/ L)) by (left; apply Rinv_0_lt_compat; auto). apply Rmult_le_reg_r with L; [auto|]. rewrite Rmult_assoc, Rinv_l by lra. lra.
  - rewrite total_lin, Y. pose proof (count_eta N K) as CE. unfold k. lra.
Qed.
End Mag.
