(** Proofs for C88. *)
From Coq Require Import Reals ZArith List Arith Lia Lra.
From Verif Require Import Base BaseProofs ShapeModel FftSpec FftModel.
Import ListNotations.
From Coq Require Import ZifyNat ZifyN ZifyBool.
Ltac Zify.zify_post_hook ::= idtac.

(** ** The wrapper *)
Lemma r2c_long n input (output : list cpair) : 0 < n -> n <= length input -> n / 2 + 1 <= length output ->
  exists out, r2c n input output = Ok out /\ length out = length output /\
    forall k, k <= n / 2 -> nth_error out k = Some (dft n (fun j => nth j input 0%R) k).
Proof.
  intros Hn Hi Ho. unfold r2c. replace (n =? 0) with false by (symmetry; apply Nat.eqb_neq; lia).
  replace (length input <? n) with false by (symmetry; apply Nat.ltb_ge; lia).
  destruct (for_range_inv (fun i out => length out = length output /\ forall k, k < i -> nth_error out k = Some (dft n (fun j => nth j input 0%R) k))
    (fun k out => wr out k (dft n (fun j => nth j input 0%R) k)) 0 (n / 2 + 1) output) as (out & E & L & H).
  - lia.
  - intros i s Hi2 (L & H). exists (upd s i (dft n (fun j => nth j input 0%R) i)). split.
    + unfold wr. replace (i <? length s) with true by (symmetry; apply Nat.ltb_lt; lia). reflexivity.
    + split; [rewrite upd_length; exact L|]. intros k Hk. rewrite nth_error_upd. destruct (Nat.eq_dec i k) as [->|N].
      * rewrite Nat.eqb_refl. replace (k <? length s) with true by (symmetry; apply Nat.ltb_lt; lia). reflexivity.
      * replace (i =? k) with false by (symmetry; apply Nat.eqb_neq; lia). apply H. lia.
  - split; [reflexivity|]. intros k Hk. lia.
  - exists out. split; [exact E|]. split; [exact L|]. intros k Hk. apply H. lia.
Qed.

(** ** Sums *)
Local Open Scope R_scope.
Lemma sum_ext n f g : (forall i, (i < n)%nat -> f i = g i) -> sum_to n f = sum_to n g.
Proof. induction n as [|n IH]; intros H; cbn; auto. rewrite IH, H by (intros; auto with arith). reflexivity. Qed.
Lemma sum_add n f g : sum_to n (fun i => f i + g i) = sum_to n f + sum_to n g.
Proof. induction n as [|n IH]; cbn; [ring|]. rewrite IH. ring. Qed.
Lemma sum_scale n c f : sum_to n (fun i => c * f i) = c * sum_to n f.
Proof. induction n as [|n IH]; cbn; [ring|]. rewrite IH. ring. Qed.
Lemma sum_opp n f : sum_to n (fun i => - f i) = - sum_to n f.
Proof. induction n as [|n IH]; cbn; [ring|]. rewrite IH. ring. Qed.
Lemma sum_zero n : sum_to n (fun _ => 0) = 0.
Proof. induction n as [|n IH]; cbn; [ring|]. rewrite IH. ring. Qed.
Lemma sum_swap n m f : sum_to n (fun i => sum_to m (f i)) = sum_to m (fun j => sum_to n (fun i => f i j)).
Proof.
  induction n as [|n IH]; cbn.
  - rewrite sum_zero. reflexivity.
  - rewrite IH, <- sum_add. reflexivity.
Qed.
Lemma sum_pick n f j : (j < n)%nat -> (forall i, (i < n)%nat -> i <> j -> f i = 0) -> sum_to n f = f j.
Proof.
  induction n as [|n IH]; intros Hj H; [lia|]. cbn. destruct (Nat.eq_dec j n) as [->|N].
  - rewrite (sum_ext n f (fun _ => 0)), sum_zero by (intros; apply H; lia). ring.
  - rewrite IH, (H n) by (try lia; intros; apply H; lia). ring.
Qed.

(** ** Sums of cosines over a full turn *)
Lemma cos_sum n a : 2 * sin (a / 2) * sum_to n (fun k => cos (INR k * a)) = sin (INR n * a - a / 2) + sin (a / 2).
Proof.
  induction n as [|n IH]; cbn [sum_to].
  - cbn [INR]. replace (0 * a - a / 2) with (- (a / 2)) by ring. rewrite sin_neg. ring.
  - rewrite Rmult_plus_distr_l, IH, S_INR.
    replace ((INR n + 1) * a - a / 2) with (INR n * a + a / 2) by field.
    rewrite sin_plus, sin_minus. ring.
Qed.
Lemma cos_turns n (m : Z) : (0 < n)%nat -> (- Z.of_nat n < m < Z.of_nat n)%Z -> m <> 0%Z ->
  sum_to n (fun k => cos (INR k * (2 * PI * IZR m / INR n))) = 0.
Proof.
  intros Hn Hm N. set (a := 2 * PI * IZR m / INR n). assert (P : 0 < INR n) by (apply lt_0_INR; exact Hn).
  pose proof (cos_sum n a) as E. replace (INR n * a - a / 2) with (- (a / 2) + 2 * IZR m * PI) in E by (unfold a; field; lra).
  assert (S : sin (- (a / 2) + 2 * IZR m * PI) = - sin (a / 2)).
  { rewrite <- sin_neg. destruct (Z_le_gt_dec 0 m) as [C|C].
    - rewrite <- (Z2Nat.id m) by exact C. rewrite <- INR_IZR_INZ. apply sin_period.
    - rewrite <- (sin_period (- (a / 2) + 2 * IZR m * PI) (Z.to_nat (- m))). f_equal. rewrite INR_IZR_INZ, Z2Nat.id, opp_IZR by lia. ring. }
  rewrite S in E. assert (Z0 : 2 * sin (a / 2) * sum_to n (fun k => cos (INR k * a)) = 0) by lra.
  apply Rmult_integral in Z0. destruct Z0 as [Z0|Z0]; auto. exfalso.
  assert (H : sin (a / 2) = 0) by lra. clear E S Z0.
  assert (A : a / 2 = PI * (IZR m / INR n)) by (unfold a; field; lra). rewrite A in H. clear A a.
  assert (Q : Rabs (IZR m / INR n) < 1).
  { unfold Rdiv. rewrite Rabs_mult, (Rabs_right (/ INR n)) by (apply Rle_ge, Rlt_le, Rinv_0_lt_compat; exact P).
    apply Rmult_lt_reg_r with (INR n); auto. rewrite Rmult_assoc, Rinv_l, Rmult_1_r, Rmult_1_l by lra.
    rewrite <- abs_IZR, INR_IZR_INZ. apply IZR_lt. lia. }
  pose proof PI_RGT_0 as PP. apply Rabs_def2 in Q. set (q := IZR m / INR n) in *.
  assert (Q0 : q <> 0). { unfold q, Rdiv. apply Rmult_integral_contrapositive. split; [apply not_0_IZR; exact N|apply Rinv_neq_0_compat; lra]. }
  destruct (Rtotal_order q 0) as [C|[C|C]]; [|contradiction|].
  - assert (sin (PI * - q) > 0) by (apply sin_gt_0; nra). replace (PI * - q) with (- (PI * q)) in H0 by ring. rewrite sin_neg in H0. lra.
  - assert (sin (PI * q) > 0) by (apply sin_gt_0; nra). lra.
Qed.
Lemma turn_diff n i j k : (0 < n)%nat -> turn n i k - turn n j k = INR k * (2 * PI * IZR (Z.of_nat i - Z.of_nat j) / INR n).
Proof.
  intros Hn. assert (P : 0 < INR n) by (apply lt_0_INR; exact Hn). unfold turn. rewrite minus_IZR, <- !INR_IZR_INZ. field. lra.
Qed.
Lemma orthogonal n i j : (i < n)%nat -> (j < n)%nat ->
  sum_to n (fun k => cos (turn n i k - turn n j k)) = if Nat.eqb i j then INR n else 0.
Proof.
  intros Hi Hj. destruct (Nat.eqb_spec i j) as [->|N].
  - rewrite (sum_ext n _ (fun k => 1)). 2:{ intros k _. rewrite Rminus_diag_eq by reflexivity. apply cos_0. }
    clear. induction n as [|n IH]; [reflexivity|]. cbn [sum_to]. rewrite IH, S_INR. reflexivity.
  - rewrite (sum_ext n _ (fun k => cos (INR k * (2 * PI * IZR (Z.of_nat i - Z.of_nat j) / INR n)))).
    + apply cos_turns; lia.
    + intros k _. rewrite turn_diff by lia. reflexivity.
Qed.

(** ** The inverse transform *)
Lemma inverse_dft n x j : (j < n)%nat -> inverse n (dft n x) j = x j.
Proof.
  intros Hj. assert (P : 0 < INR n) by (apply lt_0_INR; lia). unfold inverse, dft. cbn [fst snd].
  rewrite (sum_ext n _ (fun k => sum_to n (fun i => x i * cos (turn n i k - turn n j k)))).
  - rewrite sum_swap. rewrite (sum_ext n _ (fun i => x i * (if Nat.eqb i j then INR n else 0))).
    + rewrite (sum_pick n _ j Hj).
      * rewrite Nat.eqb_refl. field. lra.
      * intros i Hi N. replace (Nat.eqb i j) with false by (symmetry; apply Nat.eqb_neq; exact N). ring.
    + intros i Hi. rewrite sum_scale, orthogonal by auto. reflexivity.
  - intros k Hk. rewrite Rmult_comm, <- sum_scale. rewrite Rminus_opp || idtac.
    replace (- - sum_to n (fun j0 => x j0 * sin (turn n j0 k)) ) with (sum_to n (fun j0 => x j0 * sin (turn n j0 k))) by ring.
    transitivity (sum_to n (fun i => cos (turn n j k) * (x i * cos (turn n i k))) + sin (turn n j k) * sum_to n (fun i => x i * sin (turn n i k))); [ring|].
    rewrite <- sum_scale, <- sum_add. apply sum_ext. intros i _. rewrite cos_minus. ring.
Qed.
(** The coefficients come in conjugate pairs *)
Lemma turn_mirror n j k : (0 < n)%nat -> (k <= n)%nat -> turn n j (n - k) = - turn n j k + 2 * INR j * PI.
Proof.
  intros Hn Hk. assert (P : 0 < INR n) by (apply lt_0_INR; exact Hn). unfold turn. rewrite minus_INR by exact Hk. field. lra.
Qed.
Lemma dft_mirror n x k : (0 < n)%nat -> (k <= n)%nat -> dft n x (n - k) = conjugate (dft n x k).
Proof.
  intros Hn Hk. unfold dft, conjugate. cbn [fst snd]. f_equal.
  - apply sum_ext. intros j _. rewrite turn_mirror, cos_period, cos_neg by auto. reflexivity.
  - f_equal. rewrite <- sum_opp. apply sum_ext. intros j _. rewrite turn_mirror, sin_period, sin_neg by auto. ring.
Qed.
Lemma half_le n k : (n / 2 < k)%nat -> (k < n)%nat -> (n - k <= n / 2)%nat.
Proof. intros H1 H2. pose proof (Nat.div_mod n 2 ltac:(lia)). pose proof (Nat.mod_upper_bound n 2 ltac:(lia)). lia. Qed.
Lemma spectrum_dft n x half k : (0 < n)%nat -> (k < n)%nat -> (forall k, (k <= n / 2)%nat -> half k = dft n x k) -> spectrum n half k = dft n x k.
Proof.
  intros Hn Hk H. unfold spectrum. destruct (Nat.leb_spec k (n / 2)) as [C|C]; [apply H, C|].
  rewrite H by (apply half_le; auto). rewrite <- dft_mirror by lia. f_equal. lia.
Qed.
Lemma inverse_ext n X Y j : (forall k, (k < n)%nat -> X k = Y k) -> inverse n X j = inverse n Y j.
Proof. intros H. unfold inverse. f_equal. apply sum_ext. intros k Hk. rewrite (H k Hk). reflexivity. Qed.
(** Energy *)
Lemma parseval n x : (0 < n)%nat -> sum_to n (fun k => power (dft n x k)) = INR n * sum_to n (fun j => x j * x j).
Proof.
  intros Hn. assert (P : 0 < INR n) by (apply lt_0_INR; exact Hn).
  rewrite <- sum_scale. transitivity (sum_to n (fun j => x j * (INR n * inverse n (dft n x) j))).
  - unfold inverse. rewrite (sum_ext n (fun j => x j * _) (fun j => sum_to n (fun k => x j * (fst (dft n x k) * cos (turn n j k) - snd (dft n x k) * sin (turn n j k))))).
    + rewrite sum_swap. apply sum_ext. intros k Hk. unfold power. set (a := fst (dft n x k)). set (b := snd (dft n x k)).
      transitivity (a * sum_to n (fun j => x j * cos (turn n j k)) + b * - sum_to n (fun j => x j * sin (turn n j k))); [reflexivity|].
      rewrite <- sum_opp, <- !sum_scale, <- sum_add. apply sum_ext. intros j _. ring.
    + intros j Hj. rewrite sum_scale. field. lra.
  - apply sum_ext. intros j Hj. rewrite inverse_dft by exact Hj. ring.
Qed.
Lemma dft_linear n x y c k : dft n (fun j => c * x j + y j) k = (c * fst (dft n x k) + fst (dft n y k), c * snd (dft n x k) + snd (dft n y k)).
Proof.
  unfold dft. cbn [fst snd]. f_equal.
  - rewrite <- sum_scale, <- sum_add. apply sum_ext. intros; ring.
  - rewrite <- !sum_opp, <- sum_scale, <- sum_add. apply sum_ext. intros; ring.
Qed.

(** ** rfft *)
Open Scope nat_scope.
Lemma rfft_ok asserts data : exists out, rfft asserts [length data] data = Ok out /\ length out = length data / 2 + 1 /\
  forall k, k <= length data / 2 -> nth_error out k = Some (dft (length data) (signal data) k).
Proof.
  unfold rfft, rfft_with, check. replace (asserts && negb (length [length data] =? 1))%bool with false by (destruct asserts; reflexivity).
  cbn [bind rd nth_error]. destruct (Nat.eq_dec (length data) 0) as [E|E].
  - rewrite E. exists [(0%R, 0%R)]. split; [reflexivity|]. split; [reflexivity|]. intros k Hk. cbn in Hk.
    replace k with 0 by lia. cbn. unfold dft. cbn. rewrite Ropp_0. reflexivity.
  - destruct (r2c_long (length data) data (repeat (0%R, 0%R) (length data / 2 + 1))) as (out & E1 & L & H1); [lia|lia| |].
    + rewrite repeat_length. lia.
    + exists out. rewrite repeat_length in L. auto.
Qed.
Lemma to_int_small n : (Z.of_nat n < 2 ^ 31)%Z -> to_int n = Z.of_nat n.
Proof. intros H. unfold to_int. rewrite Z.mod_small; lia. Qed.
Lemma to_int_neg n : (2 ^ 31 <= Z.of_nat n <= 2 ^ 32)%Z -> (to_int n <= 0)%Z.
Proof.
  intros H. unfold to_int. destruct (Z.eq_dec (Z.of_nat n) (2 ^ 32)) as [E|E].
  - rewrite E. apply Z.leb_le. vm_compute. reflexivity.
  - replace (Z.of_nat n + 2 ^ 31)%Z with (Z.of_nat n - 2 ^ 31 + 1 * 2 ^ 32)%Z by lia. rewrite Z_mod_plus_full, Z.mod_small; lia.
Qed.
Lemma fftw_same asserts data : data <> [] -> (Z.of_nat (length data) < 2 ^ 31)%Z -> rfft_fftw asserts [length data] data = rfft asserts [length data] data.
Proof.
  intros N H. unfold rfft_fftw, rfft, rfft_with. destruct (check asserts RuntimeError (length [length data] =? 1)); auto. cbn [bind rd nth_error].
  unfold fftw_r2c. rewrite to_int_small by exact H. rewrite Nat2Z.id. replace (Z.of_nat (length data) <=? 0)%Z with false; auto.
  symmetry. apply Z.leb_gt. destruct data; [congruence|]. cbn [length]. lia.
Qed.
Lemma fftw_bad asserts data : data = [] \/ (2 ^ 31 <= Z.of_nat (length data) <= 2 ^ 32)%Z -> rfft_fftw asserts [length data] data = UB.
Proof.
  intros H. unfold rfft_fftw, rfft_with, check. replace (asserts && negb (length [length data] =? 1))%bool with false by (destruct asserts; reflexivity).
  cbn [bind rd nth_error]. unfold fftw_r2c. replace (to_int (length data) <=? 0)%Z with true; auto. symmetry. apply Z.leb_le.
  destruct H as [->|H]; [|apply to_int_neg, H]. vm_compute. discriminate.
Qed.
Lemma fftw_long asserts data : (2 ^ 32 < Z.of_nat (length data) < 2 ^ 32 + 2 ^ 31)%Z ->
  exists out m, m = Z.to_nat (Z.of_nat (length data) - 2 ^ 32) /\ rfft_fftw asserts [length data] data = Ok out /\
    nth_error out 0 = Some (dft m (signal data) 0).
Proof.
  intros H. unfold rfft_fftw, rfft_with, check. replace (asserts && negb (length [length data] =? 1))%bool with false by (destruct asserts; reflexivity).
  cbn [bind rd nth_error]. unfold fftw_r2c.
  assert (E : to_int (length data) = (Z.of_nat (length data) - 2 ^ 32)%Z).
  { unfold to_int. replace (Z.of_nat (length data) + 2 ^ 31)%Z with (Z.of_nat (length data) - 2 ^ 32 + 2 ^ 31 + 1 * 2 ^ 32)%Z by lia.
    rewrite Z_mod_plus_full, Z.mod_small; lia. }
  rewrite E. replace (Z.of_nat (length data) - 2 ^ 32 <=? 0)%Z with false by (symmetry; apply Z.leb_gt; lia).
  set (m := Z.to_nat (Z.of_nat (length data) - 2 ^ 32)).
  assert (Hm : 0 < m /\ m <= length data) by (unfold m; lia).
  destruct (r2c_long m data (repeat (0%R, 0%R) (length data / 2 + 1))) as (out & E1 & _ & H1); [lia|lia| |].
  - rewrite repeat_length. apply Nat.add_le_mono_r, Nat.div_le_mono; lia.
  - exists out, m. split; [reflexivity|]. split; [exact E1|]. apply (H1 0). lia.
Qed.
Lemma rfft_dims shape data : length shape <> 1 -> rfft true shape data = Throw RuntimeError.
Proof. intros H. unfold rfft, rfft_with, check. replace (length shape =? 1) with false by (symmetry; apply Nat.eqb_neq; exact H). reflexivity. Qed.
Lemma turn_first n k : turn n 0 k = 0%R.
Proof. unfold turn. cbn [INR]. unfold Rdiv. ring. Qed.
Lemma turn_zero n j : turn n j 0 = 0%R.
Proof. unfold turn. cbn [INR]. unfold Rdiv. ring. Qed.
Lemma dft_zero n x : dft n x 0 = (sum_to n x, 0%R).
Proof.
  unfold dft. f_equal.
  - apply sum_ext. intros j _. rewrite turn_zero, cos_0. ring.
  - rewrite (sum_ext n _ (fun _ => 0%R)); [rewrite sum_zero; ring|]. intros j _. rewrite turn_zero, sin_0. ring.
Qed.
Lemma turn_middle m j : 0 < m -> turn (2 * m) j m = (INR j * PI)%R.
Proof.
  intros P. assert (0 < INR m)%R by (apply lt_0_INR; exact P). unfold turn. rewrite mult_INR. change (INR 2) with 2%R. field. lra.
Qed.
Lemma cos_half j : cos (INR j * PI) = (if Nat.even j then 1 else -1)%R /\ sin (INR j * PI) = 0%R.
Proof.
  induction j as [|j (C & S)].
  - cbn [INR]. rewrite Rmult_0_l. split; [apply cos_0|apply sin_0].
  - rewrite S_INR, Rmult_plus_distr_r, Rmult_1_l, cos_plus, sin_plus, C, S, cos_PI, sin_PI, Nat.even_succ, <- Nat.negb_even.
    destruct (Nat.even j); cbn [negb]; split; ring.
Qed.
Lemma dft_middle m x : 0 < m -> dft (2 * m) x m = (sum_to (2 * m) (fun j => if Nat.even j then x j else - x j)%R, 0%R).
Proof.
  intros P. unfold dft. f_equal.
  - apply sum_ext. intros j _. rewrite turn_middle by exact P. rewrite (proj1 (cos_half j)). destruct (Nat.even j); ring.
  - rewrite (sum_ext (2 * m) _ (fun _ => 0%R)); [rewrite sum_zero; ring|]. intros j _. rewrite turn_middle by exact P. rewrite (proj2 (cos_half j)). ring.
Qed.
