From Coq Require Import Reals Lra Lia ZArith Psatz.
From Coquelicot Require Import Complex.
From Verif Require Import ComplexModel ComplexSpec.
Local Open Scope R_scope.

Lemma rltP x y : rlt x y = true <-> x < y.
Proof. unfold rlt. destruct Rlt_dec; intuition congruence. Qed.
Lemma rltF x y : rlt x y = false <-> y <= x.
Proof. unfold rlt. destruct Rlt_dec; split; intros; try congruence; lra. Qed.
Lemma rleP x y : rle x y = true <-> x <= y.
Proof. unfold rle. destruct Rle_dec; intuition congruence. Qed.
Lemma rleF x y : rle x y = false <-> y < x.
Proof. unfold rle. destruct Rle_dec; split; intros; try congruence; lra. Qed.
Lemma reqP x y : req x y = true <-> x = y.
Proof. unfold req. destruct Req_EM_T; intuition congruence. Qed.
Lemma reqF x y : req x y = false <-> x <> y.
Proof. unfold req. destruct Req_EM_T; intuition congruence. Qed.

Lemma cx_eq z w : re z = re w -> im z = im w -> z = w.
Proof. destruct z, w; cbn; congruence. Qed.
Lemma cx_eta z : mk (re z) (im z) = z.
Proof. now destruct z. Qed.
Lemma toC_inj z w : toC z = toC w -> z = w.
Proof. destruct z, w. unfold toC. cbn. congruence. Qed.

Lemma abs_le2 x d : Rabs x <= d -> - d <= x <= d.
Proof. intros H. pose proof (Rle_abs x). pose proof (Rle_abs (- x)). rewrite Rabs_Ropp in *. lra. Qed.

(** ** Arithmetic *)
Lemma sq_pos_ne a b : a <> 0 \/ b <> 0 -> 0 < a * a + b * b.
Proof.
  intros [H|H]; [pose proof (Rsqr_pos_lt _ H)|pose proof (Rsqr_pos_lt _ H)]; unfold Rsqr in *; nra.
Qed.

Lemma abs_if x : (if rlt x 0 then - x else x) = Rabs x.
Proof.
  destruct (rlt x 0) eqn:E; [apply rltP in E; rewrite Rabs_left; auto|apply rltF in E; rewrite Rabs_right; lra].
Qed.

Lemma div_correct z a : cread z a <> zero ->
  exists r, div_assign z a = Some r /\ mul r (cread z a) = z.
Proof.
  intros Hw. unfold div_assign. rewrite !abs_if.
  set (w := cread z a) in *.
  assert (Hne : re w <> 0 \/ im w <> 0).
  { destruct (Req_dec (re w) 0) as [E|]; auto. destruct (Req_dec (im w) 0) as [E'|]; auto.
    exfalso. apply Hw. destruct w; cbn in *. subst. reflexivity. }
  assert (N := sq_pos_ne _ _ Hne).
  destruct (rlt (Rabs (im w)) (Rabs (re w))) eqn:E.
  - apply rltP in E.
    assert (R0 : re w <> 0). { intros Q. rewrite Q, Rabs_R0 in E. pose proof (Rabs_pos (im w)). lra. }
    assert (W : re w + im w / re w * im w = (re w * re w + im w * im w) / re w) by (field; auto).
    assert (W0 : re w + im w / re w * im w <> 0).
    { rewrite W. apply Rmult_integral_contrapositive_currified; [lra|apply Rinv_neq_0_compat; auto]. }
    rewrite (proj2 (reqF _ _) W0). cbv zeta. cbn [im re].
    eexists. split; [reflexivity|].
    unfold mul, mul_assign. cbn [cread re im]. apply cx_eq; cbn [re im]; field; (split; [auto|]);
      intros Q; apply W0; rewrite W; rewrite Q || (replace (re w * re w + im w * im w) with 0 by lra); field; auto.
  - apply rltF in E. destruct (req (im w) 0) eqn:I0.
    + apply reqP in I0. exfalso. rewrite I0, Rabs_R0 in E. pose proof (Rabs_pos (re w)).
      assert (Rabs (re w) = 0) by lra. destruct Hne as [Q|Q]; [|auto].
      apply Q. destruct (Req_dec (re w) 0) as [|D]; auto. apply Rabs_no_R0 in D. lra.
    + apply reqF in I0.
      assert (W : im w + re w / im w * re w = (re w * re w + im w * im w) / im w) by (field; auto).
      assert (W0 : im w + re w / im w * re w <> 0).
      { rewrite W. apply Rmult_integral_contrapositive_currified; [lra|apply Rinv_neq_0_compat; auto]. }
      rewrite (proj2 (reqF _ _) W0). cbv zeta. cbn [im re].
      eexists. split; [reflexivity|].
      unfold mul, mul_assign. cbn [cread re im]. apply cx_eq; cbn [re im]; field; (split; [auto|]);
        intros Q; apply W0; rewrite W; rewrite Q || (replace (re w * re w + im w * im w) with 0 by lra); field; auto.
Qed.

Lemma div_zero z a : cread z a = zero -> div_assign z a = None.
Proof.
  intros E. unfold div_assign. rewrite E. cbn [re im zero].
  rewrite !abs_if, Rabs_R0, (proj2 (rltF 0 0)) by lra. now rewrite (proj2 (reqP 0 0)).
Qed.

Lemma add_C z w : toC (add z w) = Cplus (toC z) (toC w).
Proof. reflexivity. Qed.
Lemma mul_C z w : toC (mul z w) = Cmult (toC z) (toC w).
Proof. unfold toC, mul, mul_assign, Cmult. cbn. f_equal; ring. Qed.
Lemma sub_C z w : toC (sub z w) = Cminus (toC z) (toC w).
Proof. reflexivity. Qed.
Lemma neg_C z : toC (neg z) = Copp (toC z).
Proof. reflexivity. Qed.
Lemma toC_zero z : toC z = RtoC 0 <-> z = zero.
Proof. split; [intros; apply toC_inj; auto|intros ->; reflexivity]. Qed.
Lemma div_C z w : w <> zero -> exists r, div z w = Some r /\ toC r = Cdiv (toC z) (toC w).
Proof.
  intros H. destruct (div_correct (mk (re z) (im z)) (Other (mk (re w) (im w)))) as (r & E & M).
  - cbn [cread]. rewrite cx_eta. auto.
  - exists r. split; [exact E|]. cbn [cread] in M. rewrite !cx_eta in M.
    rewrite <- M, mul_C. unfold Cdiv.
    rewrite <- Cmult_assoc, Cinv_r, Cmult_1_r; auto.
    intros Q. apply H. now apply toC_zero.
Qed.

(** ** Square root *)
Definition mag (z : cx) : R := sqrt (re z * re z + im z * im z).

Lemma sqrt2_bounds : 1 <= sqrt 2 <= 2.
Proof.
  split.
  - rewrite <- sqrt_1 at 1. apply sqrt_le_1; lra.
  - rewrite <- (sqrt_square 2) at 2 by lra. apply sqrt_le_1; lra.
Qed.

Lemma hyp_simple a b : 0 < b -> 0 <= a -> a + b / (a / b + sqrt (a / b * (a / b) + 1)) = sqrt (a * a + b * b).
Proof.
  intros Hb Ha. set (t := a / b). assert (T : a = b * t) by (unfold t; field; lra).
  assert (T0 : 0 <= t) by (unfold t; apply Rmult_le_pos; [auto|left; apply Rinv_0_lt_compat; auto]).
  set (u := sqrt (t * t + 1)).
  assert (U : u * u = t * t + 1) by (apply sqrt_sqrt; nra).
  assert (U0 : 0 < u) by (apply sqrt_lt_R0; nra).
  assert (E : sqrt (a * a + b * b) = b * u).
  { replace (a * a + b * b) with ((b * u) * (b * u)) by (rewrite T; nra). apply sqrt_square. nra. }
  rewrite E, T.
  assert (Q : / (t + u) = u - t).
  { apply (Rmult_eq_reg_l (t + u)); [|lra]. rewrite Rinv_r by lra. nra. }
  unfold Rdiv. rewrite Q. ring.
Qed.

Lemma hyp_const a b root2 low high d : 0 < b -> b <= a -> 0 <= root2 ->
  Rabs (root2 - sqrt 2) + Rabs (low + high - (1 + sqrt 2)) <= d -> d <= 1 / 2 ->
  let q := (a - b) / b in let r := (q + 2) * q in
  Rabs (a + b / (r / (root2 + sqrt (r + 2)) + low + q + high) - sqrt (a * a + b * b)) <= d * sqrt (a * a + b * b).
Proof.
  intros Hb Hab Hr Hd Hd2 q r.
  rewrite <- (hyp_simple a b) by lra.
  set (t := a / b).
  assert (Hq : q = t - 1) by (unfold q, t; field; lra).
  assert (T1 : 1 <= t). { unfold t. apply (Rmult_le_reg_r b); auto. unfold Rdiv. rewrite Rmult_assoc, Rinv_l by lra. lra. }
  assert (R2 : r + 2 = t * t + 1) by (unfold r; rewrite Hq; ring).
  rewrite R2. set (u := sqrt (t * t + 1)).
  assert (U : u * u = t * t + 1) by (apply sqrt_sqrt; nra).
  assert (U0 : sqrt 2 <= u) by (apply sqrt_le_1; nra).
  pose proof sqrt2_bounds as S2. assert (S22 : sqrt 2 * sqrt 2 = 2) by (apply sqrt_sqrt; lra).
  assert (Hr' : r = u * u - 2) by (rewrite U; lra).
  set (s := r / (root2 + u) + low + q + high).
  assert (Es : s - (t + u) = (u - sqrt 2) / (root2 + u) * (sqrt 2 - root2) + (low + high - (1 + sqrt 2))).
  { unfold s. rewrite Hq, Hr'. replace (u * u - 2) with (u * u - sqrt 2 * sqrt 2) by lra. field. lra. }
  assert (Ds : Rabs (s - (t + u)) <= d).
  { rewrite Es. eapply Rle_trans; [apply Rabs_triang|]. eapply Rle_trans; [|apply Hd].
    apply Rplus_le_compat_r. rewrite Rabs_mult, (Rabs_minus_sym (sqrt 2)).
    rewrite <- (Rmult_1_l (Rabs (root2 - sqrt 2))) at 2. apply Rmult_le_compat_r; [apply Rabs_pos|].
    rewrite Rabs_right.
    - apply (Rmult_le_reg_r (root2 + u)); [lra|]. unfold Rdiv. rewrite Rmult_assoc, Rinv_l by lra. lra.
    - apply Rle_ge, Rmult_le_pos; [lra|left; apply Rinv_0_lt_compat; lra]. }
  assert (Sl : 1 <= s). { apply abs_le2 in Ds. lra. }
  replace (a + b / s - (a + b / (t + u))) with (b * ((t + u) - s) / (s * (t + u))) by (field; lra).
  assert (P : 1 <= s * (t + u)) by nra.
  unfold Rdiv. rewrite Rabs_mult, Rabs_mult, (Rabs_right b) by lra.
  rewrite (Rabs_right (/ (s * (t + u)))) by (left; apply Rinv_0_lt_compat; lra).
  rewrite Rabs_minus_sym.
  assert (I1 : / (s * (t + u)) <= 1). { rewrite <- Rinv_1. apply Rinv_le_contravar; lra. }
  assert (I0 : 0 < / (s * (t + u))) by (apply Rinv_0_lt_compat; lra).
  assert (D0 := Rabs_pos (s - (t + u))).
  assert (B : b <= a + b * / (t + u)).
  { assert (0 < b * / (t + u)) by (apply Rmult_lt_0_compat; [auto|apply Rinv_0_lt_compat; lra]). lra. }
  assert (D1 : 0 <= d) by lra.
  apply Rle_trans with (b * d * 1).
  - apply Rmult_le_compat; try lra. apply Rmult_le_pos; lra. apply Rmult_le_compat_l; lra.
  - nra.
Qed.

Lemma mag_swap (z : cx) (a b : R) :
  a = (if rlt (Rabs (re z)) (Rabs (im z)) then Rabs (im z) else Rabs (re z)) ->
  b = (if rlt (Rabs (re z)) (Rabs (im z)) then Rabs (re z) else Rabs (im z)) ->
  0 <= b <= a /\ a * a + b * b = re z * re z + im z * im z /\ (a = 0 -> z = zero).
Proof.
  intros -> ->. pose proof (Rabs_pos (re z)). pose proof (Rabs_pos (im z)).
  assert (A : Rabs (re z) * Rabs (re z) = re z * re z) by (rewrite <- Rabs_mult; apply Rabs_right; nra).
  assert (B : Rabs (im z) * Rabs (im z) = im z * im z) by (rewrite <- Rabs_mult; apply Rabs_right; nra).
  destruct (rlt (Rabs (re z)) (Rabs (im z))) eqn:E.
  - apply rltP in E. repeat split; try lra.
  - apply rltF in E. repeat split; try lra. intros Z.
    apply cx_eq; cbn [re im zero]; nra.
Qed.

Lemma sqrt_scale a b k : 0 <= k -> sqrt (a * k * (a * k) + b * k * (b * k)) = sqrt (a * a + b * b) * k.
Proof.
  intros. replace (a * k * (a * k) + b * k * (b * k)) with ((a * a + b * b) * (k * k)) by ring.
  rewrite sqrt_mult by nra. rewrite sqrt_square; auto.
Qed.

Lemma pow2_pos k : 0 < powerRZ 2 k.
Proof. apply powerRZ_lt. lra. Qed.

Lemma fabs_spec mp root2 low high legTiny digits z d :
  (0 < digits)%Z -> 0 <= root2 ->
  Rabs (root2 - sqrt 2) + Rabs (low + high - (1 + sqrt 2)) <= d -> d <= 1 / 2 ->
  z <> zero ->
  exists rho e, fabs mp root2 low high legTiny digits z = (rho, (2 * e)%Z) /\ e <> 0%Z
    /\ Rabs (rho - mag z * powerRZ 2 (- (2 * e))) <= d * (mag z * powerRZ 2 (- (2 * e))).
Proof.
  intros Hdig Hr Hd Hd2 Hz. unfold fabs. cbv zeta.
  set (a := if rlt (Rabs (re z)) (Rabs (im z)) then Rabs (im z) else Rabs (re z)).
  set (b := if rlt (Rabs (re z)) (Rabs (im z)) then Rabs (re z) else Rabs (im z)).
  destruct (mag_swap z a b eq_refl eq_refl) as (Hab & HM & H0).
  assert (Ha : a <> 0) by (intros Q; apply Hz, H0, Q).
  rewrite (proj2 (reqF a 0) Ha).
  set (E := if rle 1 a then 4%Z else if rlt a legTiny then (-2 * digits)%Z else (-2)%Z).
  assert (HE : exists e, E = (2 * e)%Z /\ e <> 0%Z).
  { unfold E. destruct (rle 1 a); [exists 2%Z; lia|]. destruct (rlt a legTiny); [exists (- digits)%Z; lia|exists (-1)%Z; lia]. }
  destruct HE as (e & HE & He).
  assert (HK : forall x, (if rle 1 a then x * (1 / 16) else if rlt a legTiny then ldexp x (- E) else x * 4) = x * powerRZ 2 (- E)).
  { intros x. unfold E. destruct (rle 1 a); [simpl; lra|]. destruct (rlt a legTiny); [reflexivity|simpl; lra]. }
  rewrite !HK. clear HK. rewrite HE. clearbody a b. clear E HE.
  set (k := powerRZ 2 (- (2 * e))). assert (K := pow2_pos (- (2 * e))). fold k in K.
  assert (M : mag z * k = sqrt (a * k * (a * k) + b * k * (b * k))).
  { rewrite sqrt_scale by lra. unfold mag. now rewrite HM. }
  assert (D0 : 0 <= d). { pose proof (Rabs_pos (root2 - sqrt 2)). pose proof (Rabs_pos (low + high - (1 + sqrt 2))). lra. }
  assert (Mp : 0 <= mag z * k) by (rewrite M; apply sqrt_pos).
  destruct (req (a * k - b * k) (a * k)) eqn:B0.
  - apply reqP in B0. exists (a * k), e. split; [reflexivity|split; auto]. fold k.
    assert (B : b * k = 0) by lra. rewrite M. rewrite B.
    replace (a * k * (a * k) + 0 * 0) with (a * k * (a * k)) by ring. rewrite sqrt_square by nra.
    rewrite Rminus_diag_eq, Rabs_R0 by auto. apply Rmult_le_pos; [auto|nra].
  - apply reqF in B0. assert (Hb : 0 < b * k). { assert (b <> 0) by (intros Q; apply B0; rewrite Q; ring). nra. }
    assert (Hba : b * k <= a * k) by nra.
    destruct (negb mp && rlt (b * k) (a * k - b * k))%bool.
    + exists (a * k + b * k / (a * k / (b * k) + sqrt (a * k / (b * k) * (a * k / (b * k)) + 1))), e. split; [reflexivity|split; auto]. fold k. rewrite M.
      rewrite hyp_simple by lra. rewrite Rminus_diag_eq, Rabs_R0 by auto.
      apply Rmult_le_pos; [auto|apply sqrt_pos].
    + eexists _, e. split; [reflexivity|split; auto]. fold k. rewrite M.
      apply (hyp_const (a * k) (b * k) root2 low high d); auto.
Qed.

Lemma fabs_zero mp root2 low high legTiny digits : fabs mp root2 low high legTiny digits zero = (0, 0%Z).
Proof.
  unfold fabs. cbn [re im zero]. rewrite Rabs_R0, (proj2 (rltF 0 0)) by lra. now rewrite (proj2 (reqP 0 0)).
Qed.

Lemma mag_sq z : mag z * mag z = re z * re z + im z * im z.
Proof. unfold mag. apply sqrt_sqrt. nra. Qed.
Lemma mag_pos z : z <> zero -> 0 < mag z.
Proof.
  intros H. unfold mag. apply sqrt_lt_R0. apply sq_pos_ne.
  destruct (Req_dec (re z) 0) as [A|]; auto. destruct (Req_dec (im z) 0) as [B|]; auto.
  exfalso. apply H. now apply cx_eq.
Qed.

Lemma csqrt_form mp root2 low high legTiny digits z d :
  (0 < digits)%Z -> 0 <= root2 ->
  Rabs (root2 - sqrt 2) + Rabs (low + high - (1 + sqrt 2)) <= d -> d <= 1 / 2 ->
  z <> zero ->
  exists M rho, Rabs (M - mag z) <= d * mag z /\ 0 < rho /\ rho * rho = (Rabs (re z) + M) / 2
    /\ csqrt mp root2 low high legTiny digits z
       = if rle 0 (re z) then mk rho (im z / (2 * rho)) else mk (Rabs (im z / (2 * rho))) (copySign rho (im z)).
Proof.
  intros Hdig Hr Hd Hd2 Hz.
  destruct (fabs_spec mp root2 low high legTiny digits z d Hdig Hr Hd Hd2 Hz) as (f & e & E & He & Hf).
  unfold csqrt. rewrite E.
  replace (2 * e =? 0)%Z with false by (symmetry; apply Z.eqb_neq; lia).
  assert (Q : (Z.quot (2 * e) 2 = e)%Z) by (rewrite Z.mul_comm; apply Z.quot_mul; lia).
  rewrite Q. unfold ldexp. set (k := powerRZ 2 (- (2 * e))) in *.
  assert (K := pow2_pos (- (2 * e))). fold k in K.
  set (h := powerRZ 2 (e - 1)). assert (H := pow2_pos (e - 1)). fold h in H.
  assert (KH : k * (h * h) = / 4).
  { unfold k, h. rewrite <- !powerRZ_add by lra. replace (- (2 * e) + (e - 1 + (e - 1)))%Z with (-2)%Z by lia. simpl. lra. }
  clearbody k h.
  exists (f / k), (sqrt (2 * (Rabs (re z) * k + f)) * h).
  assert (MP := mag_pos z Hz).
  assert (F : Rabs (f / k - mag z) <= d * mag z).
  { replace (f / k - mag z) with ((f - mag z * k) * / k) by (field; lra).
    rewrite Rabs_mult, (Rabs_right (/ k)) by (left; apply Rinv_0_lt_compat; auto).
    apply (Rmult_le_reg_r k); auto. rewrite Rmult_assoc, Rinv_l by lra. lra. }
  assert (D0 : 0 <= d). { pose proof (Rabs_pos (f / k - mag z)). nra. }
  assert (Fp : 0 < f). { apply abs_le2 in Hf. assert (0 < mag z * k) by nra. nra. }
  assert (AR := Rabs_pos (re z)).
  assert (S0 : 0 < 2 * (Rabs (re z) * k + f)) by nra.
  split; [exact F|]. split; [apply Rmult_lt_0_compat; auto; apply sqrt_lt_R0; auto|]. split; [|reflexivity].
  replace (sqrt (2 * (Rabs (re z) * k + f)) * h * (sqrt (2 * (Rabs (re z) * k + f)) * h))
    with (sqrt (2 * (Rabs (re z) * k + f)) * sqrt (2 * (Rabs (re z) * k + f)) * (h * h)) by ring.
  rewrite sqrt_sqrt by lra.
  assert (h * h = / 4 / k) by (apply (Rmult_eq_reg_l k); [|lra]; rewrite KH; field; lra).
  replace (h * h) with (/ 4 / k). field. lra.
Qed.

Lemma csqrt_error mp root2 low high legTiny digits z d :
  (0 < digits)%Z -> 0 <= root2 ->
  Rabs (root2 - sqrt 2) + Rabs (low + high - (1 + sqrt 2)) <= d -> d <= 1 / 2 ->
  let w := csqrt mp root2 low high legTiny digits z in
  Rabs (re (mul w w) - re z) <= 2 * d * mag z /\ im (mul w w) = im z
  /\ 0 <= re w /\ (re w = 0 -> 0 <= im w).
Proof.
  intros Hdig Hr Hd Hd2 w.
  assert (D0 : 0 <= d). { pose proof (Rabs_pos (root2 - sqrt 2)). pose proof (Rabs_pos (low + high - (1 + sqrt 2))). lra. }
  destruct (Req_dec (re z * re z + im z * im z) 0) as [Z0|Z0].
  { assert (z = zero) by (apply cx_eq; cbn [re im zero]; nra). subst z. unfold w, csqrt.
    rewrite fabs_zero. cbn [Z.eqb]. rewrite (proj2 (reqP 0 0)) by auto.
    cbn [re im zero]. unfold mul, mul_assign, mag. cbn [re im cread zero].
    replace (0 * 0 - 0 * 0 - 0) with 0 by ring. replace (0 * 0 + 0 * 0) with 0 by ring. rewrite Rabs_R0, sqrt_0. repeat split; lra. }
  assert (Hz : z <> zero) by (intros ->; apply Z0; cbn [re im zero]; ring).
  destruct (csqrt_form mp root2 low high legTiny digits z d Hdig Hr Hd Hd2 Hz) as (M & rho & HM & Hp & Hsq & HW).
  fold w in HW. assert (MP := mag_pos z Hz). assert (MS := mag_sq z).
  assert (AR := Rabs_pos (re z)).
  assert (A2 : Rabs (re z) * Rabs (re z) = re z * re z) by (rewrite <- Rabs_mult; apply Rabs_right; nra).
  set (m := mag z) in *. set (x := Rabs (re z)) in *.
  assert (HM2 := HM). apply abs_le2 in HM2.
  assert (Mlo : m / 2 <= M) by nra.
  (* the real part error *)
  assert (Er : Rabs ((x + M) / 2 - im z * im z / (2 * (x + M)) - x) <= 2 * d * m).
  { assert (P1 : 0 < x + M) by lra. assert (P2 : 0 < x + m) by lra.
    replace ((x + M) / 2 - im z * im z / (2 * (x + M)) - x)
      with ((M - m) * ((1 + im z * im z / ((x + M) * (x + m))) / 2)).
    2:{ assert (im z * im z = m * m - x * x) by lra. replace (im z * im z) with (m * m - x * x). field. split; lra. }
    rewrite Rabs_mult.
    assert (Q : 0 <= im z * im z / ((x + M) * (x + m)) <= 2).
    { split; [apply Rmult_le_pos; [nra|left; apply Rinv_0_lt_compat; nra]|].
      apply (Rmult_le_reg_r ((x + M) * (x + m))); [nra|]. unfold Rdiv. rewrite Rmult_assoc, Rinv_l by nra. nra. }
    rewrite (Rabs_right (_ / 2)) by lra.
    apply Rle_trans with (d * m * 2); [|lra]. apply Rmult_le_compat; try lra. apply Rabs_pos. }
  assert (I4 : im z / (2 * rho) * (im z / (2 * rho)) = im z * im z / (2 * (x + M))).
  { replace (2 * (x + M)) with (4 * (rho * rho)) by (rewrite Hsq; field). field. lra. }
  rewrite HW. destruct (rle 0 (re z)) eqn:S.
  - apply rleP in S. assert (Hx : x = re z) by (unfold x; apply Rabs_right; lra).
    unfold mul, mul_assign. cbn [re im cread]. split.
    + rewrite Hsq, I4. rewrite <- Hx. exact Er.
    + split; [field; lra|]. split; lra.
  - apply rleF in S. assert (Hx : x = - re z) by (unfold x; apply Rabs_left; lra).
    assert (CS : copySign rho (im z) * copySign rho (im z) = rho * rho).
    { unfold copySign. rewrite (Rabs_right rho) by lra. destruct (rlt (im z) 0); ring. }
    assert (AS : Rabs (im z / (2 * rho)) * Rabs (im z / (2 * rho)) = im z / (2 * rho) * (im z / (2 * rho)))
      by (rewrite <- Rabs_mult; apply Rabs_right; nra).
    assert (CM : 2 * Rabs (im z / (2 * rho)) * copySign rho (im z) = im z).
    { unfold copySign. rewrite (Rabs_right rho) by lra.
      unfold Rdiv. rewrite Rabs_mult, (Rabs_right (/ (2 * rho))) by (left; apply Rinv_0_lt_compat; lra).
      destruct (rlt (im z) 0) eqn:N.
      - apply rltP in N. rewrite Rabs_left by auto. field. lra.
      - apply rltF in N. rewrite Rabs_right by lra. field. lra. }
    unfold mul, mul_assign. cbn [re im cread]. split.
    + rewrite AS, CS, Hsq, I4.
      replace (im z * im z / (2 * (x + M)) - (x + M) / 2 - re z) with (- ((x + M) / 2 - im z * im z / (2 * (x + M)) - x)) by lra.
      rewrite Rabs_Ropp. exact Er.
    + split; [lra|]. split; [apply Rabs_pos|].
      intros Q. assert (im z / (2 * rho) = 0) by (destruct (Req_dec (im z / (2 * rho)) 0) as [|D]; auto; apply Rabs_no_R0 in D; lra).
      assert (im z = 0). { apply (Rmult_eq_reg_r (/ (2 * rho))); [lra|apply Rinv_neq_0_compat; lra]. }
      unfold copySign. rewrite (proj2 (rltF _ _)) by lra. rewrite Rabs_right; lra.
Qed.

Lemma csqrt_exact legTiny digits z : (0 < digits)%Z -> principal_root z (sqrt_mp legTiny digits z).
Proof.
  intros Hd. pose proof sqrt2_bounds.
  destruct (csqrt_error true (sqrt 2) 0 (sqrt 2 + 1) legTiny digits z 0 Hd) as (A & B & C & D); try lra.
  { replace (sqrt 2 - sqrt 2) with 0 by ring. replace (0 + (sqrt 2 + 1) - (1 + sqrt 2)) with 0 by ring. rewrite Rabs_R0; lra. }
  split; [|split; auto]. apply cx_eq; auto.
  rewrite Rmult_0_r, Rmult_0_l in A. apply Rminus_diag_uniq.
  destruct (Req_dec (re (mul (sqrt_mp legTiny digits z) (sqrt_mp legTiny digits z)) - re z) 0) as [|N]; auto.
  apply Rabs_pos_lt in N. unfold sqrt_mp in *. lra.
Qed.

Lemma literals : Rabs (root2_lit - sqrt 2) + Rabs (low_lit + high_lit - (1 + sqrt 2)) <= / 10 ^ 33.
Proof.
  assert (S2 : sqrt 2 * sqrt 2 = 2) by (apply sqrt_sqrt; lra). pose proof sqrt2_bounds.
  unfold root2_lit, low_lit, high_lit.
  set (l := 14142135623730950488016887242096980 / 10000000000000000000000000000000000).
  set (h := 14142135623730950488016887242096981 / 10000000000000000000000000000000000).
  assert (L : l < sqrt 2). { apply Rnot_le_lt. intros Q. assert (sqrt 2 * sqrt 2 <= l * l) by nra. unfold l in *. lra. }
  assert (U : sqrt 2 < h). { apply Rnot_le_lt. intros Q. assert (h * h <= sqrt 2 * sqrt 2) by (unfold h in *; nra). unfold h in *. lra. }
  apply Rplus_le_reg_l with 0.
  assert (A1 : Rabs (h - sqrt 2) <= h - l) by (apply Rabs_le; lra).
  set (c := 14341252375973918872420969807856967 / 100000000000000000000000000000000000000000 + 10125945 / 4194304).
  assert (A2 : Rabs (c - (1 + sqrt 2)) <= h - l) by (apply Rabs_le; unfold c, l, h in *; lra).
  assert (h - l <= / 10 ^ 33 / 2). { unfold h, l. simpl. lra. }
  lra.
Qed.

Lemma csqrt_float_error legTiny digits z : (0 < digits)%Z ->
  let w := sqrt_float legTiny digits z in
  Rabs (re (mul w w) - re z) <= / 10 ^ 32 * mag z /\ im (mul w w) = im z /\ 0 <= re w.
Proof.
  intros Hd w.
  destruct (csqrt_error false root2_lit low_lit high_lit legTiny digits z (/ 10 ^ 33) Hd) as (A & B & C & D).
  - unfold root2_lit. lra.
  - apply literals.
  - simpl. lra.
  - split; [|split; auto]. eapply Rle_trans; [apply A|]. apply Rmult_le_compat_r; [apply sqrt_pos|]. simpl. lra.
Qed.

Lemma root_unique z w w' : principal_root z w -> principal_root z w' -> w = w'.
Proof.
  intros (A & B & C) (A' & B' & C'). rewrite <- A' in A.
  destruct w as [x y], w' as [u v]. unfold mul, mul_assign in A. cbn [re im cread] in *.
  assert (E1 := f_equal re A). assert (E2 := f_equal im A). cbn [re im] in E1, E2.
  (* (w - w')(w + w') = 0 *)
  assert (P : ((x - u) * (x - u) + (y - v) * (y - v)) * ((x + u) * (x + u) + (y + v) * (y + v)) = 0).
  { replace (((x - u) * (x - u) + (y - v) * (y - v)) * ((x + u) * (x + u) + (y + v) * (y + v)))
      with ((x * x - y * y - (u * u - v * v)) * (x * x - y * y - (u * u - v * v))
            + (x * y + y * x - (u * v + v * u)) * (x * y + y * x - (u * v + v * u))) by ring.
    rewrite E1, E2. ring. }
  apply Rmult_integral in P as [P|P].
  - apply Rplus_sqr_eq_0 in P as [P1 P2]. apply cx_eq; cbn [re im]; lra.
  - apply Rplus_sqr_eq_0 in P as [P1 P2]. assert (x = 0) by lra. assert (u = 0) by lra.
    specialize (C H). specialize (C' H0). apply cx_eq; cbn [re im]; lra.
Qed.

(** ** Elementary functions *)
Definition i_ : cx := mk 0 1.
Definition one : cx := mk 1 0.
Definition two : cx := mk 2 0.

Lemma cosh_plus x y : cosh (x + y) = cosh x * cosh y + sinh x * sinh y.
Proof. unfold cosh, sinh. rewrite Ropp_plus_distr, !exp_plus. field. Qed.
Lemma sinh_plus x y : sinh (x + y) = sinh x * cosh y + cosh x * sinh y.
Proof. unfold cosh, sinh. rewrite Ropp_plus_distr, !exp_plus. field. Qed.
Lemma cosh_neg x : cosh (- x) = cosh x.
Proof. unfold cosh. rewrite Ropp_involutive. lra. Qed.
Lemma sinh_neg x : sinh (- x) = - sinh x.
Proof. unfold sinh. rewrite Ropp_involutive. lra. Qed.
Lemma cosh_sinh x : cosh x * cosh x - sinh x * sinh x = 1.
Proof.
  unfold cosh, sinh. assert (E : exp x * exp (- x) = 1) by (rewrite <- exp_plus, Rplus_opp_r; apply exp_0).
  replace 1 with (exp x * exp (- x)). field.
Qed.
Lemma cosh_ge1 x : 1 <= cosh x.
Proof.
  unfold cosh. assert (E : exp x * exp (- x) = 1) by (rewrite <- exp_plus, Rplus_opp_r; apply exp_0).
  pose proof (exp_pos x) as P. pose proof (exp_pos (- x)) as Q. set (a := exp x) in *. set (b := exp (- x)) in *. clearbody a b.
  assert (D : 2 <= a + b); [|lra]. pose proof (Rle_0_sqr (a - b)) as H. unfold Rsqr in H.
  apply Rnot_lt_le. intros K. assert ((a + b) * (a + b) < 2 * 2) by (apply Rmult_le_0_lt_compat; lra). lra.
Qed.
Lemma sc1 x : sin x * sin x + cos x * cos x = 1.
Proof. exact (sin2_cos2 x). Qed.
Lemma exp_cs x : exp x = cosh x + sinh x.
Proof. unfold cosh, sinh. field. Qed.

Ltac cunf := unfold mul, mul_assign, add, add_assign, sub, sub_assign, neg, conj, i_, one, two, zero, cexp, ccosh, csinh, ccos, csin, expMul;
  cbn [re im cread]; rewrite ?powerRZ_O.
Ltac ceq := cunf; apply cx_eq; cbn [re im].

Lemma cexp_plus a b : cexp (add a b) = mul (cexp a) (cexp b).
Proof. ceq; rewrite exp_plus, ?cos_plus, ?sin_plus; ring. Qed.
Lemma cexp_zero : cexp zero = one.
Proof. ceq; rewrite exp_0, ?cos_0, ?sin_0; ring. Qed.
Lemma cexp_real x : cexp (of_real x) = of_real (exp x).
Proof. unfold of_real. ceq; rewrite ?cos_0, ?sin_0; ring. Qed.
Lemma cexp_imag t : cexp (mk 0 t) = mk (cos t) (sin t).
Proof. ceq; rewrite exp_0; ring. Qed.

Lemma ccosh_exp z : mul two (ccosh z) = add (cexp z) (cexp (neg z)).
Proof. ceq; rewrite !exp_cs, ?cosh_neg, ?sinh_neg, ?cos_neg, ?sin_neg; ring. Qed.
Lemma csinh_exp z : mul two (csinh z) = sub (cexp z) (cexp (neg z)).
Proof. ceq; rewrite !exp_cs, ?cosh_neg, ?sinh_neg, ?cos_neg, ?sin_neg; ring. Qed.
Lemma ccos_exp z : mul two (ccos z) = add (cexp (mul i_ z)) (cexp (neg (mul i_ z))).
Proof.
  ceq; rewrite ?Rmult_0_l, ?Rmult_1_l, ?Rplus_0_l, ?Rminus_0_l, ?Ropp_involutive, !exp_cs, ?cosh_neg, ?sinh_neg, ?cos_neg, ?sin_neg; ring.
Qed.
Lemma csin_exp z : mul (mul two i_) (csin z) = sub (cexp (mul i_ z)) (cexp (neg (mul i_ z))).
Proof.
  ceq; rewrite ?Rmult_0_l, ?Rmult_1_l, ?Rplus_0_l, ?Rminus_0_l, ?Ropp_involutive, !exp_cs, ?cosh_neg, ?sinh_neg, ?cos_neg, ?sin_neg; ring.
Qed.

Lemma ccosh_csinh z : sub (mul (ccosh z) (ccosh z)) (mul (csinh z) (csinh z)) = one.
Proof.
  pose proof (cosh_sinh (re z)). pose proof (sc1 (im z)). ceq; [|ring].
  set (c := cosh (re z)) in *. set (s := sinh (re z)) in *. set (x := cos (im z)) in *. set (y := sin (im z)) in *.
  replace (c * x * (c * x) - s * y * (s * y) - (s * x * (s * x) - c * y * (c * y))) with ((c * c - s * s) * (y * y + x * x)) by ring.
  rewrite H, H0. ring.
Qed.
Lemma ccos_csin z : add (mul (ccos z) (ccos z)) (mul (csin z) (csin z)) = one.
Proof.
  pose proof (cosh_sinh (im z)). pose proof (sc1 (re z)). ceq; [|ring].
  set (c := cosh (im z)) in *. set (s := sinh (im z)) in *. set (x := cos (re z)) in *. set (y := sin (re z)) in *.
  replace (c * x * (c * x) - - s * y * (- s * y) + (c * y * (c * y) - s * x * (s * x))) with ((c * c - s * s) * (y * y + x * x)) by ring.
  rewrite H, H0. ring.
Qed.

Lemma csin_plus a b : csin (add a b) = add (mul (csin a) (ccos b)) (mul (ccos a) (csin b)).
Proof. ceq; rewrite ?sin_plus, ?cos_plus, ?cosh_plus, ?sinh_plus; ring. Qed.
Lemma ccos_plus a b : ccos (add a b) = sub (mul (ccos a) (ccos b)) (mul (csin a) (csin b)).
Proof. ceq; rewrite ?sin_plus, ?cos_plus, ?cosh_plus, ?sinh_plus; ring. Qed.
Lemma csinh_plus a b : csinh (add a b) = add (mul (csinh a) (ccosh b)) (mul (ccosh a) (csinh b)).
Proof. ceq; rewrite ?sin_plus, ?cos_plus, ?cosh_plus, ?sinh_plus; ring. Qed.
Lemma ccosh_plus a b : ccosh (add a b) = add (mul (ccosh a) (ccosh b)) (mul (csinh a) (csinh b)).
Proof. ceq; rewrite ?sin_plus, ?cos_plus, ?cosh_plus, ?sinh_plus; ring. Qed.

Lemma ctanh_ok z : cos (im z) <> 0 -> mul (ctanh z) (ccosh z) = csinh z.
Proof.
  intros H. unfold ctanh. cbv zeta. set (s := sinh (re z)). set (c := cosh (re z)).
  assert (C : sqrt (1 + s * s) = c).
  { pose proof (cosh_sinh (re z)) as H1. pose proof (cosh_ge1 (re z)) as H2. fold s c in H1, H2.
    replace (1 + s * s) with (c * c) by lra. apply sqrt_square. lra. }
  rewrite C. assert (CS : c * c = 1 + s * s) by (pose proof (cosh_sinh (re z)) as H1; fold s c in H1; lra).
  assert (T : tan (im z) = sin (im z) / cos (im z)) by reflexivity.
  set (x := cos (im z)) in *. set (y := sin (im z)) in *. set (t := tan (im z)) in *.
  assert (XY : y * y + x * x = 1) by apply sc1.
  assert (TX : t * x = y) by (rewrite T; field; auto).
  assert (T2 : (1 + t * t) * (x * x) = 1) by (replace ((1 + t * t) * (x * x)) with (x * x + (t * x) * (t * x)) by ring; rewrite TX; lra).
  assert (D : 1 + s * (1 + t * t) * s <> 0) by nra.
  unfold mul, mul_assign, ccosh, csinh. cbn [re im cread]. fold s c x y.
  set (p := 1 + t * t) in *.
  assert (Dx : (1 + s * p * s) * (x * x) = x * x + s * s) by (replace ((1 + s * p * s) * (x * x)) with (x * x + s * s * (p * (x * x))) by ring; rewrite T2; ring).
  assert (X2 : x * x <> 0) by nra.
  apply cx_eq; cbn [re im]; apply (Rmult_eq_reg_r ((1 + s * p * s) * (x * x))); try (rewrite Dx; nra).
  - replace ((c * (s * p) / (1 + s * p * s) * (c * x) - t / (1 + s * p * s) * (s * y)) * ((1 + s * p * s) * (x * x)))
      with (c * c * s * x * (p * (x * x)) - (t * x) * (s * y * x)) by (field; auto).
    rewrite T2, TX, Dx, CS. replace (y * y) with (1 - x * x) by lra.
    replace (y * (s * y * x)) with (s * x * (y * y)) by ring. replace (y * y) with (1 - x * x) by lra. ring.
  - replace ((c * (s * p) / (1 + s * p * s) * (s * y) + t / (1 + s * p * s) * (c * x)) * ((1 + s * p * s) * (x * x)))
      with (c * s * s * y * (p * (x * x)) + (t * x) * (c * x * x)) by (field; auto).
    rewrite T2, TX, Dx. ring.
Qed.

Lemma ctan_ok z : cos (re z) <> 0 -> mul (ctan z) (ccos z) = csin z.
Proof.
  intros H. pose proof (ctanh_ok (mk (- im z) (re z)) H) as E.
  unfold ctan. cbv zeta. set (t := ctanh (mk (- im z) (re z))) in *. clearbody t.
  unfold mul, mul_assign, ccosh, csinh, ccos, csin in *. cbn [re im cread] in *.
  assert (E1 := f_equal re E). assert (E2 := f_equal im E). cbn [re im] in E1, E2.
  rewrite cosh_neg, sinh_neg in *. apply cx_eq; cbn [re im]; lra.
Qed.

Lemma div_l_ok c w : w <> zero -> exists r, div_l c w = Some r /\ mul r w = of_real c.
Proof. intros H. unfold div_l. apply (div_correct (of_real c) (Other w)). exact H. Qed.

(** modulus, argument *)
Lemma cabs_norm z : cabs z * cabs z = norm z.
Proof. apply mag_sq. Qed.
Lemma mul_conj z : mul z (conj z) = of_real (norm z).
Proof. unfold norm, of_real. ceq; ring. Qed.
Lemma norm_mul z w : norm (mul z w) = norm z * norm w.
Proof. unfold norm. cunf. ring. Qed.
Lemma norm_nonneg z : 0 <= norm z.
Proof. unfold norm. nra. Qed.
Lemma cabs_mul z w : cabs (mul z w) = cabs z * cabs w.
Proof.
  unfold cabs. rewrite <- sqrt_mult by apply norm_nonneg. f_equal. exact (norm_mul z w).
Qed.
Lemma cabs_exp z : cabs (cexp z) = exp (re z).
Proof.
  unfold cabs. cunf. pose proof (sc1 (im z)). pose proof (exp_pos (re z)).
  replace (_ + _) with (exp (re z) * exp (re z)) by nra. apply sqrt_square. lra.
Qed.
Lemma triangle z w : cabs (add z w) <= cabs z + cabs w.
Proof.
  unfold cabs. set (A := sqrt (re z * re z + im z * im z)). set (B := sqrt (re w * re w + im w * im w)).
  assert (A0 : 0 <= A) by apply sqrt_pos. assert (B0 : 0 <= B) by apply sqrt_pos.
  assert (A2 : A * A = re z * re z + im z * im z) by (apply sqrt_sqrt; nra).
  assert (B2 : B * B = re w * re w + im w * im w) by (apply sqrt_sqrt; nra).
  cunf. rewrite <- (sqrt_square (A + B)) by lra. pose proof (Rle_0_sqr (re z + re w)) as Q1. pose proof (Rle_0_sqr (im z + im w)) as Q2. pose proof (Rle_0_sqr (A + B)) as Q3. unfold Rsqr in Q1, Q2, Q3.
  apply sqrt_le_1; [lra|lra|].
  assert (CS : re z * re w + im z * im w <= A * B).
  { apply Rsqr_incr_0_var; [|nra]. unfold Rsqr.
    replace (A * B * (A * B)) with (A * A * (B * B)) by ring. rewrite A2, B2.
    pose proof (Rle_0_sqr (re z * im w - im z * re w)). unfold Rsqr in *. nra. }
  nra.
Qed.

Lemma polar_eq rho theta : polar rho theta = mk (rho * cos theta) (rho * sin theta).
Proof.
  unfold polar. destruct (req rho 0) eqn:E; cbn [negb]; auto.
  destruct (req theta 0) eqn:F; auto. apply reqP in E, F. subst. rewrite cos_0, sin_0. f_equal; ring.
Qed.
Lemma cabs_polar rho theta : cabs (polar rho theta) = Rabs rho.
Proof.
  rewrite polar_eq. unfold cabs. cbn [re im]. pose proof (sc1 theta).
  replace (_ + _) with (Rsqr rho) by (unfold Rsqr; nra). apply sqrt_Rsqr_abs.
Qed.

Lemma atan2_ok x y : (x <> 0 \/ y <> 0) ->
  sqrt (x * x + y * y) * cos (atan2 y x) = x /\ sqrt (x * x + y * y) * sin (atan2 y x) = y.
Proof.
  intros H. unfold atan2.
  assert (G : x <> 0 -> let u := sqrt (1 + Rsqr (y / x)) in sqrt (x * x + y * y) = Rabs x * u /\ 0 < u).
  { intros X u. assert (0 < 1 + Rsqr (y / x)) by (pose proof (Rle_0_sqr (y / x)); lra).
    split; [|apply sqrt_lt_R0; auto].
    unfold u. rewrite <- sqrt_Rsqr_abs, <- sqrt_mult by (auto using Rle_0_sqr; lra).
    f_equal. unfold Rsqr. field. auto. }
  destruct (rlt 0 x) eqn:P; [apply rltP in P|apply rltF in P; destruct (rlt x 0) eqn:N; [apply rltP in N|apply rltF in N]].
  - destruct (G ltac:(lra)) as [E U]. rewrite E, cos_atan, sin_atan, Rabs_right by lra. split; field; lra.
  - destruct (G ltac:(lra)) as [E U]. rewrite E, Rabs_left by lra.
    destruct (rle 0 y).
    + rewrite neg_cos, neg_sin, cos_atan, sin_atan. split; field; lra.
    + replace (cos (atan (y / x) - PI)) with (- cos (atan (y / x))) by (rewrite cos_minus, cos_PI, sin_PI; ring).
      replace (sin (atan (y / x) - PI)) with (- sin (atan (y / x))) by (rewrite sin_minus, cos_PI, sin_PI; ring).
      rewrite cos_atan, sin_atan. split; field; lra.
  - assert (x = 0) by lra. subst x. assert (Y : y <> 0) by (destruct H; auto; lra).
    replace (0 * 0 + y * y) with (Rsqr y) by (unfold Rsqr; ring). rewrite sqrt_Rsqr_abs.
    destruct (rlt 0 y) eqn:Q; [apply rltP in Q; rewrite Rabs_right by lra|apply rltF in Q; rewrite (proj2 (rltP y 0)) by lra; rewrite Rabs_left by lra].
    + rewrite cos_PI2, sin_PI2. lra.
    + rewrite cos_neg, sin_neg, cos_PI2, sin_PI2. lra.
Qed.

Lemma polar_arg z : polar (cabs z) (arg z) = z.
Proof.
  rewrite polar_eq. destruct (Req_dec (re z * re z + im z * im z) 0) as [Z0|Z0].
  - assert (R0 : re z = 0) by nra. assert (I0 : im z = 0) by nra.
    unfold cabs. rewrite Z0, sqrt_0. apply cx_eq; cbn [re im]; lra.
  - destruct (atan2_ok (re z) (im z)) as [A B].
    + destruct (Req_dec (re z) 0) as [Q|]; auto. right. intros Q'. apply Z0. rewrite Q, Q'. ring.
    + apply cx_eq; cbn [re im]; assumption.
Qed.

Lemma arg_range z : - PI < arg z <= PI.
Proof.
  unfold arg, atan2. pose proof PI_RGT_0. pose proof (atan_bound (im z / re z)) as B.
  assert (B' : 0 <= im z -> re z < 0 -> atan (im z / re z) <= 0).
  { intros. rewrite <- atan_0. destruct (Req_dec (im z) 0) as [Q|]; [rewrite Q; unfold Rdiv; rewrite Rmult_0_l; lra|].
    left. apply atan_increasing. unfold Rdiv. assert (/ re z < 0) by (apply Rinv_lt_0_compat; auto). nra. }
  assert (B'' : im z < 0 -> re z < 0 -> 0 < atan (im z / re z)).
  { intros. rewrite <- atan_0. apply atan_increasing. unfold Rdiv. assert (/ re z < 0) by (apply Rinv_lt_0_compat; auto). nra. }
  destruct (rlt 0 (re z)) eqn:P; [lra|]. apply rltF in P.
  destruct (rlt (re z) 0) eqn:N; [apply rltP in N|].
  - destruct (rle 0 (im z)) eqn:I; [apply rleP in I; specialize (B' I N); lra|apply rleF in I; specialize (B'' I N); lra].
  - destruct (rlt 0 (im z)); [lra|]. destruct (rlt (im z) 0); lra.
Qed.

Lemma scalar_ops (z : cx) (c : R) :
  add_r z c = add z (of_real c) /\ sub_r z c = sub z (of_real c) /\ mul_r z c = mul z (of_real c)
  /\ (c <> 0 -> div z (of_real c) = Some (div_r z c))
  /\ add_l c z = add (of_real c) z /\ sub_l c z = sub (of_real c) z /\ mul_l c z = mul (of_real c) z
  /\ div_l c z = div (of_real c) z.
Proof.
  unfold add_l, sub_l, mul_l, div_l, add_r, sub_r, mul_r, div_r, add, sub, mul, div.
  rewrite !cx_eta.
  repeat split; try (apply cx_eq; unfold add_assign, sub_assign, mul_assign, sub_scalar, mul_scalar, of_real; cbn [re im cread sread]; ring).
  intros H. unfold div_assign. cbn [cread of_real re im]. rewrite !abs_if, Rabs_R0.
  rewrite (proj2 (rltP 0 (Rabs c))) by (apply Rabs_pos_lt; auto).
  rewrite (proj2 (reqF _ _)) by (unfold Rdiv; rewrite Rmult_0_l; lra).
  f_equal. apply cx_eq; unfold div_scalar; cbn [re im sread]; field; lra.
Qed.

Lemma compound_complex (z : cx) (a : carg) :
  add_assign z a = add z (cread z a) /\ sub_assign z a = sub z (cread z a)
  /\ mul_assign z a = mul z (cread z a) /\ div_assign z a = div z (cread z a).
Proof. destruct z, a; repeat split. Qed.

Lemma compound_scalar (z : cx) (a : sarg) :
  add_scalar z a = add_r z (sread z a) /\ sub_scalar z a = sub_r z (sread z a)
  /\ (a <> OwnReal -> mul_scalar z a = mul_r z (sread z a) /\ div_scalar z a = div_r z (sread z a)).
Proof. destruct z, a; repeat split; congruence. Qed.

Lemma compound_alias_exact z :
  (mul_scalar z OwnReal = mul_r z (re z) <-> im z = 0 \/ re z = 0 \/ re z = 1)
  /\ (re z <> 0 -> (div_scalar z OwnReal = div_r z (re z) <-> im z = 0 \/ re z = 1)).
Proof.
  destruct z as [x y]. unfold mul_r, div_r, mul_scalar, div_scalar. cbn [re im sread].
  split; [|intros X]; (split; [intros E; apply (f_equal im) in E; cbn [im] in E|intros E; apply cx_eq; cbn [re im]; auto]).
  - assert (Q : y * (x * (x - 1)) = 0) by (unfold sread in E; cbn [re] in E; lra).
    apply Rmult_integral in Q as [Q|Q]; auto. apply Rmult_integral in Q as [Q|Q]; auto. right; right; lra.
  - unfold mul_scalar. cbn [re im sread]. destruct E as [-> |[-> | ->]]; ring.
  - assert (Q : y * (x - 1) = 0).
    { replace (x / x) with 1 in E by (field; auto). unfold Rdiv in E. rewrite Rinv_1 in E.
      assert (E' : y * 1 * x = y * / x * x) by (rewrite E; reflexivity). replace (y * / x * x) with y in E' by (field; auto). lra. }
    apply Rmult_integral in Q as [Q|Q]; auto. right; lra.
  - replace (x / x) with 1 by (field; auto). destruct E as [-> | ->]; [|field]. unfold Rdiv. ring.
Qed.

Lemma compound_alias_refuted :
  (exists z, mul_scalar z OwnReal <> mul_r z (re z)) /\ (exists z, re z <> 0 /\ div_scalar z OwnReal <> div_r z (re z)).
Proof.
  split; exists (mk 2 1).
  - intros E. apply compound_alias_exact in E. cbn [re im] in E. lra.
  - split; [cbn; lra|]. intros E. apply compound_alias_exact in E; cbn [re im] in *; lra.
Qed.

Lemma assign_other_exact z other : assign_other z other = other <-> im other = re other.
Proof.
  destruct other as [r i]. unfold assign_other. cbn [re im].
  split; [intros E; injection E; auto|intros ->; reflexivity].
Qed.

Lemma ceq_ok z w : ComplexModel.ceq z w = true <-> z = w.
Proof.
  unfold ComplexModel.ceq. rewrite Bool.andb_true_iff, !reqP. split; [intros [A B]; now apply cx_eq|intros ->; auto].
Qed.

Lemma modulus_laws z w :
  cabs z * cabs z = norm z /\ mul z (conj z) = of_real (norm z)
  /\ cabs (mul z w) = cabs z * cabs w /\ cabs (add z w) <= cabs z + cabs w
  /\ cabs (cexp z) = exp (re z) /\ conj (conj z) = z
  /\ conj (mul z w) = mul (conj z) (conj w) /\ conj (add z w) = add (conj z) (conj w).
Proof.
  repeat split; auto using cabs_norm, mul_conj, cabs_mul, triangle, cabs_exp; ceq; ring.
Qed.

Lemma polar_laws z rho theta :
  polar (cabs z) (arg z) = z /\ - PI < arg z <= PI
  /\ cabs (polar rho theta) = Rabs rho
  /\ polar rho theta = mul (of_real rho) (cexp (mk 0 theta)).
Proof.
  split; [apply polar_arg|]. split; [apply arg_range|]. split; [apply cabs_polar|].
  rewrite polar_eq, cexp_imag. unfold of_real. ceq; ring.
Qed.
