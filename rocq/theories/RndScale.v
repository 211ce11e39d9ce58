(** Proofs for C87: powers of ten, decimal places and the scaling loops. *)
From Coq Require Import ZArith Reals List Lia Lra Bool.
From Flocq Require Import Core Relative Sterbenz BinarySingleNaN.
From Verif Require Import Base BaseProofs ShapeModel AccModel AccSpec AccProofs NumModel NumSpec NumBasics RndModel RndSpec RndProofs.
Import ListNotations.
Open Scope R_scope.

(** ** Powers of ten *)
Lemma tens_pos e : 0 < tens e.
Proof. apply powerRZ_lt. lra. Qed.
Lemma tens_add e f : tens (e + f) = tens e * tens f.
Proof. apply powerRZ_add. lra. Qed.
Lemma tens_opp e : tens e * tens (- e) = 1.
Proof. rewrite <- tens_add, Z.add_opp_diag_r. reflexivity. Qed.
Lemma tens_int e : (0 <= e)%Z -> tens e = IZR (10 ^ e).
Proof.
  intros H. unfold tens. pattern e. apply (natlike_ind (fun e => powerRZ 10 e = IZR (10 ^ e))); [reflexivity| |exact H].
  intros x Hx IH. unfold Z.succ. rewrite powerRZ_add, IH, Z.pow_add_r, mult_IZR by (lra || lia). f_equal. change (10 ^ 1)%Z with 10%Z. unfold powerRZ. change (Pos.to_nat 1) with 1%nat. ring.
Qed.
Lemma tens_inv e : tens (- e) = / tens e.
Proof.
  pose proof (tens_opp e) as H. pose proof (tens_pos e). apply Rmult_eq_reg_l with (tens e); [|lra]. rewrite H, Rinv_r; lra.
Qed.
Lemma tens_le e f : (e <= f)%Z -> tens e <= tens f.
Proof.
  intros H. replace f with (e + (f - e))%Z by lia. rewrite tens_add. pose proof (tens_pos e).
  assert (1 <= tens (f - e)).
  { rewrite tens_int by lia. apply IZR_le. pose proof (Z.pow_pos_nonneg 10 (f - e)). lia. }
  nra.
Qed.
Lemma tens_1 : tens 1 = 10.
Proof. rewrite tens_int by lia. reflexivity. Qed.
Lemma tens_0 : tens 0 = 1.
Proof. reflexivity. Qed.

(** ** Closeness: x and y differ by a factor between (1-d)^n and its inverse *)
Definition within (d : R) (n : nat) (x y : R) : Prop := y * (1 - d) ^ n <= x /\ x * (1 - d) ^ n <= y.
Section Within.
Variable d : R.
Hypothesis D : 0 <= d < 1.
Lemma power_pos n : 0 < (1 - d) ^ n <= 1.
Proof.
  induction n as [|n IH]; cbn; [lra|]. split; [apply Rmult_lt_0_compat; lra|].
  pose proof (Rmult_le_compat (1 - d) 1 ((1 - d) ^ n) 1). lra.
Qed.
Lemma within_refl x : within d 0 x x.
Proof. unfold within. cbn. lra. Qed.
Lemma within_sym n x y : within d n x y -> within d n y x.
Proof. intros (A & B). split; auto. Qed.
Lemma within_trans n m x y z : within d n x y -> within d m y z -> within d (n + m) x z.
Proof.
  intros (A & B) (E & F). unfold within. rewrite pow_add. pose proof (power_pos n). pose proof (power_pos m). split.
  - apply Rle_trans with (2 := A). rewrite (Rmult_comm ((1 - d) ^ n)), <- Rmult_assoc. apply Rmult_le_compat_r; lra.
  - apply Rle_trans with (2 := F). rewrite <- Rmult_assoc. apply Rmult_le_compat_r; lra.
Qed.
Lemma within_mono n m x y : (n <= m)%nat -> 0 <= x -> 0 <= y -> within d n x y -> within d m x y.
Proof.
  intros H P Q (A & B). replace m with (n + (m - n))%nat by lia. unfold within. rewrite pow_add.
  pose proof (power_pos n). pose proof (power_pos (m - n)).
  assert (G : (1 - d) ^ n * (1 - d) ^ (m - n) <= (1 - d) ^ n) by nra.
  split; [apply Rle_trans with (2 := A)|apply Rle_trans with (2 := B)]; apply Rmult_le_compat_l; auto.
Qed.
Lemma within_mul n m a b x y : 0 <= a -> 0 <= b -> 0 <= x -> 0 <= y -> within d n a b -> within d m x y -> within d (n + m) (a * x) (b * y).
Proof.
  intros Pa Pb Px Py (A & B) (E & F). unfold within. rewrite pow_add. pose proof (power_pos n). pose proof (power_pos m). split.
  - replace (b * y * ((1 - d) ^ n * (1 - d) ^ m)) with (b * (1 - d) ^ n * (y * (1 - d) ^ m)) by ring. apply Rmult_le_compat; auto; apply Rmult_le_pos; lra.
  - replace (a * x * ((1 - d) ^ n * (1 - d) ^ m)) with (a * (1 - d) ^ n * (x * (1 - d) ^ m)) by ring. apply Rmult_le_compat; auto; apply Rmult_le_pos; lra.
Qed.
Lemma within_scale n a x y : 0 <= a -> within d n x y -> within d n (x * a) (y * a).
Proof.
  intros P (A & B). split; [replace (y * a * (1 - d) ^ n) with (y * (1 - d) ^ n * a) by ring|replace (x * a * (1 - d) ^ n) with (x * (1 - d) ^ n * a) by ring];
    apply Rmult_le_compat_r; auto.
Qed.
Lemma bernoulli n : 1 - INR n * d <= (1 - d) ^ n.
Proof.
  induction n as [|n IH]; [cbn; lra|]. rewrite S_INR. cbn [pow]. pose proof (pos_INR n).
  assert (0 <= INR n * (d * d)) by (apply Rmult_le_pos; nra).
  apply Rle_trans with ((1 - d) * (1 - INR n * d)); [nra|]. apply Rmult_le_compat_l; lra.
Qed.
Lemma within_err n x y : 0 <= x -> 0 <= y -> INR n * d <= / 2 -> within d n x y -> Rabs (x - y) <= 2 * INR n * d * y.
Proof.
  intros Px Py N (A & B). pose proof (bernoulli n) as G. pose proof (pos_INR n) as I. assert (ND : 0 <= INR n * d) by (apply Rmult_le_pos; lra).
  set (c := INR n * d) in *. replace (2 * INR n * d * y) with (2 * c * y) by (unfold c; ring).
  pose proof (Rmult_le_compat_l x _ _ Px G) as G1. pose proof (Rmult_le_compat_l y _ _ Py G) as G2.
  apply Rabs_le. split; [nra|]. assert (x * (1 - c) <= y) by lra.
  assert (x <= 2 * y) by nra. nra.
Qed.
End Within.

Section Rnd.
Variables prec emax : Z.
Context (Hp : Prec_gt_0 prec) (Hm : Prec_lt_emax prec emax).
Local Notation num := (binary_float prec emax).
Local Notation fzero := (fzero prec emax).
Local Notation fone := (fone prec emax Hp Hm).
Local Notation fadd := (fadd prec emax Hp Hm).
Local Notation fmul := (fmul prec emax Hp Hm).
Local Notation fsub := (fsub prec emax Hp Hm).
Local Notation fdiv := (fdiv prec emax Hp Hm).
Local Notation fint := (fint prec emax Hp Hm).
Local Notation flt := (flt prec emax).
Local Notation fpow10 := (fpow10 prec emax Hp Hm).
Local Notation rn := (nearest prec emax).
Local Notation u := (unit_roundoff prec).
Local Notation eta := (underflow_unit prec emax).
Local Notation big := (bpow radix2 emax).
Local Notation format := (generic_format radix2 (FLT_exp (3 - emax - prec) prec)).
Hypothesis H24 : (24 <= prec)%Z.

Lemma emax_large : (24 < emax)%Z.
Proof. pose proof (prec_emax prec emax Hm). lia. Qed.
Lemma u_small : 0 < u <= bpow radix2 (-24).
Proof. split; [apply bpow_gt_0|]. apply bpow_le. lia. Qed.
Lemma u_tiny : 0 < u /\ 1000000 * u <= 1.
Proof.
  destruct u_small as (A & B). split; auto. assert (E : bpow radix2 (-24) = / 16777216) by reflexivity. rewrite E in B. lra.
Qed.
Lemma u_range : 0 <= u < 1.
Proof. destruct u_tiny. lra. Qed.

(** Rounding of a number in the normal range, and of ten times a number *)
Lemma u_half_ulp : / 2 * bpow radix2 (- prec + 1) = u.
Proof. unfold unit_roundoff. rewrite bpow_plus. change (bpow radix2 1) with 2. field. Qed.
Lemma rn_rel x : bpow radix2 (2 - emax) <= Rabs x -> Rabs (rn x - x) <= u * Rabs x.
Proof.
  intros H. rewrite <- u_half_ulp. apply (relative_error_N_FLT radix2 (3 - emax - prec) prec Hp (fun x => negb (Z.even x))).
  replace (3 - emax - prec + prec - 1)%Z with (2 - emax)%Z by ring. exact H.
Qed.
Lemma near_within x y : 0 <= y -> Rabs (x - y) <= u * Rabs y -> within u 1 x y.
Proof.
  intros P H. rewrite (Rabs_pos_eq y) in H by exact P. apply Rabs_le_inv in H. destruct u_tiny. unfold within. rewrite pow_1. split; [lra|].
  assert (0 <= u * (u * y)) by (apply Rmult_le_pos; [lra|]; apply Rmult_le_pos; lra).
  assert (x <= y * (1 + u)) by lra. nra.
Qed.
Lemma rn_within x : bpow radix2 (2 - emax) <= x -> within u 1 (rn x) x.
Proof.
  intros H. pose proof (bpow_gt_0 radix2 (2 - emax)). apply near_within; [lra|]. apply rn_rel. rewrite Rabs_pos_eq; lra.
Qed.
Lemma rn_ten x : format x -> 0 <= x -> within u 1 (rn (x * 10)) (x * 10).
Proof.
  intros F P. apply near_within; [lra|]. rewrite <- u_half_ulp.
  assert (E : exists m, x * 10 = F2R (Float radix2 m (3 - emax - prec))).
  { destruct (FLT_format_generic radix2 (3 - emax - prec) prec x F) as [[m e] E1 E2 E3]. cbn [Fnum Fexp] in E2, E3.
    exists (m * 10 * 2 ^ (e - (3 - emax - prec)))%Z. rewrite E1. unfold F2R. cbn [Fnum Fexp].
    rewrite !mult_IZR. change 2%Z with (radix_val radix2). rewrite IZR_Zpower by lia.
    replace (IZR m * 10 * bpow radix2 (e - (3 - emax - prec)) * bpow radix2 (3 - emax - prec)) with (IZR m * 10 * (bpow radix2 (e - (3 - emax - prec)) * bpow radix2 (3 - emax - prec))) by ring.
    rewrite <- bpow_plus. replace (e - (3 - emax - prec) + (3 - emax - prec))%Z with e by ring. ring. }
  destruct E as (m & E). rewrite E. apply (relative_error_N_FLT_F2R_emin radix2 (3 - emax - prec) prec Hp (fun x => negb (Z.even x))).
Qed.

(** ** Powers of ten of the table *)
Lemma small_int z : (Z.abs z <= 10 ^ 7)%Z -> is_finite (fint z) = true /\ B2R (fint z) = IZR z.
Proof.
  intros H. apply fint_exact. apply Z.le_trans with (1 := H). apply Z.le_trans with (2 ^ 24)%Z; [vm_compute; discriminate|].
  apply Z.pow_le_mono_r; lia.
Qed.
Lemma small_format z : (Z.abs z <= 10 ^ 7)%Z -> format (IZR z).
Proof.
  intros H. rewrite <- (proj2 (small_int z H)). apply num_format.
Qed.
Lemma bpow_tens : bpow radix2 (-24) <= tens (-7) /\ tens 7 <= bpow radix2 24.
Proof.
  split.
  - change (-7)%Z with (- (7))%Z. rewrite tens_inv, tens_int by lia. change (bpow radix2 (-24)) with (/ 16777216). change (10 ^ 7)%Z with 10000000%Z.
    apply Rinv_le; lra.
  - rewrite tens_int by lia. change (bpow radix2 24) with 16777216. change (10 ^ 7)%Z with 10000000%Z. lra.
Qed.
Lemma tens_bounds e : (-7 <= e <= 7)%Z -> bpow radix2 (-24) <= tens e <= bpow radix2 24.
Proof.
  intros H. destruct bpow_tens as (A & B). split; [apply Rle_trans with (1 := A)|apply Rle_trans with (2 := B)]; apply tens_le; lia.
Qed.
Lemma rn_tens_bounds e : (-7 <= e <= 7)%Z -> bpow radix2 (-24) <= rn (tens e) <= bpow radix2 24.
Proof.
  intros H. destruct (tens_bounds e H). pose proof emax_large. split; [apply rn_ge_format|apply rn_le_format]; auto; apply big_format; auto; lia.
Qed.
Lemma pow_val e : (-7 <= e <= 6)%Z -> is_finite (fpow10 e) = true /\ B2R (fpow10 e) = rn (tens e).
Proof.
  intros H. unfold RndModel.fpow10. rewrite (proj2 (Z.leb_le (-7) e)), (proj2 (Z.leb_le e 7)) by lia. cbn [andb]. unfold ftable.
  destruct (Z.ltb_spec e 0) as [N|N].
  - destruct (small_int (10 ^ (- e))) as (F & V).
    { rewrite Z.abs_eq by (apply Z.pow_nonneg; lia). apply Z.pow_le_mono_r; lia. }
    rewrite <- tens_int in V by lia. destruct (fone_val prec emax Hp Hm) as (F1 & V1). pose proof (tens_pos (- e)) as P.
    assert (E : B2R fone / B2R (fint (10 ^ - e)) = tens e).
    { rewrite V1, V. rewrite <- (Z.opp_involutive e) at 2. rewrite (tens_inv (- e)). unfold Rdiv. ring. }
    destruct (fdiv_small prec emax Hp Hm fone (fint (10 ^ - e)) F1) as (Fd & Vd).
    + rewrite V. lra.
    + rewrite E. destruct (rn_tens_bounds e) as (A & B); [lia|]. pose proof (bpow_gt_0 radix2 (-24)). rewrite Rabs_pos_eq by lra.
      apply Rle_lt_trans with (1 := B). apply bpow_lt, emax_large.
    + split; auto. rewrite Vd, E. reflexivity.
  - replace (Z.min e 6) with e by lia. destruct (small_int (10 ^ e)) as (F & V).
    { rewrite Z.abs_eq by (apply Z.pow_nonneg; lia). apply Z.pow_le_mono_r; lia. }
    split; auto. rewrite V, <- tens_int by lia. symmetry. apply rn_id. rewrite tens_int by lia. apply small_format.
    rewrite Z.abs_eq by (apply Z.pow_nonneg; lia). apply Z.pow_le_mono_r; lia.
Qed.
Lemma normal_le k x : (-100 <= k)%Z -> (102 <= emax)%Z -> bpow radix2 k <= x -> bpow radix2 (2 - emax) <= x.
Proof. intros A B H. apply Rle_trans with (2 := H). apply bpow_le. lia. Qed.
Lemma tens_within e : (102 <= emax)%Z -> (-7 <= e <= 7)%Z -> within u 1 (rn (tens e)) (tens e).
Proof.
  intros E H. apply rn_within. apply normal_le with (-24)%Z; auto; [lia|]. apply tens_bounds, H.
Qed.

(** ** Decimal places *)
Definition scaled (x : R) (dp : Z) (a : R) : Prop := Rabs (a - x * tens dp) <= 3 * u * (x * tens dp) + eta.
Lemma within_1_err x y : 0 <= y -> within u 1 x y -> Rabs (x - y) <= 2 * u * y.
Proof.
  intros P W. destruct u_tiny. assert (0 <= x). { destruct W as (A & _). rewrite pow_1 in A. apply Rle_trans with (2 := A). apply Rmult_le_pos; lra. }
  replace (2 * u * y) with (2 * INR 1 * u * y) by (cbn; ring). apply within_err; auto using u_range. cbn. lra.
Qed.
Lemma scaled_ok x dp : (102 <= emax)%Z -> (-6 <= dp <= 6)%Z -> 0 <= x -> scaled x dp (rn (x * rn (tens dp))).
Proof.
  intros E H P. destruct u_tiny as (U0 & U1). pose proof (tens_bounds dp ltac:(lia)) as (TB & _). pose proof (tens_pos dp) as TP.
  assert (W : Rabs (rn (tens dp) - tens dp) <= u * tens dp).
  { rewrite <- (Rabs_pos_eq (tens dp)) at 3 by lra. apply rn_rel. rewrite Rabs_pos_eq by lra. apply normal_le with (-24)%Z; auto; lia. }
  pose proof (rn_err prec emax Hp (x * rn (tens dp))) as R. set (w := rn (tens dp)) in *.
  assert (V : 0 <= u / (1 + u) <= u).
  { split; [apply Rmult_le_pos; [lra|]; apply Rlt_le, Rinv_0_lt_compat; lra|].
    apply Rmult_le_reg_r with (1 + u); [lra|]. unfold Rdiv. rewrite Rmult_assoc, Rinv_l by lra. nra. }
  set (v := u / (1 + u)) in *. apply Rabs_le_inv in W.
  assert (W1 : Rabs (x * w - x * tens dp) <= u * (x * tens dp)).
  { rewrite <- Rmult_minus_distr_l, Rabs_mult, (Rabs_pos_eq x) by auto. replace (u * (x * tens dp)) with (x * (u * tens dp)) by ring.
    apply Rmult_le_compat_l; auto. apply Rabs_le. lra. }
  assert (WP : 0 <= w) by (destruct (rn_tens_bounds dp ltac:(lia)) as (Q & _); pose proof (bpow_gt_0 radix2 (-24)); unfold w; lra).
  rewrite (Rabs_pos_eq (x * w)) in R by (apply Rmult_le_pos; auto). unfold scaled.
  replace (rn (x * w) - x * tens dp) with ((rn (x * w) - x * w) + (x * w - x * tens dp)) by ring.
  eapply Rle_trans; [apply Rabs_triang|]. assert (XT : 0 <= x * tens dp) by (apply Rmult_le_pos; lra).
  apply Rabs_le_inv in W1 as W2. assert (x * w <= (1 + u) * (x * tens dp)) by lra.
  assert (v * (x * w) <= u * ((1 + u) * (x * tens dp))).
  { apply Rmult_le_compat; try lra. apply Rmult_le_pos; lra. }
  assert (u * ((1 + u) * (x * tens dp)) <= 2 * u * (x * tens dp)).
  { replace (2 * u * (x * tens dp)) with (u * (2 * (x * tens dp))) by ring. apply Rmult_le_compat_l; [lra|]. apply Rmult_le_compat_r; lra. }
  lra.
Qed.
Lemma descaled k dp : (102 <= emax)%Z -> (-7 <= dp <= 7)%Z -> (0 <= k)%Z -> Rabs (rn (IZR k * rn (tens dp)) - IZR k * tens dp) <= 4 * u * (IZR k * tens dp).
Proof.
  intros E H K. destruct u_tiny as (U0 & U1). pose proof (tens_pos dp). destruct (Z.eq_dec k 0) as [->|N].
  - rewrite !Rmult_0_l. unfold nearest. rewrite round_0 by typeclasses eauto. rewrite Rminus_0_r, Rabs_R0. lra.
  - assert (K1 : 1 <= IZR k) by (apply IZR_le; lia). destruct (rn_tens_bounds dp H) as (A & B). pose proof (bpow_gt_0 radix2 (-24)).
    assert (W : within u 2 (rn (IZR k * rn (tens dp))) (IZR k * tens dp)).
    { change 2%nat with (1 + 1)%nat. apply within_trans with (IZR k * rn (tens dp)); auto using u_range.
      - apply rn_within. apply normal_le with (-24)%Z; auto; [lia|]. nra.
      - rewrite (Rmult_comm (IZR k) (rn _)), (Rmult_comm (IZR k)). apply within_scale; [lra|]. apply tens_within; auto. }
    replace (4 * u * (IZR k * tens dp)) with (2 * INR 2 * u * (IZR k * tens dp)) by (cbn; ring).
    apply within_err; auto using u_range.
    + apply rn_pos; auto. apply Rmult_le_pos; lra.
    + apply Rmult_le_pos; lra.
    + cbn. lra.
Qed.
Lemma eta_tiny : eta <= u.
Proof. unfold underflow_unit, unit_roundoff. pose proof emax_large. change (/ 2) with (bpow radix2 (-1)). rewrite <- ?bpow_plus. apply bpow_le. lia. Qed.
End Rnd.
