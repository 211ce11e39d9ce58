From Coq Require Import ZArith Reals Lia Lra.
From Flocq Require Import Core Pff2Flocq Plus_error Mult_error Relative.
From Verif Require CfunProofs.
From Verif Require Import EftModel EftSpec.
Open Scope R_scope.

(** * Formats *)
Lemma choice_sym : forall x : Z, negb (Z.even x) = negb (negb (Z.even (- (x + 1)))).
Proof.
  intros x. rewrite Z.even_opp, Z.even_add. destruct (Z.even x); reflexivity.
Qed.

Section Any.
Variables prec emin : Z.
Hypothesis Hp : (1 < prec)%Z.
Hypothesis He : (emin <= 0)%Z.
Local Notation format := (generic_format radix2 (FLT_exp emin prec)).
Local Notation rn := (rnd prec emin).
Local Notation pow := (bpow radix2).
Local Instance prec_pos : Prec_gt_0 prec.
Proof. unfold Prec_gt_0. lia. Qed.

Lemma fmt_int m e : (Z.abs m <= 2 ^ prec)%Z -> (emin <= e)%Z -> format (IZR m * pow e).
Proof.
  intros Hm Hem. destruct (Z.eq_dec (Z.abs m) (2 ^ prec)) as [E|N].
  - assert (B : format (pow (prec + e))).
    { apply generic_format_bpow. unfold FLT_exp. lia. }
    assert (P : IZR (2 ^ prec) = pow prec) by (rewrite <- IZR_Zpower by lia; reflexivity).
    destruct (Z.abs_eq_or_opp m) as [A|A]; rewrite A in E.
    + rewrite E, P, <- bpow_plus. exact B.
    + replace m with (- 2 ^ prec)%Z by lia. rewrite opp_IZR, P, <- Ropp_mult_distr_l, <- bpow_plus.
      apply generic_format_opp. exact B.
  - apply generic_format_FLT. exists (Float radix2 m e); [reflexivity| |exact Hem].
    cbn [Fnum]. change (radix_val radix2) with 2%Z. lia.
Qed.

Lemma rn_id x : format x -> rn x = x.
Proof. intros H. unfold rnd. apply round_generic; [typeclasses eauto|exact H]. Qed.
Lemma rn_format x : format (rn x).
Proof. unfold rnd. apply generic_format_round; typeclasses eauto. Qed.
Lemma rn_opp x : rn (- x) = - rn x.
Proof. unfold rnd. apply round_NE_opp. Qed.

Lemma format_int x : format x -> exists m, x = IZR m * ulp radix2 (FLT_exp emin prec) x
   /\ Rabs x < pow prec * ulp radix2 (FLT_exp emin prec) x
   /\ exists e, (emin <= e)%Z /\ ulp radix2 (FLT_exp emin prec) x = pow e.
Proof.
  intros Fx. destruct (Req_dec x 0) as [->|Nx].
  - exists 0%Z. rewrite ulp_FLT_0 by exact prec_pos.
    split; [ring|]. split.
    + rewrite Rabs_R0. apply Rmult_lt_0_compat; apply bpow_gt_0.
    + exists emin. split; [lia|reflexivity].
  - rewrite ulp_neq_0 by exact Nx. exists (Ztrunc (scaled_mantissa radix2 (FLT_exp emin prec) x)).
    split; [exact Fx|]. split.
    + rewrite <- bpow_plus. apply Rlt_le_trans with (pow (mag radix2 x)); [apply bpow_mag_gt|].
      apply bpow_le. unfold cexp, FLT_exp. lia.
    + exists (cexp radix2 (FLT_exp emin prec) x). split; [unfold cexp, FLT_exp; lia|reflexivity].
Qed.

Theorem addX2_exact x y : format x -> format y ->
  val0 (addX2 rn x y) = rn (x + y) /\ val0 (addX2 rn x y) + val1 (addX2 rn x y) = x + y.
Proof.
  intros Fx Fy. split; [reflexivity|].
  exact (TwoSum_correct emin prec (fun z => negb (Z.even z)) Hp He choice_sym x y Fx Fy).
Qed.

Theorem addSmallX2_big x y : format x -> format y -> Rabs y <= Rabs x ->
  val0 (addSmallX2 rn x y) + val1 (addSmallX2 rn x y) = x + y.
Proof.
  intros Fx Fy H.
  pose proof (Fast2Sum_correct emin prec (fun z => negb (Z.even z)) Hp He choice_sym x y Fx Fy H) as E.
  cbn [addSmallX2 val0 val1]. cbv zeta in E. etransitivity; [|exact E]. f_equal.
  unfold rnd. f_equal. unfold Rminus. f_equal.
  replace (x + - round radix2 (FLT_exp emin prec) ZnearestE (x + y))
    with (- (round radix2 (FLT_exp emin prec) ZnearestE (x + y) + - x)) by ring.
  symmetry. apply (round_NE_opp radix2 (FLT_exp emin prec)).
Qed.

Theorem addSmallX2_mult x y : format x -> format y ->
  (exists n, x = IZR n * ulp radix2 (FLT_exp emin prec) y) ->
  val0 (addSmallX2 rn x y) + val1 (addSmallX2 rn x y) = x + y.
Proof.
  intros Fx Fy (mx & Hx). destruct (Rle_or_lt (Rabs y) (Rabs x)) as [L|L]; [exact (addSmallX2_big x y Fx Fy L)|].
  destruct (format_int y Fy) as (my & Hy & Hb & e & Hem & Hu). rewrite Hu in *.
  assert (Pe : 0 < pow e) by apply bpow_gt_0.
  assert (Bmy : (Z.abs my < 2 ^ prec)%Z).
  { apply lt_IZR. rewrite abs_IZR. rewrite <- (IZR_Zpower radix2 prec) in Hb by lia. change (Zpower radix2 prec) with (2 ^ prec)%Z in Hb.
    apply Rmult_lt_reg_r with (pow e); [exact Pe|].
    apply Rle_lt_trans with (Rabs y); [|exact Hb]. rewrite Hy at 1. rewrite Rabs_mult, (Rabs_pos_eq (pow e)) by lra. lra. }
  assert (Bmx : (Z.abs mx < Z.abs my)%Z).
  { apply lt_IZR. rewrite !abs_IZR. apply Rmult_lt_reg_r with (pow e); [exact Pe|].
    rewrite <- (Rabs_pos_eq (pow e)) at 1 2 by lra. rewrite <- !Rabs_mult. rewrite Hx, Hy in L. exact L. }
  assert (Hs : x + y = IZR (mx + my) * pow e) by (rewrite Hx at 1; rewrite Hy at 1; rewrite plus_IZR; ring).
  destruct (round_repr_same_exp radix2 (FLT_exp emin prec) ZnearestE (mx + my) e) as (ms & Hms).
  assert (Hms' : rn (x + y) = IZR ms * pow e) by (rewrite Hs; exact Hms). clear Hms.
  assert (Err : (Z.abs (ms - (mx + my)) <= 1)%Z).
  { apply le_IZR. rewrite abs_IZR, minus_IZR. apply Rmult_le_reg_r with (pow e); [exact Pe|].
    rewrite <- (Rabs_pos_eq (pow e)) at 1 by lra. rewrite <- Rabs_mult, Rmult_minus_distr_r, <- Hms', <- Hs.
    apply Rle_trans with (/ 2 * ulp radix2 (FLT_exp emin prec) (x + y)).
    - unfold rnd. apply error_le_half_ulp. typeclasses eauto.
    - destruct (Req_dec (x + y) 0) as [Z|NZ].
      + rewrite Z, ulp_FLT_0 by exact prec_pos. pose proof (bpow_le radix2 emin e Hem). lra.
      + rewrite ulp_neq_0 by exact NZ.
        assert (C : (cexp radix2 (FLT_exp emin prec) (x + y) <= e + 1)%Z).
        { unfold cexp, FLT_exp. assert (mag radix2 (x + y) <= prec + 1 + e)%Z; [|lia].
          apply mag_le_bpow; [exact NZ|]. rewrite Hs, Rabs_mult, (Rabs_pos_eq (pow e)) by lra.
          rewrite bpow_plus. apply Rmult_lt_compat_r; [exact Pe|]. rewrite <- abs_IZR, <- (IZR_Zpower radix2) by lia.
          apply IZR_lt. change (Zpower radix2 (prec + 1)) with (2 ^ (prec + 1))%Z. rewrite Z.pow_add_r by lia. lia. }
        apply (bpow_le radix2) in C. rewrite bpow_plus in C. change (pow 1) with 2 in C. lra. }
  cbn [addSmallX2 val0 val1]. rewrite Hms'.
  assert (E1 : rn (IZR ms * pow e - x) = IZR (ms - mx) * pow e).
  { replace (IZR ms * pow e - x) with (IZR (ms - mx) * pow e) by (rewrite Hx, minus_IZR; ring).
    apply rn_id. apply fmt_int; lia. }
  rewrite E1.
  assert (E2 : rn (y - IZR (ms - mx) * pow e) = IZR (mx + my - ms) * pow e).
  { replace (y - IZR (ms - mx) * pow e) with (IZR (mx + my - ms) * pow e)
      by (rewrite Hy at 1; rewrite !minus_IZR, plus_IZR; ring).
    apply rn_id. apply fmt_int; [|lia]. assert (2 ^ 1 <= 2 ^ prec)%Z by (apply Z.pow_le_mono_r; lia). lia. }
  rewrite E2, Hs, <- Rmult_plus_distr_r, <- plus_IZR. f_equal. f_equal. lia.
Qed.

Lemma addSmallX2_zero y : format y -> val0 (addSmallX2 rn 0 y) + val1 (addSmallX2 rn 0 y) = 0 + y.
Proof.
  intros Fy. apply addSmallX2_mult; [apply generic_format_0|exact Fy|]. exists 0%Z. ring.
Qed.

Lemma rn_plus_error x y : format x -> format y -> Rabs (rn (x + y) - (x + y)) <= pow (- prec) * Rabs (x + y).
Proof.
  intros Fx Fy. destruct (FLT_plus_error_N_ex radix2 emin prec (fun z => negb (Z.even z)) x y Fx Fy) as (eps & Heps & E).
  unfold rnd. change ZnearestE with (Znearest (fun z => negb (Z.even z))). rewrite E.
  replace ((x + y) * (1 + eps) - (x + y)) with (eps * (x + y)) by ring. rewrite Rabs_mult.
  apply Rmult_le_compat_r; [apply Rabs_pos|].
  apply Rle_trans with (1 := Heps). apply Rle_trans with (1 := u_rod1pu_ro_le_u_ro radix2 prec).
  unfold u_ro. replace (/ 2) with (pow (-1)) by reflexivity. rewrite <- bpow_plus. apply bpow_le. lia.
Qed.

Lemma rn_abs_le x e : (emin <= e)%Z -> Rabs x <= pow e -> Rabs (rn x) <= pow e.
Proof.
  intros Hem H. unfold rnd. apply abs_round_le_generic; try typeclasses eauto.
  - apply generic_format_bpow. unfold FLT_exp. lia.
  - exact H.
Qed.
End Any.

(** * Squares in binary64 *)
#[local] Instance prec53 : Prec_gt_0 53.
Proof. reflexivity. Qed.
#[local] Instance prec24 : Prec_gt_0 24.
Proof. reflexivity. Qed.
Local Notation pow := (bpow radix2).
Local Notation format64 := (generic_format radix2 (FLT_exp (-1074) 53)).

Lemma fmt64 m e : (Z.abs m <= 2 ^ 53)%Z -> (-1074 <= e)%Z -> format64 (IZR m * pow e).
Proof. intros. apply fmt_int; lia. Qed.
Lemma id64 m e x : x = IZR m * pow e -> (Z.abs m <= 2 ^ 53)%Z -> (-1074 <= e)%Z -> rnd64 x = IZR m * pow e.
Proof. intros -> Hm Hem. unfold rnd64. apply rn_id, fmt64; assumption. Qed.

Lemma pow_nat_mult e k : (0 <= k)%Z -> pow (e + k) = IZR (2 ^ k) * pow e.
Proof. intros Hk. rewrite bpow_plus, Rmult_comm. f_equal. rewrite <- (IZR_Zpower radix2) by exact Hk. reflexivity. Qed.

(** The square of a number of 53 bits, rounded. *)
Lemma square_rounded M e : (2 ^ 52 <= Z.abs M < 2 ^ 53)%Z -> (-1074 <= 2 * e)%Z ->
  exists P, rnd64 (IZR M * pow e * (IZR M * pow e)) = IZR (P * 2 ^ 52) * pow (2 * e)
  /\ (Z.abs (P * 2 ^ 52 - M * M) <= 2 ^ 52)%Z.
Proof.
  intros HM He. set (x2 := IZR M * pow e * (IZR M * pow e)).
  assert (Ex : x2 = IZR (M * M) * pow (2 * e)).
  { unfold x2. rewrite mult_IZR. replace (2 * e)%Z with (e + e)%Z by lia. rewrite bpow_plus. ring. }
  assert (HMM : (2 ^ 104 <= M * M < 2 ^ 106)%Z) by (split; nia).
  assert (Pe : 0 < pow (2 * e)) by apply bpow_gt_0.
  assert (Nx : x2 <> 0).
  { rewrite Ex. apply Rgt_not_eq. apply Rmult_lt_0_compat; [|exact Pe]. apply IZR_lt. lia. }
  assert (Lo : (105 + 2 * e <= mag radix2 x2)%Z).
  { apply mag_ge_bpow. replace (105 + 2 * e - 1)%Z with (2 * e + 104)%Z by lia. rewrite pow_nat_mult by lia.
    rewrite Ex, Rabs_mult, (Rabs_pos_eq (pow (2 * e))) by lra. apply Rmult_le_compat_r; [lra|].
    rewrite <- abs_IZR. apply IZR_le. lia. }
  assert (Hi : (mag radix2 x2 <= 106 + 2 * e)%Z).
  { apply mag_le_bpow; [exact Nx|]. replace (106 + 2 * e)%Z with (2 * e + 106)%Z by lia. rewrite pow_nat_mult by lia.
    rewrite Ex, Rabs_mult, (Rabs_pos_eq (pow (2 * e))) by lra. apply Rmult_lt_compat_r; [lra|].
    rewrite <- abs_IZR. apply IZR_lt. lia. }
  set (c := cexp radix2 (FLT_exp (-1074) 53) x2).
  assert (Hc : (2 * e + 52 <= c <= 2 * e + 53)%Z) by (unfold c, cexp, FLT_exp; lia).
  set (n := ZnearestE (scaled_mantissa radix2 (FLT_exp (-1074) 53) x2)).
  exists (n * 2 ^ (c - (2 * e + 52)))%Z.
  assert (Er : rnd64 x2 = IZR (n * 2 ^ (c - (2 * e + 52)) * 2 ^ 52) * pow (2 * e)).
  { unfold rnd64, rnd, round, F2R. cbn [Fnum Fexp]. fold n c.
    replace (n * 2 ^ (c - (2 * e + 52)) * 2 ^ 52)%Z with (n * 2 ^ (c - 2 * e))%Z.
    - rewrite mult_IZR, Rmult_assoc. f_equal. rewrite <- pow_nat_mult by lia. f_equal. lia.
    - rewrite <- Z.mul_assoc, <- Z.pow_add_r by lia. f_equal. f_equal. lia. }
  split; [exact Er|].
  assert (Err : Rabs (rnd64 x2 - x2) <= / 2 * ulp radix2 (FLT_exp (-1074) 53) x2)
    by (unfold rnd64, rnd; apply error_le_half_ulp; typeclasses eauto).
  rewrite ulp_neq_0 in Err by exact Nx. fold c in Err.
  apply le_IZR. rewrite abs_IZR, minus_IZR. apply Rmult_le_reg_r with (pow (2 * e)); [exact Pe|].
  rewrite <- (Rabs_pos_eq (pow (2 * e))) at 1 by lra. rewrite <- Rabs_mult, Rmult_minus_distr_r, <- Er, <- Ex.
  rewrite <- (pow_nat_mult (2 * e) 52) by lia.
  apply Rle_trans with (1 := Err). change (/ 2) with (pow (-1)). rewrite <- bpow_plus. apply bpow_le. lia.
Qed.

(** xHigh * xHigh - prod0 and the following sums are all exact. *)
Lemma split_exact M k e : (2 ^ 52 <= Z.abs M < 2 ^ 53)%Z -> (Z.abs (M - 2 ^ 27 * k) <= 2 ^ 26)%Z -> (-1074 <= 2 * e)%Z ->
  let x := IZR M * pow e in
  sqrError_split rnd64 (IZR (2 ^ 27 * k) * pow e) x (rnd64 (x * x)) = x * x - rnd64 (x * x).
Proof.
  intros HM HL He x. destruct (square_rounded M e HM He) as (P & EP & BP). fold x in EP. rewrite EP.
  set (L := (M - 2 ^ 27 * k)%Z) in *.
  assert (Bk : (Z.abs k <= 2 ^ 26)%Z) by lia.
  assert (H2e : pow (2 * e) = pow e * pow e) by (replace (2 * e)%Z with (e + e)%Z by lia; apply bpow_plus).
  assert (He2 : (-537 <= e)%Z) by lia.
  unfold sqrError_split.
  rewrite (id64 L e (x - IZR (2 ^ 27 * k) * pow e)); [|unfold x, L; rewrite !minus_IZR; ring|lia|lia].
  rewrite (id64 (k * k) (2 * e + 54) (IZR (2 ^ 27 * k) * pow e * (IZR (2 ^ 27 * k) * pow e))).
  2:{ rewrite pow_nat_mult, H2e by lia. rewrite !mult_IZR. change (IZR (2 ^ 54)) with (IZR (2 ^ 27 * 2 ^ 27)). rewrite mult_IZR. ring. }
  2:{ nia. }
  2:{ lia. }
  rewrite (id64 (4 * (k * k) - P) (2 * e + 52) (IZR (k * k) * pow (2 * e + 54) - IZR (P * 2 ^ 52) * pow (2 * e))).
  2:{ rewrite !pow_nat_mult by lia. change (IZR (2 ^ 54)) with (IZR (4 * 2 ^ 52)). rewrite minus_IZR, !mult_IZR. ring. }
  2:{ assert (Z.abs (2 ^ 52 * (4 * (k * k) - P)) <= 2 ^ 81)%Z; [|lia].
      replace (2 ^ 52 * (4 * (k * k) - P))%Z with ((2 ^ 27 * k - M) * (2 ^ 27 * k + M) + (M * M - P * 2 ^ 52))%Z by ring.
      assert (Z.abs ((2 ^ 27 * k - M) * (2 ^ 27 * k + M)) <= 2 ^ 26 * 2 ^ 54)%Z; [|lia].
      rewrite Z.abs_mul. apply Z.mul_le_mono_nonneg; lia. }
  2:{ lia. }
  rewrite (id64 k (e + 28) (2 * (IZR (2 ^ 27 * k) * pow e))).
  2:{ rewrite pow_nat_mult by lia. change (IZR (2 ^ 28)) with (IZR (2 * 2 ^ 27)). rewrite !mult_IZR. ring. }
  2:{ lia. }
  2:{ lia. }
  rewrite (id64 (k * L) (2 * e + 28) (IZR k * pow (e + 28) * (IZR L * pow e))).
  2:{ rewrite !pow_nat_mult, H2e by lia. rewrite mult_IZR. ring. }
  2:{ rewrite Z.abs_mul. nia. }
  2:{ lia. }
  set (s := ((4 * (k * k) - P) * 2 ^ 24 + k * L)%Z).
  assert (Es : (2 ^ 28 * s = M * M - L * L - P * 2 ^ 52)%Z) by (unfold s, L; ring).
  assert (BL : (0 <= L * L <= 2 ^ 52)%Z) by nia.
  rewrite (id64 s (2 * e + 28) (IZR (4 * (k * k) - P) * pow (2 * e + 52) + IZR (k * L) * pow (2 * e + 28))).
  2:{ rewrite !pow_nat_mult by lia. unfold s. rewrite plus_IZR. rewrite (mult_IZR (4 * (k * k) - P)).
      change (IZR (2 ^ 52)) with (IZR (2 ^ 24 * 2 ^ 28)). rewrite (mult_IZR (2 ^ 24)). ring. }
  2:{ lia. }
  2:{ lia. }
  rewrite (id64 (L * L) (2 * e) (IZR L * pow e * (IZR L * pow e))); [|rewrite H2e, mult_IZR; ring|lia|lia].
  rewrite (id64 (M * M - P * 2 ^ 52) (2 * e) (IZR s * pow (2 * e + 28) + IZR (L * L) * pow (2 * e))).
  - unfold x. rewrite H2e, minus_IZR, (mult_IZR M M). ring.
  - rewrite pow_nat_mult by lia. rewrite <- Rmult_assoc, <- mult_IZR, <- Rmult_plus_distr_r, <- plus_IZR.
    f_equal. f_equal. lia.
  - lia.
  - lia.
Qed.

(** * highHalf on the bits *)
Lemma mask_div a : (0 <= a < 2 ^ 64)%Z -> Z.land a 0xfffffffff8000000 = (a / 2 ^ 27 * 2 ^ 27)%Z.
Proof.
  intros Ha. change 0xfffffffff8000000%Z with (Z.shiftl (Z.ones 37) 27).
  assert (E : Z.land a (Z.shiftl (Z.ones 37) 27) = Z.shiftl (Z.land (Z.shiftr a 27) (Z.ones 37)) 27).
  { apply Z.bits_inj'. intros n Hn. rewrite Z.land_spec.
    destruct (Z.lt_ge_cases n 27) as [L|L].
    - rewrite !Z.shiftl_spec_low by lia. apply Bool.andb_false_r.
    - rewrite !Z.shiftl_spec, Z.land_spec, Z.shiftr_spec by lia. f_equal. f_equal. lia. }
  rewrite E, Z.land_ones, Z.shiftl_mul_pow2, Z.shiftr_div_pow2 by lia.
  rewrite Z.mod_small; [reflexivity|]. split; [apply Z.div_pos; lia|]. apply Z.div_lt_upper_bound; lia.
Qed.

(** The magnitude bits of highHalf: rounded to a multiple of 2^27. *)
Definition high_mag (m : Z) : Z := ((m + 0x3ffffff) / 2 ^ 27 * 2 ^ 27)%Z.
Lemma highHalf_split b : (0 <= b < 2 ^ 64)%Z -> (b mod 2 ^ 63 / 2 ^ 52 < 2047)%Z ->
  highHalf b = if (b <? 2 ^ 63)%Z then high_mag b else (2 ^ 63 + high_mag (b - 2 ^ 63))%Z.
Proof.
  intros Hb Hf. unfold highHalf, high_mag.
  destruct (Z.ltb_spec b (2 ^ 63)) as [L|L].
  - rewrite Z.mod_small in Hf by lia. assert (b < 2047 * 2 ^ 52)%Z by (apply Z.div_lt_upper_bound in Hf || (assert (b / 2 ^ 52 * 2 ^ 52 <= b)%Z by (pose proof (Z.div_mod b (2 ^ 52)); pose proof (Z.mod_pos_bound b (2 ^ 52)); lia); pose proof (Z.mod_pos_bound b (2 ^ 52)); pose proof (Z.div_mod b (2 ^ 52)); lia); lia).
    rewrite Z.mod_small by lia. apply mask_div. lia.
  - assert (Em : (b mod 2 ^ 63 = b - 2 ^ 63)%Z).
    { symmetry. apply Z.mod_unique with 1%Z; lia. }
    rewrite Em in Hf.
    assert (b - 2 ^ 63 < 2047 * 2 ^ 52)%Z
      by (pose proof (Z.mod_pos_bound (b - 2 ^ 63) (2 ^ 52)); pose proof (Z.div_mod (b - 2 ^ 63) (2 ^ 52)); lia).
    rewrite Z.mod_small by lia. rewrite mask_div by lia.
    replace (b + 67108863)%Z with ((b - 2 ^ 63 + 67108863) + 2 ^ 36 * 2 ^ 27)%Z by (change (2 ^ 36 * 2 ^ 27)%Z with (2 ^ 63)%Z; lia).
    rewrite Z.div_add by lia. rewrite Z.mul_add_distr_r. change (2 ^ 36 * 2 ^ 27)%Z with (2 ^ 63)%Z. lia.
Qed.

Lemma high_mag_bounds m : (0 <= m)%Z -> (0 <= high_mag m /\ - 2 ^ 26 <= high_mag m - m < 2 ^ 26 /\ high_mag m mod 2 ^ 27 = 0)%Z.
Proof.
  intros Hm. unfold high_mag. pose proof (Z.div_mod (m + 67108863) (2 ^ 27)) as D.
  pose proof (Z.mod_pos_bound (m + 67108863) (2 ^ 27)) as B. pose proof (Z.div_pos (m + 67108863) (2 ^ 27)) as Q.
  split; [lia|]. split; [lia|]. apply Z.mod_mul. lia.
Qed.

(** The value read with exponent field E, with the fraction allowed to be 2^52. *)
Lemma magnitude_carry E f : (1 <= E)%Z -> (0 <= f <= 2 ^ 52)%Z ->
  magnitude (E * 2 ^ 52 + f) = IZR (2 ^ 52 + f) * pow (E - 1075).
Proof.
  intros HE Hf. unfold magnitude. destruct (Z.eq_dec f (2 ^ 52)) as [->|N].
  - replace (E * 2 ^ 52 + 2 ^ 52)%Z with ((E + 1) * 2 ^ 52)%Z by ring.
    rewrite Z.div_mul, Z.mod_mul by lia. destruct (Z.eqb_spec (E + 1) 0); [lia|].
    replace (E + 1 - 1075)%Z with (E - 1075 + 1)%Z by lia. rewrite pow_nat_mult by lia.
    change (2 ^ 52 + 2 ^ 52)%Z with (2 ^ 52 * 2)%Z. rewrite Z.add_0_r, mult_IZR. change (IZR (2 ^ 1)) with 2. ring.
  - rewrite Z.add_comm, Z.div_add, Z.mod_add, Z.div_small, Z.mod_small by lia. rewrite Z.add_0_l.
    destruct (Z.eqb_spec E 0); [lia|]. reflexivity.
Qed.

Lemma mag_parts m : (0 <= m)%Z -> exists E f, m = (E * 2 ^ 52 + f)%Z /\ (0 <= f < 2 ^ 52)%Z /\ (0 <= E)%Z.
Proof.
  intros Hm. exists (m / 2 ^ 52)%Z, (m mod 2 ^ 52)%Z.
  pose proof (Z.div_mod m (2 ^ 52)). pose proof (Z.mod_pos_bound m (2 ^ 52)). pose proof (Z.div_pos m (2 ^ 52)). lia.
Qed.

(** A number that is not tiny: 53 bits, and the high half has the upper 26 of them, rounded. *)
Lemma magnitude_high m : (0 <= m)%Z -> pow (-485) <= magnitude m ->
  exists M k e, (2 ^ 52 <= M < 2 ^ 53)%Z /\ (Z.abs (M - 2 ^ 27 * k) <= 2 ^ 26)%Z /\ (-537 <= e)%Z
  /\ magnitude m = IZR M * pow e /\ magnitude (high_mag m) = IZR (2 ^ 27 * k) * pow e.
Proof.
  intros Hm Hbig. destruct (mag_parts m Hm) as (E & f & -> & Hf & HE).
  destruct (Z.eq_dec E 0) as [->|NE].
  { exfalso. unfold magnitude in Hbig. rewrite Z.mul_0_l, Z.add_0_l, Z.div_small, Z.mod_small in Hbig by lia.
    cbn [Z.eqb] in Hbig. apply (Rle_not_lt _ _ Hbig).
    apply Rlt_le_trans with (IZR (2 ^ 52) * pow (-1074)).
    - apply Rmult_lt_compat_r; [apply bpow_gt_0|]. apply IZR_lt. lia.
    - rewrite <- pow_nat_mult by lia. apply bpow_le. lia. }
  assert (HE1 : (1 <= E)%Z) by lia. rewrite magnitude_carry in Hbig |- * by lia.
  destruct (high_mag_bounds (E * 2 ^ 52 + f) Hm) as (H0 & H1 & H2).
  set (h := high_mag (E * 2 ^ 52 + f)) in *.
  assert (Dh : exists q, h = (2 ^ 27 * q)%Z).
  { exists (h / 2 ^ 27)%Z. apply Z.div_exact; [lia|exact H2]. }
  destruct Dh as (q & Eq).
  exists (2 ^ 52 + f)%Z, (q - E * 2 ^ 25 + 2 ^ 25)%Z, (E - 1075)%Z.
  split; [lia|]. split; [lia|]. split; [|split; [reflexivity|]].
  - assert (pow (-485) < pow (E - 1075 + 53)); [|apply lt_bpow in H; lia].
    apply Rle_lt_trans with (1 := Hbig). rewrite pow_nat_mult by lia. apply Rmult_lt_compat_r; [apply bpow_gt_0|]. apply IZR_lt. lia.
  - replace h with (E * 2 ^ 52 + (h - E * 2 ^ 52))%Z by ring. rewrite magnitude_carry; [|lia|].
    + f_equal. f_equal. lia.
    + assert (h - E * 2 ^ 52 = 2 ^ 27 * (q - E * 2 ^ 25))%Z by lia. split; [|lia].
      assert (- 2 ^ 26 <= 2 ^ 27 * (q - E * 2 ^ 25))%Z by lia. lia.
Qed.

Lemma magnitude_nonneg m : (0 <= m)%Z -> 0 <= magnitude m.
Proof.
  intros Hm. unfold magnitude. pose proof (Z.mod_pos_bound m (2 ^ 52)).
  destruct (_ =? _)%Z; apply Rmult_le_pos; try apply bpow_ge_0; apply IZR_le; lia.
Qed.

Lemma high_lt m : (0 <= m < 2047 * 2 ^ 52)%Z -> (high_mag m < 2 ^ 63)%Z.
Proof. intros Hm. destruct (high_mag_bounds m ltac:(lia)) as (_ & H & _). lia. Qed.

Lemma finite_mag b : bits64 b -> (b < 2 ^ 63 -> b < 2047 * 2 ^ 52)%Z /\ (2 ^ 63 <= b -> b - 2 ^ 63 < 2047 * 2 ^ 52)%Z.
Proof.
  intros (Hb & Hf). split; intros L.
  - rewrite Z.mod_small in Hf by lia. pose proof (Z.div_mod b (2 ^ 52)). pose proof (Z.mod_pos_bound b (2 ^ 52)). lia.
  - assert (Em : (b mod 2 ^ 63 = b - 2 ^ 63)%Z) by (symmetry; apply Z.mod_unique with 1%Z; lia).
    rewrite Em in Hf. pose proof (Z.div_mod (b - 2 ^ 63) (2 ^ 52)). pose proof (Z.mod_pos_bound (b - 2 ^ 63) (2 ^ 52)). lia.
Qed.

(** The two numbers as signed integers times one power of two. *)
Lemma val64_high b : bits64 b -> pow (-485) <= Rabs (val64 b) ->
  exists M k e, (2 ^ 52 <= Z.abs M < 2 ^ 53)%Z /\ (Z.abs (M - 2 ^ 27 * k) <= 2 ^ 26)%Z /\ (-537 <= e)%Z
  /\ val64 b = IZR M * pow e /\ val64 (highHalf b) = IZR (2 ^ 27 * k) * pow e.
Proof.
  intros Hb Hbig. destruct (finite_mag b Hb) as (F1 & F2). rewrite (highHalf_split b (proj1 Hb) (proj2 Hb)).
  unfold val64 in Hbig |- *. destruct (Z.ltb_spec b (2 ^ 63)) as [L|L].
  - rewrite Rabs_pos_eq in Hbig by (apply magnitude_nonneg; destruct Hb; lia).
    destruct (magnitude_high b ltac:(destruct Hb; lia) Hbig) as (M & k & e & HM & HL & He & E1 & E2).
    exists M, k, e. pose proof (high_lt b ltac:(destruct Hb; lia)) as Hh.
    destruct (Z.ltb_spec (high_mag b) (2 ^ 63)); [|lia]. repeat split; try lia; assumption.
  - rewrite Rabs_Ropp, Rabs_pos_eq in Hbig by (apply magnitude_nonneg; lia).
    destruct (magnitude_high (b - 2 ^ 63) ltac:(lia) Hbig) as (M & k & e & HM & HL & He & E1 & E2).
    exists (- M)%Z, (- k)%Z, e. destruct (high_mag_bounds (b - 2 ^ 63) ltac:(lia)) as (H0 & _ & _).
    destruct (Z.ltb_spec (2 ^ 63 + high_mag (b - 2 ^ 63)) (2 ^ 63)); [lia|].
    replace (2 ^ 63 + high_mag (b - 2 ^ 63) - 2 ^ 63)%Z with (high_mag (b - 2 ^ 63)) by lia.
    rewrite E1, E2. replace (2 ^ 27 * - k)%Z with (- (2 ^ 27 * k))%Z by ring. rewrite !opp_IZR.
    repeat split; try lia; ring.
Qed.

Lemma magnitude_zero m : (0 <= m)%Z -> magnitude m = 0 -> m = 0%Z.
Proof.
  intros Hm H. destruct (mag_parts m Hm) as (E & f & -> & Hf & HE). unfold magnitude in H.
  rewrite Z.add_comm, Z.div_add, Z.mod_add, Z.div_small, Z.mod_small, Z.add_0_l in H by lia.
  destruct (Z.eqb_spec E 0) as [->|NE].
  - apply Rmult_integral in H. destruct H as [H|H].
    + apply eq_IZR in H. lia.
    + pose proof (bpow_gt_0 radix2 (-1074)). lra.
  - apply Rmult_integral in H. destruct H as [H|H].
    + apply eq_IZR in H. lia.
    + pose proof (bpow_gt_0 radix2 (E - 1075)). lra.
Qed.

Lemma val64_zero b : bits64 b -> val64 b = 0 -> val64 (highHalf b) = 0.
Proof.
  intros Hb H. rewrite (highHalf_split b (proj1 Hb) (proj2 Hb)). unfold val64 in H.
  destruct (Z.ltb_spec b (2 ^ 63)) as [L|L].
  - apply magnitude_zero in H; [|destruct Hb; lia]. subst b. rewrite <- (Rmult_0_l (pow (-1074))). reflexivity.
  - assert (M : magnitude (b - 2 ^ 63) = 0) by lra. apply magnitude_zero in M; [|lia]. rewrite M.
    transitivity (- (0 * pow (-1074))); [reflexivity|ring].
Qed.

Lemma magnitude_format m : (0 <= m)%Z -> format64 (magnitude m).
Proof.
  intros Hm. destruct (mag_parts m Hm) as (E & f & -> & Hf & HE). unfold magnitude.
  rewrite Z.add_comm, Z.div_add, Z.mod_add, Z.div_small, Z.mod_small, Z.add_0_l by lia.
  destruct (Z.eqb_spec E 0); apply fmt64; lia.
Qed.
Lemma val64_format b : (0 <= b)%Z -> format64 (val64 b).
Proof.
  intros Hb. unfold val64. destruct (Z.ltb_spec b (2 ^ 63)).
  - apply magnitude_format. exact Hb.
  - apply generic_format_opp, magnitude_format. lia.
Qed.

(** ** sqrX2 *)
Lemma rnd64_0 : rnd64 0 = 0.
Proof. unfold rnd64. apply rn_id, generic_format_0. Qed.

Theorem sqrX2_split_exact b : bits64 b -> val64 b = 0 \/ pow (-485) <= Rabs (val64 b) -> exact_square (val64 b) (sqrX2_split b).
Proof.
  intros Hb [Z|H]; (split; [reflexivity|]).
  - unfold sqrX2_split, sqrError_split. cbn [val0 val1]. rewrite (val64_zero b Hb Z), Z.
    repeat (rewrite Rmult_0_r || rewrite rnd64_0 || rewrite Rminus_0_r || rewrite Rplus_0_r). reflexivity.
  - destruct (val64_high b Hb H) as (M & k & e & HM & HL & He & E1 & E2).
    unfold sqrX2_split. cbn [val0 val1]. rewrite E1, E2. rewrite (split_exact M k e HM HL ltac:(lia)). ring.
Qed.

Theorem sqrX2_fma_exact b : bits64 b -> val64 b = 0 \/ pow (-485) <= Rabs (val64 b) -> exact_square (val64 b) (sqrX2_fma (val64 b)).
Proof.
  intros Hb [Z|H]; (split; [reflexivity|]).
  - unfold sqrX2_fma, sqrError_fma. cbn [val0 val1]. rewrite Z, !Rmult_0_r, !rnd64_0, Rminus_0_r, rnd64_0. ring.
  - destruct (val64_high b Hb H) as (M & k & e & HM & HL & He & E1 & _).
    unfold sqrX2_fma, sqrError_fma. cbn [val0 val1]. rewrite E1.
    destruct (square_rounded M e HM ltac:(lia)) as (P & EP & BP). rewrite EP.
    rewrite (id64 (M * M - P * 2 ^ 52) (2 * e)); [| |lia|lia].
    + rewrite minus_IZR, (mult_IZR M M). replace (2 * e)%Z with (e + e)%Z by lia. rewrite bpow_plus. ring.
    + rewrite minus_IZR, (mult_IZR M M). replace (2 * e)%Z with (e + e)%Z by lia. rewrite bpow_plus. ring.
Qed.

(** ** float *)
Lemma IZR_pow_eq M n e c : IZR M * pow e = IZR n * pow c -> (e <= c)%Z -> (M = n * 2 ^ (c - e))%Z.
Proof.
  intros H Hc. replace c with (e + (c - e))%Z in H by lia. rewrite pow_nat_mult in H by lia.
  rewrite <- Rmult_assoc, <- mult_IZR in H. apply Rmult_eq_reg_r in H; [apply eq_IZR in H; exact H|].
  pose proof (bpow_gt_0 radix2 e). lra.
Qed.

Lemma float_low_bits m : (0 <= m)%Z -> generic_format radix2 (FLT_exp (-149) 24) (magnitude m) -> (m mod 2 ^ 29 = 0)%Z.
Proof.
  intros Hm HF. destruct (mag_parts m Hm) as (E & f & -> & Hf & HE). unfold magnitude in HF.
  rewrite Z.add_comm, Z.div_add, Z.mod_add, Z.div_small, Z.mod_small, Z.add_0_l in HF by lia.
  destruct (Z.eqb_spec E 0) as [->|NE].
  - destruct (Z.eq_dec f 0) as [->|Nf]; [reflexivity|exfalso].
    assert (P : 0 < IZR f * pow (-1074)) by (apply Rmult_lt_0_compat; [apply IZR_lt; lia|apply bpow_gt_0]).
    apply Rlt_not_le in P. apply P. clear P.
    unfold generic_format, F2R in HF. cbn [Fnum Fexp] in HF.
    set (c := Generic_fmt.cexp radix2 (FLT_exp (-149) 24) (IZR f * pow (-1074))) in *.
    assert (Hc : (-149 <= c)%Z) by (unfold c, Generic_fmt.cexp, FLT_exp; lia).
    apply IZR_pow_eq in HF; [|lia].
    assert (2 ^ 60 <= 2 ^ (c - -1074))%Z by (apply Z.pow_le_mono_r; lia).
    set (n := Ztrunc _) in HF. assert (f = 0)%Z; [|lia]. destruct (Z.eq_dec n 0) as [N0|N0]; [rewrite HF, N0; lia|]. nia.
  - unfold generic_format, F2R in HF. cbn [Fnum Fexp] in HF.
    set (v := IZR (2 ^ 52 + f) * pow (E - 1075)) in *.
    assert (Hmag : (E - 1022 <= mag radix2 v)%Z).
    { apply mag_ge_bpow. replace (E - 1022 - 1)%Z with (E - 1075 + 52)%Z by lia. rewrite pow_nat_mult by lia.
      unfold v. rewrite Rabs_pos_eq by (apply Rmult_le_pos; [apply IZR_le; lia|apply bpow_ge_0]).
      apply Rmult_le_compat_r; [apply bpow_ge_0|apply IZR_le; lia]. }
    set (c := Generic_fmt.cexp radix2 (FLT_exp (-149) 24) v) in *.
    assert (Hc : (E - 1046 <= c)%Z) by (unfold c, Generic_fmt.cexp, FLT_exp; lia).
    unfold v at 1 in HF. apply IZR_pow_eq in HF; [|lia].
    replace (c - (E - 1075))%Z with (29 + (c - (E - 1046)))%Z in HF by lia. rewrite Z.pow_add_r in HF by lia.
    replace (E * 2 ^ 52 + f)%Z with ((2 ^ 52 + f) + (E - 1) * 2 ^ 52)%Z by ring.
    rewrite HF. set (n := Ztrunc _).
    replace (n * (2 ^ 29 * 2 ^ (c - (E - 1046))) + (E - 1) * 2 ^ 52)%Z
      with ((n * 2 ^ (c - (E - 1046)) + (E - 1) * 2 ^ 23) * 2 ^ 29)%Z by ring.
    apply Z.mod_mul. lia.
Qed.

Lemma high_mag_id m : (0 <= m)%Z -> (m mod 2 ^ 29 = 0)%Z -> high_mag m = m.
Proof.
  intros Hm H. apply Z.div_exact in H; [|lia]. set (q := (m / 2 ^ 29)%Z) in H. unfold high_mag. rewrite H.
  replace (2 ^ 29 * q + 67108863)%Z with (67108863 + (4 * q) * 2 ^ 27)%Z by lia.
  rewrite Z.div_add by lia. change (67108863 / 2 ^ 27)%Z with 0%Z. lia.
Qed.

Lemma highHalf_float b : bits64 b -> generic_format radix2 (FLT_exp (-149) 24) (val64 b) -> highHalf b = b.
Proof.
  intros Hb HF. rewrite (highHalf_split b (proj1 Hb) (proj2 Hb)). unfold val64 in HF.
  destruct (Z.ltb_spec b (2 ^ 63)) as [L|L].
  - apply high_mag_id; [destruct Hb; lia|]. apply float_low_bits; [destruct Hb; lia|exact HF].
  - rewrite high_mag_id; [lia|lia|]. apply float_low_bits; [lia|].
    apply generic_format_opp in HF. rewrite Ropp_involutive in HF. exact HF.
Qed.

Lemma rnd32_0 : rnd32 0 = 0.
Proof. unfold rnd32. apply rn_id, generic_format_0. Qed.
Lemma rnd32_idem x : rnd32 (rnd32 x) = rnd32 x.
Proof. unfold rnd32 at 1. apply rn_id. unfold rnd32. apply rn_format. lia. Qed.

Theorem sqrX2_float_dropped b : bits64 b -> generic_format radix2 (FLT_exp (-149) 24) (val64 b) ->
  sqrX2_float b = Fmp (rnd32 (val64 b * val64 b)) 0.
Proof.
  intros Hb HF. unfold sqrX2_float. f_equal. rewrite (highHalf_float b Hb HF).
  replace (rnd32 (val64 b)) with (val64 b) by (symmetry; unfold rnd32; apply rn_id; exact HF).
  unfold sqrError_split. rewrite !Rminus_diag_eq by reflexivity.
  rewrite !rnd32_0, !Rmult_0_r, !rnd32_0, !Rplus_0_r, !rnd32_0. reflexivity.
Qed.

(** ** normMinusOne *)
Local Notation u := (pow (-53)).
Lemma plus64 x y : format64 x -> format64 y -> Rabs (rnd64 (x + y) - (x + y)) <= u * Rabs (x + y).
Proof. intros. unfold rnd64. apply (rn_plus_error 53 (-1074)); [lia|assumption|assumption]. Qed.
Lemma fmt_rnd64 x : format64 (rnd64 x).
Proof. unfold rnd64. apply rn_format. lia. Qed.
Lemma minus64 x y : format64 x -> format64 y -> Rabs (rnd64 (x - y) - (x - y)) <= u * Rabs (x - y).
Proof. intros. unfold Rminus at 2 4. apply plus64; [assumption|apply generic_format_opp; assumption]. Qed.

Lemma u_val : u = / 9007199254740992.
Proof. reflexivity. Qed.

Section Norm.
Variables (xs ys : fmp) (c n : Z).
Hypothesis Hc : (-54 <= c <= -28)%Z.
Hypothesis X0 : val0 xs = IZR n * pow c.
Hypothesis Xb : 0 <= val0 xs <= 9007199254740992 * pow c.
Hypothesis FX0 : format64 (val0 xs).
Hypothesis CX : ulp radix2 (FLT_exp (-1074) 53) (val0 xs) = pow c.
Hypothesis FX1 : format64 (val1 xs).
Hypothesis X1 : Rabs (val1 xs) <= / 2 * pow c.
Hypothesis FY0 : format64 (val0 ys).
Hypothesis FY1 : format64 (val1 ys).
Hypothesis Y0 : 0 <= val0 ys <= 9007199254740992 * pow c.
Hypothesis Y1 : Rabs (val1 ys) <= / 2 * pow c.

Lemma one_mult : 1 = IZR (2 ^ (- c)) * pow c.
Proof. rewrite <- pow_nat_mult by lia. replace (c + - c)%Z with 0%Z by lia. reflexivity. Qed.

Lemma one_bound : 1 <= 36028797018963968 * pow c.
Proof.
  change 36028797018963968 with (IZR (2 ^ 55)). rewrite <- pow_nat_mult by lia. change 1 with (pow 0). apply bpow_le. lia.
Qed.

Theorem norm_core : Rabs (normMinusOne rnd64 xs ys - (val0 xs + val1 xs + val0 ys + val1 ys - 1))
   <= u * Rabs (val0 xs + val1 xs + val0 ys + val1 ys - 1) + 20 * u * pow c.
Proof using Type*.
  unfold normMinusOne, addX1, addSmallX2_fmp.
  pose proof one_mult as OM. pose proof one_bound as OB. set (w := pow c) in *.
  assert (Pw : 0 < w) by apply bpow_gt_0.
  assert (Fm1 : format64 (-1)).
  { replace (-1) with (IZR (-1) * pow 0) by (cbn [bpow]; ring). apply fmt64; lia. }
  pose proof (addSmallX2_mult 53 (-1074) ltac:(lia) ltac:(lia) (-1) (val0 xs) Fm1 FX0) as ES.
  assert (Dm1 : exists k : Z, -1 = IZR k * ulp radix2 (FLT_exp (-1074) 53) (val0 xs)).
  { exists (- 2 ^ (- c))%Z. rewrite CX, opp_IZR. fold w. lra. }
  specialize (ES Dm1). clear Dm1. fold rnd64 in ES.
  set (s := addSmallX2 rnd64 (-1) (val0 xs)) in *.
  assert (Es0 : val0 s = rnd64 (-1 + val0 xs)) by reflexivity.
  assert (Fs0 : format64 (val0 s)) by (rewrite Es0; apply fmt_rnd64).
  assert (Fs1 : format64 (val1 s)) by (apply fmt_rnd64).
  pose proof (plus64 (-1) (val0 xs) Fm1 FX0) as Bs. rewrite <- Es0 in Bs. rewrite u_val in *.
  assert (A1 : Rabs (-1 + val0 xs) <= 36028797018963968 * w) by (apply Rabs_le; lra).
  assert (Bs1 : Rabs (val1 s) <= 4 * w).
  { replace (val1 s) with (- (val0 s - (-1 + val0 xs))) by lra. rewrite Rabs_Ropp. lra. }
  assert (Bs0 : Rabs (val0 s) <= 36028797018963972 * w).
  { replace (val0 s) with ((-1 + val0 xs) + (val0 s - (-1 + val0 xs))) by ring.
    eapply Rle_trans; [apply Rabs_triang|]. lra. }
  set (t := rnd64 (val1 s + val1 xs)).
  assert (Ft : format64 t) by apply fmt_rnd64.
  pose proof (plus64 (val1 s) (val1 xs) Fs1 FX1) as Bt. fold t in Bt. rewrite u_val in Bt.
  assert (A2 : Rabs (val1 s + val1 xs) <= 9 / 2 * w) by (eapply Rle_trans; [apply Rabs_triang|]; lra).
  assert (Bt0 : Rabs t <= 5 * w).
  { replace t with ((val1 s + val1 xs) + (t - (val1 s + val1 xs))) by ring.
    eapply Rle_trans; [apply Rabs_triang|]. lra. }
  (* the second addSmallX2 is exact *)
  assert (ER : val0 (addSmallX2 rnd64 (val0 s) t) + val1 (addSmallX2 rnd64 (val0 s) t) = val0 s + t).
  { apply (addSmallX2_mult 53 (-1074)); [lia|lia|assumption|assumption|].
    destruct (round_repr_same_exp radix2 (FLT_exp (-1074) 53) ZnearestE (n - 2 ^ (- c)) c) as (m & Em).
    assert (Em' : val0 s = IZR m * w).
    { rewrite Es0. etransitivity; [|exact Em]. unfold rnd64, rnd. f_equal. unfold F2R; cbn [Fnum Fexp]. rewrite X0, minus_IZR. fold w. lra. }
    assert (exists d, (d <= c)%Z /\ ulp radix2 (FLT_exp (-1074) 53) t = pow d) as (d & Hd & Ed).
    { destruct (Req_dec t 0) as [->|Nt].
      - exists (-1074)%Z. split; [lia|]. apply ulp_FLT_0. exact prec53.
      - exists (Generic_fmt.cexp radix2 (FLT_exp (-1074) 53) t). split; [|apply ulp_neq_0; exact Nt].
        assert (mag radix2 t <= c + 3)%Z; [|unfold Generic_fmt.cexp, FLT_exp; lia].
        apply mag_le_bpow; [exact Nt|]. rewrite pow_nat_mult by lia. change (IZR (2 ^ 3)) with 8. fold w. lra. }
    exists (m * 2 ^ (c - d))%Z. rewrite Ed, Em', mult_IZR, Rmult_assoc, <- pow_nat_mult by lia. f_equal. unfold w. f_equal. lia. }
  set (r := addSmallX2 rnd64 (val0 s) t) in *.
  assert (Er0 : val0 r = rnd64 (val0 s + t)) by reflexivity.
  assert (Fr0 : format64 (val0 r)) by apply fmt_rnd64.
  assert (Fr1 : format64 (val1 r)) by apply fmt_rnd64.
  pose proof (plus64 (val0 s) t Fs0 Ft) as Br. rewrite <- Er0, u_val in Br.
  assert (A3 : Rabs (val0 s + t) <= 36028797018963978 * w) by (eapply Rle_trans; [apply Rabs_triang|]; lra).
  assert (Br1 : Rabs (val1 r) <= 401 / 100 * w).
  { replace (val1 r) with (- (val0 r - (val0 s + t))) by lra. rewrite Rabs_Ropp. lra. }
  assert (Br0 : Rabs (val0 r) <= 36028797018963984 * w).
  { replace (val0 r) with ((val0 s + t) + (val0 r - (val0 s + t))) by ring.
    eapply Rle_trans; [apply Rabs_triang|]. lra. }
  (* addX1 *)
  destruct (addX2_exact 53 (-1074) ltac:(lia) ltac:(lia) (val0 r) (val0 ys) Fr0 FY0) as (Ea0 & EA). fold rnd64 in Ea0, EA.
  set (a := addX2 rnd64 (val0 r) (val0 ys)) in *.
  assert (Fa0 : format64 (val0 a)) by apply fmt_rnd64.
  assert (Fa1 : format64 (val1 a)) by apply fmt_rnd64.
  pose proof (plus64 (val0 r) (val0 ys) Fr0 FY0) as Ba. rewrite <- Ea0, u_val in Ba.
  assert (A4 : Rabs (val0 r + val0 ys) <= 45035996273704976 * w).
  { eapply Rle_trans; [apply Rabs_triang|]. rewrite (Rabs_pos_eq (val0 ys)) by lra. lra. }
  assert (Ba1 : Rabs (val1 a) <= 501 / 100 * w).
  { replace (val1 a) with (- (val0 a - (val0 r + val0 ys))) by lra. rewrite Rabs_Ropp. lra. }
  set (p := rnd64 (val1 r + val1 ys)).
  assert (Fp : format64 p) by apply fmt_rnd64.
  pose proof (plus64 (val1 r) (val1 ys) Fr1 FY1) as Bp. fold p in Bp. rewrite u_val in Bp.
  assert (A5 : Rabs (val1 r + val1 ys) <= 451 / 100 * w) by (eapply Rle_trans; [apply Rabs_triang|]; lra).
  assert (Bp0 : Rabs p <= 452 / 100 * w).
  { replace p with ((val1 r + val1 ys) + (p - (val1 r + val1 ys))) by ring. eapply Rle_trans; [apply Rabs_triang|]. lra. }
  set (q := rnd64 (val1 a + p)).
  assert (Fq : format64 q) by apply fmt_rnd64.
  pose proof (plus64 (val1 a) p Fa1 Fp) as Bq. fold q in Bq. rewrite u_val in Bq.
  assert (A6 : Rabs (val1 a + p) <= 953 / 100 * w) by (eapply Rle_trans; [apply Rabs_triang|]; lra).
  set (N := val0 xs + val1 xs + val0 ys + val1 ys - 1).
  set (d1 := t - (val1 s + val1 xs)) in *. set (d2 := p - (val1 r + val1 ys)) in *. set (d3 := q - (val1 a + p)) in *.
  assert (EN : val0 a + q = N + (d1 + d2 + d3)) by (unfold d1, d2, d3, N; lra).
  assert (BD : Rabs (d1 + d2 + d3) <= 19 * (/ 9007199254740992 * w)).
  { eapply Rle_trans; [apply Rabs_triang|].
    eapply Rle_trans; [apply Rplus_le_compat_r, Rabs_triang|]. lra. }
  pose proof (plus64 (val0 a) q Fa0 Fq) as BF. rewrite u_val, EN in BF. rewrite EN.
  pose proof (Rabs_triang N (d1 + d2 + d3)) as T1.
  replace (rnd64 (N + (d1 + d2 + d3)) - N) with ((rnd64 (N + (d1 + d2 + d3)) - (N + (d1 + d2 + d3))) + (d1 + d2 + d3)) by ring.
  eapply Rle_trans; [apply Rabs_triang|]. lra.
Qed.
End Norm.

Lemma rnd64_abs x e : (-1074 <= e)%Z -> Rabs x <= pow e -> Rabs (rnd64 x) <= pow e.
Proof. intros. unfold rnd64. apply rn_abs_le; solve [lia|assumption]. Qed.

Lemma abs_sum a b e : Rabs a <= pow e -> Rabs b <= pow e -> Rabs (a + b) <= pow (e + 1).
Proof. intros. rewrite bpow_plus. change (pow 1) with 2. eapply Rle_trans; [apply Rabs_triang|]. lra. Qed.
Lemma abs_diff a b e : Rabs a <= pow e -> Rabs b <= pow e -> Rabs (a - b) <= pow (e + 1).
Proof. intros. unfold Rminus. apply abs_sum; [assumption|]. rewrite Rabs_Ropp. assumption. Qed.
Lemma abs_prod a b e f : Rabs a <= pow e -> Rabs b <= pow f -> Rabs (a * b) <= pow (e + f).
Proof. intros. rewrite bpow_plus, Rabs_mult. apply Rmult_le_compat; try apply Rabs_pos; assumption. Qed.
Lemma abs_weak a e f : Rabs a <= pow e -> (e <= f)%Z -> Rabs a <= pow f.
Proof. intros H L. eapply Rle_trans; [exact H|]. apply bpow_le. exact L. Qed.

Lemma magnitude_high_tiny m : (0 <= m)%Z -> magnitude m < pow (-485) -> magnitude (high_mag m) <= pow (-485).
Proof.
  intros Hm Ht. destruct (mag_parts m Hm) as (E & f & -> & Hf & HE).
  destruct (high_mag_bounds (E * 2 ^ 52 + f) Hm) as (H0 & H1 & H2).
  set (h := high_mag (E * 2 ^ 52 + f)) in *.
  assert (Dh : exists q, h = (2 ^ 27 * q)%Z) by (exists (h / 2 ^ 27)%Z; apply Z.div_exact; [lia|exact H2]).
  destruct Dh as (q & Eq).
  destruct (Z.eq_dec E 0) as [->|NE].
  - assert (h <= 2 ^ 52)%Z by lia. destruct (Z.eq_dec h (2 ^ 52)) as [->|N].
    + change (2 ^ 52)%Z with (1 * 2 ^ 52 + 0)%Z. rewrite magnitude_carry by lia.
      rewrite Z.add_0_r, <- pow_nat_mult by lia. apply bpow_le. lia.
    + unfold magnitude. rewrite Z.div_small, Z.mod_small by lia. cbn [Z.eqb].
      apply Rle_trans with (IZR (2 ^ 52) * pow (-1074)).
      * apply Rmult_le_compat_r; [apply bpow_ge_0|]. apply IZR_le. lia.
      * rewrite <- pow_nat_mult by lia. apply bpow_le. lia.
  - rewrite magnitude_carry in Ht by lia.
    assert (E < 538)%Z.
    { assert (pow (E - 1075 + 52) < pow (-485)); [|apply lt_bpow in H; lia].
      apply Rle_lt_trans with (2 := Ht). rewrite pow_nat_mult by lia. apply Rmult_le_compat_r; [apply bpow_ge_0|]. apply IZR_le. lia. }
    assert (E * 2 ^ 52 <= h <= E * 2 ^ 52 + 2 ^ 52)%Z.
    { assert (h - E * 2 ^ 52 = 2 ^ 27 * (q - E * 2 ^ 25))%Z by lia. lia. }
    replace h with (E * 2 ^ 52 + (h - E * 2 ^ 52))%Z by ring. rewrite magnitude_carry by lia.
    apply Rle_trans with (IZR (2 ^ 53) * pow (E - 1075)).
    + apply Rmult_le_compat_r; [apply bpow_ge_0|]. apply IZR_le. lia.
    + rewrite <- pow_nat_mult by lia. apply bpow_le. lia.
Qed.

Lemma highHalf_tiny b : bits64 b -> Rabs (val64 b) < pow (-485) -> Rabs (val64 (highHalf b)) <= pow (-485).
Proof.
  intros Hb Ht. destruct (finite_mag b Hb) as (F1 & F2). rewrite (highHalf_split b (proj1 Hb) (proj2 Hb)).
  unfold val64 in *. destruct (Z.ltb_spec b (2 ^ 63)) as [L|L].
  - assert (0 <= b)%Z by (destruct Hb; lia). pose proof (high_lt b ltac:(lia)). pose proof (proj1 (high_mag_bounds b ltac:(lia))).
    destruct (Z.ltb_spec (high_mag b) (2 ^ 63)); [|lia].
    rewrite Rabs_pos_eq in * by (apply magnitude_nonneg; lia). apply magnitude_high_tiny; [lia|exact Ht].
  - destruct (high_mag_bounds (b - 2 ^ 63) ltac:(lia)) as (H0 & _ & _).
    destruct (Z.ltb_spec (2 ^ 63 + high_mag (b - 2 ^ 63)) (2 ^ 63)); [lia|].
    replace (2 ^ 63 + high_mag (b - 2 ^ 63) - 2 ^ 63)%Z with (high_mag (b - 2 ^ 63)) by lia.
    rewrite Rabs_Ropp, Rabs_pos_eq in * by (apply magnitude_nonneg; lia). apply magnitude_high_tiny; [lia|exact Ht].
Qed.

(** What normMinusOne needs of the square of y. *)
Definition near_square (y : R) (p : fmp) : Prop :=
  val0 p = rnd64 (y * y) /\ format64 (val1 p) /\
  (val0 p + val1 p = y * y \/ (Rabs y < pow (-485) /\ Rabs (val1 p) <= pow (-900))).

Lemma near_fma b : bits64 b -> near_square (val64 b) (sqrX2_fma (val64 b)).
Proof.
  intros Hb. split; [reflexivity|]. split; [apply fmt_rnd64|].
  destruct (Rle_or_lt (pow (-485)) (Rabs (val64 b))) as [L|L].
  - left. apply sqrX2_fma_exact; [exact Hb|right; exact L].
  - right. split; [exact L|]. apply Rlt_le in L. unfold sqrX2_fma, sqrError_fma. cbn [val1].
    apply rnd64_abs; [lia|]. pose proof (abs_prod _ _ _ _ L L) as P.
    eapply abs_weak; [apply (abs_diff _ _ (-485 + -485))|lia]; [exact P|apply rnd64_abs; [lia|exact P]].
Qed.

Lemma near_split b : bits64 b -> near_square (val64 b) (sqrX2_split b).
Proof.
  intros Hb. split; [reflexivity|]. split; [apply fmt_rnd64|].
  destruct (Rle_or_lt (pow (-485)) (Rabs (val64 b))) as [L|L].
  - left. apply sqrX2_split_exact; [exact Hb|right; exact L].
  - right. split; [exact L|]. pose proof (highHalf_tiny b Hb L) as LH. apply Rlt_le in L.
    unfold sqrX2_split, sqrError_split. cbn [val1].
    set (x := val64 b) in *. set (xh := val64 (highHalf b)) in *.
    assert (B1 : Rabs (rnd64 (x * x)) <= pow (-970)) by (apply rnd64_abs; [lia|]; exact (abs_prod _ _ _ _ L L)).
    assert (B2 : Rabs (rnd64 (x - xh)) <= pow (-484)) by (apply rnd64_abs; [lia|]; exact (abs_diff _ _ _ L LH)).
    assert (B3 : Rabs (rnd64 (xh * xh)) <= pow (-970)) by (apply rnd64_abs; [lia|]; exact (abs_prod _ _ _ _ LH LH)).
    assert (B4 : Rabs (rnd64 (2 * xh)) <= pow (-484)).
    { apply rnd64_abs; [lia|]. apply (abs_prod _ _ 1 (-485)); [|exact LH]. rewrite Rabs_pos_eq by lra. change (pow 1) with 2. lra. }
    assert (B5 : Rabs (rnd64 (rnd64 (2 * xh) * rnd64 (x - xh))) <= pow (-968)) by (apply rnd64_abs; [lia|]; exact (abs_prod _ _ _ _ B4 B2)).
    assert (B6 : Rabs (rnd64 (rnd64 (x - xh) * rnd64 (x - xh))) <= pow (-968)) by (apply rnd64_abs; [lia|]; exact (abs_prod _ _ _ _ B2 B2)).
    assert (B7 : Rabs (rnd64 (rnd64 (xh * xh) - rnd64 (x * x))) <= pow (-969)) by (apply rnd64_abs; [lia|]; exact (abs_diff _ _ _ B3 B1)).
    assert (B8 : Rabs (rnd64 (rnd64 (rnd64 (xh * xh) - rnd64 (x * x)) + rnd64 (rnd64 (2 * xh) * rnd64 (x - xh)))) <= pow (-967)).
    { apply rnd64_abs; [lia|]. apply (abs_sum _ _ (-968)); [eapply abs_weak; [exact B7|lia]|exact B5]. }
    apply rnd64_abs; [lia|]. eapply abs_weak; [apply (abs_sum _ _ (-967)); [exact B8|eapply abs_weak; [exact B6|lia]]|lia].
Qed.

Lemma rnd64_err_ulp v : Rabs (rnd64 v - v) <= / 2 * ulp radix2 (FLT_exp (-1074) 53) (rnd64 v).
Proof. unfold rnd64, rnd. apply error_le_half_ulp_round; typeclasses eauto. Qed.

Theorem norm_error x y xs ys : / 2 <= Rabs x < 4096 -> Rabs y <= Rabs x -> format64 (val1 xs) ->
  exact_square x xs -> near_square y ys ->
  Rabs (normMinusOne rnd64 xs ys - (x * x + y * y - 1)) <= u * Rabs (x * x + y * y - 1) + pow (-100) * (x * x).
Proof.
  intros Hx Hyx FX1 (X0 & XE) (Y0 & FY1 & YE).
  assert (Sx : / 4 <= x * x <= 16777216).
  { rewrite <- (Rabs_pos_eq (x * x)) by (apply Rle_0_sqr). rewrite Rabs_mult. split; nra. }
  assert (Sy : 0 <= y * y <= x * x).
  { split; [apply Rle_0_sqr|]. rewrite <- (Rabs_pos_eq (x * x)), <- (Rabs_pos_eq (y * y)) by (apply Rle_0_sqr).
    rewrite !Rabs_mult. pose proof (Rabs_pos y). nra. }
  assert (FX0 : format64 (val0 xs)) by (rewrite X0; apply fmt_rnd64).
  assert (L0 : / 4 <= val0 xs <= 16777216).
  { rewrite X0. unfold rnd64, rnd. split.
    - apply round_ge_generic; try typeclasses eauto; [|lra]. change (/ 4) with (pow (-2)). apply generic_format_bpow. unfold FLT_exp. lia.
    - apply round_le_generic; try typeclasses eauto; [|lra]. change 16777216 with (pow 24). apply generic_format_bpow. unfold FLT_exp. lia. }
  assert (Nx : val0 xs <> 0) by lra.
  set (c := Generic_fmt.cexp radix2 (FLT_exp (-1074) 53) (val0 xs)).
  assert (CX : ulp radix2 (FLT_exp (-1074) 53) (val0 xs) = pow c) by (apply ulp_neq_0; exact Nx).
  assert (Mlo : (-1 <= mag radix2 (val0 xs))%Z).
  { apply mag_ge_bpow. rewrite Rabs_pos_eq by lra. change (pow (-1 - 1)) with (/ 4). lra. }
  assert (Mhi : (mag radix2 (val0 xs) <= 25)%Z).
  { apply mag_le_bpow; [exact Nx|]. rewrite Rabs_pos_eq by lra. change (pow 25) with 33554432. lra. }
  assert (Hc : (c = mag radix2 (val0 xs) - 53)%Z) by (unfold c, Generic_fmt.cexp, FLT_exp; lia).
  assert (Wlo : 4503599627370496 * pow c <= val0 xs).
  { change 4503599627370496 with (IZR (2 ^ 52)). rewrite <- pow_nat_mult by lia. replace (c + 52)%Z with (mag radix2 (val0 xs) - 1)%Z by lia.
    pose proof (bpow_mag_le radix2 (val0 xs) Nx) as T. rewrite (Rabs_pos_eq (val0 xs)) in T by lra. exact T. }
  assert (Whi : val0 xs <= 9007199254740992 * pow c).
  { change 9007199254740992 with (IZR (2 ^ 53)). rewrite <- pow_nat_mult by lia. replace (c + 53)%Z with (mag radix2 (val0 xs) : Z) by lia.
    pose proof (bpow_mag_gt radix2 (val0 xs)) as T. rewrite (Rabs_pos_eq (val0 xs)) in T by lra. lra. }
  assert (Pw : 0 < pow c) by apply bpow_gt_0.
  assert (X1 : Rabs (val1 xs) <= / 2 * pow c).
  { replace (val1 xs) with (- (rnd64 (x * x) - x * x)) by lra. rewrite Rabs_Ropp, <- CX, X0. apply rnd64_err_ulp. }
  assert (Y0b : 0 <= val0 ys <= val0 xs).
  { rewrite Y0, X0. unfold rnd64, rnd. split.
    - apply round_ge_generic; try typeclasses eauto; [apply generic_format_0|lra].
    - apply round_le; try typeclasses eauto. lra. }
  assert (FY0 : format64 (val0 ys)) by (rewrite Y0; apply fmt_rnd64).
  assert (Cbig : pow (-54) <= pow c) by (apply bpow_le; lia).
  assert (Y1 : Rabs (val1 ys) <= / 2 * pow c).
  { destruct YE as [YE|(_ & YE)].
    - replace (val1 ys) with (- (rnd64 (y * y) - y * y)) by lra. rewrite Rabs_Ropp, <- CX.
      eapply Rle_trans; [apply rnd64_err_ulp|]. rewrite <- Y0.
      apply Rmult_le_compat_l; [lra|]. apply ulp_le; try typeclasses eauto. rewrite !Rabs_pos_eq by lra. lra.
    - eapply Rle_trans; [exact YE|]. assert (pow (-900) <= pow (-55)) by (apply bpow_le; lia).
      change (-54)%Z with (-55 + 1)%Z in Cbig. rewrite bpow_plus in Cbig. change (pow 1) with 2 in Cbig. lra. }
  assert (Xrep : exists n, val0 xs = IZR n * pow c) by (eexists; exact FX0).
  destruct Xrep as (n & Xn).
  pose proof (norm_core xs ys c n ltac:(lia) Xn ltac:(lra) FX0 CX FX1 X1 FY0 FY1 ltac:(lra) Y1) as NC.
  set (r := normMinusOne rnd64 xs ys) in *.
  set (N := x * x + y * y - 1).
  set (dy := val0 ys + val1 ys - y * y).
  assert (EN : val0 xs + val1 xs + val0 ys + val1 ys - 1 = N + dy) by (unfold N, dy; lra).
  rewrite EN in NC.
  assert (Dy : Rabs dy <= pow (-890)).
  { unfold dy. destruct YE as [YE|(Yt & YE)].
    - rewrite Rminus_diag_eq by exact YE. rewrite Rabs_R0. apply bpow_ge_0.
    - apply Rlt_le in Yt. pose proof (abs_prod _ _ _ _ Yt Yt) as P.
      apply (abs_diff _ _ (-891)); [|eapply abs_weak; [exact P|lia]].
      apply (abs_sum _ _ (-892)); [rewrite Y0; eapply abs_weak; [apply rnd64_abs; [|exact P]; lia|lia]|eapply abs_weak; [exact YE|lia]]. }
  assert (T900 : pow (-890) <= pow (-120)) by (apply bpow_le; lia).
  change (pow (-120)) with (/ 1329227995784915872903807060280344576) in T900.
  change (pow (-100)) with (/ 1267650600228229401496703205376).
  rewrite u_val in *.
  assert (WX : pow c <= / 4503599627370495 * (x * x)) by (apply Rabs_le_inv in X1; lra).
  pose proof (Rabs_triang N dy) as T1.
  replace (r - N) with ((r - (N + dy)) + dy) by ring. eapply Rle_trans; [apply Rabs_triang|].
  lra.
Qed.

(** ** logP1 *)
Lemma ln_upper q : -1 < q -> ln (1 + q) <= q.
Proof. intros H. pose proof (CfunProofs.ln_le1 (1 + q) ltac:(lra)). lra. Qed.
Lemma ln_lower q : -1 < q -> q / (1 + q) <= ln (1 + q).
Proof.
  intros H. pose proof (CfunProofs.ln_le1 (/ (1 + q)) ltac:(apply Rinv_0_lt_compat; lra)) as L.
  rewrite ln_Rinv in L by lra. assert (q / (1 + q) = 1 - / (1 + q)) by (field; lra). lra.
Qed.
Lemma ln_near q : - / 2 <= q -> Rabs (ln (1 + q) - q) <= 2 * (q * q).
Proof.
  intros H. pose proof (ln_upper q ltac:(lra)). pose proof (ln_lower q ltac:(lra)) as L.
  assert (E : q / (1 + q) = q - q * q * / (1 + q)) by (field; lra).
  assert (B : / (1 + q) <= 2) by (rewrite <- (Rinv_inv 2); apply Rinv_le; lra).
  assert (0 <= q * q) by (apply Rle_0_sqr).
  assert (q * q * / (1 + q) <= q * q * 2) by (apply Rmult_le_compat_l; lra).
  rewrite Rabs_left1 by lra. lra.
Qed.
(** |x| <= 3 |ln (1 + x)| on the range of the careful formula *)
Lemma ln_dom x : -1 < x <= 2 -> Rabs x <= 3 * Rabs (ln (1 + x)).
Proof.
  intros Hx. destruct (Rle_or_lt 0 x) as [P|P].
  - pose proof (ln_lower x ltac:(lra)) as L. assert (E : x * / 3 <= x / (1 + x)).
    { apply Rmult_le_compat_l; [exact P|]. apply Rinv_le; lra. }
    rewrite !Rabs_pos_eq by lra. lra.
  - pose proof (ln_upper x ltac:(lra)). rewrite !Rabs_left1 by lra. lra.
Qed.

Lemma ln_dom4 x : -1 < x <= 3 -> Rabs x <= 4 * Rabs (ln (1 + x)).
Proof.
  intros Hx. destruct (Rle_or_lt 0 x) as [P|P].
  - pose proof (ln_lower x ltac:(lra)) as L. assert (E : x * / 4 <= x / (1 + x)).
    { apply Rmult_le_compat_l; [exact P|]. apply Rinv_le; lra. }
    rewrite !Rabs_pos_eq by lra. lra.
  - pose proof (ln_upper x ltac:(lra)). rewrite !Rabs_left1 by lra. lra.
Qed.

Lemma rnd64_nearest v f : format64 f -> Rabs (rnd64 v - v) <= Rabs (f - v).
Proof.
  intros Ff. unfold rnd64, rnd.
  destruct (round_N_pt radix2 (FLT_exp (-1074) 53) (fun z => negb (Z.even z)) v) as (_ & H). exact (H f Ff).
Qed.
Lemma rnd64_twice v : Rabs (rnd64 v) <= 2 * Rabs v.
Proof.
  pose proof (rnd64_nearest v 0 (generic_format_0 _ _)) as H. rewrite Rminus_0_l, Rabs_Ropp in H.
  replace (rnd64 v) with ((rnd64 v - v) + v) by ring. eapply Rle_trans; [apply Rabs_triang|]. lra.
Qed.
Lemma half_pow : / 2 = pow (-1).
Proof. reflexivity. Qed.
Lemma rnd64_err v : Rabs (rnd64 v - v) <= u * Rabs v + pow (-1075).
Proof.
  destruct (error_N_FLT radix2 (-1074) 53 ltac:(lia) (fun z => negb (Z.even z)) v) as (eps & eta & H1 & H2 & _ & E).
  unfold rnd64, rnd. change ZnearestE with (Znearest (fun z => negb (Z.even z))). rewrite E.
  replace (v * (1 + eps) + eta - v) with (eps * v + eta) by ring.
  eapply Rle_trans; [apply Rabs_triang|]. rewrite Rabs_mult.
  assert (P2 : / 2 * pow (-1074) = pow (-1075)) by (change (-1075)%Z with (-1 + -1074)%Z; rewrite bpow_plus; reflexivity).
  assert (P1 : / 2 * pow (- (53) + 1) = u) by (rewrite half_pow, <- bpow_plus; reflexivity).
  rewrite P1 in H1. rewrite P2 in H2.
  pose proof (Rmult_le_compat_r (Rabs v) _ _ (Rabs_pos v) H1). lra.
Qed.

Lemma format_one : format64 1.
Proof. replace 1 with (IZR 1 * pow 0) by (cbn [bpow]; ring). apply fmt64; lia. Qed.


Section LogP1.
Variable lg : R -> R.
Hypothesis Hlg : good_log lg.

Lemma log_outside x : format64 x -> -1 < x -> x <= - / 2 \/ 2 <= x ->
  Rabs (lg (rnd64 (1 + x)) - ln (1 + x)) <= pow (-46) * Rabs (ln (1 + x)).
Proof using Type*.
  intros Fx Hx Ho. pose proof (plus64 1 x format_one Fx) as B. set (v := rnd64 (1 + x)) in *.
  rewrite (Rabs_pos_eq (1 + x)), u_val in B by lra.
  set (ep := (v - (1 + x)) / (1 + x)).
  assert (Ev : v = (1 + x) * (1 + ep)) by (unfold ep; field; lra).
  assert (Be : Rabs ep <= / 9007199254740992).
  { unfold ep. unfold Rdiv. rewrite Rabs_mult, (Rabs_pos_eq (/ (1 + x))) by (apply Rlt_le, Rinv_0_lt_compat; lra).
    apply Rmult_le_reg_r with (1 + x); [lra|]. rewrite Rmult_assoc, Rinv_l by lra. lra. }
  apply Rabs_le_inv in Be.
  assert (Pv : 0 < v) by (rewrite Ev; apply Rmult_lt_0_compat; lra).
  destruct (Hlg v Pv ltac:(apply fmt_rnd64)) as (_ & G).
  assert (El : ln v = ln (1 + x) + ln (1 + ep)) by (rewrite Ev; apply ln_mult; lra).
  pose proof (ln_near ep ltac:(lra)) as LN.
  assert (Bl : Rabs (ln (1 + ep)) <= / 4503599627370496).
  { replace (ln (1 + ep)) with ((ln (1 + ep) - ep) + ep) by ring. eapply Rle_trans; [apply Rabs_triang|].
    assert (Rabs ep <= / 9007199254740992) by (apply Rabs_le; lra). nra. }
  assert (BL : / 2 <= Rabs (ln (1 + x))).
  { destruct Ho as [Ho|Ho].
    - pose proof (ln_upper x ltac:(lra)). rewrite Rabs_left1 by lra. lra.
    - assert (ln 2 <= ln (1 + x)) by (apply CfunProofs.ln_mono; lra). pose proof (ln_lower 1 ltac:(lra)) as L2.
      replace (1 + 1) with 2 in L2 by ring. rewrite Rabs_pos_eq; lra. }
  change (pow (-52)) with (/ 4503599627370496) in G. change (pow (-46)) with (/ 70368744177664).
  set (L := ln (1 + x)) in *. rewrite El in G. pose proof (Rabs_triang L (ln (1 + ep))) as T.
  replace (lg v - L) with ((lg v - (L + ln (1 + ep))) + ln (1 + ep)) by ring.
  eapply Rle_trans; [apply Rabs_triang|]. lra.
Qed.

Lemma log_small x : format64 x -> Rabs x < pow (-52) ->
  Rabs (rnd64 (x - rnd64 (rnd64 (/ 2 * x) * x)) - ln (1 + x)) <= pow (-46) * Rabs (ln (1 + x)).
Proof using Type.
  intros Fx Hx. change (pow (-52)) with (/ 4503599627370496) in Hx. change (pow (-46)) with (/ 70368744177664).
  pose proof (Rabs_pos x) as Px. pose proof (Rabs_def2 _ _ Hx) as Hx2.
  set (a := rnd64 (/ 2 * x)). set (b := rnd64 (a * x)).
  assert (Ba : Rabs a <= Rabs x).
  { pose proof (rnd64_twice (/ 2 * x)) as T. fold a in T. rewrite Rabs_mult, (Rabs_pos_eq (/ 2)) in T by lra. lra. }
  assert (Bb : Rabs b <= / 2251799813685248 * Rabs x).
  { pose proof (rnd64_twice (a * x)) as T. fold b in T. rewrite Rabs_mult in T. pose proof (Rabs_pos a). nra. }
  pose proof (minus64 x b Fx ltac:(apply fmt_rnd64)) as Br. rewrite u_val in Br.
  pose proof (ln_near x ltac:(lra)) as LN.
  assert (Q : x * x <= / 4503599627370496 * Rabs x).
  { rewrite <- (Rabs_pos_eq (x * x)) by (apply Rle_0_sqr). rewrite Rabs_mult. apply Rmult_le_compat_r; lra. }
  pose proof (ln_dom x ltac:(lra)) as D. set (L := ln (1 + x)) in *.
  assert (T1 : Rabs (x - b) <= Rabs x + Rabs b) by (unfold Rminus; eapply Rle_trans; [apply Rabs_triang|]; rewrite Rabs_Ropp; lra).
  replace (rnd64 (x - b) - L) with ((rnd64 (x - b) - (x - b)) + (- b + - (L - x))) by ring.
  eapply Rle_trans; [apply Rabs_triang|].
  assert (T2 : Rabs (- b + - (L - x)) <= Rabs b + Rabs (L - x)) by (eapply Rle_trans; [apply Rabs_triang|]; rewrite !Rabs_Ropp; lra).
  lra.
Qed.

Lemma log_careful x : format64 x -> - / 2 < x < 2 -> pow (-52) <= Rabs x ->
  let tmp := addSmallX2 rnd64 1 x in
  Rabs (rnd64 (lg (val0 tmp) + rnd64 (val1 tmp / val0 tmp)) - ln (1 + x)) <= pow (-46) * Rabs (ln (1 + x)).
Proof using Type*.
  intros Fx Hx Hb tmp.
  assert (E : val0 tmp + val1 tmp = 1 + x).
  { apply (addSmallX2_mult 53 (-1074)); [lia|lia|apply format_one|exact Fx|].
    assert (Nx : x <> 0) by (intros ->; rewrite Rabs_R0 in Hb; pose proof (bpow_gt_0 radix2 (-52)); lra).
    rewrite ulp_neq_0 by exact Nx. set (c := Generic_fmt.cexp radix2 (FLT_exp (-1074) 53) x).
    assert (c <= 0)%Z.
    { assert (mag radix2 x <= 1)%Z; [|unfold c, Generic_fmt.cexp, FLT_exp; lia].
      apply mag_le_bpow; [exact Nx|]. change (pow 1) with 2. apply Rabs_def1; lra. }
    exists (2 ^ (- c))%Z. rewrite <- pow_nat_mult by lia. replace (c + - c)%Z with 0%Z by lia. reflexivity. }
  assert (E0 : val0 tmp = rnd64 (1 + x)) by reflexivity. clearbody tmp.
  set (v0 := val0 tmp) in *. set (v1 := val1 tmp) in *.
  pose proof (plus64 1 x format_one Fx) as B. rewrite <- E0, u_val in B. rewrite (Rabs_pos_eq (1 + x)) in B by lra.
  pose proof (rnd64_nearest (1 + x) 1 format_one) as BN. rewrite <- E0 in BN.
  replace (1 - (1 + x)) with (- x) in BN by ring. rewrite Rabs_Ropp in BN.
  assert (V1 : Rabs v1 = Rabs (v0 - (1 + x))) by (rewrite <- Rabs_Ropp; f_equal; lra).
  rewrite <- V1 in B, BN.
  assert (V0 : / 2 <= v0).
  { rewrite E0. unfold rnd64, rnd. apply round_ge_generic; try typeclasses eauto; [|lra].
    rewrite half_pow. apply generic_format_bpow. unfold FLT_exp. lia. }
  set (q := v1 / v0).
  assert (Pi : 0 < / v0) by (apply Rinv_0_lt_compat; lra).
  assert (I2 : / v0 <= 2) by (rewrite <- (Rinv_inv 2); apply Rinv_le; lra).
  assert (Aq : Rabs q = Rabs v1 * / v0) by (unfold q, Rdiv; rewrite Rabs_mult, (Rabs_pos_eq (/ v0)) by lra; reflexivity).
  assert (Q1 : Rabs q <= 2 * Rabs x).
  { rewrite Aq. pose proof (Rabs_pos v1). apply Rle_trans with (Rabs v1 * 2); [apply Rmult_le_compat_l; lra|lra]. }
  assert (Q2 : Rabs q <= / 4503599627370496).
  { rewrite Aq. apply Rmult_le_reg_r with v0; [lra|]. rewrite Rmult_assoc, Rinv_l by lra. rewrite Rmult_1_r.
    assert (1 + x <= v0 + Rabs v1) by (pose proof (Rle_abs v1); lra). lra. }
  pose proof (Rabs_le_inv _ _ Q2) as Q3.
  assert (EL : ln (1 + x) = ln v0 + ln (1 + q)).
  { rewrite <- ln_mult by lra. f_equal. unfold q. field_simplify; lra. }
  pose proof (ln_near q ltac:(lra)) as LN.
  assert (QQ : q * q <= / 4503599627370496 * Rabs q).
  { rewrite <- (Rabs_pos_eq (q * q)) by (apply Rle_0_sqr). rewrite Rabs_mult. apply Rmult_le_compat_r; [apply Rabs_pos|lra]. }
  pose proof (ln_dom x ltac:(lra)) as D.
  destruct (Hlg v0 ltac:(lra) ltac:(rewrite E0; apply fmt_rnd64)) as (FA & G).
  set (A := lg v0) in *. pose proof (rnd64_err q) as EQ. set (Q := rnd64 q) in *.
  assert (FQ : format64 Q) by apply fmt_rnd64.
  pose proof (plus64 A Q FA FQ) as BS. rewrite u_val in *.
  assert (TT : pow (-1075) <= pow (-120)) by (apply bpow_le; lia).
  change (pow (-120)) with (/ 1329227995784915872903807060280344576) in TT.
  change (pow (-52)) with (/ 4503599627370496) in *. change (pow (-46)) with (/ 70368744177664).
  set (L := ln (1 + x)) in *. set (l0 := ln v0) in *. set (lq := ln (1 + q)) in *.
  assert (L0 : Rabs l0 <= Rabs L + Rabs lq) by (replace l0 with (L - lq) by lra; unfold Rminus; eapply Rle_trans; [apply Rabs_triang|]; rewrite Rabs_Ropp; lra).
  assert (Lq : Rabs lq <= Rabs q + Rabs (lq - q)) by (replace lq with (q + (lq - q)) at 1 by ring; apply Rabs_triang).
  assert (S1 : Rabs (A + Q) <= Rabs L + (Rabs (A - l0) + (Rabs (Q - q) + Rabs (lq - q)))).
  { replace (A + Q) with (L + ((A - l0) + ((Q - q) + - (lq - q)))) by lra.
    eapply Rle_trans; [apply Rabs_triang|]. apply Rplus_le_compat_l.
    eapply Rle_trans; [apply Rabs_triang|]. apply Rplus_le_compat_l.
    eapply Rle_trans; [apply Rabs_triang|]. rewrite Rabs_Ropp. lra. }
  replace (rnd64 (A + Q) - L) with ((rnd64 (A + Q) - (A + Q)) + ((A - l0) + ((Q - q) + - (lq - q)))) by lra.
  eapply Rle_trans; [apply Rabs_triang|].
  assert (S2 : Rabs ((A - l0) + ((Q - q) + - (lq - q))) <= Rabs (A - l0) + (Rabs (Q - q) + Rabs (lq - q))).
  { eapply Rle_trans; [apply Rabs_triang|]. apply Rplus_le_compat_l.
    eapply Rle_trans; [apply Rabs_triang|]. rewrite Rabs_Ropp. lra. }
  lra.
Qed.

Theorem logP1_error x : format64 x -> -1 < x ->
  Rabs (logP1_64 lg x - ln (1 + x)) <= pow (-46) * Rabs (ln (1 + x)).
Proof using Type*.
  intros Fx Hx. unfold logP1_64, logP1.
  destruct (Rle_dec x (- / 2)) as [A|A]; [apply log_outside; auto|].
  destruct (Rle_dec 2 x) as [C|C]; [apply log_outside; auto|].
  destruct (Rlt_dec (Rabs x) (pow (-52))) as [S|S].
  - destruct (Req_EM_T x 0) as [->|N].
    + rewrite Rplus_0_r, ln_1, Rminus_0_r, Rabs_R0. lra.
    + apply log_small; assumption.
  - apply log_careful; [exact Fx|lra|lra].
Qed.

(** Twice the logarithm of the modulus near the unit circle, as logHypot computes it (l.337). *)
Theorem log_near_circle x y r : / 2 <= Rabs x < 4096 -> 49 / 100 <= x * x + y * y <= 301 / 100 -> format64 r ->
  Rabs (r - (x * x + y * y - 1)) <= u * Rabs (x * x + y * y - 1) + pow (-100) * (x * x) ->
  Rabs (logP1_64 lg r - ln (x * x + y * y)) <= pow (-45) * Rabs (ln (x * x + y * y)) + pow (-96).
Proof using Type*.
  intros Hx Hn Fr Hr. set (N := x * x + y * y - 1) in *. assert (EN : x * x + y * y = 1 + N) by (unfold N; ring). rewrite EN in *.
  assert (X2 : x * x <= 4) by (pose proof (Rle_0_sqr y) as Sy; unfold Rsqr in Sy; unfold N in Hn; lra).
  assert (BN : Rabs N <= 3) by (apply Rabs_le; lra).
  rewrite u_val in Hr. change (pow (-100)) with (/ 1267650600228229401496703205376) in Hr.
  change (pow (-45)) with (/ 35184372088832). change (pow (-96)) with (/ 79228162514264337593543950336).
  pose proof (ln_dom4 N ltac:(lra)) as D.
  set (g := (r - N) / (1 + N)).
  assert (Eg : 1 + r = (1 + N) * (1 + g)) by (unfold g; field; lra).
  assert (Bg : Rabs g <= 3 * Rabs (r - N)).
  { unfold g, Rdiv. rewrite Rabs_mult. assert (0 < / (1 + N)) by (apply Rinv_0_lt_compat; lra). rewrite (Rabs_pos_eq (/ (1 + N))) by lra.
    assert (/ (1 + N) <= 3) by (rewrite <- (Rinv_inv 3); apply Rinv_le; lra).
    rewrite Rmult_comm. apply Rmult_le_compat_r; [apply Rabs_pos|lra]. }
  assert (Sg : Rabs g <= / 1000) by lra. pose proof (Rabs_le_inv _ _ Sg) as Sg2.
  assert (P1 : 0 < 1 + r) by (rewrite Eg; apply Rmult_lt_0_compat; lra).
  pose proof (logP1_error r Fr ltac:(lra)) as LE. change (pow (-46)) with (/ 70368744177664) in LE.
  assert (EL : ln (1 + r) = ln (1 + N) + ln (1 + g)) by (rewrite Eg; apply ln_mult; lra).
  pose proof (ln_near g ltac:(lra)) as LN.
  assert (QQ : g * g <= / 1000 * Rabs g).
  { rewrite <- (Rabs_pos_eq (g * g)) by (apply Rle_0_sqr). rewrite Rabs_mult. apply Rmult_le_compat_r; [apply Rabs_pos|lra]. }
  rewrite EL in LE. set (L := ln (1 + N)) in *. set (l := ln (1 + g)) in *.
  assert (Bl : Rabs l <= Rabs g + Rabs (l - g)) by (replace l with (g + (l - g)) at 1 by ring; apply Rabs_triang).
  pose proof (Rabs_triang L l) as T.
  replace (logP1_64 lg r - L) with ((logP1_64 lg r - (L + l)) + l) by ring.
  pose proof (Rabs_pos L). pose proof (Rabs_pos g).
  eapply Rle_trans; [apply Rabs_triang|]. lra.
Qed.
End LogP1.

(** ** A float near the unit circle *)
Lemma rnd32_int n q e k : (2 ^ (23 + k) <= n < 2 ^ (24 + k))%Z -> (0 < k)%Z -> (-149 <= e)%Z ->
  (2 * Z.abs (n - q * 2 ^ k) < 2 ^ k)%Z -> rnd32 (IZR n * pow e) = IZR q * pow (e + k).
Proof.
  intros Hn Hk He Hq. unfold rnd32, rnd, round, F2R. cbn [Fnum Fexp].
  assert (P0 : (0 < 2 ^ (23 + k))%Z) by (apply Z.pow_pos_nonneg; lia).
  assert (Pn : 0 < IZR n) by (apply IZR_lt; lia).
  assert (Pe : 0 < pow e) by apply bpow_gt_0.
  assert (M : mag radix2 (IZR n * pow e) = (e + k + 24)%Z :> Z).
  { apply mag_unique. rewrite Rabs_pos_eq by (apply Rmult_le_pos; lra).
    replace (e + k + 24 - 1)%Z with (e + (23 + k))%Z by lia. replace (e + k + 24)%Z with (e + (24 + k))%Z by lia.
    rewrite !pow_nat_mult by lia. split.
    - apply Rmult_le_compat_r; [lra|]. apply IZR_le. lia.
    - apply Rmult_lt_compat_r; [lra|]. apply IZR_lt. lia. }
  assert (C : Generic_fmt.cexp radix2 (FLT_exp (-149) 24) (IZR n * pow e) = (e + k)%Z).
  { unfold Generic_fmt.cexp, FLT_exp. rewrite M. lia. }
  unfold scaled_mantissa. rewrite C. f_equal. f_equal.
  apply Znearest_imp. rewrite Rmult_assoc, <- bpow_plus. replace (e + - (e + k))%Z with (- k)%Z by lia.
  assert (Pk : 0 < pow k) by apply bpow_gt_0.
  apply Rmult_lt_reg_r with (pow k); [exact Pk|].
  rewrite <- (Rabs_pos_eq (pow k)) at 1 by lra. rewrite <- Rabs_mult, Rmult_minus_distr_r.
  rewrite Rmult_assoc, <- bpow_plus. replace (- k + k)%Z with 0%Z by lia. cbn [bpow]. rewrite Rmult_1_r.
  assert (Ek : pow k = IZR (2 ^ k)) by (rewrite <- (IZR_Zpower radix2) by lia; reflexivity).
  rewrite Ek, <- mult_IZR, <- minus_IZR, <- abs_IZR. apply IZR_lt in Hq. rewrite mult_IZR in Hq. lra.
Qed.
Lemma rnd32_exact m e x : x = IZR m * pow e -> (Z.abs m <= 2 ^ 24)%Z -> (-149 <= e)%Z -> rnd32 x = IZR m * pow e.
Proof. intros -> Hm Hem. unfold rnd32. apply rn_id. apply fmt_int; lia. Qed.

Definition witness_x : Z := 4605380977982701568.
Definition witness_y : Z := 4603579540386611200.
Lemma witness_vals : bits64 witness_x /\ bits64 witness_y
  /\ val64 witness_x = IZR 13421771 * pow (-24) /\ val64 witness_y = IZR 10066332 * pow (-24).
Proof.
  split; [split; [split; [discriminate|reflexivity]|reflexivity]|].
  split; [split; [split; [discriminate|reflexivity]|reflexivity]|].
  split.
  - change witness_x with (1022 * 2 ^ 52 + (13421771 * 2 ^ 29 - 2 ^ 52))%Z. unfold val64.
    rewrite (proj2 (Z.ltb_lt _ _)) by reflexivity. rewrite magnitude_carry; [|discriminate|split; discriminate].
    replace (2 ^ 52 + (13421771 * 2 ^ 29 - 2 ^ 52))%Z with (13421771 * 2 ^ 29)%Z by lia.
    rewrite mult_IZR, Rmult_assoc, <- pow_nat_mult by lia. reflexivity.
  - change witness_y with (1022 * 2 ^ 52 + (10066332 * 2 ^ 29 - 2 ^ 52))%Z. unfold val64.
    rewrite (proj2 (Z.ltb_lt _ _)) by reflexivity. rewrite magnitude_carry; [|discriminate|split; discriminate].
    replace (2 ^ 52 + (10066332 * 2 ^ 29 - 2 ^ 52))%Z with (10066332 * 2 ^ 29)%Z by lia.
    rewrite mult_IZR, Rmult_assoc, <- pow_nat_mult by lia. reflexivity.
Qed.

Lemma format32_int m e : (Z.abs m <= 2 ^ 24)%Z -> (-149 <= e)%Z -> generic_format radix2 (FLT_exp (-149) 24) (IZR m * pow e).
Proof. intros. apply fmt_int; lia. Qed.

Lemma p24 : pow (-24) = / 16777216.
Proof. reflexivity. Qed.
Lemma p25 : pow (-25) = / 33554432.
Proof. reflexivity. Qed.

Lemma witness_float : normMinusOne_float witness_x witness_y = - / 33554432.
Proof.
  destruct witness_vals as (Bx & By & Ex & Ey). unfold normMinusOne_float.
  rewrite (sqrX2_float_dropped witness_x Bx) by (rewrite Ex; apply format32_int; [discriminate|lia]).
  rewrite (sqrX2_float_dropped witness_y By) by (rewrite Ey; apply format32_int; [discriminate|lia]).
  rewrite Ex, Ey.
  replace (IZR 13421771 * pow (-24) * (IZR 13421771 * pow (-24))) with (IZR (13421771 * 13421771) * pow (-48)).
  2:{ rewrite mult_IZR. change (-48)%Z with (-24 + -24)%Z. rewrite bpow_plus. ring. }
  replace (IZR 10066332 * pow (-24) * (IZR 10066332 * pow (-24))) with (IZR (10066332 * 10066332) * pow (-48)).
  2:{ rewrite mult_IZR. change (-48)%Z with (-24 + -24)%Z. rewrite bpow_plus. ring. }
  rewrite (rnd32_int (13421771 * 13421771) 10737415 (-48) 24) by (try split; (discriminate || reflexivity || lia)).
  rewrite (rnd32_int (10066332 * 10066332) 12079601 (-48) 23) by (try split; (discriminate || reflexivity || lia)).
  change (-48 + 24)%Z with (-24)%Z. change (-48 + 23)%Z with (-25)%Z.
  unfold normMinusOne, addX1, addSmallX2_fmp, addX2, addSmallX2. cbn [val0 val1].
  rewrite (rnd32_exact (-6039801) (-24) (-1 + _)); [|rewrite p24; lra|discriminate|lia].
  rewrite (rnd32_exact 10737415 (-24) (_ - -1)); [|rewrite p24; lra|discriminate|lia].
  rewrite ?Rminus_eq_0. rewrite !rnd32_0, !Rplus_0_r, !rnd32_0, !Rplus_0_r.
  rewrite (rnd32_exact (-6039801) (-24) (IZR (-6039801) * pow (-24))); [|reflexivity|discriminate|lia].
  rewrite ?Rminus_eq_0. rewrite !rnd32_0, ?Rplus_0_r, ?Rminus_0_r, ?rnd32_0, ?Rplus_0_r.
  rewrite (rnd32_exact (-1) (-25) (IZR (-6039801) * pow (-24) + _)); [|rewrite p24, p25; lra|discriminate|lia].
  rewrite (rnd32_exact 12079601 (-25) (IZR (-1) * pow (-25) - IZR (-6039801) * pow (-24))); [|rewrite p24, p25; lra|discriminate|lia].
  rewrite ?Rminus_eq_0.
  rewrite (rnd32_exact (-6039801) (-24) (IZR (-1) * pow (-25) - _)); [|rewrite p24, p25; lra|discriminate|lia].
  rewrite ?Rminus_eq_0.
  rewrite !rnd32_0, ?Rplus_0_r, ?rnd32_0, ?Rplus_0_r, ?rnd32_0, ?Rplus_0_r.
  rewrite (rnd32_exact (-1) (-25) _ eq_refl); [|discriminate|lia]. rewrite p25. lra.
Qed.

Lemma witness_exact : val64 witness_x * val64 witness_x + val64 witness_y * val64 witness_y - 1 = 9 / 281474976710656.
Proof. destruct witness_vals as (_ & _ & Ex & Ey). rewrite Ex, Ey, p24. lra. Qed.

(** ** The logarithm of the modulus *)
Lemma halve v L a b : 0 <= b -> 0 <= a <= / 35184372088832 -> Rabs (v - L) <= a * Rabs L + b ->
  Rabs (rnd64 (v * / 2) - L / 2) <= (a + pow (-52)) * Rabs (L / 2) + b + pow (-120).
Proof.
  intros Hb Ha H. pose proof (rnd64_err (v * / 2)) as E. rewrite u_val in E.
  assert (TT : pow (-1075) <= pow (-120)) by (apply bpow_le; lia).
  change (pow (-52)) with (/ 4503599627370496).
  assert (A1 : Rabs (v * / 2) = Rabs v * / 2) by (rewrite Rabs_mult, (Rabs_pos_eq (/ 2)) by lra; reflexivity).
  assert (A2 : Rabs (L / 2) = Rabs L * / 2) by (unfold Rdiv; rewrite Rabs_mult, (Rabs_pos_eq (/ 2)) by lra; reflexivity).
  assert (A3 : Rabs (v * / 2 - L / 2) = Rabs (v - L) * / 2).
  { replace (v * / 2 - L / 2) with ((v - L) * / 2) by lra. rewrite Rabs_mult, (Rabs_pos_eq (/ 2)) by lra. reflexivity. }
  assert (V : Rabs v <= Rabs L + Rabs (v - L)) by (replace v with (L + (v - L)) at 1 by ring; apply Rabs_triang).
  rewrite A1 in E. rewrite A2.
  replace (rnd64 (v * / 2) - L / 2) with ((rnd64 (v * / 2) - v * / 2) + (v * / 2 - L / 2)) by ring.
  eapply Rle_trans; [apply Rabs_triang|]. rewrite A3. pose proof (Rabs_pos L) as PL. nra.
Qed.

Lemma norm_rounded x y : format64 x -> legTiny < x -> 0 <= y <= x ->
  Rabs (rnd64 (rnd64 (x * x) + rnd64 (y * y)) - (x * x + y * y)) <= 3 * u * (x * x + y * y).
Proof.
  intros Fx Ht Hy. assert (T : pow (-485) <= legTiny).
  { unfold legTiny. change (pow (-485)) with (/ IZR (2 ^ 485)).
    apply Rmult_le_reg_r with (IZR (2 ^ 485)); [apply IZR_lt; reflexivity|]. rewrite Rinv_l by (apply not_0_IZR; discriminate).
    replace (10 ^ 162) with (IZR (10 ^ 162)) by (rewrite (pow_IZR 10 162); reflexivity).
    apply Rmult_le_reg_r with (IZR (10 ^ 162)); [apply IZR_lt; reflexivity|].
    replace (14156865331029228 / IZR (10 ^ 162) * IZR (2 ^ 485) * IZR (10 ^ 162)) with (14156865331029228 * IZR (2 ^ 485)) by (field; apply not_0_IZR; discriminate).
    rewrite Rmult_1_l, <- mult_IZR. apply IZR_le. apply Z.leb_le. vm_compute. reflexivity. }
  pose proof (bpow_gt_0 radix2 (-485)) as P0.
  assert (X2 : pow (-970) <= x * x).
  { change (-970)%Z with (-485 + -485)%Z. rewrite bpow_plus. apply Rmult_le_compat; lra. }
  assert (Y2 : 0 <= y * y <= x * x) by (split; nra).
  pose proof (rnd64_err (x * x)) as EX. pose proof (rnd64_err (y * y)) as EY.
  rewrite (Rabs_pos_eq (x * x)) in EX by nra. rewrite (Rabs_pos_eq (y * y)) in EY by lra.
  assert (TT : pow (-1075) = pow (-105) * pow (-970)) by (rewrite <- bpow_plus; reflexivity).
  change (pow (-105)) with (/ 40564819207303340847894502572032) in TT.
  pose proof (plus64 (rnd64 (x * x)) (rnd64 (y * y)) ltac:(apply fmt_rnd64) ltac:(apply fmt_rnd64)) as ES.
  rewrite u_val in *. apply Rabs_le_inv in EX. apply Rabs_le_inv in EY.
  rewrite (Rabs_pos_eq (rnd64 (x * x) + rnd64 (y * y))) in ES by lra. apply Rabs_le_inv in ES.
  apply Rabs_le. lra.
Qed.

Lemma ln_scaled S n : 0 < S -> Rabs (n - S) <= 3 * u * S -> 0 < n /\ Rabs (ln n - ln S) <= 4 * u.
Proof.
  intros HS H. rewrite u_val in *. set (g := (n - S) / S).
  assert (En : n = S * (1 + g)) by (unfold g; field; lra).
  assert (Bg : Rabs g <= 3 * / 9007199254740992).
  { unfold g, Rdiv. rewrite Rabs_mult, (Rabs_pos_eq (/ S)) by (apply Rlt_le, Rinv_0_lt_compat; lra).
    apply Rmult_le_reg_r with S; [lra|]. rewrite Rmult_assoc, Rinv_l by lra. lra. }
  pose proof (Rabs_le_inv _ _ Bg) as Bg2.
  split; [rewrite En; apply Rmult_lt_0_compat; lra|].
  rewrite En, ln_mult by lra. replace (ln S + ln (1 + g) - ln S) with ((ln (1 + g) - g) + g) by ring.
  pose proof (ln_near g ltac:(lra)) as LN. eapply Rle_trans; [apply Rabs_triang|].
  assert (g * g <= 3 * / 9007199254740992 * Rabs g).
  { rewrite <- (Rabs_pos_eq (g * g)) by (apply Rle_0_sqr). rewrite Rabs_mult. apply Rmult_le_compat_r; [apply Rabs_pos|lra]. }
  pose proof (Rabs_pos g). nra.
Qed.

Theorem logHypot_mid_error sq lg bx by_ : sq = square_fma \/ sq = sqrX2_split -> good_log lg -> bits64 bx -> bits64 by_ ->
  legTiny < val64 bx < legHuge -> 0 < val64 by_ <= val64 bx ->
  let x := val64 bx in let y := val64 by_ in
  Rabs (logHypot_mid sq lg bx by_ - ln (sqrt (x * x + y * y)))
    <= pow (-44) * Rabs (ln (sqrt (x * x + y * y))) + pow (-95).
Proof.
  intros Hsq Hlg Bx By Hx Hy x y. fold x y in Hx, Hy.
  assert (Fx : format64 x) by (apply val64_format; destruct Bx; lia).
  assert (Fy : format64 y) by (apply val64_format; destruct By; lia).
  assert (TP : 0 < legTiny).
  { unfold legTiny. apply Rdiv_lt_0_compat; [lra|]. apply pow_lt. lra. }
  assert (Px : 0 < x) by lra.
  set (Q := x * x + y * y). assert (PQ : 0 < Q) by (unfold Q; nra).
  assert (EH : ln (sqrt Q) = ln Q / 2).
  { assert (sqrt Q * sqrt Q = Q) by (apply sqrt_sqrt; lra). pose proof (sqrt_lt_R0 Q PQ).
    assert (ln Q = ln (sqrt Q) + ln (sqrt Q)) by (rewrite <- ln_mult by lra; congruence). lra. }
  rewrite EH. set (L := ln Q).
  pose proof (norm_rounded x y Fx (proj1 Hx) ltac:(lra)) as NR. fold Q in NR.
  set (n := rnd64 (rnd64 (x * x) + rnd64 (y * y))) in *.
  pose proof (Rabs_pos (L / 2)) as PL2. pose proof (Rabs_pos L) as PL.
  assert (Fin : forall v a b, 0 <= b -> 0 <= a <= / 35184372088832 -> a + / 4503599627370496 <= / 17592186044416 -> b <= / 79228162514264337593543950336 -> Rabs (v - L) <= a * Rabs L + b ->
     Rabs (rnd64 (v * / 2) - L / 2) <= pow (-44) * Rabs (L / 2) + pow (-95)).
  { intros v a b B1 A1 A2 B2 H. eapply Rle_trans; [apply (halve v L a b B1 A1 H)|].
    change (pow (-44)) with (/ 17592186044416). change (pow (-52)) with (/ 4503599627370496).
    change (pow (-95)) with (/ 39614081257132168796771975168). change (pow (-120)) with (/ 1329227995784915872903807060280344576). nra. }
  assert (Far : Q <= 51 / 100 \/ 299 / 100 <= Q -> Rabs (rnd64 (lg n * / 2) - L / 2) <= pow (-44) * Rabs (L / 2) + pow (-95)).
  { intros HQ. destruct (ln_scaled Q n PQ NR) as (Pn & LB). rewrite u_val in LB. fold L in LB.
    destruct (Hlg n Pn ltac:(apply fmt_rnd64)) as (_ & G). change (pow (-52)) with (/ 4503599627370496) in G.
    assert (BL : 49 / 100 <= Rabs L).
    { destruct HQ as [HQ|HQ].
      - pose proof (CfunProofs.ln_le1 Q PQ). unfold L. rewrite Rabs_left1 by lra. lra.
      - assert (ln 2 <= ln Q) by (apply CfunProofs.ln_mono; lra). pose proof (ln_lower 1 ltac:(lra)) as L2.
        replace (1 + 1) with 2 in L2 by ring. unfold L. rewrite Rabs_pos_eq; lra. }
    assert (LN : Rabs (ln n) <= Rabs L + Rabs (ln n - L)) by (replace (ln n) with (L + (ln n - L)) at 1 by ring; apply Rabs_triang).
    apply (Fin (lg n) (/ 35184372088832) 0); [lra|lra|lra|lra|].
    replace (lg n - L) with ((lg n - ln n) + (ln n - L)) by ring. eapply Rle_trans; [apply Rabs_triang|]. lra. }
  unfold logHypot_mid. cbv zeta. fold x y.
  destruct (Req_EM_T x 1) as [E1|N1].
  - (* on the line x = 1 *)
    assert (Y1 : 0 <= y * y <= 1) by (split; nra).
    pose proof (rnd64_err (y * y)) as EY. rewrite (Rabs_pos_eq (y * y)), u_val in EY by lra.
    set (t := rnd64 (y * y)) in *.
    assert (T0 : 0 <= t) by (unfold t, rnd64, rnd; apply round_ge_generic; try typeclasses eauto; [apply generic_format_0|lra]).
    pose proof (logP1_error lg Hlg t ltac:(apply fmt_rnd64) ltac:(lra)) as LE. change (pow (-46)) with (/ 70368744177664) in LE.
    assert (EQ : Q = 1 + y * y) by (unfold Q; rewrite E1; ring).
    set (g := (t - y * y) / Q).
    assert (Eg : 1 + t = Q * (1 + g)) by (unfold g; rewrite EQ; field; lra).
    assert (Bg : Rabs g <= Rabs (t - y * y)).
    { unfold g, Rdiv. rewrite Rabs_mult. assert (0 < / Q <= 1).
      { split; [apply Rinv_0_lt_compat; lra|]. rewrite <- Rinv_1. apply Rinv_le; lra. }
      rewrite (Rabs_pos_eq (/ Q)) by lra. pose proof (Rabs_pos (t - y * y)). nra. }
    assert (TT : pow (-1075) <= pow (-120)) by (apply bpow_le; lia).
    change (pow (-120)) with (/ 1329227995784915872903807060280344576) in TT.
    assert (Sg : Rabs g <= / 1000) by lra. pose proof (Rabs_le_inv _ _ Sg) as Sg2.
    assert (EL : ln (1 + t) = L + ln (1 + g)) by (rewrite Eg; apply ln_mult; lra).
    pose proof (ln_near g ltac:(lra)) as LN.
    assert (QQ : g * g <= / 1000 * Rabs g).
    { rewrite <- (Rabs_pos_eq (g * g)) by (apply Rle_0_sqr). rewrite Rabs_mult. apply Rmult_le_compat_r; [apply Rabs_pos|lra]. }
    pose proof (ln_dom (y * y) ltac:(lra)) as D. rewrite <- EQ in D. fold L in D. rewrite (Rabs_pos_eq (y * y)) in D by lra.
    rewrite EL in LE. set (l := ln (1 + g)) in *.
    assert (Bl : Rabs l <= Rabs g + Rabs (l - g)) by (replace l with (g + (l - g)) at 1 by ring; apply Rabs_triang).
    pose proof (Rabs_triang L l) as T. pose proof (Rabs_pos g).
    apply (Fin _ (/ 35184372088832) (/ 79228162514264337593543950336)); [lra|lra|lra|lra|].
    replace (logP1_64 lg t - L) with ((logP1_64 lg t - (L + l)) + l) by ring.
    eapply Rle_trans; [apply Rabs_triang|]. lra.
  - fold n. rewrite u_val in NR. pose proof (Rabs_le_inv _ _ NR) as NR2.
    destruct (Rlt_dec (/ 2) n) as [A|A]; [|apply Far; left; lra].
    destruct (Rlt_dec n 3) as [C|C]; [|apply Far; right; lra].
    assert (Hhalf : / 2 <= x).
    { destruct (Rle_or_lt (/ 2) x) as [|Lx]; [assumption|]. exfalso. apply (Rlt_not_le _ _ A).
      assert (F4 : format64 (/ 4)) by (change (/ 4) with (pow (-2)); apply generic_format_bpow; unfold FLT_exp; lia).
      assert (F2 : format64 (/ 2)) by (rewrite half_pow; apply generic_format_bpow; unfold FLT_exp; lia).
      assert (R1 : rnd64 (x * x) <= / 4) by (unfold rnd64, rnd; apply round_le_generic; try typeclasses eauto; [exact F4|nra]).
      assert (R2 : rnd64 (y * y) <= / 4) by (unfold rnd64, rnd; apply round_le_generic; try typeclasses eauto; [exact F4|nra]).
      unfold n. unfold rnd64 at 1, rnd. apply round_le_generic; try typeclasses eauto; [exact F2|lra]. }
    assert (X2 : x * x <= Q) by (unfold Q; nra).
    assert (Hx2 : / 2 <= Rabs x < 4096) by (rewrite Rabs_pos_eq by lra; split; [exact Hhalf|nra]).
    assert (Hy2 : Rabs y <= Rabs x) by (rewrite !Rabs_pos_eq by lra; lra).
    set (r := normMinusOne rnd64 (sq bx) (sq by_)).
    assert (NE : Rabs (r - (x * x + y * y - 1)) <= u * Rabs (x * x + y * y - 1) + pow (-100) * (x * x)).
    { assert (Big : val64 bx = 0 \/ pow (-485) <= Rabs (val64 bx)).
      { right. fold x. apply Rle_trans with (/ 2); [rewrite half_pow; apply bpow_le; lia|lra]. }
      destruct Hsq as [-> | ->]; apply norm_error; try assumption; try apply fmt_rnd64.
      - apply sqrX2_fma_exact; assumption.
      - apply near_fma; assumption.
      - apply sqrX2_split_exact; assumption.
      - apply near_split; assumption. }
    pose proof (log_near_circle lg Hlg x y r Hx2 ltac:(fold Q; lra) ltac:(apply fmt_rnd64) NE) as LC. fold Q in LC. fold L in LC.
    change (pow (-45)) with (/ 35184372088832) in LC. change (pow (-96)) with (/ 79228162514264337593543950336) in LC.
    apply (Fin _ (/ 35184372088832) (/ 79228162514264337593543950336)); [lra|lra|lra|lra|exact LC].
Qed.

(** ** The hypotheses can be met *)
Lemma log_away v : 0 < v -> format64 v -> v <> 1 -> pow (-60) <= Rabs (ln v).
Proof.
  intros Pv Fv N. change (pow (-60)) with (/ 1152921504606846976).
  destruct (Rle_or_lt 4 v) as [B|B].
  - assert (ln 2 <= ln v) by (apply CfunProofs.ln_mono; lra). pose proof (ln_lower 1 ltac:(lra)) as L2.
    replace (1 + 1) with 2 in L2 by ring. rewrite Rabs_pos_eq; lra.
  - pose proof (ln_dom4 (v - 1) ltac:(lra)) as D. replace (1 + (v - 1)) with v in D by ring.
    assert (/ 9007199254740992 <= Rabs (v - 1)); [|lra].
    destruct (Rlt_or_le v (/ 2)) as [S|S].
    + rewrite Rabs_left1 by lra. lra.
    + unfold generic_format, F2R in Fv. cbn [Fnum Fexp] in Fv.
      set (c := Generic_fmt.cexp radix2 (FLT_exp (-1074) 53) v) in *. set (m := Ztrunc _) in Fv.
      assert (Hc : (-53 <= c)%Z).
      { assert (0 <= mag radix2 v)%Z; [|unfold c, Generic_fmt.cexp, FLT_exp; lia].
        apply mag_ge_bpow. rewrite Rabs_pos_eq by lra. change (pow (0 - 1)) with (/ 2). exact S. }
      replace c with (-53 + (c + 53))%Z in Fv by lia. rewrite pow_nat_mult in Fv by lia.
      rewrite <- Rmult_assoc, <- mult_IZR in Fv. set (k := (m * 2 ^ (c + 53))%Z) in Fv.
      change (pow (-53)) with (/ 9007199254740992) in Fv.
      replace (v - 1) with (IZR (k - 9007199254740992) * / 9007199254740992) by (rewrite minus_IZR; lra).
      rewrite Rabs_mult, (Rabs_pos_eq (/ 9007199254740992)), <- abs_IZR by lra.
      assert (1 <= IZR (Z.abs (k - 9007199254740992))); [|lra].
      apply IZR_le. destruct (Z.eq_dec k 9007199254740992) as [->|]; [exfalso; apply N; lra|lia].
Qed.

Lemma rounded_log_good : good_log (fun v => rnd64 (ln v)).
Proof.
  intros v Pv Fv. split; [apply fmt_rnd64|].
  destruct (Req_dec v 1) as [->|N].
  - rewrite ln_1, rnd64_0, Rminus_0_r, Rabs_R0. lra.
  - pose proof (log_away v Pv Fv N) as A. pose proof (rnd64_err (ln v)) as E. rewrite u_val in E.
    assert (T : pow (-1075) <= pow (-120)) by (apply bpow_le; lia).
    change (pow (-120)) with (/ 1329227995784915872903807060280344576) in T.
    change (pow (-60)) with (/ 1152921504606846976) in A. change (pow (-52)) with (/ 4503599627370496). lra.
Qed.

(** 2^-600: the square and the error term both vanish *)
Lemma tiny_vals : bits64 (423 * 2 ^ 52) /\ val64 (423 * 2 ^ 52) = pow (-600).
Proof.
  split; [split; [split; [discriminate|reflexivity]|reflexivity]|].
  unfold val64. rewrite (proj2 (Z.ltb_lt _ _)) by reflexivity.
  replace (423 * 2 ^ 52)%Z with (423 * 2 ^ 52 + 0)%Z by lia.
  rewrite magnitude_carry; [|discriminate|split; discriminate].
  rewrite Z.add_0_r, <- pow_nat_mult by lia. reflexivity.
Qed.
Lemma rnd64_vanish v : Rabs v < pow (-1075) -> rnd64 v = 0.
Proof.
  intros H. unfold rnd64, rnd.
  destruct (Req_dec v 0) as [->|N]; [apply round_0; typeclasses eauto|].
  unfold round, F2R. cbn [Fnum Fexp].
  assert (M : (mag radix2 v <= -1075)%Z) by (apply mag_le_bpow; assumption).
  assert (C : Generic_fmt.cexp radix2 (FLT_exp (-1074) 53) v = (-1074)%Z) by (unfold Generic_fmt.cexp, FLT_exp; lia).
  unfold scaled_mantissa. rewrite C. rewrite (Znearest_imp _ (v * pow (- -1074)) 0); [ring|].
  rewrite Rminus_0_r, Rabs_mult, (Rabs_pos_eq (pow _)) by apply bpow_ge_0.
  apply Rlt_le_trans with (pow (-1075) * pow (- -1074)).
  - apply Rmult_lt_compat_r; [apply bpow_gt_0|exact H].
  - rewrite <- bpow_plus. right. reflexivity.
Qed.
Lemma tiny_square : sqrX2_fma (pow (-600)) = Fmp 0 0 /\ val0 (sqrX2_split (423 * 2 ^ 52)) = 0.
Proof.
  assert (E : rnd64 (pow (-600) * pow (-600)) = 0).
  { apply rnd64_vanish. rewrite <- bpow_plus, Rabs_pos_eq by apply bpow_ge_0. apply bpow_lt. lia. }
  split.
  - unfold sqrX2_fma, sqrError_fma. rewrite E, Rminus_0_r, E. reflexivity.
  - unfold sqrX2_split. cbn [val0]. rewrite (proj2 tiny_vals). exact E.
Qed.
