(** Proofs for C87: decimal places, significant figures and multiples. *)
From Coq Require Import ZArith Reals List Lia Lra Bool.
From Flocq Require Import Core Relative Sterbenz BinarySingleNaN.
From Verif Require Import Base BaseProofs ShapeModel AccModel AccSpec AccProofs NumModel NumSpec NumBasics RndModel RndSpec RndProofs RndScale.
Import ListNotations.
Open Scope R_scope.

Section Rnd.
Variables prec emax : Z.
Context (Hp : Prec_gt_0 prec) (Hm : Prec_lt_emax prec emax).
Local Notation num := (binary_float prec emax).
Local Notation fzero := (fzero prec emax).
Local Notation fone := (fone prec emax Hp Hm).
Local Notation fadd := (fadd prec emax Hp Hm).
Local Notation fmul := (fmul prec emax Hp Hm).
Local Notation fsub := (fsub prec emax Hp Hm).
Local Notation fdiv := (fdiv prec emax Hp Hm).
Local Notation fint := (fint prec emax Hp Hm).
Local Notation flt := (flt prec emax).
Local Notation vabs := (vabs prec emax).
Local Notation fpow10 := (fpow10 prec emax Hp Hm).
Local Notation scale_down := (scale_down prec emax Hp Hm).
Local Notation scale_up := (scale_up prec emax Hp Hm).
Local Notation rn := (nearest prec emax).
Local Notation u := (unit_roundoff prec).
Local Notation eta := (underflow_unit prec emax).
Local Notation big := (bpow radix2 emax).
Local Notation format := (generic_format radix2 (FLT_exp (3 - emax - prec) prec)).
Local Notation nearest_up := RndProofs.nearest_up.
Hypothesis H24 : (24 <= prec)%Z.
Hypothesis H102 : (102 <= emax)%Z.

(** ** Decimal places *)
Lemma scaled_small x dp : (-6 <= dp <= 6)%Z -> 0 <= x <= bpow radix2 (emax - 50) -> 0 <= rn (x * rn (tens dp)) <= bpow radix2 (emax - 26).
Proof.
  intros D (P & L). destruct (rn_tens_bounds prec emax Hp Hm H24 dp ltac:(lia)) as (A & B). pose proof (bpow_gt_0 radix2 (-24)).
  split; [apply rn_pos; auto; apply Rmult_le_pos; lra|]. apply rn_le_format; auto; [apply big_format; auto; lia|].
  replace (emax - 26)%Z with (emax - 50 + 24)%Z by ring. rewrite bpow_plus. apply Rmult_le_compat; lra.
Qed.
Lemma nearest_up_small a e : (0 <= e)%Z -> 0 <= a <= bpow radix2 e -> IZR (nearest_up a) <= bpow radix2 e.
Proof.
  intros E (P & L). destruct (nearest_up_err a P) as (_ & H & _). destruct (Rle_or_lt (IZR (nearest_up a)) (bpow radix2 e)) as [|C]; auto.
  exfalso. rewrite <- IZR_Zpower in C, L by exact E. apply lt_IZR in C. assert (S : (radix2 ^ e + 1 <= nearest_up a)%Z) by lia. apply IZR_le in S.
  rewrite plus_IZR in S. apply Rabs_le_inv in H. lra.
Qed.
Lemma descaled_small k dp : (-7 <= dp <= 7)%Z -> 0 <= IZR k <= bpow radix2 (emax - 26) -> rn (IZR k * rn (tens dp)) < big.
Proof.
  intros D (P & L). destruct (rn_tens_bounds prec emax Hp Hm H24 dp D) as (A & B). pose proof (bpow_gt_0 radix2 (-24)).
  apply Rle_lt_trans with (bpow radix2 (emax - 2)); [|apply bpow_lt; lia]. apply rn_le_format; auto; [apply big_format; auto; lia|].
  replace (emax - 2)%Z with (emax - 26 + 24)%Z by ring. rewrite bpow_plus. apply Rmult_le_compat; lra.
Qed.
Lemma pow_facts dp : (-6 <= dp <= 6)%Z ->
  is_finite (fpow10 dp) = true /\ B2R (fpow10 dp) = rn (tens dp) /\ 0 <= B2R (fpow10 dp).
Proof.
  intros D. destruct (pow_val prec emax Hp Hm H24 dp ltac:(lia)) as (F & V). split; auto. split; auto. rewrite V.
  destruct (rn_tens_bounds prec emax Hp Hm H24 dp ltac:(lia)) as (A & _). pose proof (bpow_gt_0 radix2 (-24)). lra.
Qed.
Lemma abs_signed (b : bool) r : 0 <= r -> Rabs (if b then - r else r) = r.
Proof. intros P. destruct b; [rewrite Rabs_Ropp|]; apply Rabs_pos_eq, P. Qed.
Lemma round_places (x : num) dp mode : (-6 <= dp <= 6)%Z -> Z.testbit mode 0 = true -> Z.testbit mode 2 = false ->
  is_finite x = true -> Rabs (B2R x) <= bpow radix2 (emax - 50) ->
  exists r k, let a := rn (Rabs (B2R x) * rn (tens dp)) in
    fround prec emax Hp Hm x dp mode = Ok r /\ is_finite r = true /\ Bsign r = Bsign x /\ k = nearest_up a /\
    Rabs (B2R r) = rn (IZR k * rn (tens (- dp))) /\ (0 <= k)%Z /\ half_away a k.
Proof.
  intros D T0 T2 F L. destruct (pow_facts dp D) as (FA & VA & PA). destruct (pow_facts (- dp) ltac:(lia)) as (FB & VB & PB).
  destruct (scaled_small (Rabs (B2R x)) dp D) as (S0 & S1); [split; [apply Rabs_pos|exact L]|].
  destruct (nearest_up_err _ S0) as (K0 & KH). pose proof (nearest_up_small _ (emax - 26) ltac:(lia) (conj S0 S1)) as K1.
  destruct (round_with_math prec emax Hp Hm (fpow10 dp) (fpow10 (- dp)) x mode ltac:(lia) T0 T2 F FA FB PA PB) as (r & E & Fr & Sr & Vr & Kp & Kh).
  - rewrite VA. apply Rle_lt_trans with (1 := S1). apply bpow_lt. lia.
  - rewrite VA, VB. apply descaled_small; [lia|]. split; [apply IZR_le, K0|exact K1].
  - rewrite VA in Vr, Kp, Kh. rewrite VB in Vr. exists r, (nearest_up (rn (Rabs (B2R x) * rn (tens dp)))). split; [exact E|]. split; auto. split; auto. split; auto.
    split; auto. rewrite Vr. apply abs_signed. apply rn_pos; auto. apply Rmult_le_pos; [apply IZR_le; exact Kp|]. rewrite VB in PB. exact PB.
Qed.
Lemma round_places_down (x : num) dp mode : (-6 <= dp <= 6)%Z -> Z.testbit mode 0 = false -> Z.testbit mode 2 = false ->
  is_finite x = true -> Rabs (B2R x) <= bpow radix2 (emax - 50) ->
  exists r k, let a := rn (Rabs (B2R x) * rn (tens dp)) in
    fround prec emax Hp Hm x dp mode = Ok r /\ is_finite r = true /\ Bsign r = Bsign x /\ k = Zfloor a /\
    Rabs (B2R r) = rn (IZR k * rn (tens (- dp))) /\ (0 <= k)%Z.
Proof.
  intros D T0 T2 F L. destruct (pow_facts dp D) as (FA & VA & PA). destruct (pow_facts (- dp) ltac:(lia)) as (FB & VB & PB).
  destruct (scaled_small (Rabs (B2R x)) dp D) as (S0 & S1); [split; [apply Rabs_pos|exact L]|].
  assert (K0 : (0 <= Zfloor (rn (Rabs (B2R x) * rn (tens dp))))%Z) by (apply Zfloor_lub; exact S0).
  destruct (round_with_down prec emax Hp Hm (fpow10 dp) (fpow10 (- dp)) x mode T0 T2 F FA FB PA PB) as (r & E & Fr & Sr & Vr & Kp).
  - rewrite VA. apply Rle_lt_trans with (1 := S1). apply bpow_lt. lia.
  - rewrite VA, VB. apply descaled_small; [lia|]. split; [apply IZR_le, K0|]. apply Rle_trans with (2 := S1). apply Zfloor_lb.
  - rewrite VA in Vr, Kp. rewrite VB in Vr. exists r, (Zfloor (rn (Rabs (B2R x) * rn (tens dp)))). split; [exact E|]. split; auto. split; auto. split; auto.
    split; auto. rewrite Vr. apply abs_signed. apply rn_pos; auto. apply Rmult_le_pos; [apply IZR_le; exact Kp|]. rewrite VB in PB. exact PB.
Qed.

(** ** The scaling loops *)
Lemma ten_val : is_finite (fint 10) = true /\ B2R (fint 10) = 10.
Proof. apply (small_int prec emax Hp Hm H24 10). vm_compute. discriminate. Qed.
Lemma normal_one x : 1 <= x -> bpow radix2 (2 - emax) <= x.
Proof. intros H. apply Rle_trans with (2 := H). change 1 with (bpow radix2 0). apply bpow_le. lia. Qed.
Lemma within_nine x y : 0 <= x -> 0 <= y -> within u 1 x y -> 9 * y <= 10 * x /\ 9 * x <= 10 * y.
Proof.
  intros Px Py (A & B). rewrite pow_1 in A, B. destruct (u_tiny prec H24) as (U0 & U1). split; nra.
Qed.
Lemma div_ten (t : num) : is_finite t = true -> 10 < B2R t ->
  is_finite (fdiv t (fint 10)) = true /\ B2R (fdiv t (fint 10)) = rn (B2R t / 10) /\ within u 1 (B2R (fdiv t (fint 10))) (B2R t / 10) /\
  1 <= B2R (fdiv t (fint 10)) /\ 9 * B2R (fdiv t (fint 10)) <= B2R t.
Proof.
  intros F L. destruct ten_val as (F10 & V10). pose proof (u_range prec H24) as UR.
  assert (W : within u 1 (rn (B2R t / 10)) (B2R t / 10)) by (apply rn_within; auto; apply normal_one; lra).
  assert (O : 1 <= rn (B2R t / 10)) by (apply rn_ge_format; auto; [apply (small_format prec emax Hp Hm H24 1); vm_compute; discriminate|lra]).
  destruct (within_nine (rn (B2R t / 10)) (B2R t / 10) ltac:(lra) ltac:(lra) W) as (_ & N).
  destruct (fdiv_small prec emax Hp Hm t (fint 10) F) as (Fd & Vd).
  - rewrite V10. lra.
  - rewrite V10. rewrite Rabs_pos_eq by lra. pose proof (finite_lt prec emax t) as B. rewrite Rabs_pos_eq in B by lra. lra.
  - rewrite V10 in Vd. rewrite Vd. split; auto. split; auto. split; auto. split; auto. lra.
Qed.
Lemma mul_ten (t : num) : is_finite t = true -> 0 < B2R t < 1 ->
  is_finite (fmul t (fint 10)) = true /\ within u 1 (B2R (fmul t (fint 10))) (B2R t * 10) /\
  0 < B2R (fmul t (fint 10)) <= 10 /\ 9 * B2R t <= B2R (fmul t (fint 10)).
Proof.
  intros F L. destruct ten_val as (F10 & V10). pose proof (u_range prec H24) as UR.
  assert (W : within u 1 (rn (B2R t * 10)) (B2R t * 10)) by (apply rn_ten; auto; [apply num_format|lra]).
  assert (P : 0 <= rn (B2R t * 10)) by (apply rn_pos; auto; lra).
  assert (T : rn (B2R t * 10) <= 10) by (apply rn_le_format; auto; [apply (small_format prec emax Hp Hm H24 10); vm_compute; discriminate|lra]).
  destruct (within_nine (rn (B2R t * 10)) (B2R t * 10) P ltac:(lra) W) as (N & _).
  destruct (fmul_small prec emax Hp Hm t (fint 10) F F10) as (Fd & Vd).
  - rewrite V10. rewrite Rabs_pos_eq by lra. apply Rle_lt_trans with (1 := T). apply Rle_lt_trans with (bpow radix2 4); [change (bpow radix2 4) with 16; lra|].
    apply bpow_lt. lia.
  - rewrite V10 in Vd. rewrite Vd. split; auto. split; auto. split; lra.
Qed.
Lemma scale_down_ok fuel : forall (t : num) n, is_finite t = true -> 0 <= B2R t <= 10 * 9 ^ fuel ->
  exists t' (k : nat), scale_down fuel t n = Some (t', (n + Z.of_nat k)%Z) /\ (k <= fuel)%nat /\ is_finite t' = true /\ B2R t' <= 10 /\
    (1 <= B2R t -> 1 <= B2R t') /\ within u k (B2R t') (B2R t * tens (- Z.of_nat k)) /\ (B2R t <= 10 -> t' = t /\ k = 0%nat) /\ (0 < B2R t -> 0 < B2R t') /\
    (forall j, (j <= 6)%nat -> B2R t <= tens (Z.of_nat (S j)) -> (k <= j)%nat).
Proof.
  induction fuel as [|fuel IH]; intros t n F L; destruct ten_val as (F10 & V10); cbn [RndModel.scale_down]; rewrite flt_val, V10 by auto.
  - cbn in L. rewrite Rlt_bool_false by lra. exists t, 0%nat. rewrite Z.add_0_r. split; auto. split; auto. split; auto. split; [lra|]. split; auto.
    split; [|split; [auto|split; [auto|lia]]]. cbn [Z.of_nat Z.opp]. rewrite tens_0, Rmult_1_r. apply within_refl.
  - destruct (Rlt_bool_spec 10 (B2R t)) as [C|C].
    + destruct (div_ten t F C) as (Fd & Vd & Wd & Od & Nd).
      destruct (IH (fdiv t (fint 10)) (n + 1)%Z Fd) as (t' & k & E & K & F' & T & O & W & Z0 & PO & J). { cbn [pow] in L. lra. }
      exists t', (S k). rewrite E. split; [do 2 f_equal; lia|]. split; [lia|]. split; auto. split; auto. split; [intros _; apply O, Od|].
      split; [|split; [intros Q; lra|]].
      * replace (S k) with (k + 1)%nat at 1 by lia. apply within_trans with (B2R (fdiv t (fint 10)) * tens (- Z.of_nat k)); auto using (u_range prec H24).
        replace (- Z.of_nat (S k))%Z with (- (1) + - Z.of_nat k)%Z by lia. rewrite tens_add, (tens_inv 1), tens_1, <- Rmult_assoc.
        apply within_scale; [apply Rlt_le, tens_pos|]. exact Wd.
      * split; [intros _; apply PO; lra|]. intros j Hj Hl. destruct j as [|j]; [change (Z.of_nat 1) with 1%Z in Hl; rewrite tens_1 in Hl; lra|]. apply le_n_S. apply J; [lia|]. rewrite Vd. apply rn_le_format; auto.
        -- rewrite tens_int by lia. apply (small_format prec emax Hp Hm H24). rewrite Z.abs_eq by (apply Z.pow_nonneg; lia). apply Z.pow_le_mono_r; lia.
        -- replace (Z.of_nat (S (S j))) with (Z.of_nat (S j) + 1)%Z in Hl by lia. rewrite tens_add, tens_1 in Hl. lra.
    + exists t, 0%nat. rewrite Z.add_0_r. split; auto. split; [lia|]. split; auto. split; [lra|]. split; auto.
      split; [|split; [auto|split; [auto|lia]]]. cbn [Z.of_nat Z.opp]. rewrite tens_0, Rmult_1_r. apply within_refl.
Qed.
Lemma scale_up_ok fuel : forall (t : num) n, is_finite t = true -> 0 < B2R t <= 10 -> 1 <= B2R t * 9 ^ fuel ->
  exists t' (k : nat), scale_up fuel t n = Some (t', (n - Z.of_nat k)%Z) /\ (k <= fuel)%nat /\ is_finite t' = true /\ 1 <= B2R t' <= 10 /\
    within u k (B2R t') (B2R t * tens (Z.of_nat k)) /\ (1 <= B2R t -> t' = t /\ k = 0%nat) /\
    (forall j, 1 <= B2R t * 9 ^ j -> (k <= j)%nat).
Proof.
  induction fuel as [|fuel IH]; intros t n F P L; destruct (fone_val prec emax Hp Hm) as (F1 & V1); cbn [RndModel.scale_up]; rewrite flt_val, V1 by auto.
  - cbn in L. rewrite Rlt_bool_false by lra. exists t, 0%nat. rewrite Z.sub_0_r. split; auto. split; auto. split; auto. split; [lra|].
    split; [|split; [auto|lia]]. cbn [Z.of_nat Z.opp]. rewrite tens_0, Rmult_1_r. apply within_refl.
  - destruct (Rlt_bool_spec (B2R t) 1) as [C|C].
    + destruct (mul_ten t F ltac:(lra)) as (Fd & Wd & Od & Nd).
      assert (G : forall j, 1 <= B2R t * 9 ^ S j -> 1 <= B2R (fmul t (fint 10)) * 9 ^ j).
      { intros j Q. cbn [pow] in Q. apply Rle_trans with (1 := Q). replace (B2R t * (9 * 9 ^ j)) with (9 * B2R t * 9 ^ j) by ring.
        apply Rmult_le_compat_r; [apply pow_le; lra|exact Nd]. }
      destruct (IH (fmul t (fint 10)) (n - 1)%Z Fd Od (G _ L)) as (t' & k & E & K & F' & T & W & Z0 & J).
      exists t', (S k). rewrite E. split; [do 2 f_equal; lia|]. split; [lia|]. split; auto. split; auto.
      split; [|split; [intros Q; lra|]].
      * replace (S k) with (k + 1)%nat at 1 by lia. apply within_trans with (B2R (fmul t (fint 10)) * tens (Z.of_nat k)); auto using (u_range prec H24).
        replace (Z.of_nat (S k))%Z with (1 + Z.of_nat k)%Z by lia. rewrite tens_add, tens_1, <- Rmult_assoc.
        apply within_scale; [apply Rlt_le, tens_pos|]. exact Wd.
      * intros j Q. destruct j as [|j]; [cbn in Q; lra|]. apply le_n_S. apply J, G, Q.
    + exists t, 0%nat. rewrite Z.sub_0_r. split; auto. split; [lia|]. split; auto. split; [lra|].
      split; [|split; [auto|lia]]. cbn [Z.of_nat Z.opp]. rewrite tens_0, Rmult_1_r. apply within_refl.
Qed.
Lemma scale_down_more fuel : forall fuel' (t : num) n r, (fuel <= fuel')%nat -> scale_down fuel t n = Some r -> scale_down fuel' t n = Some r.
Proof.
  induction fuel as [|fuel IH]; intros fuel' t n r H E; destruct fuel' as [|fuel']; try lia; cbn [RndModel.scale_down] in *; destruct (flt (fint 10) t); try discriminate; auto.
  apply IH; [lia|exact E].
Qed.
Lemma scale_up_more fuel : forall fuel' (t : num) n r, (fuel <= fuel')%nat -> scale_up fuel t n = Some r -> scale_up fuel' t n = Some r.
Proof.
  induction fuel as [|fuel IH]; intros fuel' t n r H E; destruct fuel' as [|fuel']; try lia; cbn [RndModel.scale_up] in *; destruct (flt t fone); try discriminate; auto.
  apply IH; [lia|exact E].
Qed.
(** An infinite number is never scaled down *)
Lemma inf_div : fdiv (B754_infinity false) (fint 10) = B754_infinity false.
Proof.
  destruct ten_val as (F10 & V10). unfold NumModel.fdiv. destruct (fint 10) as [s|s| |s m e H]; try discriminate F10.
  - cbn in V10. lra.
  - destruct s; [|reflexivity]. exfalso. assert (B2R (B754_finite true m e H) < 0) by (cbn; apply F2R_lt_0; cbn; lia). lra.
Qed.
Lemma inf_loop fuel n : scale_down fuel (B754_infinity false) n = None.
Proof.
  revert n. destruct ten_val as (F10 & V10).
  assert (L : flt (fint 10) (B754_infinity false) = true) by (destruct (fint 10); try discriminate F10; reflexivity).
  induction fuel as [|fuel IH]; intros n; cbn [RndModel.scale_down]; rewrite L; auto. rewrite inf_div. apply IH.
Qed.
Lemma tiny_pos (x : num) : is_finite x = true -> B2R x <> 0 -> bpow radix2 (3 - emax - prec) <= Rabs (B2R x).
Proof.
  intros F N. destruct x as [s|s| |s m e H]; try discriminate F; [cbn in N; lra|].
  apply Rle_trans with (bpow radix2 e).
  - apply bpow_le. pose proof H as H'. unfold SpecFloat.bounded, SpecFloat.canonical_mantissa in H'. apply andb_prop in H'. destruct H' as (H' & _). apply Zeq_bool_eq in H'.
    unfold SpecFloat.fexp, SpecFloat.emin in H'. lia.
  - cbn [B2R]. rewrite <- F2R_Zabs. unfold F2R. cbn [Fnum Fexp]. rewrite abs_cond_Zopp. rewrite <- (Rmult_1_l (bpow radix2 e)) at 1.
    apply Rmult_le_compat_r; [apply bpow_ge_0|]. apply IZR_le. cbn. lia.
Qed.

(** ** Significant figures *)
Lemma sigfig_some (x : num) figs asserts fuel0 : is_finite x = true -> big <= 10 * 9 ^ fuel0 -> 1 <= bpow radix2 (3 - emax - prec) * 9 ^ fuel0 ->
  exists res, forall fuel, (fuel0 <= fuel)%nat -> froundSigFig prec emax Hp Hm fuel asserts x figs = Some res.
Proof.
  intros F B1 B2. unfold froundSigFig. destruct (asserts && negb (0 <? figs)%Z); [eauto|].
  destruct (fzero_val prec emax) as (F0 & V0). rewrite feq_val, V0 by auto. destruct (Req_bool_spec (B2R x) 0) as [|N]; [eauto|].
  destruct (vabs_val prec emax x F) as (Fv & Vv). pose proof (finite_lt prec emax x) as L. pose proof (Rabs_pos_lt _ N) as P.
  destruct (scale_down_ok fuel0 (vabs x) 0%Z Fv) as (t1 & k1 & E1 & _ & F1 & T1 & O1 & _ & Z1 & P1 & _); [rewrite Vv; lra|].
  rewrite Vv in O1, Z1, P1. specialize (P1 P). pose proof (tiny_pos x F N) as TP.
  assert (Q : 1 <= B2R t1 * 9 ^ fuel0).
  { assert (N9 : 1 <= 9 ^ fuel0) by (apply pow_R1_Rle; lra).
    destruct (Rle_or_lt 1 (Rabs (B2R x))) as [C|C].
    - specialize (O1 C). nra.
    - destruct (Z1 ltac:(lra)) as (E & _). rewrite E, Vv. apply Rle_trans with (1 := B2). apply Rmult_le_compat_r; lra. }
  destruct (scale_up_ok fuel0 t1 (0 + Z.of_nat k1)%Z F1 (conj P1 T1) Q) as (t2 & k2 & E2 & _).
  eexists. intros fuel H. rewrite (scale_down_more _ _ _ _ _ H E1), (scale_up_more _ _ _ _ _ H E2). reflexivity.
Qed.
Lemma format_tens e : (0 <= e <= 7)%Z -> format (tens e).
Proof.
  intros He. rewrite tens_int by lia. apply (small_format prec emax Hp Hm H24). rewrite Z.abs_eq by (apply Z.pow_nonneg; lia). apply Z.pow_le_mono_r; lia.
Qed.
Lemma tens_seven : tens 7 = 10000000.
Proof. rewrite tens_int by lia. reflexivity. Qed.
Lemma tens_minus_six : tens (-6) = / 1000000.
Proof. change (-6)%Z with (- (6))%Z. rewrite tens_inv, tens_int by lia. reflexivity. Qed.
Lemma mul_ge c k t : 0 < c -> c <= t -> 1 <= k -> c <= k * t.
Proof. intros. nra. Qed.
(** Integers near a number between powers of ten *)
Lemma between_tens a k e f : (0 <= e)%Z -> (0 <= f)%Z -> tens e <= a <= tens f -> half_away a k -> (10 ^ e <= k <= 10 ^ f)%Z.
Proof.
  intros He Hf (L & U) (H & _). rewrite tens_int in L, U by assumption. apply Rabs_le_inv in H. split; apply Znot_gt_le; intros C; apply Z.gt_lt, Zlt_le_succ, IZR_le in C; rewrite succ_IZR in C; lra.
Qed.
(** A number between one and ten rounded to dp places *)
Lemma unit_round (t : num) dp : is_finite t = true -> 1 <= B2R t <= 10 -> (0 <= dp <= 6)%Z ->
  exists r a k, fround prec emax Hp Hm t dp MATH = Ok r /\ is_finite r = true /\ (10 ^ dp <= k <= 10 ^ (dp + 1))%Z /\ half_away a k /\
    within u 1 a (B2R t * tens dp) /\ within u 2 (B2R r) (IZR k * tens (- dp)) /\ bpow radix2 (-24) <= B2R r <= bpow radix2 24.
Proof.
  intros F T D. pose proof (u_range prec H24) as UR. assert (A : Rabs (B2R t) = B2R t) by (apply Rabs_pos_eq; lra).
  destruct (round_places t dp MATH ltac:(lia) eq_refl eq_refl F) as (r & k & Er & Fr & Sr & Ek & Vr & Kp & Kh).
  { rewrite A. apply Rle_trans with (1 := proj2 T). apply Rle_trans with (bpow radix2 4); [change (bpow radix2 4) with 16; lra|]. apply bpow_le. lia. }
  rewrite A in *. cbv zeta in *. clear Ek.
  assert (TD : rn (tens dp) = tens dp) by (apply rn_id, format_tens; lia). rewrite TD in Kh.
  pose proof (tens_pos dp) as TDP. assert (TD1 : 1 <= tens dp) by (rewrite <- tens_0; apply tens_le; lia).
  exists r, (rn (B2R t * tens dp)), k. split; [exact Er|]. split; [exact Fr|].
  assert (K : (10 ^ dp <= k <= 10 ^ (dp + 1))%Z).
  { apply between_tens with (rn (B2R t * tens dp)); [lia|lia| |exact Kh]. split.
    - apply rn_ge_format; auto; [apply format_tens; lia|]. apply (mul_ge (tens dp)); lra.
    - apply rn_le_format; auto; [apply format_tens; lia|]. rewrite tens_add, tens_1, Rmult_comm. apply Rmult_le_compat_l; lra. }
  split; [exact K|]. split; [exact Kh|].
  split; [apply rn_within; auto; apply normal_one; apply (mul_ge 1); lra|].
  assert (KR : 1 <= IZR k <= tens 7).
  { destruct K as (K1 & K2). apply IZR_le in K1, K2. rewrite <- tens_int in K1, K2 by lia. split; [lra|]. apply Rle_trans with (1 := K2). apply tens_le. lia. }
  rewrite tens_seven in KR. pose proof (rn_tens_bounds prec emax Hp Hm H24 (- dp) ltac:(lia)) as RB. pose proof (bpow_gt_0 radix2 (-24)) as B24.
  assert (SP : 0 <= B2R r).
  { assert (Sx : Bsign t = false). { destruct (Bsign t) eqn:S; auto. pose proof (sign_neg prec emax t F S). lra. } rewrite Sx in Sr. apply sign_pos; auto. }
  rewrite Rabs_pos_eq in Vr by exact SP. rewrite Vr.
  assert (KB : bpow radix2 (-24) <= IZR k * rn (tens (- dp))) by (apply mul_ge; lra).
  split; [|split].
  - change 2%nat with (1 + 1)%nat. apply within_trans with (IZR k * rn (tens (- dp))); auto.
    + apply rn_within; auto. apply (normal_le emax (-24)%Z); auto; lia.
    + rewrite (Rmult_comm (IZR k) (rn _)), (Rmult_comm (IZR k)). apply within_scale; [lra|]. apply tens_within; auto. lia.
  - apply rn_ge_format; auto. apply big_format; auto; lia.
  - apply rn_le_format; auto; [apply big_format; auto; lia|].
    assert (TI : rn (tens (- dp)) <= 1).
    { apply rn_le_format; auto; [rewrite <- tens_0; apply format_tens; lia|]. rewrite <- tens_0. apply tens_le. lia. }
    apply Rle_trans with (10000000 * 1); [apply Rmult_le_compat; lra|]. change (bpow radix2 24) with 16777216. lra.
Qed.
Lemma sigfig_scale (x : num) fuel : is_finite x = true -> tens (-6) <= Rabs (B2R x) <= tens 7 -> (7 <= fuel)%nat ->
  exists t n, (match scale_down fuel (vabs x) 0 with
       | None => None
       | Some (tmp, n) => scale_up fuel tmp n
       end) = Some (t, n) /\ is_finite t = true /\ 1 <= B2R t <= 10 /\ (-7 <= n <= 6)%Z /\ within u 7 (B2R t) (Rabs (B2R x) * tens (- n)).
Proof.
  intros F X FU. pose proof (u_range prec H24) as UR. rewrite tens_minus_six in X.
  destruct (vabs_val prec emax x F) as (Fv & Vv). pose proof tens_seven as M7.
  destruct (scale_down_ok fuel (vabs x) 0%Z Fv) as (t1 & k1 & E1 & _ & F1 & T1 & O1 & W1 & Z1 & P1 & J1).
  { rewrite Vv. split; [apply Rabs_pos|]. apply Rle_trans with (10 * 9 ^ 7); [cbn; lra|]. apply Rmult_le_compat_l; [lra|]. apply Rle_pow; [lra|exact FU]. }
  rewrite E1. rewrite Vv in *. specialize (P1 ltac:(lra)). assert (K1 : (k1 <= 6)%nat) by (apply J1; auto; exact (proj2 X)). clear J1.
  assert (Q : 1 <= B2R t1 * 9 ^ 7).
  { destruct (Rle_or_lt 1 (Rabs (B2R x))) as [C|C].
    - specialize (O1 C). cbn. lra.
    - destruct (Z1 ltac:(lra)) as (E & _). rewrite E, Vv. cbn. lra. }
  assert (Q' : 1 <= B2R t1 * 9 ^ fuel). { apply Rle_trans with (1 := Q). apply Rmult_le_compat_l; [lra|]. apply Rle_pow; [lra|exact FU]. }
  destruct (scale_up_ok fuel t1 (0 + Z.of_nat k1)%Z F1 (conj P1 T1) Q') as (t2 & k2 & E2 & _ & F2 & T2 & W2 & Z2 & J2).
  rewrite E2. specialize (J2 7%nat Q).
  assert (KK : k1 = 0%nat \/ k2 = 0%nat).
  { destruct (Rle_or_lt 1 (Rabs (B2R x))) as [C|C]; [right; apply Z2, O1, C|left; apply Z1; lra]. }
  clear Q Q' E1 E2 FU Z1 Z2 O1. exists t2, (0 + Z.of_nat k1 - Z.of_nat k2)%Z. split; [reflexivity|]. split; auto. split; auto. split; [lia|].
  apply within_mono with (k2 + k1)%nat; auto; [lia|lra|apply Rmult_le_pos; [apply Rabs_pos|apply Rlt_le, tens_pos]|].
  apply within_trans with (B2R t1 * tens (Z.of_nat k2)); auto.
  replace (- (0 + Z.of_nat k1 - Z.of_nat k2))%Z with (- Z.of_nat k1 + Z.of_nat k2)%Z by lia. rewrite tens_add, <- Rmult_assoc.
  apply within_scale; [apply Rlt_le, tens_pos|exact W1].
Qed.
Lemma sigfig_ok (x : num) figs asserts fuel : is_finite x = true -> tens (-6) <= Rabs (B2R x) <= tens 7 -> (1 <= figs <= 7)%Z -> (7 <= fuel)%nat ->
  exists r a k n, froundSigFig prec emax Hp Hm fuel asserts x figs = Some (Ok r) /\ is_finite r = true /\ Bsign r = Bsign x /\
    (10 ^ (figs - 1) <= k <= 10 ^ figs)%Z /\ half_away a k /\
    within u 8 a (Rabs (B2R x) * tens (figs - 1 - n)) /\ within u 4 (Rabs (B2R r)) (IZR k * tens (n - (figs - 1))).
Proof.
  intros F X G FU. pose proof (u_range prec H24) as UR. pose proof (tens_pos (-6)) as TP.
  assert (N : B2R x <> 0). { intros C. rewrite C, Rabs_R0 in X. lra. }
  destruct (sigfig_scale x fuel F X FU) as (t & n & E & Ft & T & NB & W). clear FU X.
  destruct (unit_round t (figs - 1) Ft T ltac:(lia)) as (r & a & k & Er & Fr & K & Kh & WA & WR & RL).
  unfold froundSigFig. rewrite (proj2 (Z.ltb_lt 0 figs)) by lia. rewrite andb_false_r.
  destruct (fzero_val prec emax) as (F0 & V0). rewrite feq_val, V0 by auto. rewrite Req_bool_false by exact N.
  destruct (scale_down fuel (vabs x) 0) as [[t1 n1]|]; [|discriminate E]. rewrite E, Er. cbn [bind].
  destruct (pow_val prec emax Hp Hm H24 n ltac:(lia)) as (Fn & Vn). pose proof (rn_tens_bounds prec emax Hp Hm H24 n ltac:(lia)) as RN.
  pose proof (bpow_gt_0 radix2 (-24)) as B24. pose proof (bpow_gt_0 radix2 (-48)) as B48.
  assert (ML : bpow radix2 (-48) <= B2R r * rn (tens n) <= bpow radix2 48).
  { change (-48)%Z with (-24 + -24)%Z. change 48%Z with (24 + 24)%Z. rewrite !bpow_plus. split; apply Rmult_le_compat; lra. }
  destruct (fmul_small prec emax Hp Hm r (fpow10 n) Fr Fn) as (Fm & Vm).
  { rewrite Vn. apply rn_small with 48%Z; auto; [lia|lia|]. rewrite Rabs_pos_eq; lra. }
  rewrite Vn in Vm. destruct (fcopySign_val prec emax (fmul r (fpow10 n)) x Fm) as (Fc & Sc & Vc).
  replace (figs - 1 + 1)%Z with figs in K by ring.
  exists (fcopySign prec emax (fmul r (fpow10 n)) x), a, k, n. split; [reflexivity|]. split; auto. split; auto. split; auto. split; auto. split.
  - change 8%nat with (1 + 7)%nat. apply within_trans with (B2R t * tens (figs - 1)); auto.
    replace (figs - 1 - n)%Z with (- n + (figs - 1))%Z by ring. rewrite tens_add, <- Rmult_assoc. apply within_scale; [apply Rlt_le, tens_pos|exact W].
  - rewrite Vc, abs_signed by apply Rabs_pos. rewrite Vm, Rabs_pos_eq by (apply rn_pos; auto; lra).
    assert (K0 : 0 <= IZR k) by (apply IZR_le; apply Z.le_trans with (2 := proj1 K); apply Z.pow_nonneg; discriminate). clear K.
    change 4%nat with (1 + (2 + 1))%nat. apply within_trans with (B2R r * rn (tens n)); auto.
    + apply rn_within; auto. apply (normal_le emax (-48)%Z); auto; [lia|]. lra.
    + replace (n - (figs - 1))%Z with (- (figs - 1) + n)%Z by ring. rewrite tens_add, <- Rmult_assoc. apply within_mul; auto; try lra.
      * apply Rmult_le_pos; [exact K0|apply Rlt_le, tens_pos].
      * apply Rlt_le, tens_pos.
      * apply tens_within; auto. lia.
Qed.
End Rnd.
