(** C87: the rounding functions of double. *)
From Coq Require Import ZArith Reals List Lia Lra Bool.
From Flocq Require Import Core BinarySingleNaN.
From Verif Require Import Base AccModel AccSpec AccProofs NumModel NumSpec NumBasics RndModel RndSpec RndProofs RndScale RndLoops RndMod RndEven.
Import ListNotations.
Open Scope R_scope.

Local Notation double := (binary_float 53 1024).
Local Notation p53 := (eq_refl : Prec_gt_0 53).
Local Notation p1024 := (eq_refl : Prec_lt_emax 53 1024).
Local Notation dbl := (fint 53 1024 p53 p1024).
Local Notation "x ./ y" := (fdiv 53 1024 p53 p1024 x y) (at level 40).
Local Notation round := (fround 53 1024 p53 p1024).
Local Notation roundSigFig := (froundSigFig 53 1024 p53 p1024).
Local Notation roundTo := (froundTo 53 1024 p53 p1024).
Local Notation roundUpTo := (froundUpTo 53 1024 p53 p1024).
Local Notation u := (unit_roundoff 53).
Local Notation eta := (underflow_unit 53 1024).

(** round(x): for every finite x exactly the nearest integer, ties away from zero; the sign of x is
    kept, also by zeros. UP does the same as MATH. *)
Theorem C87_round : forall (x : double) mode, mode = MATH \/ mode = UP -> is_finite x = true ->
  exists r k, round x 0 mode = Ok r /\ is_finite r = true /\ Bsign r = Bsign x /\ B2R r = IZR k /\ half_away (B2R x) k.
Proof. intros x mode [-> | ->] F; apply round_whole; auto; lia. Qed.
Print Assumptions C87_round.
Example C87_round_ex :
  omap B2SF (round (dbl (-5) ./ dbl 2) 0 MATH) = Ok (B2SF (dbl (-3))) /\
  omap B2SF (round (dbl (2 ^ 53 - 1) ./ dbl (2 ^ 54)) 0 MATH) = Ok (B2SF (dbl 0)) /\
  omap B2SF (round (dbl (2 ^ 53 - 1)) 0 MATH) = Ok (B2SF (dbl (2 ^ 53 - 1))).
Proof. vm_compute. auto. Qed.

(** round(x, 0, DOWN) and TRUNC: exactly the integer part *)
Theorem C87_truncate : forall (x : double), is_finite x = true ->
  exists r k, round x 0 DOWN = Ok r /\ is_finite r = true /\ Bsign r = Bsign x /\ B2R r = IZR k /\ integer_part (B2R x) k.
Proof. intros x F. apply round_down_whole; auto. Qed.
Print Assumptions C87_truncate.
Example C87_truncate_ex : omap B2SF (round (dbl (-7) ./ dbl 4) 0 DOWN) = Ok (B2SF (dbl (-1))).
Proof. vm_compute. reflexivity. Qed.

(** round(x, 0, HALF_EVEN): a number half-way between two integers goes to the even one; every other
    number below 2^64 is truncated, which is not the nearest integer (see C39). *)
Theorem C87_half_even_partial : forall (x : double), is_finite x = true -> Rabs (B2R x) < IZR (2 ^ 64) ->
  exists r k, round x 0 HALF_EVEN = Ok r /\ is_finite r = true /\ Bsign r = Bsign x /\ B2R r = IZR k /\
    ((exists j, Rabs (B2R x - IZR j) = / 2) -> Z.even k = true /\ Rabs (IZR k - B2R x) = / 2) /\
    ((forall j, Rabs (B2R x - IZR j) <> / 2) -> integer_part (B2R x) k).
Proof.
  intros x F L. destruct (proj2 (even_whole 53 1024 p53 p1024 x ltac:(lia) F) L) as (r & E & Fr & Sr & Vr).
  pose proof (sign_abs 53 1024 x F) as SX. pose proof (Rabs_pos (B2R x)) as AP.
  pose proof (Zfloor_lb (Rabs (B2R x))) as FL. pose proof (Zfloor_ub (Rabs (B2R x))) as FU.
  set (k := half_even (Rabs (B2R x))) in *. exists r, (if Bsign x then - k else k)%Z. split; auto. split; auto. split; auto.
  split. { rewrite Vr. destruct (Bsign x); rewrite ?opp_IZR; reflexivity. }
  assert (T : (exists j, Rabs (B2R x - IZR j) = / 2) <-> Rabs (B2R x) - IZR (Zfloor (Rabs (B2R x))) = / 2).
  { split.
    - intros (j & J). assert (J' : exists i, Rabs (Rabs (B2R x) - IZR i) = / 2).
      { destruct (Bsign x).
        - exists (- j)%Z. rewrite opp_IZR. replace (Rabs (B2R x) - - IZR j) with (- (B2R x - IZR j)) by lra. rewrite Rabs_Ropp. exact J.
        - exists j. rewrite <- SX. exact J. }
      destruct J' as (i & I). destruct (Rle_or_lt 0 (Rabs (B2R x) - IZR i)) as [C|C].
      + rewrite Rabs_pos_eq in I by exact C. rewrite (Zfloor_imp i); [lra|]. rewrite plus_IZR. lra.
      + rewrite Rabs_left in I by exact C. rewrite (Zfloor_imp (i - 1)); rewrite ?plus_IZR, minus_IZR; lra.
    - intros H. destruct (Bsign x).
      + exists (- Zfloor (Rabs (B2R x)))%Z. rewrite opp_IZR. rewrite SX at 1.
        replace (- Rabs (B2R x) - - IZR (Zfloor (Rabs (B2R x)))) with (- (Rabs (B2R x) - IZR (Zfloor (Rabs (B2R x))))) by ring. rewrite H, Rabs_Ropp. apply Rabs_pos_eq. lra.
      + exists (Zfloor (Rabs (B2R x))). rewrite SX at 1. rewrite H. apply Rabs_pos_eq. lra. }
  split.
  - intros J. apply T in J. destruct (half_even_tie _ AP J) as (E1 & E2). fold k in E1, E2. destruct (Bsign x).
    + rewrite Z.even_opp, opp_IZR. split; auto. rewrite SX. replace (- IZR k - - Rabs (B2R x)) with (- (IZR k - Rabs (B2R x))) by ring. rewrite Rabs_Ropp. exact E2.
    + split; auto. rewrite SX. exact E2.
  - intros J. assert (K : k = Zfloor (Rabs (B2R x))). { apply half_even_no_tie. intros C. apply T in C. destruct C as (j & C). exact (J j C). }
    assert (K0 : 0 <= IZR k) by (rewrite K; apply IZR_le, Zfloor_lub; exact AP). pose proof (Rmult_le_pos _ _ K0 AP) as KM. rewrite <- K in FL, FU.
    unfold integer_part. destruct (Bsign x); rewrite ?opp_IZR, ?Rabs_Ropp, (Rabs_pos_eq _ K0); (split; [lra|]); rewrite SX; lra.
Qed.
Print Assumptions C87_half_even_partial.
Example C87_half_even_ex :
  omap B2SF (round (dbl 5 ./ dbl 2) 0 HALF_EVEN) = Ok (B2SF (dbl 2)) /\ omap B2SF (round (dbl (-7) ./ dbl 2) 0 HALF_EVEN) = Ok (B2SF (dbl (-4))) /\
  omap B2SF (round (dbl 11 ./ dbl 4) 0 HALF_EVEN) = Ok (B2SF (dbl 2)).
Proof. vm_compute. auto. Qed.
(** From 2^64 on the conversion to an integer is undefined. *)
Theorem C87_half_even_undefined_refuted : forall (x : double), is_finite x = true -> IZR (2 ^ 64) <= Rabs (B2R x) -> round x 0 HALF_EVEN = UB.
Proof. intros x F L. apply (even_whole 53 1024 p53 p1024 x ltac:(lia) F), L. Qed.
Print Assumptions C87_half_even_undefined_refuted.
Example C87_half_even_undefined_ex : round (dbl (10 ^ 20)) 0 HALF_EVEN = UB.
Proof. vm_compute. reflexivity. Qed.

(** Infinities and NaN are kept, for any number of places up to six and MATH, UP, DOWN, TRUNC. *)
Theorem C87_special : forall dp mode, (-6 <= dp <= 6)%Z -> mode = MATH \/ mode = UP \/ mode = DOWN ->
  (forall s, round (B754_infinity s) dp mode = Ok (B754_infinity s)) /\ round B754_nan dp mode = Ok B754_nan.
Proof.
  intros dp mode D M.
  assert (A : forall e, (-6 <= e <= 6)%Z -> exists m ex H, fpow10 53 1024 p53 p1024 e = B754_finite false m ex H).
  { intros e He. destruct (pow_facts 53 1024 p53 p1024 ltac:(lia) e He) as (F & V & P).
    destruct (rn_tens_bounds 53 1024 p53 p1024 ltac:(lia) e ltac:(lia)) as (B & _). pose proof (bpow_gt_0 radix2 (-24)).
    destruct (fpow10 53 1024 p53 p1024 e) as [s|s| |s m ex H1]; try discriminate F; [cbn in V; lra|].
    destruct s; [|eauto]. exfalso. assert (B2R (B754_finite true m ex H1) < 0) by (cbn [B2R]; apply F2R_lt_0; cbn; lia). lra. }
  destruct (A dp D) as (m & ex & H1 & E1). destruct (A (- dp)%Z ltac:(lia)) as (m' & ex' & H1' & E2). unfold fround. rewrite E1, E2.
  destruct M as [-> | [-> | ->]]; (split; [intros [|]; reflexivity|reflexivity]).
Qed.
Print Assumptions C87_special.
Example C87_special_ex : omap B2SF (round (dbl (-1) ./ dbl 0) 2 MATH) = Ok (SpecFloat.S754_infinity true).
Proof. vm_compute. reflexivity. Qed.

(** round(x, dp) with up to six places either way: a decimal k / 10^dp, up to four half-units in the
    last place of the result; k is the nearest integer to x * 10^dp computed with small error. *)
Theorem C87_places : forall (x : double) dp, (-6 <= dp <= 6)%Z -> is_finite x = true -> Rabs (B2R x) <= bpow radix2 974 ->
  exists r a k, round x dp MATH = Ok r /\ is_finite r = true /\ Bsign r = Bsign x /\
    Rabs (a - Rabs (B2R x) * tens dp) <= 3 * u * (Rabs (B2R x) * tens dp) + eta /\
    (0 <= k)%Z /\ half_away a k /\
    Rabs (Rabs (B2R r) - IZR k * tens (- dp)) <= 4 * u * (IZR k * tens (- dp)).
Proof.
  intros x dp D F L. destruct (round_places 53 1024 p53 p1024 ltac:(lia) ltac:(lia) x dp MATH D eq_refl eq_refl F L) as (r & k & E & Fr & Sr & Ek & Vr & Kp & Kh).
  exists r. eexists. exists k. split; [exact E|]. split; auto. split; auto. split; [|split; [exact Kp|split; [exact Kh|]]].
  - apply (scaled_ok 53 1024 p53 p1024); auto; [lia|lia|apply Rabs_pos].
  - rewrite Vr. apply (descaled 53 1024 p53 p1024); auto; lia.
Qed.
Print Assumptions C87_places.
Example C87_places_ex : omap B2SF (round (dbl (-12345) ./ dbl 1000) 2 MATH) = Ok (B2SF (dbl (-1235) ./ dbl 100)).
Proof. vm_compute. reflexivity. Qed.
(** The same for truncation *)
Theorem C87_places_down : forall (x : double) dp, (-6 <= dp <= 6)%Z -> is_finite x = true -> Rabs (B2R x) <= bpow radix2 974 ->
  exists r a k, round x dp DOWN = Ok r /\ is_finite r = true /\ Bsign r = Bsign x /\
    Rabs (a - Rabs (B2R x) * tens dp) <= 3 * u * (Rabs (B2R x) * tens dp) + eta /\
    0 <= IZR k <= a /\ a < IZR k + 1 /\
    Rabs (Rabs (B2R r) - IZR k * tens (- dp)) <= 4 * u * (IZR k * tens (- dp)).
Proof.
  intros x dp D F L. destruct (round_places_down 53 1024 p53 p1024 ltac:(lia) ltac:(lia) x dp DOWN D eq_refl eq_refl F L) as (r & k & E & Fr & Sr & Ek & Vr & Kp).
  exists r. eexists. exists k. split; [exact E|]. split; auto. split; auto. split; [|split; [|split]].
  - apply (scaled_ok 53 1024 p53 p1024); auto; [lia|lia|apply Rabs_pos].
  - rewrite Ek at 2. split; [apply IZR_le, Kp|apply Zfloor_lb].
  - rewrite Ek. apply Zfloor_ub.
  - rewrite Vr. apply (descaled 53 1024 p53 p1024); auto; lia.
Qed.
Print Assumptions C87_places_down.
Example C87_places_down_ex : omap B2SF (round (dbl 19 ./ dbl 8) 1 DOWN) = Ok (B2SF (fmul 53 1024 p53 p1024 (dbl 23) (dbl 1 ./ dbl 10))).
Proof. vm_compute. reflexivity. Qed.
(** The result need not be the double nearest to the decimal: rounding the literal 0.3 to one place
    gives another number. *)
Theorem C87_places_refuted : ~ (forall x : double, forall dp k, (0 <= dp <= 6)%Z -> B2R x = nearest 53 1024 (IZR k * tens (- dp)) -> (Z.abs k <= 10 ^ 6)%Z -> is_finite x = true ->
  omap B2SF (round x dp MATH) = Ok (B2SF x)).
Proof.
  intros H. assert (V : B2R (dbl 3 ./ dbl 10) = nearest 53 1024 (IZR 3 * tens (- (1)))).
  { rewrite tens_inv, tens_1. destruct (fint_exact 53 1024 p53 p1024 3 ltac:(lia)) as (F3 & V3). destruct (fint_exact 53 1024 p53 p1024 10 ltac:(lia)) as (F10 & V10).
    destruct (fdiv_small 53 1024 p53 p1024 (dbl 3) (dbl 10) F3) as (_ & V); [rewrite V10; lra| |rewrite V, V3, V10; reflexivity].
    rewrite V3, V10. apply (rn_small 53 1024 p53) with 0%Z; [lia|lia|]. rewrite Rabs_pos_eq by lra. change (bpow radix2 0) with 1. lra. }
  specialize (H _ 1%Z 3%Z ltac:(lia) V ltac:(lia) eq_refl). vm_compute in H. discriminate H.
Qed.
Print Assumptions C87_places_refuted.

(** roundSigFig ends for every finite number, after at most 400 rounds of its loops. *)
Theorem C87_significant_ends : forall (x : double) figs asserts, is_finite x = true ->
  exists res, forall fuel, (400 <= fuel)%nat -> roundSigFig fuel asserts x figs = Some res.
Proof.
  intros x figs asserts F. apply sigfig_some; auto; try lia.
  - apply Rle_trans with (bpow radix2 1200); [apply bpow_le; lia|]. rewrite <- IZR_Zpower by lia. rewrite (pow_IZR 9 400), <- mult_IZR. apply IZR_le. apply Z.leb_le. vm_compute. reflexivity.
  - change (3 - 1024 - 53)%Z with (- (1074))%Z. rewrite bpow_opp, <- IZR_Zpower, (pow_IZR 9 400) by lia.
    assert (P : 0 < IZR (radix2 ^ 1074)) by (apply IZR_lt; reflexivity). apply Rmult_le_reg_l with (IZR (radix2 ^ 1074)); auto.
    rewrite <- Rmult_assoc, Rinv_r, Rmult_1_l, Rmult_1_r by lra. apply IZR_le. apply Z.leb_le. vm_compute. reflexivity.
Qed.
Print Assumptions C87_significant_ends.
Example C87_significant_ends_ex : option_map (omap B2SF) (roundSigFig 400 true (dbl 1234567 ./ dbl 100) 3) = Some (Ok (B2SF (dbl 12300))).
Proof. vm_compute. reflexivity. Qed.
(** For an infinite argument it does not end. *)
Theorem C87_significant_infinite_refuted : forall s figs asserts fuel, (0 < figs)%Z -> roundSigFig fuel asserts (B754_infinity s) figs = None.
Proof.
  intros s figs asserts fuel G. unfold froundSigFig. rewrite (proj2 (Z.ltb_lt 0 figs)) by lia. rewrite andb_false_r.
  assert (E : vabs 53 1024 (B754_infinity s) = B754_infinity false) by (destruct s; reflexivity).
  assert (Q : feq 53 1024 (B754_infinity s) (fzero 53 1024) = false) by (destruct s; reflexivity). rewrite Q, E, inf_loop by lia. reflexivity.
Qed.
Print Assumptions C87_significant_infinite_refuted.

(** roundSigFig(x, figs) for 10^-6 <= |x| <= 10^7 and up to seven figures: a decimal with figs digits,
    up to a few units of rounding. *)
Theorem C87_significant : forall (x : double) figs asserts fuel, is_finite x = true -> tens (-6) <= Rabs (B2R x) <= tens 7 ->
  (1 <= figs <= 7)%Z -> (7 <= fuel)%nat ->
  exists r a k n, roundSigFig fuel asserts x figs = Some (Ok r) /\ is_finite r = true /\ Bsign r = Bsign x /\
    Rabs (a - Rabs (B2R x) * tens (figs - 1 - n)) <= 16 * u * (Rabs (B2R x) * tens (figs - 1 - n)) /\
    (10 ^ (figs - 1) <= k <= 10 ^ figs)%Z /\ half_away a k /\
    Rabs (Rabs (B2R r) - IZR k * tens (n - (figs - 1))) <= 8 * u * (IZR k * tens (n - (figs - 1))).
Proof.
  intros x figs asserts fuel F X G FU. destruct (sigfig_ok 53 1024 p53 p1024 ltac:(lia) ltac:(lia) x figs asserts fuel F X G FU) as (r & a & k & n & E & Fr & Sr & K & Kh & WA & WR).
  pose proof (u_range 53 ltac:(lia)) as UR. destruct (u_tiny 53 ltac:(lia)) as (U0 & U1).
  assert (A0 : 0 <= a).
  { destruct Kh as (H & _). apply Rabs_le_inv in H. assert (1 <= IZR k); [|lra]. apply IZR_le. apply Z.le_trans with (2 := proj1 K). apply (Z.pow_le_mono_r 10 0); lia. }
  assert (K0 : 0 <= IZR k) by (apply IZR_le; apply Z.le_trans with (2 := proj1 K); apply Z.pow_nonneg; lia).
  exists r, a, k, n. split; auto. split; auto. split; auto. split; [|split; [exact K|split; [exact Kh|]]].
  - replace (16 * u) with (2 * INR 8 * u) by (cbn; ring). apply within_err; auto; [apply Rmult_le_pos; [apply Rabs_pos|apply Rlt_le, tens_pos]|cbn; lra].
  - replace (8 * u) with (2 * INR 4 * u) by (cbn; ring). apply within_err; auto; [apply Rabs_pos|apply Rmult_le_pos; [exact K0|apply Rlt_le, tens_pos]|cbn; lra].
Qed.
Print Assumptions C87_significant.
Example C87_significant_ex : option_map (omap B2SF) (roundSigFig 7 true (dbl (-314159) ./ dbl 100) 3) = Some (Ok (B2SF (dbl (-3140)))).
Proof. vm_compute. reflexivity. Qed.

(** roundTo(x, val) for x >= 0 and val > 0: the nearest multiple of val, ties up, to within a few
    units of rounding of x + val. *)
Theorem C87_roundTo : forall x val : double, is_finite x = true -> is_finite val = true ->
  0 <= B2R x <= bpow radix2 1022 -> bpow radix2 (-1021) <= B2R val <= bpow radix2 1022 ->
  is_finite (roundTo x val) = true /\
  exists q, half_away (B2R x / B2R val) q /\ Rabs (B2R (roundTo x val) - IZR q * B2R val) <= 3 * u * (B2R x + B2R val).
Proof. intros x val Fx Fv X V. apply (roundTo_ok 53 1024 p53 p1024); auto. lia. Qed.
Print Assumptions C87_roundTo.
Example C87_roundTo_ex : B2SF (roundTo (dbl 123 ./ dbl 10) (dbl 5)) = B2SF (dbl 10) /\ B2SF (roundTo (dbl 15 ./ dbl 2) (dbl 5)) = B2SF (dbl 10).
Proof. vm_compute. auto. Qed.
(** roundUpTo(x, val): the least multiple that is not below x *)
Theorem C87_roundUpTo : forall x val : double, is_finite x = true -> is_finite val = true ->
  0 <= B2R x <= bpow radix2 1022 -> 0 < B2R val <= bpow radix2 1022 ->
  is_finite (roundUpTo x val) = true /\
  exists q, B2R x <= IZR q * B2R val < B2R x + B2R val /\ Rabs (B2R (roundUpTo x val) - IZR q * B2R val) <= 3 * u * (B2R x + B2R val).
Proof. intros x val Fx Fv X V. apply (roundUpTo_ok 53 1024 p53 p1024); auto. Qed.
Print Assumptions C87_roundUpTo.
Example C87_roundUpTo_ex : B2SF (roundUpTo (dbl 41 ./ dbl 4) (dbl 5)) = B2SF (dbl 15) /\ B2SF (roundUpTo (dbl 10) (dbl 5)) = B2SF (dbl 10).
Proof. vm_compute. auto. Qed.
