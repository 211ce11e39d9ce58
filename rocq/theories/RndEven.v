(** Proofs for C87: rounding half to even, infinities and NaN. *)
From Coq Require Import ZArith Reals List Lia Lra Bool.
From Flocq Require Import Core Relative BinarySingleNaN.
From Verif Require Import Base BaseProofs ShapeModel AccModel AccSpec AccProofs NumModel NumSpec NumBasics RndModel RndSpec RndProofs.
Import ListNotations.
Open Scope R_scope.

Section Rnd.
Variables prec emax : Z.
Context (Hp : Prec_gt_0 prec) (Hm : Prec_lt_emax prec emax).
Local Notation num := (binary_float prec emax).
Local Notation fone := (fone prec emax Hp Hm).
Local Notation fadd := (fadd prec emax Hp Hm).
Local Notation fmul := (fmul prec emax Hp Hm).
Local Notation fsub := (fsub prec emax Hp Hm).
Local Notation fint := (fint prec emax Hp Hm).
Local Notation vabs := (vabs prec emax).
Local Notation ffloor := (ffloor prec emax Hm).
Local Notation fhalf := (fhalf prec emax Hp Hm).
Local Notation rn := (nearest prec emax).
Local Notation big := (bpow radix2 emax).
Local Notation format := (generic_format radix2 (FLT_exp (3 - emax - prec) prec)).

Lemma to_uint64_val (y : num) z : is_finite y = true -> B2R y = IZR z -> (0 <= z)%Z ->
  to_uint64 prec emax y = if (z <? 2 ^ 64)%Z then Ok z else UB.
Proof.
  intros F V P. unfold to_uint64. rewrite F. assert (T : Btrunc y = z).
  { apply eq_IZR. rewrite Btrunc_correct by exact Hm. rewrite V. rewrite round_FIX_IZR, Ztrunc_IZR. reflexivity. }
  rewrite T. rewrite (proj2 (Z.leb_le 0 z) P). reflexivity.
Qed.

(** The integer chosen by HALF_EVEN for a non-negative number *)
Definition half_even (a : R) : Z :=
  if Req_bool (a - IZR (Zfloor a)) (/ 2) then (if Z.odd (Zfloor a) then Zfloor a + 1 else Zfloor a)%Z else Zfloor a.
Lemma tie_small a : format a -> 0 <= a -> a - IZR (Zfloor a) = / 2 -> (0 <= Zfloor a /\ Zfloor a + 1 <= 2 ^ prec)%Z.
Proof.
  intros F P H. assert (K : (0 <= Zfloor a)%Z) by (apply Zfloor_lub; exact P). split; auto.
  apply Zlt_le_succ. apply lt_IZR. apply Rle_lt_trans with a; [apply Zfloor_lb|]. apply Rnot_le_lt. intros C.
  destruct (format_large prec emax a F) as (k & E).
  - rewrite Rabs_pos_eq by exact P. apply Rle_trans with (2 := C). change 2%Z with (radix_val radix2). rewrite IZR_Zpower by (unfold Prec_gt_0 in Hp; lia).
    apply bpow_le. lia.
  - rewrite (floor_int _ _ E) in H. lra.
Qed.
Lemma round_even_val (a : num) : (2 <= prec)%Z -> is_finite a = true -> 0 <= B2R a ->
  let y := round_even prec emax Hp Hm HALF_EVEN (fsub a (ffloor a)) (round_up prec emax Hp Hm HALF_EVEN (fsub a (ffloor a)) (ffloor a)) in
  ((2 ^ 64 <= Zfloor (B2R a))%Z -> y = UB) /\
  ((Zfloor (B2R a) < 2 ^ 64)%Z -> exists r, y = Ok r /\ is_finite r = true /\ B2R r = IZR (half_even (B2R a))).
Proof.
  intros P2 F P y. destruct (ffloor_val prec emax Hm a F) as (Fy & Vy). destruct (diff_val prec emax Hp Hm a F P) as (Fd & Vd).
  destruct (fhalf_val prec emax Hp Hm P2) as (Fh & Vh). destruct (fone_val prec emax Hp Hm) as (F1 & V1).
  assert (K : (0 <= Zfloor (B2R a))%Z) by (apply Zfloor_lub; exact P).
  unfold y, round_even, round_up. change (Z.testbit HALF_EVEN 0) with false. change (Z.testbit HALF_EVEN 2) with true. change (Z.testbit HALF_EVEN 4) with true. cbn [andb].
  rewrite (to_uint64_val _ _ Fy Vy K). split; intros H.
  - rewrite (proj2 (Z.ltb_ge _ _) H). reflexivity.
  - rewrite (proj2 (Z.ltb_lt _ _) H). cbn [bind]. rewrite feq_val, Vd, Vh by auto. unfold half_even.
    destruct (Req_bool_spec (B2R a - IZR (Zfloor (B2R a))) (/ 2)) as [E|E]; [|eexists; split; [reflexivity|]; auto].
    destruct (tie_small (B2R a) (num_format _ _ a) P E) as (_ & L).
    assert (EX : forall z, (0 <= z <= 2 ^ prec)%Z -> rn (IZR z) = IZR z /\ Rabs (IZR z) < big).
    { intros z Hz. split; [apply rn_id; apply fmt_int; auto; rewrite Z.abs_eq; lia|]. rewrite Rabs_pos_eq by (apply IZR_le; lia).
      apply Rle_lt_trans with (bpow radix2 prec).
      - rewrite <- IZR_Zpower by (unfold Prec_gt_0 in Hp; lia). apply IZR_le. apply Hz.
      - apply bpow_lt, prec_emax, Hm. }
    destruct (Z.odd (Zfloor (B2R a))).
    + destruct (EX (Zfloor (B2R a) + 1)%Z ltac:(lia)) as (E1 & E2). eexists. split; [reflexivity|].
      destruct (fadd_small prec emax Hp Hm (ffloor a) fone Fy F1) as (Fs & Vs); rewrite Vy, V1, <- plus_IZR, E1 in *; auto.
    + eexists. split; [reflexivity|]. apply fint_exact. rewrite Z.abs_eq; lia.
Qed.

(** round with dp = 0 and HALF_EVEN *)
Lemma even_whole (x : num) : (2 <= prec)%Z -> is_finite x = true ->
  (IZR (2 ^ 64) <= Rabs (B2R x) -> fround prec emax Hp Hm x 0 HALF_EVEN = UB) /\
  (Rabs (B2R x) < IZR (2 ^ 64) ->
   exists r, fround prec emax Hp Hm x 0 HALF_EVEN = Ok r /\ is_finite r = true /\ Bsign r = Bsign x /\
     B2R r = (if Bsign x then - IZR (half_even (Rabs (B2R x))) else IZR (half_even (Rabs (B2R x))))).
Proof.
  intros P2 F. unfold fround. cbn [Z.opp]. rewrite (pow_zero prec emax Hp Hm). destruct (fint_one prec emax Hp Hm) as (F1 & V1). unfold round_with.
  assert (E : rn (B2R x * B2R (fint 1)) = B2R x) by (rewrite V1, Rmult_1_r; apply rn_id, num_format).
  destruct (fmul_small prec emax Hp Hm x (fint 1) F F1) as (Fm & Vm); [rewrite E; apply finite_lt|]. rewrite E in Vm.
  destruct (vabs_val prec emax _ Fm) as (Fv & Vv). rewrite Vm in Vv. set (a := vabs (fmul x (fint 1))) in *.
  assert (P : 0 <= B2R a) by (rewrite Vv; apply Rabs_pos).
  destruct (round_even_val a P2 Fv P) as (H1 & H2). rewrite Vv in H1, H2. split; intros H.
  - rewrite H1; [reflexivity|]. apply Zfloor_lub. exact H.
  - destruct H2 as (y & Ey & Fy & Vy). { apply lt_IZR. apply Rle_lt_trans with (2 := H). apply Zfloor_lb. }
    rewrite Ey. cbn [bind].
    assert (HE : 0 <= IZR (half_even (Rabs (B2R x)))).
    { apply IZR_le. assert (0 <= Zfloor (Rabs (B2R x)))%Z by (apply Zfloor_lub, Rabs_pos). unfold half_even. destruct Req_bool; [destruct Z.odd|]; lia. }
    assert (E2 : rn (B2R y * B2R (fint 1)) = B2R y) by (rewrite V1, Rmult_1_r; apply rn_id, num_format).
    destruct (fmul_small prec emax Hp Hm y (fint 1) Fy F1) as (F2 & V2); [rewrite E2; apply finite_lt|]. rewrite E2, Vy in V2.
    destruct (fcopySign_val prec emax _ x F2) as (Fc & Sc & Vc). rewrite V2, (Rabs_pos_eq _ HE) in Vc.
    eexists. split; [reflexivity|]. auto.
Qed.
Lemma half_even_tie a : 0 <= a -> a - IZR (Zfloor a) = / 2 -> Z.even (half_even a) = true /\ Rabs (IZR (half_even a) - a) = / 2.
Proof.
  intros P E. unfold half_even. rewrite Req_bool_true by exact E. destruct (Z.odd (Zfloor a)) eqn:O.
  - rewrite Z.add_1_r, Z.even_succ, O. split; auto. rewrite succ_IZR. rewrite Rabs_pos_eq; lra.
  - rewrite <- Z.negb_odd, O. split; auto. rewrite Rabs_left1; lra.
Qed.
Lemma half_even_no_tie a : a - IZR (Zfloor a) <> / 2 -> half_even a = Zfloor a.
Proof. intros E. unfold half_even. rewrite Req_bool_false by exact E. reflexivity. Qed.
End Rnd.
