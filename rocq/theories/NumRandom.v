(** Proofs about the random numbers over IEEE numbers. *)
From Coq Require Import ZArith Reals List Lia Lra Bool.
From Flocq Require Import Core Relative Plus_error BinarySingleNaN.
From Verif Require Import Base BaseProofs ShapeModel AccModel AccSpec AccProofs NumModel NumSpec NumBasics.
Import ListNotations.
Open Scope R_scope.

Section Random.
Variables prec emax : Z.
Context (Hp : Prec_gt_0 prec) (Hm : Prec_lt_emax prec emax).
Local Notation num := (binary_float prec emax).
Local Notation fzero := (fzero prec emax).
Local Notation fone := (fone prec emax Hp Hm).
Local Notation fadd := (fadd prec emax Hp Hm).
Local Notation fmul := (fmul prec emax Hp Hm).
Local Notation fsub := (fsub prec emax Hp Hm).
Local Notation fint := (fint prec emax Hp Hm).
Local Notation rn := (nearest prec emax).
Local Notation u := (unit_roundoff prec).
Local Notation v := (u / (1 + u)).
Local Notation big := (bpow radix2 emax).
Local Notation fexp := (FLT_exp (3 - emax - prec) prec).
Local Notation format := (generic_format radix2 fexp).

(** Scaling a number by at most 1 - 2^-prec makes it smaller. *)
Lemma gap d : format d -> bpow radix2 (3 - emax) <= d -> d - pred radix2 fexp d < 2 * u * d.
Proof.
  intros F B. pose proof (bpow_gt_0 radix2 (3 - emax)) as B0. assert (D0 : 0 < d) by lra.
  rewrite pred_eq_pos by lra. unfold pred_pos. assert (N : d <> 0) by lra.
  pose proof (bpow_mag_le radix2 d N) as M1. rewrite Rabs_pos_eq in M1 by lra.
  assert (M2 : (3 - emax + 1 <= mag radix2 d)%Z).
  { apply mag_ge_bpow. replace (3 - emax + 1 - 1)%Z with (3 - emax)%Z by ring. rewrite Rabs_pos_eq by lra. exact B. }
  assert (U2 : forall e, 2 * u * bpow radix2 e = bpow radix2 (e + 1 - prec)).
  { intros e. unfold unit_roundoff. change 2 with (bpow radix2 1) at 1. rewrite <- !bpow_plus. f_equal. ring. }
  unfold Prec_gt_0 in Hp. pose proof (u_pos prec) as U0.
  destruct (Req_bool_spec d (bpow radix2 (mag radix2 d - 1))) as [E|E].
  - replace (d - (d - bpow radix2 (fexp (mag radix2 d - 1)%Z))) with (bpow radix2 (fexp (mag radix2 d - 1)%Z)) by ring.
    replace (2 * u * d) with (2 * u * bpow radix2 (mag radix2 d - 1)) by (rewrite <- E; reflexivity). rewrite U2. apply bpow_lt. unfold FLT_exp. lia.
  - replace (d - (d - ulp radix2 fexp d)) with (ulp radix2 fexp d) by ring. rewrite ulp_neq_0 by exact N. unfold Generic_fmt.cexp.
    replace (fexp (mag radix2 d)) with (mag radix2 d - 1 + 1 - prec)%Z by (unfold FLT_exp; lia). rewrite <- U2.
    apply Rmult_lt_compat_l; lra.
Qed.
Lemma shrink d w : format d -> bpow radix2 (3 - emax) <= d -> 0 <= w <= 1 - u -> rn (d * w) < d.
Proof.
  intros F B W. pose proof (bpow_gt_0 radix2 (3 - emax)) as B0. assert (D0 : 0 < d) by lra. pose proof (u_pos prec) as U0.
  assert (L : rn (d * w) <= d) by (apply rn_le_format; auto; nra).
  destruct (Rle_lt_or_eq_dec _ _ L) as [H|E]; auto. exfalso.
  destruct (round_N_pt radix2 fexp (fun z => negb (Z.even z)) (d * w)) as (_ & NP).
  specialize (NP (pred radix2 fexp d) (generic_format_pred _ _ _ F)).
  change (round radix2 fexp (Znearest (fun z => negb (Z.even z))) (d * w)) with (rn (d * w)) in NP. rewrite E in NP.
  pose proof (gap d F B) as G. pose proof (pred_lt_id radix2 fexp d ltac:(lra)) as P.
  rewrite (Rabs_pos_eq (d - d * w)) in NP by nra. destruct (Rle_or_lt (d * w) (pred radix2 fexp d)) as [H|H].
  - rewrite Rabs_pos_eq in NP by lra. lra.
  - rewrite Rabs_left in NP by lra. nra.
Qed.

(** The computed random number as a real *)
Definition ran (lo hi w : R) : R := rn (lo + rn (rn (hi - lo) * w)).
Lemma ran_ge lo hi w : format lo -> lo <= hi -> 0 <= w -> lo <= ran lo hi w.
Proof.
  intros F H W. unfold ran. apply rn_ge_format; auto. assert (0 <= rn (hi - lo)) by (apply rn_pos; auto; lra).
  assert (0 <= rn (rn (hi - lo) * w)) by (apply rn_pos; auto; apply Rmult_le_pos; auto). lra.
Qed.
Lemma ran_part lo hi w : format lo -> format hi -> lo <= hi -> 0 <= w <= 1 - u -> lo + rn (rn (hi - lo) * w) <= hi.
Proof.
  intros F1 F2 H W. pose proof (u_pos prec) as U0. set (y := hi - lo). set (d := rn y).
  assert (Y0 : 0 <= y) by (unfold y; lra). assert (D0 : 0 <= d) by (apply rn_pos; auto).
  assert (Fd : format d) by (apply rn_format; exact Hp).
  assert (K : rn (d * w) <= y); [|unfold y in K; lra].
  destruct (Rle_or_lt d y) as [L|L].
  - apply Rle_trans with d; auto. apply rn_le_format; auto. nra.
  - assert (B : bpow radix2 (3 - emax) <= d).
    { apply rn_ge_format; auto; [apply big_format; auto; unfold Prec_gt_0 in Hp; lia|]. apply Rnot_lt_le. intros C.
      assert (format y).
      { unfold y, Rminus. apply FLT_format_plus_small; auto; [apply generic_format_opp; auto|].
        replace (prec + (3 - emax - prec))%Z with (3 - emax)%Z by ring. fold (hi - lo). fold y. rewrite Rabs_pos_eq; lra. }
      unfold d in L. rewrite rn_id in L; auto. lra. }
    pose proof (shrink d w Fd B W) as S.
    assert (PD : rn (d * w) <= pred radix2 fexp d) by (apply pred_ge_gt; auto; [typeclasses eauto|apply rn_format; exact Hp]).
    apply Rle_trans with (1 := PD). apply Rnot_lt_le. intros C.
    assert (d <= pred radix2 fexp d).
    { unfold d at 1. apply rn_le_format; auto; [|lra]. apply generic_format_pred; auto. typeclasses eauto. }
    pose proof (pred_lt_id radix2 fexp d ltac:(lra)). lra.
Qed.
Lemma ran_le lo hi w : format lo -> format hi -> lo <= hi -> 0 <= w <= 1 - u -> ran lo hi w <= hi.
Proof. intros F1 F2 H W. apply rn_le_format; auto. apply ran_part; auto. Qed.

(** The same for the operations *)
Lemma random_ok (lo hi w : num) : is_finite lo = true -> is_finite hi = true -> is_finite w = true ->
  B2R lo <= B2R hi -> 0 <= B2R w <= 1 - u -> Rabs (rn (B2R hi - B2R lo)) < big ->
  let x := frandom prec emax Hp Hm lo hi w in
  is_finite x = true /\ B2R x = ran (B2R lo) (B2R hi) (B2R w) /\ B2R lo <= B2R x <= B2R hi.
Proof.
  intros F1 F2 F3 H W D x. pose proof (num_format _ _ lo) as G1. pose proof (num_format _ _ hi) as G2. pose proof (u_pos prec) as U0.
  destruct (fsub_small prec emax Hp Hm hi lo F2 F1 D) as (F4 & V4).
  assert (D0 : 0 <= rn (B2R hi - B2R lo)) by (apply rn_pos; auto; lra). rewrite Rabs_pos_eq in D by exact D0.
  assert (P0 : 0 <= rn (rn (B2R hi - B2R lo) * B2R w)) by (apply rn_pos; auto; apply Rmult_le_pos; lra).
  destruct (fmul_small prec emax Hp Hm (fsub hi lo) w F4 F3) as (F5 & V5).
  { rewrite V4, Rabs_pos_eq by exact P0. apply Rle_lt_trans with (2 := D). apply rn_le_format; auto; [apply rn_format; exact Hp|]. nra. }
  rewrite V4 in V5. pose proof (ran_ge _ _ _ G1 H (proj1 W)) as R1. pose proof (ran_le _ _ _ G1 G2 H W) as R2.
  destruct (fadd_small prec emax Hp Hm lo (fmul (fsub hi lo) w) F1 F5) as (F6 & V6).
  { rewrite V5. fold (ran (B2R lo) (B2R hi) (B2R w)). pose proof (finite_lt prec emax lo) as A1. pose proof (finite_lt prec emax hi) as A2.
    apply Rabs_lt_inv in A1. apply Rabs_lt_inv in A2. apply Rabs_lt. lra. }
  rewrite V5 in V6. unfold x, frandom. split; auto. split; [exact V6|]. rewrite V6. split; [exact R1|exact R2].
Qed.

(** Truncation to an integer *)
Lemma to_int64_val (x : num) : is_finite x = true -> - IZR (2 ^ 63) <= B2R x < IZR (2 ^ 63) ->
  to_int64 prec emax x = Ok (Ztrunc (B2R x)).
Proof.
  intros F H. unfold to_int64. rewrite F. assert (T : Btrunc x = Ztrunc (B2R x)).
  { apply eq_IZR. rewrite Btrunc_correct by exact Hm. apply round_FIX_IZR. }
  rewrite T. assert (A : (- 2 ^ 63 <= Ztrunc (B2R x) < 2 ^ 63)%Z).
  { destruct (Rle_or_lt 0 (B2R x)) as [P|P].
    - rewrite Ztrunc_floor by exact P. split.
      + apply Z.le_trans with 0%Z; [lia|]. apply Zfloor_lub. exact P.
      + apply lt_IZR. apply Rle_lt_trans with (2 := proj2 H). apply Zfloor_lb.
    - rewrite Ztrunc_ceil by lra. split.
      + apply le_IZR. rewrite opp_IZR. apply Rle_trans with (1 := proj1 H). apply Zceil_ub.
      + apply Z.le_lt_trans with 0%Z; [|lia]. apply Zceil_glb. lra. }
  rewrite (proj2 (Z.leb_le _ _) (proj1 A)), (proj2 (Z.ltb_lt _ _) (proj2 A)). reflexivity.
Qed.
Lemma randint_real lower upper (w : num) : (0 <= lower <= upper)%Z -> (upper + 1 <= 2 ^ prec)%Z -> (prec <= 62)%Z ->
  is_finite w = true -> 0 <= B2R w <= 1 - u ->
  frandint prec emax Hp Hm lower upper w = Ok (Ztrunc (ran (IZR lower) (IZR (upper + 1)) (B2R w))) /\
  IZR lower <= ran (IZR lower) (IZR (upper + 1)) (B2R w) <= IZR (upper + 1).
Proof.
  intros L H P62 F W. unfold frandint. destruct (lower <? 0)%Z eqn:E; [apply Z.ltb_lt in E; lia|]. rewrite Z.sub_0_r.
  destruct (fint_exact prec emax Hp Hm lower) as (F1 & V1); [lia|]. destruct (fint_exact prec emax Hp Hm upper) as (F2 & V2); [lia|].
  destruct (fone_val prec emax Hp Hm) as (F3 & V3).
  assert (I : forall z, (0 <= z <= 2 ^ prec)%Z -> rn (IZR z) = IZR z /\ Rabs (IZR z) < big).
  { intros z Hz. split; [apply rn_id, fmt_int; auto; lia|]. rewrite Rabs_pos_eq by (apply IZR_le; lia).
    apply Rle_lt_trans with (IZR (2 ^ prec)); [apply IZR_le; lia|]. unfold Prec_gt_0 in Hp. change 2%Z with (radix_val radix2).
    rewrite IZR_Zpower by lia. apply bpow_lt. exact Hm. }
  destruct (I (upper + 1)%Z) as (E1 & B1); [lia|].
  destruct (fadd_small prec emax Hp Hm (fint upper) fone F2 F3) as (F4 & V4).
  { rewrite V2, V3. change 1 with (IZR 1). rewrite <- plus_IZR, E1. exact B1. }
  rewrite V2, V3 in V4. change 1 with (IZR 1) in V4. rewrite <- plus_IZR, E1 in V4.
  destruct (I (upper + 1 - lower)%Z) as (E2 & B2); [lia|].
  destruct (random_ok (fint lower) (fadd (fint upper) fone) w F1 F4 F) as (F5 & V5 & R5); auto.
  { rewrite V1, V4. apply IZR_le. lia. }
  { rewrite V1, V4, <- minus_IZR, E2. exact B2. }
  rewrite V1, V4 in V5, R5. rewrite V5 in R5. split; [|exact R5]. rewrite to_int64_val; auto; [rewrite V5; reflexivity|]. rewrite V5.
  assert (IZR 0 <= IZR lower) by (apply IZR_le; lia).
  assert (IZR (upper + 1) < IZR (2 ^ 63)).
  { apply IZR_lt. apply Z.le_lt_trans with (1 := H). unfold Prec_gt_0 in Hp. apply Z.pow_lt_mono_r; lia. }
  assert (0 <= IZR (2 ^ 63)) by (apply IZR_le; lia). lra.
Qed.
Lemma trunc_range x a b : (0 <= a)%Z -> IZR a <= x < IZR (b + 1) -> (a <= Ztrunc x <= b)%Z.
Proof.
  intros A H. apply IZR_le in A. rewrite Ztrunc_floor by lra. split; [apply Zfloor_lub; lra|].
  assert (Zfloor x < b + 1)%Z; [|lia]. apply lt_IZR. apply Rle_lt_trans with (2 := proj2 H). apply Zfloor_lb.
Qed.
(** [0, n]: always in range *)
Lemma randint_zero upper (w : num) : (0 <= upper)%Z -> (upper + 1 <= 2 ^ prec)%Z -> (prec <= 62)%Z -> (3 <= emax)%Z ->
  is_finite w = true -> 0 <= B2R w <= 1 - u ->
  exists z, frandint prec emax Hp Hm 0 upper w = Ok z /\ (0 <= z <= upper)%Z.
Proof.
  intros L H P62 Em F W. destruct (randint_real 0 upper w ltac:(lia) H P62 F W) as (E & R). eexists. split; [exact E|].
  apply trunc_range; [lia|]. split; [apply R|]. unfold ran. rewrite Rplus_0_l, Rminus_0_r.
  assert (Fu : format (IZR (upper + 1))) by (apply fmt_int; auto; lia).
  rewrite (rn_id prec emax (IZR (upper + 1)) Fu). rewrite (rn_id prec emax (rn _)) by (apply rn_format; exact Hp). apply shrink; auto.
  apply Rle_trans with 1; [change 1 with (bpow radix2 0); apply bpow_le; lia|]. apply IZR_le. lia.
Qed.
(** [lower, upper]: unless w is within the margin of 1 *)
Lemma randint_margin lower upper (w : num) : (0 <= lower <= upper)%Z -> (upper + 1 <= 2 ^ prec)%Z -> (prec <= 62)%Z -> (3 <= emax)%Z ->
  is_finite w = true -> 0 <= B2R w -> u * (IZR (upper + 1 - lower) + IZR (upper + 1)) < (1 - B2R w) * IZR (upper + 1 - lower) ->
  exists z, frandint prec emax Hp Hm lower upper w = Ok z /\ (lower <= z <= upper)%Z.
Proof.
  intros L H P62 Em F W0 M. pose proof (u_pos prec) as U0.
  set (D := IZR (upper + 1 - lower)) in *. set (h := IZR (upper + 1)) in *.
  assert (D1 : 1 <= D) by (apply IZR_le; lia). assert (HD : D <= h) by (apply IZR_le; lia).
  assert (W : 0 <= B2R w <= 1 - u) by (split; auto; nra).
  destruct (randint_real lower upper w L H P62 F W) as (E & R). fold h in E, R. eexists. split; [exact E|].
  apply trunc_range; [lia|]. split; [apply R|]. fold h. unfold ran.
  assert (Fh : format h) by (apply fmt_int; auto; lia).
  assert (FD : format D) by (apply fmt_int; auto; lia).
  assert (DE : h - IZR lower = D) by (unfold h, D; rewrite <- minus_IZR; reflexivity). rewrite DE, (rn_id prec emax D FD).
  assert (FW : format (B2R w)) by apply num_format.
  (* rounding of the product and of the sum *)
  set (p := rn (D * B2R w)).
  assert (Rel : forall x, / 2 <= x -> rn x <= x * (1 + u)).
  { intros x Hx. pose proof (relative_error_N_FLT radix2 (3 - emax - prec) prec Hp (fun z => negb (Z.even z)) x) as RE.
    replace (/ 2 * bpow radix2 (- prec + 1)) with u in RE by (unfold unit_roundoff; rewrite bpow_plus; change (bpow radix2 1) with 2; field).
    rewrite (Rabs_pos_eq x) in RE by lra. assert (B : bpow radix2 (3 - emax - prec + prec - 1) <= x).
    { apply Rle_trans with (2 := Hx). change (/ 2) with (bpow radix2 (-1)). apply bpow_le. lia. }
    specialize (RE B). change (Rabs (rn x - x) <= u * x) in RE. apply Rabs_le_inv in RE. lra. }
  assert (Half : forall x, x < / 2 -> rn x <= / 2).
  { intros x C. apply rn_le_format; auto; [|lra]. change (/ 2) with (bpow radix2 (-1)). apply big_format; auto. unfold Prec_gt_0 in Hp. lia. }
  assert (P1 : p <= D * B2R w + u * D).
  { destruct (Rle_or_lt (/ 2) (D * B2R w)) as [C|C]; [pose proof (Rel _ C) as C1; fold p in C1; nra|].
    pose proof (rn_err prec emax Hp (D * B2R w)) as Er. fold p in Er. apply Rabs_le_inv in Er. rewrite Rabs_pos_eq in Er by nra.
    assert (Et : underflow_unit prec emax <= u * / 2).
    { unfold underflow_unit, unit_roundoff. rewrite (Rmult_comm (bpow _ _)). apply Rmult_le_compat_l; [lra|]. apply bpow_le. lia. }
    pose proof (v_le prec) as VL. pose proof (v_pos prec) as V0. nra. }
  assert (Q : (IZR lower + p) + u * h < h) by nra.
  assert (L0 : 0 <= IZR lower) by (apply IZR_le; lia).
  destruct (Rle_or_lt (/ 2) (IZR lower + p)) as [C|C]; [pose proof (Rel _ C); nra|pose proof (Half _ C); lra].
Qed.
End Random.
