(** Proofs for C87: multiples of a number. *)
From Coq Require Import ZArith Reals List Lia Lra Bool.
From Flocq Require Import Core Relative Mult_error BinarySingleNaN.
From Verif Require Import Base BaseProofs ShapeModel AccModel AccSpec AccProofs NumModel NumSpec NumBasics RndModel RndSpec RndProofs RndScale.
Import ListNotations.
Open Scope R_scope.

Section Rnd.
Variables prec emax : Z.
Context (Hp : Prec_gt_0 prec) (Hm : Prec_lt_emax prec emax).
Local Notation num := (binary_float prec emax).
Local Notation fzero := (fzero prec emax).
Local Notation fone := (fone prec emax Hp Hm).
Local Notation fadd := (fadd prec emax Hp Hm).
Local Notation fmul := (fmul prec emax Hp Hm).
Local Notation fsub := (fsub prec emax Hp Hm).
Local Notation fdiv := (fdiv prec emax Hp Hm).
Local Notation fint := (fint prec emax Hp Hm).
Local Notation fmod := (fmod prec emax Hp Hm).
Local Notation vabs := (vabs prec emax).
Local Notation rn := (nearest prec emax).
Local Notation u := (unit_roundoff prec).
Local Notation v := (u / (1 + u)).
Local Notation big := (bpow radix2 emax).
Local Notation emin := (3 - emax - prec)%Z.
Local Notation format := (generic_format radix2 (FLT_exp emin prec)).

Lemma mantissa m e : SpecFloat.bounded prec emax m e = true -> (Zpos m < 2 ^ prec)%Z /\ (emin <= e)%Z.
Proof.
  intros H. unfold SpecFloat.bounded, SpecFloat.canonical_mantissa in H. apply andb_prop in H. destruct H as (H & _). apply Zeq_bool_eq in H.
  unfold SpecFloat.fexp, SpecFloat.emin in H. rewrite Digits.Zpos_digits2_pos in H. split; [|lia].
  change 2%Z with (radix_val radix2). change (Zpos m) with (Z.abs (Zpos m)). apply Digits.Zpower_gt_Zdigits. lia.
Qed.
Lemma rescale s m e e0 : (e0 <= e)%Z -> F2R (Float radix2 (cond_Zopp s (Zpos m)) e) = F2R (Float radix2 (cond_Zopp s (Zpos m * 2 ^ (e - e0))) e0).
Proof.
  intros H. unfold F2R. cbn [Fnum Fexp]. rewrite !cond_Ropp_cond_Zopp_IZR || idtac.
  assert (E : IZR (Zpos m * 2 ^ (e - e0)) = IZR (Zpos m) * bpow radix2 (e - e0)).
  { rewrite mult_IZR. change 2%Z with (radix_val radix2). rewrite IZR_Zpower by lia. reflexivity. }
  assert (B : bpow radix2 e = bpow radix2 (e - e0) * bpow radix2 e0) by (rewrite <- bpow_plus; f_equal; ring).
  rewrite B. destruct s; cbn [cond_Zopp]; rewrite ?opp_IZR, ?E; ring.
Qed.
(** fmod is exact *)
Lemma fmod_ok (x y : num) : is_finite x = true -> is_finite y = true -> B2R y <> 0 ->
  is_finite (fmod x y) = true /\ exists q, B2R x = IZR q * B2R y + B2R (fmod x y) /\ Rabs (B2R (fmod x y)) < Rabs (B2R y) /\ 0 <= B2R (fmod x y) * B2R x /\ Rabs (B2R (fmod x y)) <= Rabs (B2R x).
Proof.
  intros Fx Fy N. destruct y as [sy|sy| |sy my ey Hy]; try discriminate Fy; [cbn in N; lra|].
  destruct x as [sx|sx| |sx mx ex Hx]; try discriminate Fx.
  - cbn [RndModel.fmod]. split; auto. exists 0%Z. cbn [B2R]. rewrite Rabs_R0. split; [ring|]. split; [apply Rabs_pos_lt; exact N|]. split; lra.
  - cbn [RndModel.fmod]. destruct (mantissa _ _ Hx) as (Mx & Ex). destruct (mantissa _ _ Hy) as (My & Ey).
    set (e0 := Z.min ex ey). set (X := (Zpos mx * 2 ^ (ex - e0))%Z). set (Y := (Zpos my * 2 ^ (ey - e0))%Z).
    assert (PX : (0 < 2 ^ (ex - e0))%Z) by (apply Z.pow_pos_nonneg; unfold e0; lia).
    assert (PY : (0 < 2 ^ (ey - e0))%Z) by (apply Z.pow_pos_nonneg; unfold e0; lia).
    assert (X0 : (0 < X)%Z) by (unfold X; lia). assert (Y0 : (0 < Y)%Z) by (unfold Y; lia).
    rewrite Z.rem_mod_nonneg by lia. pose proof (Z.mod_pos_bound X Y Y0) as RB. pose proof (Z.div_mod X Y ltac:(lia)) as DM.
    assert (RX : (X mod Y <= X)%Z) by (apply Z.mod_le; lia).
    set (r := (X mod Y)%Z) in *. set (q := (X / Y)%Z) in *.
    assert (R2 : (r < 2 ^ prec)%Z).
    { destruct (Z.le_gt_cases ex ey) as [C|C].
      - assert (EX : X = Zpos mx) by (unfold X; replace (ex - e0)%Z with 0%Z by (unfold e0; lia); apply Z.mul_1_r). lia.
      - assert (EY : Y = Zpos my) by (unfold Y; replace (ey - e0)%Z with 0%Z by (unfold e0; lia); apply Z.mul_1_r). lia. }
    assert (FR : format (F2R (Float radix2 (cond_Zopp sx r) e0))).
    { apply generic_format_FLT. exists (Float radix2 (cond_Zopp sx r) e0); cbn [Fnum Fexp]; [reflexivity| |unfold e0; lia].
      rewrite abs_cond_Zopp, Z.abs_eq by lia. exact R2. }
    assert (VX : B2R (B754_finite sx mx ex Hx) = F2R (Float radix2 (cond_Zopp sx X) e0)) by (apply rescale; unfold e0; lia).
    assert (VY : B2R (B754_finite sy my ey Hy) = F2R (Float radix2 (cond_Zopp sy Y) e0)) by (apply rescale; unfold e0; lia).
    assert (AR : Rabs (F2R (Float radix2 (cond_Zopp sx r) e0)) = IZR r * bpow radix2 e0).
    { rewrite <- F2R_Zabs. unfold F2R. cbn [Fnum Fexp]. rewrite abs_cond_Zopp, Z.abs_eq by lia. reflexivity. }
    assert (AX : Rabs (F2R (Float radix2 (cond_Zopp sx X) e0)) = IZR X * bpow radix2 e0).
    { rewrite <- F2R_Zabs. unfold F2R. cbn [Fnum Fexp]. rewrite abs_cond_Zopp, Z.abs_eq by lia. reflexivity. }
    assert (AY : Rabs (F2R (Float radix2 (cond_Zopp sy Y) e0)) = IZR Y * bpow radix2 e0).
    { rewrite <- F2R_Zabs. unfold F2R. cbn [Fnum Fexp]. rewrite abs_cond_Zopp, Z.abs_eq by lia. reflexivity. }
    pose proof (bpow_gt_0 radix2 e0) as B0. pose proof (IZR_le _ _ RX) as RX'. pose proof (IZR_lt _ _ (proj2 RB)) as RB'. pose proof (IZR_le _ _ (proj1 RB)) as RB0.
    assert (LE : IZR r * bpow radix2 e0 <= IZR X * bpow radix2 e0) by (apply Rmult_le_compat_r; lra).
    pose proof (binary_normalize_correct prec emax Hp Hm mode_NE (cond_Zopp sx r) e0 sx) as C. cbv zeta in C.
    rewrite (rn_id prec emax _ FR : round radix2 (SpecFloat.fexp prec emax) (round_mode mode_NE) _ = _) in C.
    rewrite Rlt_bool_true in C.
    + destruct C as (V & F & _). split; auto. exists (if sx then - (if sy then - q else q) else (if sy then - q else q))%Z.
      rewrite V, VX, VY, AR, AX, AY. split.
      * unfold F2R. cbn [Fnum Fexp]. rewrite DM. destruct sx, sy; cbn [cond_Zopp]; rewrite ?opp_IZR, ?plus_IZR, ?mult_IZR, ?opp_IZR; ring.
      * split; [apply Rmult_lt_compat_r; lra|]. split; [|exact LE].
        unfold F2R. cbn [Fnum Fexp]. replace (IZR (cond_Zopp sx r) * bpow radix2 e0 * (IZR (cond_Zopp sx X) * bpow radix2 e0)) with (IZR r * IZR X * (bpow radix2 e0 * bpow radix2 e0)).
        -- apply Rmult_le_pos; apply Rmult_le_pos; lra.
        -- destruct sx; cbn [cond_Zopp]; rewrite ?opp_IZR; ring.
    + rewrite AR. apply Rle_lt_trans with (1 := LE). rewrite <- AX, <- VX. apply finite_lt.
Qed.
(** For positive numbers *)
Lemma fmod_pos (x y : num) : is_finite x = true -> is_finite y = true -> 0 <= B2R x -> 0 < B2R y ->
  is_finite (fmod x y) = true /\ exists q, (0 <= q)%Z /\ B2R x = IZR q * B2R y + B2R (fmod x y) /\ 0 <= B2R (fmod x y) < B2R y /\ B2R (fmod x y) <= B2R x.
Proof.
  intros Fx Fy Px Py. destruct (fmod_ok x y Fx Fy ltac:(lra)) as (F & q & E & L & S & X). split; auto. exists q.
  rewrite (Rabs_pos_eq (B2R y)) in L by lra. rewrite (Rabs_pos_eq (B2R x)) in X by lra.
  assert (R0 : 0 <= B2R (fmod x y)).
  { destruct (Rle_or_lt 0 (B2R (fmod x y))) as [|C]; auto. rewrite Rabs_left in X by exact C. assert (B2R x = 0) by nra. lra. }
  rewrite Rabs_pos_eq in L, X by exact R0. split; [|lra].
  apply Znot_gt_le. intros C. apply Z.gt_lt, Zlt_le_succ, IZR_le in C. rewrite succ_IZR in C. nra.
Qed.
Lemma v_le_u : 0 <= v <= u.
Proof.
  pose proof (u_pos prec) as U0. split; [apply Rmult_le_pos; [lra|]; apply Rlt_le, Rinv_0_lt_compat; lra|].
  apply Rmult_le_reg_r with (1 + u); [lra|]. unfold Rdiv. rewrite Rmult_assoc, Rinv_l by lra. nra.
Qed.
Lemma sub_rel x y : format x -> format y -> Rabs (rn (x - y) - (x - y)) <= u * Rabs (x - y).
Proof.
  intros Fx Fy. eapply Rle_trans; [apply (add_rel prec emax Hp x (- y) Fx); apply generic_format_opp; exact Fy|].
  apply Rmult_le_compat_r; [apply Rabs_pos|apply v_le_u].
Qed.
(** x + y - r, computed in that order *)
Lemma up_ok (x y r : num) : is_finite x = true -> is_finite y = true -> is_finite r = true ->
  0 <= B2R x <= bpow radix2 (emax - 2) -> 0 < B2R y <= bpow radix2 (emax - 2) -> 0 <= B2R r <= B2R x ->
  is_finite (fsub (fadd x y) r) = true /\ 0 <= B2R (fsub (fadd x y) r) /\
  Rabs (B2R (fsub (fadd x y) r) - (B2R x + B2R y - B2R r)) <= 3 * u * (B2R x + B2R y).
Proof.
  intros Fx Fy Fr X Y R. pose proof (u_pos prec) as U0. pose proof (u_half prec Hp) as U1. pose proof v_le_u as VU. pose proof (prec_emax prec emax Hm) as PE.
  assert (FX := num_format _ _ x). assert (FY := num_format _ _ y).
  assert (B1 : bpow radix2 (emax - 2) + bpow radix2 (emax - 2) = bpow radix2 (emax - 1)).
  { replace (emax - 1)%Z with (1 + (emax - 2))%Z by ring. rewrite bpow_plus. change (bpow radix2 1) with 2. ring. }
  assert (G : format (bpow radix2 (emax - 1))) by (apply big_format; auto; unfold Prec_gt_0 in Hp; lia).
  assert (S : 0 <= rn (B2R x + B2R y) <= bpow radix2 (emax - 1)) by (split; [apply rn_pos; auto; lra|apply rn_le_format; auto; lra]).
  assert (BL : bpow radix2 (emax - 1) < big) by (apply bpow_lt; lia).
  assert (SX : B2R x <= rn (B2R x + B2R y)) by (apply rn_ge_format; auto; lra).
  destruct (fadd_small prec emax Hp Hm x y Fx Fy) as (Fs & Vs); [rewrite Rabs_pos_eq; lra|].
  pose proof (add_rel prec emax Hp (B2R x) (B2R y) FX FY) as E1. rewrite <- Vs in E1, S, SX. rewrite (Rabs_pos_eq (B2R x + B2R y)) in E1 by lra.
  assert (FS := num_format _ _ (fadd x y)). assert (FRr := num_format _ _ r).
  assert (D : 0 <= rn (B2R (fadd x y) - B2R r) <= bpow radix2 (emax - 1)) by (split; [apply rn_pos; auto; lra|apply rn_le_format; auto; lra]).
  destruct (fsub_small prec emax Hp Hm (fadd x y) r Fs Fr) as (Fd & Vd); [rewrite Rabs_pos_eq; lra|].
  pose proof (sub_rel _ _ FS FRr) as E2. rewrite <- Vd in E2, D. rewrite (Rabs_pos_eq (B2R (fadd x y) - B2R r)) in E2 by lra.
  split; auto. split; [apply D|]. set (s := B2R (fadd x y)) in *. set (d := B2R (fsub (fadd x y) r)) in *.
  assert (V1 : v * (B2R x + B2R y) <= u * (B2R x + B2R y)) by (apply Rmult_le_compat_r; lra).
  apply Rabs_le_inv in E1. apply Rabs_le_inv in E2.
  assert (SL : s <= 2 * (B2R x + B2R y)). { assert (u * (B2R x + B2R y) <= B2R x + B2R y) by nra. lra. }
  assert (U2 : u * (s - B2R r) <= 2 * u * (B2R x + B2R y)).
  { replace (2 * u * (B2R x + B2R y)) with (u * (2 * (B2R x + B2R y))) by ring. apply Rmult_le_compat_l; lra. }
  apply Rabs_le. lra.
Qed.
Lemma roundUpTo_ok (x y : num) : is_finite x = true -> is_finite y = true ->
  0 <= B2R x <= bpow radix2 (emax - 2) -> 0 < B2R y <= bpow radix2 (emax - 2) ->
  let r := froundUpTo prec emax Hp Hm x y in
  is_finite r = true /\ exists q, B2R x <= IZR q * B2R y < B2R x + B2R y /\ Rabs (B2R r - IZR q * B2R y) <= 3 * u * (B2R x + B2R y).
Proof.
  intros Fx Fy X Y r. destruct (fmod_pos x y Fx Fy (proj1 X) (proj1 Y)) as (F & q & Q & E & L & LX). unfold r, froundUpTo.
  destruct (fzero_val prec emax) as (F0 & V0). rewrite feq_val, V0 by auto. pose proof (u_pos prec) as U0. destruct (Req_bool_spec (B2R (fmod x y)) 0) as [Z0|N].
  - split; auto. exists q. split; [lra|]. replace (B2R x - IZR q * B2R y) with 0 by lra. rewrite Rabs_R0. apply Rmult_le_pos; lra.
  - destruct (up_ok x y (fmod x y) Fx Fy F X Y ltac:(lra)) as (Fd & _ & B). split; auto. exists (q + 1)%Z. rewrite plus_IZR. split; [lra|].
    replace ((IZR q + 1) * B2R y) with (B2R x + B2R y - B2R (fmod x y)) by lra. exact B.
Qed.
Lemma roundTo_ok (x y : num) : (2 <= prec)%Z -> is_finite x = true -> is_finite y = true ->
  0 <= B2R x <= bpow radix2 (emax - 2) -> bpow radix2 (emin + prec) <= B2R y <= bpow radix2 (emax - 2) ->
  let r := froundTo prec emax Hp Hm x y in
  is_finite r = true /\ exists q, half_away (B2R x / B2R y) q /\ Rabs (B2R r - IZR q * B2R y) <= 3 * u * (B2R x + B2R y).
Proof.
  intros P2 Fx Fy X Y r. pose proof (bpow_gt_0 radix2 (emin + prec)) as BP. assert (Y0 : 0 < B2R y) by lra. pose proof (u_pos prec) as U0.
  unfold r, froundTo. destruct (fzero_val prec emax) as (F0 & V0). rewrite feq_val, V0 by auto. destruct (Req_bool_spec (B2R x) 0) as [Z0|N].
  - split; auto. exists 0%Z. rewrite V0, Z0. split.
    + unfold half_away. replace (0 - 0 / B2R y) with 0 by (unfold Rdiv; ring). rewrite Rabs_R0. split; lra.
    + replace (0 - 0 * B2R y) with 0 by ring. rewrite Rabs_R0. apply Rmult_le_pos; lra.
  - destruct (vabs_val prec emax x Fx) as (Fv & Vv). rewrite Rabs_pos_eq in Vv by lra.
    destruct (fmod_pos (vabs x) y Fv Fy ltac:(lra) Y0) as (F & q & Q & E & L & LX). rewrite Vv in E, LX. set (m := fmod (vabs x) y) in *.
    destruct (fint_exact prec emax Hp Hm 2) as (F2 & V2).
    { apply Z.le_trans with (2 ^ 1)%Z; [cbn; lia|]. apply Z.pow_le_mono_r; lia. }
    assert (FH : format (B2R y / 2)).
    { replace (B2R y / 2) with (B2R y * bpow radix2 (-1)) by reflexivity. apply mult_bpow_exact_FLT; [apply num_format|].
      pose proof (mag_ge_bpow radix2 (B2R y) (emin + prec + 1)) as M.
      assert ((emin + prec + 1 <= mag radix2 (B2R y))%Z). { apply M. rewrite Rabs_pos_eq by lra. replace (emin + prec + 1 - 1)%Z with (emin + prec)%Z by ring. lra. } lia. }
    assert (EH : rn (B2R y / B2R (fint 2)) = B2R y / 2) by (rewrite V2; apply rn_id; exact FH).
    pose proof (finite_lt prec emax y) as By. rewrite Rabs_pos_eq in By by lra.
    destruct (fdiv_small prec emax Hp Hm y (fint 2) Fy) as (Fh & Vh); [rewrite V2; lra|rewrite EH, Rabs_pos_eq; lra|]. rewrite EH in Vh.
    rewrite fle_val, Vh by auto. destruct (Rle_bool_spec (B2R y / 2) (B2R m)) as [C|C].
    + destruct (up_ok (vabs x) y m Fv Fy F ltac:(rewrite Vv; lra) ltac:(lra) ltac:(rewrite Vv; lra)) as (Fd & Pd & B). rewrite Vv in B.
      destruct (fcopySign_val prec emax _ x Fd) as (Fc & Sc & Vc). split; auto. exists (q + 1)%Z.
      assert (Sx : Bsign x = false). { destruct (Bsign x) eqn:S; auto. pose proof (sign_neg prec emax x Fx S). lra. }
      rewrite Sx, Rabs_pos_eq in Vc by exact Pd. rewrite Vc, plus_IZR. split.
      * unfold half_away. rewrite plus_IZR. assert (D : B2R x / B2R y = IZR q + B2R m / B2R y) by (rewrite E; field; lra).
        assert (M : / 2 <= B2R m / B2R y < 1).
        { split; [apply Rmult_le_reg_r with (B2R y); [lra|]; unfold Rdiv; rewrite Rmult_assoc, Rinv_l by lra; lra|apply Rmult_lt_reg_r with (B2R y); [lra|]; unfold Rdiv; rewrite Rmult_assoc, Rinv_l by lra; lra]. }
        assert (IQ : 0 <= IZR q) by (apply IZR_le; exact Q). rewrite D. split.
        -- apply Rabs_le. lra.
        -- intros _. rewrite !Rabs_pos_eq by lra. lra.
      * replace ((IZR q + 1) * B2R y) with (B2R x + B2R y - B2R m) by lra. exact B.
    + assert (FM := num_format _ _ m). assert (FX := num_format _ _ x).
      assert (D0 : 0 <= rn (B2R x - B2R m) <= B2R x) by (split; [apply rn_pos; auto; lra|apply rn_le_format; auto; lra]).
      pose proof (finite_lt prec emax x) as Bx. rewrite Rabs_pos_eq in Bx by lra.
      destruct (fsub_small prec emax Hp Hm x m Fx F) as (Fd & Vd); [rewrite Rabs_pos_eq; lra|].
      destruct (fcopySign_val prec emax _ x Fd) as (Fc & Sc & Vc). split; auto. exists q.
      assert (Sx : Bsign x = false). { destruct (Bsign x) eqn:S; auto. pose proof (sign_neg prec emax x Fx S). lra. }
      rewrite Sx, Vd, Rabs_pos_eq in Vc by lra. rewrite Vc. split.
      * unfold half_away. assert (D : B2R x / B2R y = IZR q + B2R m / B2R y) by (rewrite E; field; lra).
        assert (M : 0 <= B2R m / B2R y < / 2).
        { split; [apply Rmult_le_pos; [lra|apply Rlt_le, Rinv_0_lt_compat; lra]|apply Rmult_lt_reg_r with (B2R y); [lra|]; unfold Rdiv; rewrite Rmult_assoc, Rinv_l by lra; lra]. }
        rewrite D. rewrite (Rabs_left1 (IZR q - _)) by lra. split; [lra|]. intros A. lra.
      * pose proof (sub_rel _ _ FX FM) as S. rewrite (Rabs_pos_eq (B2R x - B2R m)) in S by lra. replace (IZR q * B2R y) with (B2R x - B2R m) by lra.
        apply Rle_trans with (1 := S). replace (3 * u * (B2R x + B2R y)) with (u * (3 * (B2R x + B2R y))) by ring. apply Rmult_le_compat_l; lra.
Qed.
End Rnd.
