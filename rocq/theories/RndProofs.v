(** Proofs for C87. *)
From Coq Require Import ZArith Reals List Lia Lra Bool.
From Flocq Require Import Core Relative Sterbenz BinarySingleNaN.
From Verif Require Import Base BaseProofs ShapeModel AccModel AccSpec AccProofs NumModel NumSpec NumBasics RndModel RndSpec.
Import ListNotations.
Open Scope R_scope.

Section Rnd.
Variables prec emax : Z.
Context (Hp : Prec_gt_0 prec) (Hm : Prec_lt_emax prec emax).
Local Notation num := (binary_float prec emax).
Local Notation fzero := (fzero prec emax).
Local Notation fone := (fone prec emax Hp Hm).
Local Notation fadd := (fadd prec emax Hp Hm).
Local Notation fmul := (fmul prec emax Hp Hm).
Local Notation fsub := (fsub prec emax Hp Hm).
Local Notation fdiv := (fdiv prec emax Hp Hm).
Local Notation fint := (fint prec emax Hp Hm).
Local Notation flt := (flt prec emax).
Local Notation fle := (fle prec emax).
Local Notation feq := (feq prec emax).
Local Notation vabs := (vabs prec emax).
Local Notation ffloor := (ffloor prec emax Hm).
Local Notation fhalf := (fhalf prec emax Hp Hm).
Local Notation fcopySign := (fcopySign prec emax).
Local Notation rn := (nearest prec emax).
Local Notation u := (unit_roundoff prec).
Local Notation eta := (underflow_unit prec emax).
Local Notation big := (bpow radix2 emax).
Local Notation format := (generic_format radix2 (FLT_exp (3 - emax - prec) prec)).

(** ** Numbers of the format that are integers *)
Lemma format_large x : format x -> bpow radix2 (prec - 1) <= Rabs x -> exists k, x = IZR k.
Proof.
  intros F H. assert (N : x <> 0).
  { intros ->. rewrite Rabs_R0 in H. pose proof (bpow_gt_0 radix2 (prec - 1)). lra. }
  assert (M : (prec - 1 < mag radix2 x)%Z) by (apply mag_gt_bpow; exact H).
  rewrite F. unfold F2R. cbn [Fnum Fexp].
  set (c := cexp radix2 (FLT_exp (3 - emax - prec) prec) x).
  assert (C : (0 <= c)%Z) by (unfold c, cexp, FLT_exp; lia).
  exists (Ztrunc (scaled_mantissa radix2 (FLT_exp (3 - emax - prec) prec) x) * radix2 ^ c)%Z.
  rewrite mult_IZR, IZR_Zpower by exact C. reflexivity.
Qed.
Lemma floor_int x k : x = IZR k -> IZR (Zfloor x) = x.
Proof. intros ->. rewrite Zfloor_IZR. reflexivity. Qed.

(** ** The operations *)
Lemma ffloor_val (x : num) : is_finite x = true -> is_finite (ffloor x) = true /\ B2R (ffloor x) = IZR (Zfloor (B2R x)).
Proof.
  intros F. destruct (Bnearbyint_correct prec emax Hm mode_DN x) as (V & G & _). unfold RndModel.ffloor. rewrite G. split; auto.
  rewrite V. apply round_FIX_IZR.
Qed.
Lemma fcopySign_val (m s : num) : is_finite m = true ->
  is_finite (fcopySign m s) = true /\ Bsign (fcopySign m s) = Bsign s /\ B2R (fcopySign m s) = (if Bsign s then - Rabs (B2R m) else Rabs (B2R m)).
Proof.
  intros F. destruct m as [sm|sm| |sm mm em H]; try discriminate F; cbn [RndModel.fcopySign is_finite Bsign B2R].
  - rewrite Rabs_R0. destruct (Bsign s); repeat split; ring.
  - split; auto. split; auto. unfold F2R; cbn [Fnum Fexp]. rewrite Rabs_mult, (Rabs_pos_eq (bpow _ _)) by apply bpow_ge_0.
    rewrite <- abs_IZR, abs_cond_Zopp. destruct (Bsign s); cbn [cond_Zopp]; [rewrite opp_IZR|]; cbn [Z.abs]; ring.
Qed.
Lemma half_format : (3 - emax - prec <= -1)%Z -> format (/ 2).
Proof. intros H. change (/ 2) with (bpow radix2 (-1)). apply big_format; auto. Qed.
Lemma fhalf_val : (2 <= prec)%Z -> is_finite fhalf = true /\ B2R fhalf = / 2.
Proof.
  intros P2. pose proof (prec_emax prec emax Hm) as PE. unfold RndModel.fhalf.
  destruct (fint_exact prec emax Hp Hm 2) as (F2 & V2).
  { change 2%Z with (2 ^ 1)%Z at 2. cbn [Z.abs]. apply Z.le_trans with (2 ^ 1)%Z; [lia|]. apply Z.pow_le_mono_r; lia. }
  destruct (fone_val prec emax Hp Hm) as (F1 & V1).
  assert (E : rn (B2R fone / B2R (fint 2)) = / 2).
  { rewrite V1, V2. replace (1 / 2) with (/ 2) by lra. apply rn_id. apply half_format. lia. }
  destruct (fdiv_small prec emax Hp Hm fone (fint 2) F1) as (F & V).
  - rewrite V2. lra.
  - rewrite E. rewrite Rabs_pos_eq by lra. apply Rlt_le_trans with 1; [lra|]. change 1 with (bpow radix2 0). apply bpow_le. lia.
  - split; auto. rewrite V. exact E.
Qed.

(** ** The steps between the two multiplications of round are exact *)
Lemma diff_val (a : num) : is_finite a = true -> 0 <= B2R a ->
  is_finite (fsub a (ffloor a)) = true /\ B2R (fsub a (ffloor a)) = B2R a - IZR (Zfloor (B2R a)).
Proof.
  intros F P. destruct (ffloor_val a F) as (Fy & Vy). pose proof (num_format _ _ a) as Fa. pose proof (num_format _ _ (ffloor a)) as Fb.
  pose proof (Zfloor_lb (B2R a)) as L. pose proof (Zfloor_ub (B2R a)) as U.
  assert (K : (0 <= Zfloor (B2R a))%Z) by (apply Zfloor_lub; exact P).
  assert (E : rn (B2R a - B2R (ffloor a)) = B2R a - IZR (Zfloor (B2R a))).
  { rewrite Vy. apply rn_id. destruct (Z.eq_dec (Zfloor (B2R a)) 0) as [->|NZ].
    - rewrite Rminus_0_r. exact Fa.
    - apply sterbenz; [typeclasses eauto|typeclasses eauto|exact Fa|rewrite <- Vy; exact Fb|].
      assert (1 <= IZR (Zfloor (B2R a))) by (apply IZR_le; lia). lra. }
  destruct (fsub_small prec emax Hp Hm a (ffloor a) F Fy) as (Fd & Vd).
  - rewrite E. rewrite Rabs_pos_eq by lra. pose proof (finite_lt prec emax a) as A. rewrite Rabs_pos_eq in A by exact P.
    assert (0 <= IZR (Zfloor (B2R a))) by (apply IZR_le; lia). lra.
  - split; auto. rewrite Vd. exact E.
Qed.
Definition nearest_up (a : R) : Z := if Rle_bool (/ 2) (a - IZR (Zfloor a)) then (Zfloor a + 1)%Z else Zfloor a.
Lemma round_up_val (a : num) mode : (2 <= prec)%Z -> is_finite a = true -> 0 <= B2R a -> Z.testbit mode 0 = true ->
  let y := round_up prec emax Hp Hm mode (fsub a (ffloor a)) (ffloor a) in
  is_finite y = true /\ B2R y = IZR (nearest_up (B2R a)).
Proof.
  intros P2 F P T y. destruct (ffloor_val a F) as (Fy & Vy). destruct (diff_val a F P) as (Fd & Vd).
  destruct (fhalf_val P2) as (Fh & Vh). destruct (fone_val prec emax Hp Hm) as (F1 & V1).
  unfold y, round_up, nearest_up. rewrite T. cbn [andb]. rewrite fle_val, Vh, Vd by auto.
  destruct (Rle_bool_spec (/ 2) (B2R a - IZR (Zfloor (B2R a)))) as [H|H]; [|split; auto].
  assert (K : (0 <= Zfloor (B2R a))%Z) by (apply Zfloor_lub; exact P).
  assert (L : (Zfloor (B2R a) + 1 <= 2 ^ prec)%Z).
  { apply Zlt_le_succ. apply lt_IZR. apply Rle_lt_trans with (B2R a); [apply Zfloor_lb|].
    apply Rnot_le_lt. intros C. destruct (format_large (B2R a)) as (k & E).
    - apply num_format.
    - rewrite Rabs_pos_eq by exact P. apply Rle_trans with (2 := C). change 2%Z with (radix_val radix2). rewrite IZR_Zpower by (unfold Prec_gt_0 in Hp; lia).
      apply bpow_le. lia.
    - rewrite (floor_int _ _ E) in H. lra. }
  assert (E : rn (B2R (ffloor a) + B2R fone) = IZR (Zfloor (B2R a) + 1)).
  { rewrite Vy, V1, <- plus_IZR. apply rn_id. apply fmt_int; auto. rewrite Z.abs_eq by lia. exact L. }
  destruct (fadd_small prec emax Hp Hm (ffloor a) fone Fy F1) as (Fs & Vs).
  - rewrite E, Rabs_pos_eq by (apply IZR_le; lia). apply Rle_lt_trans with (bpow radix2 prec).
    + rewrite <- IZR_Zpower by (unfold Prec_gt_0 in Hp; lia). apply IZR_le. exact L.
    + apply bpow_lt, prec_emax, Hm.
  - split; auto. rewrite Vs. exact E.
Qed.
Lemma nearest_up_err a : 0 <= a -> (0 <= nearest_up a)%Z /\ half_away a (nearest_up a).
Proof.
  intros P. unfold nearest_up, half_away. pose proof (Zfloor_lb a) as L. pose proof (Zfloor_ub a) as U.
  assert (K : (0 <= Zfloor a)%Z) by (apply Zfloor_lub; exact P). assert (K' : 0 <= IZR (Zfloor a)) by (apply IZR_le; lia).
  destruct (Rle_bool_spec (/ 2) (a - IZR (Zfloor a))) as [H|H].
  - split; [lia|]. rewrite plus_IZR. rewrite (Rabs_pos_eq (_ - a)), (Rabs_pos_eq a), (Rabs_pos_eq (_ + _)) by lra. lra.
  - split; [exact K|]. rewrite (Rabs_left1 (_ - a)) by lra. split; [lra|]. intros E. lra.
Qed.

(** ** round with given factors *)
Lemma round_with_math (alpha beta x : num) mode : (2 <= prec)%Z ->
  Z.testbit mode 0 = true -> Z.testbit mode 2 = false ->
  is_finite x = true -> is_finite alpha = true -> is_finite beta = true -> 0 <= B2R alpha -> 0 <= B2R beta ->
  let a := rn (Rabs (B2R x) * B2R alpha) in
  let k := nearest_up a in
  a < big -> rn (IZR k * B2R beta) < big ->
  exists r, round_with prec emax Hp Hm alpha beta x mode = Ok r /\ is_finite r = true /\ Bsign r = Bsign x /\
    B2R r = (if Bsign x then - rn (IZR k * B2R beta) else rn (IZR k * B2R beta)) /\ (0 <= k)%Z /\ half_away a k.
Proof.
  intros P2 T0 T2 Fx FA FB PA PB a k La Lb. unfold round_with.
  assert (Aa : Rabs (rn (B2R x * B2R alpha)) = a).
  { unfold a. rewrite <- rn_abs, Rabs_mult, (Rabs_pos_eq (B2R alpha)) by auto. reflexivity. }
  destruct (fmul_small prec emax Hp Hm x alpha Fx FA) as (F1 & V1); [rewrite Aa; exact La|].
  destruct (vabs_val prec emax (fmul x alpha) F1) as (F2 & V2). rewrite V1, Aa in V2.
  assert (P : 0 <= B2R (vabs (fmul x alpha))) by (rewrite V2, <- Aa; apply Rabs_pos).
  destruct (round_up_val (vabs (fmul x alpha)) mode P2 F2 P T0) as (F3 & V3). rewrite V2 in V3, P. fold k in V3.
  unfold round_even. rewrite T2. cbn [bind]. destruct (nearest_up_err a P) as (Kp & Kh). fold k in Kp, Kh.
  assert (Pk : 0 <= rn (IZR k * B2R beta)) by (apply rn_pos; auto; apply Rmult_le_pos; auto; apply IZR_le; exact Kp).
  set (y := round_up prec emax Hp Hm mode (fsub (vabs (fmul x alpha)) (ffloor (vabs (fmul x alpha)))) (ffloor (vabs (fmul x alpha)))) in *.
  destruct (fmul_small prec emax Hp Hm y beta F3 FB) as (F4 & V4); [rewrite V3, Rabs_pos_eq by exact Pk; exact Lb|].
  destruct (fcopySign_val (fmul y beta) x F4) as (F5 & S5 & V5).
  eexists. split; [reflexivity|]. split; [exact F5|]. split; [exact S5|]. split; [|split; [exact Kp|exact Kh]].
  rewrite V5, V4, V3, Rabs_pos_eq by exact Pk. reflexivity.
Qed.

(** Down: both bits are clear *)
Lemma round_with_down (alpha beta x : num) mode :
  Z.testbit mode 0 = false -> Z.testbit mode 2 = false ->
  is_finite x = true -> is_finite alpha = true -> is_finite beta = true -> 0 <= B2R alpha -> 0 <= B2R beta ->
  let a := rn (Rabs (B2R x) * B2R alpha) in
  let k := Zfloor a in
  a < big -> rn (IZR k * B2R beta) < big ->
  exists r, round_with prec emax Hp Hm alpha beta x mode = Ok r /\ is_finite r = true /\ Bsign r = Bsign x /\
    B2R r = (if Bsign x then - rn (IZR k * B2R beta) else rn (IZR k * B2R beta)) /\ (0 <= k)%Z.
Proof.
  intros T0 T2 Fx FA FB PA PB a k La Lb. unfold round_with.
  assert (Aa : Rabs (rn (B2R x * B2R alpha)) = a).
  { unfold a. rewrite <- rn_abs, Rabs_mult, (Rabs_pos_eq (B2R alpha)) by auto. reflexivity. }
  destruct (fmul_small prec emax Hp Hm x alpha Fx FA) as (F1 & V1); [rewrite Aa; exact La|].
  destruct (vabs_val prec emax (fmul x alpha) F1) as (F2 & V2). rewrite V1, Aa in V2.
  destruct (ffloor_val _ F2) as (F3 & V3). rewrite V2 in V3. fold k in V3.
  unfold round_even, round_up. rewrite T2, T0. cbn [bind andb].
  assert (Kp : (0 <= k)%Z) by (apply Zfloor_lub; rewrite <- Aa; apply Rabs_pos).
  assert (Pk : 0 <= rn (IZR k * B2R beta)) by (apply rn_pos; auto; apply Rmult_le_pos; auto; apply IZR_le; exact Kp).
  destruct (fmul_small prec emax Hp Hm (ffloor (vabs (fmul x alpha))) beta F3 FB) as (F4 & V4); [rewrite V3, Rabs_pos_eq by exact Pk; exact Lb|].
  destruct (fcopySign_val (fmul (ffloor (vabs (fmul x alpha))) beta) x F4) as (F5 & S5 & V5).
  eexists. split; [reflexivity|]. split; [exact F5|]. split; [exact S5|]. split; [|exact Kp].
  rewrite V5, V4, V3, Rabs_pos_eq by exact Pk. reflexivity.
Qed.

(** The sign bit of a finite number *)
Lemma sign_neg (x : num) : is_finite x = true -> Bsign x = true -> B2R x <= 0.
Proof.
  intros F S. destruct x as [s|s| |s m e H]; try discriminate F; cbn in *; [lra|]. subst s.
  apply Rlt_le, F2R_lt_0. cbn. lia.
Qed.
Lemma sign_pos (x : num) : is_finite x = true -> Bsign x = false -> 0 <= B2R x.
Proof.
  intros F S. destruct x as [s|s| |s m e H]; try discriminate F; cbn in *; [lra|]. subst s.
  apply Rlt_le, F2R_gt_0. cbn. lia.
Qed.
Lemma sign_abs (x : num) : is_finite x = true -> B2R x = (if Bsign x then - Rabs (B2R x) else Rabs (B2R x)).
Proof.
  intros F. destruct (Bsign x) eqn:S.
  - rewrite Rabs_left1 by (apply sign_neg; auto). ring.
  - rewrite Rabs_pos_eq by (apply sign_pos; auto). ring.
Qed.
Lemma nearest_up_format a : format a -> 0 <= a -> format (IZR (nearest_up a)) /\ (a < big -> IZR (nearest_up a) < big).
Proof.
  intros F P. pose proof (Zfloor_lb a) as L. pose proof (Zfloor_ub a) as U.
  assert (K : (0 <= Zfloor a)%Z) by (apply Zfloor_lub; exact P).
  destruct (Rle_or_lt (bpow radix2 (prec - 1)) a) as [H|H].
  - destruct (format_large a F) as (k & E); [rewrite Rabs_pos_eq; auto|].
    unfold nearest_up. rewrite (floor_int _ _ E). rewrite Rle_bool_false by lra. rewrite (floor_int _ _ E). auto.
  - assert (B : (Zfloor a + 1 <= 2 ^ prec)%Z).
    { apply Zlt_le_succ. apply lt_IZR. apply Rle_lt_trans with (1 := L). apply Rlt_le_trans with (1 := H).
      change 2%Z with (radix_val radix2). rewrite IZR_Zpower by (unfold Prec_gt_0 in Hp; lia). apply bpow_le. lia. }
    assert (B' : (0 <= nearest_up a <= 2 ^ prec)%Z) by (unfold nearest_up; destruct Rle_bool; lia).
    split; [apply fmt_int; auto; rewrite Z.abs_eq; lia|]. intros _. apply Rle_lt_trans with (bpow radix2 prec).
    + rewrite <- IZR_Zpower by (unfold Prec_gt_0 in Hp; lia). apply IZR_le. apply B'.
    + apply bpow_lt, prec_emax, Hm.
Qed.

Lemma half_away_opp x k : x = - Rabs x -> half_away (Rabs x) k -> half_away x (- k).
Proof.
  unfold half_away. intros E (H1 & H2). rewrite opp_IZR, Rabs_Ropp. rewrite Rabs_Rabsolu in H2.
  replace (- IZR k - x) with (- (IZR k - Rabs x)) by lra. rewrite Rabs_Ropp. auto.
Qed.

(** ** No decimal places *)
Lemma pow_zero : fpow10 prec emax Hp Hm 0 = fint 1.
Proof. reflexivity. Qed.
Lemma fint_one : is_finite (fint 1) = true /\ B2R (fint 1) = 1.
Proof. apply (fint_exact prec emax Hp Hm 1). cbn [Z.abs]. unfold Prec_gt_0 in Hp. pose proof (Z.pow_pos_nonneg 2 prec). lia. Qed.
Lemma round_whole (x : num) mode : (2 <= prec)%Z -> Z.testbit mode 0 = true -> Z.testbit mode 2 = false -> is_finite x = true ->
  exists r k, fround prec emax Hp Hm x 0 mode = Ok r /\ is_finite r = true /\ Bsign r = Bsign x /\ B2R r = IZR k /\ half_away (B2R x) k.
Proof.
  intros P2 T0 T2 F. unfold fround. cbn [Z.opp]. rewrite pow_zero. destruct fint_one as (F1 & V1).
  pose proof (num_format _ _ x) as Gx. assert (Gx' : format (Rabs (B2R x))) by (apply generic_format_abs; exact Gx).
  assert (Ea : rn (Rabs (B2R x) * B2R (fint 1)) = Rabs (B2R x)) by (rewrite V1, Rmult_1_r; apply rn_id; exact Gx').
  destruct (nearest_up_format (Rabs (B2R x)) Gx' (Rabs_pos _)) as (Gk & Lk).
  assert (Ek : rn (IZR (nearest_up (Rabs (B2R x))) * B2R (fint 1)) = IZR (nearest_up (Rabs (B2R x)))) by (rewrite V1, Rmult_1_r; apply rn_id; exact Gk).
  destruct (round_with_math (fint 1) (fint 1) x mode P2 T0 T2 F F1 F1) as (r & E & Fr & Sr & Vr & Kp & Kh); try (rewrite V1; lra).
  - rewrite Ea. apply finite_lt.
  - rewrite Ea, Ek. apply Lk. apply finite_lt.
  - rewrite Ea in Vr, Kp, Kh. rewrite Ek in Vr. exists r. pose proof (sign_abs x F) as SX. destruct (Bsign x) eqn:S.
    + exists (- nearest_up (Rabs (B2R x)))%Z. split; auto. split; auto. split; auto. rewrite opp_IZR. split; [exact Vr|].
      apply half_away_opp; auto.
    + exists (nearest_up (Rabs (B2R x))). split; auto. split; auto. split; auto. split; [exact Vr|].
      rewrite <- SX in Kh at 1. exact Kh.
Qed.
Lemma round_down_whole (x : num) mode : Z.testbit mode 0 = false -> Z.testbit mode 2 = false -> is_finite x = true ->
  exists r k, fround prec emax Hp Hm x 0 mode = Ok r /\ is_finite r = true /\ Bsign r = Bsign x /\ B2R r = IZR k /\ integer_part (B2R x) k.
Proof.
  intros T0 T2 F. unfold fround. cbn [Z.opp]. rewrite pow_zero. destruct fint_one as (F1 & V1).
  assert (Gx' : format (Rabs (B2R x))) by (apply generic_format_abs, num_format).
  assert (Ea : rn (Rabs (B2R x) * B2R (fint 1)) = Rabs (B2R x)) by (rewrite V1, Rmult_1_r; apply rn_id; exact Gx').
  destruct (vabs_val prec emax x F) as (Fv & Vv). destruct (ffloor_val _ Fv) as (Ff & Vf). rewrite Vv in Vf.
  assert (Ek : rn (IZR (Zfloor (Rabs (B2R x))) * B2R (fint 1)) = IZR (Zfloor (Rabs (B2R x)))).
  { rewrite V1, Rmult_1_r, <- Vf. apply rn_id, num_format. }
  pose proof (Zfloor_lb (Rabs (B2R x))) as L. pose proof (Zfloor_ub (Rabs (B2R x))) as U. pose proof (Rabs_pos (B2R x)) as AP.
  destruct (round_with_down (fint 1) (fint 1) x mode T0 T2 F F1 F1) as (r & E & Fr & Sr & Vr & Kp); try (rewrite V1; lra).
  - rewrite Ea. apply finite_lt.
  - rewrite Ea, Ek. apply Rle_lt_trans with (1 := L). apply finite_lt.
  - rewrite Ea in Vr, Kp. rewrite Ek in Vr. exists r. pose proof (sign_abs x F) as SX. assert (Kr : 0 <= IZR (Zfloor (Rabs (B2R x)))) by (apply IZR_le, Kp).
    pose proof (Rmult_le_pos _ _ Kr AP) as KM. destruct (Bsign x) eqn:S.
    + exists (- Zfloor (Rabs (B2R x)))%Z. split; auto. split; auto. split; auto. rewrite opp_IZR. split; [exact Vr|].
      unfold integer_part. rewrite opp_IZR, Rabs_Ropp, (Rabs_pos_eq _ Kr). split; [lra|]. rewrite SX at 2. lra.
    + exists (Zfloor (Rabs (B2R x))). split; auto. split; auto. split; auto. split; [exact Vr|].
      unfold integer_part. rewrite (Rabs_pos_eq _ Kr). split; [lra|]. rewrite SX at 2. lra.
Qed.
End Rnd.
