(** Proofs for C102: the two parts of the root, the real axis, special values and conjugates. *)
From Coq Require Import ZArith Reals Lia Lra Bool.
From Flocq Require Import Core Relative Mult_error BinarySingleNaN.
From Verif Require Import AccModel AccSpec AccProofs NumModel NumSpec NumBasics NrmModel NrmSpec NrmFloat CsqModel CsqSpec CsqError CsqProofs CsqRoot.
From Coq Require Import ZifyNat ZifyN ZifyBool.
Ltac Zify.zify_post_hook ::= idtac.
Local Open Scope R_scope.

Section Float.
Variables prec emax : Z.
Context (Hp : Prec_gt_0 prec) (Hm : Prec_lt_emax prec emax).
Hypothesis (P24 : (24 <= prec)%Z) (PE : (3 * prec + 8 <= emax)%Z) (P53 : (prec <= 53)%Z).
Local Notation num := (binary_float prec emax).
Local Notation fzero := (fzero prec emax).
Local Notation fone := (fone prec emax Hp Hm).
Local Notation fadd := (fadd prec emax Hp Hm).
Local Notation fmul := (fmul prec emax Hp Hm).
Local Notation fdiv := (fdiv prec emax Hp Hm).
Local Notation fint := (fint prec emax Hp Hm).
Local Notation flt := (flt prec emax).
Local Notation fle := (fle prec emax).
Local Notation feq := (feq prec emax).
Local Notation vabs := (vabs prec emax).
Local Notation fsqrt := (fsqrt prec emax Hp Hm).
Local Notation fldexp := (fldexp prec emax Hp Hm).
Local Notation fcabs := (fcabs prec emax Hp Hm).
Local Notation fcsqrt := (fcsqrt prec emax Hp Hm).
Local Notation fcopySign := (fcopySign prec emax).
Local Notation fisInf := (fisInf prec emax).
Local Notation rn := (nearest prec emax).
Local Notation u := (unit_roundoff prec).
Local Notation v := (u / (1 + u)).
Local Notation eta := (underflow_unit prec emax).
Local Notation big := (bpow radix2 emax).
Local Notation top := (bpow radix2 (emax - 2)).
Local Notation emin := (3 - emax - prec)%Z.
Local Notation format := (generic_format radix2 (FLT_exp emin prec)).
Local Notation near := (near u).
Local Notation is := (is prec emax).
Local Notation safe := (safe prec emax).
Local Notation u0 := (u_pos prec).
Local Notation us := (u_small prec P24).

Lemma two : is_finite (fint 2) = true /\ B2R (fint 2) = 2.
Proof. apply fint_exact. pose proof (pow_prec prec P24). lia. Qed.
Lemma double_val (x : num) : is_finite x = true -> 0 <= B2R x <= 3 / 2 * top -> is_finite (fmul (fint 2) x) = true /\ B2R (fmul (fint 2) x) = 2 * B2R x.
Proof.
  intros F X. destruct two as [F2 V2].
  assert (G : format (B2R (fint 2) * B2R x)).
  { rewrite V2, Rmult_comm. change 2 with (bpow radix2 1). apply mult_bpow_pos_exact_FLT; [apply num_format|lia]. }
  destruct (fmul_small prec emax Hp Hm _ x F2 F) as [F3 V3].
  { rewrite rn_id by exact G. rewrite V2, Rabs_pos_eq by lra. replace (bpow radix2 emax) with (top * 4) by (change 4 with (bpow radix2 2); rewrite <- bpow_plus; f_equal; lia). pose proof (bpow_gt_0 radix2 (emax - 2)). lra. }
  rewrite rn_id in V3 by exact G. rewrite V2 in V3. auto.
Qed.
Lemma is_double k x y : 0 <= k <= 64 -> 0 <= y <= top -> is k x y -> is k (fmul (fint 2) x) (2 * y).
Proof.
  intros K Y I. pose proof (is_bounds prec emax P24 k x y K (proj1 Y) I) as B. destruct I as [F N].
  destruct (double_val x F) as [F2 V2]; [lra|]. split; [exact F2|]. unfold CsqError.near in *. rewrite V2.
  replace (2 * B2R x - 2 * y) with (2 * (B2R x - y)) by ring. rewrite Rabs_mult, (Rabs_pos_eq 2) by lra. lra.
Qed.
Lemma rn_scale t k : bpow radix2 (2 - emax) <= Rabs t -> bpow radix2 (2 - emax) <= Rabs (t * bpow radix2 k) -> rn (t * bpow radix2 k) = rn t * bpow radix2 k.
Proof.
  intros T S. unfold nearest. rewrite !round_FLT_FLX by (replace (emin + prec - 1)%Z with (2 - emax)%Z by lia; assumption).
  assert (NZ : t <> 0) by (intros ->; rewrite Rabs_R0 in T; pose proof (bpow_gt_0 radix2 (2 - emax)); lra).
  unfold round, scaled_mantissa, cexp, FLX_exp, F2R. cbn [Fnum Fexp]. rewrite mag_mult_bpow by exact NZ.
  rewrite Rmult_assoc, <- bpow_plus. replace (k + - (mag radix2 t + k - prec))%Z with (- (mag radix2 t - prec))%Z by lia.
  rewrite Rmult_assoc, <- bpow_plus. do 2 f_equal. lia.
Qed.
Lemma exponent_even e : exponent prec e -> (e <> 0 /\ 2 * Z.quot e 2 = e)%Z.
Proof.
  intros [-> |[-> | ->]]; [split; [discriminate|reflexivity]..|]. split; [lia|].
  replace (-2 * prec)%Z with ((- prec) * 2)%Z by lia. rewrite Z.quot_mul by lia. lia.
Qed.
(** the largest component bounds everything *)
Lemma scaled_legs x y s : 0 < s -> let m := Rmax (Rabs x) (Rabs y) * s in
  0 <= Rabs x * s <= m /\ m <= hyp x y * s <= 3 / 2 * m.
Proof.
  intros S m. pose proof (Rabs_pos x) as X. pose proof (Rabs_pos y) as Y. pose proof (Rmax_l (Rabs x) (Rabs y)) as ML. pose proof (Rmax_r (Rabs x) (Rabs y)) as MR. unfold m. clear m. set (m := Rmax (Rabs x) (Rabs y)) in *.
  split; [split; [apply Rmult_le_pos; lra|apply Rmult_le_compat_r; lra]|].
  rewrite <- (hyp_abs x y). assert (Q : m <= hyp (Rabs x) (Rabs y)).
  { unfold m. apply Rmax_lub; [apply hyp_ge; auto|rewrite hyp_sym; apply hyp_ge; auto]. }
  assert (Q2 : hyp (Rabs x) (Rabs y) <= 3 / 2 * m).
  { apply Rsqr_incr_0; unfold Rsqr; [|apply hyp_pos|lra]. rewrite hyp_sq. assert (Rabs x * Rabs x <= m * m) by (apply Rmult_le_compat; lra). assert (Rabs y * Rabs y <= m * m) by (apply Rmult_le_compat; lra).
    assert (0 <= m * m) by (apply Rmult_le_pos; lra). lra. }
  split; [apply Rmult_le_compat_r; lra|]. rewrite <- Rmult_assoc. apply Rmult_le_compat_r; lra.
Qed.
Lemma nonzero_hyp_ge (re im : num) : B2R re <> 0 \/ B2R im <> 0 -> bpow radix2 emin <= hyp (B2R re) (B2R im).
Proof.
  intros NZ. assert (G : forall x : num, B2R x <> 0 -> bpow radix2 emin <= Rabs (B2R x)).
  { intros x N. apply (generic_format_ge_bpow radix2 (FLT_exp emin prec)); [intros e; unfold FLT_exp; lia|apply Rabs_pos_lt, N|apply generic_format_abs, num_format]. }
  rewrite <- hyp_abs. destruct NZ as [N|N]; [eapply Rle_trans; [apply G, N|apply hyp_ge, Rabs_pos]|eapply Rle_trans; [apply G, N|rewrite hyp_sym; apply hyp_ge, Rabs_pos]].
Qed.
Lemma root_ge t k : 0 <= t -> bpow radix2 (k + k) <= t -> bpow radix2 k <= sqrt t.
Proof.
  intros T H. replace (bpow radix2 k) with (sqrt (bpow radix2 k * bpow radix2 k)) by (apply sqrt_square, bpow_ge_0). apply sqrt_le_1_alt. rewrite <- bpow_plus. exact H.
Qed.
Lemma root_le t k : t <= bpow radix2 (k + k) -> sqrt t <= bpow radix2 k.
Proof.
  intros H. replace (bpow radix2 k) with (sqrt (bpow radix2 k * bpow radix2 k)) by (apply sqrt_square, bpow_ge_0). apply sqrt_le_1_alt. rewrite <- bpow_plus. exact H.
Qed.
Lemma major_bounds (re im : num) : B2R re <> 0 \/ B2R im <> 0 -> bpow radix2 (7 - emax) <= major (B2R re) (B2R im) <= bpow radix2 (emax - 3).
Proof.
  intros NZ. pose proof (nonzero_hyp_ge re im NZ) as G. pose proof (finite_lt prec emax re) as L1. pose proof (finite_lt prec emax im) as L2.
  pose proof (hyp_le (Rabs (B2R re)) (Rabs (B2R im)) (Rabs_pos _) (Rabs_pos _)) as HL. rewrite hyp_abs in HL. pose proof (Rabs_pos (B2R re)) as P.
  unfold major. split.
  - apply root_ge; [pose proof (hyp_pos (B2R re) (B2R im)); lra|]. apply Rle_trans with (/ 2 * bpow radix2 emin); [|lra].
    change (/ 2) with (bpow radix2 (-1)). rewrite <- bpow_plus. apply bpow_le. lia.
  - apply root_le. apply Rle_trans with (2 * big); [lra|]. change 2 with (bpow radix2 1). rewrite <- bpow_plus. apply bpow_le. lia.
Qed.

(** ** The larger part *)
Lemma core (re im : num) : is_finite re = true -> is_finite im = true -> B2R re <> 0 \/ B2R im <> 0 ->
  exists r, fcsqrt re im = (if fle fzero re then (r, fdiv im (fmul (fint 2) r)) else (vabs (fdiv im (fmul (fint 2) r)), fcopySign r im)) /\
    is 7 r (major (B2R re) (B2R im)) /\ (B2R im = 0 -> B2R r = rn (sqrt (Rabs (B2R re)))).
Proof.
  intros Fr Fi NZ. destruct (fcabs_ok prec emax Hp Hm P24 PE P53 re im Fr Fi NZ) as (rho & e & m & E & X & I & Vm & Mb & EX).
  destruct (exponent_even e X) as [E0 E2]. unfold CsqModel.fcsqrt. rewrite E. replace (e =? 0)%Z with false by (symmetry; apply Z.eqb_neq; exact E0). cbv zeta.
  set (x := B2R re) in *. set (y := B2R im) in *. pose proof (bpow_gt_0 radix2 (- e)) as S. set (s := bpow radix2 (- e)) in *.
  destruct (scaled_legs x y s S) as [L1 L2]. rewrite <- Vm in L1, L2. pose proof u0 as U0. pose proof us as U1.
  assert (TM : bpow radix2 (emax - 4) = / 4 * top) by (change (/ 4) with (bpow radix2 (-2)); rewrite <- bpow_plus; f_equal; lia). rewrite TM in Mb.
  pose proof (top_ge prec emax P24 PE) as T0.
  assert (M0 : 0 < m) by (eapply Rlt_le_trans; [apply bpow_gt_0|apply Mb]).
  assert (EA : 32 * eta <= u * m).
  { apply Rle_trans with (u * bpow radix2 (3 - emax + prec)); [|apply Rmult_le_compat_l; lra]. rewrite (eta_pow prec emax). change 32 with (bpow radix2 5). unfold unit_roundoff. rewrite <- !bpow_plus. apply bpow_le. lia. }
  (* realMag *)
  destruct (vabs_val prec emax re Fr) as [Fv Vv]. fold x in Vv.
  destruct (fldexp_small prec emax Hp Hm (vabs re) (- e) Fv) as [Fm Vm'].
  { rewrite Vv. fold s. apply (rn_small prec emax Hp _ (emax - 2)); try lia. rewrite Rabs_pos_eq; lra. }
  rewrite Vv in Vm'. fold s in Vm'. set (rm := fldexp (vabs re) (- e)) in *.
  pose proof (rn_rel prec emax Hp (Rabs x * s)) as R1. rewrite (Rabs_pos_eq (Rabs x * s)) in R1 by lra.
  (* the sum *)
  set (h := hyp x y * s) in *. destruct I as [Frho Nrho].
  assert (N1 : near (129 / 16) (B2R rm + B2R rho) (Rabs x * s + h)).
  { unfold CsqError.near in *. rewrite Vm'. apply Rabs_le_inv in R1. apply Rabs_le_inv in Nrho.
    assert (u * m <= u * h) by (apply Rmult_le_compat_l; lra). assert (0 <= u * (Rabs x * s)) by (apply Rmult_le_pos; lra). assert (0 <= u * h) by (apply Rmult_le_pos; lra). apply Rabs_le. lra. }
  destruct (fadd_small prec emax Hp Hm rm rho Fm Frho) as [Fs Vs]; [apply (near_fits prec emax Hp P24 PE (129 / 16) _ (Rabs x * s + h)); auto; lra|].
  assert (Is : is (147 / 16) (fadd rm rho) (Rabs x * s + h)).
  { split; [exact Fs|]. rewrite Vs. replace (147 / 16) with (129 / 16 + 9 / 8) by lra.
    apply (near_round u U0 U1 (129 / 16) (B2R rm + B2R rho) (Rabs x * s + h) _ 0); try lra; auto.
    - eapply Rle_trans; [apply add_rel; [exact Hp|apply num_format..]|]. rewrite Rplus_0_r. apply Rmult_le_compat_r; [apply Rabs_pos|apply v_le].
    - assert (0 <= u * (Rabs x * s + h)) by (apply Rmult_le_pos; lra). lra. }
  pose proof (is_double (147 / 16) (fadd rm rho) (Rabs x * s + h) ltac:(lra) ltac:(lra) Is) as I2. set (Y := 2 * (Rabs x * s + h)) in *.
  assert (YM : m <= Y) by (unfold Y; lra).
  assert (SY : bpow radix2 (6 - emax) <= sqrt Y).
  { apply root_ge; [lra|]. apply Rle_trans with (bpow radix2 (3 - emax + prec)); [apply bpow_le; lia|lra]. }
  assert (I3 : is (185 / 32) (fsqrt (fmul (fint 2) (fadd rm rho))) (sqrt Y)).
  { replace (185 / 32) with (147 / 16 / 2 + 19 / 16) by lra. apply is_sqrt; auto; try lra.
    apply Rle_trans with (u * bpow radix2 (6 - emax)); [|apply Rmult_le_compat_l; lra]. rewrite (eta_pow prec emax). change 16 with (bpow radix2 4). unfold unit_roundoff. rewrite <- !bpow_plus. apply bpow_le. lia. }
  set (k := (Z.quot e 2 - 1)%Z) in *. assert (Ek : (2 * k = e - 2)%Z) by (unfold k; lia).
  assert (W : sqrt Y * bpow radix2 k = major x y).
  { replace (bpow radix2 k) with (sqrt (bpow radix2 k * bpow radix2 k)) by (apply sqrt_square, bpow_ge_0). rewrite <- sqrt_mult_alt by lra. unfold major. f_equal.
    unfold Y, h, s. rewrite <- bpow_plus. replace (k + k)%Z with (e + -2)%Z by lia. rewrite bpow_plus.
    replace (2 * (Rabs x * bpow radix2 (- e) + hyp x y * bpow radix2 (- e)) * (bpow radix2 e * bpow radix2 (-2))) with (2 * (Rabs x + hyp x y) * bpow radix2 (-2) * (bpow radix2 (- e) * bpow radix2 e)) by ring.
    rewrite <- bpow_plus. replace (- e + e)%Z with 0%Z by lia. change (bpow radix2 (-2)) with (/ 4). cbn [bpow]. lra. }
  pose proof (major_bounds re im NZ) as MB. fold x y in MB.
  assert (TT : bpow radix2 (emax - 3) <= top) by (apply bpow_le; lia).
  eexists. split; [reflexivity|]. split.
  - apply is_mono with (185 / 32 + 9 / 8); [lra|pose proof (bpow_gt_0 radix2 (7 - emax)); lra|]. rewrite <- W. apply is_ldexp; auto; try lra; [apply sqrt_pos|]. rewrite W. right.
    apply Rle_trans with (u * bpow radix2 (7 - emax)); [|apply Rmult_le_compat_l; lra]. rewrite (eta_pow prec emax). change 16 with (bpow radix2 4). unfold unit_roundoff. rewrite <- !bpow_plus. apply bpow_le. lia.
  - intros Z. specialize (EX Z). destruct I2 as [F2 _]. destruct I3 as [F3 _].
    assert (Hx : hyp x y = Rabs x).
    { unfold hyp. rewrite Z, Rmult_0_l, Rplus_0_r. apply sqrt_Rsqr_abs. }
    assert (Em : m = Rabs x * s) by (rewrite Vm, Z, Rabs_R0, Rmax_left by apply Rabs_pos; reflexivity).
    assert (Fx : format (Rabs x * s)) by (rewrite <- EX; apply num_format).
    rewrite rn_id in Vm' by exact Fx.
    assert (V1 : B2R (fadd rm rho) = 2 * m).
    { rewrite Vs, Vm', EX, <- Em. replace (m + m) with (m * bpow radix2 1) by (change (bpow radix2 1) with 2; ring). rewrite rn_id; [change (bpow radix2 1) with 2; ring|]. apply mult_bpow_pos_exact_FLT; [rewrite Em; exact Fx|lia]. }
    destruct (double_val (fadd rm rho) Fs) as [_ V2]; [rewrite V1; lra|]. rewrite V1 in V2.
    assert (EY : Y = 2 * (2 * m)) by (unfold Y, h; rewrite Hx, <- Em; ring).
    destruct (fsqrt_ok prec emax Hp Hm _ F2) as [_ V3]; [rewrite V2; lra|]. rewrite V2, <- EY in V3.
    assert (MJ : major x y = sqrt (Rabs x)) by (unfold major; rewrite Hx; f_equal; lra). rewrite MJ in *.
    assert (RS : rn (sqrt (Rabs x)) = rn (sqrt Y) * bpow radix2 k).
    { rewrite <- W. apply rn_scale; rewrite ?W, Rabs_pos_eq by apply sqrt_pos; [eapply Rle_trans; [|exact SY]|eapply Rle_trans; [|apply MB]]; apply bpow_le; lia. }
    destruct (fldexp_small prec emax Hp Hm _ k F3) as [_ V4].
    + rewrite V3, <- RS, rn_id by (apply rn_format; exact Hp). apply (rn_small prec emax Hp _ (emax - 3)); try lia. rewrite Rabs_pos_eq by apply sqrt_pos. apply MB.
    + rewrite V4, V3, <- RS. apply rn_id, rn_format. exact Hp.
Qed.

(** ** Signs *)
Lemma sign_val (x : num) : is_finite x = true -> if Bsign x then B2R x <= 0 else 0 <= B2R x.
Proof.
  destruct x as [s|s| |s m e H]; try discriminate; intros _; [destruct s; cbn; lra|]. destruct s; cbn [Bsign B2R cond_Zopp]; [apply F2R_le_0|apply F2R_ge_0]; cbn; lia.
Qed.
Lemma pos_sign (x : num) : is_finite x = true -> 0 < B2R x -> Bsign x = false.
Proof. intros F P. pose proof (sign_val x F) as S. destruct (Bsign x); [lra|reflexivity]. Qed.
Lemma copy_val (x s : num) : is_finite x = true -> 0 < B2R x ->
  is_finite (fcopySign x s) = true /\ B2R (fcopySign x s) = (if Bsign s then - B2R x else B2R x) /\ Bsign (fcopySign x s) = Bsign s.
Proof.
  intros F P. pose proof (pos_sign x F P) as S. unfold CsqModel.fcopySign. rewrite S. destruct (Bsign s) eqn:B; cbn [Bool.eqb]; [|auto].
  rewrite is_finite_Bopp, B2R_Bopp, Bsign_Bopp, S by (apply finite_not_nan; exact F). auto.
Qed.

(** ** The smaller part *)
Lemma quot (re im r : num) : is_finite re = true -> is_finite im = true -> B2R re <> 0 \/ B2R im <> 0 -> is 7 r (major (B2R re) (B2R im)) ->
  exists q, is_finite (fdiv im (fmul (fint 2) r)) = true /\ Bsign (fdiv im (fmul (fint 2) r)) = Bsign im /\
    B2R (fdiv im (fmul (fint 2) r)) = (if Bsign im then - q else q) /\ 0 <= q /\ Rabs (q - minor (B2R re) (B2R im)) <= 9 * u * minor (B2R re) (B2R im) + eta.
Proof.
  intros Fr Fi NZ I. set (x := B2R re) in *. set (y := B2R im) in *. pose proof u0 as U0. pose proof us as U1.
  pose proof (major_bounds re im NZ) as MB. fold x y in MB. pose proof (major_pos x y NZ) as MP. pose proof (minor_pos x y NZ) as NP.
  assert (TT : bpow radix2 (emax - 3) <= top) by (apply bpow_le; lia).
  pose proof (is_double 7 r (major x y) ltac:(lra) ltac:(lra) I) as I2. set (d := fmul (fint 2) r) in *.
  pose proof (is_bounds prec emax P24 7 d (2 * major x y) ltac:(lra) ltac:(lra) I2) as B2. destruct I2 as [Fd Nd].
  pose proof (near_div u U0 U1 0 7 (Rabs y) (Rabs y) (B2R d) (2 * major x y) ltac:(lra) ltac:(lra) (Rabs_pos y) ltac:(lra) (near_refl u _) Nd) as N. fold (minor x y) in N.
  pose proof (near_bounds u U0 U1 (0 + 7 + / 16) (Rabs y / B2R d) (minor x y) ltac:(lra) ltac:(lra) N) as B.
  pose proof (sign_val im Fi) as SY. fold y in SY.
  assert (EQ : rn (y / B2R d) = if Bsign im then - rn (Rabs y / B2R d) else rn (Rabs y / B2R d)).
  { destruct (Bsign im); [rewrite <- rn_opp by exact Hp; rewrite Rabs_left1 by exact SY; f_equal; field; lra|rewrite Rabs_pos_eq by exact SY; reflexivity]. }
  assert (FIT : Rabs (rn (y / B2R d)) < big).
  { apply Rle_lt_trans with (Rabs (rn (Rabs y / B2R d))); [rewrite EQ; destruct (Bsign im); [rewrite Rabs_Ropp|]; lra|].
    apply (near_fits prec emax Hp P24 PE (0 + 7 + / 16) _ (minor x y)); auto; lra. }
  exists (rn (Rabs y / B2R d)).
  pose proof (Bdiv_correct prec emax Hp Hm mode_NE im d ltac:(lra)) as C. change (round radix2 (SpecFloat.fexp prec emax) (round_mode mode_NE) (B2R im / B2R d)) with (rn (y / B2R d)) in C. rewrite Rlt_bool_true in C by exact FIT.
  destruct C as (C1 & C2 & C3). change (Bdiv mode_NE im d) with (fdiv im d) in *. rewrite Fi in C2. rewrite (pos_sign d Fd ltac:(lra)), xorb_false_r in C3.
  split; [exact C2|]. split; [apply C3, finite_not_nan, C2|]. split; [rewrite C1; exact EQ|]. split; [apply rn_pos; [exact Hp|lra]|].
  pose proof (rn_rel prec emax Hp (Rabs y / B2R d)) as R. rewrite (Rabs_pos_eq (Rabs y / B2R d)) in R by lra. unfold CsqError.near in N.
  assert (u * (Rabs y / B2R d) <= u * (minor x y * (1 + / 16384))) by (apply Rmult_le_compat_l; lra).
  assert (0 <= u * minor x y) by (apply Rmult_le_pos; lra).
  apply Rabs_le_inv in R. apply Rabs_le_inv in N. apply Rabs_le. lra.
Qed.

(** ** Accuracy *)
Lemma accurate_nonzero (re im : num) : is_finite re = true -> is_finite im = true -> B2R re <> 0 \/ B2R im <> 0 ->
  exists p q, root_of (B2R re) (B2R im) (Bsign im) p q /\
    is_finite (fst (fcsqrt re im)) = true /\ is_finite (snd (fcsqrt re im)) = true /\
    Rabs (B2R (fst (fcsqrt re im)) - p) <= 9 * u * Rabs p + eta /\ Rabs (B2R (snd (fcsqrt re im)) - q) <= 9 * u * Rabs q + eta /\
    Bsign (snd (fcsqrt re im)) = Bsign im /\ 0 <= B2R (fst (fcsqrt re im)).
Proof.
  intros Fr Fi NZ. pose proof u0 as U0. pose proof (eta_pos prec emax) as EP.
    destruct (core re im Fr Fi NZ) as (r & E & Ir & _). destruct (quot re im r Fr Fi NZ Ir) as (q & Fq & Sq & Vq & Q0 & Eq). rewrite E. clear E.
    pose proof (major_pos _ _ NZ) as MP. pose proof (minor_pos _ _ NZ) as NP. pose proof (sign_val im Fi) as SI.
    set (W := major (B2R re) (B2R im)) in *. set (V := minor (B2R re) (B2R im)) in *.
    pose proof (is_bounds prec emax P24 7 r W ltac:(lra) ltac:(lra) Ir) as Br. destruct Ir as [Frr Nr]. unfold CsqError.near in Nr.
    assert (0 <= u * W) by (apply Rmult_le_pos; lra).
    destruct (fzero_val prec emax) as [Fz Vz]. rewrite (fle_val prec emax _ re Fz Fr), Vz.
    destruct (Rle_bool_spec 0 (B2R re)) as [L|L]; cbn [fst snd].
    + exists W, (if Bsign im then - V else V). split; [apply root_right; auto|]. rewrite Vq. split; [auto|]. split; [auto|]. split; [rewrite (Rabs_pos_eq W) by lra; lra|]. split; [|split; [auto|lra]].
      destruct (Bsign im); [rewrite Rabs_Ropp; replace (- q - - V) with (- (q - V)) by ring; rewrite Rabs_Ropp|]; rewrite (Rabs_pos_eq V) by lra; exact Eq.
    + exists V, (if Bsign im then - W else W). split; [apply root_left; auto; lra|].
      destruct (vabs_val prec emax _ Fq) as [Fv Vv]. destruct (copy_val r im Frr ltac:(lra)) as (Fc & Vc & Sc). rewrite Vv, Vc, Vq. split; [auto|]. split; [auto|]. split; [|split; [|split; [auto|apply Rabs_pos]]].
      * replace (Rabs (if Bsign im then - q else q)) with q by (destruct (Bsign im); [rewrite Rabs_Ropp|]; rewrite Rabs_pos_eq; auto). rewrite (Rabs_pos_eq V) by lra. exact Eq.
      * destruct (Bsign im); [rewrite Rabs_Ropp; replace (- B2R r - - W) with (- (B2R r - W)) by ring; rewrite Rabs_Ropp|]; rewrite (Rabs_pos_eq W) by lra; lra.
Qed.
Lemma fcsqrt_accurate (re im : num) : is_finite re = true -> is_finite im = true ->
  exists p q, root_of (B2R re) (B2R im) (Bsign im) p q /\
    is_finite (fst (fcsqrt re im)) = true /\ is_finite (snd (fcsqrt re im)) = true /\
    Rabs (B2R (fst (fcsqrt re im)) - p) <= 9 * u * Rabs p + eta /\ Rabs (B2R (snd (fcsqrt re im)) - q) <= 9 * u * Rabs q + eta /\
    Bsign (snd (fcsqrt re im)) = Bsign im /\ 0 <= B2R (fst (fcsqrt re im)).
Proof.
  intros Fr Fi. pose proof (eta_pos prec emax) as EP.
  destruct (Req_dec (B2R re) 0) as [Zr|Zr]; [destruct (Req_dec (B2R im) 0) as [Zi|Zi]|]; [|apply accurate_nonzero; auto..].
  exists 0, 0. assert (E : fcsqrt re im = (fzero, im)).
    { assert (Z : forall x : num, is_finite x = true -> B2R x = 0 -> exists s, x = B754_zero s).
      { intros [s|s| |s m e H] F V; try discriminate F; [exists s; reflexivity|]. exfalso. cbn in V. apply eq_0_F2R in V. destruct s; discriminate V. }
      destruct (Z re Fr Zr) as [sr ->]. destruct (Z im Fi Zi) as [si ->]. destruct sr, si; reflexivity. }
    rewrite E, Zr, Zi. cbn [fst snd]. rewrite Zi. destruct (fzero_val prec emax) as [Fz Vz]. rewrite Vz, Rminus_0_r, Rabs_R0. repeat split; auto; try lra. destruct (Bsign im); lra.
Qed.


(** ** The real axis *)
Lemma zero_div s (d : num) : is_finite d = true -> 0 < B2R d -> fdiv (B754_zero s) d = B754_zero s.
Proof.
  intros F P. pose proof (pos_sign d F P) as S. destruct d as [t|t| |t m e H]; try discriminate F; [cbn in P; lra|]. cbn in S. subst t. cbn. now rewrite xorb_false_r.
Qed.
Lemma axis (re : num) s : is_finite re = true -> B2R re <> 0 ->
  fcsqrt re (B754_zero s) = if fle fzero re then (fsqrt re, B754_zero s) else (B754_zero s, if s then Bopp (fsqrt (Bopp re)) else fsqrt (Bopp re)).
Proof.
  intros F N. destruct (core re (B754_zero s) F eq_refl (or_introl N)) as (r & E & I & V). specialize (V eq_refl).
  pose proof (major_pos (B2R re) (B2R (B754_zero s : num)) (or_introl N)) as MP. pose proof (is_bounds prec emax P24 7 r _ ltac:(lra) (Rlt_le _ _ MP) I) as B.
  pose proof (major_bounds re (B754_zero s) (or_introl N)) as MB. assert (TT : bpow radix2 (emax - 3) <= top) by (apply bpow_le; lia).
  pose proof (is_double 7 r _ ltac:(lra) (conj (Rlt_le _ _ MP) (Rle_trans _ _ _ (proj2 MB) TT)) I) as [F2 N2].
  pose proof (near_bounds u u0 us 7 _ _ ltac:(lra) (Rlt_le _ _ (Rmult_lt_0_compat _ _ Rlt_0_2 MP)) N2) as B2. destruct I as [Fr _].
  rewrite E, zero_div by (exact F2 || lra).
  assert (R : forall t : num, is_finite t = true -> 0 < B2R t -> B2R t = Rabs (B2R re) -> r = fsqrt t).
  { intros t Ft Pt Vt. destruct (fsqrt_ok prec emax Hp Hm t Ft Pt) as [Fs Vs]. apply B2R_Bsign_inj; auto; [rewrite V, Vs, Vt; reflexivity|].
    rewrite !pos_sign; auto; [rewrite Vs, Vt, <- V|]; lra. }
  destruct (fzero_val prec emax) as [Fz Vz]. rewrite (fle_val prec emax _ re Fz F), Vz. destruct (Rle_bool_spec 0 (B2R re)) as [L|L].
  - rewrite (R re F) by (rewrite ?Rabs_pos_eq; lra). reflexivity.
  - rewrite <- (R (Bopp re)) by (rewrite ?is_finite_Bopp, ?B2R_Bopp, ?(Rabs_left (B2R re)) by lra; auto; lra).
    replace (vabs (B754_zero s)) with (B754_zero s : num) by (destruct s; reflexivity). unfold CsqModel.fcopySign. rewrite (pos_sign r Fr) by lra. destruct s; reflexivity.
Qed.

(** ** Conjugates *)
Lemma div_opp (x d : num) : fdiv (Bopp x) d = Bopp (fdiv x d).
Proof.
  unfold AccModel.fadd, NumModel.fdiv. destruct d as [t|t| |t m e H]; [destruct x as [[]|[]| |[] mx ex Hx], t; reflexivity|destruct x as [[]|[]| |[] mx ex Hx], t; reflexivity|destruct x as [[]|[]| |[] mx ex Hx]; reflexivity|].
  destruct (is_finite x) eqn:F; [|destruct x as [[]|[]| |[] mx ex Hx]; try discriminate F; destruct t; reflexivity].
  set (d := B754_finite t m e H). assert (Nd : B2R d <> 0) by (cbn; intros V; apply eq_0_F2R in V; destruct t; discriminate V).
  pose proof (Bdiv_correct prec emax Hp Hm mode_NE x d Nd) as C. pose proof (Bdiv_correct prec emax Hp Hm mode_NE (Bopp x) d Nd) as C'.
  rewrite B2R_Bopp, is_finite_Bopp, Bsign_Bopp in C' by (apply finite_not_nan; exact F).
  assert (EO : round radix2 (SpecFloat.fexp prec emax) (round_mode mode_NE) (- B2R x / B2R d) = - round radix2 (SpecFloat.fexp prec emax) (round_mode mode_NE) (B2R x / B2R d)).
  { replace (- B2R x / B2R d) with (- (B2R x / B2R d)) by (field; exact Nd). apply (rn_opp prec emax). }
  rewrite EO, Rabs_Ropp in C'. destruct (Rlt_bool _ _).
  - destruct C as (C1 & C2 & C3). destruct C' as (D1 & D2 & D3). rewrite F in C2, D2.
    apply B2R_Bsign_inj; [auto|now rewrite is_finite_Bopp|now rewrite B2R_Bopp, C1, D1|].
    rewrite Bsign_Bopp, C3, D3 by (apply finite_not_nan; auto). now destruct (Bsign x), (Bsign d).
  - change (B2SF (Bdiv mode_NE x d) = SpecFloat.S754_infinity (xorb (Bsign x) (Bsign d))) in C. change (B2SF (Bdiv mode_NE (Bopp x) d) = SpecFloat.S754_infinity (xorb (negb (Bsign x)) (Bsign d))) in C'.
    apply B2SF_inj. rewrite C'. rewrite <- negb_xorb_l. revert C. generalize (xorb (Bsign x) (Bsign d)). intros b C.
    destruct (Bdiv mode_NE x d) as [t'|t'| |t' ? ? ?]; try discriminate C. cbn in C. injection C as ->. reflexivity.
Qed.
Lemma vabs_opp (x : num) : (forall s, x <> B754_zero s) -> vabs (Bopp x) = vabs x.
Proof. intros N. destruct x as [s|[]| |[] m e H]; try reflexivity. now destruct (N s). Qed.
Lemma copy_opp (x s : num) : is_nan x = false -> is_nan s = false -> fcopySign x (Bopp s) = Bopp (fcopySign x s).
Proof.
  intros X S. unfold CsqModel.fcopySign. rewrite Bsign_Bopp by exact S. destruct (Bsign x), (Bsign s); cbn; rewrite ?Bopp_involutive; auto.
Qed.
Lemma conjugate (re im : num) : is_nan im = false ->
  snd (fcsqrt re (Bopp im)) = Bopp (snd (fcsqrt re im)) /\ same_but_zero prec emax (fst (fcsqrt re (Bopp im))) (fst (fcsqrt re im)) /\
  (fle fzero re = true -> fst (fcsqrt re (Bopp im)) = fst (fcsqrt re im)).
Proof.
  intros NN. destruct im as [s|s| |s m e H]; [| |discriminate NN|].
  - (* zero *)
    destruct (is_finite re) eqn:F.
    + destruct (Req_dec (B2R re) 0) as [Z|Z].
      * assert (E : forall t, fcsqrt re (B754_zero t) = (fzero, B754_zero t)).
        { intros t. destruct re as [r|r| |r mr er Hr]; try discriminate F; [destruct r, t; reflexivity|]. exfalso. cbn in Z. apply eq_0_F2R in Z. destruct r; discriminate Z. }
        cbn [Bopp]. rewrite !E. cbn. split; [auto|]. split; [left; reflexivity|auto].
      * cbn [Bopp]. rewrite !axis by assumption. destruct (fle fzero re); cbn [fst snd]; [split; [auto|split; [left; reflexivity|auto]]|].
        split; [destruct s; cbn; [rewrite Bopp_involutive|]; reflexivity|]. split; [right; exists (negb s); rewrite negb_involutive; auto|discriminate].
    + destruct re as [r|r| |r mr er Hr]; try discriminate F; destruct s; try destruct r; cbn; (split; [reflexivity|split; [left; reflexivity|auto]]).
  - destruct re as [[]|[]| |[] mr er Hr], s; cbn; (split; [reflexivity|split; [left; reflexivity|auto]]).
  - set (im := B754_finite s m e H) in *. assert (NZ : forall t, im <> B754_zero t) by discriminate.
    destruct (is_finite re) eqn:F; [|destruct re as [[]|[]| |[] mr er Hr]; try discriminate F; destruct s; cbn; (split; [reflexivity|split; [left; reflexivity|auto]])].
    assert (Ni : B2R im <> 0) by (cbn; intros V; apply eq_0_F2R in V; destruct s; discriminate V).
    assert (EC : fcabs re (Bopp im) = fcabs re im) by (unfold CsqModel.fcabs; rewrite (vabs_opp im NZ); reflexivity).
    destruct (fcsqrt_accurate re im F eq_refl) as (_ & _ & _ & _ & FS & _). revert FS.
    destruct (fcabs_ok prec emax Hp Hm P24 PE P53 re im F eq_refl (or_intror Ni)) as (rho & ee & _ & EE & X & _). destruct (exponent_even ee X) as [E0 _].
    unfold CsqModel.fcsqrt. rewrite EC, EE. replace (ee =? 0)%Z with false by (symmetry; apply Z.eqb_neq; exact E0). cbv zeta. set (rr := fldexp _ _). rewrite div_opp.
    destruct (fle fzero re) eqn:LE; cbn [fst snd]; intros FS; [split; [reflexivity|split; [left; reflexivity|auto]]|].
    split; [apply copy_opp; [|reflexivity]; destruct rr; try reflexivity; exfalso; revert FS; unfold CsqModel.fcopySign; destruct s; discriminate|]. split; [|discriminate].
    destruct (fdiv im (fmul (fint 2) rr)) as [t|t| |t mt et Ht] eqn:Q; [right; exists (negb t); destruct t; auto|left; rewrite vabs_opp by discriminate; reflexivity..].
Qed.

(** ** Special values *)
Lemma special (re im : num) :
  (forall s s', fcsqrt (B754_zero s) (B754_zero s') = (fzero, B754_zero s')) /\
  (forall s, fcsqrt re (B754_infinity s) = (B754_infinity false, B754_infinity s)) /\
  (is_finite im = true -> fcsqrt (B754_infinity false) im = (B754_infinity false, B754_zero (Bsign im)) /\ fcsqrt (B754_infinity true) im = (fzero, B754_infinity (Bsign im))) /\
  fcsqrt (B754_infinity false) B754_nan = (B754_infinity false, B754_nan) /\
  fst (fcsqrt (B754_infinity true) B754_nan) = B754_nan /\ fisInf (snd (fcsqrt (B754_infinity true) B754_nan)) = true /\
  (is_finite im = true -> fcsqrt B754_nan im = (B754_nan, B754_nan)) /\
  (is_finite re = true -> fcsqrt re B754_nan = (B754_nan, B754_nan)) /\ fcsqrt B754_nan B754_nan = (B754_nan, B754_nan).
Proof.
  split; [intros s s'; destruct s, s'; reflexivity|].
  split; [intros s; destruct re as [[]|[]| |[] m e H], s; reflexivity|].
  split; [intros F; destruct im as [[]|[]| |[] m e H]; try discriminate F; split; reflexivity|].
  split; [reflexivity|]. split; [reflexivity|]. split; [reflexivity|].
  split; [intros F; destruct im as [[]|[]| |[] m e H]; try discriminate F; reflexivity|].
  split; [intros F; destruct re as [[]|[]| |[] m e H]; try discriminate F; reflexivity|reflexivity].
Qed.
End Float.
