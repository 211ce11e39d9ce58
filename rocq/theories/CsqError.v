(** Proofs for C102: relative errors, and one step of each float operation on nonnegative numbers. *)
From Coq Require Import ZArith Reals Lia Lra Bool.
From Flocq Require Import Core Relative Plus_error BinarySingleNaN.
From Verif Require Import AccModel AccSpec AccProofs NumModel NumSpec NumBasics NrmModel NrmSpec NrmFloat CsqModel.
From Coq Require Import ZifyNat ZifyN ZifyBool.
Ltac Zify.zify_post_hook ::= idtac.
Local Open Scope R_scope.

(** ** Relative errors *)
Section Near.
Variable u : R.
Hypothesis (U0 : 0 < u) (U1 : u <= / 1048576).
Definition near (k x y : R) : Prop := Rabs (x - y) <= k * u * y.

Lemma near_refl x : near 0 x x.
Proof. unfold near. replace (x - x) with 0 by ring. rewrite Rabs_R0. lra. Qed.
Lemma near_mono k k' x y : k <= k' -> 0 <= y -> near k x y -> near k' x y.
Proof. unfold near. intros K Y H. eapply Rle_trans; [exact H|]. apply Rmult_le_compat_r; [auto|]. apply Rmult_le_compat_r; lra. Qed.
Lemma near_bounds k x y : 0 <= k <= 64 -> 0 <= y -> near k x y -> y * (1 - / 16384) <= x <= y * (1 + / 16384).
Proof.
  unfold near. intros K Y H. apply Rabs_le_inv in H.
  assert (k * u <= 64 * / 1048576) by (apply Rmult_le_compat; lra).
  assert (k * u * y <= / 16384 * y) by (apply Rmult_le_compat_r; lra). lra.
Qed.
Lemma near_add k x y x' y' : near k x y -> near k x' y' -> near k (x + x') (y + y').
Proof. unfold near. intros H H'. apply Rabs_le_inv in H. apply Rabs_le_inv in H'. apply Rabs_le. lra. Qed.
Lemma near_mul k k' x y x' y' : 0 <= k <= 64 -> 0 <= k' <= 64 -> 0 <= y -> 0 <= y' -> near k x y -> near k' x' y' ->
  near (k + k' + / 16) (x * x') (y * y').
Proof.
  intros K K' Y Y' H H'. pose proof (near_bounds _ _ _ K' Y' H') as B. unfold near in *.
  replace (x * x' - y * y') with ((x - y) * y' + (y * (x' - y') + (x - y) * (x' - y'))) by ring.
  eapply Rle_trans; [apply Rabs_triang|]. eapply Rle_trans; [apply Rplus_le_compat_l, Rabs_triang|].
  rewrite !Rabs_mult, (Rabs_pos_eq y), (Rabs_pos_eq y') by auto.
  assert (A1 : Rabs (x - y) * y' <= k * u * y * y') by (apply Rmult_le_compat_r; auto).
  assert (A2 : y * Rabs (x' - y') <= y * (k' * u * y')) by (apply Rmult_le_compat_l; auto).
  assert (A3 : Rabs (x - y) * Rabs (x' - y') <= (k * u * y) * (k' * u * y')) by (apply Rmult_le_compat; auto using Rabs_pos).
  assert (A4 : k * (k' * u) <= 64 * (64 * / 1048576)).
  { apply Rmult_le_compat; try lra; [apply Rmult_le_pos; lra|]. apply Rmult_le_compat; lra. }
  assert (Z : 0 <= u * (y * y')) by (apply Rmult_le_pos; [lra|apply Rmult_le_pos; auto]).
  assert (A5 : k * (k' * u) * (u * (y * y')) <= / 16 * (u * (y * y'))) by (apply Rmult_le_compat_r; lra).
  lra.
Qed.
Lemma near_div k k' x y x' y' : 0 <= k <= 64 -> 0 <= k' <= 64 -> 0 <= y -> 0 < y' -> near k x y -> near k' x' y' ->
  near (k + k' + / 16) (x / x') (y / y').
Proof.
  intros K K' Y Y' H H'. pose proof (near_bounds _ _ _ K' (Rlt_le _ _ Y') H') as B. unfold near in *.
  assert (X' : 0 < x') by lra.
  replace (x / x' - y / y') with (((x - y) * y' - y * (x' - y')) / (x' * y')) by (field; lra).
  unfold Rdiv at 1. rewrite Rabs_mult, (Rabs_pos_eq (/ (x' * y'))) by (left; apply Rinv_0_lt_compat, Rmult_lt_0_compat; auto).
  apply Rmult_le_reg_r with (x' * y'); [apply Rmult_lt_0_compat; auto|]. rewrite Rmult_assoc, Rinv_l, Rmult_1_r by (apply Rgt_not_eq, Rmult_lt_0_compat; auto).
  replace ((k + k' + / 16) * u * (y / y') * (x' * y')) with ((k + k' + / 16) * (u * y) * x') by (field; lra).
  eapply Rle_trans; [apply Rabs_triang|]. rewrite Rabs_Ropp, !Rabs_mult, (Rabs_pos_eq y), (Rabs_pos_eq y') by lra.
  assert (A1 : Rabs (x - y) * y' <= k * u * y * y') by (apply Rmult_le_compat_r; lra).
  assert (A2 : y * Rabs (x' - y') <= y * (k' * u * y')) by (apply Rmult_le_compat_l; lra).
  assert (Z : 0 <= u * y) by (apply Rmult_le_pos; lra).
  apply Rle_trans with ((k + k') * (u * y) * y'); [lra|].
  rewrite (Rmult_comm (k + k')), (Rmult_comm (k + k' + / 16)), !Rmult_assoc. repeat (apply Rmult_le_compat_l; [lra|]).
  apply Rle_trans with ((k + k' + / 16) * (y' * (1 - / 16384))); [|apply Rmult_le_compat_l; lra].
  assert ((k + k') * y' <= 128 * y') by (apply Rmult_le_compat_r; lra). lra.
Qed.
Lemma near_sqrt k x y : 0 <= k <= 64 -> 0 <= y -> near k x y -> near (k / 2 + / 16) (sqrt x) (sqrt y).
Proof.
  intros K Y H. pose proof (near_bounds _ _ _ K Y H) as B. unfold near in *.
  assert (X : 0 <= x) by lra. pose proof (sqrt_pos x) as SX. pose proof (sqrt_pos y) as SY. pose proof (sqrt_sqrt x X) as QX. pose proof (sqrt_sqrt y Y) as QY.
  destruct (Req_dec (sqrt y) 0) as [Z|Z].
  { assert (y = 0) by (rewrite <- QY, Z; ring). subst y. assert (x = 0) by lra. subst x. rewrite sqrt_0, Rminus_0_r, Rabs_R0. lra. }
  set (a := sqrt x) in *. set (b := sqrt y) in *. assert (b0 : 0 < b) by lra.
  assert (L : b * (1 - / 16384) <= a).
  { apply Rnot_lt_le. intros N. assert (a * a < b * (1 - / 16384) * (b * (1 - / 16384))).
    { apply Rle_lt_trans with (a * (b * (1 - / 16384))); [apply Rmult_le_compat_l; lra|]. apply Rmult_lt_compat_r; lra. }
    assert (b * (1 - / 16384) * (b * (1 - / 16384)) <= b * b * (1 - / 16384)).
    { replace (b * (1 - / 16384) * (b * (1 - / 16384))) with (b * b * (1 - / 16384) * (1 - / 16384)) by ring.
      rewrite <- (Rmult_1_r (b * b * (1 - / 16384))) at 2. apply Rmult_le_compat_l; [|lra]. rewrite QY. lra. }
    rewrite QX, QY in *. lra. }
  assert (E : (a - b) * (a + b) = x - y) by (rewrite <- QX, <- QY; ring).
  apply Rmult_le_reg_r with (a + b); [lra|]. rewrite <- (Rabs_pos_eq (a + b)) at 1 by lra. rewrite <- Rabs_mult, E.
  eapply Rle_trans; [exact H|]. rewrite <- QY.
  replace (k * u * (b * b)) with (u * b * (k * b)) by ring. replace ((k / 2 + / 16) * u * b * (a + b)) with (u * b * ((k / 2 + / 16) * (a + b))) by ring.
  apply Rmult_le_compat_l; [apply Rmult_le_pos; lra|].
  apply Rle_trans with ((k / 2 + / 16) * (b * (2 - / 16384))); [|apply Rmult_le_compat_l; lra].
  assert (k * b <= 64 * b) by (apply Rmult_le_compat_r; lra). lra.
Qed.
Lemma near_round k x y r e : 0 <= k <= 64 -> 0 <= y -> near k x y -> Rabs (r - x) <= u * Rabs x + e -> 16 * e <= u * y -> near (k + 9 / 8) r y.
Proof.
  intros K Y H R E. pose proof (near_bounds _ _ _ K Y H) as B. unfold near in *.
  rewrite (Rabs_pos_eq x) in R by lra.
  replace (r - y) with ((r - x) + (x - y)) by ring. eapply Rle_trans; [apply Rabs_triang|].
  assert (u * x <= u * (y * (1 + / 16384))) by (apply Rmult_le_compat_l; lra).
  assert (0 <= u * y) by (apply Rmult_le_pos; lra). lra.
Qed.
End Near.

(** ** Steps *)
Section Float.
Variables prec emax : Z.
Context (Hp : Prec_gt_0 prec) (Hm : Prec_lt_emax prec emax).
Hypothesis (P24 : (24 <= prec)%Z) (PE : (3 * prec + 8 <= emax)%Z).
Local Notation num := (binary_float prec emax).
Local Notation fadd := (fadd prec emax Hp Hm).
Local Notation fmul := (fmul prec emax Hp Hm).
Local Notation fsub := (fsub prec emax Hp Hm).
Local Notation fdiv := (fdiv prec emax Hp Hm).
Local Notation fint := (fint prec emax Hp Hm).
Local Notation fsqrt := (fsqrt prec emax Hp Hm).
Local Notation fldexp := (fldexp prec emax Hp Hm).
Local Notation lit := (lit prec emax Hp Hm).
Local Notation rn := (nearest prec emax).
Local Notation u := (unit_roundoff prec).
Local Notation v := (u / (1 + u)).
Local Notation eta := (underflow_unit prec emax).
Local Notation big := (bpow radix2 emax).
Local Notation top := (bpow radix2 (emax - 2)).
Local Notation format := (generic_format radix2 (FLT_exp (3 - emax - prec) prec)).
Local Notation near := (near u).

Lemma u_small : u <= / 1048576.
Proof. unfold unit_roundoff. change (/ 1048576) with (bpow radix2 (-20)). apply bpow_le. lia. Qed.
Definition is (k : R) (x : num) (y : R) : Prop := is_finite x = true /\ near k (B2R x) y.
Definition safe (y : R) : Prop := y = 0 \/ 16 * eta <= u * y.

Lemma is_mono k k' x y : k <= k' -> 0 <= y -> is k x y -> is k' x y.
Proof. intros K Y [F N]. split; [auto|]. apply near_mono with k; auto. apply u_pos. Qed.
Lemma is_refl (x : num) : is_finite x = true -> is 0 x (B2R x).
Proof. intros F. split; [auto|apply near_refl]. Qed.
Lemma is_bounds k x y : 0 <= k <= 64 -> 0 <= y -> is k x y -> y * (1 - / 16384) <= B2R x <= y * (1 + / 16384).
Proof. intros K Y [F N]. apply (near_bounds u (u_pos prec) u_small k); auto. Qed.
Lemma near_fits k x y : 0 <= k <= 64 -> 0 <= y <= top -> near k x y -> Rabs (rn x) < big.
Proof.
  intros K Y N. pose proof (near_bounds u (u_pos prec) u_small _ _ _ K (proj1 Y) N) as B.
  apply (rn_small prec emax Hp x (emax - 1)); try lia. replace (emax - 1)%Z with (emax - 2 + 1)%Z by lia. rewrite bpow_plus. change (bpow radix2 1) with 2.
  rewrite Rabs_pos_eq by lra. lra.
Qed.
Lemma near_rn k x y : 0 <= k <= 64 -> 0 <= y -> safe y -> near k x y -> near (k + 9 / 8) (rn x) y.
Proof.
  intros K Y S N. destruct S as [-> |S].
  - unfold CsqError.near in N. rewrite Rmult_0_r, Rminus_0_r in N. assert (x = 0) by (apply Rabs_le_inv in N; lra). subst x.
    rewrite rn_0. unfold CsqError.near. rewrite Rminus_0_r, Rabs_R0. lra.
  - apply (near_round u (u_pos prec) u_small k x y _ eta); auto. apply rn_rel; auto.
Qed.
Lemma is_add k x y x' y' : 0 <= k <= 64 -> 0 <= y -> 0 <= y' -> y + y' <= top -> is k x y -> is k x' y' -> is (k + 9 / 8) (fadd x x') (y + y').
Proof.
  intros K Y Y' T [F N] [F' N']. pose proof (near_add u k _ _ _ _ N N') as A.
  destruct (fadd_small prec emax Hp Hm x x' F F') as [G V]; [apply near_fits with k (y + y'); auto; lra|].
  split; [exact G|]. rewrite V. apply (near_round u (u_pos prec) u_small k (B2R x + B2R x') (y + y') _ 0); auto; try lra.
  - eapply Rle_trans; [apply add_rel; [exact Hp|apply num_format..]|]. rewrite Rplus_0_r. apply Rmult_le_compat_r; [apply Rabs_pos|apply v_le].
  - pose proof (u_pos prec). assert (0 <= u * (y + y')) by (apply Rmult_le_pos; lra). lra.
Qed.
Lemma is_mul k k' x y x' y' : 0 <= k <= 31 -> 0 <= k' <= 31 -> 0 <= y -> 0 <= y' -> y * y' <= top -> safe (y * y') -> is k x y -> is k' x' y' ->
  is (k + k' + 19 / 16) (fmul x x') (y * y').
Proof.
  intros K K' Y Y' T S [F N] [F' N']. assert (YY : 0 <= y * y') by (apply Rmult_le_pos; auto).
  pose proof (near_mul u (u_pos prec) u_small k k' _ _ _ _ ltac:(lra) ltac:(lra) Y Y' N N') as A.
  destruct (fmul_small prec emax Hp Hm x x' F F') as [G V]; [apply near_fits with (k + k' + / 16) (y * y'); auto; lra|].
  split; [exact G|]. rewrite V. replace (k + k' + 19 / 16) with (k + k' + / 16 + 9 / 8) by lra. apply near_rn; auto; lra.
Qed.
Lemma is_div k k' x y x' y' : 0 <= k <= 31 -> 0 <= k' <= 31 -> 0 <= y -> 0 < y' -> y / y' <= top -> safe (y / y') -> is k x y -> is k' x' y' ->
  is (k + k' + 19 / 16) (fdiv x x') (y / y').
Proof.
  intros K K' Y Y' T S [F N] [F' N']. assert (YY : 0 <= y / y') by (apply Rmult_le_pos; [auto|left; apply Rinv_0_lt_compat; auto]).
  pose proof (near_div u (u_pos prec) u_small k k' _ _ _ _ ltac:(lra) ltac:(lra) Y Y' N N') as A.
  pose proof (near_bounds u (u_pos prec) u_small k' _ _ ltac:(lra) (Rlt_le _ _ Y') N') as B.
  destruct (fdiv_small prec emax Hp Hm x x' F) as [G V]; [lra|apply near_fits with (k + k' + / 16) (y / y'); auto; lra|].
  split; [exact G|]. rewrite V. replace (k + k' + 19 / 16) with (k + k' + / 16 + 9 / 8) by lra. apply near_rn; auto; lra.
Qed.
Lemma is_sqrt k x y : 0 <= k <= 62 -> 0 < y -> 16 * eta <= u * sqrt y -> is k x y -> is (k / 2 + 19 / 16) (fsqrt x) (sqrt y).
Proof.
  intros K Y S [F N]. pose proof (near_bounds u (u_pos prec) u_small k _ _ ltac:(lra) (Rlt_le _ _ Y) N) as B.
  destruct (fsqrt_ok prec emax Hp Hm x F) as [G V]; [lra|].
  split; [exact G|]. rewrite V. replace (k / 2 + 19 / 16) with (k / 2 + / 16 + 9 / 8) by lra.
  apply near_rn; try lra; [apply sqrt_pos|right; auto|]. apply (near_sqrt u (u_pos prec) u_small); auto; lra.
Qed.
(** the sign of a scaled number matters too, so any number is allowed *)
Lemma fldexp_small x k : is_finite x = true -> Rabs (rn (B2R x * bpow radix2 k)) < big ->
  is_finite (fldexp x k) = true /\ B2R (fldexp x k) = rn (B2R x * bpow radix2 k).
Proof.
  intros F L. pose proof (Bldexp_correct prec emax Hp Hm mode_NE x k) as C. rewrite Rlt_bool_true in C by exact L.
  destruct C as (C1 & C2 & _). rewrite F in C2. split; [exact C2|exact C1].
Qed.
Lemma is_ldexp k x y e : 0 <= k <= 62 -> 0 <= y -> y * bpow radix2 e <= top -> safe (y * bpow radix2 e) -> is k x y -> is (k + 9 / 8) (fldexp x e) (y * bpow radix2 e).
Proof.
  intros K Y T S [F N]. pose proof (bpow_gt_0 radix2 e) as E. assert (YY : 0 <= y * bpow radix2 e) by (apply Rmult_le_pos; lra).
  assert (A : near k (B2R x * bpow radix2 e) (y * bpow radix2 e)).
  { unfold CsqError.near in *. replace (B2R x * bpow radix2 e - y * bpow radix2 e) with ((B2R x - y) * bpow radix2 e) by ring.
    rewrite Rabs_mult, (Rabs_pos_eq (bpow radix2 e)), <- Rmult_assoc by lra. apply Rmult_le_compat_r; lra. }
  destruct (fldexp_small x e F) as [G V]; [apply near_fits with k (y * bpow radix2 e); auto; lra|].
  split; [exact G|]. rewrite V. apply near_rn; auto; lra.
Qed.
Lemma lit_val m e : Rabs (rn (IZR m * bpow radix2 e)) < big -> is_finite (lit m e) = true /\ B2R (lit m e) = rn (IZR m * bpow radix2 e).
Proof.
  intros L. pose proof (binary_normalize_correct prec emax Hp Hm mode_NE m e false) as C. cbv zeta in C.
  change (F2R {| Fnum := m; Fexp := e |}) with (IZR m * bpow radix2 e) in C. rewrite Rlt_bool_true in C by exact L. split; apply C.
Qed.
End Float.
