(** C96 for float and double: the error of the scaled sum of squares. *)
From Coq Require Import ZArith Reals List Lia Lra Bool.
From Flocq Require Import Core Relative Plus_error BinarySingleNaN.
From Verif Require Import Base BaseProofs BlasModel MatmulSpec BlasSpec BlasProofs ShapeModel AccModel AccSpec AccProofs NumModel NumSpec NumBasics NrmModel NrmSpec NrmProofs.
Import ListNotations.
Local Open Scope R_scope.

(** ** Inequalities *)
Lemma pow_up a n : 0 <= a -> INR n * a <= / 2 -> (1 + a) ^ n <= 1 + 2 * INR n * a.
Proof.
  intros A. induction n as [|n IH]; intros H; [cbn; lra|]. rewrite S_INR in *. cbn [pow].
  pose proof (pos_INR n). assert (N : 0 <= INR n * a) by (apply Rmult_le_pos; auto).
  assert (I : (1 + a) ^ n <= 1 + 2 * INR n * a) by (apply IH; lra).
  apply Rle_trans with ((1 + a) * (1 + 2 * INR n * a)); [apply Rmult_le_compat_l; lra|].
  assert (a * (2 * INR n * a) <= a * 1) by (apply Rmult_le_compat_l; lra). lra.
Qed.
Lemma pow_down a n : 0 <= a <= 1 -> 1 - INR n * a <= (1 - a) ^ n.
Proof.
  intros A. induction n as [|n IH]; [cbn; lra|]. rewrite S_INR. cbn [pow].
  pose proof (pow_le (1 - a) n ltac:(lra)). pose proof (pos_INR n).
  destruct (Rle_dec (INR n * a) 1) as [L|L].
  - apply Rle_trans with ((1 - a) * (1 - INR n * a)); [|apply Rmult_le_compat_l; lra]. assert (0 <= a * (INR n * a)) by (apply Rmult_le_pos; [lra|apply Rmult_le_pos; lra]). lra.
  - apply Rle_trans with 0; [lra|]. apply Rmult_le_pos; lra.
Qed.

Section Step.
Variables u eta : R.
Hypothesis (U0 : 0 < u) (U1 : u <= / 64) (E0 : 0 < eta) (E1 : 64 * eta <= u).

(** the square of a rounded quotient x <= 1 *)
Lemma square_quotient x q t : 0 <= x <= 1 -> 0 <= q <= 1 -> Rabs (q - x) <= u * x + eta -> 0 <= t -> Rabs (t - q * q) <= 2 * u * (q * q) + 2 * eta ->
  x * x * (1 - 5 * u) - 6 * eta <= t <= x * x * (1 + 5 * u) + 6 * eta.
Proof.
  intros X Q Hq T Ht. apply Rabs_le_inv in Hq. apply Rabs_le_inv in Ht.
  assert (XX : 0 <= x * x <= x) by (split; [apply Rmult_le_pos; lra|rewrite <- (Rmult_1_r x) at 3; apply Rmult_le_compat_l; lra]).
  assert (QU : q * q <= x * x * (1 + 2 * u + u * u) + 3 * eta).
  { apply Rle_trans with ((x * (1 + u) + eta) * (x * (1 + u) + eta)); [apply Rmult_le_compat; lra|].
    assert (x * (1 + u) * eta <= (1 + / 64) * eta) by (apply Rmult_le_compat_r; [lra|]; apply Rle_trans with (1 * (1 + / 64)); [apply Rmult_le_compat; lra|lra]).
    assert (eta * eta <= / 64 * eta) by (apply Rmult_le_compat_r; lra). lra. }
  assert (QL : x * x * (1 - 2 * u) - 3 * eta <= q * q).
  { destruct (Rle_dec 0 (x * (1 - u) - eta)) as [P|P].
    - apply Rle_trans with ((x * (1 - u) - eta) * (x * (1 - u) - eta)); [|apply Rmult_le_compat; lra].
      assert (0 <= x * x * (u * u)) by (apply Rmult_le_pos; [lra|apply Rmult_le_pos; lra]).
      assert (x * (1 - u) * eta <= 1 * eta) by (apply Rmult_le_compat_r; [lra|]; apply Rle_trans with (1 * 1); [apply Rmult_le_compat; lra|lra]).
      assert (0 <= eta * eta) by (apply Rmult_le_pos; lra). lra.
    - assert (x * (1 - u) < eta) by lra. assert (x * x * (1 - 2 * u) <= eta).
      { apply Rle_trans with (x * (1 - u) * 1); [|lra]. replace (x * x * (1 - 2 * u)) with (x * (x * (1 - 2 * u))) by ring. rewrite Rmult_assoc. apply Rmult_le_compat_l; [lra|].
        rewrite Rmult_1_r. apply Rle_trans with (1 * (1 - 2 * u)); [apply Rmult_le_compat_r; lra|lra]. }
      assert (0 <= q * q) by (apply Rmult_le_pos; lra). lra. }
  assert (UU : u * u <= / 64 * u) by (apply Rmult_le_compat_r; lra).
  set (y := x * x) in *. set (w := q * q) in *.
  assert (YU : 0 <= y * u) by (apply Rmult_le_pos; lra).
  assert (YUU : y * (u * u) <= y * (/ 64 * u)) by (apply Rmult_le_compat_l; lra).
  assert (YUU0 : 0 <= y * (u * u)) by (apply Rmult_le_pos; [lra|apply Rmult_le_pos; lra]).
  assert (UE : u * eta <= / 64 * eta) by (apply Rmult_le_compat_r; lra).
  assert (UE0 : 0 <= u * eta) by (apply Rmult_le_pos; lra).
  assert (YU3 : y * (u * u) * u <= y * (u * u) * / 64) by (apply Rmult_le_compat_l; lra).
  assert (W1 : u * w <= u * (y * (1 + 2 * u + u * u) + 3 * eta)) by (apply Rmult_le_compat_l; lra).
  split; lra.
Qed.
(** the two ways a number enters; t is the square of the quotient, R and S are relative to the square of the new scale *)
Lemma enter_small ssq x t s' : 1 <= ssq -> 0 <= x <= 1 -> x * x * (1 - 5 * u) - 6 * eta <= t <= x * x * (1 + 5 * u) + 6 * eta ->
  Rabs (s' - (ssq + t)) <= u * (ssq + t) -> 0 <= t -> (ssq + x * x) * (1 - 8 * u) <= s' <= (ssq + x * x) * (1 + 8 * u).
Proof.
  intros S X T Hs T0. apply Rabs_le_inv in Hs. assert (XX : 0 <= x * x) by (apply Rmult_le_pos; lra).
  set (y := x * x) in *. assert (SU : u <= ssq * u) by (rewrite <- (Rmult_1_l u) at 1; apply Rmult_le_compat_r; lra).
  assert (YU : 0 <= y * u) by (apply Rmult_le_pos; lra).
  assert (A1 : (ssq + y) * (1 - 6 * u) <= ssq + t) by lra.
  assert (A2 : ssq + t <= (ssq + y) * (1 + 6 * u)) by lra.
  assert (B1 : (ssq + y) * (1 - 6 * u) * (1 - u) <= (ssq + t) * (1 - u)) by (apply Rmult_le_compat_r; lra).
  assert (B2 : (ssq + t) * (1 + u) <= (ssq + y) * (1 + 6 * u) * (1 + u)) by (apply Rmult_le_compat_r; lra).
  assert (UU : u * u <= / 64 * u) by (apply Rmult_le_compat_r; lra). assert (U2 : 0 <= u * u) by (apply Rmult_le_pos; lra).
  assert (C : (ssq + y) * (u * u) <= (ssq + y) * (/ 64 * u)) by (apply Rmult_le_compat_l; lra).
  assert (C0 : 0 <= (ssq + y) * (u * u)) by (apply Rmult_le_pos; lra).
  split; lra.
Qed.
Lemma enter_large ssq x t p s' : 1 <= ssq -> 0 <= x <= 1 -> x * x * (1 - 5 * u) - 6 * eta <= t <= x * x * (1 + 5 * u) + 6 * eta -> 16 * (ssq * eta) <= u ->
  Rabs (p - ssq * t) <= u * (ssq * t) + eta -> 0 <= t -> 0 <= p -> Rabs (s' - (1 + p)) <= u * (1 + p) ->
  (1 + ssq * (x * x)) * (1 - 8 * u) <= s' <= (1 + ssq * (x * x)) * (1 + 8 * u).
Proof.
  intros S X T SE Hq T0 P0 Hs. apply Rabs_le_inv in Hq. apply Rabs_le_inv in Hs. assert (XX : 0 <= x * x) by (apply Rmult_le_pos; lra).
  set (y := ssq * (x * x)). assert (Y0 : 0 <= y) by (apply Rmult_le_pos; lra).
  assert (T1 : y * (1 - 5 * u) - 6 * (ssq * eta) <= ssq * t) by (unfold y; replace (ssq * (x * x) * (1 - 5 * u) - 6 * (ssq * eta)) with (ssq * (x * x * (1 - 5 * u) - 6 * eta)) by ring; apply Rmult_le_compat_l; lra).
  assert (T2 : ssq * t <= y * (1 + 5 * u) + 6 * (ssq * eta)) by (unfold y; replace (ssq * (x * x) * (1 + 5 * u) + 6 * (ssq * eta)) with (ssq * (x * x * (1 + 5 * u) + 6 * eta)) by ring; apply Rmult_le_compat_l; lra).
  assert (SE0 : 0 <= ssq * eta) by (apply Rmult_le_pos; lra).
  set (w := ssq * t) in *. set (se := ssq * eta) in *.
  assert (W1 : (y * (1 - 5 * u) - 6 * se) * (1 - u) <= w * (1 - u)) by (apply Rmult_le_compat_r; lra).
  assert (W2 : w * (1 + u) <= (y * (1 + 5 * u) + 6 * se) * (1 + u)) by (apply Rmult_le_compat_r; lra).
  assert (UU : u * u <= / 64 * u) by (apply Rmult_le_compat_r; lra). assert (U2 : 0 <= u * u) by (apply Rmult_le_pos; lra).
  assert (C : y * (u * u) <= y * (/ 64 * u)) by (apply Rmult_le_compat_l; lra).
  assert (C0 : 0 <= y * (u * u)) by (apply Rmult_le_pos; lra). assert (YU : 0 <= y * u) by (apply Rmult_le_pos; lra).
  assert (CE : se * u <= se * / 64) by (apply Rmult_le_compat_l; lra). assert (CE0 : 0 <= se * u) by (apply Rmult_le_pos; lra).
  assert (A1 : (1 + y) * (1 - 6 * u - 7 * / 16 * u) <= 1 + p) by lra.
  assert (A2 : 1 + p <= (1 + y) * (1 + 6 * u + 7 * / 16 * u)) by lra.
  set (z := 1 + y) in *.
  assert (B1 : z * (1 - 6 * u - 7 * / 16 * u) * (1 - u) <= (1 + p) * (1 - u)) by (apply Rmult_le_compat_r; lra).
  assert (B2 : (1 + p) * (1 + u) <= z * (1 + 6 * u + 7 * / 16 * u) * (1 + u)) by (apply Rmult_le_compat_r; lra).
  assert (Z0 : 1 <= z) by (unfold z; lra).
  assert (D : z * (u * u) <= z * (/ 64 * u)) by (apply Rmult_le_compat_l; lra).
  assert (D0 : 0 <= z * (u * u)) by (apply Rmult_le_pos; lra). assert (ZU : 0 <= z * u) by (apply Rmult_le_pos; lra).
  split; lra.
Qed.
End Step.

Section Loop.
Variables prec emax : Z.
Context (Hp : Prec_gt_0 prec) (Hm : Prec_lt_emax prec emax).
Hypothesis (P6 : (6 <= prec)%Z) (PE : (prec + 3 <= emax)%Z).
Local Notation num := (binary_float prec emax).
Local Notation fzero := (fzero prec emax).
Local Notation fone := (fone prec emax Hp Hm).
Local Notation fadd := (fadd prec emax Hp Hm).
Local Notation fmul := (fmul prec emax Hp Hm).
Local Notation fdiv := (fdiv prec emax Hp Hm).
Local Notation fabs := (fabs prec emax).
Local Notation flt := (flt prec emax).
Local Notation feq := (feq prec emax).
Local Notation fsqrt := (fsqrt prec emax Hp Hm).
Local Notation rn := (nearest prec emax).
Local Notation u := (unit_roundoff prec).
Local Notation v := (u / (1 + u)).
Local Notation eta := (underflow_unit prec emax).
Local Notation big := (bpow radix2 emax).
Local Notation format := (generic_format radix2 (FLT_exp (3 - emax - prec) prec)).
Variable square : num -> num.
Hypothesis SQ : good_square prec emax square.
Local Notation step := (ssq_step fzero fone fadd fmul fdiv fabs square flt feq).

Lemma small_u : u <= / 64.
Proof. unfold unit_roundoff. change (/ 64) with (bpow radix2 (-6)). apply bpow_le. lia. Qed.
Lemma eta_pow : eta = bpow radix2 (2 - emax - prec).
Proof. unfold underflow_unit. change (/ 2) with (bpow radix2 (-1)). rewrite <- bpow_plus. f_equal. lia. Qed.
Lemma small_eta : 64 * eta <= u.
Proof. rewrite eta_pow. change 64 with (bpow radix2 6). rewrite <- bpow_plus. apply bpow_le. lia. Qed.
Lemma full_u : bpow radix2 prec * u = 1.
Proof. unfold unit_roundoff. rewrite <- bpow_plus. now replace (prec + - prec)%Z with 0%Z by lia. Qed.
Lemma ssq_eta s k : 64 * INR k * u <= 1 -> s <= 1 + 4 * INR k -> 8 * s <= bpow radix2 prec /\ 16 * (s * eta) <= u.
Proof.
  intros K S. pose proof (u_pos prec) as U. pose proof small_u as SU.
  assert (A : 8 * s * u <= 1) by (apply Rle_trans with (8 * (1 + 4 * INR k) * u); [apply Rmult_le_compat_r; lra|lra]).
  assert (B : 8 * s <= bpow radix2 prec) by (apply Rmult_le_reg_r with u; [auto|rewrite full_u; auto]).
  split; [exact B|]. apply Rle_trans with (2 * bpow radix2 prec * eta).
  - replace (16 * (s * eta)) with (2 * (8 * s) * eta) by ring. apply Rmult_le_compat_r; [left; apply eta_pos|lra].
  - rewrite eta_pow. replace 2 with (bpow radix2 1) by reflexivity. rewrite <- !bpow_plus. apply bpow_le. lia.
Qed.
Lemma rn_rel x : Rabs (rn x - x) <= u * Rabs x + eta.
Proof. eapply Rle_trans; [apply rn_err; auto|]. pose proof (Rmult_le_compat_r (Rabs x) _ _ (Rabs_pos x) (v_le prec)). lra. Qed.
Lemma fabs_ok (x : num) : is_finite x = true -> is_finite (fabs x) = true /\ B2R (fabs x) = Rabs (B2R x).
Proof. intros F. unfold AccModel.fabs. rewrite is_finite_Babs, B2R_Babs. auto. Qed.
Lemma one_format : format 1.
Proof. rewrite <- (proj2 (fone_val prec emax Hp Hm)). apply num_format. Qed.
(** the quotient of two moduli, and its square *)
Lemma quotient (p q : num) : is_finite p = true -> is_finite q = true -> 0 <= B2R p <= B2R q -> B2R q <> 0 ->
  let x := B2R p / B2R q in 0 <= x <= 1 /\ let t := square (fdiv p q) in
  is_finite t = true /\ 0 <= B2R t /\ x * x * (1 - 5 * u) - 6 * eta <= B2R t <= x * x * (1 + 5 * u) + 6 * eta.
Proof.
  intros Fp Fq L N x. assert (Q : 0 < B2R q) by lra. assert (X : 0 <= x <= 1).
  { split; [apply div_nonneg; lra|]. apply Rmult_le_reg_r with (B2R q); [auto|]. unfold x, Rdiv. rewrite Rmult_assoc, Rinv_l; lra. }
  assert (RX : 0 <= rn x <= 1) by (split; [apply rn_pos; [auto|lra]|apply rn_le_format; [auto|apply one_format|lra]]).
  split; [exact X|]. destruct (fdiv_small prec emax Hp Hm p q Fp N) as (F & V).
  { fold x. rewrite Rabs_pos_eq by lra. apply Rle_lt_trans with 1; [lra|]. change 1 with (bpow radix2 0). apply bpow_lt. lia. }
  fold x in V. cbv zeta. destruct (SQ (fdiv p q) F) as (F2 & T0 & T1); [rewrite V; exact RX|]. rewrite V in T1. split; [exact F2|]. split; [exact T0|].
  apply (square_quotient u eta (u_pos prec) small_u (eta_pos prec emax) small_eta x (rn x)); auto.
  pose proof (rn_rel x) as R. now rewrite (Rabs_pos_eq x) in R by lra.
Qed.

Definition good_state (k : nat) (S : R) (st : num * num) : Prop :=
  is_finite (fst st) = true /\ is_finite (snd st) = true /\ 0 <= B2R (fst st) /\ 1 <= B2R (snd st) <= 1 + 4 * INR k /\
  (1 - 8 * u) ^ k * S <= B2R (fst st) * B2R (fst st) * B2R (snd st) <= (1 + 8 * u) ^ k * S.
Lemma grow k S S' R R' a : 0 <= S -> 0 <= a -> (1 - 8 * u) ^ k * S <= R <= (1 + 8 * u) ^ k * S -> S' = S + a ->
  (R + a) * (1 - 8 * u) <= R' <= (R + a) * (1 + 8 * u) -> (1 - 8 * u) ^ Datatypes.S k * S' <= R' <= (1 + 8 * u) ^ Datatypes.S k * S'.
Proof.
  intros S0 A (L1 & L2) -> (L3 & L4). pose proof (u_pos prec) as U. pose proof small_u as SU. cbn [pow].
  assert (D : (1 - 8 * u) ^ k <= 1) by (rewrite <- (pow1 k) at 2; apply pow_incr; lra). assert (D0 : 0 <= (1 - 8 * u) ^ k) by (apply pow_le; lra).
  assert (C : 1 <= (1 + 8 * u) ^ k) by (apply pow_R1_Rle; lra).
  assert (A1 : (1 - 8 * u) ^ k * a <= a) by (rewrite <- (Rmult_1_l a) at 2; apply Rmult_le_compat_r; lra).
  assert (A2 : a <= (1 + 8 * u) ^ k * a) by (rewrite <- (Rmult_1_l a) at 1; apply Rmult_le_compat_r; lra).
  split.
  - eapply Rle_trans; [|exact L3]. rewrite (Rmult_comm (R + a)), Rmult_assoc. apply Rmult_le_compat_l; lra.
  - eapply Rle_trans; [exact L4|]. rewrite (Rmult_comm (R + a)), Rmult_assoc. apply Rmult_le_compat_l; lra.
Qed.
Lemma sum_ok (x y : num) : is_finite x = true -> is_finite y = true -> 0 <= B2R x -> 0 <= B2R y -> B2R x + B2R y <= bpow radix2 prec ->
  is_finite (fadd x y) = true /\ B2R x <= B2R (fadd x y) /\ Rabs (B2R (fadd x y) - (B2R x + B2R y)) <= u * (B2R x + B2R y).
Proof.
  intros Fx Fy X Y L. destruct (fadd_small prec emax Hp Hm x y Fx Fy) as (F & V).
  { apply (rn_small prec emax Hp _ prec); try lia. rewrite Rabs_pos_eq by lra. exact L. }
  split; [exact F|]. rewrite V. split.
  - apply rn_ge_format; [auto|apply num_format|lra].
  - eapply Rle_trans; [apply (add_rel prec emax Hp); apply num_format|]. rewrite Rabs_pos_eq by lra. apply Rmult_le_compat_r; [lra|apply v_le].
Qed.
Lemma step_ok k S st (x : num) : 64 * INR (Datatypes.S k) * u <= 1 -> is_finite x = true -> 0 <= S -> good_state k S st ->
  good_state (Datatypes.S k) (S + B2R x * B2R x) (step st x).
Proof.
  intros K Fx S0 (F1 & F2 & H0 & (H1 & H2) & HR). destruct st as (sc, ss). cbn [fst snd] in *.
  pose proof (u_pos prec) as U. pose proof small_u as SU. pose proof (eta_pos prec emax) as E0. pose proof small_eta as SE. rewrite S_INR in K. pose proof (pos_INR k) as KP.
  assert (KU : 0 <= INR k * u) by (apply Rmult_le_pos; lra).
  destruct (ssq_eta (B2R ss) k) as (SS & SSE); [lra|auto|].
  assert (X2 : 0 <= B2R x * B2R x) by apply Rle_0_sqr.
  unfold ssq_step. rewrite feq_val by (auto; apply fzero_val). rewrite (proj2 (fzero_val prec emax)).
  destruct (Req_bool_spec (B2R x) 0) as [Z|N].
  { rewrite Z. unfold good_state. cbn [fst snd]. split; [auto|]. split; [auto|]. split; [auto|]. split; [rewrite S_INR; lra|].
    assert (R0 : 0 <= B2R sc * B2R sc * B2R ss) by (apply Rmult_le_pos; [apply Rle_0_sqr|lra]).
    apply (grow k S _ (B2R sc * B2R sc * B2R ss) _ 0); auto; try lra; rewrite Rplus_0_r; set (R := B2R sc * B2R sc * B2R ss) in *; split.
    - assert (0 <= R * u) by (apply Rmult_le_pos; lra). lra.
    - assert (0 <= R * u) by (apply Rmult_le_pos; lra). lra. }
  destruct (fabs_ok x Fx) as (Fa & Va). assert (AP : 0 < B2R (fabs x)) by (rewrite Va; now apply Rabs_pos_lt).
  assert (AA : B2R (fabs x) * B2R (fabs x) = B2R x * B2R x) by (rewrite Va; apply abs_square).
  set (a := fabs x) in *. clearbody a. rewrite <- AA in *. rewrite flt_val by auto.
  assert (BD : forall s' y, 0 <= y <= 1 + B2R ss -> s' <= y * (1 + 8 * u) -> s' <= 1 + 4 * INR (Datatypes.S k)).
  { intros s' y Y Hs. rewrite S_INR. assert (y * u <= (2 + 4 * INR k) * u) by (apply Rmult_le_compat_r; lra). lra. }
  destruct (Rlt_bool_spec (B2R sc) (B2R a)) as [L|L].
  - (* the new number is larger *)
    destruct (quotient sc a F1 Fa) as (X & Ft & T0 & T1); [lra|lra|]. set (q := B2R sc / B2R a) in *. set (t := square (fdiv sc a)) in *.
    assert (QQ : 0 <= q * q <= 1) by (split; [apply Rmult_le_pos; lra|rewrite <- (Rmult_1_r 1); apply Rmult_le_compat; lra]).
    assert (QU : q * q * u <= 1 * u) by (apply Rmult_le_compat_r; lra).
    assert (T2 : B2R t <= 2) by lra.
    assert (ST : 0 <= B2R ss * B2R t <= bpow radix2 prec / 4).
    { split; [apply Rmult_le_pos; lra|]. apply Rle_trans with (B2R ss * 2); [apply Rmult_le_compat_l; lra|lra]. }
    destruct (fmul_small prec emax Hp Hm ss t F2 Ft) as (Fm & Vm).
    { apply (rn_small prec emax Hp _ prec); try lia. rewrite Rabs_pos_eq by lra. lra. }
    set (p := fmul ss t) in *. pose proof (rn_rel (B2R ss * B2R t)) as RP. rewrite <- Vm in RP. rewrite (Rabs_pos_eq (B2R ss * B2R t)) in RP by lra.
    assert (P0 : 0 <= B2R p) by (rewrite Vm; apply rn_pos; [auto|lra]).
    assert (PB : B2R p <= bpow radix2 prec / 2).
    { apply Rabs_le_inv in RP. assert (u * (B2R ss * B2R t) <= 1) by (apply Rle_trans with (u * (bpow radix2 prec / 4)); [apply Rmult_le_compat_l; lra|pose proof full_u; lra]). lra. }
    destruct (fone_val prec emax Hp Hm) as (Fo & Vo).
    destruct (sum_ok fone p) as (Fs & Gs & Es); auto; try (rewrite Vo; lra).
    rewrite Vo in Gs, Es.
    destruct (enter_large u eta U SU E0 SE (B2R ss) q (B2R t) (B2R p) (B2R (fadd fone p))) as (G1 & G2); auto.
    unfold good_state. cbn [fst snd]. split; [auto|]. split; [auto|]. split; [lra|].
    assert (YB : 0 <= 1 + B2R ss * (q * q) <= 1 + B2R ss).
    { assert (0 <= B2R ss * (q * q)) by (apply Rmult_le_pos; lra). split; [lra|]. assert (B2R ss * (q * q) <= B2R ss * 1) by (apply Rmult_le_compat_l; lra). lra. }
    split; [split; [auto|apply (BD _ _ YB G2)]|].
    apply (grow k S _ (B2R sc * B2R sc * B2R ss) _ (B2R a * B2R a)); auto; try (apply Rle_0_sqr).
    assert (ID : B2R sc * B2R sc * B2R ss + B2R a * B2R a = B2R a * B2R a * (1 + B2R ss * (q * q))) by (unfold q; field; lra).
    rewrite ID. rewrite !(Rmult_assoc (B2R a * B2R a)). split; apply Rmult_le_compat_l; auto; apply Rle_0_sqr.
  - (* the scale stays *)
    destruct (quotient a sc Fa F1) as (X & Ft & T0 & T1); [lra|lra|]. set (q := B2R a / B2R sc) in *. set (t := square (fdiv a sc)) in *.
    assert (QQ : 0 <= q * q <= 1) by (split; [apply Rmult_le_pos; lra|rewrite <- (Rmult_1_r 1); apply Rmult_le_compat; lra]).
    assert (QU : q * q * u <= 1 * u) by (apply Rmult_le_compat_r; lra).
    assert (T2 : B2R t <= 2) by lra.
    destruct (sum_ok ss t) as (Fs & Gs & Es); auto; try lra.
    destruct (enter_small u eta U SU E0 SE (B2R ss) q (B2R t) (B2R (fadd ss t))) as (G1 & G2); auto.
    unfold good_state. cbn [fst snd]. split; [auto|]. split; [auto|]. split; [lra|]. split; [split; [lra|apply (BD _ (B2R ss + q * q)); lra]|].
    apply (grow k S _ (B2R sc * B2R sc * B2R ss) _ (B2R a * B2R a)); auto; try (apply Rle_0_sqr).
    assert (ID : B2R sc * B2R sc * B2R ss + B2R a * B2R a = B2R sc * B2R sc * (B2R ss + q * q)) by (unfold q; field; lra).
    rewrite ID. rewrite !(Rmult_assoc (B2R sc * B2R sc)). split; apply Rmult_le_compat_l; auto; apply Rle_0_sqr.
Qed.
Lemma loop_ok l : 64 * INR (length l) * u <= 1 -> Forall (fun x => is_finite x = true) l ->
  good_state (length l) (squares (map B2R l)) (fold_left step l (fzero, fone)).
Proof.
  induction l as [|x l IH] using rev_ind; intros K F.
  - destruct (fone_val prec emax Hp Hm) as (Fo & Vo). unfold good_state. cbn [fold_left fst snd length map]. rewrite Vo. split; [reflexivity|]. split; [auto|]. unfold squares, exact_sum. cbn. lra.
  - apply Forall_app in F. destruct F as (F1 & F2). rewrite app_length in *. cbn [length] in *. rewrite fold_left_app. cbn [fold_left]. replace (length l + 1)%nat with (Datatypes.S (length l)) in * by lia.
    rewrite map_app, squares_app. replace (squares (map B2R [x])) with (B2R x * B2R x) by (unfold squares, exact_sum; cbn; lra).
    apply step_ok; auto.
    + now inversion F2.
    + apply squares_pos.
    + apply IH; auto. rewrite S_INR in K. pose proof (u_pos prec). lra.
Qed.
Lemma fsqrt_ok (x : num) : is_finite x = true -> 0 < B2R x -> is_finite (fsqrt x) = true /\ B2R (fsqrt x) = rn (sqrt (B2R x)).
Proof.
  intros F P. destruct (Bsqrt_correct prec emax Hp Hm mode_NE x) as (V & Fs & _). split; [|exact V]. unfold NrmModel.fsqrt. rewrite Fs.
  destruct x as [s|s| |s m e H]; try discriminate F; [cbn in P; lra|]. destruct s; [|reflexivity].
  exfalso. assert (N : F2R (Float radix2 (Z.neg m) e) < 0) by (apply F2R_lt_0; reflexivity). change (0 < F2R (Float radix2 (Z.neg m) e)) in P. lra.
Qed.
Lemma final_ok k S (st : num * num) : 64 * INR k * u <= 1 -> 0 <= S -> good_state k S st -> let len := sqrt S in
  len + nrm2_bound prec emax k len < big ->
  let r := fmul (fst st) (fsqrt (snd st)) in is_finite r = true /\ Rabs (B2R r - len) <= nrm2_bound prec emax k len.
Proof.
  intros K S0 (F1 & F2 & H0 & (H1 & H2) & HR) len LB r. destruct st as (sc, ss). cbn [fst snd] in *.
  pose proof (u_pos prec) as U. pose proof small_u as SU. pose proof (eta_pos prec emax) as E0. pose proof small_eta as SE. pose proof (pos_INR k) as KP.
  assert (KU : 0 <= INR k * u) by (apply Rmult_le_pos; lra).
  assert (L0 : 0 <= len) by apply sqrt_pos.
  set (g := sqrt (B2R ss)). assert (G1 : 1 <= g) by (rewrite <- sqrt_1; apply sqrt_le_1_alt; lra).
  set (M := B2R sc * g). assert (M0 : 0 <= M) by (apply Rmult_le_pos; lra).
  assert (ME : M = sqrt (B2R sc * B2R sc * B2R ss)) by (unfold M, g; rewrite sqrt_mult_alt by (apply Rle_0_sqr); now rewrite sqrt_square).
  assert (MU : M <= len * (1 + 8 * INR k * u)).
  { rewrite ME. apply Rle_trans with (sqrt ((1 + 4 * u) ^ k * (1 + 4 * u) ^ k * S)).
    - apply sqrt_le_1_alt. eapply Rle_trans; [apply HR|]. apply Rmult_le_compat_r; [auto|]. rewrite <- Rpow_mult_distr. apply pow_incr. assert (0 <= u * u) by (apply Rmult_le_pos; lra). lra.
    - rewrite sqrt_mult_alt by (apply Rle_0_sqr). rewrite sqrt_square by (apply pow_le; lra). fold len. rewrite Rmult_comm. apply Rmult_le_compat_l; [auto|].
      eapply Rle_trans; [apply (pow_up (4 * u)); lra|lra]. }
  assert (ML : len * (1 - 8 * INR k * u) <= M).
  { rewrite ME. apply Rle_trans with (sqrt ((1 - 8 * u) ^ k * (1 - 8 * u) ^ k * S)).
    - rewrite sqrt_mult_alt by (apply Rle_0_sqr). rewrite sqrt_square by (apply pow_le; lra). fold len. rewrite Rmult_comm. apply Rmult_le_compat_r; [auto|].
      eapply Rle_trans; [|apply (pow_down (8 * u)); lra]. lra.
    - apply sqrt_le_1_alt. eapply Rle_trans; [|apply HR]. apply Rmult_le_compat_r; [auto|]. assert (D : (1 - 8 * u) ^ k <= 1) by (rewrite <- (pow1 k) at 2; apply pow_incr; lra). assert (D0 : 0 <= (1 - 8 * u) ^ k) by (apply pow_le; lra). apply Rle_trans with ((1 - 8 * u) ^ k * 1); [apply Rmult_le_compat_l; auto|lra]. }
  destruct (fsqrt_ok ss F2) as (Fs & Vs); [lra|]. fold g in Vs. pose proof (rn_rel g) as RG. rewrite (Rabs_pos_eq g) in RG by lra. rewrite <- Vs in RG.
  set (w := B2R (fsqrt ss)) in *. apply Rabs_le_inv in RG.
  assert (EG : eta <= / 64 * u * g) by (apply Rle_trans with (/ 64 * u * 1); [lra|apply Rmult_le_compat_l; lra]).
  assert (SW1 : B2R sc * w <= M * (1 + (1 + / 64) * u)) by (unfold M; rewrite Rmult_assoc; apply Rmult_le_compat_l; lra).
  assert (SW2 : M * (1 - (1 + / 64) * u) <= B2R sc * w) by (unfold M; rewrite Rmult_assoc; apply Rmult_le_compat_l; lra).
  assert (W0 : 0 <= w) by (assert (0 <= u * g) by (apply Rmult_le_pos; lra); assert (u * g <= / 64 * g) by (apply Rmult_le_compat_r; lra); lra).
  pose proof (rn_rel (B2R sc * w)) as RW. rewrite (Rabs_pos_eq (B2R sc * w)) in RW by (apply Rmult_le_pos; auto).
  set (h := B2R sc * w) in *. assert (MUP : 0 <= M * u) by (apply Rmult_le_pos; lra). assert (MUU : M * u * u <= M * u * / 64) by (apply Rmult_le_compat_l; lra).
  assert (UH : u * h <= u * (M * (1 + (1 + / 64) * u))) by (apply Rmult_le_compat_l; lra).
  assert (MU2 : M * u <= len * (1 + 8 * INR k * u) * u) by (apply Rmult_le_compat_r; lra).
  assert (LU : 0 <= len * u) by (apply Rmult_le_pos; lra).
  assert (KL : len * u * (8 * INR k * u) <= len * u * / 8) by (apply Rmult_le_compat_l; lra).
  assert (CL : Rabs (rn h - len) <= nrm2_bound prec emax k len).
  { unfold nrm2_bound. apply Rabs_le_inv in RW. apply Rabs_le. split; lra. }
  assert (Fr : is_finite r = true /\ B2R r = rn h).
  { apply fmul_small; auto. fold w. fold h. apply Rabs_le_inv in CL. assert (0 <= rn h) by (apply rn_pos; [auto|]; apply Rmult_le_pos; auto). rewrite Rabs_pos_eq by auto. lra. }
  destruct Fr as (Fr & Vr). split; [exact Fr|]. rewrite Vr. exact CL.
Qed.
Lemma fnrm2_ok n x incX (m : list num) : inside m x incX n -> 64 * INR (Z.to_nat n) * u <= 1 ->
  (forall i, (i < Z.to_nat n)%nat -> is_finite (item fzero m x incX n i) = true) ->
  let len := length2 (Z.to_nat n) (fun i => B2R (item fzero m x incX n i)) in
  len + nrm2_bound prec emax (Z.to_nat n) len < big ->
  exists r, fnrm2 prec emax Hp Hm square n x incX m = Ok r /\ is_finite r = true /\ Rabs (B2R r - len) <= nrm2_bound prec emax (Z.to_nat n) len.
Proof.
  intros Hx K F len LB. unfold fnrm2. pose proof (u_pos prec) as U. pose proof (eta_pos prec emax) as E0.
  assert (B0 : 0 <= nrm2_bound prec emax (Z.to_nat n) len).
  { unfold nrm2_bound. pose proof (pos_INR (Z.to_nat n)). assert (0 <= len) by apply sqrt_pos. assert (0 <= 8 * (INR (Z.to_nat n) + 1) * u * len) by (repeat apply Rmult_le_pos; lra). lra. }
  destruct (Z_lt_le_dec n 1) as [L|L]; [|destruct (Z.eq_dec n 1) as [->|N]].
  - unfold nrm2. replace (n <? 1)%Z with true by lia. eexists. split; [reflexivity|]. split; [reflexivity|].
    assert (Z : len = 0) by (unfold len, length2; replace (Z.to_nat n) with 0%nat by lia; cbn; apply sqrt_0). rewrite Z in *. cbn [B2R AccModel.fzero]. rewrite Rminus_0_r, Rabs_R0. exact B0.
  - rewrite (nrm2_one _ _ _ _ _ _ _ _ _ _ _ _ fzero) by auto. eexists. split; [reflexivity|]. destruct (fabs_ok (item fzero m x incX 1 0)) as (Fa & Va); [apply F; cbn; lia|]. split; [exact Fa|].
    rewrite Va. assert (E : len = Rabs (B2R (item fzero m x incX 1 0))); [|rewrite <- E, Rminus_diag_eq, Rabs_R0 by auto; exact B0].
    unfold len, length2, total. change (Z.to_nat 1) with 1%nat. cbn [sum]. rewrite Rplus_0_l. apply sqrt_Rsqr_abs.
  - rewrite (nrm2_loop _ _ _ _ _ _ _ _ _ _ _ _ fzero) by (auto; lia). eexists. split; [reflexivity|]. cbv zeta.
    set (l := numbers (fun v => [v]) fzero m x incX n (Z.to_nat n)).
    assert (EL : l = map (item fzero m x incX n) (seq 0 (Z.to_nat n))) by (unfold l, numbers; generalize (map (item fzero m x incX n) (seq 0 (Z.to_nat n))); intros q; induction q as [|a q IH]; cbn; congruence).
    assert (LL : length l = Z.to_nat n) by (rewrite EL, map_length, seq_length; auto).
    assert (SL : len = sqrt (squares (map B2R l))).
    { unfold len, length2, squares. f_equal. rewrite EL, !map_map, total_list. reflexivity. }
    rewrite SL, <- LL in *. apply final_ok; auto; [apply squares_pos|]. apply loop_ok; auto. rewrite EL. apply Forall_forall. intros a Ha. apply in_map_iff in Ha. destruct Ha as (i & <- & Hi). apply in_seq in Hi. apply F. lia.
Qed.
Lemma fcnrm2_ok modulus n x incX (m : list (num * num)) : inside m x incX n -> (2 <= n)%Z -> 128 * INR (Z.to_nat n) * u <= 1 ->
  let z i := item (fzero, fzero) m x incX n i in
  (forall i, (i < Z.to_nat n)%nat -> is_finite (fst (z i)) = true /\ is_finite (snd (z i)) = true) ->
  let len := sqrt (total (Z.to_nat n) (fun i => B2R (fst (z i)) * B2R (fst (z i)) + B2R (snd (z i)) * B2R (snd (z i)))) in
  len + nrm2_bound prec emax (2 * Z.to_nat n) len < big ->
  exists r, fcnrm2 prec emax Hp Hm square modulus n x incX m = Ok r /\ is_finite r = true /\ Rabs (B2R r - len) <= nrm2_bound prec emax (2 * Z.to_nat n) len.
Proof.
  intros Hx L K z F len LB. unfold fcnrm2. rewrite (nrm2_loop _ _ _ _ _ _ _ _ _ _ _ _ (fzero, fzero)) by auto. eexists. split; [reflexivity|]. cbv zeta.
  set (N := Z.to_nat n) in *.
  set (l := numbers (fun z => [fst z; snd z]) (fzero, fzero) m x incX n N).
  assert (Q : forall k, length (numbers (fun z => [fst z; snd z]) (fzero, fzero) m x incX n k) = (2 * k)%nat /\
    squares (map B2R (numbers (fun z => [fst z; snd z]) (fzero, fzero) m x incX n k)) = total k (fun i => B2R (fst (z i)) * B2R (fst (z i)) + B2R (snd (z i)) * B2R (snd (z i)))).
  { induction k as [|k (I1 & I2)]; [split; reflexivity|]. rewrite numbers_S, app_length, map_app, squares_app, I1, I2. split; [cbn; lia|]. unfold total. cbn [sum]. fold (z k). unfold squares, exact_sum. cbn [map fold_right]. lra. }
  destruct (Q N) as (LL & SL). fold l in LL, SL. unfold len in *. rewrite <- SL, <- LL in *.
  assert (K' : 64 * INR (length l) * u <= 1) by (rewrite LL, mult_INR; change (INR 2) with 2; lra).
  apply final_ok; auto; [apply squares_pos|]. apply loop_ok; auto. apply Forall_forall. intros a Ha. unfold l, numbers in Ha. apply in_flat_map in Ha. destruct Ha as (w & Hw & Hin). apply in_map_iff in Hw. destruct Hw as (i & <- & Hi).
  apply in_seq in Hi. destruct (F i ltac:(lia)). cbn in Hin. destruct Hin as [<-|[<-|[]]]; auto.
Qed.
(** a correctly rounded square is good enough *)
Lemma rounded_square_good : good_square prec emax (fun r => fmul r r).
Proof.
  intros r F R. destruct (fmul_small prec emax Hp Hm r r F F) as (Fm & Vm).
  { apply (rn_small prec emax Hp _ 0); try lia. rewrite Rabs_pos_eq by apply Rle_0_sqr. change (bpow radix2 0) with 1. rewrite <- (Rmult_1_r 1). apply Rmult_le_compat; lra. }
  split; [exact Fm|]. rewrite Vm. split; [apply rn_pos; [auto|]; apply Rle_0_sqr|]. pose proof (rn_rel (B2R r * B2R r)) as E. rewrite (Rabs_pos_eq (B2R r * B2R r)) in E by apply Rle_0_sqr.
  pose proof (u_pos prec). pose proof (eta_pos prec emax). assert (0 <= u * (B2R r * B2R r)) by (apply Rmult_le_pos; [lra|apply Rle_0_sqr]). lra.
Qed.
End Loop.
