(** Proofs for C109: accuracy of the two parts computed from the real sinh and tan. *)
From Coq Require Import ZArith Reals Lia Lra Bool.
From Flocq Require Import Core Relative BinarySingleNaN.
From Verif Require Import AccModel AccSpec AccProofs NumModel NumSpec NumBasics NrmModel NrmSpec NrmFloat CsqModel CsqError CsqProofs CsqFinal TnhModel TnhSpec.
From Coq Require Import ZifyNat ZifyN ZifyBool.
Ltac Zify.zify_post_hook ::= idtac.
Local Open Scope R_scope.

Section Round.
Variables prec emax : Z.
Context (Hp : Prec_gt_0 prec).
Hypothesis (P2 : (2 <= prec)%Z).
Local Notation rn := (nearest prec emax).
Local Notation emin := (3 - emax - prec)%Z.
Local Notation fexp := (FLT_exp emin prec).
Local Notation format := (generic_format radix2 fexp).

Lemma ulp_ge s e : s <> 0 -> (e <= mag radix2 s)%Z -> bpow radix2 (e - prec) <= ulp radix2 fexp s.
Proof. intros N E. rewrite ulp_neq_0 by exact N. apply bpow_le. unfold cexp, FLT_exp. lia. Qed.
Lemma closest r s : format s -> Rabs (rn r - r) <= Rabs (s - r).
Proof. intros F. destruct (round_N_pt radix2 fexp (fun x => negb (Z.even x)) r) as [_ N]. apply N, F. Qed.
(** a number within half a unit of s rounds to s *)
Lemma nearest_above r s : format s -> 0 < s -> s <= r -> 2 * (r - s) < ulp radix2 fexp s -> rn r = s.
Proof.
  intros F S L H. pose proof (closest r s F) as C. pose proof (rn_ge_format prec emax Hp r s F L) as G.
  rewrite (Rabs_left1 (s - r)) in C by lra. destruct (Rle_lt_or_eq_dec _ _ G) as [K|K]; [|congruence].
  assert (W : format (rn r)) by (apply generic_format_round; typeclasses eauto).
  pose proof (succ_le_lt radix2 fexp s (rn r) F W K) as SS. rewrite succ_eq_pos in SS by lra. apply Rabs_le_inv in C. lra.
Qed.
Lemma nearest_below r s : format s -> 0 < s -> s <> bpow radix2 (mag radix2 s - 1) -> r <= s -> 2 * (s - r) < ulp radix2 fexp s -> rn r = s.
Proof.
  intros F S NP L H. pose proof (closest r s F) as C. pose proof (rn_le_format prec emax Hp r s F L) as G.
  rewrite (Rabs_pos_eq (s - r)) in C by lra. destruct (Rle_lt_or_eq_dec _ _ G) as [K|K]; [|congruence].
  assert (W : format (rn r)) by (apply generic_format_round; typeclasses eauto).
  pose proof (pred_ge_gt radix2 fexp (rn r) s W F K) as SS. rewrite pred_eq_pos in SS by lra. unfold pred_pos in SS. rewrite Req_bool_false in SS by exact NP.
  apply Rabs_le_inv in C. lra.
Qed.
(** the rounded square root of the rounded square is the number itself *)
Lemma sqrt_rounded_square s : format s -> 0 < s -> bpow radix2 (2 - emax) <= s * s -> rn (sqrt (rn (s * s))) = s.
Proof.
  intros F S N. set (e := mag_val radix2 s (mag radix2 s)). assert (M' : mag_val radix2 s (mag radix2 s) = e) by reflexivity.
  assert (E : bpow radix2 (e - 1) <= s < bpow radix2 e).
  { subst e. clear M'. destruct (mag radix2 s) as [e0 E0]. cbn [mag_val]. specialize (E0 ltac:(lra)). rewrite Rabs_pos_eq in E0 by lra. exact E0. }
  clearbody e.
  assert (E1 : (2 - emax <= 2 * e - 1)%Z).
  { assert (s * s < bpow radix2 (2 * e)). { replace (2 * e)%Z with (e + e)%Z by lia. rewrite bpow_plus. apply Rmult_le_0_lt_compat; lra. }
    enough (2 - emax < 2 * e)%Z by lia. apply (lt_bpow radix2). lra. }
  destruct (Req_dec s (bpow radix2 (e - 1))) as [Q|Q].
  - rewrite (rn_id prec emax (s * s)); [rewrite sqrt_square by lra; apply rn_id, F|].
    rewrite Q, <- bpow_plus. unfold Prec_gt_0 in Hp. apply generic_format_FLT_bpow; [exact Hp|lia].
  - assert (L : bpow radix2 (e - 1) < s) by lra. set (y := rn (s * s)).
    assert (B : bpow radix2 (2 * e - 2) <= s * s).
    { replace (2 * e - 2)%Z with (e - 1 + (e - 1))%Z by lia. rewrite bpow_plus. pose proof (bpow_gt_0 radix2 (e - 1)). apply Rmult_le_compat; lra. }
    assert (B' : s * s < bpow radix2 (2 * e)). { replace (2 * e)%Z with (e + e)%Z by lia. rewrite bpow_plus. apply Rmult_le_0_lt_compat; lra. }
    assert (SS : 0 < s * s) by (apply Rmult_lt_0_compat; auto).
    assert (Y : bpow radix2 (2 * e - 2) <= y).
    { apply rn_ge_format; [exact Hp| |exact B]. unfold Prec_gt_0 in Hp. apply generic_format_FLT_bpow; [exact Hp|lia]. }
    assert (D : 2 * Rabs (y - s * s) <= bpow radix2 (2 * e - prec)).
    { pose proof (error_le_half_ulp radix2 fexp (fun x => negb (Z.even x)) (s * s)) as H. change (round radix2 fexp ZnearestE (s * s)) with y in H.
      assert (ulp radix2 fexp (s * s) <= bpow radix2 (2 * e - prec)); [|lra].
      rewrite ulp_neq_0 by lra. apply bpow_le. unfold cexp, FLT_exp.
      assert (mag radix2 (s * s) <= 2 * e)%Z by (apply mag_le_bpow; [lra|rewrite Rabs_pos_eq; lra]).
      assert (2 - emax < mag radix2 (s * s))%Z by (apply mag_gt_bpow; rewrite Rabs_pos_eq; lra). lia. }
    pose proof (bpow_gt_0 radix2 (2 * e - 2)) as Z2. assert (Y0 : 0 <= y) by lra. pose proof (sqrt_sqrt y Y0) as RR. pose proof (sqrt_pos y) as R0. set (r := sqrt y) in *.
    assert (RB : bpow radix2 (e - 1) <= r).
    { apply Rnot_lt_le. intros K. assert (r * r < bpow radix2 (2 * e - 2)); [|lra].
      replace (2 * e - 2)%Z with (e - 1 + (e - 1))%Z by lia. rewrite bpow_plus. apply Rmult_le_0_lt_compat; lra. }
    assert (G : 2 * Rabs (r - s) < bpow radix2 (e - prec)).
    { apply Rmult_lt_reg_r with (r + s); [lra|]. rewrite Rmult_assoc. rewrite <- (Rabs_pos_eq (r + s)) at 1 by lra. rewrite <- Rabs_mult.
      replace ((r - s) * (r + s)) with (y - s * s) by (rewrite <- RR; ring). eapply Rle_lt_trans; [exact D|].
      replace (2 * e - prec)%Z with (e - prec + e)%Z by lia. rewrite bpow_plus. apply Rmult_lt_compat_l; [apply bpow_gt_0|].
      replace (bpow radix2 e) with (2 * bpow radix2 (e - 1)); [lra|]. change 2 with (bpow radix2 1) at 1. rewrite <- bpow_plus. f_equal. lia. }
    assert (U : bpow radix2 (e - prec) <= ulp radix2 fexp s) by (apply ulp_ge; [lra|lia]).
    destruct (Rle_dec s r) as [K|K].
    + rewrite Rabs_pos_eq in G by lra. apply nearest_above; auto. lra.
    + rewrite Rabs_left in G by lra. apply nearest_below; auto; try lra. now rewrite M'.
Qed.
(** adding 1 to a large number changes nothing *)
Lemma absorb_one m : format m -> bpow radix2 (prec + 1) <= m -> rn (1 + m) = m.
Proof.
  intros F M. pose proof (bpow_gt_0 radix2 (prec + 1)). apply nearest_above; auto; try lra.
  apply Rlt_le_trans with (bpow radix2 (prec + 2 - prec)); [|apply ulp_ge; [lra|]].
  - replace (prec + 2 - prec)%Z with 2%Z by lia. change (bpow radix2 2) with 4. lra.
  - enough (prec + 1 < mag radix2 m)%Z by lia. apply mag_gt_bpow. rewrite Rabs_pos_eq; lra.
Qed.
End Round.

(** ** The exact value *)
Definition den (S T : R) : R := 1 + S * (1 + T * T) * S.
Definition part_re (S T : R) : R := sqrt (1 + S * S) * (S * (1 + T * T)) / den S T.
Definition part_im (S T : R) : R := T / den S T.
Lemma weight_ge T : 1 <= 1 + T * T.
Proof. pose proof (Rle_0_sqr T) as H. unfold Rsqr in H. lra. Qed.
Lemma den_ge S T : 1 + S * S <= den S T.
Proof.
  unfold den. pose proof (weight_ge T). replace (S * (1 + T * T) * S) with (S * S * (1 + T * T)) by ring.
  pose proof (Rle_0_sqr S) as H2. unfold Rsqr in H2. assert (S * S * 1 <= S * S * (1 + T * T)) by (apply Rmult_le_compat_l; lra). lra.
Qed.
Lemma den_ge1 S T : 1 <= den S T.
Proof. pose proof (den_ge S T). pose proof (Rle_0_sqr S) as H2. unfold Rsqr in H2. lra. Qed.
Lemma root_bounds S : 0 <= S -> 1 <= sqrt (1 + S * S) /\ S <= sqrt (1 + S * S) /\ sqrt (1 + S * S) <= 1 + S /\ sqrt (1 + S * S) <= 1 + S * S.
Proof.
  intros H. assert (0 <= S * S) by (apply Rmult_le_pos; auto). repeat split.
  - rewrite <- sqrt_1 at 1. apply sqrt_le_1; lra.
  - rewrite <- (sqrt_square S) at 1 by auto. apply sqrt_le_1; lra.
  - rewrite <- (sqrt_square (1 + S)) by lra. apply sqrt_le_1; lra.
  - rewrite <- (sqrt_square (1 + S * S)) at 2 by lra. assert (0 <= S * S * (S * S)) by (apply Rmult_le_pos; auto). apply sqrt_le_1; lra.
Qed.
Lemma part_re_nonneg S T : 0 <= S -> 0 <= part_re S T.
Proof.
  intros H. pose proof (den_ge1 S T). pose proof (weight_ge T). apply Rmult_le_pos; [apply Rmult_le_pos; [apply sqrt_pos|apply Rmult_le_pos; lra]|left; apply Rinv_0_lt_compat; lra].
Qed.

Section Float.
Variables prec emax : Z.
Context (Hp : Prec_gt_0 prec) (Hm : Prec_lt_emax prec emax).
Hypothesis (P24 : (24 <= prec)%Z) (PE : (3 * prec + 8 <= emax)%Z) (P53 : (prec <= 53)%Z).
Local Notation num := (binary_float prec emax).
Local Notation fzero := (fzero prec emax).
Local Notation fone := (fone prec emax Hp Hm).
Local Notation fadd := (fadd prec emax Hp Hm).
Local Notation fmul := (fmul prec emax Hp Hm).
Local Notation fdiv := (fdiv prec emax Hp Hm).
Local Notation flt := (flt prec emax).
Local Notation fsqrt := (fsqrt prec emax Hp Hm).
Local Notation fisInf := (fisInf prec emax).
Local Notation tanh_bv := (tanh_bv prec emax Hp Hm).
Local Notation tanh_dv := (tanh_dv prec emax Hp Hm).
Local Notation tanh_parts := (tanh_parts prec emax Hp Hm).
Local Notation rn := (nearest prec emax).
Local Notation u := (unit_roundoff prec).
Local Notation eta := (underflow_unit prec emax).
Local Notation big := (bpow radix2 emax).
Local Notation top := (bpow radix2 (emax - 2)).
Local Notation emin := (3 - emax - prec)%Z.
Local Notation format := (generic_format radix2 (FLT_exp emin prec)).
Local Notation near := (near u).
Local Notation is := (is prec emax).
Local Notation safe := (safe prec emax).
Local Notation u0 := (u_pos prec).
Local Notation us := (u_small prec P24).

Lemma one_val : is_finite fone = true /\ B2R fone = 1.
Proof. split; [apply is_finite_Bone|apply Bone_correct]. Qed.
Lemma eta_16 : 16 * eta <= u.
Proof. pose proof (eta_tiny prec emax P24 PE). pose proof (bpow_gt_0 radix2 (2 - emax - prec)). rewrite <- (eta_pow prec emax) in *. lra. Qed.
Lemma eta0 : 0 < eta.
Proof. rewrite (eta_pow prec emax). apply bpow_gt_0. Qed.
Lemma is_one : is 0 fone 1.
Proof. destruct one_val as [F V]. split; auto. rewrite V. apply near_refl. Qed.
(** the absolute error of a rounded product of nearly right factors *)
Lemma mul_near k k' x y x' y' : 0 <= k <= 15 -> 0 <= k' <= 15 -> 0 <= y -> 0 <= y' -> near k x y -> near k' x' y' ->
  Rabs (rn (x * x') - y * y') <= (k + k' + 19 / 16) * u * (y * y') + eta.
Proof.
  intros K K' Y Y' N N'. assert (YY : 0 <= y * y') by (apply Rmult_le_pos; auto). pose proof u0 as U0. pose proof us as U1.
  pose proof (near_mul u U0 U1 k k' _ _ _ _ ltac:(lra) ltac:(lra) Y Y' N N') as A.
  assert (KK : 0 <= k + k' + / 16 <= 64) by lra.
  pose proof (near_bounds u U0 U1 _ _ _ KK YY A) as B.
  pose proof (rn_rel prec emax Hp (x * x')) as E. rewrite (Rabs_pos_eq (x * x')) in E by lra. unfold CsqError.near in A.
  replace (rn (x * x') - y * y') with (rn (x * x') - x * x' + (x * x' - y * y')) by ring. eapply Rle_trans; [apply Rabs_triang|].
  assert (u * (x * x') <= u * (y * y' * (1 + / 16384))) by (apply Rmult_le_compat_l; lra). assert (0 <= u * (y * y')) by (apply Rmult_le_pos; lra). lra.
Qed.
Lemma one_plus k k' x y x' y' : 0 <= k <= 15 -> 0 <= k' <= 15 -> 0 <= y -> 0 <= y' -> y * y' <= / 2 * top -> is k x y -> is k' x' y' ->
  is (k + k' + 37 / 16) (fadd fone (fmul x x')) (1 + y * y').
Proof.
  intros K K' Y Y' T [F N] [F' N']. assert (YY : 0 <= y * y') by (apply Rmult_le_pos; auto). pose proof u0 as U0. pose proof us as U1.
  pose proof (top_ge prec emax P24 PE) as TG.
  pose proof (near_mul u U0 U1 k k' _ _ _ _ ltac:(lra) ltac:(lra) Y Y' N N') as A.
  destruct (fmul_small prec emax Hp Hm x x' F F') as [G V]; [apply (near_fits prec emax Hp P24 PE) with (k + k' + / 16) (y * y'); auto; lra|].
  pose proof (mul_near k k' _ _ _ _ K K' Y Y' N N') as E. rewrite <- V in E. destruct one_val as [F1 V1].
  assert (NS : near (k + k' + 19 / 16) (B2R fone + B2R (fmul x x')) (1 + y * y')).
  { unfold CsqError.near. rewrite V1. replace (1 + B2R (fmul x x') - (1 + y * y')) with (B2R (fmul x x') - y * y') by ring. eapply Rle_trans; [exact E|].
    pose proof eta_16. pose proof eta0. assert (0 <= (k + k') * u) by (apply Rmult_le_pos; lra). lra. }
  destruct (fadd_small prec emax Hp Hm fone (fmul x x') F1 G) as [G2 V2]; [apply (near_fits prec emax Hp P24 PE) with (k + k' + 19 / 16) (1 + y * y'); auto; lra|].
  split; [exact G2|]. rewrite V2. replace (k + k' + 37 / 16) with (k + k' + 19 / 16 + 9 / 8) by lra. apply (near_rn prec emax Hp P24); auto; try lra.
  right. pose proof eta_16. assert (u * 1 <= u * (1 + y * y')) by (apply Rmult_le_compat_l; lra). lra.
Qed.
(** the quotient, which may underflow *)
Lemma div_abs k k' (x : num) y (x' : num) y' : 0 <= k <= 15 -> 0 <= k' <= 15 -> 0 <= y -> 1 <= y' -> y <= top -> is k x y -> is k' x' y' ->
  is_finite (fdiv x x') = true /\ Rabs (B2R (fdiv x x') - y / y') <= (k + k' + 19 / 16) * u * (y / y') + eta.
Proof.
  intros K K' Y Y' T [F N] [F' N']. pose proof u0 as U0. pose proof us as U1.
  assert (QY : y / y' <= y). { apply Rmult_le_reg_r with y'; [lra|]. unfold Rdiv. rewrite Rmult_assoc, Rinv_l, Rmult_1_r by lra. rewrite <- (Rmult_1_r y) at 1. apply Rmult_le_compat_l; lra. }
  assert (YY : 0 <= y / y') by (apply Rmult_le_pos; [auto|left; apply Rinv_0_lt_compat; lra]).
  pose proof (near_div u U0 U1 k k' (B2R x) y (B2R x') y' ltac:(lra) ltac:(lra) Y ltac:(lra) N N') as A.
  pose proof (near_bounds u U0 U1 k' (B2R x') y' ltac:(lra) ltac:(lra) N') as B'.
  destruct (fdiv_small prec emax Hp Hm x x' F) as [G V]; [lra|apply (near_fits prec emax Hp P24 PE) with (k + k' + / 16) (y / y'); auto; lra|].
  split; [exact G|]. rewrite V.
  assert (KK : 0 <= k + k' + / 16 <= 64) by lra.
  pose proof (near_bounds u U0 U1 _ _ _ KK YY A) as B.
  pose proof (rn_rel prec emax Hp (B2R x / B2R x')) as E. rewrite (Rabs_pos_eq (B2R x / B2R x')) in E by lra. unfold CsqError.near in A.
  set (q := B2R x / B2R x') in *. set (z := y / y') in *.
  replace (rn q - z) with (rn q - q + (q - z)) by ring. eapply Rle_trans; [apply Rabs_triang|].
  assert (u * q <= u * (z * (1 + / 16384))) by (apply Rmult_le_compat_l; lra). assert (0 <= u * z) by (apply Rmult_le_pos; lra). lra.
Qed.

(** ** From nonnegative sinh and tan *)
Section Parts.
Variables (s t : num) (S T : R).
Hypothesis (S0 : 0 <= S) (T0 : 0 <= T) (TB : T <= bpow radix2 (emax / 4)) (IT : is 2 t T).
Local Notation W := (1 + T * T).
Local Notation D := (den S T).
Local Notation w := (fadd fone (fmul t t)).

Lemma quarter : (4 * (emax / 4) <= emax)%Z.
Proof using. clear. pose proof (Z.mul_div_le emax 4 ltac:(lia)). lia. Qed.
Lemma t_square : T * T <= bpow radix2 (2 * (emax / 4)).
Proof. replace (2 * (emax / 4))%Z with (emax / 4 + emax / 4)%Z by lia. rewrite bpow_plus. apply Rmult_le_compat; auto. Qed.
Lemma w_bound : W <= bpow radix2 (2 * (emax / 4) + 1).
Proof.
  pose proof t_square as H. rewrite bpow_plus. change (bpow radix2 1) with 2.
  assert (1 <= bpow radix2 (2 * (emax / 4))); [|lra]. change 1 with (bpow radix2 0). apply bpow_le. assert (0 <= emax / 4)%Z by (apply Z.div_pos; lia). lia.
Qed.
Lemma w_top : W <= / 4 * top.
Proof.
  eapply Rle_trans; [apply w_bound|]. change (/ 4) with (bpow radix2 (-2)). rewrite <- bpow_plus. apply bpow_le. pose proof quarter. lia.
Qed.
Lemma t_top : T <= top.
Proof. eapply Rle_trans; [apply TB|]. apply bpow_le. pose proof quarter. assert (0 <= emax / 4)%Z by (apply Z.div_pos; lia). lia. Qed.
Lemma w_is : is (101 / 16) w W.
Proof.
  replace (101 / 16) with (2 + 2 + 37 / 16) by lra. apply one_plus; auto; try lra. pose proof w_top. pose proof (weight_ge T). lra.
Qed.

Section Finite.
Hypothesis (IS : is 2 s S).
(** the denominator does not overflow and nothing underflows *)
Lemma normal_case : 32 * eta <= u * (S * W) -> D <= bpow radix2 (emax - 5) ->
  is (19 / 2) (tanh_bv s t) (S * W) /\ is (221 / 16) (tanh_dv s t) D /\
  is 31 (fdiv (fmul (fsqrt (fadd fone (fmul s s))) (tanh_bv s t)) (tanh_dv s t)) (part_re S T).
Proof.
  intros UF OF. pose proof u0 as U0. pose proof us as U1. pose proof eta0 as E0. pose proof eta_16 as E16. pose proof (weight_ge T) as W1. pose proof (den_ge S T) as DG. pose proof w_top as WT.
  pose proof (root_bounds S S0) as (R1 & R2 & R3 & R4). set (r := sqrt (1 + S * S)) in *.
  assert (OF' : D <= / 8 * top). { eapply Rle_trans; [exact OF|]. change (/ 8) with (bpow radix2 (-3)). rewrite <- bpow_plus. apply bpow_le. lia. }
  assert (SW0 : 0 <= S * W) by (apply Rmult_le_pos; lra).
  assert (SS0 : 0 <= S * S) by (apply Rmult_le_pos; lra).
  assert (SWS : 0 <= S * W * S) by (apply Rmult_le_pos; lra).
  assert (DE : D = 1 + S * W * S) by reflexivity.
  assert (SWt : S * W <= / 4 * top).
  { destruct (Rle_dec S 1) as [L|L].
    - apply Rle_trans with (1 * W); [apply Rmult_le_compat_r; lra|lra].
    - assert (S * W * 1 <= S * W * S) by (apply Rmult_le_compat_l; lra). lra. }
  assert (IB : is (19 / 2) (tanh_bv s t) (S * W)).
  { replace (19 / 2) with (2 + 101 / 16 + 19 / 16) by lra. apply (is_mul prec emax Hp Hm P24 PE); auto; try lra; [right; lra|apply w_is]. }
  assert (ID : is (221 / 16) (tanh_dv s t) D).
  { replace (221 / 16) with (19 / 2 + 2 + 37 / 16) by lra. apply one_plus; auto; try lra. }
  split; [exact IB|]. split; [exact ID|].
  assert (IR : is (139 / 32) (fsqrt (fadd fone (fmul s s))) r).
  { replace (139 / 32) with ((2 + 2 + 37 / 16) / 2 + 19 / 16) by lra. apply (is_sqrt prec emax Hp Hm P24); try lra.
    - fold r. assert (u * 1 <= u * r) by (apply Rmult_le_compat_l; lra). lra.
    - apply one_plus; auto; lra. }
  assert (RS : r * (S * W) <= (1 + S) * (S * W)) by (apply Rmult_le_compat_r; lra).
  assert (RS1 : 1 * (S * W) <= r * (S * W)) by (apply Rmult_le_compat_r; lra).
  assert (IN : is (481 / 32) (fmul (fsqrt (fadd fone (fmul s s))) (tanh_bv s t)) (r * (S * W))).
  { replace (481 / 32) with (139 / 32 + 19 / 2 + 19 / 16) by lra. apply (is_mul prec emax Hp Hm P24 PE); auto; try lra.
    right. assert (u * (1 * (S * W)) <= u * (r * (S * W))) by (apply Rmult_le_compat_l; lra). lra. }
  apply (is_mono prec emax) with (961 / 32); [lra|apply part_re_nonneg; auto|].
  replace (961 / 32) with (481 / 32 + 221 / 16 + 19 / 16) by lra. unfold part_re. fold r.
  assert (D1 : 1 <= D) by lra.
  assert (PQ : r * (S * W) / D <= r * (S * W)).
  { apply Rmult_le_reg_r with D; [lra|]. unfold Rdiv. rewrite Rmult_assoc, Rinv_l, Rmult_1_r by lra. rewrite <- (Rmult_1_r (r * (S * W))) at 1. apply Rmult_le_compat_l; lra. }
  apply (is_div prec emax Hp Hm P24 PE); auto; try lra. right.
  assert (PL : Rmin (S * W / 2) (/ 2) <= r * (S * W) / D).
  { apply Rmult_le_reg_r with D; [lra|]. unfold Rdiv. rewrite (Rmult_assoc (r * (S * W))), Rinv_l, Rmult_1_r by lra.
    destruct (Rle_dec (S * W * S) 1) as [L|L].
    - apply Rle_trans with (S * W * / 2 * D); [apply Rmult_le_compat_r; [lra|apply Rmin_l]|].
      assert (S * W * D <= S * W * 2) by (apply Rmult_le_compat_l; lra). lra.
    - apply Rle_trans with (/ 2 * D); [apply Rmult_le_compat_r; [lra|apply Rmin_r]|].
      assert (S * (S * W) <= r * (S * W)) by (apply Rmult_le_compat_r; lra). lra. }
  assert (u * Rmin (S * W / 2) (/ 2) <= u * (r * (S * W) / D)) by (apply Rmult_le_compat_l; lra).
  apply Rle_trans with (u * Rmin (S * W / 2) (/ 2)); [|assumption].
  unfold Rmin. destruct (Rle_dec (S * W / 2) (/ 2)); [lra|]. pose proof (eta_tiny prec emax P24 PE). lra.
Qed.
End Finite.
End Parts.

(** ** A tiny real part *)
Lemma tiny_step c x y k j m : 0 <= y -> 0 <= x -> 0 <= k <= 6 -> 0 <= j <= 20 -> 0 <= m <= 4 -> Rabs (c - 1) <= k * u -> Rabs (x - y) <= j * u * y + m * eta ->
  Rabs (rn (c * x) - y) <= (j + k + 9 / 8) * u * y + (m + 9 / 8) * eta.
Proof.
  intros Y X K J M C N. pose proof u0 as U0. pose proof us as U1. pose proof eta0 as E0.
  pose proof (Rabs_le_inv _ _ C) as C'. pose proof (Rabs_le_inv _ _ N) as N'.
  assert (KU : k * u <= 6 * / 1048576) by (apply Rmult_le_compat; lra).
  assert (JU : j * u * y <= / 32768 * y) by (apply Rmult_le_compat_r; [auto|]; apply Rle_trans with (20 * / 1048576); [apply Rmult_le_compat; lra|lra]).
  assert (XU : x <= y * (1 + / 32768) + m * eta) by lra.
  assert (UX : u * x <= u * (y * (1 + / 32768) + m * eta)) by (apply Rmult_le_compat_l; lra).
  assert (UM : u * (m * eta) <= / 65536 * eta). { rewrite <- Rmult_assoc. apply Rmult_le_compat_r; [lra|]. apply Rle_trans with (/ 1048576 * 4); [apply Rmult_le_compat; lra|lra]. }
  assert (CX : Rabs (c - 1) * x <= k * (u * x)). { rewrite <- Rmult_assoc. apply Rmult_le_compat_r; lra. }
  assert (UY : 0 <= u * y) by (apply Rmult_le_pos; lra).
  assert (KUX : k * (u * x) <= k * (u * y) + / 16 * (u * y) + / 1024 * eta).
  { apply Rle_trans with (k * (u * y * (1 + / 32768) + / 65536 * eta)); [apply Rmult_le_compat_l; lra|].
    assert (k * (u * y * / 32768) <= 6 * (u * y * / 32768)) by (apply Rmult_le_compat_r; lra).
    assert (k * (/ 65536 * eta) <= 6 * (/ 65536 * eta)) by (apply Rmult_le_compat_r; lra). lra. }
  pose proof (rn_rel prec emax Hp (c * x)) as E. assert (CP : 0 <= c * x) by (apply Rmult_le_pos; lra). rewrite (Rabs_pos_eq (c * x)) in E by exact CP.
  assert (CX2 : u * (c * x) <= 101 / 100 * (u * x)). { replace (u * (c * x)) with (c * (u * x)) by ring. apply Rmult_le_compat_r; [apply Rmult_le_pos; lra|lra]. }
  replace (rn (c * x) - y) with (rn (c * x) - c * x + ((c - 1) * x + (x - y))) by ring.
  eapply Rle_trans; [apply Rabs_triang|]. eapply Rle_trans; [apply Rplus_le_compat_l, Rabs_triang|]. rewrite (Rabs_mult (c - 1)), (Rabs_pos_eq x) by auto. lra.
Qed.
Section Parts2.
Variables (s t : num) (S T : R).
Hypothesis (S0 : 0 <= S) (T0 : 0 <= T) (TB : T <= bpow radix2 (emax / 4)) (IT : is 2 t T) (IS : is 2 s S).
Local Notation W := (1 + T * T).
Local Notation D := (den S T).

Lemma tiny_case : u * (S * W) < 32 * eta ->
  is_finite (tanh_dv s t) = true /\ is 3 (tanh_dv s t) D /\
  let a := fdiv (fmul (fsqrt (fadd fone (fmul s s))) (tanh_bv s t)) (tanh_dv s t) in
  is_finite a = true /\ Rabs (B2R a - part_re S T) <= 31 * u * part_re S T + 4 * eta.
Proof.
  intros UF. pose proof u0 as U0. pose proof us as U1. pose proof eta0 as E0. pose proof eta_16 as E16. pose proof (weight_ge T) as W1. pose proof (den_ge S T) as DG.
  pose proof (root_bounds S S0) as (R1 & R2 & R3 & R4). pose proof (top_ge prec emax P24 PE) as TG.
  assert (DE : D = 1 + S * W * S) by reflexivity.
  pose proof (w_is t T T0 TB IT) as [FW NW]. destruct IS as [FS NS].
  set (y := S * W) in *. set (h := bpow radix2 (7 - emax)).
  assert (Y0 : 0 <= y) by (apply Rmult_le_pos; lra).
  assert (HU : h <= / 1024 * u). { unfold h, unit_roundoff. change (/ 1024) with (bpow radix2 (-10)). rewrite <- bpow_plus. apply bpow_le. lia. }
  assert (HP : 0 < h) by apply bpow_gt_0.
  assert (YH : y < h).
  { apply Rmult_lt_reg_l with u; [lra|]. eapply Rlt_le_trans; [exact UF|]. rewrite (eta_pow prec emax). unfold h, unit_roundoff. change 32 with (bpow radix2 5). rewrite <- !bpow_plus. apply bpow_le. lia. }
  assert (EH : eta <= h). { rewrite (eta_pow prec emax). apply bpow_le. lia. }
  assert (SY : S <= y). { unfold y. rewrite <- (Rmult_1_r S) at 1. apply Rmult_le_compat_l; lra. }
  (* b *)
  pose proof (mul_near 2 (101 / 16) (B2R s) S (B2R (fadd fone (fmul t t))) W ltac:(lra) ltac:(lra) S0 ltac:(lra) NS NW) as EB. fold y in EB.
  pose proof (near_bounds u U0 U1 2 _ _ ltac:(lra) S0 NS) as BS. pose proof (near_bounds u U0 U1 (101 / 16) (B2R (fadd fone (fmul t t))) W ltac:(lra) ltac:(lra) NW) as BW.
  set (w := fadd fone (fmul t t)) in *.
  assert (SWp : 0 <= B2R s * B2R w) by (apply Rmult_le_pos; lra).
  assert (UY : 0 <= u * y) by (apply Rmult_le_pos; lra).
  assert (UYs : u * y <= / 1048576 * y) by (apply Rmult_le_compat_r; lra).
  assert (XB : 0 <= rn (B2R s * B2R w) <= 3 * h).
  { split; [rewrite <- (rn_0 prec emax); apply rn_le; auto|]. apply Rabs_le_inv in EB. lra. }
  destruct (fmul_small prec emax Hp Hm s w FS FW) as [FB VB].
  { rewrite Rabs_pos_eq by lra. apply Rle_lt_trans with 1; [lra|]. change 1 with (bpow radix2 0). apply bpow_lt. lia. }
  change (fmul s w) with (tanh_bv s t) in FB, VB. rewrite <- VB in EB, XB. set (x := B2R (tanh_bv s t)) in *.
  (* product *)
  assert (PB : 0 <= x * B2R s <= / 64 * u).
  { split; [apply Rmult_le_pos; lra|]. apply Rle_trans with (3 * h * (2 * h)); [apply Rmult_le_compat; lra|]. assert (h * h <= h * 1) by (apply Rmult_le_compat_l; lra). lra. }
  assert (PR : 0 <= rn (x * B2R s) <= / 4 * u).
  { split; [rewrite <- (rn_0 prec emax); apply rn_le; tauto|]. pose proof (rn_rel prec emax Hp (x * B2R s)) as E. rewrite (Rabs_pos_eq (x * B2R s)) in E by lra. apply Rabs_le_inv in E.
    assert (u * (x * B2R s) <= 1 * (x * B2R s)) by (apply Rmult_le_compat_r; lra). pose proof (eta_tiny prec emax P24 PE). lra. }
  destruct (fmul_small prec emax Hp Hm (tanh_bv s t) s FB FS) as [FP VP].
  { fold x. rewrite Rabs_pos_eq by lra. apply Rle_lt_trans with 1; [lra|]. change 1 with (bpow radix2 0). apply bpow_lt. lia. }
  fold x in VP. destruct one_val as [F1 V1].
  (* dv *)
  pose proof (rn_rel prec emax Hp (1 + rn (x * B2R s))) as ED. rewrite (Rabs_pos_eq (1 + _)) in ED by lra. apply Rabs_le_inv in ED.
  assert (UP : u * (1 + rn (x * B2R s)) <= u * 2) by (apply Rmult_le_compat_l; lra).
  assert (UP2 : u * rn (x * B2R s) <= u * / 4) by (apply Rmult_le_compat_l; lra).
  assert (DB : Rabs (rn (1 + rn (x * B2R s)) - 1) <= 2 * u) by (apply Rabs_le; lra).
  destruct (fadd_small prec emax Hp Hm fone (fmul (tanh_bv s t) s) F1 FP) as [FD VD].
  { rewrite V1, VP. apply Rle_lt_trans with 2; [apply Rabs_le; apply Rabs_le_inv in DB; lra|]. change 2 with (bpow radix2 1). apply bpow_lt. lia. }
  change (fadd fone (fmul (tanh_bv s t) s)) with (tanh_dv s t) in FD, VD. rewrite V1, VP in VD. rewrite <- VD in DB. set (d := B2R (tanh_dv s t)) in *.
  assert (YS : 0 <= y * S <= / 64 * u).
  { split; [apply Rmult_le_pos; lra|]. apply Rle_trans with (h * h); [apply Rmult_le_compat; lra|]. assert (h * h <= h * 1) by (apply Rmult_le_compat_l; lra). lra. }
  assert (SS : 0 <= S * S <= / 64 * u).
  { split; [apply Rmult_le_pos; lra|]. apply Rle_trans with (y * S); [apply Rmult_le_compat_r; lra|lra]. }
  split; [exact FD|]. split.
  { split; [exact FD|]. unfold CsqError.near. fold d. rewrite DE. fold y. apply Rabs_le_inv in DB. assert (0 <= u * (y * S)) by (apply Rmult_le_pos; lra). apply Rabs_le. lra. }
  (* root *)
  set (r := sqrt (1 + S * S)) in *.
  assert (IR : is (139 / 32) (fsqrt (fadd fone (fmul s s))) r).
  { replace (139 / 32) with ((2 + 2 + 37 / 16) / 2 + 19 / 16) by lra. apply (is_sqrt prec emax Hp Hm P24); try lra.
    - fold r. assert (u * 1 <= u * r) by (apply Rmult_le_compat_l; lra). lra.
    - apply one_plus; auto; try lra. }
  destruct IR as [FR NR]. unfold CsqError.near in NR. set (c := B2R (fsqrt (fadd fone (fmul s s)))) in *.
  assert (CB : Rabs (c - 1) <= 5 * u).
  { apply Rabs_le_inv in NR. assert (u * r <= u * (1 + / 64)) by (apply Rmult_le_compat_l; lra). apply Rabs_le. lra. }
  pose proof (tiny_step c x y 5 (2 + 101 / 16 + 19 / 16) 1 Y0 (proj1 XB) ltac:(lra) ltac:(lra) ltac:(lra) CB ltac:(lra)) as EN.
  assert (NB : 0 <= rn (c * x) <= 4 * h).
  { apply Rabs_le_inv in CB. split; [rewrite <- (rn_0 prec emax); apply rn_le; [exact Hp|]; apply Rmult_le_pos; [lra|apply XB]|]. apply Rabs_le_inv in EN. lra. }
  destruct (fmul_small prec emax Hp Hm (fsqrt (fadd fone (fmul s s))) (tanh_bv s t) FR FB) as [FN VN].
  { fold c x. rewrite Rabs_pos_eq by lra. apply Rle_lt_trans with 1; [lra|]. change 1 with (bpow radix2 0). apply bpow_lt. lia. }
  fold c x in VN. rewrite <- VN in EN, NB. set (n := B2R (fmul (fsqrt (fadd fone (fmul s s))) (tanh_bv s t))) in *.
  (* quotient *)
  apply Rabs_le_inv in DB as DB'. assert (D0 : 0 < d) by lra.
  assert (IB : Rabs (/ d - 1) <= 5 / 2 * u).
  { replace (/ d - 1) with (- ((d - 1) * / d)) by (field; lra). rewrite Rabs_Ropp, Rabs_mult.
    assert (I1 : / d <= 5 / 4). { replace (5 / 4) with (/ (4 / 5)) by lra. apply Rinv_le; lra. } assert (I0 : 0 < / d) by (apply Rinv_0_lt_compat; lra).
    rewrite (Rabs_pos_eq (/ d)) by lra. apply Rle_trans with (2 * u * (5 / 4)); [|lra]. apply Rmult_le_compat; try lra. apply Rabs_pos. }
  pose proof (tiny_step (/ d) n y (5 / 2) (2 + 101 / 16 + 19 / 16 + 5 + 9 / 8) (1 + 9 / 8) Y0 (proj1 NB) ltac:(lra) ltac:(lra) ltac:(lra) IB ltac:(lra)) as EA.
  assert (ND : n / d = / d * n) by (unfold Rdiv; ring).
  destruct (fdiv_small prec emax Hp Hm (fmul (fsqrt (fadd fone (fmul s s))) (tanh_bv s t)) (tanh_dv s t) FN) as [FA VA].
  { fold d. lra. }
  { fold n d. rewrite ND. apply Rle_lt_trans with 1; [|change 1 with (bpow radix2 0); apply bpow_lt; lia]. apply Rabs_le_inv in EA. apply Rabs_le. lra. }
  fold n d in VA. rewrite ND in VA. cbv zeta. split; [exact FA|]. rewrite VA.
  (* the exact value is close to y *)
  assert (PE1 : Rabs (part_re S T - y) <= / 16 * u * y).
  { unfold part_re. fold r y. replace (r * y / D - y) with (y * ((r - D) / D)) by (field; lra). rewrite Rabs_mult, (Rabs_pos_eq y), (Rmult_comm _ y) by lra. apply Rmult_le_compat_l; [lra|].
    unfold Rdiv. rewrite Rabs_mult. assert (I1 : 0 < / D <= 1). { split; [apply Rinv_0_lt_compat; lra|]. rewrite <- Rinv_1. apply Rinv_le; lra. }
    rewrite (Rabs_pos_eq (/ D)) by lra. apply Rle_trans with (Rabs (r - D) * 1); [apply Rmult_le_compat_l; [apply Rabs_pos|lra]|].
    rewrite Rmult_1_r. apply Rabs_le. rewrite DE. fold y. lra. }
  apply Rabs_le_inv in PE1 as PE2. set (P := part_re S T) in *.
  assert (UPy : u * y <= u * (P * (1 + / 1024))) by (apply Rmult_le_compat_l; lra).
  replace (rn (/ d * n) - P) with (rn (/ d * n) - y + (y - P)) by ring. eapply Rle_trans; [apply Rabs_triang|]. rewrite (Rabs_minus_sym y P).
  assert (0 <= u * P) by (apply Rmult_le_pos; lra). lra.
Qed.
End Parts2.

(** ** A large real part *)
Lemma fmul_pos (x y : num) : is_finite x = true -> is_finite y = true -> 0 < B2R x -> 0 < B2R y ->
  (is_finite (fmul x y) = true /\ B2R (fmul x y) = rn (B2R x * B2R y)) \/ fmul x y = B754_infinity false.
Proof.
  intros F F' X Y. pose proof (Bmult_correct prec emax Hp Hm mode_NE x y) as C. change (Bmult mode_NE x y) with (fmul x y) in C.
  destruct (Rlt_bool _ _); [left; destruct C as (C1 & C2 & _); rewrite F, F' in C2; split; [exact C2|exact C1]|]. right.
  rewrite (pos_sign prec emax x F X), (pos_sign prec emax y F' Y) in C. change (binary_overflow prec emax mode_NE (xorb false false)) with (SpecFloat.S754_infinity false) in C.
  destruct (fmul x y); try discriminate C. cbn in C. injection C as ->. reflexivity.
Qed.
Lemma inf_mul (x : num) : (is_finite x = true /\ 0 < B2R x) \/ x = B754_infinity false -> fmul (B754_infinity false) x = B754_infinity false /\ fmul x (B754_infinity false) = B754_infinity false.
Proof.
  intros [[F X]| ->]; [|split; reflexivity]. pose proof (pos_sign prec emax x F X) as G. destruct x as [b|b| |b m e H]; try discriminate F; [cbn in X; lra|]. cbn in G. subst b. split; reflexivity.
Qed.

Section Parts3.
Variables (s t : num) (S T : R).
Hypothesis (S0 : 0 <= S) (T0 : 0 <= T) (TB : T <= bpow radix2 (emax / 4)) (IT : is 2 t T).
Local Notation W := (1 + T * T).
Local Notation D := (den S T).
Hypothesis (DL : bpow radix2 (emax - 5) <= D).

Lemma s_large : bpow radix2 (prec + 6) <= S * S.
Proof.
  pose proof (w_bound T T0 TB) as WB. pose proof (weight_ge T) as W1. pose proof quarter as Q4.
  apply Rnot_lt_le. intros K. assert (SS0 : 0 <= S * S) by (apply Rmult_le_pos; auto).
  assert (D <= bpow radix2 (emax - 6)).
  { unfold den. replace (S * W * S) with (S * S * W) by ring.
    assert (M : S * S * W <= bpow radix2 (prec + 6) * bpow radix2 (2 * (emax / 4) + 1)) by (apply Rmult_le_compat; lra).
    rewrite <- bpow_plus in M. assert (M2 : bpow radix2 (prec + 6 + (2 * (emax / 4) + 1)) <= bpow radix2 (emax - 7)) by (apply bpow_le; lia).
    assert (1 <= bpow radix2 (emax - 7)) by (change 1 with (bpow radix2 0); apply bpow_le; lia).
    replace (bpow radix2 (emax - 6)) with (bpow radix2 (emax - 7) * 2) by (change 2 with (bpow radix2 1); rewrite <- bpow_plus; f_equal; lia). lra. }
  assert (bpow radix2 (emax - 6) < bpow radix2 (emax - 5)) by (apply bpow_lt; lia). lra.
Qed.
Lemma s_big : 64 <= u * (S * S) /\ 1024 <= S.
Proof.
  pose proof s_large as L. pose proof u0 as U0. split.
  - apply Rle_trans with (u * bpow radix2 (prec + 6)); [|apply Rmult_le_compat_l; lra]. unfold unit_roundoff. rewrite <- bpow_plus. change 64 with (bpow radix2 6). apply bpow_le. lia.
  - apply Rnot_lt_le. intros K. assert (S * S <= 1024 * 1024) by (apply Rmult_le_compat; lra).
    assert (bpow radix2 21 <= bpow radix2 (prec + 6)) by (apply bpow_le; lia). change (bpow radix2 21) with 2097152 in *. lra.
Qed.
Lemma re_one : Rabs (1 - part_re S T) <= u * part_re S T.
Proof.
  destruct s_big as [SU SB]. pose proof u0 as U0. pose proof us as U1. pose proof (weight_ge T) as W1. pose proof (den_ge1 S T) as D1.
  pose proof (root_bounds S S0) as (R1 & R2 & R3 & R4). unfold part_re. set (r := sqrt (1 + S * S)) in *.
  assert (RR : r * r = 1 + S * S) by (apply sqrt_sqrt; lra).
  assert (RS : (r - S) * S <= / 2).
  { assert ((r - S) * (2 * S) <= (r - S) * (r + S)) by (apply Rmult_le_compat_l; lra). replace ((r - S) * (r + S)) with 1 in * by (ring_simplify; lra). lra. }
  assert (RS0 : 0 <= (r - S) * S) by (apply Rmult_le_pos; lra).
  assert (N : Rabs (D - r * (S * W)) <= W).
  { unfold den. replace (1 + S * W * S - r * (S * W)) with (1 - (r - S) * S * W) by ring.
    assert (0 <= (r - S) * S * W) by (apply Rmult_le_pos; lra). assert ((r - S) * S * W <= / 2 * W) by (apply Rmult_le_compat_r; lra). apply Rabs_le. lra. }
  assert (DW : 64 * W <= u * D).
  { unfold den. replace (u * (1 + S * W * S)) with (u + u * (S * S) * W) by ring. assert (64 * W <= u * (S * S) * W) by (apply Rmult_le_compat_r; lra). lra. }
  apply Rabs_le_inv in N.
  assert (LD : D * / 2 <= r * (S * W)). { assert (u * D <= / 2 * D) by (apply Rmult_le_compat_r; lra). lra. }
  apply Rmult_le_reg_r with D; [lra|]. rewrite <- (Rabs_pos_eq D) at 2 by lra. rewrite <- Rabs_mult. unfold Rdiv.
  replace ((1 - r * (S * W) * / D) * D) with (D - r * (S * W)) by (field; lra).
  replace (u * (r * (S * W) * / D) * D) with (u * (r * (S * W))) by (field; lra).
  apply Rle_trans with (u * (D * / 2)); [apply Rabs_le; lra|apply Rmult_le_compat_l; lra].
Qed.
Lemma im_tiny : part_im S T <= tanh_tiny emax.
Proof.
  unfold part_im, tanh_tiny. pose proof (den_ge1 S T) as D1. apply Rmult_le_reg_r with D; [lra|]. unfold Rdiv. rewrite Rmult_assoc, Rinv_l, Rmult_1_r by lra.
  eapply Rle_trans; [exact TB|]. apply Rle_trans with (bpow radix2 (emax / 4 + 8 - emax) * bpow radix2 (emax - 5)).
  - rewrite <- bpow_plus. apply bpow_le. lia.
  - apply Rmult_le_compat_l; [apply bpow_ge_0|exact DL].
Qed.
Lemma w_pos : is_finite (fadd fone (fmul t t)) = true /\ 1 <= B2R (fadd fone (fmul t t)).
Proof.
  pose proof (w_is t T T0 TB IT) as [FW _]. split; [exact FW|]. destruct (fadd_finite prec emax Hp Hm _ _ FW) as (_ & FT & VW). rewrite VW.
  destruct (fmul_finite prec emax Hp Hm _ _ FT) as (_ & _ & VT). rewrite VT. destruct one_val as [_ V1]. rewrite V1.
  assert (0 <= rn (B2R t * B2R t)). { rewrite <- (rn_0 prec emax). apply rn_le; [exact Hp|]. pose proof (Rle_0_sqr (B2R t)) as Q. exact Q. }
  apply rn_ge_format; [exact Hp|apply (one_format prec emax Hp Hm)|lra].
Qed.
Lemma flt_inf : flt (B754_infinity false) fzero = false.
Proof using. reflexivity. Qed.
(** the outcome when the denominator overflows *)
Lemma overflow_out : tanh_dv s t = B754_infinity false -> flt s fzero = false -> tanh_parts s t = (fone, fzero).
Proof. intros E L. unfold TnhModel.tanh_parts. rewrite E, L. reflexivity. Qed.
Lemma inf_case : s = B754_infinity false -> tanh_parts s t = (fone, fzero).
Proof.
  intros E. destruct w_pos as [FW W1]. apply overflow_out; rewrite E; [|reflexivity]. unfold TnhModel.tanh_dv, TnhModel.tanh_bv.
  rewrite (proj1 (inf_mul (fadd fone (fmul t t)) (or_introl (conj FW (Rlt_le_trans _ _ _ Rlt_0_1 W1))))).
  rewrite (proj1 (inf_mul (B754_infinity false) (or_intror eq_refl))). destruct one_val as [F1 _]. unfold AccModel.fone in *. destruct (Bone : num) as [|[]| |]; try discriminate F1; reflexivity.
Qed.

Hypothesis (IS : is 2 s S).
Lemma large_case : tanh_parts s t = (fone, fzero) \/
  (is_finite (tanh_dv s t) = true /\ is (221 / 16) (tanh_dv s t) D /\
   let a := fdiv (fmul (fsqrt (fadd fone (fmul s s))) (tanh_bv s t)) (tanh_dv s t) in is_finite a = true /\ B2R a = 1).
Proof.
  destruct s_big as [SU SB]. pose proof s_large as SL. pose proof u0 as U0. pose proof us as U1. pose proof eta_16 as E16. pose proof eta0 as E0. pose proof (weight_ge T) as W1. destruct IS as [FS NS].
  pose proof (near_bounds u U0 U1 2 _ _ ltac:(lra) S0 NS) as BS. destruct w_pos as [FW PW]. pose proof (w_is t T T0 TB IT) as [_ NW]. destruct one_val as [F1 V1].
  set (w := fadd fone (fmul t t)) in *. set (x := B2R s) in *. assert (X0 : 0 < x) by lra.
  assert (LT : flt s fzero = false). { rewrite (flt_val prec emax s fzero FS eq_refl). apply Rlt_bool_false. change (B2R fzero) with 0. fold x. lra. }
  assert (ADD : forall z : num, z = B754_infinity false -> fadd fone z = B754_infinity false).
  { intros z ->. unfold AccModel.fone in *. destruct (Bone : num) as [|[]| |]; try discriminate F1; reflexivity. }
  destruct (fmul_pos s w FS FW X0 ltac:(lra)) as [[FB VB]|EB].
  2: { left. apply overflow_out; [|exact LT]. unfold TnhModel.tanh_dv, TnhModel.tanh_bv. fold w. rewrite EB. apply ADD, inf_mul. left. split; [exact FS|exact X0]. }
  change (fmul s w) with (tanh_bv s t) in FB, VB. fold x in VB.
  assert (XF : format x) by apply num_format.
  assert (BX : x <= B2R (tanh_bv s t)).
  { rewrite VB. apply rn_ge_format; [exact Hp|exact XF|]. rewrite <- (Rmult_1_r x) at 1. apply Rmult_le_compat_l; lra. }
  destruct (fmul_pos (tanh_bv s t) s FB FS ltac:(lra) X0) as [[FP VP]|EP].
  2: { left. apply overflow_out; [|exact LT]. unfold TnhModel.tanh_dv. rewrite EP. apply ADD. reflexivity. }
  fold x in VP. set (b := B2R (tanh_bv s t)) in *. set (p := fmul (tanh_bv s t) s) in *. right.
  (* squares *)
  assert (XX : bpow radix2 (prec + 5) <= x * x).
  { apply Rle_trans with (S * (1 - / 16384) * (S * (1 - / 16384))); [|apply Rmult_le_compat; lra].
    replace (bpow radix2 (prec + 5)) with (bpow radix2 (prec + 6) * / 2); [pose proof (bpow_gt_0 radix2 (prec + 6)); lra|]. change (/ 2) with (bpow radix2 (-1)). rewrite <- bpow_plus. f_equal. lia. }
  assert (GF : format (bpow radix2 (prec + 5))) by (apply generic_format_FLT_bpow; [exact Hp|lia]).
  assert (Q1 : bpow radix2 (prec + 5) <= rn (x * x)) by (apply rn_ge_format; auto).
  assert (Q2 : rn (x * x) <= B2R p). { rewrite VP. apply rn_le; [exact Hp|]. apply Rmult_le_compat_r; lra. }
  assert (PP : bpow radix2 (prec + 1) <= bpow radix2 (prec + 5)) by (apply bpow_le; lia).
  pose proof (bpow_gt_0 radix2 (prec + 1)) as PG.
  pose proof (finite_lt prec emax p) as PL. rewrite Rabs_pos_eq in PL by lra.
  destruct (fmul_small prec emax Hp Hm s s FS FS) as [FQ VQ]; [fold x; rewrite Rabs_pos_eq; lra|]. fold x in VQ.
  assert (AB : forall z : num, is_finite z = true -> bpow radix2 (prec + 1) <= B2R z -> is_finite (fadd fone z) = true /\ B2R (fadd fone z) = B2R z).
  { intros z Fz Bz. assert (EZ : rn (B2R fone + B2R z) = B2R z) by (rewrite V1; apply absorb_one; [exact Hp|apply num_format|exact Bz]).
    destruct (fadd_small prec emax Hp Hm fone z F1 Fz) as [G V]; [rewrite EZ; apply finite_lt|]. split; [exact G|congruence]. }
  destruct (AB (fmul s s) FQ ltac:(lra)) as [FQ1 VQ1]. destruct (AB p FP ltac:(lra)) as [FD VD].
  change (fadd fone p) with (tanh_dv s t) in FD, VD.
  destruct (fsqrt_ok prec emax Hp Hm (fadd fone (fmul s s)) FQ1) as [FR VR]; [rewrite VQ1, VQ; lra|]. rewrite VQ1, VQ in VR.
  rewrite (sqrt_rounded_square prec emax Hp ltac:(lia) x XF X0) in VR.
  2: { apply Rle_trans with (bpow radix2 (prec + 5)); [apply bpow_le; lia|exact XX]. }
  destruct (fmul_small prec emax Hp Hm (fsqrt (fadd fone (fmul s s))) (tanh_bv s t) FR FB) as [FN VN].
  { fold b. rewrite VR, (Rmult_comm x b), <- VP. apply finite_lt. }
  fold b in VN. rewrite VR, (Rmult_comm x b), <- VP in VN.
  split; [exact FD|]. split.
  - (* the denominator *)
    assert (SW0 : 0 <= S * W) by (apply Rmult_le_pos; lra). assert (SW1 : 1 * 1 <= S * W) by (apply Rmult_le_compat; lra).
    assert (SWS : 1 * 1 <= S * W * S) by (apply Rmult_le_compat; lra).
    pose proof (near_mul u U0 U1 2 (101 / 16) x S (B2R w) W ltac:(lra) ltac:(lra) S0 ltac:(lra) NS NW) as N1.
    assert (N2 : near (19 / 2) b (S * W)).
    { rewrite VB. replace (19 / 2) with (2 + 101 / 16 + / 16 + 9 / 8) by lra. apply (near_rn prec emax Hp P24); auto; try lra. right. assert (u * 1 <= u * (S * W)) by (apply Rmult_le_compat_l; lra). lra. }
    pose proof (near_mul u U0 U1 (19 / 2) 2 b (S * W) x S ltac:(lra) ltac:(lra) SW0 S0 N2 NS) as N3.
    assert (N4 : near (203 / 16) (B2R p) (S * W * S)).
    { rewrite VP. replace (203 / 16) with (19 / 2 + 2 + / 16 + 9 / 8) by lra. apply (near_rn prec emax Hp P24); auto; try lra. right. assert (u * 1 <= u * (S * W * S)) by (apply Rmult_le_compat_l; lra). lra. }
    split; [exact FD|]. rewrite VD. unfold CsqError.near in *. unfold den. set (q := S * W * S) in *.
    assert (UQ : 64 <= u * q). { unfold q. replace (u * (S * W * S)) with (u * (S * S) * W) by ring. rewrite <- (Rmult_1_r 64). apply Rmult_le_compat; lra. }
    apply Rabs_le_inv in N4. apply Rabs_le. lra.
  - cbv zeta. destruct (fdiv_small prec emax Hp Hm (fmul (fsqrt (fadd fone (fmul s s))) (tanh_bv s t)) (tanh_dv s t) FN) as [FA VA].
    + lra.
    + rewrite VN, VD. unfold Rdiv. rewrite Rinv_r by lra. rewrite rn_id by apply (one_format prec emax Hp Hm). rewrite Rabs_R1. change 1 with (bpow radix2 0). apply bpow_lt. lia.
    + split; [exact FA|]. rewrite VA, VN, VD. unfold Rdiv. rewrite Rinv_r by lra. apply rn_id, (one_format prec emax Hp Hm).
Qed.
End Parts3.
End Float.
