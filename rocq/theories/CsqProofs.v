(** Proofs for C102: the scaled modulus. *)
From Coq Require Import ZArith Reals Lia Lra Bool.
From Flocq Require Import Core Relative Plus_error BinarySingleNaN.
From Verif Require Import AccModel AccSpec AccProofs NumModel NumSpec NumBasics NrmModel NrmSpec NrmFloat CsqModel CsqSpec CsqError.
From Coq Require Import ZifyNat ZifyN ZifyBool.
Ltac Zify.zify_post_hook ::= idtac.
Local Open Scope R_scope.

(** ** The square root of two *)
Lemma root2_between m k : (1 <= m)%Z -> (0 <= k)%Z -> ((m - 1) * (m - 1) <= 2 * 2 ^ (2 * k) <= (m + 1) * (m + 1))%Z -> Rabs (IZR m * bpow radix2 (- k) - sqrt 2) <= bpow radix2 (- k).
Proof.
  intros M K [L U]. pose proof (bpow_gt_0 radix2 (- k)) as B. set (b := bpow radix2 (- k)) in *.
  assert (E : IZR (2 * 2 ^ (2 * k)) * (b * b) = 2).
  { rewrite mult_IZR. change 2%Z with (radix2 : Z) at 2. rewrite IZR_Zpower by lia. unfold b. rewrite Rmult_assoc, <- !bpow_plus. replace (2 * k + (- k + - k))%Z with 0%Z by lia. cbn. ring. }
  pose proof (sqrt_pos 2) as S. pose proof (sqrt_sqrt 2 ltac:(lra)) as Q.
  apply IZR_le in L. apply IZR_le in U. rewrite mult_IZR in L. rewrite (mult_IZR (m + 1)) in U. rewrite minus_IZR in L. rewrite plus_IZR in U. apply IZR_le in M.
  assert (BB : 0 <= b * b) by (apply Rmult_le_pos; lra).
  assert (L2 : (IZR m - 1) * (IZR m - 1) * (b * b) <= 2) by (rewrite <- E; apply Rmult_le_compat_r; auto).
  assert (U2 : 2 <= (IZR m + 1) * (IZR m + 1) * (b * b)) by (rewrite <- E; apply Rmult_le_compat_r; auto).
  assert (L3 : (IZR m - 1) * b <= sqrt 2).
  { apply Rsqr_incr_0; unfold Rsqr; [rewrite Q; lra|apply Rmult_le_pos; lra|auto]. }
  assert (U3 : sqrt 2 <= (IZR m + 1) * b).
  { apply Rsqr_incr_0; unfold Rsqr; [rewrite Q; lra|auto|apply Rmult_le_pos; lra]. }
  apply Rabs_le. lra.
Qed.
Lemma root2_approx : 1.4142 <= sqrt 2 <= 1.4143.
Proof.
  pose proof (sqrt_pos 2) as S. pose proof (sqrt_sqrt 2 ltac:(lra)) as Q.
  split; apply Rsqr_incr_0; unfold Rsqr; try lra; rewrite Q; lra.
Qed.

(** ** The hypotenuse *)
Definition hyp (a b : R) : R := sqrt (a * a + b * b).
Lemma hyp_sq a b : hyp a b * hyp a b = a * a + b * b.
Proof. apply sqrt_sqrt. pose proof (Rle_0_sqr a). pose proof (Rle_0_sqr b). unfold Rsqr in *. lra. Qed.
Lemma hyp_pos a b : 0 <= hyp a b.
Proof. apply sqrt_pos. Qed.
Lemma hyp_ge a b : 0 <= a -> a <= hyp a b.
Proof. intros A. apply Rsqr_incr_0; unfold Rsqr; [|auto|apply hyp_pos]. rewrite hyp_sq. pose proof (Rle_0_sqr b). unfold Rsqr in *. lra. Qed.
Lemma hyp_sym a b : hyp a b = hyp b a.
Proof. unfold hyp. f_equal. ring. Qed.
Lemma hyp_le a b : 0 <= a -> 0 <= b -> hyp a b <= a + b.
Proof.
  intros A B. apply Rsqr_incr_0; unfold Rsqr; [|apply hyp_pos|lra]. rewrite hyp_sq. assert (0 <= a * b) by (apply Rmult_le_pos; auto). lra.
Qed.
(** the shorter leg adds less than three tenths *)
Lemma hyp_excess a b : 0 <= b <= a -> 0 <= hyp a b - a <= 3 / 10 * hyp a b.
Proof.
  intros H. pose proof (hyp_ge a b ltac:(lra)). split; [lra|].
  enough (7 / 10 * hyp a b <= a) by lra. apply Rsqr_incr_0; unfold Rsqr; [|pose proof (hyp_pos a b); lra|lra].
  replace (7 / 10 * hyp a b * (7 / 10 * hyp a b)) with (49 / 100 * (hyp a b * hyp a b)) by field. rewrite hyp_sq.
  assert (b * b <= a * a) by (apply Rmult_le_compat; lra). assert (0 <= a * a) by (apply Rmult_le_pos; lra). lra.
Qed.
Lemma hyp_close a b a' b' : Rabs (hyp a' b' - hyp a b) <= Rabs (a' - a) + Rabs (b' - b).
Proof.
  assert (G : forall a b a' b', hyp a' b' <= hyp a b + (Rabs (a' - a) + Rabs (b' - b))).
  { clear. intros a b a' b'. set (d := Rabs (a' - a)). set (e := Rabs (b' - b)). assert (D : 0 <= d) by apply Rabs_pos. assert (E : 0 <= e) by apply Rabs_pos.
    assert (A : Rabs a <= hyp a b).
    { apply Rsqr_incr_0; unfold Rsqr; [|apply Rabs_pos|apply hyp_pos]. rewrite hyp_sq, <- Rabs_mult, Rabs_pos_eq by apply Rle_0_sqr. pose proof (Rle_0_sqr b). unfold Rsqr in *. lra. }
    assert (B : Rabs b <= hyp a b).
    { apply Rsqr_incr_0; unfold Rsqr; [|apply Rabs_pos|apply hyp_pos]. rewrite hyp_sq, <- Rabs_mult, Rabs_pos_eq by apply Rle_0_sqr. pose proof (Rle_0_sqr a). unfold Rsqr in *. lra. }
    assert (Q : forall x x', x' * x' <= x * x + 2 * (Rabs x * Rabs (x' - x)) + Rabs (x' - x) * Rabs (x' - x)).
    { intros x x'. replace (x' * x') with (x * x + 2 * (x * (x' - x)) + (x' - x) * (x' - x)) by ring. rewrite <- !Rabs_mult. pose proof (Rle_abs (x * (x' - x))). pose proof (Rle_abs ((x' - x) * (x' - x))). lra. }
    pose proof (Q a a') as Q1. pose proof (Q b b') as Q2. fold d in Q1. fold e in Q2.
    apply Rsqr_incr_0; unfold Rsqr; [|apply hyp_pos|pose proof (hyp_pos a b); lra]. rewrite hyp_sq.
    replace ((hyp a b + (d + e)) * (hyp a b + (d + e))) with (hyp a b * hyp a b + 2 * (hyp a b * d) + 2 * (hyp a b * e) + (d * d + 2 * (d * e) + e * e)) by ring. rewrite hyp_sq.
    assert (Rabs a * d <= hyp a b * d) by (apply Rmult_le_compat_r; auto). assert (Rabs b * e <= hyp a b * e) by (apply Rmult_le_compat_r; auto).
    assert (0 <= d * e) by (apply Rmult_le_pos; auto). lra. }
  pose proof (G a b a' b'). pose proof (G a' b' a b) as G2. rewrite (Rabs_minus_sym a), (Rabs_minus_sym b) in G2. apply Rabs_le. lra.
Qed.
Lemma hyp_scale a b s : 0 <= s -> hyp (a * s) (b * s) = hyp a b * s.
Proof.
  intros S. unfold hyp. replace (a * s * (a * s) + b * s * (b * s)) with ((a * a + b * b) * (s * s)) by ring.
  rewrite sqrt_mult_alt, sqrt_square; auto. pose proof (Rle_0_sqr a). pose proof (Rle_0_sqr b). unfold Rsqr in *. lra.
Qed.

Section Float.
Variables prec emax : Z.
Context (Hp : Prec_gt_0 prec) (Hm : Prec_lt_emax prec emax).
Hypothesis (P24 : (24 <= prec)%Z) (PE : (3 * prec + 8 <= emax)%Z) (P53 : (prec <= 53)%Z).
Local Notation num := (binary_float prec emax).
Local Notation fzero := (fzero prec emax).
Local Notation fone := (fone prec emax Hp Hm).
Local Notation fadd := (fadd prec emax Hp Hm).
Local Notation fmul := (fmul prec emax Hp Hm).
Local Notation fsub := (fsub prec emax Hp Hm).
Local Notation fdiv := (fdiv prec emax Hp Hm).
Local Notation fint := (fint prec emax Hp Hm).
Local Notation flt := (flt prec emax).
Local Notation fle := (fle prec emax).
Local Notation feq := (feq prec emax).
Local Notation vabs := (vabs prec emax).
Local Notation fsqrt := (fsqrt prec emax Hp Hm).
Local Notation fldexp := (fldexp prec emax Hp Hm).
Local Notation lit := (lit prec emax Hp Hm).
Local Notation froot2 := (froot2 prec emax Hp Hm).
Local Notation flow := (flow prec emax Hp Hm).
Local Notation fhigh := (fhigh prec emax Hp Hm).
Local Notation fhyp := (fhyp prec emax Hp Hm).
Local Notation rn := (nearest prec emax).
Local Notation u := (unit_roundoff prec).
Local Notation v := (u / (1 + u)).
Local Notation eta := (underflow_unit prec emax).
Local Notation big := (bpow radix2 emax).
Local Notation top := (bpow radix2 (emax - 2)).
Local Notation format := (generic_format radix2 (FLT_exp (3 - emax - prec) prec)).
Local Notation near := (near u).
Local Notation is := (is prec emax).
Local Notation safe := (safe prec emax).
Local Notation u0 := (u_pos prec).
Local Notation us := (u_small prec P24).

Definition high : R := IZR 10125945 * bpow radix2 (-22).
Definition low : R := 1 + sqrt 2 - high.

Lemma top_ge : 1024 <= top.
Proof. change 1024 with (bpow radix2 10). apply bpow_le. lia. Qed.
Lemma eta_u3 : 1024 * eta <= u * u.
Proof.
  rewrite (eta_pow prec emax). change 1024 with (bpow radix2 10). unfold unit_roundoff. rewrite <- !bpow_plus. apply bpow_le. lia.
Qed.
Lemma u_53 : bpow radix2 (-53) <= u.
Proof. apply bpow_le. lia. Qed.
Lemma uu_le : u * u <= u * / 1048576.
Proof. apply Rmult_le_compat_l; [left; apply u0|apply us]. Qed.
Lemma safe_ge y : u <= 16 * y -> safe y.
Proof.
  intros Y. right. pose proof eta_u3. pose proof u0. assert (u * u <= u * (16 * y)) by (apply Rmult_le_compat_l; lra). assert (0 <= u * y) by (apply Rmult_le_pos; lra). lra.
Qed.
Lemma rn_between x m : (Z.abs m <= 2 ^ prec)%Z -> 0 <= x <= IZR m -> Rabs (rn x) < big.
Proof.
  intros M X. pose proof (prec_emax prec emax Hm). apply (rn_small prec emax Hp x (emax - 2)); try lia. rewrite Rabs_pos_eq by lra. apply Rle_trans with (IZR (2 ^ prec)).
  - apply Rle_trans with (IZR m); [lra|apply IZR_le; lia].
  - change (2 ^ prec)%Z with (Z.pow radix2 prec). rewrite IZR_Zpower by lia. apply bpow_le. lia.
Qed.
Lemma pow_prec : (16777216 <= 2 ^ prec)%Z.
Proof. change 16777216%Z with (2 ^ 24)%Z. apply Z.pow_le_mono_r; lia. Qed.
Lemma eta_tiny : 1099511627776 * eta <= u.
Proof. rewrite (eta_pow prec emax). change 1099511627776 with (bpow radix2 40). unfold unit_roundoff. rewrite <- !bpow_plus. apply bpow_le. lia. Qed.
Lemma const_near c x : 0 <= x -> / 16777216 <= x -> Rabs (c - x) <= / 16 * u * x -> near (19 / 16) (rn c) x.
Proof.
  intros X Y N. replace (19 / 16) with (/ 16 + 9 / 8) by lra. apply near_rn; auto; try lra.
  right. pose proof eta_tiny. pose proof u0. assert (u * / 16777216 <= u * x) by (apply Rmult_le_compat_l; lra). lra.
Qed.
Lemma root2_ok : is (19 / 16) froot2 (sqrt 2).
Proof.
  pose proof (root2_between 13043817825332782212 63 ltac:(lia) ltac:(lia) ltac:(vm_compute; split; discriminate)) as B. cbn [Z.opp] in B.
  pose proof root2_approx as A. assert (E : bpow radix2 (-63) <= / 1024 * u).
  { change (/ 1024) with (bpow radix2 (-10)). change (-63)%Z with (-10 + -53)%Z. rewrite bpow_plus. apply Rmult_le_compat_l; [apply bpow_ge_0|apply u_53]. }
  set (c := IZR 13043817825332782212 * bpow radix2 (-63)) in *. pose proof u0 as U0. pose proof us as U1. pose proof (Rabs_le_inv _ _ B) as B'.
  destruct (lit_val prec emax Hp Hm 13043817825332782212 (-63)) as [F V].
  { fold c. apply (rn_between c 2); [pose proof pow_prec; lia|]. split; [|lra]. apply Rmult_le_pos; [apply IZR_le; lia|apply bpow_ge_0]. }
  split; [exact F|]. unfold CsqModel.froot2. rewrite V. fold c. apply const_near; try lra.
  eapply Rle_trans; [exact B|]. assert (u * 1 <= u * sqrt 2) by (apply Rmult_le_compat_l; lra). lra.
Qed.
Lemma high_val : high = 10125945 / 4194304.
Proof. unfold high. change (bpow radix2 (-22)) with (/ 4194304). reflexivity. Qed.
Lemma high_ok : is 0 fhigh high.
Proof.
  assert (G : format high).
  { apply generic_format_FLT. exists (Float radix2 10125945 (-22)); [reflexivity| |cbn [Fexp]; lia].
    cbn [Fnum]. apply Z.lt_le_trans with (radix2 ^ 24)%Z; [reflexivity|]. apply Zpower_le. lia. }
  destruct (lit_val prec emax Hp Hm 10125945 (-22)) as [F V].
  { fold high. apply (rn_between high 4); [pose proof pow_prec; lia|]. rewrite high_val. lra. }
  split; [exact F|]. unfold CsqModel.fhigh. rewrite V. fold high. rewrite rn_id by (auto || exact G). apply near_refl.
Qed.
Lemma low_ok : is (19 / 16) flow low /\ / 16777216 <= low <= / 4194304.
Proof.
  pose proof (root2_between (11096006581071691461 + (10125945 - 4194304) * 2 ^ 64) 86 ltac:(lia) ltac:(lia) ltac:(vm_compute; split; discriminate)) as B. cbn [Z.opp] in B.
  set (c := IZR 11096006581071691461 * bpow radix2 (-86)).
  assert (E1 : IZR (11096006581071691461 + (10125945 - 4194304) * 2 ^ 64) * bpow radix2 (-86) - sqrt 2 = c - low).
  { unfold c, low, high. rewrite plus_IZR, mult_IZR. change (2 ^ 64)%Z with (Z.pow radix2 64). rewrite IZR_Zpower by lia. rewrite Rmult_plus_distr_r, Rmult_assoc, <- bpow_plus.
    change (64 + -86)%Z with (-22)%Z. rewrite minus_IZR. replace ((IZR 10125945 - IZR 4194304) * bpow radix2 (-22)) with (IZR 10125945 * bpow radix2 (-22) - 1); [ring|]. change (bpow radix2 (-22)) with (/ 4194304). lra. }
  rewrite E1 in B. pose proof (Rabs_le_inv _ _ B) as B'.
  assert (C : / 8388608 <= c <= / 4194304 * / 2 * (7 / 4)).
  { unfold c. change (bpow radix2 (-86)) with (/ 77371252455336267181195264). lra. }
  assert (E : bpow radix2 (-86) <= / 8388608 * (/ 1024 * u)).
  { change (/ 8388608) with (bpow radix2 (-23)). change (/ 1024) with (bpow radix2 (-10)). rewrite <- Rmult_assoc, <- bpow_plus. change (-86)%Z with (-33 + -53)%Z. rewrite bpow_plus. change (-23 + -10)%Z with (-33)%Z.
    apply Rmult_le_compat_l; [apply bpow_ge_0|apply u_53]. }
  pose proof u0 as U0. pose proof us as U1.
  assert (L : / 16777216 <= low <= / 4194304) by lra. split; [|exact L].
  destruct (lit_val prec emax Hp Hm 11096006581071691461 (-86)) as [F V].
  { fold c. apply (rn_between c 2); [pose proof pow_prec; lia|]. lra. }
  split; [exact F|]. unfold CsqModel.flow. rewrite V. fold c. apply const_near; try lra.
  eapply Rle_trans; [exact B|]. assert (u * / 16777216 <= u * low) by (apply Rmult_le_compat_l; lra). lra.
Qed.

(** ** The hypotenuse of scaled legs *)
Section Legs.
Variables a b : num.
Hypothesis (Fa : is_finite a = true) (Fb : is_finite b = true).
Local Notation A := (B2R a).
Local Notation B := (B2R b).
Hypothesis (BA : 0 <= B <= A) (A0 : bpow radix2 (3 - emax + prec) <= A) (A1 : A <= bpow radix2 (emax - 4)).
Local Notation hy := (hyp A B).

Lemma A_pos : 0 < A.
Proof. eapply Rlt_le_trans; [apply bpow_gt_0|exact A0]. Qed.
Lemma eta_A : 2 * eta <= u * (u * A).
Proof.
  rewrite (eta_pow prec emax). change 2 with (bpow radix2 1) at 1. rewrite <- bpow_plus. apply Rle_trans with (u * (u * bpow radix2 (3 - emax + prec))).
  - unfold unit_roundoff. rewrite <- !bpow_plus. apply bpow_le. lia.
  - pose proof u0. repeat (apply Rmult_le_compat_l; [lra|]). exact A0.
Qed.
Lemma A_top : A <= / 4 * top.
Proof. change (/ 4) with (bpow radix2 (-2)). rewrite <- bpow_plus. replace (-2 + (emax - 2))%Z with (emax - 4)%Z by lia. exact A1. Qed.
Lemma tmp_ok : is_finite (fsub a b) = true /\ B2R (fsub a b) = rn (A - B) /\ Rabs (rn (A - B) - (A - B)) <= u * (A - B) /\ Rabs (rn (A - B) - (A - B)) <= B /\ 0 <= rn (A - B) <= A.
Proof.
  pose proof A_top. pose proof top_ge.
  destruct (fsub_small prec emax Hp Hm a b Fa Fb) as [F V].
  { apply (rn_small prec emax Hp _ (emax - 2)); try lia. rewrite Rabs_pos_eq by lra. lra. }
  assert (R : Rabs (rn (A - B) - (A - B)) <= u * (A - B)).
  { pose proof (add_rel prec emax Hp A (- B) (num_format prec emax a) ltac:(apply generic_format_opp, num_format)) as R.
    change (A + - B) with (A - B) in R. eapply Rle_trans; [exact R|]. rewrite (Rabs_pos_eq (A - B)) by lra. apply Rmult_le_compat_r; [lra|apply v_le]. }
  assert (R2 : Rabs (rn (A - B) - (A - B)) <= B).
  { pose proof (add_abs prec emax Hp A (- B) (num_format prec emax a)) as R2. rewrite Rabs_Ropp, (Rabs_pos_eq B) in R2 by lra. exact R2. }
  repeat split; auto.
  - apply rn_pos; [exact Hp|lra].
  - apply rn_le_format; [exact Hp|apply num_format|lra].
Qed.
(** a format number above another is above it by a unit *)
Lemma step_up x y : format x -> format y -> 0 <= x -> x < y -> x * (1 + u) <= y.
Proof.
  intros Fx Fy X L. pose proof (succ_le_lt radix2 (FLT_exp (3 - emax - prec) prec) x y Fx Fy L) as S. rewrite succ_eq_pos in S by auto.
  pose proof (ulp_FLT_gt radix2 (3 - emax - prec) prec x) as G. rewrite Rabs_pos_eq in G by auto. unfold unit_roundoff. lra.
Qed.
Lemma finish t : is_finite t = true -> Rabs (B2R t - (hy - A)) <= 19 * u * (hy - A) + eta -> is 7 (fadd a t) hy.
Proof.
  intros Ft N. pose proof (hyp_excess A B BA) as X. pose proof u0 as U0. pose proof us as U1. pose proof (hyp_ge A B ltac:(lra)) as HA. pose proof eta_A as EA.
  assert (N2 : near (5.75) (A + B2R t) hy).
  { unfold CsqError.near. replace (A + B2R t - hy) with (B2R t - (hy - A)) by ring. eapply Rle_trans; [exact N|].
    assert (u * (hy - A) <= u * (3 / 10 * hy)) by (apply Rmult_le_compat_l; lra).
    assert (u * A <= / 1048576 * hy) by (apply Rmult_le_compat; lra). assert (u * (u * A) <= u * (/ 1048576 * hy)) by (apply Rmult_le_compat_l; lra).
    assert (0 <= u * hy) by (apply Rmult_le_pos; lra). lra. }
  pose proof A_top. pose proof top_ge. pose proof (hyp_le A B ltac:(lra) ltac:(lra)).
  destruct (fadd_small prec emax Hp Hm a t Fa Ft) as [G V]; [apply (near_fits prec emax Hp P24 PE 5.75 _ hy); auto; lra|].
  split; [exact G|]. rewrite V. apply near_mono with (5.75 + 9 / 8); [exact u0|lra|lra|].
  apply (near_round u U0 U1 5.75 (A + B2R t) hy _ 0); try lra; auto.
  - eapply Rle_trans; [apply add_rel; [exact Hp|apply num_format..]|]. rewrite Rplus_0_r. apply Rmult_le_compat_r; [apply Rabs_pos|apply v_le].
  - assert (0 <= u * hy) by (apply Rmult_le_pos; lra). lra.
Qed.
Lemma hyp_simple : B < rn (A - B) -> rn (A - B) <> A -> is 7 (fadd a (fdiv b (fadd (fdiv a b) (fsqrt (fadd (fmul (fdiv a b) (fdiv a b)) fone))))) hy.
Proof.
  intros L N. destruct tmp_ok as (_ & _ & R1 & R2 & R3). pose proof u0 as U0. pose proof us as U1. pose proof A_pos as AP. pose proof A_top. pose proof top_ge.
  apply Rabs_le_inv in R2.
  assert (BP : 0 < B).
  { destruct (Rle_lt_or_eq_dec 0 B (proj1 BA)) as [G|G]; [exact G|]. exfalso. apply N. rewrite <- G, Rminus_0_r. apply rn_id, num_format. }
  assert (BL : u * A <= 4 * B).
  { pose proof (step_up (rn (A - B)) A ltac:(apply rn_format; exact Hp) (num_format prec emax a) (proj1 R3) ltac:(lra)) as S.
    destruct (Rle_dec (A / 2) (rn (A - B))) as [G|G].
    - assert (u * (A / 2) <= u * rn (A - B)) by (apply Rmult_le_compat_l; lra). lra.
    - assert (u * A <= 1 * A) by (apply Rmult_le_compat_r; lra). lra. }
  set (Q := A / B). assert (QB : Q * B = A) by (unfold Q; field; lra).
  assert (Q1 : 1 <= Q) by (apply Rmult_le_reg_r with B; lra).
  assert (Q2 : u * Q <= 4) by (apply Rmult_le_reg_r with B; [lra|]; rewrite Rmult_assoc, QB; lra).
  assert (Q3 : Q <= bpow radix2 (prec + 2)).
  { apply Rmult_le_reg_l with u; [lra|]. unfold unit_roundoff at 2. rewrite <- bpow_plus. replace (- prec + (prec + 2))%Z with 2%Z by lia. exact Q2. }
  assert (Q4 : Q * Q <= / 16 * top).
  { apply Rle_trans with (bpow radix2 (prec + 2) * bpow radix2 (prec + 2)); [apply Rmult_le_compat; lra|].
    change (/ 16) with (bpow radix2 (-4)). rewrite <- !bpow_plus. apply bpow_le. lia. }
  assert (Q5 : Q <= Q * Q) by (rewrite <- (Rmult_1_l Q) at 1; apply Rmult_le_compat_r; lra).
  assert (Iq : is (19 / 16) (fdiv a b) Q).
  { replace (19 / 16) with (0 + 0 + 19 / 16) by lra. apply is_div; auto; try lra; [fold Q; lra|apply safe_ge; fold Q; lra|apply is_refl; auto..]. }
  assert (Iqq : is (57 / 16) (fmul (fdiv a b) (fdiv a b)) (Q * Q)).
  { replace (57 / 16) with (19 / 16 + 19 / 16 + 19 / 16) by lra. apply is_mul; auto; try lra. apply safe_ge; lra. }
  destruct (fone_val prec emax Hp Hm) as [F1 V1].
  assert (I1 : is (57 / 16) fone 1) by (apply is_mono with 0; [lra|lra|]; rewrite <- V1; apply is_refl; auto).
  assert (Is : is (75 / 16) (fadd (fmul (fdiv a b) (fdiv a b)) fone) (Q * Q + 1)).
  { replace (75 / 16) with (57 / 16 + 9 / 8) by lra. apply is_add; auto; lra. }
  assert (SQ : sqrt (Q * Q + 1) = hy / B).
  { replace (Q * Q + 1) with ((A * A + B * B) * (/ B * / B)) by (unfold Q; field; lra). rewrite sqrt_mult_alt, sqrt_square; [reflexivity|left; apply Rinv_0_lt_compat; lra|].
    pose proof (Rle_0_sqr A). pose proof (Rle_0_sqr B). unfold Rsqr in *. lra. }
  pose proof (hyp_ge A B ltac:(lra)) as HA. pose proof (hyp_le A B ltac:(lra) ltac:(lra)) as HB.
  assert (S1 : Q <= hy / B) by (apply Rmult_le_reg_r with B; [lra|]; unfold Rdiv; rewrite Rmult_assoc, Rinv_l, QB by lra; lra).
  assert (S2 : hy / B <= 2 * Q) by (apply Rmult_le_reg_r with B; [lra|]; unfold Rdiv; rewrite Rmult_assoc, Rinv_l by lra; lra).
  assert (Ir : is (113 / 32) (fsqrt (fadd (fmul (fdiv a b) (fdiv a b)) fone)) (hy / B)).
  { rewrite <- SQ. replace (113 / 32) with (75 / 16 / 2 + 19 / 16) by lra. apply is_sqrt; auto; try lra.
    destruct (safe_ge (sqrt (Q * Q + 1))) as [G|G]; [rewrite SQ; lra|rewrite SQ in G; lra|exact G]. }
  assert (Id : is (149 / 32) (fadd (fdiv a b) (fsqrt (fadd (fmul (fdiv a b) (fdiv a b)) fone))) (Q + hy / B)).
  { replace (149 / 32) with (113 / 32 + 9 / 8) by lra. apply is_add; auto; try lra. apply is_mono with (19 / 16); auto; lra. }
  assert (T : B / (Q + hy / B) = hy - A).
  { unfold Q. replace (B / (A / B + hy / B)) with (B * B / (A + hy)) by (field; lra). replace (B * B) with (hy * hy - A * A) by (rewrite hyp_sq; ring). field. lra. }
  destruct Id as [Fd Nd]. set (d := fadd (fdiv a b) (fsqrt (fadd (fmul (fdiv a b) (fdiv a b)) fone))) in *.
  pose proof (near_div u U0 U1 0 (149 / 32) B B (B2R d) (Q + hy / B) ltac:(lra) ltac:(lra) (Rlt_le _ _ BP) ltac:(lra) (near_refl u B) Nd) as ND. rewrite T in ND.
  pose proof (near_bounds u U0 U1 (149 / 32) (B2R d) (Q + hy / B) ltac:(lra) ltac:(lra) Nd) as BD.
  pose proof (hyp_excess A B BA) as X.
  destruct (fdiv_small prec emax Hp Hm b d Fb) as [Ft Vt]; [lra|apply (near_fits prec emax Hp P24 PE (0 + 149 / 32 + / 16) _ (hy - A)); auto; lra|].
  apply finish; [exact Ft|]. rewrite Vt.
  pose proof (near_bounds u U0 U1 (0 + 149 / 32 + / 16) (B / B2R d) (hy - A) ltac:(lra) ltac:(lra) ND) as BT.
  pose proof (rn_rel prec emax Hp (B / B2R d)) as E. rewrite (Rabs_pos_eq (B / B2R d)) in E by lra. unfold CsqError.near in ND.
  assert (u * (B / B2R d) <= u * ((hy - A) * (1 + / 16384))) by (apply Rmult_le_compat_l; lra).
  assert (0 <= u * (hy - A)) by (apply Rmult_le_pos; lra).
  apply Rabs_le_inv in E. apply Rabs_le_inv in ND. apply Rabs_le. lra.
Qed.
Lemma hyp_precise : rn (A - B) <= B -> rn (A - B) <> A ->
  let qv := fdiv (fsub a b) b in
  let rv := fmul (fadd qv (fint 2)) qv in
  is 7 (fadd a (fdiv b (fadd (fadd (fadd (fdiv rv (fadd froot2 (fsqrt (fadd rv (fint 2))))) flow) qv) fhigh))) hy.
Proof.
  intros L N qv rv. destruct tmp_ok as (Ftmp & Vtmp & R1 & _ & R3). pose proof u0 as U0. pose proof us as U1. pose proof A_pos as AP. pose proof A_top. pose proof top_ge.
  assert (BP : 0 < B).
  { destruct (Rle_lt_or_eq_dec 0 B (proj1 BA)) as [G|G]; [exact G|]. exfalso. apply N. rewrite <- G, Rminus_0_r. apply rn_id, num_format. }
  assert (It : is 1 (fsub a b) (A - B)) by (split; [exact Ftmp|unfold CsqError.near; rewrite Vtmp, Rmult_1_l; exact R1]).
  pose proof (is_bounds prec emax P24 1 (fsub a b) (A - B) ltac:(lra) ltac:(lra) It) as BT. rewrite Vtmp in BT.
  set (Q := (A - B) / B). assert (QB : Q * B = A - B) by (unfold Q; field; lra).
  assert (Q1 : 0 <= Q) by (apply Rmult_le_reg_r with B; lra).
  assert (Q2 : Q <= 2) by (apply Rmult_le_reg_r with B; lra).
  assert (QS : Q = 0 \/ u <= Q).
  { destruct (Rle_lt_or_eq_dec B A (proj2 BA)) as [G|G].
    - right. pose proof (step_up B A (num_format prec emax b) (num_format prec emax a) (proj1 BA) G). apply Rmult_le_reg_r with B; lra.
    - left. unfold Q. rewrite G. unfold Rdiv. ring. }
  assert (Iq : is (35 / 16) qv Q).
  { replace (35 / 16) with (1 + 0 + 19 / 16) by lra. apply is_div; auto; try lra; [fold Q; lra| |apply is_refl; auto].
    fold Q. destruct QS as [G|G]; [left; exact G|apply safe_ge; lra]. }
  destruct (fint_exact prec emax Hp Hm 2) as [F2 V2]; [pose proof pow_prec; lia|].
  assert (I2 : is 0 (fint 2) 2) by (pose proof (is_refl prec emax (fint 2) F2) as I; rewrite V2 in I; exact I).
  assert (Iq2 : is (53 / 16) (fadd qv (fint 2)) (Q + 2)).
  { replace (53 / 16) with (35 / 16 + 9 / 8) by lra. apply is_add; auto; try lra. apply is_mono with 0; auto; lra. }
  set (Rv := (Q + 2) * Q). assert (Rv0 : 0 <= Rv) by (apply Rmult_le_pos; lra).
  assert (Rv1 : Rv <= 8) by (apply Rle_trans with (4 * 2); [apply Rmult_le_compat; lra|lra]).
  assert (RS : Rv = 0 \/ 2 * u <= Rv).
  { destruct QS as [G|G]; [left; unfold Rv; rewrite G; ring|right]. apply Rmult_le_compat; lra. }
  assert (Ir : is (107 / 16) rv Rv).
  { replace (107 / 16) with (53 / 16 + 35 / 16 + 19 / 16) by lra. apply is_mul; auto; try lra; [fold Rv; lra|]. fold Rv. destruct RS as [G|G]; [left; exact G|apply safe_ge; lra]. }
  assert (Ir2 : is (125 / 16) (fadd rv (fint 2)) (Rv + 2)).
  { replace (125 / 16) with (107 / 16 + 9 / 8) by lra. apply is_add; auto; try lra. apply is_mono with 0; auto; lra. }
  assert (SQ : sqrt (Rv + 2) = hy / B).
  { replace (Rv + 2) with ((A * A + B * B) * (/ B * / B)) by (unfold Rv, Q; field; lra). rewrite sqrt_mult_alt, sqrt_square; [reflexivity|left; apply Rinv_0_lt_compat; lra|].
    pose proof (Rle_0_sqr A). pose proof (Rle_0_sqr B). unfold Rsqr in *. lra. }
  assert (S1 : 1 <= sqrt (Rv + 2)) by (rewrite <- sqrt_1; apply sqrt_le_1_alt; lra).
  assert (S2 : sqrt (Rv + 2) <= 4).
  { replace 4 with (sqrt (4 * 4)) by (apply sqrt_square; lra). apply sqrt_le_1_alt; lra. }
  assert (Is : is (163 / 32) (fsqrt (fadd rv (fint 2))) (sqrt (Rv + 2))).
  { replace (163 / 32) with (125 / 16 / 2 + 19 / 16) by lra. apply is_sqrt; auto; try lra.
    destruct (safe_ge (sqrt (Rv + 2))) as [G|G]; [lra|lra|exact G]. }
  pose proof root2_approx as W. destruct low_ok as [Il Lb].
  assert (Id : is (199 / 32) (fadd froot2 (fsqrt (fadd rv (fint 2)))) (sqrt 2 + sqrt (Rv + 2))).
  { replace (199 / 32) with (163 / 32 + 9 / 8) by lra. apply is_add; auto; try lra. apply is_mono with (19 / 16); [lra|lra|apply root2_ok]. }
  set (X := Rv / (sqrt 2 + sqrt (Rv + 2))).
  assert (XE : X = hy / B - sqrt 2).
  { unfold X. rewrite <- SQ. replace Rv with ((sqrt (Rv + 2) - sqrt 2) * (sqrt 2 + sqrt (Rv + 2))) at 1.
    - field. lra.
    - replace ((sqrt (Rv + 2) - sqrt 2) * (sqrt 2 + sqrt (Rv + 2))) with (sqrt (Rv + 2) * sqrt (Rv + 2) - sqrt 2 * sqrt 2) by ring. rewrite !sqrt_sqrt by lra. ring. }
  assert (XD : X * (sqrt 2 + sqrt (Rv + 2)) = Rv) by (unfold X; field; lra).
  assert (X0 : 0 <= X) by (apply Rmult_le_reg_r with (sqrt 2 + sqrt (Rv + 2)); lra).
  assert (X1 : X <= 4) by lra.
  assert (Ix : is (451 / 32) (fdiv rv (fadd froot2 (fsqrt (fadd rv (fint 2))))) X).
  { replace (451 / 32) with (107 / 16 + 199 / 32 + 19 / 16) by lra. apply is_div; auto; try lra; [fold X; lra|]. fold X.
    destruct RS as [G|G]; [left; unfold X; rewrite G; unfold Rdiv; ring|apply safe_ge].
    assert (X * (sqrt 2 + sqrt (Rv + 2)) <= X * 6) by (apply Rmult_le_compat_l; lra). lra. }
  assert (Ixl : is (487 / 32) (fadd (fdiv rv (fadd froot2 (fsqrt (fadd rv (fint 2))))) flow) (X + low)).
  { replace (487 / 32) with (451 / 32 + 9 / 8) by lra. apply is_add; auto; try lra. apply is_mono with (19 / 16); auto; lra. }
  assert (Ixlq : is (523 / 32) (fadd (fadd (fdiv rv (fadd froot2 (fsqrt (fadd rv (fint 2))))) flow) qv) (X + low + Q)).
  { replace (523 / 32) with (487 / 32 + 9 / 8) by lra. apply is_add; auto; try lra. apply is_mono with (35 / 16); auto; lra. }
  pose proof high_val as HV.
  assert (Isv : is (559 / 32) (fadd (fadd (fadd (fdiv rv (fadd froot2 (fsqrt (fadd rv (fint 2))))) flow) qv) fhigh) (X + low + Q + high)).
  { replace (559 / 32) with (523 / 32 + 9 / 8) by lra. apply is_add; auto; try lra. apply is_mono with 0; [lra|lra|apply high_ok]. }
  assert (SV : X + low + Q + high = (hy + A) / B).
  { rewrite XE. unfold low, Q. field. lra. }
  pose proof (hyp_ge A B ltac:(lra)) as HA.
  assert (T : B / (X + low + Q + high) = hy - A).
  { rewrite SV. replace (B / ((hy + A) / B)) with (B * B / (hy + A)) by (field; lra). replace (B * B) with (hy * hy - A * A) by (rewrite hyp_sq; ring). field. lra. }
  pose proof (hyp_excess A B BA) as E.
  assert (TB : (hy - A) * (X + low + Q + high) = B) by (rewrite <- T; field; lra).
  assert (T0 : / 64 * A <= hy - A).
  { assert ((hy - A) * (X + low + Q + high) <= (hy - A) * 10) by (apply Rmult_le_compat_l; lra). lra. }
  assert (I : is (597 / 32) (fdiv b (fadd (fadd (fadd (fdiv rv (fadd froot2 (fsqrt (fadd rv (fint 2))))) flow) qv) fhigh)) (hy - A)).
  { rewrite <- T. replace (597 / 32) with (0 + 559 / 32 + 19 / 16) by lra. apply is_div; auto; try lra; [|apply is_refl; auto].
    rewrite T. right. pose proof eta_A as EA. assert (u * (u * A) <= u * (/ 1048576 * A)) by (apply Rmult_le_compat_l; [lra|apply Rmult_le_compat_r; lra]).
    assert (u * (/ 64 * A) <= u * (hy - A)) by (apply Rmult_le_compat_l; lra). assert (0 <= u * A) by (apply Rmult_le_pos; lra). lra. }
  destruct I as [Ft Nt]. apply finish; [exact Ft|]. unfold CsqError.near in Nt. eapply Rle_trans; [exact Nt|].
  assert (0 <= u * (hy - A)) by (apply Rmult_le_pos; lra). pose proof (eta_pos prec emax). lra.
Qed.
Lemma fhyp_ok : is 7 (fhyp a b) hy.
Proof.
  destruct tmp_ok as (Ft & Vt & R1 & R2 & R3). pose proof u0 as U0. pose proof us as U1. unfold CsqModel.fhyp. cbv zeta.
  rewrite (feq_val prec emax (fsub a b) a Ft Fa), Vt. pose proof (hyp_ge A B ltac:(lra)) as HA. pose proof (hyp_le A B ltac:(lra) ltac:(lra)) as HB.
  destruct (Req_bool_spec (rn (A - B)) A) as [E|E].
  - split; [exact Fa|]. rewrite E in R1. unfold CsqError.near. apply Rabs_le_inv in R1.
    assert (u * (A - B) <= u * hy) by (apply Rmult_le_compat_l; lra). assert (0 <= u * hy) by (apply Rmult_le_pos; lra). apply Rabs_le. lra.
  - rewrite (flt_val prec emax b (fsub a b) Fb Ft), Vt. destruct (Rlt_bool_spec B (rn (A - B))) as [L|L]; [apply hyp_simple; auto|apply hyp_precise; auto].
Qed.
End Legs.
End Float.
