(** Proofs about lerp, clamp, smoothStep and isClose over IEEE numbers. *)
From Coq Require Import ZArith Reals List Lia Lra Bool.
From Flocq Require Import Core Relative Plus_error BinarySingleNaN.
From Verif Require Import Base BaseProofs ShapeModel AccModel AccSpec AccProofs NumModel NumSpec NumBasics NumRandom.
Import ListNotations.
Open Scope R_scope.

(** Three roundings *)
Lemma cube_bound u v : 0 < u -> 0 <= v -> v * (1 + u) = u -> (1 + v) ^ 3 - 1 <= 3 * u.
Proof. intros U V E. assert (VU : v <= u) by nra. nra. Qed.

Section Interp.
Variables prec emax : Z.
Context (Hp : Prec_gt_0 prec) (Hm : Prec_lt_emax prec emax).
Local Notation num := (binary_float prec emax).
Local Notation fzero := (fzero prec emax).
Local Notation fone := (fone prec emax Hp Hm).
Local Notation fadd := (fadd prec emax Hp Hm).
Local Notation fmul := (fmul prec emax Hp Hm).
Local Notation fsub := (fsub prec emax Hp Hm).
Local Notation fdiv := (fdiv prec emax Hp Hm).
Local Notation fint := (fint prec emax Hp Hm).
Local Notation rn := (nearest prec emax).
Local Notation u := (unit_roundoff prec).
Local Notation v := (u / (1 + u)).
Local Notation eta := (underflow_unit prec emax).
Local Notation big := (bpow radix2 emax).
Local Notation fexp := (FLT_exp (3 - emax - prec) prec).
Local Notation format := (generic_format radix2 fexp).

Lemma below_one t : (3 <= emax)%Z -> format t -> t < 1 -> t <= 1 - u.
Proof.
  intros Em F H. assert (F1 : format 1) by (change 1 with (bpow radix2 0); apply big_format; auto; unfold Prec_gt_0 in Hp; lia).
  pose proof (pred_ge_gt radix2 fexp t 1 F F1 H) as P. change 1 with (bpow radix2 0) in P. rewrite pred_bpow in P.
  replace (fexp 0) with (- prec)%Z in P by (unfold FLT_exp; lia). exact P.
Qed.

(** ** lerp *)
Definition inner (t lo hi : R) : R := lo + rn (t * rn (hi - lo)).
(** the two ways a value is computed *)
Definition lerp1 (t lo hi : R) : R := if Req_EM_T t 1 then hi else rn (inner t lo hi).
Definition lerp2 (t lo hi : R) : R := rn (rn (t * hi) + rn (rn (1 - t) * lo)).

Lemma inner_opp t lo hi : inner t (- lo) (- hi) = - inner t lo hi.
Proof.
  unfold inner. replace (- hi - - lo) with (- (hi - lo)) by ring. rewrite rn_opp.
  replace (t * - rn (hi - lo)) with (- (t * rn (hi - lo))) by ring. rewrite rn_opp. ring.
Qed.
Lemma inner_up t lo hi : format lo -> format hi -> lo <= hi -> 0 <= t <= 1 - u -> lo <= inner t lo hi <= hi.
Proof.
  intros F1 F2 H T. unfold inner. rewrite (Rmult_comm t). split; [|apply ran_part; auto].
  assert (0 <= rn (rn (hi - lo) * t)); [|lra]. apply rn_pos; auto. apply Rmult_le_pos; [apply rn_pos; auto|]; lra.
Qed.
Lemma inner_between t lo hi : format lo -> format hi -> 0 <= t <= 1 - u -> between lo hi (inner t lo hi).
Proof.
  intros F1 F2 T. unfold between. destruct (Rle_or_lt lo hi) as [H|H].
  - rewrite Rmin_left, Rmax_right by lra. apply inner_up; auto.
  - rewrite Rmin_right, Rmax_left by lra.
    pose proof (inner_up t (- lo) (- hi) (generic_format_opp _ _ _ F1) (generic_format_opp _ _ _ F2) ltac:(lra) T) as B.
    rewrite inner_opp in B. lra.
Qed.
Lemma rn_between a b x : format a -> format b -> between a b x -> between a b (rn x).
Proof.
  intros Fa Fb (X1 & X2). split; [apply rn_ge_format|apply rn_le_format]; auto.
  - unfold Rmin. destruct (Rle_dec _ _); auto.
  - unfold Rmax. destruct (Rle_dec _ _); auto.
Qed.
Lemma between_small (a b : num) x : between (B2R a) (B2R b) x -> Rabs x < big.
Proof.
  intros (Y1 & Y2). pose proof (finite_lt prec emax a) as A1. pose proof (finite_lt prec emax b) as B1.
  apply Rabs_lt_inv in A1. apply Rabs_lt_inv in B1. apply Rabs_lt. unfold Rmin, Rmax in *. destruct (Rle_dec (B2R a) (B2R b)); lra.
Qed.
Lemma lerp1_between t lo hi : (3 <= emax)%Z -> format t -> format lo -> format hi -> 0 <= t <= 1 -> between lo hi (lerp1 t lo hi).
Proof.
  intros Em Ft F1 F2 T. unfold lerp1. destruct (Req_EM_T t 1) as [E|N].
  - unfold between. split; [apply Rmin_r|apply Rmax_r].
  - apply rn_between; auto. apply inner_between; auto. split; [lra|]. apply below_one; auto. lra.
Qed.
Lemma lerp1_mono t t' lo hi : (3 <= emax)%Z -> format t -> format t' -> format lo -> format hi -> 0 <= t -> t <= t' -> t' <= 1 ->
  (lo <= hi -> lerp1 t lo hi <= lerp1 t' lo hi) /\ (hi <= lo -> lerp1 t' lo hi <= lerp1 t lo hi).
Proof.
  intros Em Ft Ft' F1 F2 T0 T T1.
  pose proof (lerp1_between t lo hi Em Ft F1 F2 ltac:(lra)) as (B1 & B2).
  unfold lerp1 in *. destruct (Req_EM_T t' 1) as [E'|N'].
  - split; intros H.
    + rewrite (Rmax_right lo hi) in B2 by lra. lra.
    + rewrite (Rmin_right lo hi) in B1 by lra. lra.
  - destruct (Req_EM_T t 1) as [E|N]; [exfalso; lra|]. unfold inner. split; intros H; apply rn_le; auto; apply Rplus_le_compat_l, rn_le; auto.
    + assert (0 <= rn (hi - lo)) by (apply rn_pos; auto; lra). nra.
    + assert (rn (hi - lo) <= 0) by (apply rn_neg; auto; lra). nra.
Qed.
Lemma lerp1_error t lo hi : format lo -> format hi -> 0 <= t <= 1 ->
  Rabs (lerp1 t lo hi - along t lo hi) <= 3 * u * (Rabs lo + Rabs hi) + 4 * eta.
Proof.
  intros F1 F2 T. pose proof (u_pos prec) as U0. pose proof (v_pos prec) as V0. pose proof (v_eq prec) as VE. pose proof (eta_pos prec emax) as E0.
  pose proof (Rabs_pos lo) as L0. pose proof (Rabs_pos hi) as H0. pose proof (v_third prec Hp) as V3. unfold lerp1, along.
  destruct (Req_EM_T t 1) as [E|N].
  - rewrite E. replace (hi - (lo + 1 * (hi - lo))) with 0 by ring. rewrite Rabs_R0. nra.
  - unfold inner. set (d := rn (hi - lo)). set (p := rn (t * d)). set (S := Rabs lo + Rabs hi) in *.
    assert (HS : Rabs (hi - lo) <= S). { unfold Rminus. eapply Rle_trans; [apply Rabs_triang|]. rewrite Rabs_Ropp. unfold S. lra. }
    assert (H1 : Rabs (d - (hi - lo)) <= v * Rabs (hi - lo)).
    { unfold d. replace (hi - lo) with (hi + - lo) by ring. apply add_rel; auto. apply generic_format_opp; auto. }
    pose proof (rn_err prec emax Hp (t * d)) as H2. fold p in H2. rewrite Rabs_mult, (Rabs_pos_eq t) in H2 by lra.
    assert (H3 : Rabs (rn (lo + p) - (lo + p)) <= v * Rabs (lo + p)) by (apply add_rel; auto; apply rn_format; exact Hp).
    assert (Ad : Rabs d <= (1 + v) * S).
    { replace d with ((d - (hi - lo)) + (hi - lo)) by ring. eapply Rle_trans; [apply Rabs_triang|]. nra. }
    pose proof (Rabs_pos d) as D0. pose proof (Rabs_pos (hi - lo)) as HL0.
    assert (Hpe : Rabs (p - t * (hi - lo)) <= ((1 + v) ^ 2 - 1) * S + eta).
    { replace (p - t * (hi - lo)) with ((p - t * d) + t * (d - (hi - lo))) by ring. eapply Rle_trans; [apply Rabs_triang|].
      rewrite (Rabs_mult t), (Rabs_pos_eq t) by lra.
      assert (t * Rabs d <= (1 + v) * S) by nra. assert (t * Rabs (d - (hi - lo)) <= v * S) by (pose proof (Rabs_pos (d - (hi - lo))); nra). nra. }
    assert (AE : Rabs (lo + t * (hi - lo)) <= S).
    { replace (lo + t * (hi - lo)) with ((1 - t) * lo + t * hi) by ring. eapply Rle_trans; [apply Rabs_triang|].
      rewrite !Rabs_mult, (Rabs_pos_eq t), (Rabs_pos_eq (1 - t)) by lra. unfold S. nra. }
    assert (A : Rabs (lo + p) <= S + Rabs (p - t * (hi - lo))).
    { replace (lo + p) with ((lo + t * (hi - lo)) + (p - t * (hi - lo))) by ring. eapply Rle_trans; [apply Rabs_triang|]. lra. }
    replace (rn (lo + p) - (lo + t * (hi - lo))) with ((rn (lo + p) - (lo + p)) + (p - t * (hi - lo))) by ring.
    eapply Rle_trans; [apply Rabs_triang|].
    assert (C : v * Rabs (lo + p) <= v * (S + (((1 + v) ^ 2 - 1) * S + eta))) by (apply Rmult_le_compat_l; lra).
    assert (S0 : 0 <= S) by (unfold S; lra).
    pose proof (cube_bound u v U0 V0 VE) as CB. pose proof (Rmult_le_compat_r S _ _ S0 CB). nra.
Qed.

Lemma scaled_between t x : format x -> 0 <= t <= 1 -> between 0 x (rn (t * x)).
Proof.
  intros F T. apply rn_between; auto; [apply generic_format_0|]. unfold between. destruct (Rle_or_lt 0 x).
  - rewrite Rmin_left, Rmax_right by lra. nra.
  - rewrite Rmin_right, Rmax_left by lra. nra.
Qed.
Lemma rest_unit t : (3 <= emax)%Z -> 0 <= t <= 1 -> 0 <= rn (1 - t) <= 1.
Proof.
  intros Em T. split; [apply rn_pos; auto; lra|]. apply rn_le_format; auto; [|lra].
  change 1 with (bpow radix2 0). apply big_format; auto. unfold Prec_gt_0 in Hp. lia.
Qed.
Lemma lerp2_between t lo hi : (3 <= emax)%Z -> format lo -> format hi -> 0 <= lo -> hi <= 0 -> 0 <= t <= 1 -> hi <= lerp2 t lo hi <= lo.
Proof.
  intros Em F1 F2 H1 H2 T. pose proof (scaled_between t hi F2 T) as B1. pose proof (scaled_between (rn (1 - t)) lo F1 (rest_unit t Em T)) as B2.
  unfold between in *. rewrite Rmin_right, Rmax_left in B1 by lra. rewrite Rmin_left, Rmax_right in B2 by lra.
  unfold lerp2. split; [apply rn_ge_format|apply rn_le_format]; auto; lra.
Qed.
Lemma lerp2_anti t t' lo hi : (3 <= emax)%Z -> 0 <= lo -> hi <= 0 -> 0 <= t -> t <= t' -> t' <= 1 -> lerp2 t' lo hi <= lerp2 t lo hi.
Proof.
  intros Em H1 H2 T0 T T1. unfold lerp2. apply rn_le; auto. apply Rplus_le_compat; apply rn_le; auto; [nra|].
  apply Rmult_le_compat_r; auto. apply rn_le; auto. lra.
Qed.
Lemma lerp2_ends lo hi : (3 <= emax)%Z -> format lo -> format hi -> lerp2 0 lo hi = lo /\ lerp2 1 lo hi = hi.
Proof.
  intros Em F1 F2. assert (R1 : rn 1 = 1). { apply rn_id. change 1 with (bpow radix2 0). apply big_format; auto. unfold Prec_gt_0 in Hp. lia. }
  unfold lerp2. split.
  - rewrite Rmult_0_l, rn_0, Rplus_0_l, Rminus_0_r, R1, Rmult_1_l. rewrite (rn_id prec emax lo F1). apply rn_id, F1.
  - replace (1 - 1) with 0 by ring. rewrite rn_0, Rmult_0_l, rn_0, Rplus_0_r, Rmult_1_l. rewrite (rn_id prec emax hi F2). apply rn_id, F2.
Qed.
Lemma lerp2_error t lo hi : format t -> (3 <= emax)%Z -> format lo -> format hi -> 0 <= t <= 1 ->
  Rabs (lerp2 t lo hi - along t lo hi) <= 3 * u * (Rabs lo + Rabs hi) + 4 * eta.
Proof.
  intros Ft Em F1 F2 T. pose proof (u_pos prec) as U0. pose proof (v_pos prec) as V0. pose proof (v_eq prec) as VE. pose proof (eta_pos prec emax) as E0.
  pose proof (Rabs_pos lo) as L0. pose proof (Rabs_pos hi) as H0. pose proof (v_third prec Hp) as V3. unfold lerp2, along.
  assert (F11 : format 1) by (change 1 with (bpow radix2 0); apply big_format; auto; unfold Prec_gt_0 in Hp; lia).
  set (r := rn (1 - t)). set (p := rn (t * hi)). set (q := rn (r * lo)).
  assert (H1 : Rabs (r - (1 - t)) <= v * (1 - t)).
  { rewrite <- (Rabs_pos_eq (1 - t)) at 2 by lra. unfold r, Rminus. apply add_rel; auto. apply generic_format_opp; auto. }
  assert (R0 : 0 <= r <= 1) by (apply rest_unit; auto).
  pose proof (rn_err prec emax Hp (t * hi)) as H2. fold p in H2. rewrite Rabs_mult, (Rabs_pos_eq t) in H2 by lra.
  pose proof (rn_err prec emax Hp (r * lo)) as H3. fold q in H3. rewrite Rabs_mult, (Rabs_pos_eq r) in H3 by lra.
  assert (H4 : Rabs (rn (p + q) - (p + q)) <= v * Rabs (p + q)) by (apply add_rel; auto; apply rn_format; exact Hp).
  set (A := t * Rabs hi) in *. set (B := (1 - t) * Rabs lo).
  assert (A0 : 0 <= A) by (apply Rmult_le_pos; lra). assert (B0 : 0 <= B) by (apply Rmult_le_pos; lra).
  assert (AB : A + B <= Rabs lo + Rabs hi) by (unfold A, B; nra).
  assert (Rr : r <= (1 - t) * (1 + v)) by (apply Rabs_le_inv in H1; lra).
  assert (Hq : Rabs (q - (1 - t) * lo) <= ((1 + v) ^ 2 - 1) * B + eta).
  { replace (q - (1 - t) * lo) with ((q - r * lo) + (r - (1 - t)) * lo) by ring. eapply Rle_trans; [apply Rabs_triang|]. rewrite (Rabs_mult _ lo).
    assert (v * (r * Rabs lo) <= v * ((1 + v) * B)) by (apply Rmult_le_compat_l; auto; unfold B; nra).
    assert (Rabs (r - (1 - t)) * Rabs lo <= v * B) by (unfold B; nra). nra. }
  assert (Hs : Rabs (p + q - (t * hi + (1 - t) * lo)) <= ((1 + v) ^ 2 - 1) * (A + B) + 2 * eta).
  { replace (p + q - (t * hi + (1 - t) * lo)) with ((p - t * hi) + (q - (1 - t) * lo)) by ring. eapply Rle_trans; [apply Rabs_triang|].
    assert (v * A <= ((1 + v) ^ 2 - 1) * A) by (apply Rmult_le_compat_r; auto; clear - V0; nra). lra. }
  assert (AS : Rabs (t * hi + (1 - t) * lo) <= A + B).
  { eapply Rle_trans; [apply Rabs_triang|]. rewrite !Rabs_mult, (Rabs_pos_eq t), (Rabs_pos_eq (1 - t)) by lra. unfold A, B. lra. }
  assert (AP : Rabs (p + q) <= (A + B) + Rabs (p + q - (t * hi + (1 - t) * lo))).
  { replace (p + q) with ((t * hi + (1 - t) * lo) + (p + q - (t * hi + (1 - t) * lo))) at 1 by ring. eapply Rle_trans; [apply Rabs_triang|]. lra. }
  replace (rn (p + q) - (lo + t * (hi - lo))) with ((rn (p + q) - (p + q)) + (p + q - (t * hi + (1 - t) * lo))) by ring.
  eapply Rle_trans; [apply Rabs_triang|].
  assert (C : v * Rabs (p + q) <= v * ((A + B) + (((1 + v) ^ 2 - 1) * (A + B) + 2 * eta))) by (apply Rmult_le_compat_l; lra).
  pose proof (cube_bound u v U0 V0 VE) as CB. assert (AB0 : 0 <= A + B) by lra. pose proof (Rmult_le_compat_r (A + B) _ _ AB0 CB).
  assert (3 * u * (A + B) <= 3 * u * (Rabs lo + Rabs hi)) by (apply Rmult_le_compat_l; lra). nra.
Qed.

Definition lerpR (t lo hi : R) : R := if Rle_dec 0 lo then if Rle_dec hi 0 then lerp2 t lo hi else lerp1 t lo hi else lerp1 t lo hi.
Lemma lerp1_zero lo hi : (0 < 1) -> format lo -> lerp1 0 lo hi = lo.
Proof.
  intros _ F. unfold lerp1. destruct (Req_EM_T 0 1); [lra|]. unfold inner. rewrite Rmult_0_l, rn_0, Rplus_0_r. apply rn_id; auto.
Qed.
(** The computed value *)
Lemma lerp_val (t lo hi : num) : (3 <= emax)%Z -> is_finite t = true -> is_finite lo = true -> is_finite hi = true ->
  0 <= B2R t <= 1 -> (Rabs (rn (B2R hi - B2R lo)) < big \/ (0 <= B2R lo /\ B2R hi <= 0)) ->
  is_finite (flerp prec emax Hp Hm t lo hi) = true /\ B2R (flerp prec emax Hp Hm t lo hi) = lerpR (B2R t) (B2R lo) (B2R hi).
Proof.
  intros Em Ft Fl Fh T D. destruct (fzero_val prec emax) as (Z1 & Z2). destruct (fone_val prec emax Hp Hm) as (O1 & O2).
  pose proof (num_format _ _ lo) as G1. pose proof (num_format _ _ hi) as G2. pose proof (num_format _ _ t) as G3.
  assert (R1 : rn 1 = 1). { apply rn_id. change 1 with (bpow radix2 0). apply big_format; auto. unfold Prec_gt_0 in Hp. lia. }
  unfold flerp. rewrite !finite_not_nan by auto. cbn [orb]. rewrite !fle_val, Z2 by auto.
  set (x := B2R t) in *. set (a := B2R lo) in *. set (b := B2R hi) in *.
  assert (SC : forall s y : num, is_finite s = true -> is_finite y = true -> 0 <= B2R s <= 1 ->
    is_finite (fmul s y) = true /\ B2R (fmul s y) = rn (B2R s * B2R y)).
  { intros s y Fs Fy Hs. apply fmul_small; auto. apply (between_small fzero y). rewrite Z2. apply scaled_between; auto. apply num_format. }
  destruct (fsub_small prec emax Hp Hm fone t O1 Ft) as (S1 & S2).
  { rewrite O2. fold x. destruct (rest_unit x Em T) as (Q0 & Q1). rewrite Rabs_pos_eq by exact Q0.
    apply Rle_lt_trans with (1 := Q1). change 1 with (bpow radix2 0). apply bpow_lt. lia. }
  rewrite O2 in S2. fold x in S2.
  destruct (SC t hi Ft Fh T) as (M1 & M2). fold x b in M2.
  destruct (SC (fsub fone t) lo S1 Fl) as (M3 & M4); [rewrite S2; apply rest_unit; auto|]. rewrite S2 in M4. fold a in M4.
  destruct ((Rle_bool x 0 && Rle_bool 0 b) || (Rle_bool 0 a && Rle_bool b 0))%bool eqn:C.
  - assert (V : lerp2 x a b = lerpR x a b /\ between a b (lerp2 x a b)).
    { unfold lerpR. apply orb_prop in C. destruct C as [C|C]; apply andb_prop in C; destruct C as (C1 & C2).
      - destruct (Rle_bool_spec x 0) as [X|]; [|discriminate C1]. assert (X0 : x = 0) by lra. rewrite X0 in *.
        destruct (lerp2_ends a b Em G1 G2) as (E0 & _). rewrite E0, lerp1_zero by (auto; lra). split.
        + destruct (Rle_dec 0 a); [destruct (Rle_dec b 0)|]; auto.
        + split; [apply Rmin_l|apply Rmax_l].
      - destruct (Rle_bool_spec 0 a) as [X|]; [|discriminate C1]. destruct (Rle_bool_spec b 0) as [Y|]; [|discriminate C2].
        destruct (Rle_dec 0 a); [|contradiction]. destruct (Rle_dec b 0); [|contradiction]. split; auto.
        pose proof (lerp2_between x a b Em G1 G2 X Y T). unfold between. rewrite Rmin_right, Rmax_left by lra. lra. }
    destruct V as (V1 & V2). rewrite <- V1.
    destruct (fadd_small prec emax Hp Hm (fmul t hi) (fmul (fsub fone t) lo) M1 M3) as (A1 & A2).
    { rewrite M2, M4. apply (between_small lo hi). exact V2. }
    split; auto. rewrite A2, M2, M4. reflexivity.
  - assert (V : lerp1 x a b = lerpR x a b).
    { unfold lerpR. apply orb_false_elim in C. destruct C as (_ & C). apply andb_false_elim in C.
      destruct (Rle_dec 0 a) as [X|X]; auto. destruct (Rle_dec b 0) as [Y|Y]; auto. exfalso.
      destruct C as [C|C]; [rewrite Rle_bool_true in C by exact X|rewrite Rle_bool_true in C by exact Y]; discriminate C. }
    rewrite <- V. rewrite feq_val, O2 by auto. fold x. unfold lerp1. destruct (Req_bool_spec x 1) as [X|X]; destruct (Req_EM_T x 1) as [X'|X']; try contradiction; auto.
    assert (DS : Rabs (rn (b - a)) < big).
    { destruct D as [D|(D1 & D2)]; auto. exfalso. apply orb_false_elim in C. destruct C as (_ & C). rewrite !Rle_bool_true in C by auto. discriminate C. }
    destruct (fsub_small prec emax Hp Hm hi lo Fh Fl DS) as (D1 & D2). fold a b in D2.
    destruct (SC t (fsub hi lo) Ft D1 T) as (D3 & D4). rewrite D2 in D4. fold x in D4.
    assert (T1 : 0 <= x <= 1 - u) by (split; [lra|]; apply below_one; auto; lra).
    pose proof (inner_between x a b G1 G2 T1) as IB. pose proof (rn_between a b _ G1 G2 IB) as IB2.
    destruct (fadd_small prec emax Hp Hm lo (fmul t (fsub hi lo)) Fl D3) as (D5 & D6).
    { rewrite D4. apply (between_small lo hi). exact IB2. }
    rewrite D4 in D6. fold a in D6. change (a + rn (x * rn (b - a))) with (inner x a b) in D6.
    rewrite !flt_val, O2 by auto. fold x a b. rewrite (Rlt_bool_false 1 x) by lra.
    unfold between in IB2. destruct (Rlt_bool_spec a b) as [H|H]; cbn [Bool.eqb].
    + destruct (vmin2_val prec emax hi (fadd lo (fmul t (fsub hi lo))) Fh D5) as (F1 & F2). split; auto. rewrite F2, D6. fold b.
      rewrite (Rmax_right a b) in IB2 by lra. apply Rmin_right. lra.
    + destruct (vmax2_val prec emax hi (fadd lo (fmul t (fsub hi lo))) Fh D5) as (F1 & F2). split; auto. rewrite F2, D6. fold b.
      rewrite (Rmin_right a b) in IB2 by lra. apply Rmax_right. lra.
Qed.
End Interp.
