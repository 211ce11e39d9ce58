(** Proofs of the error bounds for sums and products of floating-point numbers. *)
From Coq Require Import ZArith Reals List Permutation Lia Lra.
From Flocq Require Import Core Relative Plus_error BinarySingleNaN.
From Verif Require VectorModel VectorSpec VectorProofs.
From Verif Require Import Base BaseProofs MatmulModel MatmulSpec AccModel AccSpec AccLinear.
Import ListNotations.
Open Scope R_scope.

(** * One addition *)
(** The smaller operand bounds the error when it is negligible, the relative error otherwise. *)
Lemma half_step n1 n2 u v w s1 s2 d : 1 <= n1 -> 1 <= n2 -> 0 <= w -> w <= v -> 0 <= v -> v <= u -> u <= 1 -> v * (1 + u) = u ->
  0 <= s1 -> 0 <= s2 -> s2 <= s1 ->
  d <= v * (s1 * (1 + ((n1 - 1) * u + w)) + s2 * (1 + ((n2 - 1) * u + w))) ->
  d <= s2 * (1 + ((n2 - 1) * u + w)) ->
  d <= n2 * u * s1 + n1 * u * s2.
Proof.
  intros N1 N2 W0 W1 V0 VU U1 EV S1 S2 S12 D1 D2.
  destruct (Rle_or_lt (s2 * (1 + ((n2 - 1) * u + w))) (n2 * u * s1 + n1 * u * s2)) as [H|H]; [lra|].
  eapply Rle_trans; [exact D1|].
  assert (VW : v * (1 + w) <= u) by nra.
  assert (U0 : 0 <= u) by lra.
  (* v u s1 <= u s2 *)
  assert (K : v * (u * s1) <= u * s2).
  { apply Rmult_le_reg_l with n2; [lra|].
    assert (A1 : n2 * (u * s1) <= s2 * (1 + w + (n2 - 1) * u)).
    { assert (0 <= n1 * u * s2) by (apply Rmult_le_pos; [apply Rmult_le_pos; lra|lra]). nra. }
    assert (A2 : v * (n2 * (u * s1)) <= v * (s2 * (1 + w + (n2 - 1) * u))) by (apply Rmult_le_compat_l; lra).
    assert (A3 : v * (s2 * (1 + w + (n2 - 1) * u)) <= s2 * (u + (n2 - 1) * u)).
    { replace (v * (s2 * (1 + w + (n2 - 1) * u))) with (s2 * (v * (1 + w) + (n2 - 1) * u * v)) by ring.
      apply Rmult_le_compat_l; [lra|]. apply Rplus_le_compat; [lra|].
      rewrite <- (Rmult_1_r ((n2 - 1) * u)) at 2. apply Rmult_le_compat_l; [apply Rmult_le_pos; lra|lra]. }
    replace (n2 * (v * (u * s1))) with (v * (n2 * (u * s1))) by ring.
    replace (n2 * (u * s2)) with (s2 * (u + (n2 - 1) * u)) by ring. lra. }
  assert (B1 : v * (s1 * (1 + ((n1 - 1) * u + w))) <= u * s1 + (n1 - 1) * (u * s2)).
  { replace (v * (s1 * (1 + ((n1 - 1) * u + w)))) with (v * (1 + w) * s1 + (n1 - 1) * (v * (u * s1))) by ring.
    apply Rplus_le_compat; [apply Rmult_le_compat_r; lra|apply Rmult_le_compat_l; lra]. }
  assert (B2 : v * (s2 * (1 + ((n2 - 1) * u + w))) <= u * s2 + (n2 - 1) * (u * s1)).
  { replace (v * (s2 * (1 + ((n2 - 1) * u + w)))) with (v * (1 + w) * s2 + (n2 - 1) * (u * (v * s2))) by ring.
    apply Rplus_le_compat; [apply Rmult_le_compat_r; lra|]. apply Rmult_le_compat_l; [lra|]. apply Rmult_le_compat_l; [lra|].
    assert (v * s2 <= 1 * s2) by (apply Rmult_le_compat_r; lra). lra. }
  lra.
Qed.

Lemma full_step n1 n2 u v w a1 a2 s1 s2 t1 t2 r : 1 <= n1 -> 1 <= n2 -> 0 <= w -> w <= v -> 0 <= v -> v <= u -> u <= 1 -> v * (1 + u) = u ->
  Rabs t1 <= a1 -> Rabs t2 <= a2 ->
  Rabs (s1 - t1) <= ((n1 - 1) * u + w) * a1 -> Rabs (s2 - t2) <= ((n2 - 1) * u + w) * a2 ->
  Rabs (r - (s1 + s2)) <= v * Rabs (s1 + s2) -> Rabs (r - (s1 + s2)) <= Rabs s1 -> Rabs (r - (s1 + s2)) <= Rabs s2 ->
  Rabs (r - (t1 + t2)) <= ((n1 + n2 - 1) * u + w) * (a1 + a2).
Proof.
  intros N1 N2 W0 W1 V0 VU U1 EV T1 T2 E1 E2 D0 D1 D2.
  assert (A1 : 0 <= a1) by (pose proof (Rabs_pos t1); lra). assert (A2 : 0 <= a2) by (pose proof (Rabs_pos t2); lra).
  assert (M1 : Rabs s1 <= a1 * (1 + ((n1 - 1) * u + w))).
  { replace s1 with ((s1 - t1) + t1) by ring. eapply Rle_trans; [apply Rabs_triang|]. lra. }
  assert (M2 : Rabs s2 <= a2 * (1 + ((n2 - 1) * u + w))).
  { replace s2 with ((s2 - t2) + t2) by ring. eapply Rle_trans; [apply Rabs_triang|]. lra. }
  assert (M : Rabs (s1 + s2) <= a1 * (1 + ((n1 - 1) * u + w)) + a2 * (1 + ((n2 - 1) * u + w))).
  { eapply Rle_trans; [apply Rabs_triang|]. lra. }
  assert (D0' : Rabs (r - (s1 + s2)) <= v * (a1 * (1 + ((n1 - 1) * u + w)) + a2 * (1 + ((n2 - 1) * u + w)))).
  { eapply Rle_trans; [exact D0|]. apply Rmult_le_compat_l; lra. }
  assert (D : Rabs (r - (s1 + s2)) <= n2 * u * a1 + n1 * u * a2).
  { destruct (Rle_or_lt a2 a1) as [L|L].
    - apply (half_step n1 n2 u v w a1 a2); auto; lra.
    - rewrite (Rplus_comm (n2 * u * a1)). apply (half_step n2 n1 u v w a2 a1); auto; lra. }
  replace (r - (t1 + t2)) with ((r - (s1 + s2)) + ((s1 - t1) + (s2 - t2))) by ring.
  eapply Rle_trans; [apply Rabs_triang|]. pose proof (Rabs_triang (s1 - t1) (s2 - t2)).
  replace (((n1 + n2 - 1) * u + w) * (a1 + a2)) with ((n2 * u * a1 + n1 * u * a2) + (((n1 - 1) * u + w) * a1 + ((n2 - 1) * u + w) * a2)) by ring.
  lra.
Qed.

(** * Sums in any order *)
Section Any.
Variables prec emax : Z.
Context (Hp : Prec_gt_0 prec).
Local Notation emin := (3 - emax - prec)%Z.
Local Notation format := (generic_format radix2 (FLT_exp emin prec)).
Local Notation rn := (nearest prec emax).
Local Notation u := (unit_roundoff prec).
Local Notation v := (u / (1 + u)).
Local Notation eta := (underflow_unit prec emax).

Lemma u_pos : 0 < u.
Proof. apply bpow_gt_0. Qed.
Lemma u_le_1 : u <= 1.
Proof. unfold unit_roundoff. change 1 with (bpow radix2 0). apply bpow_le. unfold Prec_gt_0 in Hp. lia. Qed.
Lemma u_ro_u : u_ro radix2 prec = u.
Proof.
  unfold u_ro, unit_roundoff. rewrite bpow_plus. change (bpow radix2 1) with 2. field.
Qed.
Lemma v_pos : 0 <= v.
Proof. pose proof u_pos. apply Rmult_le_pos; [lra|]. left. apply Rinv_0_lt_compat. lra. Qed.
Lemma v_eq : v * (1 + u) = u.
Proof. pose proof u_pos. field. lra. Qed.
Lemma v_le : v <= u.
Proof. pose proof u_pos. pose proof v_pos. pose proof v_eq. nra. Qed.
Lemma eta_pos : 0 < eta.
Proof. unfold underflow_unit. pose proof (bpow_gt_0 radix2 emin). lra. Qed.

Lemma rn_format x : format (rn x).
Proof. apply generic_format_round; typeclasses eauto. Qed.
Lemma rn_id x : format x -> rn x = x.
Proof. intros F. apply round_generic; [typeclasses eauto|exact F]. Qed.
Lemma rn_0 : rn 0 = 0.
Proof. apply round_0. typeclasses eauto. Qed.

Lemma add_rel x y : format x -> format y -> Rabs (rn (x + y) - (x + y)) <= v * Rabs (x + y).
Proof.
  intros Fx Fy. destruct (FLT_plus_error_N_ex radix2 emin prec (fun z => negb (Z.even z)) x y Fx Fy) as (e & He & E).
  rewrite u_ro_u in He. unfold nearest. rewrite E. replace ((x + y) * (1 + e) - (x + y)) with (e * (x + y)) by ring.
  rewrite Rabs_mult. apply Rmult_le_compat_r; [apply Rabs_pos|exact He].
Qed.
Lemma add_abs x y : format x -> Rabs (rn (x + y) - (x + y)) <= Rabs y.
Proof.
  intros Fx. destruct (round_N_pt radix2 (FLT_exp emin prec) (fun z => negb (Z.even z)) (x + y)) as (_ & N).
  specialize (N x Fx). unfold nearest. eapply Rle_trans; [exact N|]. replace (x - (x + y)) with (- y) by ring. rewrite Rabs_Ropp. lra.
Qed.
(** A rounded number: a relative error or an absolute one. *)
Lemma mul_err x : exists e t, Rabs e <= v /\ Rabs t <= eta /\ e * t = 0 /\ rn x = x * (1 + e) + t.
Proof.
  destruct (relative_error_N_FLT'_ex radix2 emin prec Hp (fun z => negb (Z.even z)) x) as (e & t & H1 & H2 & H3 & H4).
  rewrite u_ro_u in H1. exists e, t. auto.
Qed.

Lemma exact_app l1 l2 : exact_sum (l1 ++ l2) = exact_sum l1 + exact_sum l2.
Proof. unfold exact_sum. induction l1 as [|x l IH]; cbn [app fold_right]; [|rewrite IH]; ring. Qed.
Lemma size_app l1 l2 : size_sum (l1 ++ l2) = size_sum l1 + size_sum l2.
Proof. unfold size_sum. rewrite map_app. apply exact_app. Qed.
Lemma exact_perm l l' : Permutation l l' -> exact_sum l = exact_sum l'.
Proof. unfold exact_sum. induction 1; cbn [fold_right]; lra. Qed.
Lemma size_perm l l' : Permutation l l' -> size_sum l = size_sum l'.
Proof. intros H. apply exact_perm, Permutation_map, H. Qed.
Lemma exact_size l : Rabs (exact_sum l) <= size_sum l.
Proof.
  unfold size_sum, exact_sum. induction l as [|x l IH]; cbn [map fold_right]; [rewrite Rabs_R0; lra|].
  eapply Rle_trans; [apply Rabs_triang|]. lra.
Qed.
Lemma size_pos l : 0 <= size_sum l.
Proof. pose proof (exact_size l). pose proof (Rabs_pos (exact_sum l)). lra. Qed.

(** Leaves carry a relative error of at most [w]. *)
Inductive acc (w : R) : list R -> R -> Prop :=
| acc_none : acc w [] 0
| acc_one x y : format y -> Rabs (y - x) <= w * Rabs x -> acc w [x] y
| acc_both l1 l2 s1 s2 : acc w l1 s1 -> acc w l2 s2 -> acc w (l1 ++ l2) (rn (s1 + s2))
| acc_perm l l' s : Permutation l l' -> acc w l s -> acc w l' s.

Lemma acc_bound w l s : 0 <= w <= v -> acc w l s -> format s /\
  (l = [] /\ s = 0 \/ Rabs (s - exact_sum l) <= ((INR (length l) - 1) * u + w) * size_sum l).
Proof.
  intros [W0 W1] H. induction H as [|x y F E|l1 l2 s1 s2 H1 [F1 E1] H2 [F2 E2]|l l' s P H [F E]].
  - split; [apply generic_format_0|]. left. auto.
  - split; [exact F|]. right. cbn. rewrite !Rplus_0_r. replace ((1 - 1) * u + w) with w by ring. exact E.
  - split; [apply rn_format|].
    destruct l1 as [|x1 l1'].
    { assert (Z : s1 = 0).
      { destruct E1 as [[_ E]|E]; [exact E|]. cbn in E. unfold size_sum in E. cbn in E. rewrite Rmult_0_r, Rminus_0_r in E.
        destruct (Req_dec s1 0) as [Z|Z]; [exact Z|]. pose proof (Rabs_pos_lt s1 Z). lra. }
      subst s1. rewrite Rplus_0_l, rn_id by exact F2. cbn [app]. destruct E2 as [[-> ->]|E2]; auto. }
    destruct l2 as [|x2 l2'].
    { assert (Z : s2 = 0).
      { destruct E2 as [[_ E]|E]; [exact E|]. cbn in E. unfold size_sum in E. cbn in E. rewrite Rmult_0_r, Rminus_0_r in E.
        destruct (Req_dec s2 0) as [Z|Z]; [exact Z|]. pose proof (Rabs_pos_lt s2 Z). lra. }
      subst s2. rewrite Rplus_0_r, rn_id by exact F1. rewrite app_nil_r. destruct E1 as [[C _]|E1]; [discriminate|auto]. }
    right. destruct E1 as [[C _]|E1]; [discriminate|]. destruct E2 as [[C _]|E2]; [discriminate|].
    rewrite exact_app, size_app, app_length, plus_INR.
    apply (full_step (INR (length (x1 :: l1'))) (INR (length (x2 :: l2'))) u v w (size_sum (x1 :: l1')) (size_sum (x2 :: l2')) s1 s2); auto.
    + cbn [length]. rewrite S_INR. pose proof (pos_INR (length l1')). lra.
    + cbn [length]. rewrite S_INR. pose proof (pos_INR (length l2')). lra.
    + apply v_pos.
    + apply v_le.
    + apply u_le_1.
    + apply v_eq.
    + apply exact_size.
    + apply exact_size.
    + apply add_rel; auto.
    + rewrite (Rplus_comm s1 s2). apply add_abs; auto.
    + apply add_abs; auto.
  - split; [exact F|]. rewrite <- (exact_perm _ _ P), <- (size_perm _ _ P), <- (Permutation_length P). destruct E as [[-> ->]|E]; [|auto].
    left. apply Permutation_nil in P. auto.
Qed.

(** Numbers of the format, added in any order. *)
Lemma added_acc l s : (forall x, In x l -> format x) -> added prec emax l s -> acc 0 l s.
Proof.
  intros F H. revert F. induction H as [|x|l1 l2 s1 s2 H1 IH1 H2 IH2|l l' s P H IH]; intros F.
  - constructor.
  - apply acc_one; [apply F; left; auto|]. rewrite Rminus_diag_eq, Rabs_R0 by reflexivity. lra.
  - apply acc_both; [apply IH1|apply IH2]; intros x Hx; apply F, in_or_app; auto.
  - apply (acc_perm 0 l l'); auto. apply IH. intros x Hx. apply F. apply (Permutation_in _ P Hx).
Qed.
Lemma sum_any_order l s : (forall x, In x l -> format x) -> added prec emax l s ->
  Rabs (s - exact_sum l) <= sum_bound prec (length l) (size_sum l).
Proof.
  intros F H. pose proof v_pos as VP. destruct (acc_bound 0 l s ltac:(lra) (added_acc l s F H)) as (_ & [[-> ->]|E]).
  - unfold sum_bound, size_sum. cbn. rewrite Rminus_0_r, Rabs_R0. lra.
  - destruct l as [|x l'].
    + cbn in E. unfold size_sum in E. cbn in E. rewrite Rmult_0_r in E. unfold sum_bound, size_sum. cbn. lra.
    + unfold sum_bound. rewrite minus_INR by (cbn [length]; lia). change (INR 1) with 1. rewrite Rplus_0_r in E. exact E.
Qed.

(** ** Rounded terms *)
Lemma shifted (ps : list R) : exists qs, Forall2 (fun p q => Rabs (rn p - q) <= v * Rabs q /\ Rabs (q - p) <= eta) ps qs.
Proof.
  induction ps as [|p ps (qs & IH)]; [exists []; constructor|]. destruct (mul_err p) as (e & t & He & Ht & Z & E).
  exists (p + t :: qs). constructor; [|exact IH]. split.
  - rewrite E. destruct (Rmult_integral _ _ Z) as [-> | ->].
    + replace (p * (1 + 0) + t - (p + t)) with 0 by ring. rewrite Rabs_R0. apply Rmult_le_pos; [apply v_pos|apply Rabs_pos].
    + replace (p * (1 + e) + 0 - (p + 0)) with (e * p) by ring. rewrite Rabs_mult, Rplus_0_r. apply Rmult_le_compat_r; [apply Rabs_pos|exact He].
  - replace (p + t - p) with t by ring. exact Ht.
Qed.
Lemma shift_sums ps qs : Forall2 (fun p q => Rabs (rn p - q) <= v * Rabs q /\ Rabs (q - p) <= eta) ps qs ->
  length qs = length ps /\ Rabs (exact_sum qs - exact_sum ps) <= INR (length ps) * eta /\ size_sum qs <= size_sum ps + INR (length ps) * eta.
Proof.
  induction 1 as [|p q ps qs [_ H] HF (L & I1 & I2)].
  - unfold size_sum, exact_sum. cbn [map fold_right length INR]. rewrite Rminus_0_r, Rabs_R0. split; [reflexivity|split; lra].
  - split; [cbn; lia|]. cbn [length]. rewrite S_INR. unfold size_sum, exact_sum in *. cbn [map fold_right]. split.
    + replace (q + fold_right Rplus 0 qs - (p + fold_right Rplus 0 ps)) with ((q - p) + (fold_right Rplus 0 qs - fold_right Rplus 0 ps)) by ring.
      eapply Rle_trans; [apply Rabs_triang|]. lra.
    + assert (Rabs q <= Rabs p + eta).
      { replace q with ((q - p) + p) by ring. eapply Rle_trans; [apply Rabs_triang|]. lra. }
      lra.
Qed.
Lemma Forall2_perm {X Y} (P : X -> Y -> Prop) l l' m : Permutation l l' -> Forall2 P l m -> exists m', Permutation m m' /\ Forall2 P l' m'.
Proof.
  intros H. revert m. induction H as [|x l l' H IH|x y l|l l' l'' H1 IH1 H2 IH2]; intros m F.
  - exists m. auto.
  - inversion F as [|? y ? m1 Hx Hm]; subst. destruct (IH m1 Hm) as (m' & P1 & P2). exists (y :: m'). auto.
  - inversion F as [|? a ? m1 Hx Hm]; subst. inversion Hm as [|? b ? m2 Hy Hm2]; subst. exists (b :: a :: m2). split; [apply perm_swap|auto].
  - destruct (IH1 m F) as (m1 & P1 & F1). destruct (IH2 m1 F1) as (m2 & P2 & F2). exists m2. split; [eapply perm_trans; eauto|auto].
Qed.
Lemma added_rounded ts s : added prec emax ts s -> forall qs, (Forall2 (fun t q => format t /\ Rabs (t - q) <= v * Rabs q) ts qs) -> acc v qs s.
Proof.
  induction 1 as [|x|l1 l2 s1 s2 H1 IH1 H2 IH2|l l' s P H IH]; intros qs F.
  - inversion F; subst. constructor.
  - inversion F as [|? q ? m [Fx Hx] Hm]; subst. inversion Hm; subst. apply acc_one; auto.
  - apply Forall2_app_inv_l in F. destruct F as (q1 & q2 & F1 & F2 & ->). apply acc_both; auto.
  - destruct (Forall2_perm _ _ _ _ (Permutation_sym P) F) as (m' & P1 & F1). apply (acc_perm v m' qs); [symmetry; exact P1|auto].
Qed.
Lemma dot_any_order ps s : added prec emax (map rn ps) s ->
  Rabs (s - exact_sum ps) <= dot_bound prec emax (length ps) (size_sum ps).
Proof.
  intros H. destruct (shifted ps) as (qs & HQ). destruct (shift_sums ps qs HQ) as (L & I1 & I2).
  assert (A : acc v qs s).
  { apply (added_rounded _ _ H). clear - Hp HQ. induction HQ as [|p q ps qs [H1 H2] HF IH]; cbn [map]; constructor; auto.
    split; [apply rn_format|exact H1]. }
  pose proof v_pos as VP. pose proof v_le as VL. pose proof u_pos as UP. pose proof eta_pos as EP. pose proof (pos_INR (length ps)) as NP.
  destruct (acc_bound v qs s ltac:(lra) A) as (_ & [[EQ ->]|E]).
  - subst qs. destruct ps; [|discriminate]. unfold dot_bound, size_sum. cbn. rewrite Rminus_0_r, Rabs_R0. lra.
  - rewrite L in E. set (n := INR (length ps)) in *.
    assert (E' : Rabs (s - exact_sum qs) <= n * u * (size_sum ps + n * eta)).
    { eapply Rle_trans; [exact E|]. apply Rle_trans with (n * u * size_sum qs).
      - apply Rmult_le_compat_r; [apply size_pos|]. lra.
      - apply Rmult_le_compat_l; [apply Rmult_le_pos; lra|exact I2]. }
    replace (s - exact_sum ps) with ((s - exact_sum qs) + (exact_sum qs - exact_sum ps)) by ring.
    eapply Rle_trans; [apply Rabs_triang|]. unfold dot_bound. fold n.
    replace (n * u * size_sum ps + n * (1 + n * u) * eta) with (n * u * (size_sum ps + n * eta) + n * eta) by ring. lra.
Qed.

(** ** Zeros do not count *)
Definition nz (x : R) : bool := if Req_EM_T x 0 then false else true.
Lemma filter_perm {X} (f : X -> bool) l l' : Permutation l l' -> Permutation (filter f l) (filter f l').
Proof.
  induction 1 as [|x l l' H IH|x y l|l l' l'' H1 IH1 H2 IH2]; cbn [filter].
  - constructor.
  - destruct (f x); auto.
  - destruct (f x), (f y); auto. apply perm_swap.
  - eapply perm_trans; eauto.
Qed.
Lemma acc_nz w l s : acc w l s -> acc w (filter nz l) s.
Proof.
  induction 1 as [|x y F E|l1 l2 s1 s2 H1 IH1 H2 IH2|l l' s P H IH].
  - constructor.
  - cbn [filter]. unfold nz. destruct (Req_EM_T x 0) as [->|N]; [|apply acc_one; auto].
    rewrite Rabs_R0, Rmult_0_r, Rminus_0_r in E. destruct (Req_dec y 0) as [->|Ny]; [constructor|]. pose proof (Rabs_pos_lt y Ny). lra.
  - rewrite filter_app. apply acc_both; auto.
  - apply (acc_perm w (filter nz l) _); auto. apply filter_perm, P.
Qed.
Lemma nz_sums l : exact_sum (filter nz l) = exact_sum l /\ size_sum (filter nz l) = size_sum l.
Proof.
  unfold size_sum, exact_sum. induction l as [|x l (I1 & I2)]; cbn [filter]; auto.
  destruct (nz x) eqn:E; cbn [map fold_right]; [split; lra|].
  unfold nz in E. destruct (Req_EM_T x 0) as [->|N]; [|discriminate]. rewrite Rabs_R0. split; lra.
Qed.
Lemma filter_len {X} (f : X -> bool) l : (length (filter f l) <= length l)%nat.
Proof. induction l as [|x l IH]; cbn [filter length]; [lia|]. destruct (f x); cbn [length]; lia. Qed.
Lemma nz_zeros l k : filter nz (l ++ repeat 0 k) = filter nz l.
Proof.
  rewrite filter_app. replace (filter nz (repeat 0 k)) with (@nil R); [apply app_nil_r|]. induction k as [|k IH]; cbn; auto.
  unfold nz at 1. destruct (Req_EM_T 0 0); [auto|congruence].
Qed.
Lemma sums_zeros l k : exact_sum (l ++ repeat 0 k) = exact_sum l /\ size_sum (l ++ repeat 0 k) = size_sum l.
Proof. destruct (nz_sums (l ++ repeat 0 k)) as (<- & <-). rewrite nz_zeros. apply nz_sums. Qed.

(** The bound for a sum with leaves of relative error [w], at most [n] of them nonzero. *)
Lemma acc_padded w l k s : 0 <= w <= v -> acc w (l ++ repeat 0 k) s ->
  Rabs (s - exact_sum l) <= (INR (length l - 1) * u + w) * size_sum l.
Proof.
  intros W H. apply acc_nz in H. rewrite nz_zeros in H. pose proof u_pos as UP. pose proof (size_pos l) as SP.
  destruct (acc_bound w _ s W H) as (_ & [[E ->]|E]); destruct (nz_sums l) as (N1 & N2).
  - rewrite <- N1, <- N2, E. unfold exact_sum, size_sum. cbn. rewrite Rminus_0_r, Rabs_R0. lra.
  - rewrite N1, N2 in E. destruct l as [|x l'].
    + cbn [filter] in *. unfold size_sum, exact_sum in *. cbn [map fold_right] in *. lra.
    + eapply Rle_trans; [exact E|]. apply Rmult_le_compat_r; [exact SP|]. apply Rplus_le_compat_r. apply Rmult_le_compat_r; [lra|].
      rewrite minus_INR by (cbn [length]; lia). change (INR 1) with 1. pose proof (le_INR _ _ (filter_len nz (x :: l'))). lra.
Qed.
Lemma sum_padded l k s : (forall x, In x l -> format x) -> added prec emax (l ++ repeat 0 k) s ->
  Rabs (s - exact_sum l) <= sum_bound prec (length l) (size_sum l).
Proof.
  intros F H. pose proof v_pos as VP. assert (A : acc 0 (l ++ repeat 0 k) s).
  { apply added_acc; auto. intros x Hx. apply in_app_or in Hx. destruct Hx as [Hx|Hx]; [auto|]. apply repeat_spec in Hx. subst. apply generic_format_0. }
  pose proof (acc_padded 0 l k s ltac:(lra) A) as E. rewrite Rplus_0_r in E. exact E.
Qed.
Lemma dot_padded ps k s : added prec emax (map rn (ps ++ repeat 0 k)) s ->
  Rabs (s - exact_sum ps) <= dot_bound prec emax (length ps) (size_sum ps).
Proof.
  intros H. destruct (shifted ps) as (qs & HQ). destruct (shift_sums ps qs HQ) as (L & I1 & I2).
  assert (A : acc v (qs ++ repeat 0 k) s).
  { apply (added_rounded _ _ H). rewrite map_app. apply Forall2_app.
    - clear - Hp HQ. induction HQ as [|p q ps qs [H1 H2] HF IH]; cbn [map]; constructor; auto. split; [apply rn_format|exact H1].
    - clear - Hp. induction k as [|k IH]; cbn [repeat map]; constructor; auto. rewrite rn_0, Rminus_0_r, Rabs_R0. split; [apply generic_format_0|lra]. }
  pose proof v_pos as VP. pose proof v_le as VL. pose proof u_pos as UP. pose proof eta_pos as EP. pose proof (pos_INR (length ps)) as NP.
  pose proof (acc_padded v qs k s ltac:(lra) A) as E. rewrite L in E. set (n := INR (length ps)) in *.
  assert (E' : Rabs (s - exact_sum qs) <= n * u * (size_sum ps + n * eta)).
  { destruct ps as [|p ps'].
    - destruct qs; [|discriminate]. unfold size_sum, exact_sum in *. cbn [map fold_right] in *. unfold n. cbn [length INR]. lra.
    - eapply Rle_trans; [exact E|]. apply Rle_trans with (n * u * size_sum qs).
      + apply Rmult_le_compat_r; [apply size_pos|]. rewrite minus_INR by (cbn [length]; lia). fold n. change (INR 1) with 1. lra.
      + apply Rmult_le_compat_l; [apply Rmult_le_pos; lra|exact I2]. }
  replace (s - exact_sum ps) with ((s - exact_sum qs) + (exact_sum qs - exact_sum ps)) by ring.
  eapply Rle_trans; [apply Rabs_triang|]. unfold dot_bound. fold n.
  replace (n * u * size_sum ps + n * (1 + n * u) * eta) with (n * u * (size_sum ps + n * eta) + n * eta) by ring. lra.
Qed.

Lemma total_list n f : total n f = exact_sum (map f (seq 0 n)).
Proof.
  unfold total. induction n as [|n IH]; [reflexivity|]. cbn [sum]. rewrite IH, seq_S, map_app, exact_app. unfold exact_sum. cbn. ring.
Qed.
Lemma total_size n f : total n (fun i => Rabs (f i)) = size_sum (map f (seq 0 n)).
Proof. rewrite total_list. unfold size_sum. rewrite map_map. reflexivity. Qed.

(** Integers up to 2^prec are numbers of the format. *)
Lemma fmt_int m : (prec < emax)%Z -> (Z.abs m <= 2 ^ prec)%Z -> format (IZR m).
Proof.
  intros He Hm'. unfold Prec_gt_0 in Hp.
  assert (P : IZR (2 ^ prec) = bpow radix2 prec) by (rewrite <- IZR_Zpower by lia; reflexivity).
  assert (B : format (bpow radix2 prec)) by (apply generic_format_bpow; unfold FLT_exp; lia).
  destruct (Z.eq_dec (Z.abs m) (2 ^ prec)) as [E|N].
  - destruct (Z.abs_eq_or_opp m) as [A|A]; rewrite A in E.
    + rewrite E, P. exact B.
    + replace m with (- 2 ^ prec)%Z by lia. rewrite opp_IZR, P. apply generic_format_opp. exact B.
  - apply generic_format_FLT. exists (Float radix2 m 0); cbn [Fnum Fexp].
    + unfold F2R. cbn [Fnum Fexp]. change (bpow radix2 0) with 1. ring.
    + change (radix_val radix2) with 2%Z. lia.
    + lia.
Qed.
Lemma integral_format x : (prec < emax)%Z -> integral x -> Rabs x <= bpow radix2 prec -> format x.
Proof.
  intros He (m & ->) H. apply fmt_int; auto. apply le_IZR. rewrite abs_IZR.
  replace (IZR (2 ^ prec)) with (bpow radix2 prec); auto. rewrite <- IZR_Zpower; [reflexivity|]. unfold Prec_gt_0 in Hp. lia.
Qed.
End Any.

(** * Floating-point numbers *)
Section Float.
Variables prec emax : Z.
Context (Hp : Prec_gt_0 prec) (Hm : Prec_lt_emax prec emax).
Local Notation num := (binary_float prec emax).
Local Notation rn := (nearest prec emax).
Local Notation fadd := (fadd prec emax Hp Hm).
Local Notation fmul := (fmul prec emax Hp Hm).
Local Notation fzero := (fzero prec emax).
Local Notation fone := (fone prec emax Hp Hm).

Lemma num_format (x : num) : generic_format radix2 (FLT_exp (3 - emax - prec) prec) (B2R x).
Proof. apply (generic_format_B2R prec emax x). Qed.
Lemma fadd_finite (x y : num) : is_finite (fadd x y) = true ->
  is_finite x = true /\ is_finite y = true /\ B2R (fadd x y) = rn (B2R x + B2R y).
Proof.
  intros H. unfold fadd in *. assert (F : is_finite x = true /\ is_finite y = true).
  { destruct x as [sx|sx| |sx mx ex Hx], y as [sy|sy| |sy my ey Hy]; cbn in H; auto; try discriminate H. destruct (Bool.eqb sx sy); discriminate H. }
  destruct F as (Fx & Fy). split; auto. split; auto. pose proof (Bplus_correct prec emax Hp Hm mode_NE x y Fx Fy) as C.
  destruct (Rlt_bool _ _).
  - apply C.
  - destruct C as (C & _). destruct (Bplus mode_NE x y); try discriminate H; discriminate C.
Qed.
Lemma fmul_finite (x y : num) : is_finite (fmul x y) = true ->
  is_finite x = true /\ is_finite y = true /\ B2R (fmul x y) = rn (B2R x * B2R y).
Proof.
  intros H. unfold fmul in *. assert (F : is_finite x = true /\ is_finite y = true).
  { destruct x as [sx|sx| |sx mx ex Hx], y as [sy|sy| |sy my ey Hy]; cbn in H; auto; discriminate H. }
  destruct F as (Fx & Fy). split; auto. split; auto. pose proof (Bmult_correct prec emax Hp Hm mode_NE x y) as C.
  destruct (Rlt_bool _ _).
  - apply C.
  - destruct (Bmult mode_NE x y); try discriminate H; discriminate C.
Qed.
Lemma fadd_small (x y : num) : is_finite x = true -> is_finite y = true -> Rabs (rn (B2R x + B2R y)) < bpow radix2 emax ->
  is_finite (fadd x y) = true /\ B2R (fadd x y) = rn (B2R x + B2R y).
Proof.
  intros Fx Fy L. pose proof (Bplus_correct prec emax Hp Hm mode_NE x y Fx Fy) as C. rewrite Rlt_bool_true in C by exact L.
  split; apply C.
Qed.
Lemma fmul_small (x y : num) : is_finite x = true -> is_finite y = true -> Rabs (rn (B2R x * B2R y)) < bpow radix2 emax ->
  is_finite (fmul x y) = true /\ B2R (fmul x y) = rn (B2R x * B2R y).
Proof.
  intros Fx Fy L. pose proof (Bmult_correct prec emax Hp Hm mode_NE x y) as C. rewrite Rlt_bool_true in C by exact L.
  destruct C as (C1 & C2 & _). rewrite Fx, Fy in C2. split; auto.
Qed.

(** ** Sums of numbers, in any order *)
Definition fadded (l : list num) (s : num) : Prop :=
  is_finite s = true -> Forall (fun x => is_finite x = true) l /\ added prec emax (map B2R l) (B2R s).
Lemma fadded_none : fadded [] fzero.
Proof. intros _. split; [constructor|]. apply added_none. Qed.
Lemma fadded_one x : fadded [x] x.
Proof. intros F. split; [auto|]. apply added_one. Qed.
Lemma fadded_both l1 l2 s1 s2 : fadded l1 s1 -> fadded l2 s2 -> fadded (l1 ++ l2) (fadd s1 s2).
Proof.
  intros H1 H2 F. destruct (fadd_finite s1 s2 F) as (F1 & F2 & E). destruct (H1 F1), (H2 F2). split; [apply Forall_app; auto|].
  rewrite map_app, E. apply added_both; auto.
Qed.
Lemma fadded_perm l l' s : Permutation l l' -> fadded l s -> fadded l' s.
Proof.
  intros P H F. destruct (H F) as (H1 & H2). split; [eapply Permutation_Forall; eauto|].
  eapply added_perm; [apply Permutation_map, P|exact H2].
Qed.
Lemma fadded_sum n f : fadded (map f (seq 0 n)) (sum fzero fadd n f).
Proof.
  induction n as [|n IH]; [apply fadded_none|]. cbn [sum]. rewrite seq_S, map_app. apply fadded_both; auto. apply fadded_one.
Qed.

Lemma fadded_products (ab : list (num * num)) s : fadded (map (fun p => fmul (fst p) (snd p)) ab) s -> is_finite s = true ->
  Forall (fun p => is_finite (fst p) = true /\ is_finite (snd p) = true) ab /\
  added prec emax (map rn (map (fun p => B2R (fst p) * B2R (snd p)) ab)) (B2R s).
Proof.
  intros H F. destruct (H F) as (H1 & H2).
  assert (H0 : Forall (fun p => is_finite (fmul (fst p) (snd p)) = true) ab).
  { apply Forall_forall. intros p Hp'. apply (proj1 (Forall_forall _ _) H1). apply (in_map (fun p => fmul (fst p) (snd p)) _ _ Hp'). }
  split.
  - eapply Forall_impl; [|exact H0]. intros p Hf. destruct (fmul_finite _ _ Hf) as (A & B & _). auto.
  - replace (map rn (map (fun p => B2R (fst p) * B2R (snd p)) ab)) with (map B2R (map (fun p => fmul (fst p) (snd p)) ab)); auto.
    rewrite !map_map. apply map_ext_in. intros p Hp'. apply (fmul_finite (fst p) (snd p)). apply (proj1 (Forall_forall _ _) H0 _ Hp').
Qed.

Lemma sum_error n f : is_finite (sum fzero fadd n f) = true ->
  Rabs (B2R (sum fzero fadd n f) - total n (fun i => B2R (f i))) <= sum_bound prec n (total n (fun i => Rabs (B2R (f i)))).
Proof.
  intros F. destruct (fadded_sum n f F) as (_ & A). rewrite map_map in A. rewrite total_list, total_size.
  replace n with (length (map (fun i => B2R (f i)) (seq 0 n))) at 3 by (rewrite map_length, seq_length; reflexivity).
  apply (sum_any_order prec emax Hp); auto. intros x Hx. apply in_map_iff in Hx. destruct Hx as (i & <- & _). apply num_format.
Qed.
Lemma dot_error n f g : is_finite (sum fzero fadd n (fun i => fmul (f i) (g i))) = true ->
  (forall i, (i < n)%nat -> is_finite (f i) = true /\ is_finite (g i) = true) /\
  Rabs (B2R (sum fzero fadd n (fun i => fmul (f i) (g i))) - total n (fun i => B2R (f i) * B2R (g i)))
    <= dot_bound prec emax n (total n (fun i => Rabs (B2R (f i) * B2R (g i)))).
Proof.
  intros F. destruct (fadded_products (map (fun i => (f i, g i)) (seq 0 n)) (sum fzero fadd n (fun i => fmul (f i) (g i)))) as (A & B); auto.
  { rewrite map_map. cbn [fst snd]. apply fadded_sum. }
  split.
  - intros i Hi. apply (proj1 (Forall_forall _ _) A (f i, g i)). apply (in_map (fun i => (f i, g i))). apply in_seq. lia.
  - rewrite !map_map in B. cbn [fst snd] in B.
    rewrite <- (map_map (fun i => B2R (f i) * B2R (g i)) rn) in B. rewrite total_list, total_size.
    replace n with (length (map (fun i => B2R (f i) * B2R (g i)) (seq 0 n))) at 3 by (rewrite map_length, seq_length; reflexivity).
    apply (dot_any_order prec emax Hp); auto.
Qed.

(** ** No overflow *)
Lemma total_nonneg n f : 0 <= total n (fun i => Rabs (f i)).
Proof. unfold total. induction n as [|n IH]; cbn [sum]; [lra|]. pose proof (Rabs_pos (f n)). lra. Qed.
Lemma total_mono k n f : (k <= n)%nat -> total k (fun i => Rabs (f i)) <= total n (fun i => Rabs (f i)).
Proof.
  induction 1 as [|n H IH]; [lra|]. unfold total in *. cbn [sum]. pose proof (Rabs_pos (f n)). lra.
Qed.
Lemma total_term k n f : (k < n)%nat -> Rabs (f k) <= total n (fun i => Rabs (f i)).
Proof.
  intros H. eapply Rle_trans; [|apply (total_mono (S k) n f H)]. unfold total. cbn [sum]. pose proof (total_nonneg k f). unfold total in *. lra.
Qed.
Lemma total_abs n f : Rabs (total n f) <= total n (fun i => Rabs (f i)).
Proof. rewrite total_list, total_size. apply exact_size. Qed.
Lemma bound_mono k n s t : (k <= n)%nat -> 0 <= s <= t -> dot_bound prec emax k s <= dot_bound prec emax n t.
Proof.
  intros H [S0 ST]. unfold dot_bound. pose proof (u_pos prec) as UP. pose proof (eta_pos prec emax) as EP.
  pose proof (pos_INR k) as K0. pose proof (le_INR _ _ H) as KN.
  apply Rplus_le_compat.
  - apply Rmult_le_compat; [apply Rmult_le_pos; lra|lra| |lra]. apply Rmult_le_compat_r; lra.
  - apply Rmult_le_compat_r; [lra|].
    assert (INR k * unit_roundoff prec <= INR n * unit_roundoff prec) by (apply Rmult_le_compat_r; lra).
    assert (0 <= INR k * unit_roundoff prec) by (apply Rmult_le_pos; lra).
    apply Rmult_le_compat; lra.
Qed.
Lemma near_abs s t b : Rabs (s - t) <= b -> Rabs s <= Rabs t + b.
Proof. intros H. replace s with ((s - t) + t) by ring. eapply Rle_trans; [apply Rabs_triang|]. lra. Qed.

Lemma dot_finite n f g : (forall i, (i < n)%nat -> is_finite (f i) = true /\ is_finite (g i) = true) ->
  let s := total n (fun i => Rabs (B2R (f i) * B2R (g i))) in
  s + dot_bound prec emax n s < bpow radix2 emax ->
  is_finite (sum fzero fadd n (fun i => fmul (f i) (g i))) = true.
Proof.
  intros HF s HS. set (p := fun i => B2R (f i) * B2R (g i)).
  assert (H : forall k, (k <= n)%nat -> is_finite (sum fzero fadd k (fun i => fmul (f i) (g i))) = true).
  { induction k as [|k IH]; intros Hk; [reflexivity|]. cbn [sum]. specialize (IH ltac:(lia)). destruct (HF k ltac:(lia)) as (Ff & Fg).
    assert (M : is_finite (fmul (f k) (g k)) = true /\ B2R (fmul (f k) (g k)) = rn (p k)).
    { apply fmul_small; auto. fold (p k). eapply Rle_lt_trans; [|exact HS].
      pose proof (dot_any_order prec emax Hp [p k] (rn (p k)) (added_one _ _ _)) as E. cbn [length] in E.
      unfold exact_sum, size_sum, exact_sum in E. cbn [map fold_right] in E. rewrite !Rplus_0_r in E.
      eapply Rle_trans; [apply (near_abs _ _ _ E)|]. pose proof (total_term k n p ltac:(lia)) as T. unfold p in T. fold s in T. fold (p k) in T.
      apply Rplus_le_compat; [exact T|]. apply bound_mono; [lia|]. split; [apply Rabs_pos|exact T]. }
    destruct M as (Fm & Em).
    apply fadd_small; auto. eapply Rle_lt_trans; [|exact HS].
    assert (A : added prec emax (map rn (map p (seq 0 (S k)))) (rn (B2R (sum fzero fadd k (fun i => fmul (f i) (g i))) + B2R (fmul (f k) (g k))))).
    { rewrite seq_S, !map_app. apply added_both.
      - destruct (fadded_products (map (fun i => (f i, g i)) (seq 0 k)) (sum fzero fadd k (fun i => fmul (f i) (g i)))) as (_ & B); auto.
        { rewrite map_map. cbn [fst snd]. apply fadded_sum. }
        rewrite (map_map (fun i => (f i, g i))) in B. exact B.
      - rewrite Em. apply added_one. }
    apply (dot_any_order prec emax Hp) in A. rewrite map_length, seq_length in A. rewrite <- total_list, <- total_size in A.
    eapply Rle_trans; [apply (near_abs _ _ _ A)|].
    pose proof (total_abs (S k) p) as T1. pose proof (total_mono (S k) n p Hk) as T2. change (total n (fun i => Rabs (p i))) with s in T2.
    apply Rplus_le_compat; [lra|]. apply bound_mono; [exact Hk|]. split; [apply total_nonneg|exact T2]. }
  apply H. lia.
Qed.

(** ** Integers *)
Lemma integral_total n f : (forall i, (i < n)%nat -> integral (f i)) -> integral (total n f).
Proof.
  intros H. unfold total. induction n as [|n IH]; cbn [sum]; [exists 0%Z; reflexivity|].
  destruct (IH (fun i Hi => H i ltac:(lia))) as (a & ->). destruct (H n ltac:(lia)) as (b & ->). exists (a + b)%Z. rewrite plus_IZR. reflexivity.
Qed.
Lemma dot_integers n f g : (forall i, (i < n)%nat -> is_finite (f i) = true /\ is_finite (g i) = true /\ integral (B2R (f i)) /\ integral (B2R (g i))) ->
  total n (fun i => Rabs (B2R (f i) * B2R (g i))) <= bpow radix2 prec ->
  is_finite (sum fzero fadd n (fun i => fmul (f i) (g i))) = true /\
  B2R (sum fzero fadd n (fun i => fmul (f i) (g i))) = total n (fun i => B2R (f i) * B2R (g i)).
Proof.
  intros HF HS. set (p := fun i => B2R (f i) * B2R (g i)).
  assert (HI : forall i, (i < n)%nat -> integral (p i)).
  { intros i Hi. destruct (HF i Hi) as (_ & _ & (a & A) & (b & B)). exists (a * b)%Z. unfold p. rewrite A, B, mult_IZR. reflexivity. }
  assert (BP : bpow radix2 prec < bpow radix2 emax) by (apply bpow_lt; exact Hm).
  assert (H : forall k, (k <= n)%nat -> is_finite (sum fzero fadd k (fun i => fmul (f i) (g i))) = true /\
    B2R (sum fzero fadd k (fun i => fmul (f i) (g i))) = total k p).
  { induction k as [|k IH]; intros Hk; [split; reflexivity|]. cbn [sum]. destruct (IH ltac:(lia)) as (F & E).
    destruct (HF k ltac:(lia)) as (Ff & Fg & _).
    assert (TK : Rabs (p k) <= bpow radix2 prec) by (eapply Rle_trans; [apply (total_term k n p); lia|exact HS]).
    assert (RP : rn (p k) = p k) by (apply rn_id, (integral_format prec emax Hp _ Hm); [apply HI; lia|exact TK]).
    destruct (fmul_small (f k) (g k) Ff Fg) as (Fm & Em); [fold (p k); rewrite RP; lra|]. fold (p k) in Em. rewrite RP in Em.
    assert (TS : Rabs (total (S k) p) <= bpow radix2 prec).
    { eapply Rle_trans; [apply total_abs|]. eapply Rle_trans; [apply (total_mono (S k) n p Hk)|exact HS]. }
    assert (RS : rn (total (S k) p) = total (S k) p).
    { apply rn_id, (integral_format prec emax Hp _ Hm); [apply integral_total; intros i Hi; apply HI; lia|exact TS]. }
    assert (ES : B2R (sum fzero fadd k (fun i => fmul (f i) (g i))) + B2R (fmul (f k) (g k)) = total (S k) p).
    { rewrite E, Em. reflexivity. }
    destruct (fadd_small _ _ F Fm) as (G1 & G2); [rewrite ES, RS; lra|]. split; auto. rewrite G2, ES. exact RS. }
  apply H. lia.
Qed.

(** ** One *)
Lemma fone_finite : is_finite fone = true.
Proof. apply is_finite_Bone. Qed.
Lemma fone_1 : B2R fone = 1.
Proof. apply Bone_correct. Qed.
Lemma fone_not_zero : fis_zero prec emax fone = false.
Proof. pose proof fone_1 as E. destruct fone; auto. cbn in E. lra. Qed.
Lemma fone_sign : Bsign fone = false.
Proof. apply Bsign_Bone. Qed.
Lemma fmul_1_l (x : num) : fmul fone x = x.
Proof.
  destruct x as [s|s| |s m e He] eqn:X.
  1-3: unfold fmul, Bmult; pose proof fone_1 as E; pose proof fone_finite as F; pose proof fone_sign as SG;
    destruct fone as [s1|s1| |s1 m1 e1 H1]; cbn in E, F; try discriminate F; try (exfalso; lra); auto; cbn in SG; rewrite SG; destruct s; reflexivity.
  rewrite <- X. assert (Fx : is_finite x = true) by (rewrite X; reflexivity).
  assert (RN : rn (B2R fone * B2R x) = B2R x) by (rewrite fone_1, Rmult_1_l; apply rn_id, num_format).
  pose proof (Bmult_correct prec emax Hp Hm mode_NE fone x) as C.
  rewrite Rlt_bool_true in C by (change (Rabs (rn (B2R fone * B2R x)) < bpow radix2 emax); rewrite RN; apply abs_B2R_lt_emax).
  destruct C as (C1 & C2 & C3). rewrite fone_finite, Fx in C2.
  apply B2R_Bsign_inj; auto.
  - transitivity (rn (B2R fone * B2R x)); [exact C1|exact RN].
  - unfold fmul. rewrite C3; [rewrite fone_sign; destruct (Bsign x); reflexivity|]. destruct (Bmult mode_NE fone x); try reflexivity; discriminate C2.
Qed.

Lemma fmul_0_1 : fmul fzero fone = fzero.
Proof.
  unfold fmul, Bmult. pose proof fone_1 as E. pose proof fone_finite as F. pose proof fone_sign as SG.
  destruct fone as [s1|s1| |s1 m1 e1 H1]; cbn in E, F; try discriminate F; try (exfalso; lra). cbn in SG. rewrite SG. reflexivity.
Qed.
Lemma fmul_0_0 : fmul fzero fzero = fzero.
Proof. reflexivity. Qed.
Lemma fadd_0_0 : fadd fzero fzero = fzero.
Proof. reflexivity. Qed.
Lemma fadd_0_l (x : num) : is_finite (fadd fzero x) = is_finite x /\ B2R (fadd fzero x) = B2R x.
Proof. destruct x as [[|]|[|]| |s m e He]; split; reflexivity. Qed.

Lemma sum_accurate n f g : accurate n f g (sum fzero fadd n (fun i => fmul (f i) (g i))).
Proof.
  split; [|split].
  - apply dot_error.
  - apply dot_finite.
  - intros H1 H2. apply dot_integers; auto.
Qed.
Lemma accurate_add_0 n f g (r : num) : accurate n f g r -> accurate n f g (fadd fzero r).
Proof.
  unfold accurate. destruct (fadd_0_l r) as (E1 & E2). rewrite E1, E2. auto.
Qed.

(** ** Vectors *)
Import VectorModel VectorSpec VectorProofs.
Lemma padded_map {X} (f : X -> R) l : Forall (fun x => f x = 0) l -> map f l = repeat 0 (length l).
Proof. induction 1 as [|x l E H IH]; cbn; auto. rewrite E, IH. auto. Qed.
Lemma zero_val (x : num) : fis_zero prec emax x = true -> B2R x = 0.
Proof. destruct x; intros H; try discriminate; reflexivity. Qed.
Lemma vector_sum_ok w (x : vec num) : (0 < w)%nat -> storage w x -> Forall (fun a => fis_zero prec emax a = true) (padding x) ->
  exists r, ssum w fzero fadd x = Ok r /\
    (is_finite r = true -> Forall (fun a => is_finite a = true) (elements x) /\
       Rabs (B2R r - exact_sum (map B2R (elements x))) <= sum_bound prec (dims x) (size_sum (map B2R (elements x)))).
Proof.
  intros Hw Hs HZ.
  destruct (lanes_sum w fzero fadd fadded Hw fadded_none fadded_one fadded_both fadded_perm (fun p => p) x) as (r & E & H); auto.
  exists r. split; [exact E|]. intros F. destruct (H F) as (H1 & H2). rewrite (cells_split x) in H1, H2. apply Forall_app in H1. split; [apply H1|].
  rewrite map_app, (padded_map B2R (padding x)) in H2 by (eapply Forall_impl; [|exact HZ]; apply zero_val).
  rewrite <- (elements_length w Hw x Hs), <- (map_length B2R). apply (sum_padded prec emax Hp _ (length (padding x))); auto.
  intros y Hy. apply in_map_iff in Hy. destruct Hy as (a & <- & _). apply num_format.
Qed.
Lemma vector_squares_ok w (x : vec num) : (0 < w)%nat -> storage w x -> Forall (fun a => fis_zero prec emax a = true) (padding x) ->
  exists r, ssum2 w fzero fadd fmul x = Ok r /\
    (is_finite r = true -> Forall (fun a => is_finite a = true) (elements x) /\
       Rabs (B2R r - exact_sum (map (fun a => B2R a * B2R a) (elements x)))
         <= dot_bound prec emax (dims x) (size_sum (map (fun a => B2R a * B2R a) (elements x)))).
Proof.
  intros Hw Hs HZ. set (g := fun p : list num => times2 fmul p p).
  assert (Eg : forall p, g p = map (fun a => fmul a a) p).
  { intros p. unfold g, times2. induction p as [|a p IH]; cbn; [auto|]. rewrite IH. auto. }
  destruct (lanes_sum w fzero fadd fadded Hw fadded_none fadded_one fadded_both fadded_perm g x) as (r & E & H); auto.
  { intros p. rewrite Eg, map_length. auto. }
  { intros p q. rewrite !Eg, map_app. auto. }
  exists r. split; [exact E|]. intros F. rewrite Eg in H.
  destruct (fadded_products (map (fun a => (a, a)) (cells x)) r) as (H1 & H2); auto.
  { rewrite map_map. exact H. }
  rewrite !map_map in H2. cbn [fst snd] in H2.
  split.
  { apply Forall_forall. intros a Ha. apply (proj1 (Forall_forall _ _) H1 (a, a)). apply (in_map (fun a => (a, a))).
    rewrite (cells_split x). apply in_or_app. auto. }
  rewrite (cells_split x), map_app, <- !(map_map (fun a => B2R a * B2R a) rn), <- map_app in H2.
  rewrite (padded_map (fun a => B2R a * B2R a) (padding x)) in H2.
  2:{ eapply Forall_impl; [|exact HZ]. intros a Ha. cbv beta. rewrite (zero_val a Ha). ring. }
  pose proof (dot_padded prec emax Hp _ (length (padding x)) _ H2) as Q. rewrite map_length, (elements_length w Hw x Hs) in Q. exact Q.
Qed.
Lemma vector_dot_ok w asserts junk N (x y : vec num) : (0 < w)%nat -> dims x = N -> dims y = N -> storage w x -> storage w y ->
  length junk = (packets w N * w)%nat -> Forall (eq fzero) (padding x) -> Forall (eq fzero) (padding y) ->
  exists r, VectorModel.dot w asserts fzero fadd fmul junk (V x) (V y) = Ok r /\
    (is_finite r = true ->
       let p := fun i => B2R (nth i (elements x) fzero) * B2R (nth i (elements y) fzero) in
       Forall (fun a => is_finite a = true) (elements x) /\ Forall (fun a => is_finite a = true) (elements y) /\
       Rabs (B2R r - AccSpec.total N p) <= dot_bound prec emax N (AccSpec.total N (fun i => Rabs (p i)))).
Proof.
  intros Hw Dx Dy Sx Sy Hj Zx Zy. set (e := Bin (fun a b => Ok (fmul a b)) (V x) (V y)).
  assert (HE : conforming w N e).
  { split; [split; split; auto|]. cbn. discriminate. }
  assert (HT : VectorSpec.total e).
  { split; [intros a b; exists (fmul a b); reflexivity|split; exact I]. }
  assert (HK : keeps_zero fzero e) by (split; [reflexivity|split; auto]).
  unfold VectorModel.dot, vsum. fold e. rewrite (eval_assign w asserts junk N e HE).
  assert (SJ : storage w (fresh N junk)) by exact Hj.
  destruct (assign_Ok_total w asserts Hw N (fresh N junk) e eq_refl SJ HE HT) as (z & EZ). rewrite EZ. cbn [bind].
  pose proof (assign_zero_padding w fzero Hw asserts N (fresh N junk) e z eq_refl SJ HE HK EZ) as HZ.
  destruct (assign_elements w asserts Hw N (fresh N junk) e z eq_refl SJ HE EZ) as (Dz & Sz & HV).
  pose proof (elements_length w Hw x Sx) as Lx. pose proof (elements_length w Hw y Sy) as Ly. pose proof (elements_length w Hw z Sz) as Lz.
  rewrite Dx in Lx. rewrite Dy in Ly. rewrite Dz in Lz.
  set (ab := map (fun i => (nth i (elements x) fzero, nth i (elements y) fzero)) (seq 0 N)).
  assert (EL : elements z = map (fun p => fmul (fst p) (snd p)) ab).
  { apply (nth_ext _ _ fzero fzero); [unfold ab; rewrite !map_length, seq_length; exact Lz|].
    intros i Hi. rewrite Lz in Hi. destruct (HV i Hi) as (NE & _). unfold e in NE. cbn [value] in NE.
    rewrite (nth_error_nth' (elements x) fzero), (nth_error_nth' (elements y) fzero) in NE by lia.
    rewrite (nth_error_nth _ _ fzero NE). symmetry. apply nth_error_nth. unfold ab. rewrite map_map. cbn [fst snd].
    apply (map_nth_error (fun i => fmul (nth i (elements x) fzero) (nth i (elements y) fzero))).
    rewrite (nth_error_nth' _ 0%nat) by (rewrite seq_length; exact Hi). rewrite seq_nth by exact Hi. reflexivity. }
  assert (EP : padding z = map (fun p => fmul (fst p) (snd p)) (repeat (fzero, fzero) (length (padding z)))).
  { clear - HZ. induction HZ as [|a l Ea H IH]; cbn [length repeat map]; auto. rewrite <- IH. cbn [fst snd]. rewrite <- Ea. reflexivity. }
  destruct (lanes_sum w fzero fadd fadded Hw fadded_none fadded_one fadded_both fadded_perm (fun p => p) z) as (r & E & H); auto.
  exists r. split; [exact E|]. intros F. set (p := fun i => B2R (nth i (elements x) fzero) * B2R (nth i (elements y) fzero)).
  change (fun i => Rabs (B2R (nth i (elements x) fzero) * B2R (nth i (elements y) fzero))) with (fun i => Rabs (p i)).
  rewrite (cells_split z), EL, EP, <- map_app in H.
  destruct (fadded_products _ _ H F) as (H1 & H2). rewrite map_app in H2.
  assert (EA : map (fun q => B2R (fst q) * B2R (snd q)) ab = map p (seq 0 N)) by (unfold ab; rewrite map_map; reflexivity).
  assert (ER : forall k, map (fun q : num * num => B2R (fst q) * B2R (snd q)) (repeat (fzero, fzero) k) = repeat 0 k).
  { induction k as [|k IH]; cbn [repeat map]; auto. rewrite IH. cbn [fst snd B2R]. f_equal. cbn. ring. }
  rewrite EA, ER in H2.
  assert (HF : forall i, (i < N)%nat -> is_finite (nth i (elements x) fzero) = true /\ is_finite (nth i (elements y) fzero) = true).
  { intros i Hi. apply (proj1 (Forall_forall _ _) H1 (nth i (elements x) fzero, nth i (elements y) fzero)). apply in_or_app. left.
    apply (in_map (fun i => (nth i (elements x) fzero, nth i (elements y) fzero))). apply in_seq. lia. }
  split; [|split].
  - apply Forall_forall. intros a Ha. apply In_nth with (d := fzero) in Ha. destruct Ha as (i & Hi & <-). apply HF. lia.
  - apply Forall_forall. intros a Ha. apply In_nth with (d := fzero) in Ha. destruct Ha as (i & Hi & <-). apply HF. lia.
  - rewrite total_list, total_size.
    pose proof (dot_padded prec emax Hp _ (length (padding z)) _ H2) as Q. rewrite map_length, seq_length in Q. exact Q.
Qed.
End Float.
