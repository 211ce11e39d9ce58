From Coq Require Import ZArith Reals Lra Field_theory RealField.
From Flocq Require Import Core BinarySingleNaN.
From Verif Require Import Base BaseProofs MatmulModel MatmulSpec BlasModel BlasSpec BlasProofs TriModel TriSpec TriProofs.
From Verif Require Import AccModel AccSpec AccProofs NumModel NumBasics SolModel SolSpec SolRecur.
From Coq Require Import Lia ZifyNat ZifyN ZifyBool.
Ltac Zify.zify_post_hook ::= idtac.
Local Open Scope R_scope.

Definition R_semi : semi_ring_theory 0 1 Rplus Rmult eq := field_semi 0 1 Rplus Rminus Rmult Rdiv Ropp Rinv Rfield.

Lemma rsum_total n f : rsum n f = total (Z.to_nat n) (fun k => f (Z.of_nat k)).
Proof. reflexivity. Qed.
Lemma rsum_ext n f g : (forall i, (0 <= i < n)%Z -> f i = g i) -> rsum n f = rsum n g.
Proof. apply zsum_ext. Qed.
Lemma rsum_nonneg n f : (forall i, (0 <= i < n)%Z -> 0 <= f i) -> 0 <= rsum n f.
Proof.
  intros H. destruct (Z_le_gt_dec n 0) as [N|N]; [unfold rsum; rewrite zsum_nonpos by lia; lra|].
  apply (zsum_ind (fun q => 0 <= rsum q f) n); [unfold rsum; rewrite zsum_nonpos by lia; lra| |lia].
  intros k Hk I. unfold rsum in *. rewrite zsum_S by lia. specialize (H k Hk). lra.
Qed.
Lemma rsum_le n f g : (forall i, (0 <= i < n)%Z -> f i <= g i) -> rsum n f <= rsum n g.
Proof.
  intros H. destruct (Z_le_gt_dec n 0) as [N|N]; [unfold rsum; rewrite !zsum_nonpos by lia; lra|].
  apply (zsum_ind (fun q => rsum q f <= rsum q g) n); [unfold rsum; rewrite !zsum_nonpos by lia; lra| |lia].
  intros k Hk I. unfold rsum in *. rewrite !zsum_S by lia. specialize (H k Hk). lra.
Qed.
Lemma rsum_plus n f g : rsum n (fun i => f i + g i) = rsum n f + rsum n g.
Proof.
  destruct (Z_le_gt_dec n 0) as [N|N]; [unfold rsum; rewrite !zsum_nonpos by lia; lra|].
  apply (zsum_ind (fun q => rsum q (fun i => f i + g i) = rsum q f + rsum q g) n); [unfold rsum; rewrite !zsum_nonpos by lia; lra| |lia].
  intros k Hk I. unfold rsum in *. rewrite !zsum_S by lia. lra.
Qed.
Lemma rsum_scale n c f : rsum n (fun i => c * f i) = c * rsum n f.
Proof.
  destruct (Z_le_gt_dec n 0) as [N|N]; [unfold rsum; rewrite !zsum_nonpos by lia; lra|].
  apply (zsum_ind (fun q => rsum q (fun i => c * f i) = c * rsum q f) n); [unfold rsum; rewrite !zsum_nonpos by lia; lra| |lia].
  intros k Hk I. unfold rsum in *. rewrite !zsum_S by lia. lra.
Qed.
Lemma rsum_abs n f : Rabs (rsum n f) <= rsum n (fun i => Rabs (f i)).
Proof.
  destruct (Z_le_gt_dec n 0) as [N|N]; [unfold rsum; rewrite !zsum_nonpos, Rabs_R0 by lia; lra|].
  apply (zsum_ind (fun q => Rabs (rsum q f) <= rsum q (fun i => Rabs (f i))) n); [unfold rsum; rewrite !zsum_nonpos, Rabs_R0 by lia; lra| |lia].
  intros k Hk I. unfold rsum in *. rewrite !zsum_S by lia. eapply Rle_trans; [apply Rabs_triang|]. lra.
Qed.
Lemma rsum_swap n k f : rsum n (fun i => rsum k (fun j => f i j)) = rsum k (fun j => rsum n (fun i => f i j)).
Proof.
  destruct (Z_le_gt_dec n 0) as [N|N].
  { unfold rsum at 1. rewrite zsum_nonpos by lia. rewrite (rsum_ext k _ (fun _ => 0 * 0)) by (intros; unfold rsum; rewrite zsum_nonpos by lia; ring).
    rewrite rsum_scale. ring. }
  apply (zsum_ind (fun q => rsum q (fun i => rsum k (fun j => f i j)) = rsum k (fun j => rsum q (fun i => f i j))) n); [| |lia].
  - unfold rsum at 1. rewrite zsum_nonpos by lia. rewrite (rsum_ext k _ (fun _ => 0 * 0)) by (intros; unfold rsum; rewrite zsum_nonpos by lia; ring).
    rewrite rsum_scale. ring.
  - intros l Hl I. unfold rsum at 1. rewrite zsum_S by lia. fold (rsum l (fun i => rsum k (fun j => f i j))). rewrite I, <- rsum_plus.
    apply rsum_ext. intros j Hj. unfold rsum. rewrite zsum_S by lia. reflexivity.
Qed.

Section Steps.
Variables prec emax : Z.
Context (Hp : Prec_gt_0 prec) (Hm : Prec_lt_emax prec emax).
Local Notation num := (binary_float prec emax).
Local Notation u := (unit_roundoff prec).
Local Notation v := (unit_roundoff prec / (1 + unit_roundoff prec)).
Local Notation eta := (underflow_unit prec emax).
Local Notation fsub := (fsub prec emax Hp Hm).
Local Notation fdiv := (fdiv prec emax Hp Hm).
Lemma sub_step (b r : num) : is_finite (fsub b r) = true ->
  is_finite b = true /\ is_finite r = true /\ Rabs (B2R b - B2R r - B2R (fsub b r)) <= u * Rabs (B2R (fsub b r)).
Proof.
  intros F. destruct (fsub_finite prec emax Hp Hm b r F) as (Fb & Fr & E & _). split; [exact Fb|]. split; [exact Fr|].
  assert (FM : generic_format radix2 (FLT_exp (3 - emax - prec) prec) (- B2R r)) by (apply generic_format_opp, num_format).
  pose proof (add_rel prec emax Hp (B2R b) (- B2R r) (num_format prec emax b) FM) as A.
  replace (B2R b + - B2R r) with (B2R b - B2R r) in A by ring. rewrite <- E in A.
  set (y := B2R (fsub b r)) in *. set (w := B2R b - B2R r) in *. pose proof (v_eq prec) as VE. pose proof (u_pos prec) as UP.
  pose proof (v_pos prec) as VP. pose proof (v_le prec) as VL.
  rewrite <- Rabs_Ropp. replace (- (w - y)) with (y - w) by ring.
  assert (T : Rabs w <= Rabs y + Rabs (y - w)).
  { replace w with (y - (y - w)) at 1 by ring. eapply Rle_trans; [apply Rabs_triang|]. rewrite Rabs_Ropp. lra. }
  assert (H : (1 + u) * Rabs (y - w) <= u * Rabs w).
  { apply (Rmult_le_compat_l (1 + u)) in A; [|lra]. replace ((1 + u) * (v * Rabs w)) with (u * Rabs w) in A by (rewrite <- VE at 1; ring). exact A. }
  assert (u * Rabs w <= u * (Rabs y + Rabs (y - w))) by (apply Rmult_le_compat_l; lra). lra.
Qed.
Lemma div_step (y e : num) : is_finite (fdiv y e) = true -> is_finite e = true ->
  is_finite y = true /\ B2R e <> 0 /\ Rabs (B2R y - B2R e * B2R (fdiv y e)) <= u * Rabs (B2R e * B2R (fdiv y e)) + Rabs (B2R e) * eta.
Proof.
  intros F Fe. destruct (fdiv_finite prec emax Hp Hm y e F Fe) as (Fy & N & E). split; [exact Fy|]. split; [exact N|].
  destruct (mul_err prec emax Hp (B2R y / B2R e)) as (e2 & t & H1 & H2 & Z & E2). rewrite <- E in E2.
  set (x := B2R (fdiv y e)) in *. set (d := B2R e) in *. set (w := B2R y) in *.
  pose proof (v_eq prec) as VE. pose proof (u_pos prec) as UP. pose proof (v_pos prec) as VP. pose proof (v_le prec) as VL.
  pose proof (eta_pos prec emax) as EP.
  assert (D : d * x = w * (1 + e2) + d * t) by (rewrite E2; field; exact N).
  destruct (Rmult_integral _ _ Z) as [-> | ->].
  - rewrite D. replace (w - (w * (1 + 0) + d * t)) with (- (d * t)) by ring. rewrite Rabs_Ropp, Rabs_mult.
    assert (0 <= u * Rabs (w * (1 + 0) + d * t)) by (apply Rmult_le_pos; [lra|apply Rabs_pos]).
    assert (Rabs d * Rabs t <= Rabs d * eta) by (apply Rmult_le_compat_l; [apply Rabs_pos|exact H2]). lra.
  - rewrite Rmult_0_r, Rplus_0_r in D. assert (A : Rabs (d * x - w) <= v * Rabs w).
    { rewrite D. replace (w * (1 + e2) - w) with (e2 * w) by ring. rewrite Rabs_mult. apply Rmult_le_compat_r; [apply Rabs_pos|exact H1]. }
    set (z := d * x) in *. rewrite <- Rabs_Ropp. replace (- (w - z)) with (z - w) by ring.
    assert (T : Rabs w <= Rabs z + Rabs (z - w)).
    { replace w with (z - (z - w)) at 1 by ring. eapply Rle_trans; [apply Rabs_triang|]. rewrite Rabs_Ropp. lra. }
    assert (H : (1 + u) * Rabs (z - w) <= u * Rabs w).
    { apply (Rmult_le_compat_l (1 + u)) in A; [|lra]. replace ((1 + u) * (v * Rabs w)) with (u * Rabs w) in A by (rewrite <- VE at 1; ring). exact A. }
    assert (0 <= Rabs d * eta) by (apply Rmult_le_pos; [apply Rabs_pos|lra]).
    assert (u * Rabs w <= u * (Rabs z + Rabs (z - w))) by (apply Rmult_le_compat_l; lra). lra.
Qed.

(** An element of the solution, from the rounded sum r of the other products. *)
Lemma final_step dg (b r e : num) : is_finite (final fsub fdiv dg b r e) = true -> (dg = NonUnit -> is_finite e = true) -> (dg = Unit -> B2R e = 1) ->
  is_finite b = true /\ is_finite r = true /\ B2R e <> 0 /\
  Rabs (B2R b - B2R r - B2R e * B2R (final fsub fdiv dg b r e)) <=
    (2 * u + u * u) * Rabs (B2R e * B2R (final fsub fdiv dg b r e)) + (1 + u) * Rabs (B2R e) * eta.
Proof.
  pose proof (u_pos prec) as UP. pose proof (eta_pos prec emax) as EP.
  destruct dg; cbn [final]; intros F Fe Oe.
  - destruct (sub_step b r F) as (Fb & Fr & E). rewrite (Oe eq_refl), Rmult_1_l. split; [exact Fb|]. split; [exact Fr|]. split; [lra|].
    rewrite Rabs_R1. pose proof (Rabs_pos (B2R (fsub b r))). nra.
  - destruct (div_step (fsub b r) e F (Fe eq_refl)) as (Fy & N & E). destruct (sub_step b r Fy) as (Fb & Fr & E'). split; [exact Fb|]. split; [exact Fr|]. split; [exact N|].
    set (y := B2R (fsub b r)) in *. set (z := B2R e * B2R (fdiv (fsub b r) e)) in *.
    assert (T : Rabs y <= Rabs z + Rabs (y - z)).
    { replace y with (z + (y - z)) at 1 by ring. apply Rabs_triang. }
    replace (B2R b - B2R r - z) with ((B2R b - B2R r - y) + (y - z)) by ring. eapply Rle_trans; [apply Rabs_triang|].
    pose proof (Rabs_pos z). pose proof (Rabs_pos (B2R e)).
    assert (u * Rabs y <= u * ((1 + u) * Rabs z + Rabs (B2R e) * eta)) by (apply Rmult_le_compat_l; lra). nra.
Qed.
End Steps.

(** ** Rows of a triangle *)
Definition triangular (low : bool) (n : Z) (T : Z -> Z -> R) : Prop :=
  forall i j, (0 <= i < n)%Z -> (0 <= j < n)%Z -> (if low then (i < j)%Z else (j < i)%Z) -> T i j = 0.
(** The number of the other entries, and the k-th of them. *)
Definition others_count (low : bool) (n i : Z) : Z := if low then i else (n - i - 1)%Z.
Definition others_at (low : bool) (i k : Z) : Z := if low then k else (i + 1 + k)%Z.
Lemma row_split (low : bool) n i (f : Z -> R) : (0 <= i < n)%Z -> (forall j, (0 <= j < n)%Z -> (if low then (i < j)%Z else (j < i)%Z) -> f j = 0) ->
  rsum n f = rsum (others_count low n i) (fun k => f (others_at low i k)) + f i.
Proof.
  intros Hi Hz. unfold others_count, others_at, rsum. destruct low.
  - rewrite (zsum_trunc 0 1 Rplus Rmult R_semi (i + 1)%Z n) by first [lia|intros j Hj1 Hj2; apply Hz; lia]. rewrite zsum_S by lia. reflexivity.
  - rewrite (zsum_skip 0 1 Rplus Rmult R_semi i n) by first [lia|intros j Hj; apply Hz; lia].
    rewrite (zsum_first 0 1 Rplus Rmult R_semi) by lia. rewrite Z.add_0_r, Rplus_comm. f_equal. apply zsum_ext. intros k Hk. f_equal. lia.
Qed.
Lemma others_sum {A} (zero : A) add mul low n i R w :
  others zero add mul low n i R w = sum zero add (Z.to_nat (others_count low n i))
    (fun k => mul (R i (others_at low i (Z.of_nat k))) (w (others_at low i (Z.of_nat k)))).
Proof. unfold others, others_count, others_at, zsum. now destruct low. Qed.

Section Solve.
Variables prec emax : Z.
Context (Hp : Prec_gt_0 prec) (Hm : Prec_lt_emax prec emax).
Local Notation num := (binary_float prec emax).
Local Notation u := (unit_roundoff prec).
Local Notation eta := (underflow_unit prec emax).
Local Notation fsub := (fsub prec emax Hp Hm).
Local Notation fdiv := (fdiv prec emax Hp Hm).
Local Notation fzero := (fzero prec emax).
Local Notation fone := (fone prec emax Hp Hm).
Local Notation fadd := (fadd prec emax Hp Hm).
Local Notation fmul := (fmul prec emax Hp Hm).
Local Notation fconj := (fconj prec emax).
Local Notation tri := (triangle fzero fzero fone).

Lemma dot_bound_mono k n s : (k <= n)%nat -> 0 <= s -> dot_bound prec emax k s <= INR k * u * s + INR n * (1 + INR n * u) * eta.
Proof.
  intros K S. unfold dot_bound. pose proof (u_pos prec) as UP. pose proof (eta_pos prec emax) as EP.
  apply Rplus_le_compat_l, Rmult_le_compat_r; [lra|]. apply le_INR in K. pose proof (pos_INR k). 
  apply Rmult_le_compat; try nra.
Qed.
Lemma solve_rows low n dg (T : Z -> Z -> num) (x b : Z -> num) :
  triangular low n (fun i j => B2R (T i j)) ->
  (forall i j, (0 <= i < n)%Z -> (0 <= j < n)%Z -> is_finite (T i j) = true) ->
  (forall i, (0 <= i < n)%Z -> dg = Unit -> B2R (T i i) = 1) ->
  (forall i, (0 <= i < n)%Z -> x i = final fsub fdiv dg (b i) (others fzero fadd fmul low n i T x) (T i i)) ->
  forall i, (0 <= i < n)%Z -> is_finite (x i) = true ->
    is_finite (b i) = true /\ B2R (T i i) <> 0 /\
    Rabs (row n (fun i j => B2R (T i j)) (fun j => B2R (x j)) i - B2R (b i)) <= solve_bound prec emax n (fun i j => B2R (T i j)) (fun j => B2R (x j)) i.
Proof using Hp Hm.
  intros HT HF HU HX i Hi Fx. pose proof (u_pos prec) as UP. pose proof (eta_pos prec emax) as EP.
  pose proof (HX i Hi) as E. set (r := others fzero fadd fmul low n i T x) in *.
  assert (F : is_finite (final fsub fdiv dg (b i) r (T i i)) = true) by (rewrite <- E; exact Fx).
  destruct (final_step prec emax Hp Hm dg (b i) r (T i i) F) as (Fb & Fr & N & B); [intros; now apply HF|now apply HU|].
  rewrite <- E in B. split; [exact Fb|]. split; [exact N|].
  unfold r in Fr. rewrite others_sum in Fr. destruct (dot_error prec emax Hp Hm _ _ _ Fr) as (_ & D). rewrite <- others_sum in D. fold r in D.
  set (k := others_count low n i) in *.
  assert (Hk : (0 <= k <= n - 1)%Z) by (unfold k, others_count; destruct low; lia).
  assert (Hat : forall q, (0 <= q < k)%Z -> (0 <= others_at low i q < n)%Z) by (unfold k, others_count, others_at; intros q Hq; destruct low; lia).
  unfold row, solve_bound, row_size.
  rewrite (row_split low n i) by first [exact Hi|intros j Hj L; rewrite (HT i j Hi Hj L); ring].
  rewrite (row_split low n i (fun j => Rabs _)) by first [exact Hi|intros j Hj L; rewrite (HT i j Hi Hj L), Rmult_0_l; apply Rabs_R0].
  fold k. rewrite !rsum_total.
  set (s := total (Z.to_nat k) (fun q => B2R (T i (others_at low i (Z.of_nat q))) * B2R (x (others_at low i (Z.of_nat q))))) in *.
  set (S := total (Z.to_nat k) (fun q => Rabs (B2R (T i (others_at low i (Z.of_nat q))) * B2R (x (others_at low i (Z.of_nat q)))))) in *.
  set (z := B2R (T i i) * B2R (x i)) in *.
  assert (S0 : 0 <= S) by apply total_nonneg.
  pose proof (dot_bound_mono (Z.to_nat k) (Z.to_nat n) S ltac:(lia) S0) as M. rewrite !INR_IZR_INZ, !Z2Nat.id in M by lia.
  replace (s + z - B2R (b i)) with (- ((B2R (b i) - B2R r - z) + (B2R r - s))) by ring. rewrite Rabs_Ropp.
  eapply Rle_trans; [apply Rabs_triang|]. unfold solve_unit, solve_slack.
  assert (K1 : IZR k * u * S <= IZR (Z.max (n - 1) 2) * u * S).
  { apply Rmult_le_compat_r; [exact S0|]. apply Rmult_le_compat_r; [lra|]. apply IZR_le. lia. }
  assert (K2 : 2 * u * Rabs z <= IZR (Z.max (n - 1) 2) * u * Rabs z).
  { apply Rmult_le_compat_r; [apply Rabs_pos|]. apply Rmult_le_compat_r; [lra|]. apply IZR_le. lia. }
  assert (0 <= u * u * S) by (apply Rmult_le_pos; [nra|exact S0]). lra.
Qed.

Lemma op_fconj t M i j : op fconj t M i j = op (fun w : num => w) t M i j.
Proof. destruct t; reflexivity. Qed.
Lemma fone_one : is_finite fone = true /\ B2R fone = 1.
Proof. split; [apply is_finite_Bone|apply Bone_correct]. Qed.
Lemma tri_finite o up dg n a lda (m : list num) : finite_triangle o up dg n a lda m ->
  forall i j, (0 <= i < n)%Z -> (0 <= j < n)%Z -> is_finite (tri o up dg a lda m i j) = true.
Proof. intros H i j Hi Hj. unfold triangle. destruct (kept up dg i j) eqn:K; [now apply H|]. destruct (i =? j)%Z; [apply fone_one|reflexivity]. Qed.
Lemma op_tri_finite o up t dg n a lda (m : list num) : finite_triangle o up dg n a lda m ->
  forall i j, (0 <= i < n)%Z -> (0 <= j < n)%Z -> is_finite (op (fun w => w) t (tri o up dg a lda m) i j) = true.
Proof. intros H i j Hi Hj. destruct t; cbn [op]; eapply tri_finite; eauto. Qed.
Lemma op_tri_triangular o up t dg n a lda (m : list num) :
  triangular (op_lower up t) n (fun i j => B2R (op (fun w => w) t (tri o up dg a lda m) i j)).
Proof.
  intros i j Hi Hj L. assert (G : forall i j, i <> j -> kept up dg i j = false -> tri o up dg a lda m i j = fzero).
  { intros i' j' N K. unfold triangle. rewrite K. now replace (i' =? j')%Z with false by lia. }
  destruct t, up; cbn [op op_lower is_trans negb] in *; rewrite G; try reflexivity; try lia; unfold kept; lia.
Qed.
Lemma op_tri_unit o up t a lda (m : list num) i : op (fun w => w) t (tri o up Unit a lda m) i i = fone.
Proof.
  assert (K : kept up Unit i i = false) by (unfold kept; destruct up; lia).
  destruct t; cbn [op]; unfold triangle; rewrite K, Z.eqb_refl; reflexivity.
Qed.

Lemma trsv_float o up t dg n a lda x inc (m : list num) :
  inc <> 0%Z -> inside m x inc n -> kept_apart m o up dg n a lda (in_vector x inc n) -> finite_triangle o up dg n a lda m ->
  exists m', ftrsv prec emax Hp Hm o up t dg n a lda x inc m = Ok m' /\ changes fzero m m' (in_vector x inc n) /\
    forall i, (0 <= i < n)%Z -> is_finite (val fzero m' (elt x inc n i)) = true ->
      let T := real_triangle fone o up t dg a lda m in let y := real_vector x inc n m' in
      is_finite (val fzero m (elt x inc n i)) = true /\ T i i <> 0 /\
      Rabs (row n T y i - real_vector x inc n m i) <= solve_bound prec emax n T y i.
Proof using Hp Hm.
  intros Hinc Hin HA HF. unfold ftrsv.
  destruct (trsv_recur fzero fzero fone fadd fsub fmul fdiv fconj o up t dg n a lda x inc m Hinc Hin HA) as (m' & E & C & V).
  exists m'. split; [exact E|]. split; [exact C|]. intros i Hi Fx. cbv zeta.
  apply (solve_rows (op_lower up t) n dg (op (fun w => w) t (tri o up dg a lda m)) (fun j => val fzero m' (elt x inc n j)) (fun j => val fzero m (elt x inc n j))).
  - apply op_tri_triangular.
  - now apply op_tri_finite.
  - intros j Hj ->. rewrite op_tri_unit. apply fone_one.
  - intros j Hj. rewrite (V j Hj). cbv zeta. rewrite op_fconj. reflexivity.
  - exact Hi.
  - exact Fx.
Qed.

(** ** Integers *)
Lemma integral_sub x y : integral x -> integral y -> integral (x - y).
Proof. intros (p & ->) (q & ->). exists (p - q)%Z. now rewrite minus_IZR. Qed.
Lemma exact_rows low n dg (T : Z -> Z -> num) (x b : Z -> num) (z : Z -> R) :
  (forall i j, (0 <= i < n)%Z -> (0 <= j < n)%Z -> is_finite (T i j) = true /\ integral (B2R (T i j))) ->
  (forall i, (0 <= i < n)%Z -> B2R (T i i) <> 0 /\ (dg = Unit -> B2R (T i i) = 1)) ->
  (forall i, (0 <= i < n)%Z -> integral (z i) /\ is_finite (b i) = true /\
     B2R (b i) = rsum (others_count low n i) (fun k => B2R (T i (others_at low i k)) * z (others_at low i k)) + B2R (T i i) * z i /\
     rsum (others_count low n i) (fun k => Rabs (B2R (T i (others_at low i k)) * z (others_at low i k))) + Rabs (B2R (T i i) * z i) <= bpow radix2 prec) ->
  (forall i, (0 <= i < n)%Z -> x i = final fsub fdiv dg (b i) (others fzero fadd fmul low n i T x) (T i i)) ->
  forall i, (0 <= i < n)%Z -> is_finite (x i) = true /\ B2R (x i) = z i.
Proof using Hp Hm.
  intros HT HD HZ HX.
  assert (PE : (prec < emax)%Z) by exact Hm.
  assert (ST : forall i, (0 <= i < n)%Z -> (forall k, (0 <= k < others_count low n i)%Z -> is_finite (x (others_at low i k)) = true /\ B2R (x (others_at low i k)) = z (others_at low i k)) ->
     is_finite (x i) = true /\ B2R (x i) = z i).
  { intros i Hi IH. destruct (HZ i Hi) as (Iz & Fb & Eb & Sb). destruct (HD i Hi) as (N & U1).
    set (k := others_count low n i) in *.
    assert (Hat : forall q, (0 <= q < k)%Z -> (0 <= others_at low i q < n)%Z) by (unfold k, others_count, others_at; intros q Hq; destruct low; lia).
    rewrite (HX i Hi). rewrite others_sum. fold k. set (r := sum _ _ _ _).
    assert (R : is_finite r = true /\ B2R r = rsum k (fun q => B2R (T i (others_at low i q)) * z (others_at low i q))).
    { assert (A0 : rsum k (fun q => Rabs (B2R (T i (others_at low i q)) * z (others_at low i q))) <= bpow radix2 prec) by (pose proof (Rabs_pos (B2R (T i i) * z i)); lra).
      destruct (dot_integers prec emax Hp Hm (Z.to_nat k) (fun q => T i (others_at low i (Z.of_nat q))) (fun q => x (others_at low i (Z.of_nat q)))) as (R1 & R2).
      - intros q Hq. assert (Hq' : (0 <= Z.of_nat q < k)%Z) by lia. destruct (IH _ Hq') as (F1 & E1). destruct (HT i _ Hi (Hat _ Hq')) as (F2 & I2).
        split; [exact F2|]. split; [exact F1|]. split; [exact I2|]. rewrite E1. apply HZ. now apply Hat.
      - rewrite <- rsum_total with (f := fun q => Rabs (B2R (T i (others_at low i q)) * B2R (x (others_at low i q)))).
        rewrite (rsum_ext k _ (fun q => Rabs (B2R (T i (others_at low i q)) * z (others_at low i q)))) by (intros q Hq; now destruct (IH q Hq) as (_ & ->)). exact A0.
      - split; [exact R1|]. unfold r. rewrite R2. rewrite <- rsum_total with (f := fun q => B2R (T i (others_at low i q)) * B2R (x (others_at low i q))).
        apply rsum_ext. intros q Hq. now destruct (IH q Hq) as (_ & ->). }
    destruct R as (Fr & Er).
    assert (P0 : 0 <= rsum k (fun q => Rabs (B2R (T i (others_at low i q)) * z (others_at low i q)))) by (apply rsum_nonneg; intros; apply Rabs_pos).
    assert (Iw : integral (B2R (T i i) * z i)).
    { destruct (HT i i Hi Hi) as (_ & (p & ->)). destruct Iz as (q & ->). exists (p * q)%Z. now rewrite mult_IZR. }
    assert (Bw : Rabs (B2R (T i i) * z i) <= bpow radix2 prec) by lra.
    assert (LT : bpow radix2 prec < bpow radix2 emax) by (apply bpow_lt; exact Hm).
    assert (W : is_finite (fsub (b i) r) = true /\ B2R (fsub (b i) r) = B2R (T i i) * z i).
    { assert (EW : B2R (b i) - B2R r = B2R (T i i) * z i) by (rewrite Eb, Er; ring).
      assert (RW : nearest prec emax (B2R (b i) - B2R r) = B2R (T i i) * z i) by (rewrite EW; apply rn_id; now apply integral_format).
      rewrite <- RW. apply fsub_small; auto. rewrite RW. lra. }
    destruct W as (Fw & Ew). destruct dg; cbn [final].
    - split; [exact Fw|]. rewrite Ew, (U1 eq_refl). ring.
    - assert (Bz : Rabs (z i) <= bpow radix2 prec).
      { eapply Rle_trans; [|exact Bw]. rewrite Rabs_mult. destruct (HT i i Hi Hi) as (_ & (p & Ep)). rewrite Ep in N |- *.
        assert (1 <= Rabs (IZR p)) by (rewrite <- abs_IZR; apply IZR_le; assert (p <> 0%Z) by (intros ->; now apply N); lia).
        pose proof (Rabs_pos (z i)). nra. }
      assert (EQ : B2R (fsub (b i) r) / B2R (T i i) = z i) by (rewrite Ew; field; exact N).
      assert (RZ : nearest prec emax (B2R (fsub (b i) r) / B2R (T i i)) = z i) by (rewrite EQ; apply rn_id; now apply integral_format).
      destruct (fdiv_small prec emax Hp Hm (fsub (b i) r) (T i i) Fw N) as (F1 & E1); [rewrite RZ; lra|]. split; [exact F1|]. now rewrite E1. }
  assert (IND : forall q, (0 <= q)%Z -> forall i, (0 <= i < n)%Z -> (others_count low n i < q)%Z -> is_finite (x i) = true /\ B2R (x i) = z i).
  { apply (natlike_ind (fun q => forall i, (0 <= i < n)%Z -> (others_count low n i < q)%Z -> is_finite (x i) = true /\ B2R (x i) = z i)).
    - intros i Hi L. unfold others_count in L. destruct low; lia.
    - intros q Hq IH i Hi L. apply ST; [exact Hi|]. intros k Hk. apply IH; unfold others_count, others_at in *; destruct low; lia. }
  intros i Hi. apply (IND (n + 1)%Z); [lia|exact Hi|]. unfold others_count. destruct low; lia.
Qed.
Lemma trsv_integers o up t dg n a lda x inc (m : list num) (z : Z -> R) :
  inc <> 0%Z -> inside m x inc n -> kept_apart m o up dg n a lda (in_vector x inc n) -> finite_triangle o up dg n a lda m -> finite_vector x inc n m ->
  let T := real_triangle fone o up t dg a lda m in
  (forall i j, (0 <= i < n)%Z -> (0 <= j < n)%Z -> integral (T i j)) ->
  (forall i, (0 <= i < n)%Z -> T i i <> 0 /\ integral (z i) /\ row n T z i = real_vector x inc n m i /\ row_size n T z i <= bpow radix2 prec) ->
  exists m', ftrsv prec emax Hp Hm o up t dg n a lda x inc m = Ok m' /\ changes fzero m m' (in_vector x inc n) /\
    finite_vector x inc n m' /\ forall i, (0 <= i < n)%Z -> real_vector x inc n m' i = z i.
Proof using Hp Hm.
  intros Hinc Hin HA HF HB T HI HZ. unfold ftrsv.
  destruct (trsv_recur fzero fzero fone fadd fsub fmul fdiv fconj o up t dg n a lda x inc m Hinc Hin HA) as (m' & E & C & V).
  exists m'. split; [exact E|]. split; [exact C|].
  assert (G : forall i, (0 <= i < n)%Z -> is_finite (val fzero m' (elt x inc n i)) = true /\ B2R (val fzero m' (elt x inc n i)) = z i).
  { apply (exact_rows (op_lower up t) n dg (op (fun w => w) t (tri o up dg a lda m)) (fun j => val fzero m' (elt x inc n j)) (fun j => val fzero m (elt x inc n j)) z).
    - intros i j Hi Hj. split; [now apply (op_tri_finite o up t dg n a lda m)|now apply HI].
    - intros i Hi. split; [now apply HZ|]. intros ->. rewrite op_tri_unit. apply fone_one.
    - intros i Hi. destruct (HZ i Hi) as (N & I & R1 & R2). split; [exact I|]. split; [now apply HB|].
      pose proof (op_tri_triangular o up t dg n a lda m) as TR. split.
      + change (B2R (val fzero m (elt x inc n i))) with (real_vector x inc n m i). rewrite <- R1. unfold row.
        rewrite (row_split (op_lower up t) n i (fun j => T i j * z j)); [reflexivity|exact Hi|].
        intros j Hj L. replace (T i j) with 0 by (symmetry; exact (TR i j Hi Hj L)). ring.
      + unfold row_size in R2. rewrite (row_split (op_lower up t) n i (fun j => Rabs (T i j * z j))) in R2; [exact R2|exact Hi|].
        intros j Hj L. replace (T i j) with 0 by (symmetry; exact (TR i j Hi Hj L)). rewrite Rmult_0_l. apply Rabs_R0.
    - intros j Hj. rewrite (V j Hj). cbv zeta. rewrite op_fconj. reflexivity. }
  split; intros i Hi; now apply G.
Qed.

(** ** Products *)
Local Notation rn := (nearest prec emax).
Lemma dot_bound_le k n s : (k <= n)%nat -> 0 <= s -> dot_bound prec emax k s <= dot_bound prec emax n s.
Proof.
  intros K S. eapply Rle_trans; [now apply (dot_bound_mono k n)|]. unfold dot_bound. apply Rplus_le_compat_r, Rmult_le_compat_r; [exact S|].
  apply Rmult_le_compat_r; [left; apply u_pos|now apply le_INR].
Qed.
(** Adding one element to a sum of products: as accurate as a sum of one product more. *)
Lemma add_to_dot k (f g : nat -> num) (w : num) : let r := sum fzero fadd k (fun i => fmul (f i) (g i)) in is_finite (fadd w r) = true ->
  is_finite w = true /\
  Rabs (B2R (fadd w r) - (B2R w + total k (fun i => B2R (f i) * B2R (g i)))) <= dot_bound prec emax (S k) (Rabs (B2R w) + total k (fun i => Rabs (B2R (f i) * B2R (g i)))).
Proof using Type.
  intros r F. destruct (fadd_finite prec emax Hp Hm w r F) as (Fw & Fr & E). split; [exact Fw|].
  destruct (fadded_products prec emax Hp Hm (map (fun i => (f i, g i)) (seq 0 k)) r) as (A & B); auto.
  { rewrite map_map. cbn [fst snd]. apply fadded_sum. }
  rewrite (map_map (fun i => (f i, g i))) in B. cbn [fst snd] in B.
  pose proof (added_both prec emax [B2R w] _ (B2R w) (B2R r) (added_one prec emax (B2R w)) B) as AB. rewrite <- E in AB.
  assert (RW : rn (B2R w) = B2R w) by (apply rn_id, num_format).
  assert (LE : [B2R w] = [rn (B2R w)]) by now rewrite RW. rewrite LE in AB.
  change ([rn (B2R w)] ++ map rn (map (fun i => B2R (f i) * B2R (g i)) (seq 0 k))) with (map rn (B2R w :: map (fun i => B2R (f i) * B2R (g i)) (seq 0 k))) in AB.
  apply (dot_any_order prec emax Hp) in AB. cbn [length] in AB. rewrite map_length, seq_length in AB.
  rewrite total_size, total_list. exact AB.
Qed.
Lemma product_rows low n dg (T : Z -> Z -> num) (x : Z -> num) :
  triangular low n (fun i j => B2R (T i j)) -> (forall i, (0 <= i < n)%Z -> dg = Unit -> B2R (T i i) = 1) ->
  forall i, (0 <= i < n)%Z -> is_finite (product fzero fadd fmul dg low n i T x) = true ->
    Rabs (B2R (product fzero fadd fmul dg low n i T x) - row n (fun i j => B2R (T i j)) (fun j => B2R (x j)) i) <=
    dot_bound prec emax (Z.to_nat n) (row_size n (fun i j => B2R (T i j)) (fun j => B2R (x j)) i).
Proof using Hp Hm.
  intros HT HU i Hi. unfold row, row_size.
  assert (G : 0 <= rsum n (fun j => Rabs (B2R (T i j) * B2R (x j)))) by (apply rsum_nonneg; intros; apply Rabs_pos).
  destruct dg.
  - set (k := others_count low n i). assert (Hk : (0 <= k <= n - 1)%Z) by (unfold k, others_count; destruct low; lia).
    cbn [product]. change (if low then i else (n - i - 1)%Z) with k. rewrite others_sum. fold k.
    assert (S1 : rsum n (fun j => B2R (T i j) * B2R (x j)) =
      rsum k (fun q => B2R (T i (others_at low i q)) * B2R (x (others_at low i q))) + B2R (x i)).
    { rewrite (row_split low n i) by first [exact Hi|intros j Hj L; rewrite (HT i j Hi Hj L); ring].
      rewrite (HU i Hi eq_refl), Rmult_1_l. reflexivity. }
    assert (S2 : rsum n (fun j => Rabs (B2R (T i j) * B2R (x j))) =
      rsum k (fun q => Rabs (B2R (T i (others_at low i q)) * B2R (x (others_at low i q)))) + Rabs (B2R (x i))).
    { rewrite (row_split low n i) by first [exact Hi|intros j Hj L; rewrite (HT i j Hi Hj L), Rmult_0_l; apply Rabs_R0].
      rewrite (HU i Hi eq_refl), Rmult_1_l. reflexivity. }
    destruct (k =? 0)%Z eqn:K.
    + intros F. rewrite S1. replace k with 0%Z by lia. unfold rsum at 1. rewrite zsum_nonpos by lia. rewrite Rplus_0_l, Rminus_diag_eq, Rabs_R0 by reflexivity.
      unfold dot_bound. pose proof (u_pos prec) as UP. pose proof (eta_pos prec emax) as EP. pose proof (pos_INR (Z.to_nat n)).
      apply Rplus_le_le_0_compat; repeat (apply Rmult_le_pos; try lra; try nra).
    + intros F. destruct (add_to_dot (Z.to_nat k) _ _ (x i) F) as (_ & B). rewrite S1, S2, !rsum_total.
      rewrite (Rplus_comm _ (B2R (x i))), (Rplus_comm _ (Rabs (B2R (x i)))). eapply Rle_trans; [exact B|]. apply dot_bound_le; [lia|].
      pose proof (total_nonneg (Z.to_nat k) (fun q => B2R (T i (others_at low i (Z.of_nat q))) * B2R (x (others_at low i (Z.of_nat q))))).
      pose proof (Rabs_pos (B2R (x i))). lra.
  - cbn [product]. intros F.
    assert (B : exists k at_, (0 <= k <= n)%Z /\ product fzero fadd fmul NonUnit low n i T x = zsum fzero fadd k (fun q => fmul (T i (at_ q)) (x (at_ q))) /\
      forall f : Z -> R, (forall j, (0 <= j < n)%Z -> (if low then (i < j)%Z else (j < i)%Z) -> f j = 0) -> rsum n f = rsum k (fun q => f (at_ q))).
    { destruct low; cbn [product].
      - exists (i + 1)%Z, (fun q => q). split; [lia|]. split; [reflexivity|]. intros f Hf. unfold rsum.
        apply (zsum_trunc 0 1 Rplus Rmult R_semi); [lia|]. intros j H1 H2. apply Hf; lia.
      - exists (n - i)%Z, (fun q => (i + q)%Z). split; [lia|]. split; [reflexivity|]. intros f Hf. unfold rsum.
        apply (zsum_skip 0 1 Rplus Rmult R_semi); [lia|]. intros j H1. apply Hf; lia. }
    destruct B as (k & at_ & Hk & EQ & HS).
    change (if low then _ else _) with (product fzero fadd fmul NonUnit low n i T x) in F |- *. rewrite EQ in F |- *. unfold zsum in F |- *.
    destruct (dot_error prec emax Hp Hm _ _ _ F) as (_ & D).
    rewrite (HS (fun j => B2R (T i j) * B2R (x j))) by (intros j Hj L; rewrite (HT i j Hi Hj L); ring).
    rewrite (HS (fun j => Rabs (B2R (T i j) * B2R (x j)))) by (intros j Hj L; rewrite (HT i j Hi Hj L), Rmult_0_l; apply Rabs_R0).
    rewrite !rsum_total. eapply Rle_trans; [exact D|]. apply dot_bound_le; [lia|]. apply total_nonneg.
Qed.
Lemma trmv_float o up t dg n a lda x inc (m : list num) :
  inc <> 0%Z -> inside m x inc n -> kept_apart m o up dg n a lda (in_vector x inc n) ->
  exists m', ftrmv prec emax Hp Hm o up t dg n a lda x inc m = Ok m' /\ changes fzero m m' (in_vector x inc n) /\
    forall i, (0 <= i < n)%Z -> is_finite (val fzero m' (elt x inc n i)) = true ->
      let T := real_triangle fone o up t dg a lda m in let y := real_vector x inc n m in
      Rabs (real_vector x inc n m' i - row n T y i) <= dot_bound prec emax (Z.to_nat n) (row_size n T y i).
Proof using Hp Hm.
  intros Hinc Hin HA. unfold ftrmv.
  destruct (trmv_recur fzero fzero fone fadd fmul fconj o up t dg n a lda x inc m Hinc Hin HA) as (m' & E & C & V).
  exists m'. split; [exact E|]. split; [exact C|]. intros i Hi Fx. cbv zeta. unfold real_vector at 1.
  assert (V' : val fzero m' (elt x inc n i) = product fzero fadd fmul dg (op_lower up t) n i (op (fun w => w) t (tri o up dg a lda m)) (fun j => val fzero m (elt x inc n j))).
  { rewrite (V i Hi). reflexivity. }
  change (B754_zero false) with fzero. rewrite V' in Fx |- *.
  apply (product_rows (op_lower up t) n dg (op (fun w => w) t (tri o up dg a lda m)) (fun j => val fzero m (elt x inc n j))); auto.
  - apply op_tri_triangular.
  - intros j Hj ->. rewrite op_tri_unit. apply fone_one.
Qed.
End Solve.

(** ** From small residuals to perturbed systems (Oettli and Prager) *)
Lemma perturbed n (T : Z -> R) (y : Z -> R) b c s : 0 <= c -> 0 <= s ->
  Rabs (rsum n (fun j => T j * y j) - b) <= c * rsum n (fun j => Rabs (T j * y j)) + s ->
  exists D, (forall j, Rabs (D j) <= c * Rabs (T j)) /\ Rabs (rsum n (fun j => (T j + D j) * y j) - b) <= s.
Proof.
  intros C S H. set (A := rsum n (fun j => Rabs (T j * y j))) in *. set (r := rsum n (fun j => T j * y j) - b) in *.
  assert (A0 : 0 <= A) by (apply rsum_nonneg; intros; apply Rabs_pos).
  (* the correction: a multiple k of |T||y| with |k| <= c *)
  assert (K : exists k, Rabs k <= c /\ Rabs (r + k * A) <= s).
  { destruct (Rle_or_lt (Rabs r) s) as [L|L].
    - exists 0. rewrite Rabs_R0, Rmult_0_l, Rplus_0_r. auto.
    - destruct (Req_dec A 0) as [Z|NZ]; [rewrite Z, Rmult_0_r in H; lra|].
      assert (AP : 0 < A) by lra. assert (CA : 0 <= c * A) by (apply Rmult_le_pos; lra).
      exists (if Rle_lt_dec 0 r then - (r - s) / A else (- r - s) / A). destruct (Rle_lt_dec 0 r) as [P|P].
      + rewrite Rabs_pos_eq in H, L by exact P. split.
        * replace (- (r - s) / A) with (- ((r - s) / A)) by (field; lra). rewrite Rabs_Ropp, Rabs_pos_eq.
          -- apply Rmult_le_reg_r with A; [exact AP|]. unfold Rdiv. rewrite Rmult_assoc, Rinv_l by lra. lra.
          -- apply Rmult_le_pos; [lra|]. left. now apply Rinv_0_lt_compat.
        * replace (r + - (r - s) / A * A) with s by (field; lra). rewrite Rabs_pos_eq; lra.
      + rewrite Rabs_left in H, L by exact P. split.
        * rewrite Rabs_pos_eq.
          -- apply Rmult_le_reg_r with A; [exact AP|]. unfold Rdiv. rewrite Rmult_assoc, Rinv_l by lra. lra.
          -- apply Rmult_le_pos; [lra|]. left. now apply Rinv_0_lt_compat.
        * replace (r + (- r - s) / A * A) with (- s) by (field; lra). rewrite Rabs_Ropp, Rabs_pos_eq; lra. }
  destruct K as (k & K1 & K2).
  set (sg := fun w : R => if Rle_lt_dec 0 w then 1 else -1).
  assert (SG : forall w, Rabs (sg w) = 1) by (intros w; unfold sg; destruct (Rle_lt_dec 0 w); [apply Rabs_R1|rewrite Rabs_left; lra]).
  assert (SA : forall w, sg w * w = Rabs w) by (intros w; unfold sg; destruct (Rle_lt_dec 0 w); [rewrite Rabs_pos_eq; lra|rewrite Rabs_left; lra]).
  exists (fun j => k * sg (T j * y j) * T j). split.
  - intros j. rewrite !Rabs_mult, SG, Rmult_1_r. apply Rmult_le_compat_r; [apply Rabs_pos|exact K1].
  - replace (rsum n (fun j => (T j + k * sg (T j * y j) * T j) * y j) - b) with (r + k * A); [exact K2|].
    unfold r, A. rewrite (rsum_ext n (fun j => (T j + k * sg (T j * y j) * T j) * y j) (fun j => T j * y j + k * Rabs (T j * y j))).
    + rewrite rsum_plus, rsum_scale. ring.
    + intros j Hj. rewrite <- SA. ring.
Qed.
(** ** From small residuals to small errors *)
Lemma forward n (W T : Z -> Z -> R) (y z b e : Z -> R) :
  (forall i j, (0 <= i < n)%Z -> (0 <= j < n)%Z -> rsum n (fun k => W i k * T k j) = if (i =? j)%Z then 1 else 0) ->
  (forall i, (0 <= i < n)%Z -> row n T z i = b i) ->
  (forall i, (0 <= i < n)%Z -> Rabs (row n T y i - b i) <= e i) ->
  forall i, (0 <= i < n)%Z -> Rabs (y i - z i) <= rsum n (fun j => Rabs (W i j) * e j).
Proof.
  intros HW HZ HE i Hi.
  assert (G : forall w, rsum n (fun k => W i k * row n T w k) = w i).
  { intros w. unfold row. rewrite (rsum_ext n _ (fun k => rsum n (fun j => W i k * (T k j * w j)))) by (intros; now rewrite rsum_scale).
    rewrite rsum_swap. rewrite (rsum_ext n _ (fun j => if (i =? j)%Z then w i else 0)).
    - rewrite (row_split true n i) by first [exact Hi|intros j Hj L; now replace (i =? j)%Z with false by lia].
      cbn [others_count others_at]. rewrite Z.eqb_refl. rewrite (rsum_ext i _ (fun _ => 0 * 0)) by (intros j Hj; replace (i =? j)%Z with false by lia; ring).
      rewrite rsum_scale. ring.
    - intros j Hj. rewrite (rsum_ext n _ (fun k => w j * (W i k * T k j))) by (intros; ring). rewrite rsum_scale, HW by assumption.
      destruct (i =? j)%Z eqn:E; [apply Z.eqb_eq in E; subst|]; ring. }
  replace (y i - z i) with (rsum n (fun k => W i k * (row n T y k - b k))).
  - eapply Rle_trans; [apply rsum_abs|]. apply rsum_le. intros j Hj. rewrite Rabs_mult. apply Rmult_le_compat_l; [apply Rabs_pos|now apply HE].
  - rewrite <- (G y), <- (G z). rewrite (rsum_ext n _ (fun k => W i k * row n T y k + (-1) * (W i k * row n T z k))) by (intros k Hk; rewrite HZ by exact Hk; ring).
    rewrite rsum_plus, rsum_scale. ring.
Qed.
