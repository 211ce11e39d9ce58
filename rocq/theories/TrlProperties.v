(** C113: triangular matrices with many right-hand sides (trsm, trmm) over float and double. *)
From Coq Require Import ZArith Reals List Lia Lra.
From Flocq Require Import Core BinarySingleNaN.
From Verif Require Import Base MatmulModel MatmulSpec BlasModel BlasSpec TriModel TriSpec AccModel AccSpec AccProofs NumModel NumBasics SolModel SolSpec SolProofs.
From Verif Require Import SclProofs TrlModel TrlSpec TrlProofs.
From Coq Require Import ZifyNat ZifyN ZifyBool.
Ltac Zify.zify_post_hook ::= idtac.
Import ListNotations.
Local Open Scope R_scope.

Local Notation num64 := (binary_float 53 1024).
Local Notation dbl := (fint 53 1024 eq_refl eq_refl).
Local Notation one64 := (fone 53 1024 eq_refl eq_refl).
Local Notation trsm64 := (ftrsm 53 1024 eq_refl eq_refl).
Local Notation trmm64 := (ftrmm 53 1024 eq_refl eq_refl).
(** 2^600 and 2^-600 *)
Definition C113_big : num64 := @B754_finite 53 1024 false 4503599627370496 548 eq_refl.
Definition C113_small : num64 := @B754_finite 53 1024 false 4503599627370496 (-652) eq_refl.

(** trsm writes the block only.  It leaves Y alpha, rounded once, where each finite entry of Y satisfies its equation of
    op(T) Y = B (or Y op(T) = B) up to a few roundings of the terms of that equation. *)
Theorem C113_trsm : forall prec emax (Hp : Prec_gt_0 prec) (Hm : Prec_lt_emax prec emax) o sd up t dg rows cols alpha a lda b ldb (m : list (binary_float prec emax)),
  (0 <= rows)%Z -> (0 <= cols)%Z -> leading o rows cols ldb -> block_inside m o b ldb rows cols ->
  kept_apart m o up dg (order_of sd rows cols) a lda (block o b ldb rows cols) -> finite_triangle o up dg (order_of sd rows cols) a lda m ->
  exists m', ftrsm prec emax Hp Hm o sd up t dg rows cols alpha a lda b ldb m = Ok m' /\
    changes (fzero prec emax) m m' (block o b ldb rows cols) /\
    exists Y : Z -> Z -> binary_float prec emax, forall i j, (0 <= i < rows)%Z -> (0 <= j < cols)%Z ->
      entry (fzero prec emax) o b ldb m' i j = fmul prec emax Hp Hm (Y i j) alpha /\
      (is_finite (Y i j) = true ->
       let T := real_triangle (fone prec emax Hp Hm) o up t dg a lda m in let y := fun p q => B2R (Y p q) in
       is_finite (entry (fzero prec emax) o b ldb m i j) = true /\ T (equation sd i j) (equation sd i j) <> 0 /\
       Rabs (block_product sd rows cols T y i j - real_block o b ldb m i j) <= system_bound prec emax sd rows cols T y i j).
Proof. exact trsm_float. Qed.
Print Assumptions C113_trsm.

(** The matrix (4 1; 0 2), then a block of two rows of three entries, four apart. *)
Definition C113_memory : list num64 := map dbl [4; 1; 9; 2; 10; 8; 9; 7; 4; 8; 2; 7]%Z.
Lemma C113_place : leading RowMajor 2 3 4 /\ block_inside C113_memory RowMajor 4 4 2 3 /\
  kept_apart C113_memory RowMajor Upper NonUnit (order_of Left 2 3) 0 2 (block RowMajor 4 4 2 3) /\
  finite_triangle RowMajor Upper NonUnit (order_of Left 2 3) 0 2 C113_memory.
Proof.
  split; [cbn; lia|]. split; [|split].
  - intros i j Hi Hj. cbn [cell length map C113_memory]. lia.
  - intros i j Hi Hj K. cbn [cell order_of length map C113_memory] in *. assert (i <= j)%Z by (destruct (i <=? j)%Z eqn:E; [lia|]; unfold kept in K; lia).
    split; [lia|]. intros (p & q & Hp & Hq & E). cbn [cell] in E. lia.
  - cbn [order_of]. intros i j Hi Hj _. assert (Hc : (i = 0 \/ i = 1)%Z) by lia. assert (Hd : (j = 0 \/ j = 1)%Z) by lia.
    destruct Hc as [-> | ->]; destruct Hd as [-> | ->]; vm_compute; reflexivity.
Qed.
(** The solutions of its three columns are (2, 2), (1, 4) and (2, 1); alpha is 3, then 1 in the column-major call for the transposes. *)
Example C113_trsm_ex :
  omap (map B2SF) (trsm64 RowMajor Left Upper NoTrans NonUnit 2 3 (dbl 3) 0 2 4 4 C113_memory) =
    Ok (map (fun z => B2SF (dbl z)) [4; 1; 9; 2; 6; 3; 6; 7; 6; 12; 3; 7]%Z) /\
  omap (map B2SF) (trsm64 ColMajor Right Lower NoTrans NonUnit 3 2 one64 0 2 4 4 C113_memory) =
    Ok (map (fun z => B2SF (dbl z)) [4; 1; 9; 2; 2; 1; 2; 7; 2; 4; 1; 7]%Z).
Proof. split; vm_compute; reflexivity. Qed.

(** With alpha = 1 nothing is added to the error of the solve: the block itself nearly solves the system. *)
Theorem C113_trsm_one : forall prec emax (Hp : Prec_gt_0 prec) (Hm : Prec_lt_emax prec emax) o sd up t dg rows cols a lda b ldb (m : list (binary_float prec emax)),
  (0 <= rows)%Z -> (0 <= cols)%Z -> leading o rows cols ldb -> block_inside m o b ldb rows cols ->
  kept_apart m o up dg (order_of sd rows cols) a lda (block o b ldb rows cols) -> finite_triangle o up dg (order_of sd rows cols) a lda m ->
  exists m', ftrsm prec emax Hp Hm o sd up t dg rows cols (fone prec emax Hp Hm) a lda b ldb m = Ok m' /\
    changes (fzero prec emax) m m' (block o b ldb rows cols) /\
    ((forall i j, (0 <= i < rows)%Z -> (0 <= j < cols)%Z -> is_finite (entry (fzero prec emax) o b ldb m' i j) = true) ->
     forall i j, (0 <= i < rows)%Z -> (0 <= j < cols)%Z ->
       let T := real_triangle (fone prec emax Hp Hm) o up t dg a lda m in let X := real_block o b ldb m' in
       Rabs (block_product sd rows cols T X i j - real_block o b ldb m i j) <= system_bound prec emax sd rows cols T X i j).
Proof.
  intros prec emax Hp Hm o sd up t dg rows cols a lda b ldb m Hr Hc Hld Hin HA HF.
  destruct (trsm_float prec emax Hp Hm o sd up t dg rows cols (fone prec emax Hp Hm) a lda b ldb m Hr Hc Hld Hin HA HF) as (m' & E & C & Y & V).
  exists m'. split; [exact E|]. split; [exact C|]. intros F i j Hi Hj. cbv zeta.
  assert (FY : forall p q, (0 <= p < rows)%Z -> (0 <= q < cols)%Z -> is_finite (Y p q) = true /\ real_block o b ldb m' p q = B2R (Y p q)).
  { intros p q Hp' Hq. destruct (V p q Hp' Hq) as [V1 _]. specialize (F p q Hp' Hq). rewrite V1 in F.
    destruct (SclProofs.fmul_1_r prec emax Hp Hm (Y p q)) as [G1 G2]. rewrite G1 in F. split; [exact F|].
    unfold real_block. change (B754_zero false) with (fzero prec emax). rewrite V1. auto. }
  destruct (V i j Hi Hj) as [_ V2]. destruct (V2 (proj1 (FY i j Hi Hj))) as (_ & _ & B). cbv zeta in B. unfold system_bound in *.
  set (T := real_triangle _ _ _ _ _ _ _ _) in *.
  destruct (product_ext sd rows cols T T (real_block o b ldb m') (fun p q => B2R (Y p q)) i j Hi Hj) as [P1 P2]; [auto|intros; now apply FY|].
  rewrite P1, P2. exact B.
Qed.
Print Assumptions C113_trsm_one.
(** All entries are finite in the call above with alpha = 1. *)
Example C113_trsm_one_ex : omap (fun m => forallb (fun v => is_finite v) m) (trsm64 RowMajor Left Upper NoTrans NonUnit 2 3 one64 0 2 4 4 C113_memory) = Ok true.
Proof. vm_compute. reflexivity. Qed.

(** With any alpha, the block nearly solves the system with right-hand side alpha B: the multiplication costs one unit more. *)
Theorem C113_trsm_scaled : forall prec emax (Hp : Prec_gt_0 prec) (Hm : Prec_lt_emax prec emax) o sd up t dg rows cols alpha a lda b ldb (m : list (binary_float prec emax)),
  (0 <= rows)%Z -> (0 <= cols)%Z -> leading o rows cols ldb -> block_inside m o b ldb rows cols ->
  kept_apart m o up dg (order_of sd rows cols) a lda (block o b ldb rows cols) -> finite_triangle o up dg (order_of sd rows cols) a lda m ->
  exists m', ftrsm prec emax Hp Hm o sd up t dg rows cols alpha a lda b ldb m = Ok m' /\
    ((forall i j, (0 <= i < rows)%Z -> (0 <= j < cols)%Z -> is_finite (entry (fzero prec emax) o b ldb m' i j) = true) ->
     forall i j, (0 <= i < rows)%Z -> (0 <= j < cols)%Z ->
       let T := real_triangle (fone prec emax Hp Hm) o up t dg a lda m in let X := real_block o b ldb m' in
       Rabs (block_product sd rows cols T X i j - B2R alpha * real_block o b ldb m i j) <= scaled_bound prec emax sd rows cols (B2R alpha) T X i j).
Proof.
  intros prec emax Hp Hm o sd up t dg rows cols alpha a lda b ldb m Hr Hc Hld Hin HA HF.
  destruct (trsm_float prec emax Hp Hm o sd up t dg rows cols alpha a lda b ldb m Hr Hc Hld Hin HA HF) as (m' & E & C & Y & V).
  exists m'. split; [exact E|]. intros F i j Hi Hj. cbv zeta.
  assert (FY : forall p q, (0 <= p < rows)%Z -> (0 <= q < cols)%Z -> is_finite (Y p q) = true /\
    Rabs (real_block o b ldb m' p q - B2R (Y p q) * B2R alpha) <= rounding prec emax (B2R (Y p q) * B2R alpha)).
  { intros p q Hp' Hq. destruct (V p q Hp' Hq) as [V1 _]. specialize (F p q Hp' Hq). rewrite V1 in F.
    destruct (round_mul prec emax Hp Hm _ _ F) as (G1 & _ & G2). split; [exact G1|].
    unfold real_block. change (B754_zero false) with (fzero prec emax). rewrite V1. exact G2. }
  destruct (V i j Hi Hj) as [_ V2]. destruct (V2 (proj1 (FY i j Hi Hj))) as (_ & _ & B). cbv zeta in B.
  set (T := real_triangle _ _ _ _ _ _ _ _) in *. unfold scaled_bound. rewrite product_row, !size_row. rewrite product_row, bound_row in B.
  pose proof (scaled_residual prec emax Hp (order_of sd rows cols) (turned sd T) (line sd (fun p q => B2R (Y p q)) i j)
    (line sd (real_block o b ldb m') i j) (B2R alpha) (real_block o b ldb m i j) (equation sd i j)) as R.
  replace (T (equation sd i j) (equation sd i j)) with (turned sd T (equation sd i j) (equation sd i j)) by (now destruct sd).
  replace (line sd (fun _ _ => 1) i j) with (fun _ : Z => 1) by (now destruct sd).
  apply R; [destruct sd; cbn [equation order_of]; lia|exact B|].
  intros k Hk. destruct sd; cbn [line order_of] in *; apply FY; lia.
Qed.
Print Assumptions C113_trsm_scaled.
(** In the call above with alpha = 3 all entries are finite. *)
Example C113_trsm_scaled_ex : omap (fun m => forallb (fun v => is_finite v) m) (trsm64 RowMajor Left Upper NoTrans NonUnit 2 3 (dbl 3) 0 2 4 4 C113_memory) = Ok true.
Proof. vm_compute. reflexivity. Qed.

(** trmm writes the block only; each finite entry is the product to within the rounding errors of its terms, times alpha. *)
Theorem C113_trmm : forall prec emax (Hp : Prec_gt_0 prec) (Hm : Prec_lt_emax prec emax) o sd up t dg rows cols alpha a lda b ldb (m : list (binary_float prec emax)),
  (0 <= rows)%Z -> (0 <= cols)%Z -> leading o rows cols ldb -> block_inside m o b ldb rows cols ->
  kept_apart m o up dg (order_of sd rows cols) a lda (block o b ldb rows cols) ->
  exists m', ftrmm prec emax Hp Hm o sd up t dg rows cols alpha a lda b ldb m = Ok m' /\
    changes (fzero prec emax) m m' (block o b ldb rows cols) /\
    forall i j, (0 <= i < rows)%Z -> (0 <= j < cols)%Z ->
      is_finite (entry (fzero prec emax) o b ldb m' i j) = true ->
      let T := real_triangle (fone prec emax Hp Hm) o up t dg a lda m in let B := real_block o b ldb m in
      let P := block_product sd rows cols T B i j in
      let D := dot_bound prec emax (Z.to_nat (order_of sd rows cols)) (block_size sd rows cols T B i j) in
      Rabs (real_block o b ldb m' i j - B2R alpha * P) <= Rabs (B2R alpha) * D + rounding prec emax (Rabs (B2R alpha) * (Rabs P + D)).
Proof.
  intros prec emax Hp Hm o sd up t dg rows cols alpha a lda b ldb m Hr Hc Hld Hin HA.
  destruct (trmm_float prec emax Hp Hm o sd up t dg rows cols alpha a lda b ldb m Hr Hc Hld Hin HA) as (m' & E & C & Y & V).
  exists m'. split; [exact E|]. split; [exact C|]. intros i j Hi Hj F. cbv zeta. destruct (V i j Hi Hj) as [V1 V2]. cbv zeta in V2.
  set (P := block_product _ _ _ _ _ _ _) in *. set (D := dot_bound _ _ _ _) in *. set (al := B2R alpha).
  pose proof (u_small prec Hp) as Hu. pose proof (eta_pos prec emax) as He. unfold real_block. change (B754_zero false) with (fzero prec emax).
  assert (DP : 0 <= D).
  { unfold D, dot_bound. assert (0 <= block_size sd rows cols (real_triangle (fone prec emax Hp Hm) o up t dg a lda m) (real_block o b ldb m) i j)
      by (rewrite size_row; apply rsum_nonneg; intros; apply Rabs_pos).
    pose proof (pos_INR (Z.to_nat (order_of sd rows cols))) as PN.
    pose proof (Rmult_le_pos _ _ PN (Rlt_le _ _ (proj1 Hu))) as PU.
    pose proof (Rmult_le_pos _ _ PU H) as PS. pose proof (Rmult_le_pos _ _ PN (Rplus_le_le_0_compat _ _ Rle_0_1 PU)) as PK.
    pose proof (Rmult_le_pos _ _ PK (Rlt_le _ _ He)). lra. }
  rewrite V1 in F |- *. unfold rounding. destruct (fis_zero prec emax alpha) eqn:Z0.
  - assert (A0 : al = 0) by (unfold al; destruct alpha; try discriminate Z0; reflexivity).
    cbn [fzero B2R]. rewrite A0, !Rmult_0_l, !Rabs_R0, !Rmult_0_l, Rabs_R0, Rminus_0_r, Rabs_R0. lra.
  - destruct (round_mul prec emax Hp Hm _ _ F) as (G1 & _ & G2). specialize (V2 G1). unfold rounding in G2. fold al in G2.
    set (x := B2R (fmul prec emax Hp Hm (Y i j) alpha)) in *. set (y := B2R (Y i j)) in *.
    assert (H1 : Rabs (y * al - al * P) <= Rabs al * D).
    { replace (y * al - al * P) with (al * (y - P)) by ring. rewrite Rabs_mult. apply Rmult_le_compat_l; [apply Rabs_pos|exact V2]. }
    assert (H2 : Rabs (y * al) <= Rabs al * (Rabs P + D)).
    { rewrite Rabs_mult, Rmult_comm. apply Rmult_le_compat_l; [apply Rabs_pos|].
      pose proof (Rabs_triang_inv y P). lra. }
    rewrite (Rabs_pos_eq (Rabs al * (Rabs P + D))) by (apply Rmult_le_pos; [apply Rabs_pos|pose proof (Rabs_pos P); lra]).
    replace (x - al * P) with ((x - y * al) + (y * al - al * P)) by ring.
    eapply Rle_trans; [apply Rabs_triang|].
    pose proof (Rmult_le_compat_l _ _ _ (Rlt_le _ _ (proj1 Hu)) H2). lra.
Qed.
Print Assumptions C113_trmm.
(** 2 (4 1; 0 2) (10 8 9; 4 8 2), and the same product of the transposes in column-major order. *)
Example C113_trmm_ex :
  omap (map B2SF) (trmm64 RowMajor Left Upper NoTrans NonUnit 2 3 (dbl 2) 0 2 4 4 C113_memory) =
    Ok (map (fun z => B2SF (dbl z)) [4; 1; 9; 2; 88; 80; 76; 7; 16; 32; 8; 7]%Z) /\
  omap (map B2SF) (trmm64 ColMajor Right Lower NoTrans NonUnit 3 2 (dbl 2) 0 2 4 4 C113_memory) =
    Ok (map (fun z => B2SF (dbl z)) [4; 1; 9; 2; 88; 80; 76; 7; 16; 32; 8; 7]%Z).
Proof. split; vm_compute; reflexivity. Qed.

(** With alpha = 0 (of either sign) trmm sets the block to +0, whatever was in it and in the matrix. *)
Theorem C113_trmm_zero : forall prec emax (Hp : Prec_gt_0 prec) (Hm : Prec_lt_emax prec emax) o sd up t dg rows cols s a lda b ldb (m : list (binary_float prec emax)),
  (0 <= rows)%Z -> (0 <= cols)%Z -> leading o rows cols ldb -> block_inside m o b ldb rows cols ->
  kept_apart m o up dg (order_of sd rows cols) a lda (block o b ldb rows cols) ->
  exists m', ftrmm prec emax Hp Hm o sd up t dg rows cols (B754_zero s) a lda b ldb m = Ok m' /\
    changes (fzero prec emax) m m' (block o b ldb rows cols) /\
    forall i j, (0 <= i < rows)%Z -> (0 <= j < cols)%Z -> entry (fzero prec emax) o b ldb m' i j = B754_zero false.
Proof.
  intros prec emax Hp Hm o sd up t dg rows cols s a lda b ldb m Hr Hc Hld Hin HA.
  destruct (trmm_float prec emax Hp Hm o sd up t dg rows cols (B754_zero s) a lda b ldb m Hr Hc Hld Hin HA) as (m' & E & C & Y & V).
  exists m'. split; [exact E|]. split; [exact C|]. intros i j Hi Hj. exact (proj1 (V i j Hi Hj)).
Qed.
Print Assumptions C113_trmm_zero.
(** A NaN in the block is gone. *)
Example C113_trmm_zero_ex : omap (map B2SF) (trmm64 RowMajor Left Lower NoTrans NonUnit 1 2 (B754_zero true) 0 1 1 2 [dbl 4; B754_nan; dbl 3]) =
  Ok (map B2SF [dbl 4; B754_zero false; B754_zero false]).
Proof. vm_compute. reflexivity. Qed.

(** trsm with alpha = 0 need not give 0: the systems are solved first, and an overflow there leaves a NaN. *)
Theorem C113_trsm_zero_refuted : ~ (forall a x : num64, is_finite a = true -> B2R a <> 0 -> is_finite x = true ->
  exists m', trsm64 RowMajor Left Upper NoTrans NonUnit 1 1 (fzero 53 1024) 0 1 1 1 [a; x] = Ok m' /\ B2R (nth 1 m' B754_nan) = 0 /\ is_finite (nth 1 m' B754_nan) = true).
Proof.
  intros H. specialize (H C113_small C113_big). assert (F1 : is_finite C113_small = true) by (vm_compute; reflexivity).
  assert (F2 : is_finite C113_big = true) by (vm_compute; reflexivity).
  destruct (H F1) as (m' & E & _ & F); [|exact F2|].
  - intros Z0. apply (eq_0_F2R _ _ _) in Z0. discriminate Z0.
  - rewrite <- is_finite_SF_B2SF in F. rewrite <- (map_nth B2SF) in F. apply (f_equal (omap (map B2SF))) in E. change (omap (map B2SF) (Ok m')) with (Ok (map B2SF m')) in E.
    assert (K : Ok (map B2SF m') = Ok [B2SF C113_small; SpecFloat.S754_nan]) by (rewrite <- E; vm_compute; reflexivity).
    assert (K' : map B2SF m' = match Ok (map B2SF m') with Ok l => l | _ => [] end) by reflexivity. rewrite K in K'. rewrite K' in F. discriminate F.
Qed.
Print Assumptions C113_trsm_zero_refuted.

(** Nor need a system whose solution is an ordinary number be solved: B is not multiplied by alpha first, so that the solve
    overflows although alpha would have brought the solution back. *)
Theorem C113_trsm_range_refuted : ~ (forall a x alpha z : num64, is_finite a = true -> is_finite x = true -> is_finite alpha = true -> is_finite z = true ->
  B2R a * B2R z = B2R alpha * B2R x ->
  exists m', trsm64 RowMajor Left Upper NoTrans NonUnit 1 1 alpha 0 1 1 1 [a; x] = Ok m' /\ is_finite (nth 1 m' B754_nan) = true).
Proof.
  intros H. specialize (H C113_small C113_big C113_small C113_big). assert (F1 : is_finite C113_small = true) by (vm_compute; reflexivity).
  assert (F2 : is_finite C113_big = true) by (vm_compute; reflexivity).
  destruct (H F1 F2 F1 F2 eq_refl) as (m' & E & F).
  rewrite <- is_finite_SF_B2SF in F. rewrite <- (map_nth B2SF) in F. apply (f_equal (omap (map B2SF))) in E. change (omap (map B2SF) (Ok m')) with (Ok (map B2SF m')) in E.
  assert (K : Ok (map B2SF m') = Ok [B2SF C113_small; SpecFloat.S754_infinity false]) by (rewrite <- E; vm_compute; reflexivity).
  assert (K' : map B2SF m' = match Ok (map B2SF m') with Ok l => l | _ => [] end) by reflexivity. rewrite K in K'. rewrite K' in F. discriminate F.
Qed.
Print Assumptions C113_trsm_range_refuted.

(** The same holds of products. *)
Theorem C113_trmm_range_refuted : ~ (forall a x alpha z : num64, is_finite a = true -> is_finite x = true -> is_finite alpha = true -> is_finite z = true ->
  B2R z = B2R alpha * (B2R a * B2R x) ->
  exists m', trmm64 RowMajor Left Upper NoTrans NonUnit 1 1 alpha 0 1 1 1 [a; x] = Ok m' /\ is_finite (nth 1 m' B754_nan) = true).
Proof.
  intros H. specialize (H C113_big C113_big C113_small C113_big). assert (F1 : is_finite C113_small = true) by (vm_compute; reflexivity).
  assert (F2 : is_finite C113_big = true) by (vm_compute; reflexivity).
  destruct (H F2 F2 F1 F2) as (m' & E & F).
  { assert (E1 : B2R C113_big = bpow radix2 600) by (unfold C113_big, B2R, F2R; cbn [Fnum Fexp cond_Zopp]; change 600%Z with (52 + 548)%Z; rewrite bpow_plus; reflexivity).
    assert (E2 : B2R C113_small = bpow radix2 (-600)) by (unfold C113_small, B2R, F2R; cbn [Fnum Fexp cond_Zopp]; change (-600)%Z with (52 + (-652))%Z; rewrite bpow_plus; reflexivity).
    rewrite E1, E2, <- !bpow_plus. reflexivity. }
  rewrite <- is_finite_SF_B2SF in F. rewrite <- (map_nth B2SF) in F. apply (f_equal (omap (map B2SF))) in E. change (omap (map B2SF) (Ok m')) with (Ok (map B2SF m')) in E.
  assert (K : Ok (map B2SF m') = Ok [B2SF C113_big; SpecFloat.S754_infinity false]) by (rewrite <- E; vm_compute; reflexivity).
  assert (K' : map B2SF m' = match Ok (map B2SF m') with Ok l => l | _ => [] end) by reflexivity. rewrite K in K'. rewrite K' in F. discriminate F.
Qed.
Print Assumptions C113_trmm_range_refuted.
