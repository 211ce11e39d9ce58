From Coq Require Import ZArith Reals Lra Field_theory RealField.
From Flocq Require Import Core BinarySingleNaN.
From Verif Require Import Base BaseProofs MatmulModel MatmulSpec BlasModel BlasSpec BlasProofs TriModel TriSpec TriProofs.
From Verif Require Import AccModel AccSpec AccProofs NumModel NumBasics SolModel SolSpec SolRecur SolProofs TrlModel TrlSpec.
From Coq Require Import Lia ZifyNat ZifyN ZifyBool.
Ltac Zify.zify_post_hook ::= idtac.
Local Open Scope R_scope.

(** ** Blocks and lines *)
Definition turned (sd : side) (T : Z -> Z -> R) (p q : Z) : R := match sd with Left => T p q | Right => T q p end.
Definition line (sd : side) (B : Z -> Z -> R) (i j k : Z) : R := match sd with Left => B k j | Right => B i k end.
Lemma product_row sd rows cols T B i j :
  block_product sd rows cols T B i j = row (order_of sd rows cols) (turned sd T) (line sd B i j) (equation sd i j).
Proof.
  unfold block_product, row. destruct sd; cbn [applied order_of turned line equation]; [reflexivity|].
  apply zsum_ext. intros k Hk. apply Rmult_comm.
Qed.
Lemma size_row sd rows cols T B i j :
  block_size sd rows cols T B i j = row_size (order_of sd rows cols) (turned sd T) (line sd B i j) (equation sd i j).
Proof.
  unfold block_size. rewrite product_row. apply rsum_ext. intros k Hk. rewrite Rabs_mult. now destruct sd.
Qed.
Lemma bound_row prec emax sd rows cols T X i j : system_bound prec emax sd rows cols T X i j =
  solve_bound prec emax (order_of sd rows cols) (turned sd T) (line sd X i j) (equation sd i j).
Proof. unfold system_bound, solve_bound. rewrite size_row. now destruct sd. Qed.
Lemma product_col sd rows cols T B i j :
  block_product (opposite sd) cols rows (fun p q => T q p) (fun p q => B q p) j i = block_product sd rows cols T B i j.
Proof. rewrite !product_row. now destruct sd. Qed.
Lemma size_col sd rows cols T B i j :
  block_size (opposite sd) cols rows (fun p q => T q p) (fun p q => B q p) j i = block_size sd rows cols T B i j.
Proof. rewrite !size_row. now destruct sd. Qed.
Lemma equation_col sd i j : equation (opposite sd) j i = equation sd i j.
Proof. now destruct sd. Qed.
Lemma bound_col prec emax sd rows cols T X i j :
  system_bound prec emax (opposite sd) cols rows (fun p q => T q p) (fun p q => X q p) j i = system_bound prec emax sd rows cols T X i j.
Proof. unfold system_bound. rewrite size_col, order_col, equation_col. reflexivity. Qed.
Lemma row_ext n T T' v v' i : (0 <= i < n)%Z -> (forall i j, (0 <= i < n)%Z -> (0 <= j < n)%Z -> T i j = T' i j) ->
  (forall j, (0 <= j < n)%Z -> v j = v' j) -> row n T v i = row n T' v' i /\ row_size n T v i = row_size n T' v' i.
Proof. intros Hi HT Hv. split; apply rsum_ext; intros j Hj; now rewrite HT, Hv. Qed.
Lemma product_ext sd rows cols T T' B B' i j : (0 <= i < rows)%Z -> (0 <= j < cols)%Z ->
  (forall p q, (0 <= p < order_of sd rows cols)%Z -> (0 <= q < order_of sd rows cols)%Z -> T p q = T' p q) ->
  (forall p q, (0 <= p < rows)%Z -> (0 <= q < cols)%Z -> B p q = B' p q) ->
  block_product sd rows cols T B i j = block_product sd rows cols T' B' i j /\ block_size sd rows cols T B i j = block_size sd rows cols T' B' i j.
Proof.
  intros Hi Hj HT HB. rewrite !product_row, !size_row. apply row_ext.
  - destruct sd; cbn [equation order_of]; lia.
  - intros p q Hp' Hq. destruct sd; cbn [turned]; auto.
  - intros k Hk. destruct sd; cbn [line order_of] in *; auto.
Qed.

Section Float.
Variables prec emax : Z.
Context (Hp : Prec_gt_0 prec) (Hm : Prec_lt_emax prec emax).
Local Notation num := (binary_float prec emax).
Local Notation fzero := (fzero prec emax).
Local Notation fone := (fone prec emax Hp Hm).
Local Notation fadd := (fadd prec emax Hp Hm).
Local Notation fsub := (fsub prec emax Hp Hm).
Local Notation fmul := (fmul prec emax Hp Hm).
Local Notation fdiv := (fdiv prec emax Hp Hm).
Local Notation fconj := (fconj prec emax).
Local Notation fis_zero := (fis_zero prec emax).
Local Notation tri o up dg a lda m := (triangle fzero fzero fone o up dg a lda m).

Definition all_finite (n : Z) (M : Z -> Z -> num) : Prop := forall i j, (0 <= i < n)%Z -> (0 <= j < n)%Z -> is_finite (M i j) = true.
Lemma finite_all o up dg n a lda m : finite_triangle o up dg n a lda m -> all_finite n (tri o up dg a lda m).
Proof using Type.
  intros F i j Hi Hj. unfold triangle. destruct (kept up dg i j) eqn:K; [now apply F|].
  destruct (i =? j)%Z; [apply fone_finite|reflexivity].
Qed.
Lemma all_kept o up dg n a lda m : all_finite n (tri o up dg a lda m) -> finite_triangle o up dg n a lda m.
Proof using Type. intros F i j Hi Hj K. specialize (F i j Hi Hj). unfold triangle in F. now rewrite K in F. Qed.

Definition solves (R : Z -> Z -> num) (n : Z) (f g : Z -> num) : Prop := forall i, (0 <= i < n)%Z -> is_finite (g i) = true ->
  is_finite (f i) = true /\ B2R (R i i) <> 0 /\
  Rabs (row n (fun i j => B2R (R i j)) (fun j => B2R (g j)) i - B2R (f i)) <=
    solve_bound prec emax n (fun i j => B2R (R i j)) (fun j => B2R (g j)) i.
Definition multiplies (R : Z -> Z -> num) (n : Z) (f g : Z -> num) : Prop := forall i, (0 <= i < n)%Z -> is_finite (g i) = true ->
  Rabs (B2R (g i) - row n (fun i j => B2R (R i j)) (fun j => B2R (f j)) i) <=
    dot_bound prec emax (Z.to_nat n) (row_size n (fun i j => B2R (R i j)) (fun j => B2R (f j)) i).

Lemma trsm_row_float sd up t dg rows cols alpha a lda b ldb (m : list num) : (0 <= rows)%Z -> (0 <= cols <= ldb)%Z ->
  block_inside m RowMajor b ldb rows cols ->
  kept_apart m RowMajor up dg (order_of sd rows cols) a lda (block RowMajor b ldb rows cols) ->
  finite_triangle RowMajor up dg (order_of sd rows cols) a lda m ->
  exists m', ftrsm prec emax Hp Hm RowMajor sd up t dg rows cols alpha a lda b ldb m = Ok m' /\
    changes fzero m m' (block RowMajor b ldb rows cols) /\
    exists Y : Z -> Z -> num, forall i j, (0 <= i < rows)%Z -> (0 <= j < cols)%Z ->
      entry fzero RowMajor b ldb m' i j = fmul (Y i j) alpha /\
      (is_finite (Y i j) = true ->
       let T := real_triangle fone RowMajor up t dg a lda m in let y := fun p q => B2R (Y p q) in
       is_finite (entry fzero RowMajor b ldb m i j) = true /\ T (equation sd i j) (equation sd i j) <> 0 /\
       Rabs (block_product sd rows cols T y i j - real_block RowMajor b ldb m i j) <= system_bound prec emax sd rows cols T y i j).
Proof using Hp Hm.
  intros Hr Hc Hin HA HF. unfold ftrsm, trsm, trsm_row.
  destruct (each_line_ok fzero fzero fone fconj solves (trsv_row fzero fadd fsub fmul fdiv fconj) all_finite)
     with (sd := sd) (up := up) (t := t) (dg := dg) (rows := rows) (cols := cols)
     (a := a) (lda := lda) (b := b) (ldb := ldb) (m := m) as (m1 & E1 & C1 & V1); auto.
  - intros n R R' f f' g g' HR Hf Hg H i Hi Fi. rewrite <- Hg in Fi by exact Hi. destruct (H i Hi Fi) as (F1 & D & B).
    rewrite <- Hf, <- HR by exact Hi. split; [exact F1|]. split; [exact D|]. unfold solve_bound in *.
    destruct (row_ext n (fun i j => B2R (R i j)) (fun i j => B2R (R' i j)) (fun j => B2R (g j)) (fun j => B2R (g' j)) i Hi) as [E1 E2].
    + intros. now rewrite HR.
    + intros. now rewrite Hg.
    + rewrite <- E1, <- E2, <- HR by exact Hi. exact B.
  - intros n M M' HM H i j Hi Hj. rewrite <- HM by assumption. now apply H.
  - intros up' t' dg' n a' lda' x inc m' Hi I K G.
    exact (trsv_float prec emax Hp Hm RowMajor up' t' dg' n a' lda' x inc m' Hi I K (all_kept _ _ _ _ _ _ _ G)).
  - now apply finite_all.
  - rewrite E1. cbn [bind]. assert (L1 : length m1 = length m) by apply C1.
    destruct (scale_block fzero (fun v => fmul v alpha) (fun n x m => scal fmul n alpha x 1 m) rows cols b ldb m1)
      as (m' & E & C & V); [| exact Hr|exact Hc| |].
    + intros n x u Hu. apply (scal_ok fzero fmul n alpha x 1 u Hu). left. lia.
    + intros i j Hi Hj. rewrite L1. now apply Hin.
    + exists m'. split; [exact E|]. split.
      * apply (changes_weaken fzero m m' (fun p => block RowMajor b ldb rows cols p \/ block RowMajor b ldb rows cols p)); [tauto|].
        now apply changes_trans with m1.
      * exists (entry fzero RowMajor b ldb m1). intros i j Hi Hj. split; [now apply V|]. intros Fy. cbv zeta.
        rewrite product_row, bound_row. destruct sd; cbn [equation order_of] in *.
        -- exact (V1 j Hj i Hi Fy).
        -- destruct (V1 i Hi j Hj Fy) as (F1 & D & B). split; [exact F1|]. rewrite op_flip in D. split; [exact D|].
           unfold solve_bound in *.
           match type of B with Rabs (row cols ?X ?v j - _) <= _ =>
             destruct (row_ext cols X (turned Right (real_triangle fone RowMajor up t dg a lda m)) v (line Right (fun p q => B2R (entry fzero RowMajor b ldb m1 p q)) i j) j Hj) as [R1 R2] end.
           ++ intros. rewrite op_flip. reflexivity.
           ++ reflexivity.
           ++ rewrite <- R1, <- R2. rewrite op_flip in B. exact B.
Qed.

Lemma trmm_row_float sd up t dg rows cols alpha a lda b ldb (m : list num) : (0 <= rows)%Z -> (0 <= cols <= ldb)%Z ->
  block_inside m RowMajor b ldb rows cols ->
  kept_apart m RowMajor up dg (order_of sd rows cols) a lda (block RowMajor b ldb rows cols) ->
  exists m', ftrmm prec emax Hp Hm RowMajor sd up t dg rows cols alpha a lda b ldb m = Ok m' /\
    changes fzero m m' (block RowMajor b ldb rows cols) /\
    exists Y : Z -> Z -> num, forall i j, (0 <= i < rows)%Z -> (0 <= j < cols)%Z ->
      entry fzero RowMajor b ldb m' i j = (if fis_zero alpha then fzero else fmul (Y i j) alpha) /\
      (is_finite (Y i j) = true ->
       let T := real_triangle fone RowMajor up t dg a lda m in let B := real_block RowMajor b ldb m in
       Rabs (B2R (Y i j) - block_product sd rows cols T B i j) <=
         dot_bound prec emax (Z.to_nat (order_of sd rows cols)) (block_size sd rows cols T B i j)).
Proof using Hp Hm.
  intros Hr Hc Hin HA. unfold ftrmm, trmm, trmm_row.
  destruct (each_line_ok fzero fzero fone fconj multiplies (trmv_row fzero fadd fmul fconj) (fun _ _ => True))
     with (sd := sd) (up := up) (t := t) (dg := dg) (rows := rows) (cols := cols)
     (a := a) (lda := lda) (b := b) (ldb := ldb) (m := m) as (m1 & E1 & C1 & V1); auto.
  - intros n R R' f f' g g' HR Hf Hg H i Hi Fi. rewrite <- Hg in * by exact Hi. specialize (H i Hi Fi).
    destruct (row_ext n (fun i j => B2R (R i j)) (fun i j => B2R (R' i j)) (fun j => B2R (f j)) (fun j => B2R (f' j)) i Hi) as [E1 E2].
    + intros. now rewrite HR.
    + intros. now rewrite Hf.
    + rewrite <- E1, <- E2. exact H.
  - intros up' t' dg' n a' lda' x inc m' Hi I K G.
    exact (trmv_float prec emax Hp Hm RowMajor up' t' dg' n a' lda' x inc m' Hi I K).
  - rewrite E1. cbn [bind]. assert (L1 : length m1 = length m) by apply C1.
    destruct (scale_block fzero (fun v => if fis_zero alpha then fzero else fmul v alpha) (fun n x m => scal_init fzero fmul fis_zero n alpha x 1 m) rows cols b ldb m1)
      as (m' & E & C & V); [| exact Hr|exact Hc| |].
    + intros n x u Hu. apply (scal_init_ok fzero fzero fmul fis_zero n alpha x 1 u Hu). left. lia.
    + intros i j Hi Hj. rewrite L1. now apply Hin.
    + exists m'. split; [exact E|]. split.
      * apply (changes_weaken fzero m m' (fun p => block RowMajor b ldb rows cols p \/ block RowMajor b ldb rows cols p)); [tauto|].
        now apply changes_trans with m1.
      * exists (entry fzero RowMajor b ldb m1). intros i j Hi Hj. split; [now apply V|]. intros Fy. cbv zeta.
        rewrite product_row, size_row. destruct sd; cbn [equation order_of] in *.
        -- exact (V1 j Hj i Hi Fy).
        -- pose proof (V1 i Hi j Hj Fy) as B.
           match type of B with Rabs (_ - row cols ?X ?v j) <= _ =>
             destruct (row_ext cols X (turned Right (real_triangle fone RowMajor up t dg a lda m)) v (line Right (real_block RowMajor b ldb m) i j) j Hj) as [R1 R2] end.
           ++ intros. rewrite op_flip. reflexivity.
           ++ reflexivity.
           ++ rewrite <- R1, <- R2. exact B.
Qed.

(** ** Both orders *)
Lemma triangle_turn up t dg a lda (m : list num) i j :
  real_triangle fone RowMajor (other up) t dg a lda m i j = real_triangle fone ColMajor up t dg a lda m j i.
Proof using Type. unfold real_triangle. f_equal. rewrite op_col. symmetry. apply op_flip. Qed.
Lemma finite_col up dg n a lda (m : list num) : finite_triangle ColMajor up dg n a lda m -> finite_triangle RowMajor (other up) dg n a lda m.
Proof using Type. intros F i j Hi Hj K. rewrite <- cell_col. apply F; auto. revert K. unfold kept. destruct up, dg; cbn [other]; lia. Qed.

Lemma trsm_float o sd up t dg rows cols alpha a lda b ldb (m : list num) : (0 <= rows)%Z -> (0 <= cols)%Z -> leading o rows cols ldb ->
  block_inside m o b ldb rows cols ->
  kept_apart m o up dg (order_of sd rows cols) a lda (block o b ldb rows cols) ->
  finite_triangle o up dg (order_of sd rows cols) a lda m ->
  exists m', ftrsm prec emax Hp Hm o sd up t dg rows cols alpha a lda b ldb m = Ok m' /\
    changes fzero m m' (block o b ldb rows cols) /\
    exists Y : Z -> Z -> num, forall i j, (0 <= i < rows)%Z -> (0 <= j < cols)%Z ->
      entry fzero o b ldb m' i j = fmul (Y i j) alpha /\
      (is_finite (Y i j) = true ->
       let T := real_triangle fone o up t dg a lda m in let y := fun p q => B2R (Y p q) in
       is_finite (entry fzero o b ldb m i j) = true /\ T (equation sd i j) (equation sd i j) <> 0 /\
       Rabs (block_product sd rows cols T y i j - real_block o b ldb m i j) <= system_bound prec emax sd rows cols T y i j).
Proof using Hp Hm.
  intros Hr Hc Hld Hin HA HF. destruct o; cbn [leading] in *; [apply trsm_row_float; auto|].
  destruct (trsm_row_float (opposite sd) (other up) t dg cols rows alpha a lda b ldb m) as (m' & E & C & Y & V); auto.
  - now apply inside_col.
  - rewrite order_col. apply apart_col. exact (apart_iff _ _ _ _ _ _ _ _ _ (block_col b ldb rows cols) HA).
  - rewrite order_col. now apply finite_col.
  - exists m'. split; [exact E|]. split; [exact (changes_iff fzero _ _ _ _ (fun p => iff_sym (block_col b ldb rows cols p)) C)|].
    exists (fun i j => Y j i). intros i j Hi Hj. destruct (V j i Hj Hi) as [V1 V2]. split; [exact V1|]. intros Fy.
    destruct (V2 Fy) as (F1 & D & B). cbv zeta. split; [exact F1|]. rewrite equation_col, triangle_turn in D. split; [exact D|].
    rewrite <- product_col, <- bound_col. clear - B Hi Hj. unfold system_bound in *.
    destruct (product_ext (opposite sd) cols rows (real_triangle fone RowMajor (other up) t dg a lda m)
      (fun p q => real_triangle fone ColMajor up t dg a lda m q p) (fun p q => B2R (Y p q)) (fun p q => B2R (Y p q)) j i Hj Hi) as [P1 P2].
    + intros. apply triangle_turn.
    + auto.
    + rewrite P1, P2, triangle_turn in B. exact B.
Qed.
Lemma trmm_float o sd up t dg rows cols alpha a lda b ldb (m : list num) : (0 <= rows)%Z -> (0 <= cols)%Z -> leading o rows cols ldb ->
  block_inside m o b ldb rows cols ->
  kept_apart m o up dg (order_of sd rows cols) a lda (block o b ldb rows cols) ->
  exists m', ftrmm prec emax Hp Hm o sd up t dg rows cols alpha a lda b ldb m = Ok m' /\
    changes fzero m m' (block o b ldb rows cols) /\
    exists Y : Z -> Z -> num, forall i j, (0 <= i < rows)%Z -> (0 <= j < cols)%Z ->
      entry fzero o b ldb m' i j = (if fis_zero alpha then fzero else fmul (Y i j) alpha) /\
      (is_finite (Y i j) = true ->
       let T := real_triangle fone o up t dg a lda m in let B := real_block o b ldb m in
       Rabs (B2R (Y i j) - block_product sd rows cols T B i j) <=
         dot_bound prec emax (Z.to_nat (order_of sd rows cols)) (block_size sd rows cols T B i j)).
Proof using Hp Hm.
  intros Hr Hc Hld Hin HA. destruct o; cbn [leading] in *; [apply trmm_row_float; auto|].
  destruct (trmm_row_float (opposite sd) (other up) t dg cols rows alpha a lda b ldb m) as (m' & E & C & Y & V); auto.
  - now apply inside_col.
  - rewrite order_col. apply apart_col. exact (apart_iff _ _ _ _ _ _ _ _ _ (block_col b ldb rows cols) HA).
  - exists m'. split; [exact E|]. split; [exact (changes_iff fzero _ _ _ _ (fun p => iff_sym (block_col b ldb rows cols p)) C)|].
    exists (fun i j => Y j i). intros i j Hi Hj. destruct (V j i Hj Hi) as [V1 V2]. split; [exact V1|]. intros Fy.
    specialize (V2 Fy). cbv zeta in *. rewrite <- product_col, <- size_col. rewrite order_col in V2.
    destruct (product_ext (opposite sd) cols rows (real_triangle fone RowMajor (other up) t dg a lda m)
      (fun p q => real_triangle fone ColMajor up t dg a lda m q p) (real_block RowMajor b ldb m) (fun p q => real_block ColMajor b ldb m q p) j i Hj Hi) as [P1 P2].
    + intros. apply triangle_turn.
    + reflexivity.
    + rewrite <- P1, <- P2. exact V2.
Qed.

(** ** The multiplication by alpha *)
Lemma u_small : 0 < unit_roundoff prec <= / 2.
Proof using Hp.
  unfold unit_roundoff. split; [apply bpow_gt_0|]. change (/ 2) with (bpow radix2 (-1)). apply bpow_le.
  red in Hp. lia.
Qed.
Lemma round_mul (x y : num) : is_finite (fmul x y) = true ->
  is_finite x = true /\ is_finite y = true /\ Rabs (B2R (fmul x y) - B2R x * B2R y) <= rounding prec emax (B2R x * B2R y).
Proof using Hp Hm.
  intros F. destruct (fmul_finite prec emax Hp Hm x y F) as (Fx & Fy & E). split; [exact Fx|]. split; [exact Fy|]. rewrite E.
  destruct (mul_err prec emax Hp (B2R x * B2R y)) as (e & t & He & Ht & _ & ->).
  replace (B2R x * B2R y * (1 + e) + t - B2R x * B2R y) with (e * (B2R x * B2R y) + t) by ring.
  unfold rounding. eapply Rle_trans; [apply Rabs_triang|]. apply Rplus_le_compat; [|exact Ht].
  rewrite Rabs_mult. apply Rmult_le_compat_r; [apply Rabs_pos|].
  eapply Rle_trans; [exact He|]. pose proof u_small as [U0 U1]. apply (Rmult_le_reg_r (1 + unit_roundoff prec)); [lra|].
  replace (unit_roundoff prec / (1 + unit_roundoff prec) * (1 + unit_roundoff prec)) with (unit_roundoff prec) by (field; lra).
  pose proof (Rmult_lt_0_compat _ _ U0 U0). lra.
Qed.

Lemma eta_pos : 0 < underflow_unit prec emax.
Proof using Type. unfold underflow_unit. pose proof (bpow_gt_0 radix2 (3 - emax - prec)). lra. Qed.

Lemma scaled_residual n T (y x : Z -> R) alpha c i : (0 <= i < n)%Z ->
  Rabs (row n T y i - c) <= solve_bound prec emax n T y i ->
  (forall k, (0 <= k < n)%Z -> Rabs (x k - y k * alpha) <= rounding prec emax (y k * alpha)) ->
  Rabs (row n T x i - alpha * c) <=
    scaled_unit prec n * row_size n T x i + Rabs alpha * solve_slack prec emax n (T i i) +
    (1 + scaled_unit prec n) * row_size n T (fun _ => 1) i * underflow_unit prec emax.
Proof using Hp.
  intros Hi HB HX. pose proof u_small as Hu. pose proof eta_pos as He.
  set (u := unit_roundoff prec) in *. set (eta := underflow_unit prec emax) in *.
  set (S := row_size n T (fun k => y k * alpha) i). set (W := row_size n T x i). set (O := row_size n T (fun _ => 1) i).
  assert (HO : O = rsum n (fun k => Rabs (T i k))) by (apply rsum_ext; intros; now rewrite Rmult_1_r).
  assert (E1 : Rabs (row n T (fun k => y k * alpha) i - alpha * c) <= solve_unit prec n * S + Rabs alpha * solve_slack prec emax n (T i i)).
  { replace (row n T (fun k => y k * alpha) i) with (alpha * row n T y i)
      by (unfold row; rewrite <- rsum_scale; apply rsum_ext; intros; ring).
    replace S with (Rabs alpha * row_size n T y i)
      by (unfold S, row_size; rewrite <- rsum_scale; apply rsum_ext; intros; rewrite !Rabs_mult; ring).
    replace (alpha * row n T y i - alpha * c) with (alpha * (row n T y i - c)) by ring. rewrite Rabs_mult.
    unfold solve_bound in HB. pose proof (Rmult_le_compat_l _ _ _ (Rabs_pos alpha) HB). lra. }
  assert (E2 : Rabs (row n T x i - row n T (fun k => y k * alpha) i) <= u * S + O * eta).
  { replace (row n T x i - row n T (fun k => y k * alpha) i) with (rsum n (fun k => T i k * (x k - y k * alpha))).
    2: { unfold row. replace (rsum n (fun j => T i j * x j)) with (rsum n (fun k => T i k * (x k - y k * alpha) + T i k * (y k * alpha)))
           by (apply rsum_ext; intros; ring). rewrite rsum_plus. ring. }
    eapply Rle_trans; [apply rsum_abs|].
    replace (u * S + O * eta) with (rsum n (fun k => u * Rabs (T i k * (y k * alpha)) + eta * Rabs (T i k))).
    2: { rewrite rsum_plus, !rsum_scale, HO. unfold S, row_size. ring. }
    apply rsum_le. intros k Hk. rewrite !(Rabs_mult (T i k)). specialize (HX k Hk). unfold rounding in HX. fold u eta in HX.
    pose proof (Rmult_le_compat_l _ _ _ (Rabs_pos (T i k)) HX). lra. }
  assert (E3 : (1 - u) * S <= W + O * eta).
  { replace ((1 - u) * S) with (rsum n (fun k => (1 - u) * Rabs (T i k * (y k * alpha)))) by (rewrite rsum_scale; reflexivity).
    replace (W + O * eta) with (rsum n (fun k => Rabs (T i k * x k) + eta * Rabs (T i k)))
      by (rewrite rsum_plus, rsum_scale, HO; unfold W, row_size; ring).
    apply rsum_le. intros k Hk. rewrite !(Rabs_mult (T i k)). specialize (HX k Hk). unfold rounding in HX. fold u eta in HX.
    assert (HZ : (1 - u) * Rabs (y k * alpha) <= Rabs (x k) + eta).
    { pose proof (Rabs_triang_inv (y k * alpha) (x k)) as TI. rewrite (Rabs_minus_sym (y k * alpha)) in TI. lra. }
    pose proof (Rmult_le_compat_l _ _ _ (Rabs_pos (T i k)) HZ). lra. }
  assert (HU : 0 <= solve_unit prec n).
  { unfold solve_unit. fold u. assert (0 <= IZR (Z.max (n - 1) 2)) by (apply IZR_le; lia).
    pose proof (Rmult_le_pos _ _ H (Rlt_le _ _ (proj1 Hu))). pose proof (Rmult_lt_0_compat _ _ (proj1 Hu) (proj1 Hu)). lra. }
  assert (E4 : (solve_unit prec n + u) * S <= scaled_unit prec n * (W + O * eta)).
  { unfold scaled_unit. fold u. replace ((solve_unit prec n + u) * S) with ((solve_unit prec n + u) / (1 - u) * ((1 - u) * S)) by (field; lra).
    apply Rmult_le_compat_l; [|exact E3]. apply Rmult_le_pos; [lra|]. left. apply Rinv_0_lt_compat. lra. }
  replace (row n T x i - alpha * c) with ((row n T x i - row n T (fun k => y k * alpha) i) + (row n T (fun k => y k * alpha) i - alpha * c)) by ring.
  eapply Rle_trans; [apply Rabs_triang|].
  replace ((1 + scaled_unit prec n) * O * eta) with (O * eta + scaled_unit prec n * (O * eta)) by ring. lra.
Qed.
End Float.
