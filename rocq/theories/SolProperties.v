(** C95: triangular systems and products over float and double. *)
From Coq Require Import ZArith Reals List Lia Lra.
From Flocq Require Import Core BinarySingleNaN.
From Verif Require Import Base MatmulModel MatmulSpec BlasModel BlasSpec TriModel TriSpec AccModel AccSpec AccProofs NumModel NumBasics SolModel SolSpec SolProofs.
From Coq Require Import ZifyNat ZifyN ZifyBool.
Ltac Zify.zify_post_hook ::= idtac.
Import ListNotations.
Local Open Scope R_scope.

Local Notation dbl := (fint 53 1024 eq_refl eq_refl).
Local Notation "x ./ y" := (fdiv 53 1024 eq_refl eq_refl x y) (at level 40).
Local Notation trsv64 := (ftrsv 53 1024 eq_refl eq_refl).
Local Notation trmv64 := (ftrmv 53 1024 eq_refl eq_refl).

(** trsv writes the vector only, and each finite element satisfies its equation up to a few roundings of the terms
    of that equation, whatever the order of magnitude of the matrix. *)
Theorem C95_trsv_residual : forall prec emax (Hp : Prec_gt_0 prec) (Hm : Prec_lt_emax prec emax) o up t dg n a lda x inc (m : list (binary_float prec emax)),
  inc <> 0%Z -> inside m x inc n -> kept_apart m o up dg n a lda (in_vector x inc n) -> finite_triangle o up dg n a lda m ->
  exists m', ftrsv prec emax Hp Hm o up t dg n a lda x inc m = Ok m' /\ changes (fzero prec emax) m m' (in_vector x inc n) /\
    forall i, (0 <= i < n)%Z -> is_finite (val (fzero prec emax) m' (elt x inc n i)) = true ->
      let T := real_triangle (fone prec emax Hp Hm) o up t dg a lda m in let y := real_vector x inc n m' in
      is_finite (val (fzero prec emax) m (elt x inc n i)) = true /\ T i i <> 0 /\
      Rabs (row n T y i - real_vector x inc n m i) <= solve_bound prec emax n T y i.
Proof. exact trsv_float. Qed.
Print Assumptions C95_trsv_residual.

(** Backward stability: the computed vector solves exactly (up to underflow) a system whose entries differ from those of the
    matrix by a relative error of at most max(n - 1, 2) roundings. *)
Theorem C95_trsv_backward : forall prec emax (Hp : Prec_gt_0 prec) (Hm : Prec_lt_emax prec emax) o up t dg n a lda x inc (m : list (binary_float prec emax)),
  inc <> 0%Z -> inside m x inc n -> kept_apart m o up dg n a lda (in_vector x inc n) -> finite_triangle o up dg n a lda m ->
  exists m', ftrsv prec emax Hp Hm o up t dg n a lda x inc m = Ok m' /\ changes (fzero prec emax) m m' (in_vector x inc n) /\
    (finite_vector x inc n m' ->
      let T := real_triangle (fone prec emax Hp Hm) o up t dg a lda m in let y := real_vector x inc n m' in
      exists D : Z -> Z -> R,
        (forall i j, Rabs (D i j) <= solve_unit prec n * Rabs (T i j)) /\
        (forall i, (0 <= i < n)%Z ->
           Rabs (row n (fun i j => T i j + D i j) y i - real_vector x inc n m i) <= solve_slack prec emax n (T i i))).
Proof.
  intros prec emax Hp Hm o up t dg n a lda x inc m Hinc Hin HA HF.
  destruct (trsv_float prec emax Hp Hm o up t dg n a lda x inc m Hinc Hin HA HF) as (m' & E & C & V).
  exists m'. split; [exact E|]. split; [exact C|]. intros FV. cbv zeta.
  set (T := real_triangle _ o up t dg a lda m) in *. set (y := real_vector x inc n m') in *.
  assert (G : forall i, exists D : Z -> R, (forall j, Rabs (D j) <= solve_unit prec n * Rabs (T i j)) /\
     ((0 <= i < n)%Z -> Rabs (rsum n (fun j => (T i j + D j) * y j) - real_vector x inc n m i) <= solve_slack prec emax n (T i i))).
  { intros i. assert (UP := u_pos prec). assert (C0 : 0 <= solve_unit prec n).
    { unfold solve_unit. assert (0 <= IZR (Z.max (n - 1) 2)) by (apply IZR_le; lia). apply Rplus_le_le_0_compat; apply Rmult_le_pos; lra. }
    destruct (Z_lt_le_dec i 0) as [L|L]; [|destruct (Z_lt_le_dec i n) as [L2|L2]].
    1, 3: exists (fun _ => 0); split; [intros j; rewrite Rabs_R0; apply Rmult_le_pos; [exact C0|apply Rabs_pos]|intros; lia].
    destruct (V i (conj L L2) (FV i (conj L L2))) as (_ & _ & R).
    destruct (perturbed n (T i) y (real_vector x inc n m i) (solve_unit prec n) (solve_slack prec emax n (T i i)) C0) as (D & D1 & D2).
    - unfold solve_slack. pose proof (eta_pos prec emax). assert (0 <= IZR n) by (apply IZR_le; lia). pose proof (Rabs_pos (T i i)).
      apply Rmult_le_pos; [|lra]. apply Rplus_le_le_0_compat; apply Rmult_le_pos; try lra. apply Rplus_le_le_0_compat; [lra|]. apply Rmult_le_pos; lra.
    - exact R.
    - exists D. split; [exact D1|]. intros _. exact D2. }
  assert (F : forall q, (0 <= q)%Z -> exists D : Z -> Z -> R, (forall i j, Rabs (D i j) <= solve_unit prec n * Rabs (T i j)) /\
     (forall i, (0 <= i < q)%Z -> (i < n)%Z -> Rabs (row n (fun i j => T i j + D i j) y i - real_vector x inc n m i) <= solve_slack prec emax n (T i i))).
  { apply natlike_ind.
    - exists (fun _ _ => 0). split; [|intros; lia]. intros i j. destruct (G i) as (D & D1 & _). rewrite Rabs_R0. eapply Rle_trans; [apply Rabs_pos|apply (D1 j)].
    - intros q Hq (D & D1 & D2). destruct (G q) as (N & N1 & N2). exists (fun i j => if (i =? q)%Z then N j else D i j). split.
      + intros i j. destruct (Z.eqb_spec i q) as [-> |]; auto.
      + intros i Hi Hn. unfold row. destruct (Z.eqb_spec i q) as [-> |]; [apply N2; lia|]. apply D2; lia. }
  destruct (Z_lt_le_dec n 0) as [L|L].
  - destruct (F 0%Z) as (D & D1 & _); [lia|]. exists D. split; [exact D1|]. intros; lia.
  - destruct (F n L) as (D & D1 & D2). exists D. split; [exact D1|]. intros i Hi. apply D2; lia.
Qed.
Print Assumptions C95_trsv_backward.

(** The matrix (4 1 2; 0 2 3; 0 0 5), the vector at 9 and one element behind. *)
Definition C95_memory : list (binary_float 53 1024) := map dbl [4; 1; 2; 9; 2; 3; 9; 9; 5; 12; 19; 25; 7]%Z.
Lemma C95_place : inside C95_memory 9 1 3 /\ kept_apart C95_memory RowMajor Upper NonUnit 3 0 3 (in_vector 9 1 3) /\
  finite_triangle RowMajor Upper NonUnit 3 0 3 C95_memory /\ finite_vector 9 1 3 C95_memory.
Proof.
  split; [|split; [|split]].
  - intros i Hi. unfold elt. change (1 <? 0)%Z with false. cbn [length map C95_memory]. lia.
  - intros i j Hi Hj K. cbn [cell]. assert (i <= j)%Z by (destruct (i <=? j)%Z eqn:E; [lia|]; unfold kept in K; lia).
    split; [cbn [length map C95_memory]; lia|]. intros (k & Hk & E). unfold elt in E. change (1 <? 0)%Z with false in E. cbv iota in E. lia.
  - intros i j Hi Hj _. assert (Hc : (i = 0 \/ i = 1 \/ i = 2)%Z) by lia. assert (Hd : (j = 0 \/ j = 1 \/ j = 2)%Z) by lia.
    destruct Hc as [-> | [-> | ->]]; destruct Hd as [-> | [-> | ->]]; vm_compute; reflexivity.
  - intros i Hi. assert (Hc : (i = 0 \/ i = 1 \/ i = 2)%Z) by lia. destruct Hc as [-> | [-> | ->]]; vm_compute; reflexivity.
Qed.
(** Its solution is (0, 2, 5); that of the transposed system is (3, 8, -1). *)
Example C95_trsv_ex :
  omap (map B2SF) (trsv64 RowMajor Upper NoTrans NonUnit 3 0 3 9 1 C95_memory) =
    Ok (map (fun z => B2SF (dbl z)) [4; 1; 2; 9; 2; 3; 9; 9; 5; 0; 2; 5; 7]%Z) /\
  omap (map B2SF) (trsv64 RowMajor Upper Trans NonUnit 3 0 3 9 1 C95_memory) =
    Ok (map B2SF (map dbl [4; 1; 2; 9; 2; 3; 9; 9; 5; 3; 8]%Z ++ [dbl (-5) ./ dbl 5; dbl 7])).
Proof. split; vm_compute; reflexivity. Qed.

(** Hence the distance to the exact solution z: at most |inverse| times the residuals. *)
Theorem C95_trsv_forward : forall prec emax (Hp : Prec_gt_0 prec) (Hm : Prec_lt_emax prec emax) o up t dg n a lda x inc (m : list (binary_float prec emax)) (W : Z -> Z -> R) (z : Z -> R),
  inc <> 0%Z -> inside m x inc n -> kept_apart m o up dg n a lda (in_vector x inc n) -> finite_triangle o up dg n a lda m ->
  let T := real_triangle (fone prec emax Hp Hm) o up t dg a lda m in
  (forall i j, (0 <= i < n)%Z -> (0 <= j < n)%Z -> rsum n (fun k => W i k * T k j) = if (i =? j)%Z then 1 else 0) ->
  (forall i, (0 <= i < n)%Z -> row n T z i = real_vector x inc n m i) ->
  exists m', ftrsv prec emax Hp Hm o up t dg n a lda x inc m = Ok m' /\
    (finite_vector x inc n m' -> forall i, (0 <= i < n)%Z ->
       Rabs (real_vector x inc n m' i - z i) <= rsum n (fun j => Rabs (W i j) * solve_bound prec emax n T (real_vector x inc n m') j)).
Proof.
  intros prec emax Hp Hm o up t dg n a lda x inc m W z Hinc Hin HA HF T HW HZ.
  destruct (trsv_float prec emax Hp Hm o up t dg n a lda x inc m Hinc Hin HA HF) as (m' & E & C & V).
  exists m'. split; [exact E|]. intros FV. apply (forward n W T _ z _ _ HW HZ). intros i Hi. now apply V; [|apply FV].
Qed.
Print Assumptions C95_trsv_forward.

(** A system of integers with a solution in the integers is solved exactly while the terms of each equation stay below 2^prec. *)
Theorem C95_trsv_integers : forall prec emax (Hp : Prec_gt_0 prec) (Hm : Prec_lt_emax prec emax) o up t dg n a lda x inc (m : list (binary_float prec emax)) (z : Z -> R),
  inc <> 0%Z -> inside m x inc n -> kept_apart m o up dg n a lda (in_vector x inc n) -> finite_triangle o up dg n a lda m -> finite_vector x inc n m ->
  let T := real_triangle (fone prec emax Hp Hm) o up t dg a lda m in
  (forall i j, (0 <= i < n)%Z -> (0 <= j < n)%Z -> integral (T i j)) ->
  (forall i, (0 <= i < n)%Z -> T i i <> 0 /\ integral (z i) /\ row n T z i = real_vector x inc n m i /\ row_size n T z i <= bpow radix2 prec) ->
  exists m', ftrsv prec emax Hp Hm o up t dg n a lda x inc m = Ok m' /\ changes (fzero prec emax) m m' (in_vector x inc n) /\
    finite_vector x inc n m' /\ forall i, (0 <= i < n)%Z -> real_vector x inc n m' i = z i.
Proof. exact trsv_integers. Qed.
Print Assumptions C95_trsv_integers.
(** The hypotheses hold of the system above and its solution (0, 2, 5). *)
Local Ltac values := repeat match goal with |- context [nth ?a ?l ?d] => let v := eval vm_compute in (nth a l d) in change (nth a l d) with v end.
Example C95_trsv_integers_ex :
  let T := real_triangle (fone 53 1024 eq_refl eq_refl) RowMajor Upper NoTrans NonUnit 0 3 C95_memory in
  let z := fun i => IZR (nth (Z.to_nat i) [0; 2; 5]%Z 0%Z) in
  (forall i j, (0 <= i < 3)%Z -> (0 <= j < 3)%Z -> integral (T i j)) /\
  (forall i, (0 <= i < 3)%Z -> T i i <> 0 /\ integral (z i) /\ row 3 T z i = real_vector 9 1 3 C95_memory i /\ row_size 3 T z i <= bpow radix2 53).
Proof.
  cbv zeta. set (T := real_triangle _ _ _ _ _ _ _ _).
  assert (D : forall z, (Z.abs z <= 100)%Z -> B2R (dbl z) = IZR z) by (intros z Hz; apply (fint_exact 53 1024 eq_refl eq_refl z); lia).
  assert (V : forall i j, (0 <= i < 3)%Z -> (0 <= j < 3)%Z -> T i j = IZR (nth (Z.to_nat (3 * i + j)) [4; 1; 2; 0; 2; 3; 0; 0; 5]%Z 0%Z)).
  { intros i j Hi Hj. assert (Hc : (i = 0 \/ i = 1 \/ i = 2)%Z) by lia. assert (Hd : (j = 0 \/ j = 1 \/ j = 2)%Z) by lia.
    destruct Hc as [-> | [-> | ->]]; destruct Hd as [-> | [-> | ->]]; 
      match goal with |- _ = IZR ?e => let v := eval vm_compute in e in change e with v; rewrite <- (D v) by lia; reflexivity end. }
  clearbody T.
  split.
  - intros i j Hi Hj. rewrite V by assumption. eexists. reflexivity.
  - intros i Hi. rewrite V by assumption.
    assert (B : bpow radix2 53 = 9007199254740992) by reflexivity.
    assert (R : row 3 T (fun i => IZR (nth (Z.to_nat i) [0; 2; 5]%Z 0%Z)) i = T i 0%Z * 0 + T i 1%Z * 2 + T i 2%Z * 5) by (change (0 + T i 0%Z * 0 + T i 1%Z * 2 + T i 2%Z * 5 = T i 0%Z * 0 + T i 1%Z * 2 + T i 2%Z * 5); ring).
    assert (S : row_size 3 T (fun i => IZR (nth (Z.to_nat i) [0; 2; 5]%Z 0%Z)) i = Rabs (T i 0%Z * 0) + Rabs (T i 1%Z * 2) + Rabs (T i 2%Z * 5)) by (change (0 + Rabs (T i 0%Z * 0) + Rabs (T i 1%Z * 2) + Rabs (T i 2%Z * 5) = Rabs (T i 0%Z * 0) + Rabs (T i 1%Z * 2) + Rabs (T i 2%Z * 5)); ring).
    rewrite R, S, B, !V by (assumption || lia). unfold real_vector.
    assert (Hc : (i = 0 \/ i = 1 \/ i = 2)%Z) by lia.
    split; [|split; [eexists; reflexivity|split]].
    + destruct Hc as [-> | [-> | ->]]; values; lra.
    + destruct Hc as [-> | [-> | ->]]; values;
        [replace (val _ _ _) with (dbl 12) by reflexivity|replace (val _ _ _) with (dbl 19) by reflexivity|replace (val _ _ _) with (dbl 25) by reflexivity];
        rewrite D by lia; lra.
    + destruct Hc as [-> | [-> | ->]]; values; rewrite !Rabs_pos_eq by lra; lra.
Qed.

(** Nothing reports a singular system, or one whose solution is too large: the answer is just not finite. *)
Theorem C95_trsv_finite_refuted :
  ~ (forall o up t dg n a lda x inc (m m' : list (binary_float 53 1024)),
       inc <> 0%Z -> inside m x inc n -> kept_apart m o up dg n a lda (in_vector x inc n) -> finite_triangle o up dg n a lda m -> finite_vector x inc n m ->
       trsv64 o up t dg n a lda x inc m = Ok m' -> finite_vector x inc n m').
Proof.
  intros H.
  assert (E : exists m', trsv64 RowMajor Upper NoTrans NonUnit 1 0 1 1 1 [dbl 0; dbl 3] = Ok m' /\ is_finite (val (B754_zero false) m' 1) = false).
  { eexists. split; vm_compute; reflexivity. }
  destruct E as (m' & E & F). specialize (H RowMajor Upper NoTrans NonUnit 1%Z 0%Z 1%Z 1%Z 1%Z [dbl 0; dbl 3] m' ltac:(discriminate)).
  assert (G : finite_vector 1 1 1 m'); [apply H; [| | | |exact E]|specialize (G 0%Z ltac:(lia)); change (elt 1 1 1 0)%Z with 1%Z in G; rewrite G in F; discriminate F].
  - intros i Hi. unfold elt. change (1 <? 0)%Z with false. cbn [length]. lia.
  - intros i j Hi Hj K. assert (i = 0 /\ j = 0)%Z as (-> & ->) by lia. split; [cbn; lia|]. intros (k & Hk & Q). assert (k = 0)%Z as -> by lia. discriminate Q.
  - intros i j Hi Hj K. assert (i = 0 /\ j = 0)%Z as (-> & ->) by lia. vm_compute. reflexivity.
  - intros i Hi. assert (i = 0)%Z as -> by lia. vm_compute. reflexivity.
Qed.
Print Assumptions C95_trsv_finite_refuted.

(** trmv: each finite element is within one rounding per term of the exact product. *)
Theorem C95_trmv : forall prec emax (Hp : Prec_gt_0 prec) (Hm : Prec_lt_emax prec emax) o up t dg n a lda x inc (m : list (binary_float prec emax)),
  inc <> 0%Z -> inside m x inc n -> kept_apart m o up dg n a lda (in_vector x inc n) ->
  exists m', ftrmv prec emax Hp Hm o up t dg n a lda x inc m = Ok m' /\ changes (fzero prec emax) m m' (in_vector x inc n) /\
    forall i, (0 <= i < n)%Z -> is_finite (val (fzero prec emax) m' (elt x inc n i)) = true ->
      let T := real_triangle (fone prec emax Hp Hm) o up t dg a lda m in let y := real_vector x inc n m in
      Rabs (real_vector x inc n m' i - row n T y i) <= dot_bound prec emax (Z.to_nat n) (row_size n T y i).
Proof. exact trmv_float. Qed.
Print Assumptions C95_trmv.
Example C95_trmv_ex :
  omap (map B2SF) (trmv64 RowMajor Upper NoTrans NonUnit 3 0 3 9 1 C95_memory) =
    Ok (map (fun z => B2SF (dbl z)) [4; 1; 2; 9; 2; 3; 9; 9; 5; 117; 113; 125; 7]%Z) /\
  omap (map B2SF) (trmv64 RowMajor Upper Trans Unit 3 0 3 9 1 C95_memory) =
    Ok (map (fun z => B2SF (dbl z)) [4; 1; 2; 9; 2; 3; 9; 9; 5; 12; 31; 106; 7]%Z).
Proof. split; vm_compute; reflexivity. Qed.
