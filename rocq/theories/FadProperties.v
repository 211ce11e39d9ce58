(** C117: adding and scaling vectors and matrices of float and double. *)
From Coq Require Import ZArith Reals List Lia Lra Bool.
From Flocq Require Import Core BinarySingleNaN.
From Verif Require Import Base MatmulModel BlasModel BlasSpec BlasProofs TriModel TriSpec SymModel SymSpec SymProofs PackSpec ExtModel ExtSpec ExtProofs
  AccModel AccSpec AccProofs NumModel NumBasics FadModel FadSpec FadProofs.
From Coq Require Import ZifyNat ZifyN ZifyBool.
Ltac Zify.zify_post_hook ::= idtac.
Import ListNotations.
Local Open Scope R_scope.

Local Notation num64 := (binary_float 53 1024).
Local Notation dbl := (fint 53 1024 eq_refl eq_refl).
Local Notation values l := (map (fun k => B2SF (dbl k)) l).
Local Notation finite x := (is_finite x = true).
Local Notation u := unit_roundoff.
Local Notation eta := underflow_unit.

(** Vectors: y + alpha x, beta y + alpha x and y + x / alpha.  If beta is zero the old elements of y may be anything. *)
Theorem C117_vectors : forall prec emax (Hp : Prec_gt_0 prec) (Hm : Prec_lt_emax prec emax), (24 <= prec)%Z -> (3 * prec + 8 <= emax)%Z ->
  forall d alpha beta : binary_float prec emax, finite alpha -> finite beta ->
  each_pair d (faxpy prec emax Hp Hm alpha) (fun x y r => finite x -> finite y -> sum_of r (B2R y) (B2R alpha * B2R x)) /\
  each_pair d (faxpby prec emax Hp Hm alpha beta) (fun x y r => finite x -> B2R beta = 0 \/ finite y -> sum_of r (B2R beta * B2R y) (B2R alpha * B2R x)) /\
  (B2R alpha <> 0 -> each_pair d (fraxpy prec emax Hp Hm alpha) (fun x y r => finite x -> finite y -> sum_of r (B2R y) (B2R x / B2R alpha))).
Proof.
  intros prec emax Hp Hm P E d alpha beta FA FB. split; [|split].
  - eapply acts_pair; [apply axpy_acts|]. intros x y FX FY. apply plus_value; auto. apply product; auto.
  - eapply acts_pair; [apply axpby_plain|]. intros x y FX FY. apply (axpby_value prec emax Hp Hm P E); auto.
  - intros N. eapply acts_pair; [apply raxpy_acts|]. intros x y FX FY. apply plus_value; auto. apply quotient_value; auto.
Qed.
Print Assumptions C117_vectors.
Example C117_vectors_ex :
  match (faxpy 53 1024 eq_refl eq_refl (dbl 3) 2 0 1 2 (-1) [dbl 1; dbl 2; dbl 10; dbl 20])%Z with Ok m => map B2SF m = values [1; 2; 16; 23]%Z | _ => False end /\
  match (faxpby 53 1024 eq_refl eq_refl (dbl 3) (dbl 0) 2 0 1 2 1 [dbl 1; dbl 2; B754_nan; B754_infinity true])%Z with Ok m => map B2SF m = values [1; 2; 3; 6]%Z | _ => False end /\
  match (fraxpy 53 1024 eq_refl eq_refl (dbl 2) 1 0 1 1 1 [dbl 6; dbl 10])%Z with Ok m => map B2SF m = values [6; 13]%Z | _ => False end.
Proof. vm_compute. repeat split; reflexivity. Qed.

(** Multiplying or dividing a vector by a number rounds each element once. *)
Theorem C117_scale : forall prec emax (Hp : Prec_gt_0 prec) (Hm : Prec_lt_emax prec emax), (24 <= prec)%Z -> (3 * prec + 8 <= emax)%Z ->
  forall d alpha : binary_float prec emax, finite alpha ->
  each_element d (fscal prec emax Hp Hm alpha) (fun y r => finite y -> value_of r (B2R alpha * B2R y)) /\
  (B2R alpha <> 0 -> each_element d (frscal prec emax Hp Hm alpha) (fun y r => finite y -> value_of r (B2R y / B2R alpha))).
Proof.
  intros prec emax Hp Hm P E d alpha FA. split; [|intros N].
  - eapply acts1_element; [apply scal_acts|]. intros y FY. rewrite Rmult_comm. apply product; auto.
  - eapply acts1_element; [apply rscal_acts|]. intros y FY. apply quotient_value; auto.
Qed.
Print Assumptions C117_scale.
Example C117_scale_ex :
  match (fscal 53 1024 eq_refl eq_refl (dbl 3) 2 0 2 [dbl 1; dbl 2; dbl 5])%Z with Ok m => map B2SF m = values [3; 2; 15]%Z | _ => False end /\
  match (frscal 53 1024 eq_refl eq_refl (dbl 4) 2 1 1 [dbl 1; dbl 8; dbl 12])%Z with Ok m => map B2SF m = values [1; 2; 3]%Z | _ => False end.
Proof. vm_compute. split; reflexivity. Qed.

(** The same for whole matrices in every order and mode: B + alpha op(A), beta B + alpha op(A), B + op(A) / alpha (for this one the
    conjugating modes are not implemented, see C90_geraxpy_refuted). *)
Theorem C117_matrices : forall prec emax (Hp : Prec_gt_0 prec) (Hm : Prec_lt_emax prec emax), (24 <= prec)%Z -> (3 * prec + 8 <= emax)%Z ->
  forall (d alpha beta : binary_float prec emax) t asserts, finite alpha -> finite beta ->
  each_entry d (fgeaxpy prec emax Hp Hm alpha) t (fun x y r => finite x -> finite y -> sum_of r (B2R y) (B2R alpha * B2R x)) /\
  each_entry d (fgeaxpby prec emax Hp Hm alpha beta) t
    (fun x y r => finite x -> B2R beta = 0 \/ finite y -> sum_of r (B2R beta * B2R y) (B2R alpha * B2R x)) /\
  (B2R alpha <> 0 -> is_conj t = false ->
     each_entry d (fgeraxpy prec emax Hp Hm asserts alpha) t (fun x y r => finite x -> finite y -> sum_of r (B2R y) (B2R x / B2R alpha))).
Proof.
  intros prec emax Hp Hm P E d alpha beta t asserts FA FB. split; [|split].
  - eapply dense_entry; [apply axpy_acts|apply acxpy_acts|]. intros x y.
    destruct (is_conj t); intros FX FY; exact (plus_value prec emax Hp Hm P E y _ _ FY (product prec emax Hp Hm P E alpha x FA FX)).
  - eapply dense_entry; [apply axpby_plain|apply acxpby_plain|]. intros x y.
    destruct (is_conj t); intros FX FY; exact (axpby_value prec emax Hp Hm P E alpha beta x y FA FB FX FY).
  - intros N Cj o rows cols a lda b ldb m Hr Hc Hl Ht Hin Hs. unfold fgeraxpy, geraxpy. rewrite Cj.
    assert (D : each_entry d (dense (raxpy (fadd prec emax Hp Hm) (fdiv prec emax Hp Hm) alpha) (racxpy (fadd prec emax Hp Hm) (fdiv prec emax Hp Hm) (fun v => v) alpha)) t
      (fun x y r => finite x -> finite y -> sum_of r (B2R y) (B2R x / B2R alpha))).
    { eapply dense_entry; [apply raxpy_acts|apply racxpy_acts|]. intros x y. rewrite Cj. intros FX FY.
      exact (plus_value prec emax Hp Hm P E y _ _ FY (quotient_value prec emax Hp Hm P E x alpha FX N)). }
    exact (D o rows cols a lda b ldb m Hr Hc Hl Ht Hin Hs).
Qed.
Print Assumptions C117_matrices.
Example C117_matrices_ex :
  match (fgeaxpby 53 1024 eq_refl eq_refl (dbl 2) (dbl 10) RowMajor Trans 1 2 0 1 2 2 [dbl 1; dbl 2; dbl 3; dbl 4])%Z with
    Ok m => map B2SF m = values [1; 2; 32; 44]%Z | _ => False end.
Proof. vm_compute. reflexivity. Qed.
(** Dividing a matrix by a number *)
Theorem C117_divide : forall prec emax (Hp : Prec_gt_0 prec) (Hm : Prec_lt_emax prec emax), (24 <= prec)%Z -> (3 * prec + 8 <= emax)%Z ->
  forall (d alpha : binary_float prec emax) o rows cols a lda m, B2R alpha <> 0 ->
  (0 <= rows)%Z -> (0 <= cols)%Z -> leading o rows cols lda -> held_inside all_held (cell o a lda) m rows cols ->
  exists m', fgerscal prec emax Hp Hm o rows cols alpha a lda m = Ok m' /\ changes d m m' (held_cells all_held (cell o a lda) rows cols) /\
    forall i j, (0 <= i < rows)%Z -> (0 <= j < cols)%Z -> finite (val d m (cell o a lda i j)) ->
      value_of (val d m' (cell o a lda i j)) (B2R (val d m (cell o a lda i j)) / B2R alpha).
Proof.
  intros prec emax Hp Hm P E d alpha o rows cols a lda m N Hr Hc Hl Hin.
  destruct (gerscal_ok d (fdiv prec emax Hp Hm) o rows cols alpha a lda m Hr Hc Hl Hin) as (m' & K & C & V). exists m'. split; [exact K|]. split; [exact C|].
  intros i j Hi Hj F. rewrite (V i j Hi Hj eq_refl). apply quotient_value; auto.
Qed.
Print Assumptions C117_divide.
Example C117_divide_ex :
  match (fgerscal 53 1024 eq_refl eq_refl ColMajor 1 2 (dbl 2) 0 2 [dbl 8; dbl 7; dbl 6; dbl 5])%Z with Ok m => map B2SF m = values [4; 7; 3; 5]%Z | _ => False end.
Proof. vm_compute. reflexivity. Qed.

(** ger: A + alpha x y^T.  The first factor is that of the outer loop: x for matrices kept by rows, y for those kept by columns; its
    product with alpha must not overflow and may underflow, which the second factor magnifies. *)
Theorem C117_ger : forall prec emax (Hp : Prec_gt_0 prec) (Hm : Prec_lt_emax prec emax), (24 <= prec)%Z -> (3 * prec + 8 <= emax)%Z ->
  forall d o rows cols alpha x incX y incY a lda (m : list (binary_float prec emax)), finite alpha ->
  leading o rows cols lda -> block_inside m o a lda rows cols ->
  vector_apart m x incX rows (block o a lda rows cols) -> vector_apart m y incY cols (block o a lda rows cols) ->
  exists m', fger prec emax Hp Hm o rows cols alpha x incX y incY a lda m = Ok m' /\ changes d m m' (block o a lda rows cols) /\
    forall i j, (0 <= i < rows)%Z -> (0 <= j < cols)%Z ->
      let c := entry d o a lda m i j in let xi := val d m (elt x incX rows i) in let yj := val d m (elt y incY cols j) in
      let first := match o with RowMajor => xi | ColMajor => yj end in let second := match o with RowMajor => yj | ColMajor => xi end in
      let w := Rabs (B2R c) + Rabs (B2R alpha * B2R xi * B2R yj) in
      finite c -> finite xi -> finite yj -> Rabs (B2R alpha * B2R first) <= bpow radix2 (emax - 2) -> w <= bpow radix2 (emax - 2) ->
      finite (entry d o a lda m' i j) /\
      Rabs (B2R (entry d o a lda m' i j) - (B2R c + B2R alpha * B2R xi * B2R yj)) <= 4 * u prec * w + 2 * (1 + Rabs (B2R second)) * eta prec emax.
Proof.
  intros prec emax Hp Hm P E d o rows cols alpha x incX y incY a lda m FA Hl Hin Hx Hy.
  destruct (ger_plain d (fadd prec emax Hp Hm) (fmul prec emax Hp Hm) o rows cols alpha x incX y incY a lda m Hl Hin Hx Hy) as (m' & K & C & V).
  exists m'. split; [exact K|]. split; [exact C|]. intros i j Hi Hj. specialize (V i j Hi Hj). cbv zeta in V |- *. rewrite V.
  set (c := entry d o a lda m i j). set (xi := val d m (elt x incX rows i)). set (yj := val d m (elt y incY cols j)). clearbody c xi yj. clear - P E FA.
  intros FC FX FY B1 W. destruct o.
  - apply (ger_value prec emax Hp Hm P E c alpha xi yj); auto.
  - replace (B2R alpha * B2R xi * B2R yj) with (B2R alpha * B2R yj * B2R xi) in * by ring. apply (ger_value prec emax Hp Hm P E c alpha yj xi); auto.
Qed.
Print Assumptions C117_ger.
Example C117_ger_ex :
  match (fger 53 1024 eq_refl eq_refl ColMajor 2 2 (dbl 2) 0 1 2 (-1) 4 2 [dbl 1; dbl 2; dbl 3; dbl 5; dbl 0; dbl 1; dbl 0; dbl 1])%Z with
    Ok m => map B2SF m = values [1; 2; 3; 5; 10; 21; 6; 13]%Z | _ => False end.
Proof. vm_compute. reflexivity. Qed.

(** On integers whose results fit into the significand, y + alpha x is exact. *)
Theorem C117_integers : forall prec emax (Hp : Prec_gt_0 prec) (Hm : Prec_lt_emax prec emax), (24 <= prec)%Z -> (3 * prec + 8 <= emax)%Z ->
  forall (d alpha : binary_float prec emax) b, finite alpha -> B2R alpha = IZR b ->
  each_pair d (faxpy prec emax Hp Hm alpha) (fun x y r => forall a c, finite x -> finite y -> B2R y = IZR a -> B2R x = IZR c ->
    (Z.abs a + Z.abs (b * c) <= 2 ^ prec)%Z -> finite r /\ B2R r = IZR (a + b * c)).
Proof.
  intros prec emax Hp Hm P E d alpha b FA VA. eapply acts_pair; [apply axpy_acts|]. intros x y a c FX FY VY VX W.
  apply integer_value; auto.
Qed.
Print Assumptions C117_integers.
Example C117_integers_ex : match (faxpy 53 1024 eq_refl eq_refl (dbl (2 ^ 26)) 1 0 1 1 1 [dbl (2 ^ 27 - 1); dbl (2 ^ 26 - 1)])%Z with
  Ok m => map B2SF m = values [2 ^ 27 - 1; 2 ^ 53 - 1]%Z | _ => False end.
Proof. vm_compute. reflexivity. Qed.

(** alpha = 0 does not mean that x is ignored: an infinity in x makes the element of y not a number (beta = 0 does mean that y is). *)
Theorem C117_alpha_zero_refuted : exists m m' : list num64, (faxpy 53 1024 eq_refl eq_refl (dbl 0) 1 0 1 1 1 m)%Z = Ok m' /\
  B2SF (val (dbl 0) m 1) = B2SF (dbl 1) /\ is_nan (val (dbl 0) m' 1) = true.
Proof.
  exists [B754_infinity false; dbl 1], [B754_infinity false; B754_nan]. split; [reflexivity|]. split; reflexivity.
Qed.
Print Assumptions C117_alpha_zero_refuted.
(** A rank-one update can overflow although its result is small: the product of alpha and the first factor is formed first. *)
Theorem C117_ger_order_refuted : exists m : list num64,
  map B2SF m = [B2SF (dbl (2 ^ 100)); B2SF (fdiv 53 1024 eq_refl eq_refl (dbl 1) (dbl (2 ^ 200))); B2SF (dbl 0)] /\
  match (fger 53 1024 eq_refl eq_refl RowMajor 1 1 (dbl (2 ^ 1000)) 0 1 1 1 2 1 m)%Z with Ok m' => is_finite (val (dbl 0) m' 2) = false | _ => False end /\
  match (fger 53 1024 eq_refl eq_refl ColMajor 1 1 (dbl (2 ^ 1000)) 0 1 1 1 2 1 m)%Z with Ok m' => B2SF (val (dbl 0) m' 2) = B2SF (dbl (2 ^ 900)) | _ => False end.
Proof.
  exists [dbl (2 ^ 100); fdiv 53 1024 eq_refl eq_refl (dbl 1) (dbl (2 ^ 200)); dbl 0]. split; [reflexivity|]. split; vm_compute; reflexivity.
Qed.
Print Assumptions C117_ger_order_refuted.
