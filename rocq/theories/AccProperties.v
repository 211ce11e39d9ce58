(** C80: accuracy of sums, dot products and matrix products of float and double. *)
From Coq Require Import ZArith Reals List Lia Lra.
From Flocq Require Import Core BinarySingleNaN.
From Verif Require BlasModel BlasSpec BlasProofs VectorModel VectorSpec.
From Verif Require Import Base ViewSpec MatmulModel MatmulSpec AccModel AccSpec AccLinear AccProofs.
Import ListNotations.
Open Scope R_scope.

(** Numbers of the format added up in any order, with any bracketing: each of the n - 1 additions costs
    at most one unit roundoff of the sum of the moduli. *)
Theorem C80_sum_any_order : forall prec emax l s, Prec_gt_0 prec ->
  (forall x, In x l -> generic_format radix2 (FLT_exp (3 - emax - prec) prec) x) ->
  added prec emax l s ->
  Rabs (s - exact_sum l) <= sum_bound prec (length l) (size_sum l).
Proof. intros prec emax l s Hp. apply (sum_any_order prec emax Hp). Qed.
Print Assumptions C80_sum_any_order.

(** The same for a sum of rounded terms, such as products. *)
Theorem C80_dot_any_order : forall prec emax ps s, Prec_gt_0 prec ->
  added prec emax (map (nearest prec emax) ps) s ->
  Rabs (s - exact_sum ps) <= dot_bound prec emax (length ps) (size_sum ps).
Proof. intros prec emax ps s Hp. apply (dot_any_order prec emax Hp). Qed.
Print Assumptions C80_dot_any_order.

(** The bundled BLAS: dot, dotu and asum, for any stride. *)
Theorem C80_blas : forall prec emax (Hp : Prec_gt_0 prec) (Hm : Prec_lt_emax prec emax) n x incX y incY (m : list (binary_float prec emax)),
  let zero := fzero prec emax in
  let add := fadd prec emax Hp Hm in
  let mul := fmul prec emax Hp Hm in
  BlasSpec.inside m x incX n -> BlasSpec.inside m y incY n ->
  let X := fun i => BlasSpec.val zero m (BlasSpec.elt x incX n (Z.of_nat i)) in
  let Y := fun i => BlasSpec.val zero m (BlasSpec.elt y incY n (Z.of_nat i)) in
  (exists r, BlasModel.dot zero add mul (fconj prec emax) n x incX y incY m = Ok r /\ accurate (Z.to_nat n) X Y r) /\
  (exists r, BlasModel.dotu zero add mul n x incX y incY m = Ok r /\ accurate (Z.to_nat n) X Y r) /\
  (exists r, BlasModel.asum zero add (fabs prec emax) n x incX m = Ok r /\
     (is_finite r = true ->
        Rabs (B2R r - total (Z.to_nat n) (fun i => Rabs (B2R (X i))))
          <= sum_bound prec (Z.to_nat n) (total (Z.to_nat n) (fun i => Rabs (B2R (X i)))))).
Proof.
  intros prec emax Hp Hm n x incX y incY m zero add mul HX HY X Y. split; [|split].
  - eexists. split; [apply (BlasProofs.dot_ok zero); auto|]. apply sum_accurate.
  - eexists. split; [apply (BlasProofs.dotu_ok zero); auto|]. apply sum_accurate.
  - eexists. split; [apply (BlasProofs.asum_ok zero); auto|]. intros F.
    pose proof (sum_error prec emax Hp Hm (Z.to_nat n) _ F) as E. unfold fabs in E.
    assert (T : forall k f g, (forall i, f i = g i) -> total k f = total k g).
    { intros k f g H. unfold total. induction k as [|k IH]; cbn [sum]; [auto|]. rewrite IH, H. auto. }
    rewrite (T _ (fun i => B2R (Babs (X i))) (fun i => Rabs (B2R (X i)))) in E by (intros i; apply B2R_Babs).
    rewrite (T _ (fun i => Rabs (B2R (Babs (X i)))) (fun i => Rabs (B2R (X i)))) in E by (intros i; rewrite B2R_Babs; apply Rabs_Rabsolu).
    exact E.
Qed.
Print Assumptions C80_blas.

(** Matrix products: any schedule of the threads, whatever the new storage held before. *)
Theorem C80_matmul : forall prec emax (Hp : Prec_gt_0 prec) (Hm : Prec_lt_emax prec emax) asserts sched junk
    (e1 e2 : @lexpr (binary_float prec emax)) m k n f g,
  let mul := fmul prec emax Hp Hm in
  let one := fone prec emax Hp Hm in
  (forall m n k, interleaving n (column_program m k) (sched m n k)) ->
  unscaled one e1 -> unscaled one e2 -> lmatrix mul e1 m k f -> lmatrix mul e2 k n g -> (m * n < 2 ^ 32)%N ->
  exists out, dot (fzero prec emax) one (fadd prec emax Hp Hm) mul (fis_zero prec emax) asserts sched junk e1 e2 = Ok ([m; n], out) /\
    forall i j, (i < m)%N -> (j < n)%N -> exists r, element [m; n] out [i; j] = Some r /\
      accurate (N.to_nat k) (fun h => f (N.to_nat i) h) (fun h => g h (N.to_nat j)) r.
Proof.
  intros prec emax Hp Hm asserts sched junk e1 e2 m k n f g mul one HS U1 U2 H1 H2 HN.
  destruct (lf_dot_mm (fzero prec emax) one (fadd prec emax Hp Hm) mul (fis_zero prec emax) eq_refl (fone_not_zero prec emax Hp Hm)
    (fmul_1_l prec emax Hp Hm) (fmul_0_1 prec emax Hp Hm) (fadd_0_0 prec emax Hp Hm) asserts sched junk e1 e2 m k n f g HS U1 U2 H1 H2 HN) as (out & E & H).
  exists out. split; [exact E|]. intros i j Hi Hj. eexists. split; [apply H; auto|]. apply accurate_add_0, sum_accurate.
Qed.
Print Assumptions C80_matmul.

(** Matrix times vector, in the cases where it is defined (see C31). *)
Theorem C80_matvec : forall prec emax (Hp : Prec_gt_0 prec) (Hm : Prec_lt_emax prec emax) asserts sched junk
    (e1 e2 : @lexpr (binary_float prec emax)) m k f g,
  let mul := fmul prec emax Hp Hm in
  let one := fone prec emax Hp Hm in
  unscaled one e1 -> unscaled one e2 -> lmatrix mul e1 m k f -> lvector mul e2 k g ->
  (0 < k)%N -> Nat.odd (transposes e1) = false \/ m = k -> (m < 2 ^ 32)%N ->
  exists out, dot (fzero prec emax) one (fadd prec emax Hp Hm) mul (fis_zero prec emax) asserts sched junk e1 e2 = Ok ([m], out) /\
    forall i, (i < m)%N -> exists r, element [m] out [i] = Some r /\ accurate (N.to_nat k) (fun h => f (N.to_nat i) h) g r.
Proof.
  intros prec emax Hp Hm asserts sched junk e1 e2 m k f g mul one U1 U2 H1 H2 HK HT HM.
  destruct (lf_dot_mv (fzero prec emax) one (fadd prec emax Hp Hm) mul (fis_zero prec emax) eq_refl (fone_not_zero prec emax Hp Hm)
    (fmul_1_l prec emax Hp Hm) (fmul_0_1 prec emax Hp Hm) (fadd_0_0 prec emax Hp Hm) asserts sched junk e1 e2 m k f g U1 U2 H1 H2 HK HT HM) as (out & E & H).
  exists out. split; [exact E|]. intros i Hi. eexists. split; [apply H; auto|]. apply accurate_add_0, sum_accurate.
Qed.
Print Assumptions C80_matvec.

(** Vectors: the lanes are summed separately and then together; padding lanes that hold zeros do not
    count.  sum, mag2 (of an evaluated vector) and dot. *)
Theorem C80_vector : forall prec emax (Hp : Prec_gt_0 prec) (Hm : Prec_lt_emax prec emax) w asserts junk N
    (x y : VectorModel.vec (binary_float prec emax)),
  let zero := fzero prec emax in
  let add := fadd prec emax Hp Hm in
  let mul := fmul prec emax Hp Hm in
  (0 < w)%nat -> VectorModel.dims x = N -> VectorModel.dims y = N -> VectorSpec.storage w x -> VectorSpec.storage w y ->
  length junk = (VectorModel.packets w N * w)%nat ->
  Forall (eq zero) (VectorSpec.padding x) -> Forall (eq zero) (VectorSpec.padding y) ->
  (exists r, VectorModel.ssum w zero add x = Ok r /\
     (is_finite r = true -> Rabs (B2R r - exact_sum (map B2R (VectorSpec.elements x)))
        <= sum_bound prec N (size_sum (map B2R (VectorSpec.elements x))))) /\
  (exists r, VectorModel.ssum2 w zero add mul x = Ok r /\
     (is_finite r = true -> Rabs (B2R r - exact_sum (map (fun a => B2R a * B2R a) (VectorSpec.elements x)))
        <= dot_bound prec emax N (size_sum (map (fun a => B2R a * B2R a) (VectorSpec.elements x))))) /\
  (exists r, VectorModel.dot w asserts zero add mul junk (VectorModel.V x) (VectorModel.V y) = Ok r /\
     (is_finite r = true ->
        let p := fun i => B2R (nth i (VectorSpec.elements x) zero) * B2R (nth i (VectorSpec.elements y) zero) in
        Rabs (B2R r - total N p) <= dot_bound prec emax N (total N (fun i => Rabs (p i))))).
Proof.
  intros prec emax Hp Hm w asserts junk N x y zero add mul Hw Dx Dy Sx Sy Hj Zx Zy.
  assert (ZX : Forall (fun a => fis_zero prec emax a = true) (VectorSpec.padding x)).
  { eapply Forall_impl; [|exact Zx]. intros a <-. reflexivity. }
  split; [|split].
  - destruct (vector_sum_ok prec emax Hp Hm w x Hw Sx ZX) as (r & E & H). exists r. split; [exact E|]. intros F. rewrite Dx in H. apply H, F.
  - destruct (vector_squares_ok prec emax Hp Hm w x Hw Sx ZX) as (r & E & H). exists r. split; [exact E|]. intros F. rewrite Dx in H. apply H, F.
  - destruct (vector_dot_ok prec emax Hp Hm w asserts junk N x y Hw Dx Dy Sx Sy Hj Zx Zy) as (r & E & H). exists r. split; [exact E|].
    intros F p. apply H, F.
Qed.
Print Assumptions C80_vector.

(** float and double *)
Example C80_float_prec : Prec_gt_0 24 := eq_refl.
Example C80_float_emax : Prec_lt_emax 24 128 := eq_refl.
Example C80_double_prec : Prec_gt_0 53 := eq_refl.
Example C80_double_emax : Prec_lt_emax 53 1024 := eq_refl.
(** An integer as a double. *)
Example C80_of_int (z : Z) : binary_float 53 1024 := binary_normalize 53 1024 C80_double_prec C80_double_emax mode_NE z 0 false.

(** A dot product that is not exact: 1e16 * 1 + 1 * 1 - 1e16 * 1 gives 0 instead of 1; the bound allows it. *)
Example C80_inexact :
  omap B2SF (BlasModel.dotu (fzero 53 1024) (fadd 53 1024 C80_double_prec C80_double_emax) (fmul 53 1024 C80_double_prec C80_double_emax) 3 0 1 3 1
    (map C80_of_int [10 ^ 16; 1; - 10 ^ 16; 1; 1; 1]%Z)) = Ok (B2SF (C80_of_int 0)).
Proof. vm_compute. reflexivity. Qed.
(** A product of integer matrices whose new storage held a NaN and an infinity. *)
Example C80_matmul_run :
  omap (fun r => (fst r, map B2SF (snd r))) (dot (fzero 53 1024) (fone 53 1024 C80_double_prec C80_double_emax) (fadd 53 1024 C80_double_prec C80_double_emax)
    (fmul 53 1024 C80_double_prec C80_double_emax) (fis_zero 53 1024) true (fun m n k => serial_schedule m n k)
    (fun i => if Nat.eqb i 0 then B754_nan else B754_infinity true)
    (LTrans (LArr ([3; 2]%N, map C80_of_int [1; 2; 3; 4; 5; 6]%Z)) (fone 53 1024 C80_double_prec C80_double_emax))
    (LArr ([3; 1]%N, map C80_of_int [1; -1; 2]%Z)))
  = Ok ([2; 1]%N, map (fun z => B2SF (C80_of_int z)) [8; 10]%Z).
Proof. vm_compute. reflexivity. Qed.
Example C80_unscaled : unscaled (fone 53 1024 C80_double_prec C80_double_emax)
  (LTrans (LArr ([3; 2]%N, map C80_of_int [1; 2; 3; 4; 5; 6]%Z)) (fone 53 1024 C80_double_prec C80_double_emax)).
Proof. repeat constructor. Qed.
(** The largest double is finite, its double is not. *)
Example C80_overflow :
  is_finite (fadd 53 1024 C80_double_prec C80_double_emax (binary_normalize 53 1024 C80_double_prec C80_double_emax mode_NE (2 ^ 53 - 1) 971 false)
    (C80_of_int 1)) = true /\
  is_finite (fmul 53 1024 C80_double_prec C80_double_emax (binary_normalize 53 1024 C80_double_prec C80_double_emax mode_NE (2 ^ 53 - 1) 971 false)
    (C80_of_int 2)) = false.
Proof. split; vm_compute; reflexivity. Qed.
(** Three numbers in one of the bracketings. *)
Example C80_added : added 53 1024 [1; 2; 3] (nearest 53 1024 (1 + nearest 53 1024 (2 + 3))).
Proof.
  apply (added_both 53 1024 [1] [2; 3]); [apply added_one|]. apply (added_both 53 1024 [2] [3]); apply added_one.
Qed.
