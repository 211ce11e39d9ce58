(** C105: scaled matrix products and updates C := alpha A B + beta C of float and double. *)
From Coq Require Import ZArith Reals List Lia Lra Bool.
From Flocq Require Import Core BinarySingleNaN.
From Verif Require Import Base ViewSpec MatmulModel MatmulSpec AccModel AccSpec AccLinear AccProofs AccProperties SclSpec SclProofs.
From Verif Require NumBasics.
From Coq Require Import ZifyNat ZifyN ZifyBool.
Ltac Zify.zify_post_hook ::= idtac.
Import ListNotations.
Local Open Scope R_scope.

(** gemm of the bundled BLAS, for any schedule of the threads: every element of C is updated with at most three roundings more than its
    sum of products; with beta = 0 the old contents do not matter, even if they are NaN. *)
Theorem C105_gemm : forall prec emax (Hp : Prec_gt_0 prec) (Hm : Prec_lt_emax prec emax) (ta tb : bool) m n k
    (alpha beta : binary_float prec emax) a lda b ldb c ldc sched f g,
  is_matrix (fun x => x) RowMajor (if ta then Trans else NoTrans) lda a m k f ->
  is_matrix (fun x => x) RowMajor (if tb then Trans else NoTrans) ldb b k n g ->
  (n <= ldc)%nat -> (forall i j, (i < m)%nat -> (j < n)%nat -> (i * ldc + j < length c)%nat) ->
  fis_zero prec emax alpha = false -> interleaving n (column_program m k) sched ->
  exists c', gemm (fzero prec emax) (fone prec emax Hp Hm) (fadd prec emax Hp Hm) (fmul prec emax Hp Hm) (fis_zero prec emax) (fun x => x)
      RowMajor (if ta then Trans else NoTrans) (if tb then Trans else NoTrans) m n k alpha a lda b ldb beta c ldc sched = Ok c' /\
    forall i j, (i < m)%nat -> (j < n)%nat -> exists old r, nth_error c (i * ldc + j) = Some old /\ nth_error c' (i * ldc + j) = Some r /\
      updated k alpha (fun h => f i h) (fun h => g h j) beta old r.
Proof.
  intros prec emax Hp Hm ta tb m n k alpha beta a lda b ldb c ldc sched f g HA HB HL HC Z HS.
  unfold gemm. destruct ((m =? 0)%nat || (n =? 0)%nat) eqn:MN.
  { exists c. split; [reflexivity|]. intros; lia. }
  destruct (lf_gemm (fzero prec emax) (fone prec emax Hp Hm) (fadd prec emax Hp Hm) (fmul prec emax Hp Hm) (fis_zero prec emax)
    ta tb m n k alpha a lda b ldb beta c ldc sched f g HA HB HL HC Z HS) as (c' & E & L & P).
  exists c'. split; [exact E|]. intros i j Hi Hj. specialize (P i j Hi Hj). specialize (HC i j Hi Hj).
  destruct (nth_error c (i * ldc + j)) as [old|] eqn:EO; [|apply nth_error_None in EO; lia]. cbn [option_map] in P.
  exists old. eexists. split; [reflexivity|]. split; [exact P|]. destruct (Nat.eqb_spec k 0) as [->|K].
  - apply (update_nothing prec emax), scaled_old.
  - apply update_ok; [apply good_once, scaled_old|apply sum_accurate].
Qed.
Print Assumptions C105_gemm.

(** With alpha = 0 neither A nor B is looked at: C is scaled with one rounding. *)
Theorem C105_gemm_alpha_zero : forall prec emax (Hp : Prec_gt_0 prec) (Hm : Prec_lt_emax prec emax) ta tb m n k
    (alpha beta : binary_float prec emax) a lda b ldb c ldc sched,
  (n <= ldc)%nat -> (forall i j, (i < m)%nat -> (j < n)%nat -> (i * ldc + j < length c)%nat) ->
  fis_zero prec emax alpha = true ->
  exists c', gemm (fzero prec emax) (fone prec emax Hp Hm) (fadd prec emax Hp Hm) (fmul prec emax Hp Hm) (fis_zero prec emax) (fun x => x)
      RowMajor ta tb m n k alpha a lda b ldb beta c ldc sched = Ok c' /\
    forall i j, (i < m)%nat -> (j < n)%nat -> exists old r, nth_error c (i * ldc + j) = Some old /\ nth_error c' (i * ldc + j) = Some r /\
      (fis_zero prec emax beta = true -> r = fzero prec emax) /\
      (is_finite r = true -> old_finite beta old /\
         Rabs (B2R r - old_part beta old) <= unit_roundoff prec * Rabs (old_part beta old) + underflow_unit prec emax).
Proof.
  intros prec emax Hp Hm ta tb m n k alpha beta a lda b ldb c ldc sched HL HC Z.
  unfold gemm. destruct ((m =? 0)%nat || (n =? 0)%nat) eqn:MN.
  { exists c. split; [reflexivity|]. intros; lia. }
  unfold gemm_body. rewrite Z.
  destruct (lf_gescal (fzero prec emax) (fadd prec emax Hp Hm) (fmul prec emax Hp Hm) (fis_zero prec emax) m n beta c ldc HL HC) as (c' & E & L & P).
  rewrite E. cbn [bind]. exists c'. split; [reflexivity|]. intros i j Hi Hj. specialize (P i j Hi Hj). specialize (HC i j Hi Hj).
  destruct (nth_error c (i * ldc + j)) as [old|] eqn:EO; [|apply nth_error_None in EO; lia]. cbn [option_map] in P.
  exists old. eexists. split; [reflexivity|]. split; [exact P|]. split.
  - intros B. unfold scaled. now rewrite B.
  - apply (proj1 (scaled_old prec emax Hp Hm beta old)).
Qed.
Print Assumptions C105_gemm_alpha_zero.

(** gemv. *)
Theorem C105_gemv : forall prec emax (Hp : Prec_gt_0 prec) (Hm : Prec_lt_emax prec emax) t m n
    (alpha beta : binary_float prec emax) a lda x y f g, is_conj t = false ->
  let rows := if is_trans t then n else m in
  let len := if is_trans t then m else n in
  is_matrix (fun x => x) RowMajor t lda a rows len f ->
  (forall k, (k < len)%nat -> nth_error x k = Some (g k)) -> (rows <= length y)%nat -> (0 < m)%nat -> (0 < n)%nat ->
  exists y', gemv (fzero prec emax) (fadd prec emax Hp Hm) (fmul prec emax Hp Hm) (fis_zero prec emax) (fun x => x)
      RowMajor t false m n alpha a 0 lda x 0 1 beta y 0 1 = Ok y' /\
    forall i, (i < rows)%nat -> exists old r, nth_error y i = Some old /\ nth_error y' i = Some r /\
      updated len alpha (fun h => f i h) g beta old r.
Proof.
  intros prec emax Hp Hm t m n alpha beta a lda x y f g T rows len HA HX HY M N.
  unfold gemv. replace ((m =? 0)%nat || (n =? 0)%nat) with false by lia.
  destruct (lf_gemv (fzero prec emax) (fone prec emax Hp Hm) (fadd prec emax Hp Hm) (fmul prec emax Hp Hm) (fis_zero prec emax) t m n alpha a lda x beta y f g T)
    as (y' & E & L & P); auto.
  { intros i Hi. fold rows in Hi. lia. }
  exists y'. split; [exact E|]. intros i Hi. specialize (P i Hi).
  destruct (nth_error y i) as [old|] eqn:EO; [|apply nth_error_None in EO; lia]. cbn [option_map] in P.
  exists old. eexists. split; [reflexivity|]. split; [exact P|]. apply update_ok; [apply scaled_old|apply sum_accurate].
Qed.
Print Assumptions C105_gemv.

Section Ex.
Local Notation ofint := C80_of_int.
Local Notation P := C80_double_prec.
Local Notation E := C80_double_emax.
Local Notation zero := (fzero 53 1024).
Local Notation one := (fone 53 1024 P E).
Local Notation add := (fadd 53 1024 P E).
Local Notation mul := (fmul 53 1024 P E).
Local Notation is0 := (fis_zero 53 1024).
(** 2 * [1 2; 3 4] [5; 6] + 3 * [7; 8]; and with beta = 0 over a NaN *)
Example C105_gemm_run :
  omap (map B2SF) (gemm zero one add mul is0 (fun x => x) RowMajor NoTrans NoTrans 2 1 2 (ofint 2) (map ofint [1; 2; 3; 4]%Z) 2
    (map ofint [5; 6]%Z) 1 (ofint 3) (map ofint [7; 8]%Z) 1 (serial_schedule 2 1 2)) = Ok (map (fun z => B2SF (ofint z)) [55; 102]%Z) /\
  omap (map B2SF) (gemm zero one add mul is0 (fun x => x) RowMajor NoTrans NoTrans 2 1 2 (ofint 2) (map ofint [1; 2; 3; 4]%Z) 2
    (map ofint [5; 6]%Z) 1 zero [B754_nan; B754_infinity true] 1 (serial_schedule 2 1 2)) = Ok (map (fun z => B2SF (ofint z)) [34; 78]%Z) /\
  omap (map B2SF) (gemm zero one add mul is0 (fun x => x) RowMajor NoTrans NoTrans 1 1 1 zero [B754_nan] 1 [] 1 (ofint 3) [ofint 2] 1
    (serial_schedule 1 1 1)) = Ok [B2SF (ofint 6)].
Proof. vm_compute. auto. Qed.
Example C105_gemv_run :
  omap (map B2SF) (gemv zero add mul is0 (fun x => x) RowMajor Trans false 2 2 (ofint 2) (map ofint [1; 2; 3; 4]%Z) 0 2
    (map ofint [5; 6]%Z) 0 1 (ofint 3) (map ofint [7; 8]%Z) 0 1) = Ok (map (fun z => B2SF (ofint z)) [67; 92]%Z).
Proof. vm_compute. auto. Qed.
End Ex.

(** Products of arrays with scale factors, as in dot(2 * a, 3 * transpose(b)): the factors are multiplied with each other, and the
    element is phi times the sum of products of the unscaled elements. A factor that is (or rounds to) zero gives zeros. *)
Theorem C105_matmul : forall prec emax (Hp : Prec_gt_0 prec) (Hm : Prec_lt_emax prec emax) asserts sched junk
    (e1 e2 : @lexpr (binary_float prec emax)) m k n f g,
  let mul := fmul prec emax Hp Hm in
  let one := fone prec emax Hp Hm in
  let phi := mul (product one mul (factors e1)) (product one mul (factors e2)) in
  (forall m n k, interleaving n (column_program m k) (sched m n k)) ->
  lmatrix mul (plain one e1) m k f -> lmatrix mul (plain one e2) k n g -> (m * n < 2 ^ 32)%N ->
  exists out, dot (fzero prec emax) one (fadd prec emax Hp Hm) mul (fis_zero prec emax) asserts sched junk e1 e2 = Ok ([m; n], out) /\
    forall i j, (i < m)%N -> (j < n)%N -> exists r, element [m; n] out [i; j] = Some r /\
      (fis_zero prec emax phi = true -> r = fzero prec emax) /\
      (fis_zero prec emax phi = false ->
         updated (N.to_nat k) phi (fun h => f (N.to_nat i) h) (fun h => g h (N.to_nat j)) (fzero prec emax) (fzero prec emax) r).
Proof.
  intros prec emax Hp Hm asserts sched junk e1 e2 m k n f g mul one phi HS H1 H2 HN.
  destruct (sc_dot_mm (fzero prec emax) one (fadd prec emax Hp Hm) mul (fis_zero prec emax) eq_refl (fone_not_zero prec emax Hp Hm)
    (fmul_1_l prec emax Hp Hm) (fmul_0_1 prec emax Hp Hm) asserts sched junk e1 e2 m k n f g HS H1 H2 HN) as (out & E & H).
  exists out. split; [exact E|]. intros i j Hi Hj. eexists. split; [apply H; auto|]. fold phi. split.
  - intros ->. reflexivity.
  - intros ->. cbn [orb]. pose proof (scaled_old prec emax Hp Hm (fzero prec emax) (fzero prec emax)) as G.
    destruct (Nat.eqb_spec (N.to_nat k) 0) as [->|K].
    + apply (update_nothing prec emax). exact G.
    + apply update_ok; [exact G|apply sum_accurate].
Qed.
Print Assumptions C105_matmul.

(** Matrix times vector, in the cases where it is defined (see C31). *)
Theorem C105_matvec : forall prec emax (Hp : Prec_gt_0 prec) (Hm : Prec_lt_emax prec emax) asserts sched junk
    (e1 e2 : @lexpr (binary_float prec emax)) m k f g,
  let mul := fmul prec emax Hp Hm in
  let one := fone prec emax Hp Hm in
  let phi := mul (product one mul (factors e1)) (product one mul (factors e2)) in
  lmatrix mul (plain one e1) m k f -> lvector mul (plain one e2) k g ->
  (0 < k)%N -> Nat.odd (transposes e1) = false \/ m = k -> (m < 2 ^ 32)%N ->
  exists out, dot (fzero prec emax) one (fadd prec emax Hp Hm) mul (fis_zero prec emax) asserts sched junk e1 e2 = Ok ([m], out) /\
    forall i, (i < m)%N -> exists r, element [m] out [i] = Some r /\
      updated (N.to_nat k) phi (fun h => f (N.to_nat i) h) g (fzero prec emax) (fzero prec emax) r.
Proof.
  intros prec emax Hp Hm asserts sched junk e1 e2 m k f g mul one phi H1 H2 HK HT HM.
  destruct (sc_dot_mv (fzero prec emax) one (fadd prec emax Hp Hm) mul (fis_zero prec emax) eq_refl (fone_not_zero prec emax Hp Hm)
    (fmul_1_l prec emax Hp Hm) (fmul_0_1 prec emax Hp Hm) asserts sched junk e1 e2 m k f g H1 H2 HK HT HM) as (out & E & H).
  exists out. split; [exact E|]. intros i Hi. eexists. split; [apply H; auto|]. fold phi.
  apply update_ok; [apply (scaled_old prec emax Hp Hm (fzero prec emax) (fzero prec emax))|apply sum_accurate].
Qed.
Print Assumptions C105_matvec.

(** The factor phi is the product of all factors up to one rounding for each, if no partial product underflows. *)
Theorem C105_factor : forall prec emax (Hp : Prec_gt_0 prec) (Hm : Prec_lt_emax prec emax) (l1 l2 : list (binary_float prec emax)),
  let mul := fmul prec emax Hp Hm in
  let one := fone prec emax Hp Hm in
  let phi := mul (product one mul l1) (product one mul l2) in
  let exact := real_product l1 * real_product l2 in
  let n := (length l1 + length l2)%nat in
  is_finite phi = true -> large_products l1 -> large_products l2 -> bpow radix2 (3 - emax) <= Rabs exact ->
  INR n * unit_roundoff prec <= / 2 ->
  Rabs (B2R phi - exact) <= ((1 + unit_roundoff prec) ^ (n + 1) - 1) * Rabs exact.
Proof. intros prec emax Hp Hm l1 l2 mul one phi exact n. apply (factors_ok prec emax Hp Hm l1 l2). Qed.
Print Assumptions C105_factor.

Section Ex2.
Local Notation ofint := C80_of_int.
Local Notation P := C80_double_prec.
Local Notation E := C80_double_emax.
Local Notation zero := (fzero 53 1024).
Local Notation one := (fone 53 1024 P E).
Local Notation add := (fadd 53 1024 P E).
Local Notation mul := (fmul 53 1024 P E).
Local Notation is0 := (fis_zero 53 1024).
Local Notation scale2 e := (binary_normalize 53 1024 P E mode_NE 1 e false).
Local Notation run e1 e2 := (omap (fun r => (fst r, map B2SF (snd r)))
  (dot zero one add mul is0 true (fun m n k => serial_schedule m n k) (fun _ => B754_nan) e1 e2)).
Example C105_matmul_run : run (LScale (LArr ([1; 2]%N, map ofint [1; 2]%Z)) (ofint 3)) (LTrans (LArr ([1; 2]%N, map ofint [5; 7]%Z)) (ofint 2))
  = Ok ([1; 1]%N, [B2SF (ofint 114)]).
Proof. vm_compute. reflexivity. Qed.
Example C105_matvec_run : run (LScale (LArr ([1; 2]%N, map ofint [1; 2]%Z)) (ofint 3)) (LScale (LArr ([2]%N, map ofint [5; 7]%Z)) (ofint 2))
  = Ok ([1]%N, [B2SF (ofint 114)]).
Proof. vm_compute. reflexivity. Qed.
Example C105_factor_ex : large_products [ofint 3; ofint 2] /\ real_product [ofint 3; ofint 2] = 6.
Proof.
  assert (R : B2R (ofint 3) = 3 /\ B2R (ofint 2) = 2).
  { split; apply (NumBasics.fint_exact 53 1024 P E); vm_compute; discriminate. }
  destruct R as [R3 R2]. unfold real_product. cbn [large_products map fold_right]. unfold real_product. cbn [map fold_right].
  rewrite R3, R2, !Rmult_1_r. assert (B : bpow radix2 (3 - 1024) <= 1) by (change 1 with (bpow radix2 0); apply bpow_le; lia).
  rewrite !Rabs_pos_eq by lra. repeat split; lra.
Qed.
(** Folding is not the same as scaling the elements: 2^600 * (2^600 * [2^-1000, 0]) is [2^200, 0] and its product with [1; 1] is 2^200,
    but the folded factor is infinite and the result is not finite; with 2^-600 twice the factor is 0. *)
Theorem C105_fold_refuted :
  ~ forall (e1 e2 : @lexpr (binary_float 53 1024)) f g out,
      lmatrix mul e1 1 2 f -> lmatrix mul e2 2 1 g -> (forall i j, is_finite (f i j) = true /\ is_finite (g i j) = true) ->
      dot zero one add mul is0 true (fun m n k => serial_schedule m n k) (fun _ => B754_nan) e1 e2 = Ok ([1; 1]%N, [out]) ->
      is_finite (add (add zero (mul (f 0%nat 0%nat) (g 0%nat 0%nat))) (mul (f 0%nat 1%nat) (g 1%nat 0%nat))) = true ->
      is_finite out = true.
Proof.
  intros H.
  set (e1 := LScale (LScale (LArr ([1; 2]%N, [scale2 (-1000); zero])) (scale2 600)) (scale2 600)).
  set (e2 := LArr ([2; 1]%N, [one; one])).
  assert (X : is_finite (@B754_infinity 53 1024 false) = true); [|discriminate X].
  apply (H e1 e2 (fun i j => match j with O => scale2 200 | _ => zero end) (fun _ _ => one)).
  - split; [vm_compute; auto|]. split; [reflexivity|]. intros i j Hi Hj. assert (i = 0%N) as -> by lia.
    assert (J : j = 0%N \/ j = 1%N) by lia. destruct J as [-> | ->].
    + assert (Q : option_map B2SF (lvalue mul e1 [0; 0]%N) = Some (B2SF (scale2 200))) by (vm_compute; reflexivity).
      destruct (lvalue mul e1 [0; 0]%N) as [q|]; [|discriminate Q]. f_equal. apply B2SF_inj. now injection Q.
    + vm_compute. reflexivity.
  - split; [vm_compute; auto|]. split; [reflexivity|]. intros i j Hi Hj. assert (j = 0%N) as -> by lia.
    assert (J : i = 0%N \/ i = 1%N) by lia. destruct J as [-> | ->]; reflexivity.
  - intros i j. destruct j; split; reflexivity.
  - assert (Q : run e1 e2 = Ok ([1; 1]%N, [B2SF (@B754_infinity 53 1024 false)])) by (vm_compute; reflexivity).
    destruct (dot _ _ _ _ _ _ _ _ e1 e2) as [[sh d]|ex|]; try discriminate Q. cbn [omap fst snd] in Q. injection Q as -> Q.
    destruct d as [|d0 [|d1 d]]; try discriminate Q. injection Q as Q. do 3 f_equal. now apply B2SF_inj.
  - vm_compute. reflexivity.
Qed.
Print Assumptions C105_fold_refuted.
Example C105_fold_underflow : run (LScale (LScale (LArr ([1; 1]%N, [scale2 1000])) (scale2 (-600))) (scale2 (-600))) (LArr ([1; 1]%N, [one]))
  = Ok ([1; 1]%N, [B2SF zero]) /\ is0 (mul (scale2 (-600)) (mul (scale2 (-600)) (scale2 1000))) = false.
Proof. vm_compute. auto. Qed.
End Ex2.
