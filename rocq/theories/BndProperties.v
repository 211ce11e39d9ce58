(** C98: products of banded matrices with ordinary ones.  Every order of storage, side, operation, triangle, size, band width and
    leading dimension.  Band storage and the matrices meant are in PackSpec, blocks in TriSpec, the sizes in BndSpec. *)
From Coq Require Import ZArith Ring_theory.
From Verif Require Import Base MatmulModel MatmulSpec BlasModel BlasSpec TriModel TriSpec TriProofs SymModel SymSpec SymProperties PackModel PackSpec BndModel BndSpec BndProofs.
From Coq Require Import ZifyNat ZifyN ZifyBool.
Ltac Zify.zify_post_hook ::= idtac.
Local Open Scope Z_scope.

(** gbmm: C := beta C + alpha op(A) op(B) or beta C + alpha op(B) op(A), for all sixteen combinations of operations.  [nx] is the
    inner size, [ny] the length of the lines of C. *)
Theorem C98_gbmm : forall A (d zero one : A) (add mul : A -> A -> A) conj is_zero o sd tA tB m n kl ku l alpha a lda b ldb beta c ldc (s : list A),
  semi_ring_theory zero one add mul eq -> (forall v, is_zero v = true <-> v = zero) ->
  conj zero = zero -> (forall u v, conj (add u v) = add (conj u) (conj v)) -> (forall u v, conj (mul u v) = mul (conj u) (conj v)) ->
  let r := gbmm_rows sd tB m n in let q := gbmm_cols sd n l in let lines := gbmm_lines sd tB m n l in
  let ny := match sd with Left => op_rows tA r q | Right => op_cols tA r q end in
  let nx := match sd with Left => op_cols tA r q | Right => op_rows tA r q end in
  let rows := lines_rows sd ny lines in let cols := lines_cols sd ny lines in
  let sB := if is_trans tB then opposite sd else sd in
  0 < r -> 0 < q -> 0 <= lines -> 0 <= ldb -> leading o rows cols ldc -> block_inside s o c ldc rows cols ->
  block_apart s o b ldb (lines_rows sB nx lines) (lines_cols sB nx lines) (block o c ldc rows cols) ->
  held_apart (gband_kept kl ku) (gband_cell o kl ku a lda) s r q (block o c ldc rows cols) ->
  exists s', gbmm zero add mul conj is_zero o sd tA tB m n kl ku l alpha a lda b ldb beta c ldc s = Ok s' /\
    changes d s s' (block o c ldc rows cols) /\
    forall i j, 0 <= i < rows -> 0 <= j < cols -> entry d o c ldc s' i j =
      add (mul beta (entry d o c ldc s i j))
          (mul alpha (applied zero add mul sd nx nx (op conj tA (sparse_of d zero (gband_kept kl ku) (gband_cell o kl ku a lda) s))
                                                    (op conj tB (entry d o b ldb s)) i j)).
Proof. intros. now apply (gbmm_ok d zero one add mul). Qed.
Print Assumptions C98_gbmm.
(** (1 2 .; 3 4 5) with one line on either side, times (1 0; 10 1; 100 0); then (1 10) times the band matrix. *)
Example C98_gbmm_ex : let s := [9; 1; 2; 3; 4; 5; 1; 0; 10; 1; 100; 0; 7; 7; 7; 7] in
  gbmm_rows Left NoTrans 2 3 = 2 /\ gbmm_cols Left 3 2 = 3 /\
  block_inside s RowMajor 12 2 2 2 /\ block_apart s RowMajor 6 2 3 2 (block RowMajor 12 2 2 2) /\ held_apart (gband_kept 1 1) (gband_cell RowMajor 1 1 0 3) s 2 3 (block RowMajor 12 2 2 2) /\
  gbmm 0 Z.add Z.mul (fun v => v) (Z.eqb 0) RowMajor Left NoTrans NoTrans 2 3 1 1 2 1 0 3 6 2 1000 12 2 s =
    Ok [9; 1; 2; 3; 4; 5; 1; 0; 10; 1; 100; 0; 7021; 7002; 7543; 7004] /\
  gbmm 0 Z.add Z.mul (fun v => v) (Z.eqb 0) RowMajor Right NoTrans NoTrans 1 2 1 1 3 1 0 3 6 2 0 8 3 [9; 1; 2; 3; 4; 5; 1; 10; 7; 7; 7] =
    Ok [9; 1; 2; 3; 4; 5; 1; 10; 31; 42; 50].
Proof.
  split; [reflexivity|]. split; [reflexivity|]. split; [|split; [|split; [|now split]]].
  - intros i j Hi Hj. cbn [cell length]. lia.
  - intros i j Hi Hj. cbn [cell length]. split; [lia|]. intros (i' & j' & Hi' & Hj' & E). cbn [cell] in E. lia.
  - intros i j Hi Hj K. unfold gband_kept in K. cbn [gband_cell length]. split; [lia|]. intros (i' & j' & Hi' & Hj' & E). cbn [cell] in E. lia.
Qed.

(** sbmm and hbmm: the banded matrix is symmetric or Hermitian, kept in one half. *)
Theorem C98_sbmm : forall A (d zero one : A) (add mul : A -> A -> A) conj is_zero o sd up m k l alpha a lda b ldb beta c ldc (s : list A),
  semi_ring_theory zero one add mul eq -> (forall v, is_zero v = true <-> v = zero) ->
  0 <= m -> 0 <= l -> 0 <= k -> 0 <= ldb -> leading o m l ldc -> block_inside s o c ldc m l -> block_apart s o b ldb m l (block o c ldc m l) ->
  held_apart (band_kept up NonUnit k) (band_cell o up k a lda) s (order_of sd m l) (order_of sd m l) (block o c ldc m l) ->
  exists s', sbmm zero add mul conj is_zero o sd up m k l alpha a lda b ldb beta c ldc s = Ok s' /\ changes d s s' (block o c ldc m l) /\
    forall i j, 0 <= i < m -> 0 <= j < l -> entry d o c ldc s' i j =
      add (mul beta (entry d o c ldc s i j))
          (mul alpha (applied zero add mul sd m l (symmetric_of d zero (band_kept up NonUnit k) (band_cell o up k a lda) s) (entry d o b ldb s) i j)).
Proof. intros. now apply (sbmm_ok d zero one add mul). Qed.
Print Assumptions C98_sbmm.
Theorem C98_hbmm : forall A (d zero one : A) (add mul : A -> A -> A) conj re is_zero o sd up m k l alpha a lda b ldb beta c ldc (s : list A),
  semi_ring_theory zero one add mul eq -> (forall v, is_zero v = true <-> v = zero) ->
  (forall u v, conj (add u v) = add (conj u) (conj v)) -> (forall u v, conj (mul u v) = mul (conj u) (conj v)) ->
  0 <= m -> 0 <= l -> 0 <= k -> 0 <= ldb -> leading o m l ldc -> block_inside s o c ldc m l -> block_apart s o b ldb m l (block o c ldc m l) ->
  held_apart (band_kept up NonUnit k) (band_cell o up k a lda) s (order_of sd m l) (order_of sd m l) (block o c ldc m l) ->
  exists s', hbmm zero add mul conj re is_zero o sd up m k l alpha a lda b ldb beta c ldc s = Ok s' /\ changes d s s' (block o c ldc m l) /\
    forall i j, 0 <= i < m -> 0 <= j < l -> entry d o c ldc s' i j =
      add (mul beta (entry d o c ldc s i j))
          (mul alpha (applied zero add mul sd m l (hermitian_of d zero conj re (band_kept up NonUnit k) (band_cell o up k a lda) s) (entry d o b ldb s) i j)).
Proof. intros. now apply (hbmm_ok d zero one add mul). Qed.
Print Assumptions C98_hbmm.
(** (1 2; 2 3) on either side of (1 0; 10 1). *)
Example C98_sbmm_ex : let s := [1; 2; 3; 9; 1; 0; 10; 1; 7; 7; 7; 7] in
  block_inside s RowMajor 8 2 2 2 /\ block_apart s RowMajor 4 2 2 2 (block RowMajor 8 2 2 2) /\
  held_apart (band_kept Upper NonUnit 1) (band_cell RowMajor Upper 1 0 2) s 2 2 (block RowMajor 8 2 2 2) /\
  sbmm 0 Z.add Z.mul (fun v => v) (Z.eqb 0) RowMajor Left Upper 2 1 2 1 0 2 4 2 0 8 2 s = Ok [1; 2; 3; 9; 1; 0; 10; 1; 21; 2; 32; 3] /\
  sbmm 0 Z.add Z.mul (fun v => v) (Z.eqb 0) RowMajor Right Upper 2 1 2 1 0 2 4 2 0 8 2 s = Ok [1; 2; 3; 9; 1; 0; 10; 1; 1; 2; 12; 23].
Proof.
  split; [|split; [|split; [|now split]]].
  - intros i j Hi Hj. cbn [cell length]. lia.
  - intros i j Hi Hj. cbn [cell length]. split; [lia|]. intros (i' & j' & Hi' & Hj' & E). cbn [cell] in E. lia.
  - intros i j Hi Hj K. unfold band_kept, kept in K. cbn [band_cell length]. split; [lia|]. intros (i' & j' & Hi' & Hj' & E). cbn [cell] in E. lia.
Qed.
(** (2 i; -i 3) times (1; i), and (1 i) times the matrix. *)
Example C98_hbmm_ex :
  hbmm (0, 0) C78_add C78_mul C78_conj C78_re C78_is_zero RowMajor Left Upper 2 1 1 (1, 0) 0 2 4 1 (0, 0) 6 1 [(2, 5); (0, 1); (3, 5); (9, 9); (1, 0); (0, 1); (7, 7); (7, 7)] =
    Ok [(2, 5); (0, 1); (3, 5); (9, 9); (1, 0); (0, 1); (1, 0); (0, 2)] /\
  hbmm (0, 0) C78_add C78_mul C78_conj C78_re C78_is_zero RowMajor Right Upper 1 1 2 (1, 0) 0 2 4 2 (0, 0) 6 2 [(2, 5); (0, 1); (3, 5); (9, 9); (1, 0); (0, 1); (7, 7); (7, 7)] =
    Ok [(2, 5); (0, 1); (3, 5); (9, 9); (1, 0); (0, 1); (3, 0); (0, 4)].
Proof. now split. Qed.

(** tbmm: B := alpha op(A) B or alpha B op(A) for a triangular band matrix A - as far as scal is called with the distance of the
    elements of a line: for columns in row-major order, rows in column-major order, or lines of one element. *)
Theorem C98_tbmm_partial : forall A (d zero one : A) (add mul : A -> A -> A) conj o sd up tA dg m n k alpha a lda b ldb (s : list A),
  semi_ring_theory zero one add mul eq -> conjugate zero one conj ->
  0 <= m -> 0 <= n -> 0 <= k -> leading o m n ldb -> scales_line o sd m n ldb -> block_inside s o b ldb m n ->
  held_apart (band_kept up dg k) (band_cell o up k a lda) s (order_of sd m n) (order_of sd m n) (block o b ldb m n) ->
  exists s', tbmm zero add mul conj o sd up tA dg m n k alpha a lda b ldb s = Ok s' /\ changes d s s' (block o b ldb m n) /\
    forall i j, 0 <= i < m -> 0 <= j < n -> entry d o b ldb s' i j =
      mul (applied zero add mul sd m n (op conj tA (triangular_of d zero one (band_kept up dg k) (band_cell o up k a lda) s)) (entry d o b ldb s) i j) alpha.
Proof. intros. now apply (tbmm_ok d zero one add mul). Qed.
Print Assumptions C98_tbmm_partial.
(** 5 (1 2; . 3) (1 0; 10 1) *)
Example C98_tbmm_ex : let s := [1; 2; 3; 9; 1; 0; 10; 1] in
  block_inside s RowMajor 4 2 2 2 /\ scales_line RowMajor Left 2 2 2 /\
  held_apart (band_kept Upper NonUnit 1) (band_cell RowMajor Upper 1 0 2) s 2 2 (block RowMajor 4 2 2 2) /\
  tbmm 0 Z.add Z.mul (fun v => v) RowMajor Left Upper NoTrans NonUnit 2 2 1 5 0 2 4 2 s = Ok [1; 2; 3; 9; 105; 10; 150; 15].
Proof.
  split; [|split; [exact I|split; [|reflexivity]]].
  - intros i j Hi Hj. cbn [cell length]. lia.
  - intros i j Hi Hj K. unfold band_kept, kept in K. cbn [band_cell length]. split; [lia|]. intros (i' & j' & Hi' & Hj' & E). cbn [cell] in E. lia.
Qed.
(** In the other two branches scal is called with the increment ldB instead of 1: for every matrix with lines of two or more elements
    it runs beyond B, and beyond the memory when nothing follows B. *)
Theorem C98_tbmm_refuted : forall A (d zero one : A) (add mul : A -> A -> A) conj o sd up tA dg m n k alpha a lda b ldb (s : list A),
  semi_ring_theory zero one add mul eq -> conjugate zero one conj ->
  (o = RowMajor /\ sd = Right) \/ (o = ColMajor /\ sd = Left) ->
  0 < order_of (opposite sd) m n -> 2 <= order_of sd m n -> 0 <= k -> 0 <= b -> leading o m n ldb -> block_inside s o b ldb m n ->
  held_apart (band_kept up dg k) (band_cell o up k a lda) s (order_of sd m n) (order_of sd m n) (block o b ldb m n) ->
  Z.of_nat (length s) <= b + order_of (opposite sd) m n * ldb ->
  tbmm zero add mul conj o sd up tA dg m n k alpha a lda b ldb s = UB.
Proof. intros. now apply (tbmm_out d zero one add mul). Qed.
Print Assumptions C98_tbmm_refuted.
(** (1 10) times the identity, times 5: out of the memory; with room behind, the second element stays 10 instead of 50 and the
    element after the matrix becomes 35. *)
Example C98_tbmm_refuted_ex : let s := [1; 0; 1; 9; 1; 10] in
  block_inside s RowMajor 4 2 1 2 /\ held_apart (band_kept Upper NonUnit 1) (band_cell RowMajor Upper 1 0 2) s 2 2 (block RowMajor 4 2 1 2) /\
  tbmm 0 Z.add Z.mul (fun v => v) RowMajor Right Upper NoTrans NonUnit 1 2 1 5 0 2 4 2 s = UB /\
  tbmm 0 Z.add Z.mul (fun v => v) RowMajor Right Upper NoTrans NonUnit 1 2 1 5 0 2 4 2 (s ++ [7]) = Ok [1; 0; 1; 9; 5; 10; 35] /\
  tbmm 0 Z.add Z.mul (fun v => v) ColMajor Left Upper NoTrans NonUnit 2 1 1 5 0 2 4 2 ([9; 1; 0; 1; 1; 10] ++ [7]) = Ok [9; 1; 0; 1; 5; 10; 35].
Proof.
  split; [|split; [|now repeat split]].
  - intros i j Hi Hj. cbn [cell length]. lia.
  - intros i j Hi Hj K. unfold band_kept, kept in K. cbn [band_cell length]. split; [lia|]. intros (i' & j' & Hi' & Hj' & E). cbn [cell] in E. lia.
Qed.
