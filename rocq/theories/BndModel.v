(** Model of the products of banded matrices with ordinary ones: gbmm, hbmm, sbmm and tbmm.  Source:
    librapid/cxxblas/level3extensions/{gbmm,hbmm,sbmm,tbmm}.tcc.  Every routine calls a routine of [PackModel] for
    one line of B and C after the other; memory and IndexType are as there. *)
From Coq Require Import ZArith.
From Verif Require Import Base MatmulModel BlasModel TriModel SymModel PackModel.
Local Open Scope Z_scope.

Section Bnd.
Context {A : Type}.
Variables (zero : A) (add mul : A -> A -> A) (conj re : A -> A) (is_zero : A -> bool).

(** gbmm, gbmm.tcc l.43-335.  The branches for transB = Conj and ConjTrans are those for NoTrans and Trans with
    the gbmv that conjugates x ([cx]).  transA ^ Trans is [flip]. *)
Definition gbmm (o : order) (sd : side) (tA tB : trans) (m n kl ku l : Z) (alpha : A) (a lda b ldb : Z) (beta : A) (c ldc : Z)
    (s : list A) : outcome (list A) :=
  let cx := is_conj tB in
  let gbmv := gbmv zero add mul conj is_zero in
  match o, sd, is_trans tB with
  | RowMajor, Left, false => repeat l (fun i s => gbmv RowMajor tA cx m n kl ku alpha a lda (b + i) ldb beta (c + i) ldc s) s
  | RowMajor, Left, true => repeat l (fun i s => gbmv RowMajor tA cx m n kl ku alpha a lda (b + i * ldb) 1 beta (c + i) ldc s) s
  | RowMajor, Right, false => repeat m (fun i s => gbmv RowMajor (flip tA) cx n l kl ku alpha a lda (b + i * ldb) 1 beta (c + i * ldc) 1 s) s
  | RowMajor, Right, true => repeat n (fun i s => gbmv RowMajor (flip tA) cx m l kl ku alpha a lda (b + i) ldb beta (c + i * ldc) 1 s) s
  | ColMajor, Left, false => repeat l (fun i s => gbmv RowMajor (flip tA) cx n m ku kl alpha a lda (b + i * ldb) 1 beta (c + i * ldc) 1 s) s
  | ColMajor, Left, true => repeat l (fun i s => gbmv RowMajor (flip tA) cx n m ku kl alpha a lda (b + i) ldb beta (c + i * ldc) 1 s) s
  | ColMajor, Right, false => repeat m (fun i s => gbmv RowMajor tA cx l n ku kl alpha a lda (b + i) ldb beta (c + i) ldc s) s
  | ColMajor, Right, true => repeat n (fun i s => gbmv RowMajor tA cx l m ku kl alpha a lda (b + i * ldb) 1 beta (c + i) ldc s) s
  end.

(** hbmm, hbmm.tcc l.43-91 *)
Definition hbmm (o : order) (sd : side) (up : uplo) (m k l : Z) (alpha : A) (a lda b ldb : Z) (beta : A) (c ldc : Z)
    (s : list A) : outcome (list A) :=
  let hbmv := hbmv zero add mul conj re is_zero in
  match o, sd with
  | RowMajor, Left => repeat l (fun i s => hbmv RowMajor up m k alpha a lda (b + i) ldb beta (c + i) ldc s) s
  | RowMajor, Right => repeat m (fun i s => hbmv ColMajor (other up) l k alpha a lda (b + i * ldb) 1 beta (c + i * ldc) 1 s) s
  | ColMajor, Left => repeat l (fun i s => hbmv ColMajor up m k alpha a lda (b + i * ldb) 1 beta (c + i * ldc) 1 s) s
  | ColMajor, Right => repeat m (fun i s => hbmv RowMajor (other up) l k alpha a lda (b + i) ldb beta (c + i) ldc s) s
  end.
(** sbmm, sbmm.tcc l.43-91 *)
Definition sbmm (o : order) (sd : side) (up : uplo) (m k l : Z) (alpha : A) (a lda b ldb : Z) (beta : A) (c ldc : Z)
    (s : list A) : outcome (list A) :=
  let sbmv := sbmv zero add mul conj is_zero in
  match o, sd with
  | RowMajor, Left => repeat l (fun i s => sbmv RowMajor up m k alpha a lda (b + i) ldb beta (c + i) ldc s) s
  | RowMajor, Right => repeat m (fun i s => sbmv ColMajor (other up) l k alpha a lda (b + i * ldb) 1 beta (c + i * ldc) 1 s) s
  | ColMajor, Left => repeat l (fun i s => sbmv ColMajor up m k alpha a lda (b + i * ldb) 1 beta (c + i * ldc) 1 s) s
  | ColMajor, Right => repeat m (fun i s => sbmv RowMajor (other up) l k alpha a lda (b + i) ldb beta (c + i) ldc s) s
  end.
(** tbmm, tbmm.tcc l.41-72: tbmv and scal for each line.  scal has the increment ldB in every branch. *)
Definition tbmm (o : order) (sd : side) (up : uplo) (tA : trans) (dg : diag) (m n k : Z) (alpha : A) (a lda b ldb : Z)
    (s : list A) : outcome (list A) :=
  let tbmv := tbmv zero add mul conj in
  match o, sd with
  | RowMajor, Left => repeat n (fun i s =>
      do s1 <- tbmv RowMajor up tA dg m k a lda (b + i) ldb s; scal mul m alpha (b + i) ldb s1) s
  | RowMajor, Right => repeat m (fun i s =>
      do s1 <- tbmv RowMajor up (flip tA) dg n k a lda (b + i * ldb) 1 s; scal mul n alpha (b + i * ldb) ldb s1) s
  | ColMajor, Left => repeat n (fun i s =>
      do s1 <- tbmv ColMajor up tA dg m k a lda (b + i * ldb) 1 s; scal mul m alpha (b + i * ldb) ldb s1) s
  | ColMajor, Right => repeat m (fun i s =>
      do s1 <- tbmv ColMajor up (flip tA) dg n k a lda (b + i) ldb s; scal mul n alpha (b + i) ldb s1) s
  end.
End Bnd.
