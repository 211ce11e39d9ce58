(** Model of the overloads that call an external BLAS library through the CBLAS interface (HAVE_CBLAS).
    Source: librapid/cxxblas/drivers/drivers.tcc and the HAVE_CBLAS parts of level1/{axpy,dot,scal,asum,iamax}.tcc,
    level1extensions/{axpy,acxpy,dot}.tcc, level2/{gemv,gbmv,trmv,trsv,hpr2}.tcc and level3/{gemm,trmm,trsm}.tcc.  The
    library is not modelled: each of its functions is a parameter, and [CblSpec] says what it promises.  Memory is
    as in [BlasModel] (one list) except for gemv and gemm, which use separate buffers as in [MatmulModel].  The
    conversions of order, triangle, side and diagonal (drivers.tcc l.116-152) are one to one, and are left out. *)
From Coq Require Import ZArith Ascii.
From Verif Require Import Base MatmulModel BlasModel TriModel PackModel.
Local Open Scope Z_scope.

(** ** Characters and codes *)
(** getF77BlasChar, drivers.tcc l.52-77 *)
Definition trans_char (t : trans) : ascii :=
  match t with NoTrans => "N" | Trans => "T" | Conj => "R" | ConjTrans => "C" end%char.
Definition diag_char (dg : diag) : ascii := match dg with Unit => "U" | NonUnit => "N" end%char.
Definition uplo_char (up : uplo) : ascii := match up with Upper => "U" | Lower => "L" end%char.
(** getCxxBlasEnum, l.80-110; ASSERT is assert(), which ends the program: [None] *)
Definition char_trans (c : ascii) : option trans :=
  (if (c =? "N") || (c =? "n") then Some NoTrans
   else if (c =? "T") || (c =? "t") then Some Trans
   else if (c =? "C") || (c =? "c") then Some ConjTrans
   else if (c =? "R") || (c =? "r") then Some Conj
   else None)%char.
Definition char_diag (c : ascii) : option diag := (if c =? "U" then Some Unit else if c =? "N" then Some NonUnit else None)%char.
Definition char_uplo (c : ascii) : option uplo := (if c =? "U" then Some Upper else if c =? "L" then Some Lower else None)%char.

(** CBLAS_TRANSPOSE, with the OpenBLAS extension CblasConjNoTrans *)
Inductive cblas_trans := CblasNoTrans | CblasTrans | CblasConjTrans | CblasConjNoTrans.
(** CBLAS::getCblasType, l.123-132; [mkl]: LIBRAPID_BLAS_MKL or LIBRAPID_BLAS_ACCELERATE is defined *)
Definition cblas_type (mkl : bool) (t : trans) : cblas_trans :=
  match t with
  | NoTrans => CblasNoTrans
  | Conj => if mkl then CblasConjTrans else CblasConjNoTrans
  | Trans => CblasTrans
  | ConjTrans => CblasConjTrans
  end.
(** (order == RowMajor) ? ColMajor : RowMajor *)
Definition other_order (o : order) : order := match o with RowMajor => ColMajor | ColMajor => RowMajor end.
Definition is_Conj (t : trans) : bool := match t with Conj => true | _ => false end.

Section Matrices.
Context {A : Type}.
Variables (zero one : A) (add sub mul div : A -> A -> A) (conj : A -> A) (is_zero : A -> bool).
(** [mkl] as above; [nt]: CXXBLAS_NO_TEMPORARY is defined *)
Variables (mkl nt : bool).

(** ** gemv, level2/gemv.tcc *)
Definition gemv_fn := order -> cblas_trans -> nat -> nat -> A -> list A -> nat -> list A -> nat -> nat -> A -> list A -> nat -> nat ->
  outcome (list A).
Variable lgemv : gemv_fn.
(** sgemv, dgemv: l.136-175 *)
Definition gemv_real (o : order) (t : trans) (m n : nat) (alpha : A) (a : list A) (lda : nat) (x : list A) (px ix : nat) (beta : A)
    (y : list A) (py iy : nat) : outcome (list A) :=
  lgemv o (cblas_type mkl t) m n alpha a lda x px ix beta y py iy.
(** cgemv, zgemv: l.192-215, 228-251, and the call again, l.185-189, 221-225 (which is not redirected a second time) *)
Definition gemv_straight (o : order) (t : trans) (m n : nat) (alpha : A) (a : list A) (lda : nat) (x : list A) (px ix : nat) (beta : A)
    (y : list A) (py iy : nat) : outcome (list A) :=
  match nt, o, t with
  | true, RowMajor, ConjTrans => gemv_generic zero add mul is_zero conj o t false m n alpha a 0 lda x px ix beta y py iy
  | _, _, _ => lgemv o (cblas_type mkl t) m n alpha a lda x px ix beta y py iy
  end.
Definition gemv_complex (o : order) (t : trans) (m n : nat) (alpha : A) (a : list A) (lda : nat) (x : list A) (px ix : nat) (beta : A)
    (y : list A) (py iy : nat) : outcome (list A) :=
  match t with
  | Conj => gemv_straight (other_order o) ConjTrans n m alpha a lda x px ix beta y py iy
  | _ => gemv_straight o t m n alpha a lda x px ix beta y py iy
  end.

(** ** gemm, level3/gemm.tcc; [sched] is the schedule of the generic routine's parallel loops *)
Definition gemm_fn := order -> cblas_trans -> cblas_trans -> nat -> nat -> nat -> A -> list A -> nat -> list A -> nat -> A -> list A -> nat ->
  outcome (list A).
Variable lgemm : gemm_fn.
(** sgemm, dgemm: l.490-536 *)
Definition gemm_real (o : order) (ta tb : trans) (m n k : nat) (alpha : A) (a : list A) (lda : nat) (b : list A) (ldb : nat) (beta : A)
    (c : list A) (ldc : nat) : outcome (list A) :=
  lgemm o (cblas_type mkl ta) (cblas_type mkl tb) m n k alpha a lda b ldb beta c ldc.
(** cgemm, zgemm: l.538-598 *)
Definition gemm_complex (o : order) (ta tb : trans) (m n k : nat) (alpha : A) (a : list A) (lda : nat) (b : list A) (ldb : nat) (beta : A)
    (c : list A) (ldc : nat) (sched : list (nat * mvstep)) : outcome (list A) :=
  if is_Conj ta || is_Conj tb then gemm zero one add mul is_zero conj o ta tb m n k alpha a lda b ldb beta c ldc sched
  else lgemm o (cblas_type mkl ta) (cblas_type mkl tb) m n k alpha a lda b ldb beta c ldc.

(** ** gbmv, level2/gbmv.tcc.  With CXXBLAS_NO_TEMPORARY gbmv_generic is called, which differs from [gbmv] for empty matrices
    only; those are left out here. *)
Definition gbmv_fn := order -> cblas_trans -> Z -> Z -> Z -> Z -> A -> Z -> Z -> Z -> Z -> A -> Z -> Z -> list A -> outcome (list A).
Variable lgbmv : gbmv_fn.
(** sgbmv, dgbmv: l.170-216 *)
Definition gbmv_real (o : order) (t : trans) (rows cols kl ku : Z) (alpha : A) (a lda x incX : Z) (beta : A) (y incY : Z) (m : list A)
    : outcome (list A) :=
  lgbmv o (cblas_type mkl t) rows cols kl ku alpha a lda x incX beta y incY m.
(** cgbmv, zgbmv: l.218-294 *)
Definition gbmv_straight (o : order) (t : trans) (rows cols kl ku : Z) (alpha : A) (a lda x incX : Z) (beta : A) (y incY : Z) (m : list A)
    : outcome (list A) :=
  match nt, o, t with
  | true, RowMajor, ConjTrans => gbmv zero add mul conj is_zero o t false rows cols kl ku alpha a lda x incX beta y incY m
  | _, _, _ => lgbmv o (cblas_type mkl t) rows cols kl ku alpha a lda x incX beta y incY m
  end.
Definition gbmv_complex (o : order) (t : trans) (rows cols kl ku : Z) (alpha : A) (a lda x incX : Z) (beta : A) (y incY : Z) (m : list A)
    : outcome (list A) :=
  match t with
  | Conj => gbmv_straight (other_order o) ConjTrans cols rows ku kl alpha a lda x incX beta y incY m
  | _ => gbmv_straight o t rows cols kl ku alpha a lda x incX beta y incY m
  end.

(** ** Triangular matrices *)
Definition tri_fn := order -> uplo -> cblas_trans -> diag -> Z -> Z -> Z -> Z -> Z -> list A -> outcome (list A).
Variables (ltrmv ltrsv : tri_fn).
(** strmv, dtrmv and also ctrmv, level2/trmv.tcc l.200-252 *)
Definition trmv_plain (o : order) (up : uplo) (t : trans) (dg : diag) (n a lda x inc : Z) (m : list A) : outcome (list A) :=
  ltrmv o up (cblas_type mkl t) dg n a lda x inc m.
(** ztrmv, l.254-275 *)
Definition trmv_guarded (o : order) (up : uplo) (t : trans) (dg : diag) (n a lda x inc : Z) (m : list A) : outcome (list A) :=
  if is_Conj t then trmv zero add mul conj o up t dg n a lda x inc m else ltrmv o up (cblas_type mkl t) dg n a lda x inc m.
(** strsv, dtrsv: level2/trsv.tcc l.218-252 *)
Definition trsv_plain (o : order) (up : uplo) (t : trans) (dg : diag) (n a lda x inc : Z) (m : list A) : outcome (list A) :=
  ltrsv o up (cblas_type mkl t) dg n a lda x inc m.
(** ctrsv, ztrsv: l.254-301 *)
Definition trsv_guarded (o : order) (up : uplo) (t : trans) (dg : diag) (n a lda x inc : Z) (m : list A) : outcome (list A) :=
  if is_Conj t then trsv zero add sub mul div conj o up t dg n a lda x inc m else ltrsv o up (cblas_type mkl t) dg n a lda x inc m.

Definition trl_fn := order -> side -> uplo -> cblas_trans -> diag -> Z -> Z -> A -> Z -> Z -> Z -> Z -> list A -> outcome (list A).
Variables (ltrmm ltrsm : trl_fn).
(** strmm, dtrmm: level3/trmm.tcc l.75-115 *)
Definition trmm_plain (o : order) (sd : side) (up : uplo) (t : trans) (dg : diag) (rows cols : Z) (alpha : A) (a lda b ldb : Z) (m : list A)
    : outcome (list A) :=
  ltrmm o sd up (cblas_type mkl t) dg rows cols alpha a lda b ldb m.
(** ctrmm, ztrmm: l.117-171 *)
Definition trmm_guarded (o : order) (sd : side) (up : uplo) (t : trans) (dg : diag) (rows cols : Z) (alpha : A) (a lda b ldb : Z) (m : list A)
    : outcome (list A) :=
  if is_Conj t then trmm zero add mul conj is_zero o sd up t dg rows cols alpha a lda b ldb m
  else ltrmm o sd up (cblas_type mkl t) dg rows cols alpha a lda b ldb m.
(** strsm, dtrsm: level3/trsm.tcc l.75-115 *)
Definition trsm_plain (o : order) (sd : side) (up : uplo) (t : trans) (dg : diag) (rows cols : Z) (alpha : A) (a lda b ldb : Z) (m : list A)
    : outcome (list A) :=
  ltrsm o sd up (cblas_type mkl t) dg rows cols alpha a lda b ldb m.
(** ctrsm, ztrsm: l.117-171 *)
Definition trsm_guarded (o : order) (sd : side) (up : uplo) (t : trans) (dg : diag) (rows cols : Z) (alpha : A) (a lda b ldb : Z) (m : list A)
    : outcome (list A) :=
  if is_Conj t then trsm zero add sub mul div conj o sd up t dg rows cols alpha a lda b ldb m
  else ltrsm o sd up (cblas_type mkl t) dg rows cols alpha a lda b ldb m.
End Matrices.

(** ** Calls on the parts of complex vectors.  Memory holds reals; a complex number is two neighbouring cells (the
    reinterpret_cast of std::complex to its parts), so a pointer to complex is the address of a real part, and the
    increment doubles. *)
Section Parts.
Context {R : Type} (opp : R -> R).
Definition axpy_fn := Z -> R -> Z -> Z -> Z -> Z -> list R -> outcome (list R).
Definition dot_fn := Z -> Z -> Z -> Z -> Z -> list R -> outcome R.
Variables (laxpy : axpy_fn) (ldot : dot_fn).

(** axpy with real alpha and x, level1extensions/axpy.tcc l.43-49, 62-68 *)
Definition axpy_real (n : Z) (alpha : R) (x incX y incY : Z) (m : list R) : outcome (list R) := laxpy n alpha x incX y (2 * incY) m.
(** with complex alpha, l.51-60, 70-79 *)
Definition axpy_mixed (n : Z) (alpha : R * R) (x incX y incY : Z) (m : list R) : outcome (list R) :=
  do m1 <- laxpy n (fst alpha) x incX y (2 * incY) m; laxpy n (snd alpha) x incX (y + 1) (2 * incY) m1.
(** acxpy, level1extensions/acxpy.tcc l.60-96 *)
Definition acxpy_split (n : Z) (alpha : R) (x incX y incY : Z) (m : list R) : outcome (list R) :=
  do m1 <- laxpy n alpha x (2 * incX) y (2 * incY) m; laxpy n (opp alpha) (x + 1) (2 * incX) (y + 1) (2 * incY) m1.
(** dotu of a real and a complex vector, level1extensions/dot.tcc l.43-55, 65-77; dot is the same, l.87-93, 110-116 *)
Definition dotu_rc (n x incX y incY : Z) (m : list R) : outcome (R * R) :=
  do r <- ldot n x incX y (2 * incY) m; do i <- ldot n x incX (y + 1) (2 * incY) m; Ok (r, i).
(** dotu of a complex and a real vector, l.57-63, 79-85 *)
Definition dotu_cr (n x incX y incY : Z) (m : list R) : outcome (R * R) := dotu_rc n y incY x incX m.
(** dot of a complex and a real vector, l.95-108, 118-131 *)
Definition dot_cr (n x incX y incY : Z) (m : list R) : outcome (R * R) :=
  do r <- ldot n y incY x (2 * incX) m; do i <- ldot n y incY (x + 1) (2 * incX) m; Ok (r, opp i).

(** hpr2, level2/hpr2.tcc l.123-157: alpha is one real, and its address is passed where the library reads the two
    parts of a complex number.  (The float version names the function cblas_che2r, which does not exist.) *)
Definition hpr2_wrapped (lhpr2 : R * R -> list R -> outcome (list R)) (alpha : R) (m : list R) : outcome (list R) :=
  let object := [alpha] in
  do re <- rd object 0%nat; do im <- rd object 1%nat; lhpr2 (re, im) m.
End Parts.

(** ** Level 1: asum.tcc l.60-94, scal.tcc l.72-125 and iamax.tcc l.93-127 hand their arguments over unchanged. *)
Definition asum_wrapped {A} (lasum : Z -> Z -> Z -> list A -> outcome A) (n x incX : Z) (m : list A) : outcome A := lasum n x incX m.
Definition scal_wrapped {A} (lscal : Z -> A -> Z -> Z -> list A -> outcome (list A)) (n : Z) (alpha : A) (x incX : Z) (m : list A)
    : outcome (list A) := lscal n alpha x incX m.
Definition iamax_wrapped {A} (liamax : Z -> Z -> Z -> list A -> outcome Z) (n x incX : Z) (m : list A) : outcome Z := liamax n x incX m.
