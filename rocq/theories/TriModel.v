(** Model of the generic routines for triangular matrices: products (trmv, trmm) and solves (trsv,
    trsm).  Source: librapid/cxxblas/level2/{trmv,trsv}.tcc and level3/{trmm,trsm}.tcc, the templates
    used when no CBLAS overload applies.  Memory is as in [BlasModel]: one list, a pointer is an
    address in it, so the matrix and the vector may overlap.  IndexType is a signed integer type
    without overflow; the descending loops (i >= 0) would not end for an unsigned one. *)
From Coq Require Import ZArith.
From Verif Require Import Base MatmulModel BlasModel.
Local Open Scope Z_scope.

(** cxxblas/typedefs.h l.49-57 *)
Inductive uplo := Upper | Lower.
Inductive diag := Unit | NonUnit.
Inductive side := Left | Right.
(** (upLo == Upper) ? Lower : Upper *)
Definition other (u : uplo) : uplo := match u with Upper => Lower | Lower => Upper end.
Definition opposite (s : side) : side := match s with Left => Right | Right => Left end.

(** for (i = n - 1, iX = i * incX; ...; --i, iX -= incX) body(iX, i), for [k] rounds: k = n when the
    condition is i >= 0, and n - 1 when it is i > 0 *)
Definition descend {St} (k n incX : Z) (body : Z -> Z -> St -> outcome St) (s : St) : outcome St :=
  rounds (Z.to_nat k) ((n - 1) * incX) (- incX) (n - 1) (- 1) body s.
(** for (i = 0, iX = 0; i < k; ++i, iX += incX) body(iX, i) *)
Definition ascend {St} (k incX : Z) (body : Z -> Z -> St -> outcome St) (s : St) : outcome St := walk k incX 1 body s.

Section Tri.
Context {A : Type}.
Variables (zero : A) (add sub mul div : A -> A -> A) (conj : A -> A) (is_zero : A -> bool).

(** dotu_generic and dot_generic, level1/dot.tcc l.40-60; [c]: the first operand is conjugated *)
Definition dot_gen (c : bool) (n x incX y incY : Z) (m : list A) : outcome A :=
  walk n incX incY (fun iX iY r =>
    do u <- load m (x + iX); do v <- load m (y + iY); Ok (add r (mul (if c then conj u else u) v))) zero.

(** x[iX] += r, x[iX] -= r *)
Definition plus_at (m : list A) (p : Z) (r : A) : outcome (list A) := do v <- load m p; store m p (add v r).
Definition minus_at (m : list A) (p : Z) (r : A) : outcome (list A) := do v <- load m p; store m p (sub v r).
(** x[iX] /= A[...] (conjugated when [c]) *)
Definition over_at (c : bool) (m : list A) (p q : Z) : outcome (list A) :=
  do v <- load m p; do e <- load m q; store m p (div v (if c then conj e else e)).

(** trmv_generic for RowMajor, trmv.tcc l.50-187.  The Conj and ConjTrans branches (l.82-109, 148-187) are
    the NoTrans and Trans branches with dot_generic in place of dotu_generic. *)
Definition trmv_row (up : uplo) (t : trans) (dg : diag) (n a lda x incX : Z) (m : list A) : outcome (list A) :=
  let x := start x incX n in
  let dot := dot_gen (is_conj t) in
  match is_trans t, up, dg with
  | false, Upper, NonUnit =>
      ascend n incX (fun iX i m =>
        do r <- dot (n - i) (a + i * (lda + 1)) 1 (x + iX) incX m; store m (x + iX) r) m
  | false, Upper, Unit =>
      ascend (n - 1) incX (fun iX i m =>
        do r <- dot (n - i - 1) (a + i * (lda + 1) + 1) 1 (x + iX + incX) incX m; plus_at m (x + iX) r) m
  | false, Lower, NonUnit =>
      descend n n incX (fun iX i m =>
        do r <- dot (i + 1) (a + i * lda) 1 x incX m; store m (x + iX) r) m
  | false, Lower, Unit =>
      descend (n - 1) n incX (fun iX i m =>
        do r <- dot i (a + i * lda) 1 x incX m; plus_at m (x + iX) r) m
  | true, Upper, NonUnit =>
      descend n n incX (fun iX i m =>
        do r <- dot (i + 1) (a + i) lda x incX m; store m (x + iX) r) m
  | true, Upper, Unit =>
      descend (n - 1) n incX (fun iX i m =>
        do r <- dot i (a + i) lda x incX m; plus_at m (x + iX) r) m
  | true, Lower, NonUnit =>
      ascend n incX (fun iX i m =>
        do r <- dot (n - i) (a + i * (lda + 1)) lda (x + iX) incX m; store m (x + iX) r) m
  | true, Lower, Unit =>
      ascend (n - 1) incX (fun iX i m =>
        do r <- dot (n - i - 1) (a + i * (lda + 1) + lda) lda (x + iX + incX) incX m; plus_at m (x + iX) r) m
  end.
(** trmv_generic and trmv, l.40-49, 190-196: a column-major matrix is the row-major transpose *)
Definition trmv (o : order) (up : uplo) (t : trans) (dg : diag) (n a lda x incX : Z) (m : list A) : outcome (list A) :=
  match o with
  | RowMajor => trmv_row up t dg n a lda x incX m
  | ColMajor => trmv_row (other up) (flip t) dg n a lda x incX m
  end.

(** x[iX] -= x_; and, unless the diagonal is implicitly one, x[iX] /= A[i * (ldA + 1)] *)
Definition settle (dg : diag) (c : bool) (p q : Z) (r : A) (m : list A) : outcome (list A) :=
  do m1 <- minus_at m p r;
  match dg with Unit => Ok m1 | NonUnit => over_at c m1 p q end.
(** trsv_generic after the change to row-major, trsv.tcc l.48-205.  The Unit branches are the NonUnit
    branches without the division. *)
Definition trsv_row (up : uplo) (t : trans) (dg : diag) (n a lda x incX : Z) (m : list A) : outcome (list A) :=
  let x := start x incX n in
  let dot := dot_gen (is_conj t) in
  let settle i iX r m := settle dg (is_conj t) (x + iX) (a + i * (lda + 1)) r m in
  match is_trans t, up with
  | false, Upper =>
      descend n n incX (fun iX i m =>
        do r <- dot (n - i - 1) (a + i * (lda + 1) + 1) 1 (x + iX + incX) incX m; settle i iX r m) m
  | false, Lower =>
      ascend n incX (fun iX i m =>
        do r <- dot i (a + i * lda) 1 x incX m; settle i iX r m) m
  | true, Upper =>
      ascend n incX (fun iX i m =>
        do r <- dot i (a + i) lda x incX m; settle i iX r m) m
  | true, Lower =>
      descend n n incX (fun iX i m =>
        do r <- dot (n - i - 1) (a + i * (lda + 1) + lda) lda (x + iX + incX) incX m; settle i iX r m) m
  end.
(** trsv_generic and trsv, l.40-47, 208-214 *)
Definition trsv (o : order) (up : uplo) (t : trans) (dg : diag) (n a lda x incX : Z) (m : list A) : outcome (list A) :=
  match o with
  | RowMajor => trsv_row up t dg n a lda x incX m
  | ColMajor => trsv_row (other up) (flip t) dg n a lda x incX m
  end.

(** for (i = 0; i < k; ++i) body(i) *)
Definition repeat {St} (k : Z) (body : Z -> St -> outcome St) (s : St) : outcome St := walk1 k 1 body s.

(** gescal and gescal_init in row-major order, level1extensions/gescal.tcc l.40-72 *)
Definition gescal (rows cols : Z) (alpha : A) (b ldb : Z) (m : list A) : outcome (list A) :=
  if ldb =? cols then scal mul (rows * cols) alpha b 1 m
  else repeat rows (fun i m => scal mul cols alpha (b + i * ldb) 1 m) m.
Definition gescal_init (rows cols : Z) (alpha : A) (b ldb : Z) (m : list A) : outcome (list A) :=
  if ldb =? cols then scal_init zero mul is_zero (rows * cols) alpha b 1 m
  else repeat rows (fun i m => scal_init zero mul is_zero cols alpha (b + i * ldb) 1 m) m.

(** The two loops of trmm_generic and trsm_generic in row-major order (trmm.tcc l.50-60, trsm.tcc l.50-60):
    [rt] is trmv or trsv, applied to every row of B with the transposed operation, or to every column *)
Definition each_line (rt : uplo -> trans -> diag -> Z -> Z -> Z -> Z -> Z -> list A -> outcome (list A))
    (sd : side) (up : uplo) (t : trans) (dg : diag) (rows cols a lda b ldb : Z) (m : list A) : outcome (list A) :=
  match sd with
  | Right => repeat rows (fun i m => rt up (flip t) dg cols a lda (b + i * ldb) 1 m) m
  | Left => repeat cols (fun j m => rt up t dg rows a lda (b + j) ldb m) m
  end.
Definition trmm_row (sd : side) (up : uplo) (t : trans) (dg : diag) (rows cols : Z) (alpha : A) (a lda b ldb : Z)
    (m : list A) : outcome (list A) :=
  do m1 <- each_line trmv_row sd up t dg rows cols a lda b ldb m;
  gescal_init rows cols alpha b ldb m1.
Definition trsm_row (sd : side) (up : uplo) (t : trans) (dg : diag) (rows cols : Z) (alpha : A) (a lda b ldb : Z)
    (m : list A) : outcome (list A) :=
  do m1 <- each_line trsv_row sd up t dg rows cols a lda b ldb m;
  gescal rows cols alpha b ldb m1.
(** trmm, trmm.tcc l.40-49, 64-71, and trsm, trsm.tcc l.40-49, 64-71: a column-major call is the row-major
    call for the transposes *)
Definition trmm (o : order) (sd : side) (up : uplo) (t : trans) (dg : diag) (rows cols : Z) (alpha : A)
    (a lda b ldb : Z) (m : list A) : outcome (list A) :=
  match o with
  | RowMajor => trmm_row sd up t dg rows cols alpha a lda b ldb m
  | ColMajor => trmm_row (opposite sd) (other up) t dg cols rows alpha a lda b ldb m
  end.
Definition trsm (o : order) (sd : side) (up : uplo) (t : trans) (dg : diag) (rows cols : Z) (alpha : A)
    (a lda b ldb : Z) (m : list A) : outcome (list A) :=
  match o with
  | RowMajor => trsm_row sd up t dg rows cols alpha a lda b ldb m
  | ColMajor => trsm_row (opposite sd) (other up) t dg cols rows alpha a lda b ldb m
  end.
End Tri.
