(** Model of the generic routines for symmetric and Hermitian matrices and for rank-one and rank-two
    updates.  Source: librapid/cxxblas/level2/{ger,symv,hemv,syr,her,syr2,her2}.tcc,
    level3/{symm,syrk,syr2k}.tcc and level1extensions/{acxpy,syscal}.tcc, the templates used when no CBLAS
    overload applies.  Memory is as in [BlasModel].  In the loops
      for (i = 0, iX = 0, iY = 0; i < n; ++i, iX += incX, iY += incY)
    the strided indices are written i * incX and i * incY.  Where the source chooses between two loops by
    upLo or by conjugateA, the model has one loop with the choice inside. *)
From Coq Require Import ZArith.
From Verif Require Import Base MatmulModel BlasModel TriModel.
Local Open Scope Z_scope.

Section Sym.
Context {A : Type}.
Variables (zero one : A) (add mul : A -> A -> A) (conj re : A -> A) (is_zero is_one : A -> bool).

(** axpy_generic, level1/axpy.tcc l.41-48, and acxpy_generic, level1extensions/acxpy.tcc l.41-49;
    [c]: x is conjugated *)
Definition axpy_gen (c : bool) (n : Z) (alpha : A) (x incX y incY : Z) (m : list A) : outcome (list A) :=
  walk n incX incY (fun iX iY m =>
    do u <- load m (x + iX); plus_at add m (y + iY) (mul alpha (if c then conj u else u))) m.

(** geru_generic for RowMajor, ger.tcc l.52-54 *)
Definition geru_row (rows cols : Z) (alpha : A) (x incX y incY a lda : Z) (m : list A) : outcome (list A) :=
  repeat rows (fun i m =>
    do u <- load m (x + i * incX); axpy_gen false cols (mul alpha u) y incY (a + i * lda) 1 m) m.
(** gerc_generic for RowMajor, l.70-78; [cA]: conjugateA == Conj *)
Definition gerc_row (cA : bool) (rows cols : Z) (alpha : A) (x incX y incY a lda : Z) (m : list A) : outcome (list A) :=
  repeat rows (fun i m =>
    do u <- load m (x + i * incX);
    if cA then axpy_gen false cols (mul alpha (conj u)) y incY (a + i * lda) 1 m
    else axpy_gen true cols (mul alpha u) y incY (a + i * lda) 1 m) m.
(** geru_generic and geru (ger is geru), l.41-48, 83-95, and gerc, l.57-65, 97-105 *)
Definition geru (o : order) (rows cols : Z) (alpha : A) (x incX y incY a lda : Z) (m : list A) : outcome (list A) :=
  let x := start x incX rows in let y := start y incY cols in
  match o with
  | RowMajor => geru_row rows cols alpha x incX y incY a lda m
  | ColMajor => geru_row cols rows alpha y incY x incX a lda m
  end.
Definition gerc (o : order) (rows cols : Z) (alpha : A) (x incX y incY a lda : Z) (m : list A) : outcome (list A) :=
  let x := start x incX rows in let y := start y incY cols in
  match o with
  | RowMajor => gerc_row false rows cols alpha x incX y incY a lda m
  | ColMajor => gerc_row true cols rows alpha y incY x incX a lda m
  end.

(** order == ColMajor: upLo = (upLo == Upper) ? Lower : Upper *)
Definition row_uplo (o : order) (up : uplo) : uplo := match o with RowMajor => up | ColMajor => other up end.
(** order == ColMajor: conjugateA ^ Conj, starting from NoTrans *)
Definition row_conj (o : order) : bool := match o with RowMajor => false | ColMajor => true end.

(** symv_generic and symv, symv.tcc l.45-88.  scal_init_generic is called with the adjusted pointer, which is
    what [scal_init] computes from the caller's. *)
Definition symv (o : order) (up : uplo) (n : Z) (alpha : A) (a lda x incX : Z) (beta : A) (y incY : Z) (m : list A) : outcome (list A) :=
  do m0 <- scal_init zero mul is_zero n beta y incY m;
  let x := start x incX n in let y := start y incY n in
  match row_uplo o up with
  | Upper =>
      do m1 <- repeat n (fun i m =>
        do r <- dot_gen zero add mul conj false (n - i) (a + i * lda + i) 1 (x + i * incX) incX m;
        plus_at add m (y + i * incY) (mul alpha r)) m0;
      repeat n (fun i m =>
        do r <- dot_gen zero add mul conj false i (a + i) lda x incX m;
        plus_at add m (y + i * incY) (mul alpha r)) m1
  | Lower =>
      do m1 <- repeat n (fun i m =>
        do r <- dot_gen zero add mul conj false i (a + i * lda) 1 x incX m;
        plus_at add m (y + i * incY) (mul alpha r)) m0;
      repeat n (fun i m =>
        do r <- dot_gen zero add mul conj false (n - i) (a + i * lda + i) lda (x + i * incX) incX m;
        plus_at add m (y + i * incY) (mul alpha r)) m1
  end.

(** hemv_generic and the hemv of level2extensions/hemv.tcc l.40-50, in row-major order; [cA]: conjugateA == Conj, [re] is
    cxxblas::real *)
Definition hemv_gen (cA : bool) (up : uplo) (n : Z) (alpha : A) (a lda x incX : Z) (beta : A) (y incY : Z) (m : list A) : outcome (list A) :=
  do m0 <- scal_init zero mul is_zero n beta y incY m;
  let x := start x incX n in let y := start y incY n in
  repeat n (fun i m =>
    do e <- load m (a + i * lda + i);
    do u <- load m (x + i * incX);
    do m1 <- plus_at add m (y + i * incY) (mul (mul alpha (re e)) u);
    match up with
    | Upper =>
        do r <- dot_gen zero add mul conj cA (n - i - 1) (a + i * lda + i + 1) 1 (x + i * incX + incX) incX m1;
        do m2 <- plus_at add m1 (y + i * incY) (mul alpha r);
        do u <- load m2 (x + i * incX);
        axpy_gen (negb cA) (n - i - 1) (mul alpha u) (a + i * lda + i + 1) 1 (y + i * incY + incY) incY m2
    | Lower =>
        do r <- dot_gen zero add mul conj cA i (a + i * lda) 1 x incX m1;
        do m2 <- plus_at add m1 (y + i * incY) (mul alpha r);
        do u <- load m2 (x + i * incX);
        axpy_gen (negb cA) i (mul alpha u) (a + i * lda) 1 y incY m2
    end) m0.
(** hemv, hemv.tcc l.40-48, 110-120 *)
Definition hemv (o : order) (up : uplo) (n : Z) (alpha : A) (a lda x incX : Z) (beta : A) (y incY : Z) (m : list A) : outcome (list A) :=
  hemv_gen (row_conj o) (row_uplo o up) n alpha a lda x incX beta y incY m.

(** The two calls in every rank update of a symmetric or Hermitian matrix, e.g. syr.tcc l.54 and l.58: row i of the upper
    triangle starts at the diagonal, row i of the lower one ends there *)
Definition half_row (c : bool) (up : uplo) (n : Z) (alpha : A) (x incX a lda i : Z) (m : list A) : outcome (list A) :=
  match up with
  | Upper => axpy_gen c (n - i) alpha (x + i * incX) incX (a + i * (lda + 1)) 1 m
  | Lower => axpy_gen c (i + 1) alpha x incX (a + i * lda) 1 m
  end.
(** for (i = 0; i < n; ++i) A[i * ldA + i] = real(A[i * ldA + i]), her.tcc l.80, her2.tcc l.99 *)
Definition real_diagonal (n a lda : Z) (m : list A) : outcome (list A) :=
  repeat n (fun i m => do e <- load m (a + i * lda + i); store m (a + i * lda + i) (re e)) m.

(** syr_generic and syr, syr.tcc l.41-70 *)
Definition syr (o : order) (up : uplo) (n : Z) (alpha : A) (x incX a lda : Z) (m : list A) : outcome (list A) :=
  let x := start x incX n in
  repeat n (fun i m => do u <- load m (x + i * incX); half_row false (row_uplo o up) n (mul alpha u) x incX a lda i m) m.
(** her_generic and the her of level2extensions/her.tcc l.40-48, in row-major order; [cA]: conjugateA == Conj *)
Definition her_gen (cA : bool) (up : uplo) (n : Z) (alpha : A) (x incX a lda : Z) (m : list A) : outcome (list A) :=
  let x := start x incX n in
  if is_zero alpha then Ok m else
  do m1 <- repeat n (fun i m =>
    do u <- load m (x + i * incX);
    if cA then half_row false up n (mul alpha (conj u)) x incX a lda i m
    else half_row true up n (mul alpha u) x incX a lda i m) m;
  real_diagonal n a lda m1.
(** her, her.tcc l.41-48, 82-90 *)
Definition her (o : order) (up : uplo) (n : Z) (alpha : A) (x incX a lda : Z) (m : list A) : outcome (list A) :=
  her_gen (row_conj o) (row_uplo o up) n alpha x incX a lda m.
(** syr2_generic and syr2, syr2.tcc l.41-74 *)
Definition syr2_row (up : uplo) (n : Z) (alpha : A) (x incX y incY a lda : Z) (m : list A) : outcome (list A) :=
  repeat n (fun i m =>
    do u <- load m (x + i * incX);
    do m1 <- half_row false up n (mul alpha u) y incY a lda i m;
    do v <- load m1 (y + i * incY);
    half_row false up n (mul alpha v) x incX a lda i m1) m.
Definition syr2 (o : order) (up : uplo) (n : Z) (alpha : A) (x incX y incY a lda : Z) (m : list A) : outcome (list A) :=
  let x := start x incX n in let y := start y incY n in
  match o with
  | RowMajor => syr2_row up n alpha x incX y incY a lda m
  | ColMajor => syr2_row (other up) n alpha y incY x incX a lda m
  end.
(** her2_generic and the her2 of level2extensions/her2.tcc l.40-50, in row-major order; [cA]: conjugateA == Conj *)
Definition her2_gen (cA : bool) (up : uplo) (n : Z) (alpha : A) (x incX y incY a lda : Z) (m : list A) : outcome (list A) :=
  let x := start x incX n in let y := start y incY n in
  if is_zero alpha then Ok m else
  do m1 <- repeat n (fun i m =>
    do u <- load m (x + i * incX);
    if cA then
      do m1 <- half_row false up n (conj (mul alpha u)) y incY a lda i m;
      do v <- load m1 (y + i * incY);
      half_row false up n (mul alpha (conj v)) x incX a lda i m1
    else
      do m1 <- half_row true up n (mul alpha u) y incY a lda i m;
      do v <- load m1 (y + i * incY);
      half_row true up n (mul (conj alpha) v) x incX a lda i m1) m;
  real_diagonal n a lda m1.
(** her2, her2.tcc l.41-51, 101-110 *)
Definition her2 (o : order) (up : uplo) (n : Z) (alpha : A) (x incX y incY a lda : Z) (m : list A) : outcome (list A) :=
  her2_gen (row_conj o) (row_uplo o up) n alpha x incX y incY a lda m.

(** syscal_init in row-major order, level1extensions/syscal.tcc l.57-73 *)
Definition syscal_init (up : uplo) (n : Z) (alpha : A) (a lda : Z) (m : list A) : outcome (list A) :=
  if is_one alpha then Ok m else
  repeat n (fun i m =>
    match up with
    | Upper => scal_init zero mul is_zero (n - i) alpha (a + i * (lda + 1)) 1 m
    | Lower => scal_init zero mul is_zero (i + 1) alpha (a + i * lda) 1 m
    end) m.

(** syrk_generic for RowMajor, syrk.tcc l.50-67: the Conj and ConjTrans branches are the NoTrans and Trans ones *)
Definition syrk_row (up : uplo) (t : trans) (n k : Z) (alpha : A) (a lda : Z) (beta : A) (c ldc : Z) (m : list A) : outcome (list A) :=
  do m0 <- syscal_init up n beta c ldc m;
  if k =? 0 then Ok m0 else
  repeat k (fun l m =>
    if is_trans t then syr RowMajor up n alpha (a + l * lda) 1 c ldc m
    else syr RowMajor up n alpha (a + l) lda c ldc m) m0.
(** syrk_generic and syrk, l.40-49, 70-77 *)
Definition syrk (o : order) (up : uplo) (t : trans) (n k : Z) (alpha : A) (a lda : Z) (beta : A) (c ldc : Z) (m : list A) : outcome (list A) :=
  match o with
  | RowMajor => syrk_row up t n k alpha a lda beta c ldc m
  | ColMajor => syrk_row (other up) (flip t) n k alpha a lda beta c ldc m
  end.
(** syr2k_generic and syr2k, syr2k.tcc l.40-101 *)
Definition syr2k_row (up : uplo) (t : trans) (n k : Z) (alpha : A) (a lda b ldb : Z) (beta : A) (c ldc : Z) (m : list A) : outcome (list A) :=
  do m0 <- syscal_init up n beta c ldc m;
  if k =? 0 then Ok m0 else
  repeat k (fun l m =>
    if is_trans t then syr2 RowMajor up n alpha (a + l * lda) 1 (b + l * ldb) 1 c ldc m
    else syr2 RowMajor up n alpha (a + l) lda (b + l) ldb c ldc m) m0.
Definition syr2k (o : order) (up : uplo) (t : trans) (n k : Z) (alpha : A) (a lda b ldb : Z) (beta : A) (c ldc : Z) (m : list A) : outcome (list A) :=
  match o with
  | RowMajor => syr2k_row up t n k alpha a lda b ldb beta c ldc m
  | ColMajor => syr2k_row (other up) (flip t) n k alpha a lda b ldb beta c ldc m
  end.

(** symm_generic for RowMajor, symm.tcc l.51-71, and symm, l.40-50, 74-82 *)
Definition symm_row (sd : side) (up : uplo) (rows cols : Z) (alpha : A) (a lda b ldb : Z) (beta : A) (c ldc : Z) (m : list A) : outcome (list A) :=
  do m0 <- gescal_init zero mul is_zero rows cols beta c ldc m;
  match sd with
  | Right => repeat rows (fun i m => symv RowMajor up cols alpha a lda (b + i * ldb) 1 one (c + i * ldc) 1 m) m0
  | Left => repeat cols (fun j m => symv RowMajor up rows alpha a lda (b + j) ldb one (c + j) ldc m) m0
  end.
Definition symm (o : order) (sd : side) (up : uplo) (rows cols : Z) (alpha : A) (a lda b ldb : Z) (beta : A) (c ldc : Z) (m : list A) : outcome (list A) :=
  match o with
  | RowMajor => symm_row sd up rows cols alpha a lda b ldb beta c ldc m
  | ColMajor => symm_row (opposite sd) (other up) cols rows alpha a lda b ldb beta c ldc m
  end.
End Sym.
