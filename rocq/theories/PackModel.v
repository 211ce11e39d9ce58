(** Model of the generic routines for packed and banded matrices.  Source: librapid/cxxblas/level2/{tpmv,tpsv,
    spmv,hpmv,spr,spr2,hpr,hpr2,tbmv,tbsv,sbmv,hbmv,gbmv}.tcc, the templates used when no CBLAS overload applies.
    Memory and IndexType are as in [BlasModel] and [TriModel]; the divisions are of nonnegative numbers, where
    C++ and Coq agree.  The first argument of axpy_generic after the length is a reference to the scalar; where
    it is x[iX] itself, the model reads it once, before the loop: the loop writes only other elements of x. *)
From Coq Require Import ZArith.
From Verif Require Import Base MatmulModel BlasModel TriModel SymModel.
Local Open Scope Z_scope.

(** for (i = 1, iX = i * incX; i < n; ++i, iX += incX) body(iX, i), e.g. tpmv.tcc l.155 *)
Definition ascend_from_1 {St} (n incX : Z) (body : Z -> Z -> St -> outcome St) (s : St) : outcome St :=
  rounds (Z.to_nat (n - 1)) (1 * incX) incX 1 1 body s.

Section Pack.
Context {A : Type}.
Variables (zero : A) (add sub mul div : A -> A -> A) (opp conj re : A -> A) (is_zero : A -> bool).

(** x[iX] *= A[...] (conjugated when [c]) *)
Definition times_at (c : bool) (m : list A) (p q : Z) : outcome (list A) :=
  do v <- load m p; do e <- load m q; store m p (mul v (if c then conj e else e)).

(** tpmv_generic for RowMajor, tpmv.tcc l.50-195.  The Conj and ConjTrans branches (l.89-125, 161-195) are the
    NoTrans and Trans ones with dot_generic and acxpy_generic, and a conjugated diagonal. *)
Definition tpmv_row (up : uplo) (t : trans) (dg : diag) (n a x incX : Z) (m : list A) : outcome (list A) :=
  let x := start x incX n in
  let c := is_conj t in
  let dot := dot_gen zero add mul conj c in
  let axpy := axpy_gen add mul conj c in
  match is_trans t, up, dg with
  | false, Upper, NonUnit =>
      ascend n incX (fun iX i m =>
        do r <- dot (n - i) (a + i * (2 * n - i + 1) / 2) 1 (x + iX) incX m; store m (x + iX) r) m
  | false, Upper, Unit =>
      ascend (n - 1) incX (fun iX i m =>
        do r <- dot (n - i - 1) (a + i * (2 * n - i + 1) / 2 + 1) 1 (x + iX + incX) incX m; plus_at add m (x + iX) r) m
  | false, Lower, NonUnit =>
      descend n n incX (fun iX i m =>
        do r <- dot (i + 1) (a + i * (i + 1) / 2) 1 x incX m; store m (x + iX) r) m
  | false, Lower, Unit =>
      descend (n - 1) n incX (fun iX i m =>
        do r <- dot i (a + i * (i + 1) / 2) 1 x incX m; plus_at add m (x + iX) r) m
  | true, Upper, NonUnit =>
      descend n n incX (fun iX i m =>
        do u <- load m (x + iX);
        do m1 <- axpy (n - 1 - i) u (a + i * (2 * n - i + 1) / 2 + 1) 1 (x + iX + incX) incX m;
        times_at c m1 (x + iX) (a + i * (2 * n - i + 1) / 2)) m
  | true, Upper, Unit =>
      descend n n incX (fun iX i m =>
        do u <- load m (x + iX);
        axpy (n - 1 - i) u (a + i * (2 * n - i + 1) / 2 + 1) 1 (x + iX + incX) incX m) m
  | true, Lower, NonUnit =>
      ascend n incX (fun iX i m =>
        do u <- load m (x + iX);
        do m1 <- axpy i u (a + i * (i + 1) / 2) 1 x incX m;
        times_at c m1 (x + iX) (a + i * (i + 3) / 2)) m
  | true, Lower, Unit =>
      ascend_from_1 n incX (fun iX i m =>
        do u <- load m (x + iX); axpy i u (a + i * (i + 1) / 2) 1 x incX m) m
  end.
(** tpmv_generic and tpmv, l.40-49, 198-204 *)
Definition tpmv (o : order) (up : uplo) (t : trans) (dg : diag) (n a x incX : Z) (m : list A) : outcome (list A) :=
  match o with
  | RowMajor => tpmv_row up t dg n a x incX m
  | ColMajor => tpmv_row (other up) (flip t) dg n a x incX m
  end.

(** tpsv_generic for RowMajor, tpsv.tcc l.50-207; Conj and ConjTrans as for tpmv *)
Definition tpsv_row (up : uplo) (t : trans) (dg : diag) (n a x incX : Z) (m : list A) : outcome (list A) :=
  let x := start x incX n in
  let c := is_conj t in
  let dot := dot_gen zero add mul conj c in
  let axpy := axpy_gen add mul conj c in
  match is_trans t, up, dg with
  | false, Upper, NonUnit =>
      descend n n incX (fun iX i m =>
        do r <- dot (n - 1 - i) (a + i * (2 * n - i + 1) / 2 + 1) 1 (x + iX + incX) incX m;
        do m1 <- minus_at sub m (x + iX) r;
        over_at div conj c m1 (x + iX) (a + i * (2 * n - i + 1) / 2)) m
  | false, Upper, Unit =>
      descend n n incX (fun iX i m =>
        do r <- dot (n - 1 - i) (a + i * (2 * n - i + 1) / 2 + 1) 1 (x + iX + incX) incX m;
        minus_at sub m (x + iX) r) m
  | false, Lower, NonUnit =>
      ascend n incX (fun iX i m =>
        do r <- dot i (a + i * (i + 1) / 2) 1 x incX m;
        do m1 <- minus_at sub m (x + iX) r;
        over_at div conj c m1 (x + iX) (a + i * (i + 3) / 2)) m
  | false, Lower, Unit =>
      ascend_from_1 n incX (fun iX i m =>
        do r <- dot i (a + i * (i + 1) / 2) 1 x incX m; minus_at sub m (x + iX) r) m
  | true, Upper, NonUnit =>
      ascend n incX (fun iX i m =>
        do m1 <- over_at div conj c m (x + iX) (a + i * (2 * n - i + 1) / 2);
        do u <- load m1 (x + iX);
        axpy (n - 1 - i) (opp u) (a + i * (2 * n - i + 1) / 2 + 1) 1 (x + iX + incX) incX m1) m
  | true, Upper, Unit =>
      ascend (n - 1) incX (fun iX i m =>
        do u <- load m (x + iX);
        axpy (n - 1 - i) (opp u) (a + i * (2 * n - i + 1) / 2 + 1) 1 (x + iX + incX) incX m) m
  | true, Lower, NonUnit =>
      descend n n incX (fun iX i m =>
        do m1 <- over_at div conj c m (x + iX) (a + i * (i + 3) / 2);
        do u <- load m1 (x + iX);
        axpy i (opp u) (a + i * (i + 1) / 2) 1 x incX m1) m
  | true, Lower, Unit =>
      descend (n - 1) n incX (fun iX i m =>
        do u <- load m (x + iX); axpy i (opp u) (a + i * (i + 1) / 2) 1 x incX m) m
  end.
(** tpsv_generic and tpsv, l.40-49, 210-216 *)
Definition tpsv (o : order) (up : uplo) (t : trans) (dg : diag) (n a x incX : Z) (m : list A) : outcome (list A) :=
  match o with
  | RowMajor => tpsv_row up t dg n a x incX m
  | ColMajor => tpsv_row (other up) (flip t) dg n a x incX m
  end.

(** spmv_generic and spmv, spmv.tcc l.41-81.  As in [symv], scal_init_generic gets the adjusted pointer. *)
Definition spmv (o : order) (up : uplo) (n : Z) (alpha : A) (a x incX : Z) (beta : A) (y incY : Z) (m : list A) : outcome (list A) :=
  do m0 <- scal_init zero mul is_zero n beta y incY m;
  let x := start x incX n in let y := start y incY n in
  match row_uplo o up with
  | Upper =>
      repeat n (fun i m =>
        do r <- dot_gen zero add mul conj false (n - i) (a + i * (2 * n - i + 1) / 2) 1 (x + i * incX) incX m;
        do m1 <- plus_at add m (y + i * incY) (mul alpha r);
        do u <- load m1 (x + i * incX);
        axpy_gen add mul conj false (n - i - 1) (mul alpha u) (a + i * (2 * n - i + 1) / 2 + 1) 1 (y + i * incY + incY) incY m1) m0
  | Lower =>
      repeat n (fun i m =>
        do r <- dot_gen zero add mul conj false i (a + i * (i + 1) / 2) 1 x incX m;
        do m1 <- plus_at add m (y + i * incY) (mul alpha r);
        do u <- load m1 (x + i * incX);
        axpy_gen add mul conj false (i + 1) (mul alpha u) (a + i * (i + 1) / 2) 1 y incY m1) m0
  end.

(** hpmv_generic and hpmv, hpmv.tcc l.41-125; [cA] is conjugateA == Conj *)
Definition hpmv (o : order) (up : uplo) (n : Z) (alpha : A) (a x incX : Z) (beta : A) (y incY : Z) (m : list A) : outcome (list A) :=
  let cA := row_conj o in
  do m0 <- scal_init zero mul is_zero n beta y incY m;
  let x := start x incX n in let y := start y incY n in
  match row_uplo o up with
  | Upper =>
      repeat n (fun i m =>
        do e <- load m (a + i * (2 * n - i + 1) / 2);
        do u <- load m (x + i * incX);
        do m1 <- plus_at add m (y + i * incY) (mul (mul alpha (re e)) u);
        do r <- dot_gen zero add mul conj cA (n - i - 1) (a + i * (2 * n - i + 1) / 2 + 1) 1 (x + i * incX + incX) incX m1;
        do m2 <- plus_at add m1 (y + i * incY) (mul alpha r);
        do u <- load m2 (x + i * incX);
        axpy_gen add mul conj (negb cA) (n - i - 1) (mul alpha u) (a + i * (2 * n - i + 1) / 2 + 1) 1 (y + i * incY + incY) incY m2) m0
  | Lower =>
      repeat n (fun i m =>
        do e <- load m (a + (i + i * (i + 1) / 2));
        do u <- load m (x + i * incX);
        do m1 <- plus_at add m (y + i * incY) (mul (mul alpha (re e)) u);
        do r <- dot_gen zero add mul conj cA i (a + i * (i + 1) / 2) 1 x incX m1;
        do m2 <- plus_at add m1 (y + i * incY) (mul alpha r);
        do u <- load m2 (x + i * incX);
        axpy_gen add mul conj (negb cA) i (mul alpha u) (a + i * (i + 1) / 2) 1 y incY m2) m0
  end.

(** The two calls of every packed rank update, e.g. spr.tcc l.54 and l.59 *)
Definition packed_row (c : bool) (up : uplo) (n : Z) (alpha : A) (x incX a i : Z) (m : list A) : outcome (list A) :=
  match up with
  | Upper => axpy_gen add mul conj c (n - i) alpha (x + i * incX) incX (a + i * (2 * n - i + 1) / 2) 1 m
  | Lower => axpy_gen add mul conj c (i + 1) alpha x incX (a + i * (i + 1) / 2) 1 m
  end.
(** The last loops of hpr and hpr2, hpr.tcc l.72-74, 86-88 and hpr2.tcc l.87-89, 105-107 *)
Definition packed_real (up : uplo) (n a : Z) (m : list A) : outcome (list A) :=
  repeat n (fun i m =>
    let q := match up with Upper => a + (i + i * (2 * n - i - 1) / 2) | Lower => a + (i + i * (i + 1) / 2) end in
    do e <- load m q; store m q (re e)) m.
(** spr_generic and spr, spr.tcc l.41-71 *)
Definition spr (o : order) (up : uplo) (n : Z) (alpha : A) (x incX a : Z) (m : list A) : outcome (list A) :=
  let x := start x incX n in
  repeat n (fun i m => do u <- load m (x + i * incX); packed_row false (row_uplo o up) n (mul alpha u) x incX a i m) m.
(** spr2_generic and spr2, spr2.tcc l.41-75 *)
Definition spr2 (o : order) (up : uplo) (n : Z) (alpha : A) (x incX y incY a : Z) (m : list A) : outcome (list A) :=
  let x := start x incX n in let y := start y incY n in
  repeat n (fun i m =>
    do u <- load m (x + i * incX);
    do m1 <- packed_row false (row_uplo o up) n (mul alpha u) y incY a i m;
    do v <- load m1 (y + i * incY);
    packed_row false (row_uplo o up) n (mul alpha v) x incX a i m1) m.
(** hpr_generic and hpr, hpr.tcc l.41-99 *)
Definition hpr (o : order) (up : uplo) (n : Z) (alpha : A) (x incX a : Z) (m : list A) : outcome (list A) :=
  let x := start x incX n in
  if is_zero alpha then Ok m else
  do m1 <- repeat n (fun i m =>
    do u <- load m (x + i * incX);
    if row_conj o then packed_row false (row_uplo o up) n (mul alpha (conj u)) x incX a i m
    else packed_row true (row_uplo o up) n (mul alpha u) x incX a i m) m;
  packed_real (row_uplo o up) n a m1.
(** hpr2_generic and hpr2, hpr2.tcc l.41-119 *)
Definition hpr2 (o : order) (up : uplo) (n : Z) (alpha : A) (x incX y incY a : Z) (m : list A) : outcome (list A) :=
  let x := start x incX n in let y := start y incY n in
  if is_zero alpha then Ok m else
  do m1 <- repeat n (fun i m =>
    do u <- load m (x + i * incX);
    if row_conj o then
      do m1 <- packed_row false (row_uplo o up) n (conj (mul alpha u)) y incY a i m;
      do v <- load m1 (y + i * incY);
      packed_row false (row_uplo o up) n (mul alpha (conj v)) x incX a i m1
    else
      do m1 <- packed_row true (row_uplo o up) n (mul alpha u) y incY a i m;
      do v <- load m1 (y + i * incY);
      packed_row true (row_uplo o up) n (mul (conj alpha) v) x incX a i m1) m;
  packed_real (row_uplo o up) n a m1.

(** tbmv_generic for RowMajor, tbmv.tcc l.53-231; Conj and ConjTrans as for tpmv *)
Definition tbmv_row (up : uplo) (t : trans) (dg : diag) (n k a lda x incX : Z) (m : list A) : outcome (list A) :=
  let x := start x incX n in
  let c := is_conj t in
  let dot := dot_gen zero add mul conj c in
  let axpy := axpy_gen add mul conj c in
  match is_trans t, up with
  | false, Upper =>
      ascend n incX (fun iX i m =>
        let len := Z.min (k + 1) (n - i) in
        match dg with
        | NonUnit => do r <- dot len (a + lda * i) 1 (x + iX) incX m; store m (x + iX) r
        | Unit => do r <- dot (len - 1) (a + lda * i + 1) 1 (x + iX + incX) incX m; plus_at add m (x + iX) r
        end) m
  | false, Lower =>
      descend n n incX (fun iX i m =>
        let iA := Z.max (k - i) 0 in let len := Z.min k i + 1 in let i_ := Z.max (i - k) 0 in
        match dg with
        | NonUnit => do r <- dot len (a + lda * i + iA) 1 (x + i_ * incX) incX m; store m (x + iX) r
        | Unit => do r <- dot (len - 1) (a + lda * i + iA) 1 (x + i_ * incX) incX m; plus_at add m (x + iX) r
        end) m
  | true, Upper =>
      descend n n incX (fun iX i m =>
        let len := Z.min (k + 1) (n - i) in
        do u <- load m (x + iX);
        do m1 <- axpy (len - 1) u (a + lda * i + 1) 1 (x + iX + incX) incX m;
        match dg with NonUnit => times_at c m1 (x + iX) (a + lda * i) | Unit => Ok m1 end) m
  | true, Lower =>
      ascend n incX (fun iX i m =>
        let iA := Z.max (k - i) 0 in let len := Z.min k i + 1 in let iY := Z.max (i - k) 0 * incX in
        do u <- load m (x + iX);
        do m1 <- axpy (len - 1) u (a + lda * i + iA) 1 (x + iY) incX m;
        match dg with NonUnit => times_at c m1 (x + iX) (a + lda * i + iA + len - 1) | Unit => Ok m1 end) m
  end.
(** tbmv_generic and tbmv, l.40-51, 236-244 *)
Definition tbmv (o : order) (up : uplo) (t : trans) (dg : diag) (n k a lda x incX : Z) (m : list A) : outcome (list A) :=
  if n =? 0 then Ok m else
  match o with
  | RowMajor => tbmv_row up t dg n k a lda x incX m
  | ColMajor => tbmv_row (other up) (flip t) dg n k a lda x incX m
  end.

(** tbsv_generic after the change to row-major, tbsv.tcc l.52-263 *)
Definition tbsv_row (up : uplo) (t : trans) (dg : diag) (n k a lda x incX : Z) (m : list A) : outcome (list A) :=
  let x := start x incX n in
  let c := is_conj t in
  let dot := dot_gen zero add mul conj c in
  let axpy := axpy_gen add mul conj c in
  match is_trans t, up with
  | false, Upper =>
      descend n n incX (fun iX i m =>
        let len := Z.min (k + 1) (n - i) in
        do r <- dot (len - 1) (a + lda * i + 1) 1 (x + iX + incX) incX m;
        do m1 <- minus_at sub m (x + iX) r;
        match dg with NonUnit => over_at div conj c m1 (x + iX) (a + lda * i) | Unit => Ok m1 end) m
  | false, Lower =>
      ascend n incX (fun iX i m =>
        let iA := Z.max (k - i) 0 in let len := Z.min k i + 1 in let i_ := Z.max (i - k) 0 in
        do r <- dot (len - 1) (a + lda * i + iA) 1 (x + i_ * incX) incX m;
        do m1 <- minus_at sub m (x + iX) r;
        match dg with NonUnit => over_at div conj c m1 (x + iX) (a + lda * i + iA + len - 1) | Unit => Ok m1 end) m
  | true, Upper =>
      ascend n incX (fun iX i m =>
        let len := Z.min (k + 1) (n - i) in
        do m1 <- match dg with NonUnit => over_at div conj c m (x + iX) (a + lda * i) | Unit => Ok m end;
        do u <- load m1 (x + iX);
        axpy (len - 1) (opp u) (a + lda * i + 1) 1 (x + iX + incX) incX m1) m
  | true, Lower =>
      descend n n incX (fun iX i m =>
        let iA := Z.max (k - i) 0 in let len := Z.min k i + 1 in let iY := Z.max (i - k) 0 * incX in
        do m1 <- match dg with NonUnit => over_at div conj c m (x + iX) (a + lda * i + iA + len - 1) | Unit => Ok m end;
        do u <- load m1 (x + iX);
        axpy (len - 1) (opp u) (a + lda * i + iA) 1 (x + iY) incX m1) m
  end.
(** tbsv_generic and tbsv, l.41-50, 268-276 *)
Definition tbsv (o : order) (up : uplo) (t : trans) (dg : diag) (n k a lda x incX : Z) (m : list A) : outcome (list A) :=
  if n =? 0 then Ok m else
  match o with
  | RowMajor => tbsv_row up t dg n k a lda x incX m
  | ColMajor => tbsv_row (other up) (flip t) dg n k a lda x incX m
  end.

(** sbmv_generic and sbmv, sbmv.tcc l.41-101 *)
Definition sbmv (o : order) (up : uplo) (n k : Z) (alpha : A) (a lda x incX : Z) (beta : A) (y incY : Z) (m : list A) : outcome (list A) :=
  if n =? 0 then Ok m else
  do m0 <- scal_init zero mul is_zero n beta y incY m;
  let x := start x incX n in let y := start y incY n in
  match row_uplo o up with
  | Upper =>
      repeat n (fun i m =>
        let len := Z.min (k + 1) (n - i) in
        do r <- dot_gen zero add mul conj false len (a + lda * i) 1 (x + i * incX) incX m;
        do m1 <- plus_at add m (y + i * incY) (mul alpha r);
        do u <- load m1 (x + i * incX);
        axpy_gen add mul conj false (len - 1) (mul u alpha) (a + lda * i + 1) 1 (y + i * incY + incY) incY m1) m0
  | Lower =>
      repeat n (fun i m =>
        let iA := Z.max (k - i) 0 in let len := Z.min k i + 1 in let i_ := Z.max (i - k) 0 in
        do r <- dot_gen zero add mul conj false len (a + lda * i + iA) 1 (x + i_ * incX) incX m;
        do m1 <- plus_at add m (y + i * incY) (mul alpha r);
        do u <- load m1 (x + i * incX);
        axpy_gen add mul conj false (len - 1) (mul u alpha) (a + lda * i + iA) 1 (y + i_ * incY) incY m1) m0
  end.
(** hbmv_generic and hbmv, hbmv.tcc l.41-142 *)
Definition hbmv (o : order) (up : uplo) (n k : Z) (alpha : A) (a lda x incX : Z) (beta : A) (y incY : Z) (m : list A) : outcome (list A) :=
  if n =? 0 then Ok m else
  let cA := row_conj o in
  do m0 <- scal_init zero mul is_zero n beta y incY m;
  let x := start x incX n in let y := start y incY n in
  match row_uplo o up with
  | Upper =>
      repeat n (fun i m =>
        let len := Z.min (k + 1) (n - i) in
        do e <- load m (a + lda * i);
        do u <- load m (x + i * incX);
        do m1 <- plus_at add m (y + i * incY) (mul (mul alpha (re e)) u);
        do r <- dot_gen zero add mul conj cA (len - 1) (a + lda * i + 1) 1 (x + i * incX + incX) incX m1;
        do m2 <- plus_at add m1 (y + i * incY) (mul alpha r);
        do u <- load m2 (x + i * incX);
        axpy_gen add mul conj (negb cA) (len - 1) (mul u alpha) (a + lda * i + 1) 1 (y + i * incY + incY) incY m2) m0
  | Lower =>
      repeat n (fun i m =>
        let iA := Z.max (k - i) 0 in let len := Z.min k i + 1 in let i_ := Z.max (i - k) 0 in
        do e <- load m (a + (lda * i + iA + len - 1));
        do u <- load m (x + i * incX);
        do m1 <- plus_at add m (y + i * incY) (mul (mul alpha (re e)) u);
        do r <- dot_gen zero add mul conj cA (len - 1) (a + lda * i + iA) 1 (x + i_ * incX) incX m1;
        do m2 <- plus_at add m1 (y + i * incY) (mul alpha r);
        do u <- load m2 (x + i * incX);
        axpy_gen add mul conj (negb cA) (len - 1) (mul u alpha) (a + lda * i + iA) 1 (y + i_ * incY) incY m2) m0
  end.

(** gbmv_generic for RowMajor, gbmv.tcc l.53-152; [cx] is conjX == Conj.  The lengths may be negative: the loops
    then do nothing. *)
Definition gbmv_row (t : trans) (cx : bool) (rows cols kl ku : Z) (alpha : A) (a lda x incX : Z) (beta : A) (y incY : Z)
    (m : list A) : outcome (list A) :=
  if is_trans t then
    do m0 <- scal_init zero mul is_zero cols beta y incY m;
    let x := start x incX rows in let y := start y incY cols in
    repeat rows (fun i m =>
      let iA := Z.max (kl - i) 0 in let len := Z.min (kl + ku + 1) (kl - i + cols) - iA in let iY := Z.max (i - kl) 0 * incY in
      do u <- load m (x + i * incX);
      axpy_gen add mul conj (is_conj t) len (mul (if cx then conj u else u) alpha) (a + lda * i + iA) 1 (y + iY) incY m) m0
  else
    do m0 <- scal_init zero mul is_zero rows beta y incY m;
    let x := start x incX cols in let y := start y incY rows in
    repeat rows (fun i m =>
      let iA := Z.max (kl - i) 0 in let len := Z.min (kl + ku + 1) (kl - i + cols) - iA in let iX := Z.max (i - kl) 0 * incX in
      match is_conj t, cx with
      | false, false =>
          do r <- dot_gen zero add mul conj false len (a + lda * i + iA) 1 (x + iX) incX m;
          plus_at add m (y + i * incY) (mul alpha r)
      | false, true =>
          do r <- dot_gen zero add mul conj true len (x + iX) incX (a + lda * i + iA) 1 m;
          plus_at add m (y + i * incY) (mul alpha r)
      | true, false =>
          do r <- dot_gen zero add mul conj true len (a + lda * i + iA) 1 (x + iX) incX m;
          plus_at add m (y + i * incY) (mul alpha r)
      | true, true =>
          do r <- dot_gen zero add mul conj false len (a + lda * i + iA) 1 (x + iX) incX m;
          plus_at add m (y + i * incY) (mul alpha (conj r))
      end) m0.
(** gbmv_generic, l.41-52, the gbmv of l.157-166 (cx = false) and the one of level2extensions/gbmv.tcc l.41-50 *)
Definition gbmv (o : order) (t : trans) (cx : bool) (rows cols kl ku : Z) (alpha : A) (a lda x incX : Z) (beta : A) (y incY : Z)
    (m : list A) : outcome (list A) :=
  if (rows =? 0) || (cols =? 0) then Ok m else
  match o with
  | RowMajor => gbmv_row t cx rows cols kl ku alpha a lda x incX beta y incY m
  | ColMajor => gbmv_row (flip t) cx cols rows ku kl alpha a lda x incX beta y incY m
  end.
End Pack.
