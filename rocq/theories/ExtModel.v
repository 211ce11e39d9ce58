(** Model of the routines that copy, add, exchange, transpose and scale whole matrices.  Source:
    librapid/cxxblas/level1extensions/*.tcc, the templates used when no CBLAS or MKL overload applies.  Memory is as
    in [BlasModel]; assert, when it is compiled in, ends the program: [Throw].  Several routines have the same loops
    around different vector routines ([vop]: n, x, incX, y, incY); the loops are written once and take the vector
    routine for the plain modes and the one for the conjugating modes. *)
From Coq Require Import ZArith.
From Verif Require Import Base MatmulModel BlasModel TriModel.
Local Open Scope Z_scope.

Section Ext.
Context {A : Type}.
Variables (zero : A) (add mul div : A -> A -> A) (conj : A -> A) (is_zero is_one : A -> bool).
Definition vop : Type := Z -> Z -> Z -> Z -> Z -> list A -> outcome (list A).
(** assert(b) *)
Definition assertion (asserts b : bool) : outcome unit := if asserts && negb b then Throw RuntimeError else Ok tt.

(** ** Vectors *)
(** ccopy, ccopy.tcc l.40-54 *)
Definition ccopy : vop := fun n x incX y incY m =>
  let x := start x incX n in let y := start y incY n in
  walk n incX incY (fun iX iY m => do v <- load m (x + iX); store m (y + iY) (conj v)) m.
(** acxpy, acxpy.tcc l.41-56 *)
Definition acxpy (alpha : A) : vop := fun n x incX y incY m =>
  let x := start x incX n in let y := start y incY n in
  walk n incX incY (fun iX iY m =>
    do u <- load m (x + iX); do v <- load m (y + iY); store m (y + iY) (add v (mul alpha (conj u)))) m.
(** axpby, axpby.tcc l.41-48, and acxpby, acxpby.tcc l.41-48 *)
Definition axpby (alpha beta : A) : vop := fun n x incX y incY m =>
  do m1 <- scal_init zero mul is_zero n beta y incY m; axpy add mul n alpha x incX y incY m1.
Definition acxpby (alpha beta : A) : vop := fun n x incX y incY m =>
  do m1 <- scal_init zero mul is_zero n beta y incY m; acxpy alpha n x incX y incY m1.
(** rscal, rscal.tcc l.41-52 *)
Definition rscal (n : Z) (alpha : A) (y incY : Z) (m : list A) : outcome (list A) :=
  let y := start y incY n in
  walk1 n incY (fun iY m => do v <- load m (y + iY); store m (y + iY) (div v alpha)) m.
(** raxpy, raxpy.tcc l.41-56, and racxpy, racxpy.tcc l.41-56 *)
Definition raxpy (alpha : A) : vop := fun n x incX y incY m =>
  let x := start x incX n in let y := start y incY n in
  walk n incX incY (fun iX iY m =>
    do u <- load m (x + iX); do v <- load m (y + iY); store m (y + iY) (add v (div u alpha))) m.
Definition racxpy (alpha : A) : vop := fun n x incX y incY m =>
  let x := start x incX n in let y := start y incY n in
  walk n incX incY (fun iX iY m =>
    do u <- load m (x + iX); do v <- load m (y + iY); store m (y + iY) (add v (div (conj u) alpha))) m.
(** copy and axpy of level1, in the same form *)
Definition copy_op : vop := fun n x incX y incY m => copy n x incX y incY m.
Definition axpy_op (alpha : A) : vop := fun n x incX y incY m => axpy add mul n alpha x incX y incY m.

(** ** General matrices *)
(** The loops of gecopy, gecopy.tcc l.50-82, geaxpy, geaxpy.tcc l.46-81, and geaxpby, geaxpby.tcc l.46-81 *)
Definition dense (plain cj : vop) (o : order) (t : trans) (rows cols a lda b ldb : Z) (m : list A) : outcome (list A) :=
  let '(r, c) := match o with RowMajor => (rows, cols) | ColMajor => (cols, rows) end in
  let f := if is_conj t then cj else plain in
  if is_trans t then repeat r (fun i m => f c (a + i) lda (b + i * ldb) 1 m) m
  else if (lda =? c) && (ldb =? c) then f (r * c) a 1 b 1 m
  else repeat r (fun i m => f c (a + i * lda) 1 (b + i * ldb) 1 m) m.
(** gecopy, l.45-83 *)
Definition gecopy := dense copy_op ccopy.
(** geaxpy, l.41-82 *)
Definition geaxpy (alpha : A) := dense (axpy_op alpha) (acxpy alpha).
(** geaxpby, l.41-82 *)
Definition geaxpby (alpha beta : A) := dense (axpby alpha beta) (acxpby alpha beta).
(** geraxpy, geraxpy.tcc l.41-66: the conjugating modes end in assert(0) *)
Definition geraxpy (asserts : bool) (alpha : A) (o : order) (t : trans) (rows cols a lda b ldb : Z) (m : list A) : outcome (list A) :=
  if is_conj t then do _ <- assertion asserts false; Ok m
  else dense (raxpy alpha) (racxpy alpha) o t rows cols a lda b ldb m.
(** gerscal, gerscal.tcc l.41-54 *)
Definition gerscal (o : order) (rows cols : Z) (alpha : A) (a lda : Z) (m : list A) : outcome (list A) :=
  let '(r, c) := match o with RowMajor => (rows, cols) | ColMajor => (cols, rows) end in
  if lda =? c then rscal (r * c) alpha a 1 m else repeat r (fun i m => rscal c alpha (a + i * lda) 1 m) m.
(** geswap, geswap.tcc l.45-81 *)
Definition geswap (oa ob : order) (rows cols a lda b ldb : Z) (m : list A) : outcome (list A) :=
  match oa, ob with
  | ColMajor, ColMajor =>
      if (rows =? lda) && (rows =? ldb) then swap (rows * cols) a 1 b 1 m
      else repeat cols (fun j m => swap rows (a + j * lda) 1 (b + j * ldb) 1 m) m
  | RowMajor, RowMajor =>
      if (cols =? lda) && (cols =? ldb) then swap (rows * cols) a 1 b 1 m
      else repeat rows (fun i m => swap cols (a + i * lda) 1 (b + i * ldb) 1 m) m
  | ColMajor, RowMajor => repeat cols (fun i m => swap rows (a + i * lda) 1 (b + i) ldb m) m
  | RowMajor, ColMajor => repeat rows (fun j m => swap cols (a + j) lda (b + j * ldb) 1 m) m
  end.
(** std::swap of two cells, and a cell replaced by its conjugate *)
Definition exchange (p q : Z) (m : list A) : outcome (list A) :=
  do u <- load m p; do v <- load m q; do m1 <- store m p v; store m1 q u.
Definition conj_at (p : Z) (m : list A) : outcome (list A) := do u <- load m p; store m p (conj u).
(** gecotr, gecotr.tcc l.42-63 *)
Definition gecotr (asserts : bool) (o : order) (t : trans) (rows cols a lda : Z) (m : list A) : outcome (list A) :=
  let '(r, c) := match o with RowMajor => (cols, rows) | ColMajor => (rows, cols) end in
  do m1 <- (if is_trans t then
      do _ <- assertion asserts (r =? c);
      repeat c (fun i m => repeat i (fun j m => exchange (a + i + lda * j) (a + j + lda * i) m) m) m else Ok m);
  if is_conj t then repeat c (fun j m => repeat r (fun i m => conj_at (a + i + lda * j) m) m) m1 else Ok m1.

(** ** Triangular and trapezoidal matrices *)
(** The loops for NonUnit and ColMajor of trcopy, trcopy.tcc l.56-98, traxpy, traxpy.tcc l.56-118, and traxpby,
    traxpby.tcc l.57-134 *)
Definition trap (plain cj : vop) (up : uplo) (t : trans) (rows cols a lda b ldb : Z) (m : list A) : outcome (list A) :=
  let f := if is_conj t then cj else plain in
  match up with
  | Upper => repeat cols (fun j m =>
      if is_trans t then f (Z.min (j + 1) rows) (a + j) lda (b + j * ldb) 1 m
      else f (Z.min (j + 1) rows) (a + j * lda) 1 (b + j * ldb) 1 m) m
  | Lower => repeat (Z.min rows cols) (fun j m =>
      f (rows - j) (a + j * (lda + 1)) (if is_trans t then lda else 1) (b + j * (ldb + 1)) 1 m) m
  end.
(** trcopy, l.45-120 *)
Definition trcopy (o : order) (up : uplo) (t : trans) (dg : diag) (rows cols a lda b ldb : Z) (m : list A) : outcome (list A) :=
  let '(up, r, c) := match o with RowMajor => (other up, cols, rows) | ColMajor => (up, rows, cols) end in
  let go := trap copy_op ccopy up t in
  match dg, up with
  | NonUnit, _ => go r c a lda b ldb m
  | Unit, Upper => go (r - 1) (c - 1) (if is_trans t then a + 1 else a + lda) lda (b + ldb) ldb m
  | Unit, Lower => go (r - 1) (c - 1) (if is_trans t then a + lda else a + 1) lda (b + 1) ldb m
  end.
(** traxpy, l.45-127: a unit diagonal ends in assert(0) *)
Definition traxpy (asserts : bool) (alpha : A) (o : order) (up : uplo) (t : trans) (dg : diag) (rows cols a lda b ldb : Z) (m : list A) : outcome (list A) :=
  let '(up, r, c) := match o with RowMajor => (other up, cols, rows) | ColMajor => (up, rows, cols) end in
  match dg with
  | NonUnit => trap (axpy_op alpha) (acxpy alpha) up t r c a lda b ldb m
  | Unit => do _ <- assertion asserts false; Ok m
  end.
(** traxpby, l.45-143 *)
Definition traxpby (asserts : bool) (alpha beta : A) (o : order) (up : uplo) (t : trans) (dg : diag) (rows cols a lda b ldb : Z) (m : list A) : outcome (list A) :=
  let '(up, r, c) := match o with RowMajor => (other up, cols, rows) | ColMajor => (up, rows, cols) end in
  match dg with
  | NonUnit => trap (axpby alpha beta) (acxpby alpha beta) up t r c a lda b ldb m
  | Unit => do _ <- assertion asserts false; Ok m
  end.
(** trscal, trscal.tcc l.45-62.  For ColMajor the triangle is exchanged, the sizes are not. *)
Definition trscal (o : order) (up : uplo) (rows cols : Z) (alpha : A) (a lda : Z) (m : list A) : outcome (list A) :=
  if is_one alpha then Ok m else
  match match o with RowMajor => up | ColMajor => other up end with
  | Upper => repeat (Z.min rows cols) (fun i m => scal mul (cols - i) alpha (a + i * (lda + 1)) 1 m) m
  | Lower => repeat rows (fun i m => scal mul (Z.min (i + 1) cols) alpha (a + i * lda) 1 m) m
  end.

(** ** Packed triangles *)
(** The double loop of tpcopy, tpcopy.tcc l.64-79, tpaxpy, tpaxpy.tcc l.70-85, and tpaxpby, tpaxpby.tcc l.53-76;
    [h] gives the new element from those of A and B *)
Definition tp_trans (h : A -> A -> A) (shift n a b : Z) (m : list A) : outcome (list A) :=
  repeat n (fun i m => repeat (n - (i + shift)) (fun k m =>
    let j := i + shift + k in
    do u <- load m (a + (j + (2 * n - i - 1) * i / 2)); do v <- load m (b + (i + j * (j + 1) / 2));
    store m (b + (i + j * (j + 1) / 2)) (h u v)) m) m.
Definition shift_of (dg : diag) : Z := match dg with Unit => 1 | NonUnit => 0 end.
(** tpcopy, l.45-80.  The triangle is not looked at.  (The source does not read B in the double loop; reading it
    makes no difference, as it is written afterwards.) *)
Definition tpcopy (asserts : bool) (up : uplo) (t : trans) (dg : diag) (n a b : Z) (m : list A) : outcome (list A) :=
  match t with
  | NoTrans => do _ <- assertion asserts (match dg with NonUnit => true | Unit => false end); copy (n * (n + 1) / 2) a 1 b 1 m
  | Conj => do _ <- assertion asserts (match dg with NonUnit => true | Unit => false end); ccopy (n * (n + 1) / 2) a 1 b 1 m
  | Trans => tp_trans (fun u v => u) (shift_of dg) n a b m
  | ConjTrans => tp_trans (fun u v => conj u) (shift_of dg) n a b m
  end.
(** tpaxpy, l.45-86 *)
Definition tpaxpy (asserts : bool) (o : order) (up : uplo) (t : trans) (dg : diag) (n : Z) (alpha : A) (a b : Z) (m : list A) : outcome (list A) :=
  do _ <- assertion asserts (match o with ColMajor => true | RowMajor => false end);
  do _ <- assertion asserts (match dg with NonUnit => true | Unit => false end);
  match t with
  | NoTrans => axpy_op alpha (n * (n + 1) / 2) a 1 b 1 m
  | Conj => acxpy alpha (n * (n + 1) / 2) a 1 b 1 m
  | Trans => tp_trans (fun u v => add v (mul alpha u)) (shift_of dg) n a b m
  | ConjTrans => tp_trans (fun u v => add v (mul alpha (conj u))) (shift_of dg) n a b m
  end.
(** tpaxpby, l.45-79 *)
Definition tpaxpby (o : order) (up : uplo) (t : trans) (dg : diag) (n : Z) (alpha : A) (a : Z) (beta : A) (b : Z) (m : list A) : outcome (list A) :=
  match t with
  | NoTrans => axpby alpha beta (n * (n + 1) / 2) a 1 b 1 m
  | Conj => acxpby alpha beta (n * (n + 1) / 2) a 1 b 1 m
  | Trans => tp_trans (fun u v => add (mul beta v) (mul alpha u)) (shift_of dg) n a b m
  | ConjTrans => tp_trans (fun u v => add (mul beta v) (mul alpha (conj u))) (shift_of dg) n a b m
  end.
(** tpscal, tpscal.tcc l.45-61; [offset] is carried through the loop *)
Definition tpscal (dg : diag) (n : Z) (alpha : A) (a : Z) (m : list A) : outcome (list A) :=
  match dg with
  | Unit => omap snd (repeat (n - 1) (fun i s =>
      do m' <- scal mul (n - i - 1) alpha (a + fst s + 1) 1 (snd s); Ok (fst s + (n - i), m')) (0, m))
  | NonUnit => scal mul (n * (n + 1) / 2) alpha a 1 m
  end.

(** ** Band matrices, the rows (RowMajor) or columns (ColMajor) of which hold the band *)
(** IndexType length = (i < 0) ? min(m + i, min(m, n)) : min(n - i, min(m, n)), gbcopy.tcc l.59 *)
Definition diagonal (rows cols i : Z) : Z := if i <? 0 then Z.min (rows + i) (Z.min rows cols) else Z.min (cols - i) (Z.min rows cols).
(** The loops of gbcopy, gbcopy.tcc l.57-83, gbaxpy, gbaxpy.tcc l.52-79, and gbaxpby, gbaxpby.tcc l.52-98, for RowMajor *)
Definition banded (plain cj : vop) (t : trans) (rows cols kl ku a lda b ldb : Z) (m : list A) : outcome (list A) :=
  let f := if is_conj t then cj else plain in
  repeat (kl + ku + 1) (fun j m =>
    let i := j - (if is_trans t then ku else kl) in
    let p := if is_trans t then b + (kl + ku - j) + Z.max i 0 * ldb else b + j + Z.max (- i) 0 * ldb in
    f (diagonal rows cols i) (a + j + Z.max (- i) 0 * lda) lda p ldb m) m.
Definition by_order {B} (o : order) (rows cols kl ku : Z) (f : Z -> Z -> Z -> Z -> B) : B :=
  match o with RowMajor => f rows cols kl ku | ColMajor => f cols rows ku kl end.
(** gbcopy, l.44-84; gbaxpy, l.41-82; gbaxpby (an overload named gbaxpy), l.41-101 *)
Definition gbcopy (o : order) (t : trans) (rows cols kl ku a lda b ldb : Z) (m : list A) : outcome (list A) :=
  by_order o rows cols kl ku (fun r c kl ku => banded copy_op ccopy t r c kl ku a lda b ldb m).
Definition gbaxpy (alpha : A) (o : order) (t : trans) (rows cols kl ku a lda b ldb : Z) (m : list A) : outcome (list A) :=
  by_order o rows cols kl ku (fun r c kl ku => banded (axpy_op alpha) (acxpy alpha) t r c kl ku a lda b ldb m).
Definition gbaxpby (alpha beta : A) (o : order) (t : trans) (rows cols kl ku a lda b ldb : Z) (m : list A) : outcome (list A) :=
  by_order o rows cols kl ku (fun r c kl ku => banded (axpby alpha beta) (acxpby alpha beta) t r c kl ku a lda b ldb m).
(** gbscal, gbscal.tcc l.41-58 *)
Definition gbscal (o : order) (rows cols kl ku : Z) (alpha : A) (a lda : Z) (m : list A) : outcome (list A) :=
  by_order o rows cols kl ku (fun r c kl ku => repeat (kl + ku + 1) (fun j m =>
    let i := j - kl in scal mul (diagonal r c i) alpha (a + j + Z.max (- i) 0 * lda) lda m) m).
(** gbcotr, gbcotr.tcc l.42-91; the loop for (k = 0; k < length * ldA; k += ldA) makes [length] rounds for a
    positive ldA, which is assumed *)
Definition gbcotr (asserts : bool) (o : order) (t : trans) (rows cols kl ku a lda : Z) (m : list A) : outcome (list A) :=
  by_order o rows cols kl ku (fun r c kl ku =>
    match t with
    | NoTrans => Ok m
    | Conj => repeat (kl + ku + 1) (fun j m =>
        let i := j - kl in repeat (diagonal r c i) (fun k m => conj_at (a + j + Z.max (- i) 0 * lda + k * lda) m) m) m
    | Trans =>
        do _ <- assertion asserts (r =? c); do _ <- assertion asserts (kl =? ku);
        repeat ku (fun j m => let i := j - ku in
          repeat (diagonal r c i) (fun k m =>
            exchange (a + j + Z.max (- i) 0 * lda + k * lda) (a + (kl + ku - j) + Z.max i 0 * lda + k * lda) m) m) m
    | ConjTrans =>
        do _ <- assertion asserts (r =? c); do _ <- assertion asserts (kl =? ku);
        repeat (ku + 1) (fun j m => let i := j - ku in
          repeat (diagonal r c i) (fun k m =>
            let p := a + j + Z.max (- i) 0 * lda + k * lda in let q := a + (kl + ku - j) + Z.max i 0 * lda + k * lda in
            do tmp <- load m p; do v <- load m q; do m1 <- store m p (conj v); store m1 q (conj tmp)) m) m
    end).
End Ext.
