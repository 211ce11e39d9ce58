(** What a BLAS library promises: the effect each routine has for each value of CBLAS_TRANSPOSE, and the arithmetic
    of complex numbers kept as two reals. *)
From Coq Require Import ZArith.
From Verif Require Import Base MatmulModel MatmulSpec BlasModel BlasSpec TriModel TriSpec SymSpec PackModel PackSpec CblModel.
Local Open Scope Z_scope.

(** The operation a code stands for. *)
Definition meaning (c : cblas_trans) : trans :=
  match c with CblasNoTrans => NoTrans | CblasTrans => Trans | CblasConjTrans => ConjTrans | CblasConjNoTrans => Conj end.
(** The library accepts a code: conjugation alone is an extension of the interface. *)
Definition accepted (extended : bool) (c : cblas_trans) : Prop := c = CblasConjNoTrans -> extended = true.

Section Effects.
Context {A : Type} (d zero one : A) (add mul : A -> A -> A) (conj : A -> A).

(** y := beta y + alpha op(M) x, for a stored m x n matrix that is not empty *)
Definition gemv_effect (o : order) (t : trans) (m n : nat) (alpha : A) (a : list A) (lda : nat) (x : list A) (px ix : nat) (beta : A)
    (y : list A) (py iy : nat) (r : outcome (list A)) : Prop :=
  let rows := if is_trans t then n else m in
  let len := if is_trans t then m else n in
  forall f g, (0 < m)%nat -> (0 < n)%nat -> is_matrix conj o t lda a rows len f ->
  (forall k, (k < len)%nat -> nth_error x (px + k * ix) = Some (g k)) ->
  (0 < iy)%nat -> (forall i, (i < rows)%nat -> (py + i * iy < length y)%nat) ->
  exists y', r = Ok y' /\ length y' = length y /\
    (forall i, (i < rows)%nat -> nth_error y' (py + i * iy)%nat =
       option_map (fun v => add (mul beta v) (mul alpha (sum zero add len (fun k => mul (f i k) (g k))))) (nth_error y (py + i * iy)%nat)) /\
    (forall p, (forall i, (i < rows)%nat -> p <> (py + i * iy)%nat) -> nth_error y' p = nth_error y p).

(** C := beta C + alpha op(A) op(B) *)
Definition gemm_effect (o : order) (ta tb : trans) (m n k : nat) (alpha : A) (a : list A) (lda : nat) (b : list A) (ldb : nat) (beta : A)
    (c : list A) (ldc : nat) (r : outcome (list A)) : Prop :=
  let at_ := fun i j => (match o with RowMajor => i * ldc + j | ColMajor => j * ldc + i end)%nat in
  forall f g, is_matrix conj o ta lda a m k f -> is_matrix conj o tb ldb b k n g ->
  (match o with RowMajor => n | ColMajor => m end <= ldc)%nat -> (forall i j, (i < m)%nat -> (j < n)%nat -> (at_ i j < length c)%nat) ->
  exists c', r = Ok c' /\ length c' = length c /\
    (forall i j, (i < m)%nat -> (j < n)%nat -> nth_error c' (at_ i j) =
       option_map (fun v => add (mul beta v) (mul alpha (sum zero add k (fun h => mul (f i h) (g h j))))) (nth_error c (at_ i j))) /\
    outside_kept o ldc m n c c'.

(** y := beta y + alpha op(M) x for a band matrix *)
Definition gbmv_effect (o : order) (t : trans) (rows cols kl ku : Z) (alpha : A) (a lda x incX : Z) (beta : A) (y incY : Z) (m : list A)
    (r : outcome (list A)) : Prop :=
  let ny := if is_trans t then cols else rows in let nx := if is_trans t then rows else cols in
  rows <> 0 -> cols <> 0 -> incY <> 0 -> inside m y incY ny -> vector_apart m x incX nx (in_vector y incY ny) ->
  held_apart (gband_kept kl ku) (gband_cell o kl ku a lda) m rows cols (in_vector y incY ny) ->
  exists m', r = Ok m' /\ changes d m m' (in_vector y incY ny) /\
    forall i, 0 <= i < ny -> val d m' (elt y incY ny i) =
      add (mul beta (val d m (elt y incY ny i)))
          (mul alpha (zsum zero add nx (fun j => mul (op conj t (sparse_of d zero (gband_kept kl ku) (gband_cell o kl ku a lda) m) i j)
                                                  (val d m (elt x incX nx j))))).

(** x := op(T) x *)
Definition trmv_effect (o : order) (up : uplo) (t : trans) (dg : diag) (n a lda x inc : Z) (m : list A) (r : outcome (list A)) : Prop :=
  inc <> 0 -> inside m x inc n -> kept_apart m o up dg n a lda (in_vector x inc n) ->
  exists m', r = Ok m' /\ changes d m m' (in_vector x inc n) /\
    forall i, 0 <= i < n -> val d m' (elt x inc n i) =
      zsum zero add n (fun j => mul (op conj t (triangle d zero one o up dg a lda m) i j) (val d m (elt x inc n j))).
(** the new x solves op(T) x = old x *)
Definition trsv_effect (o : order) (up : uplo) (t : trans) (dg : diag) (n a lda x inc : Z) (m : list A) (r : outcome (list A)) : Prop :=
  inc <> 0 -> inside m x inc n -> kept_apart m o up dg n a lda (in_vector x inc n) ->
  invertible zero conj n (triangle d zero one o up dg a lda m) ->
  exists m', r = Ok m' /\ changes d m m' (in_vector x inc n) /\
    forall i, 0 <= i < n ->
      zsum zero add n (fun j => mul (op conj t (triangle d zero one o up dg a lda m) i j) (val d m' (elt x inc n j))) = val d m (elt x inc n i).
(** B := alpha op(T) B, or alpha B op(T) *)
Definition trmm_effect (o : order) (sd : side) (up : uplo) (t : trans) (dg : diag) (rows cols : Z) (alpha : A) (a lda b ldb : Z) (m : list A)
    (r : outcome (list A)) : Prop :=
  0 <= rows -> 0 <= cols -> leading o rows cols ldb -> block_inside m o b ldb rows cols ->
  kept_apart m o up dg (order_of sd rows cols) a lda (block o b ldb rows cols) ->
  exists m', r = Ok m' /\ changes d m m' (block o b ldb rows cols) /\
    forall i j, 0 <= i < rows -> 0 <= j < cols -> entry d o b ldb m' i j =
      mul alpha (applied zero add mul sd rows cols (op conj t (triangle d zero one o up dg a lda m)) (entry d o b ldb m) i j).
(** the new B solves op(T) B = alpha (old B), or B op(T) = alpha (old B) *)
Definition trsm_effect (o : order) (sd : side) (up : uplo) (t : trans) (dg : diag) (rows cols : Z) (alpha : A) (a lda b ldb : Z) (m : list A)
    (r : outcome (list A)) : Prop :=
  0 <= rows -> 0 <= cols -> leading o rows cols ldb -> block_inside m o b ldb rows cols ->
  kept_apart m o up dg (order_of sd rows cols) a lda (block o b ldb rows cols) ->
  invertible zero conj (order_of sd rows cols) (triangle d zero one o up dg a lda m) ->
  exists m', r = Ok m' /\ changes d m m' (block o b ldb rows cols) /\
    forall i j, 0 <= i < rows -> 0 <= j < cols ->
      applied zero add mul sd rows cols (op conj t (triangle d zero one o up dg a lda m)) (entry d o b ldb m') i j = mul alpha (entry d o b ldb m i j).

(** The library's routine has the effect that the code asks for. *)
Definition gemv_contract (extended : bool) (l : gemv_fn) : Prop := forall o c m n alpha a lda x px ix beta y py iy,
  accepted extended c -> gemv_effect o (meaning c) m n alpha a lda x px ix beta y py iy (l o c m n alpha a lda x px ix beta y py iy).
Definition gemm_contract (extended : bool) (l : gemm_fn) : Prop := forall o ca cb m n k alpha a lda b ldb beta c ldc,
  accepted extended ca -> accepted extended cb ->
  gemm_effect o (meaning ca) (meaning cb) m n k alpha a lda b ldb beta c ldc (l o ca cb m n k alpha a lda b ldb beta c ldc).
Definition gbmv_contract (extended : bool) (l : gbmv_fn) : Prop := forall o c rows cols kl ku alpha a lda x incX beta y incY m,
  accepted extended c ->
  gbmv_effect o (meaning c) rows cols kl ku alpha a lda x incX beta y incY m (l o c rows cols kl ku alpha a lda x incX beta y incY m).
Definition trmv_contract (extended : bool) (l : tri_fn) : Prop := forall o up c dg n a lda x inc m,
  accepted extended c -> trmv_effect o up (meaning c) dg n a lda x inc m (l o up c dg n a lda x inc m).
Definition trsv_contract (extended : bool) (l : tri_fn) : Prop := forall o up c dg n a lda x inc m,
  accepted extended c -> trsv_effect o up (meaning c) dg n a lda x inc m (l o up c dg n a lda x inc m).
Definition trmm_contract (extended : bool) (l : trl_fn) : Prop := forall o sd up c dg rows cols alpha a lda b ldb m,
  accepted extended c ->
  trmm_effect o sd up (meaning c) dg rows cols alpha a lda b ldb m (l o sd up c dg rows cols alpha a lda b ldb m).
Definition trsm_contract (extended : bool) (l : trl_fn) : Prop := forall o sd up c dg rows cols alpha a lda b ldb m,
  accepted extended c ->
  trsm_effect o sd up (meaning c) dg rows cols alpha a lda b ldb m (l o sd up c dg rows cols alpha a lda b ldb m).
End Effects.

(** ** Vectors of complex numbers in a memory of reals *)
Section Parts.
Context {R : Type} (d zero : R) (add sub mul : R -> R -> R) (opp : R -> R).
Definition cadd (a b : R * R) : R * R := (add (fst a) (fst b), add (snd a) (snd b)).
Definition cmul (a b : R * R) : R * R := (sub (mul (fst a) (fst b)) (mul (snd a) (snd b)), add (mul (fst a) (snd b)) (mul (snd a) (fst b))).
Definition cconj (a : R * R) : R * R := (fst a, opp (snd a)).
Definition creal (a : R) : R * R := (a, zero).
Definition czero : R * R := (zero, zero).
(** Element i of the complex vector at [x] with increment [inc] (counted in complex numbers). *)
Definition celt (m : list R) (x inc n i : Z) : R * R := (val d m (elt x (2 * inc) n i), val d m (elt x (2 * inc) n i + 1)).
Definition cinside (m : list R) (x inc n : Z) : Prop := inside m x (2 * inc) n /\ inside m (x + 1) (2 * inc) n.
(** The cells of the vector: real parts and imaginary parts. *)
Definition in_cvector (x inc n p : Z) : Prop := in_vector x (2 * inc) n p \/ in_vector (x + 1) (2 * inc) n p.

(** y := alpha x + y *)
Definition axpy_contract (l : @axpy_fn R) : Prop := forall n alpha x incX y incY m,
  inside m y incY n -> incY <> 0 -> vector_apart m x incX n (in_vector y incY n) ->
  exists m', l n alpha x incX y incY m = Ok m' /\ changes d m m' (in_vector y incY n) /\
    forall i, 0 <= i < n -> val d m' (elt y incY n i) = add (val d m (elt y incY n i)) (mul alpha (val d m (elt x incX n i))).
Definition dot_contract (l : @dot_fn R) : Prop := forall n x incX y incY m,
  inside m x incX n -> inside m y incY n ->
  l n x incX y incY m = Ok (zsum zero add n (fun i => mul (val d m (elt x incX n i)) (val d m (elt y incY n i)))).
End Parts.

(** ** Level 1: the reference implementation returns at once unless n and the increment are positive. *)
Definition idle (n incX : Z) : Prop := n < 1 \/ incX < 1.
Definition asum_contract {A} (d zero : A) (add : A -> A -> A) (abs1 : A -> A) (l : Z -> Z -> Z -> list A -> outcome A) : Prop :=
  forall n x incX m, (idle n incX -> l n x incX m = Ok zero) /\
    (~ idle n incX -> inside m x incX n -> l n x incX m = Ok (zsum zero add n (fun i => abs1 (val d m (elt x incX n i))))).
Definition scal_contract {A} (d : A) (mul : A -> A -> A) (l : Z -> A -> Z -> Z -> list A -> outcome (list A)) : Prop :=
  forall n alpha x incX m, (idle n incX -> l n alpha x incX m = Ok m) /\
    (~ idle n incX -> inside m x incX n -> exists m', l n alpha x incX m = Ok m' /\ changes d m m' (in_vector x incX n) /\
       forall i, 0 <= i < n -> val d m' (elt x incX n i) = mul (val d m (elt x incX n i)) alpha).
(** cblas_i?amax counts from zero, and answers zero for an empty vector *)
Definition iamax_contract {A B} (d : A) (abs : A -> B) (gt : B -> B -> bool) (l : Z -> Z -> Z -> list A -> outcome Z) : Prop :=
  forall n x incX m, (idle n incX -> l n x incX m = Ok 0) /\
    (~ idle n incX -> inside m x incX n ->
     let X := fun i => abs (val d m (elt x incX n i)) in
     exists i, l n x incX m = Ok i /\ 0 <= i < n /\ (forall j, 0 <= j < n -> gt (X j) (X i) = false) /\
       (forall j, 0 <= j < i -> gt (X i) (X j) = true)).
