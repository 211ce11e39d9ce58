(** Matrix products: cxxblas gemv and gemm, librapid's ArrayMultiply and dot, the GPU fallback kernels
    and geam.  Paths: librapid/cxxblas and librapid/include/librapid/array/linalg. *)
From Verif Require Import Base ShapeModel TransposeModel.

(** The element type is arbitrary: [zero], [one], [add], [mul] are the C++ 0, 1, + and *, [is_zero]
    the test [== 0], [conj] cxxblas::conjugate (the identity on real types).  A pointer is a memory
    block (a list) and an offset; leaving the block is undefined behaviour.  Increments are positive
    here (negative ones are in [BlasModel]).  With HAVE_CBLAS the float and double versions call an
    external BLAS, which is not modelled. *)

(** cxxblas/typedefs.h l.53-54 *)
Inductive order := RowMajor | ColMajor.
Inductive trans := NoTrans | Conj | Trans | ConjTrans.
Definition is_trans (t : trans) : bool := match t with Trans | ConjTrans => true | _ => false end.
Definition is_conj (t : trans) : bool := match t with Conj | ConjTrans => true | _ => false end.
(** Transpose(t ^ Trans) *)
Definition flip (t : trans) : trans :=
  match t with NoTrans => Trans | Conj => ConjTrans | Trans => NoTrans | ConjTrans => Conj end.

Section Blas.
Context {A : Type}.
Variable zero one : A.
Variable add mul : A -> A -> A.
Variable is_zero : A -> bool.
Variable conj : A -> A.

(** dotu_generic / dot_generic, level1/dot.tcc l.40-60; [c] says whether x is conjugated *)
Definition dot_generic (c : bool) (n : nat) (x : list A) (px ix : nat) (y : list A) (py iy : nat) : outcome A :=
  for_range 0 n (fun i r =>
    do a <- rd x (px + i * ix);
    do b <- rd y (py + i * iy);
    Ok (add r (mul (if c then conj a else a) b))) zero.

(** One iteration of scal_init_generic, level1/scal.tcc l.40-56: y[iY] = 0 or y[iY] *= alpha *)
Definition scal_cell (alpha : A) (p : nat) (y : list A) : outcome (list A) :=
  if is_zero alpha then wr y p zero else do v <- rd y p; wr y p (mul v alpha).
Definition scal_init (n : nat) (alpha : A) (y : list A) (py iy : nat) : outcome (list A) :=
  for_range 0 n (fun i y => scal_cell alpha (py + i * iy) y) y.
(** gescal_init (row major), level1extensions/gescal.tcc l.41-54 *)
Definition gescal_init (m n : nat) (alpha : A) (c : list A) (ldc : nat) : outcome (list A) :=
  if ldc =? n then scal_init (m * n) alpha c 0 1
  else for_range 0 m (fun i c => scal_init n alpha c (i * ldc) 1) c.

(** ** gemv, level2/gemv.tcc *)
(** The operands of a call: op(A), x, y as (block, offset, stride) and the scalars. *)
Record mv := MV { v_t : trans; v_cx : bool; v_len : nat; v_alpha : A; v_a : list A; v_pa : nat; v_lda : nat;
                  v_x : list A; v_px : nat; v_ix : nat; v_beta : A; v_py : nat; v_iy : nat }.
(** The dot product of row i of op(A) and x, l.53-77 and l.87-115 *)
Definition row_dot (k : mv) (i : nat) : outcome A :=
  let pr := v_pa k + (if is_trans (v_t k) then i else i * v_lda k) in
  let ir := if is_trans (v_t k) then v_lda k else 1 in
  if v_cx k then
    if is_conj (v_t k) then
      do r <- dot_generic false (v_len k) (v_a k) pr ir (v_x k) (v_px k) (v_ix k); Ok (conj r)
    else dot_generic true (v_len k) (v_x k) (v_px k) (v_ix k) (v_a k) pr ir
  else dot_generic (is_conj (v_t k)) (v_len k) (v_a k) pr ir (v_x k) (v_px k) (v_ix k).
(** The steps of a call, in program order: scale every element of y, then add to every element. *)
Inductive mvstep := Scal (i : nat) | Acc (i : nat).
Definition mv_steps (rows : nat) : list mvstep := map Scal (seq 0 rows) ++ map Acc (seq 0 rows).
Definition mv_step (k : mv) (s : mvstep) (y : list A) : outcome (list A) :=
  match s with
  | Scal i => scal_cell (v_beta k) (v_py k + i * v_iy k) y
  | Acc i =>
      do r <- row_dot k i;
      do v <- rd y (v_py k + i * v_iy k);
      wr y (v_py k + i * v_iy k) (add v (mul (v_alpha k) r))
  end.
(** gemv_generic, l.40-118: m x n is the shape of the stored matrix (row major; column major swaps) *)
Definition gemv_generic (o : order) (t : trans) (cx : bool) (m n : nat) (alpha : A) (a : list A) (pa lda : nat)
    (x : list A) (px ix : nat) (beta : A) (y : list A) (py iy : nat) : outcome (list A) :=
  let '(t, m, n) := match o with RowMajor => (t, m, n) | ColMajor => (flip t, n, m) end in
  let rows := if is_trans t then n else m in
  let len := if is_trans t then m else n in
  for_list (mv_steps rows) (mv_step (MV t cx len alpha a pa lda x px ix beta py iy)) y.
(** gemv, l.122-131, and the version with conjX, level2extensions/gemv.tcc l.41-51 *)
Definition gemv (o : order) (t : trans) (cx : bool) (m n : nat) (alpha : A) (a : list A) (pa lda : nat)
    (x : list A) (px ix : nat) (beta : A) (y : list A) (py iy : nat) : outcome (list A) :=
  if (m =? 0) || (n =? 0) then Ok y else gemv_generic o t cx m n alpha a pa lda x px ix beta y py iy.

(** ** gemm, level3/gemm.tcc *)
(** Which gemv each of the sixteen cases calls, l.56-221: the operation on A and whether x is conjugated.
    Conj x NoTrans (l.101-105) calls NoTrans, ConjTrans x Conj (l.184-188) does not conjugate x. *)
Definition gemm_call (ta tb : trans) : trans * bool :=
  match ta, tb with
  | Conj, NoTrans => (NoTrans, false)
  | ConjTrans, Conj => (ConjTrans, false)
  | _, _ => (ta, is_conj tb)
  end.
(** The call for column l of C, as the operands of gemv *)
Definition column (ta tb : trans) (k : nat) (alpha : A) (a : list A) (lda : nat) (b : list A) (ldb : nat) (ldc l : nat) : mv :=
  let (t, cx) := gemm_call ta tb in
  MV t cx k alpha a 0 lda b (if is_trans tb then l * ldb else l) (if is_trans tb then 1 else ldb) one l ldc.
(** gemv(t, m, k) or gemv(t, k, m): either way nothing happens when m or k is 0 *)
Definition column_program (m k : nat) : list mvstep := if (m =? 0) || (k =? 0) then [] else mv_steps m.
(** A schedule is a list of (column, step).  gemm_generic (l.40-222) runs column after column;
    gemm_generic_parallel (l.226-459) lets threads run different columns at the same time. *)
Definition serial_schedule (m n k : nat) : list (nat * mvstep) :=
  flat_map (fun l => map (pair l) (column_program m k)) (seq 0 n).
Definition gemm_body (ta tb : trans) (m n k : nat) (alpha : A) (a : list A) (lda : nat) (b : list A) (ldb : nat)
    (beta : A) (c : list A) (ldc : nat) (sched : list (nat * mvstep)) : outcome (list A) :=
  do c1 <- gescal_init m n beta c ldc;
  if is_zero alpha then Ok c1 else
  for_list sched (fun ls c => mv_step (column ta tb k alpha a lda b ldb ldc (fst ls)) (snd ls) c) c1.
Definition gemm (o : order) (ta tb : trans) (m n k : nat) (alpha : A) (a : list A) (lda : nat) (b : list A) (ldb : nat)
    (beta : A) (c : list A) (ldc : nat) (sched : list (nat * mvstep)) : outcome (list A) :=
  if (m =? 0) || (n =? 0) then Ok c else
  match o with
  | RowMajor => gemm_body ta tb m n k alpha a lda b ldb beta c ldc sched
  | ColMajor => gemm_body tb ta n m k alpha b ldb a lda beta c ldc sched
  end.
End Blas.
Arguments MV {A}.

(** ** linalg::ArrayMultiply, arrayMultiply.hpp.  The element type is real: conj is the identity. *)
Section Multiply.
Context {A : Type}.
Variable zero one : A.
Variable add mul : A -> A -> A.
Variable is_zero : A -> bool.
Local Notation arr := (list N * list A)%type.

Inductive mclass := DOT | GEMV | GEMM.
(** matmulClass(), l.213-277 *)
Definition matmulClass (asserts ta tb : bool) (sa sb : shape) : outcome mclass :=
  let ix (b : bool) := if b then 1%Z else 0%Z in
  if (length sa =? 1) && (length sb =? 1) then
    do x <- extent asserts sa 0; do y <- extent asserts sb 0;
    do _ <- check asserts RuntimeError (x =? y)%N; Ok DOT
  else if (length sa =? 1) && (length sb =? 2) then
    do x <- extent asserts sa 0; do y <- extent asserts sb (ix (negb tb));
    do _ <- check asserts RuntimeError (x =? y)%N; Ok GEMV
  else if (length sa =? 2) && (length sb =? 1) then
    do x <- extent asserts sa (ix (negb ta)); do y <- extent asserts sb 0;
    do _ <- check asserts RuntimeError (x =? y)%N; Ok GEMV
  else if (length sa =? 2) && (length sb =? 2) then
    do x <- extent asserts sa (ix (negb ta)); do y <- extent asserts sb (ix tb);
    do _ <- check asserts RuntimeError (x =? y)%N; Ok GEMM
  else Throw NotImplemented.
(** calculateShape(), l.279-305 *)
Definition calculateShape (asserts ta tb : bool) (sa sb : shape) : outcome shape :=
  let ix (b : bool) := if b then 1%Z else 0%Z in
  do c <- matmulClass asserts ta tb sa sb;
  match c with
  | DOT => Ok [1%N]
  | GEMV => do x <- extent asserts sa (ix ta); Ok [x]
  | GEMM => do x <- extent asserts sa (ix ta); do y <- extent asserts sb (ix (negb tb)); Ok [x; y]
  end.
(** applyTo(out), l.402-474, through the CPU gemv (level2/gemv.hpp l.27-45) and gemm (level3/gemm.hpp
    l.32-49), which pass m, n, k on unchanged.  [sched] is the schedule of gemm (not used by gemv). *)
Definition applyTo (asserts : bool) (sched : list (nat * mvstep)) (ta tb : bool) (a : arr) (alpha : A) (b : arr) (beta : A)
    (out : arr) : outcome arr :=
  let ix (b : bool) := if b then 1%Z else 0%Z in
  let op (t : bool) := if t then Trans else NoTrans in
  do s <- calculateShape asserts ta tb (fst a) (fst b);
  do _ <- check asserts RuntimeError (shape_eqb (fst out) s);
  do cls <- matmulClass asserts ta tb (fst a) (fst b);
  match cls with
  | DOT => Throw NotImplemented
  | GEMV =>
      do m <- extent asserts (fst a) (ix ta);
      do n <- extent asserts (fst a) (1 - ix ta);
      do lda <- extent asserts (fst a) 1;
      do y <- gemv zero add mul is_zero (fun x => x) RowMajor (op ta) false (N.to_nat m) (N.to_nat n) alpha
                (snd a) 0 (N.to_nat lda) (snd b) 0 1 beta (snd out) 0 1;
      Ok (fst out, y)
  | GEMM =>
      do m <- extent asserts (fst a) (ix ta);
      do n <- extent asserts (fst b) (1 - ix tb);
      do k <- extent asserts (fst a) (1 - ix ta);
      do lda <- extent asserts (fst a) 1;
      do ldb <- extent asserts (fst b) 1;
      do ldc <- extent asserts (fst out) 1;
      do c <- gemm zero one add mul is_zero (fun x => x) RowMajor (op ta) (op tb) (N.to_nat m) (N.to_nat n) (N.to_nat k)
                alpha (snd a) (N.to_nat lda) (snd b) (N.to_nat ldb) beta (snd out) (N.to_nat ldc) sched;
      Ok (fst out, c)
  end.

(** Operands of dot: arrays, lazy transposes (with their own factor) and products with a scalar. *)
Inductive lexpr : Type :=
| LArr (a : list N * list A)
| LTrans (e : lexpr) (alpha : A)
| LScale (e : lexpr) (alpha : A).
(** dotHelper, l.594-613 (transposeExtractor l.537-546, multiplyExtractor l.563-586): (transposed?, factor,
    array).  The arrays are copied into the result (make_tuple). *)
Fixpoint dotHelper (e : lexpr) : bool * A * arr :=
  match e with
  | LArr a => (false, one, a)
  | LTrans e' alpha => let '(t2, alpha2, a) := dotHelper e' in (xorb true t2, mul alpha alpha2, a)
  | LScale e' alpha => let '(t2, alpha2, a) := dotHelper e' in (t2, mul alpha alpha2, a)
  end.
(** dot(a, b), l.635-659, evaluated: eval(), l.332-337 (and assignment, arrayContainer.hpp l.533-544): the
    new storage holds [junk].  [sched] gives the schedule used for a product of m x k and k x n. *)
Definition dot (asserts : bool) (sched : nat -> nat -> nat -> list (nat * mvstep)) (junk : nat -> A) (e1 e2 : lexpr) : outcome arr :=
  let '(ta, alpha, a) := dotHelper e1 in
  let '(tb, beta, b) := dotHelper e2 in
  do s <- calculateShape asserts ta tb (fst a) (fst b);
  let out := (s, map junk (seq 0 (N.to_nat (size s)))) in
  let d (s : shape) (i : nat) := N.to_nat (nth i s 0%N) in
  applyTo asserts (sched (d s 0) (d s 1) (d (fst a) (if ta then 0 else 1))) ta tb a (mul alpha beta) b zero out.

(** ** geam, level3/geam.hpp l.6-88.  [impl] is the transposition routine, [junk] new storage.  Operands:
    an array, or the lazy transpose (factor included) of an array. *)
Definition map2 (f : A -> A -> A) (l1 l2 : list A) : list A := map (fun p => f (fst p) (snd p)) (combine l1 l2).
Inductive gop : Type := GArr (a : list N * list A) | GTrans (a : list N * list A) (own : A).
Definition gshape (asserts : bool) (g : gop) : outcome shape :=
  match g with GArr a => Ok (fst a) | GTrans a _ => output_shape asserts (fst a) [1; 0]%N end.
(** GEAM_VALIDATION, l.6-11 (the operands and the output are distinct objects); then the assignment of a
    lazy sum checks shapes and writes every element (AssignModel) *)
Definition geam (asserts : bool) (impl : nat -> nat -> A -> list A -> list A -> outcome (list A)) (junk : nat -> A)
    (a : gop) (alpha : A) (b : gop) (beta : A) (c : arr) : outcome arr :=
  do sa <- gshape asserts a;
  do sb <- gshape asserts b;
  do _ <- check asserts RuntimeError (shape_eqb sa sb);
  do _ <- check asserts RuntimeError (length sa =? 2);
  do _ <- check asserts RuntimeError (shape_eqb sa (fst c));
  let sum (x y : list A) := map2 add x y in
  let scl (x : list A) (f : A) := map (fun v => mul v f) x in
  match a, b with
  | GArr x, GArr y => Ok (fst c, sum (scl (snd x) alpha) (scl (snd y) beta))
  | GTrans x _, GArr y =>
      do t <- eval_transpose asserts impl junk x [1; 0]%N alpha;
      Ok (fst c, sum (snd t) (scl (snd y) beta))
  | GArr x, GTrans y _ =>
      do t <- eval_transpose asserts impl junk y [1; 0]%N beta;
      Ok (fst c, sum (scl (snd x) alpha) (snd t))
  | GTrans x _, GTrans y _ =>
      eval_transpose asserts impl junk (fst x, sum (scl (snd x) alpha) (scl (snd y) beta)) [1; 0]%N one
  end.

(** ** The GPU fallback kernels *)
(** One work item of gemv.cl (l.1-34) / gemv.cu *)
Definition gemv_item (tr : bool) (M N : nat) (alpha : A) (a : list A) (lda : nat) (x : list A) (ix : nat) (beta : A) (iy : nat)
    (idx : nat) (y : list A) : outcome (list A) :=
  if idx <? M then
    do acc <- for_range 0 N (fun j acc =>
      do u <- rd a (if tr then j * lda + idx else idx * lda + j);
      do v <- rd x (j * ix);
      Ok (add acc (mul u v))) zero;
    do v <- rd y (idx * iy);
    wr y (idx * iy) (add (mul alpha acc) (mul beta v))
  else Ok y.
(** The launch: work items 0 .. m*n-1 (level2/gemv.hpp l.97-100), in any order [items] *)
Definition gemv_kernel (tr : bool) (M N : nat) (alpha : A) (a : list A) (lda : nat) (x : list A) (ix : nat) (beta : A) (iy : nat)
    (items : list nat) (y : list A) : outcome (list A) :=
  for_list items (gemv_item tr M N alpha a lda x ix beta iy) y.

(** gemm.cl l.3-50 / gemm.cu l.3-36, tile size [TS].  The barriers separate the phases, and in a phase each
    work item writes only its own cell of Asub and Bsub, so the value a cell holds in the second phase of
    tile t is given directly; reads of A and B outside the operands are undefined behaviour. *)
Definition asub (TS : nat) (tr : bool) (M K : nat) (a : list A) (lda : nat) (gy t iby ibx : nat) : outcome A :=
  let iny := gy * TS + iby in
  let ti := t * TS + ibx in
  if (ti <? K) && (iny <? M) then rd a (if tr then ti + lda * iny else iny * lda + ti) else Ok zero.
Definition bsub (TS : nat) (tr : bool) (N K : nat) (b : list A) (ldb : nat) (gx gy t iby ibx : nat) : outcome A :=
  let inx := gx * TS + ibx in
  let iny := gy * TS + iby in
  let ti := t * TS + ibx in
  if (ti <? K) && (inx <? N) then rd b (if tr then ti + ldb * inx else iny * ldb + ti) else Ok zero.
(** The first phase: every cell of the group's tiles is loaded (needed for undefined behaviour) *)
Definition load_tiles (TS : nat) (ta tb : bool) (M N K : nat) (a : list A) (lda : nat) (b : list A) (ldb gx gy t : nat) : outcome unit :=
  for_range 0 TS (fun iby _ => for_range 0 TS (fun ibx _ =>
    do _ <- asub TS ta M K a lda gy t iby ibx;
    do _ <- bsub TS tb N K b ldb gx gy t iby ibx; Ok tt) tt) tt.
(** The accumulator of one work item after all tiles: numTiles = K / TS + 1 (OpenCL) or
    (K + TS - 1) / TS (CUDA) *)
Definition gemm_acc (TS tiles : nat) (ta tb : bool) (M N K : nat) (a : list A) (lda : nat) (b : list A) (ldb gx gy lx ly : nat) : outcome A :=
  for_range 0 tiles (fun t acc =>
    do _ <- load_tiles TS ta tb M N K a lda b ldb gx gy t;
    for_range 0 TS (fun j acc =>
      if t * TS + j <? K then
        do u <- asub TS ta M K a lda gy t ly j;
        do v <- bsub TS tb N K b ldb gx gy t j lx;
        Ok (add acc (mul u v))
      else Ok acc) acc) zero.
Definition gemm_item (TS tiles : nat) (ta tb : bool) (M N K : nat) (alpha : A) (a : list A) (lda : nat) (b : list A) (ldb : nat)
    (beta : A) (ldc : nat) (w : item) (c : list A) : outcome (list A) :=
  do acc <- gemm_acc TS tiles ta tb M N K a lda b ldb (gx w) (gy w) (lx w) (ly w);
  let iny := gy w * TS + ly w in
  let inx := gx w * TS + lx w in
  if (iny <? M) && (inx <? N) then
    do v <- rd c (iny * ldc + inx);
    wr c (iny * ldc + inx) (add (mul alpha acc) (mul beta v))
  else Ok c.
(** The launch (level3/gemm.hpp l.99-103): ((n-1)/TS+1) x ((m-1)/TS+1) groups of TS x TS items, any order *)
Definition gemm_items (TS M N : nat) : list item :=
  flat_map (fun gx => flat_map (fun gy => flat_map (fun lx => map (fun ly => Item gx gy lx ly) (seq 0 TS)) (seq 0 TS))
    (seq 0 ((M - 1) / TS + 1))) (seq 0 ((N - 1) / TS + 1)).
Definition gemm_kernel (TS tiles : nat) (ta tb : bool) (M N K : nat) (alpha : A) (a : list A) (lda : nat) (b : list A) (ldb : nat)
    (beta : A) (ldc : nat) (items : list item) (c : list A) : outcome (list A) :=
  for_list items (gemm_item TS tiles ta tb M N K alpha a lda b ldb beta ldc) c.
End Multiply.
Arguments GArr {A}. Arguments GTrans {A}.
Arguments LArr {A}. Arguments LTrans {A}. Arguments LScale {A}.
