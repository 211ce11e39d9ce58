(** Model of array/linalg/transpose.hpp and opencl/kernels/transpose.cl.

    A matrix is a row-major list.  The parallel loops are modelled by their list of elementary stores;
    a run of the program performs these stores in some order (the serial program in list order, the
    OpenMP one in any order; this covers every interleaving of the threads, since the loops only read
    [in] and only write [out], which are distinct buffers: __restrict). *)
From Verif Require Import Base ShapeModel.

Section Transpose.
Context {A : Type}.
Variable mul : A -> A -> A.

(** the starts of the blocks: for (i = 0; i < n; i += b) *)
Definition starts (n b : nat) : list nat := map (fun k => k * b) (seq 0 ((n + b - 1) / b)).
(** that loop run from [i], when it ends: the values its body sees *)
Inductive loop_visits (n b : nat) : nat -> list nat -> Prop :=
| loop_end : forall i, n <= i -> loop_visits n b i []
| loop_body : forall i l, i < n -> loop_visits n b (i + b) l -> loop_visits n b i (i :: l).
(** blockSize = global::cacheLineSize / sizeof(Scalar), l.650; the line size: src/cacheLineSize.cpp, src/preMain.cpp l.15 *)
Definition block_size (line size : nat) : nat := line / size.
(** for (row = i; row < i + b && row < n; ++row) *)
Definition within (i b n : nat) : list nat := seq i (Nat.min (i + b) n - i).

(** ** Elementary stores *)
Inductive op : Type :=
| Cell (row col : nat)              (* out[col * rows + row] = in[row * cols + col] (* alpha *) *)
| Store (i j k : nat).              (* the k-th vector store of the kernel for block (i, j) *)

(** The stores of one block of the scalar loops, l.246-253 and l.259-266. *)
Definition block_cells (rows cols b i j : nat) : list op :=
  flat_map (fun row => map (fun col => Cell row col) (within j b cols)) (within i b rows).

(** transposeImpl, generic, l.238-269: all the stores *)
Definition generic_ops (rows cols b : nat) : list op :=
  flat_map (fun i => flat_map (fun j => block_cells rows cols b i j) (starts cols b)) (starts rows b).

(** transposeImpl for float (l.272-315) and double (l.320-363) *)
Definition simd_ops (rows cols b : nat) : list op :=
  flat_map (fun i => flat_map (fun j =>
      if (i + b <=? rows) && (j + b <=? cols)
      then map (Store i j) (seq 0 b)
      else block_cells rows cols b i j) (starts cols b)) (starts rows b).

(** ** Vector kernels.  A register is the list of its lanes (lane 0 first). *)
Local Notation reg := (list A).
(** _mm256_unpacklo_ps, _mm256_unpackhi_ps *)
Definition unpacklo8 (a b : reg) : reg :=
  match a, b with
  | [a0; a1; _; _; a4; a5; _; _], [b0; b1; _; _; b4; b5; _; _] => [a0; b0; a1; b1; a4; b4; a5; b5]
  | _, _ => [] end.
Definition unpackhi8 (a b : reg) : reg :=
  match a, b with
  | [_; _; a2; a3; _; _; a6; a7], [_; _; b2; b3; _; _; b6; b7] => [a2; b2; a3; b3; a6; b6; a7; b7]
  | _, _ => [] end.
(** _mm256_shuffle_ps with 0x4E: lanes 2,3 of a then 0,1 of b, in each half *)
Definition shuffle4E (a b : reg) : reg :=
  match a, b with
  | [_; _; a2; a3; _; _; a6; a7], [b0; b1; _; _; b4; b5; _; _] => [a2; a3; b0; b1; a6; a7; b4; b5]
  | _, _ => [] end.
(** _mm256_blend_ps with 0xCC (lanes 2,3,6,7 from b) and 0x33 (lanes 0,1,4,5 from b) *)
Definition blendCC (a b : reg) : reg :=
  match a, b with
  | [a0; a1; _; _; a4; a5; _; _], [_; _; b2; b3; _; _; b6; b7] => [a0; a1; b2; b3; a4; a5; b6; b7]
  | _, _ => [] end.
Definition blend33 (a b : reg) : reg :=
  match a, b with
  | [_; _; a2; a3; _; _; a6; a7], [b0; b1; _; _; b4; b5; _; _] => [b0; b1; a2; a3; b4; b5; a6; a7]
  | _, _ => [] end.

(** A kernel takes the values of the rows of the block it loads and gives the rows it stores. *)
Definition kernel := list reg -> list reg.

(** transposeFloatKernel, AVX2, l.25-85.  LOAD256_IMPL puts the second operand in the upper half. *)
Definition avx_float : kernel := fun rs =>
  match rs with
  | [x0; x1; x2; x3; x4; x5; x6; x7] =>
      let lo r := firstn 4 r in let hi r := skipn 4 r in
      let r0 := lo x0 ++ lo x4 in let r1 := lo x1 ++ lo x5 in
      let r2 := lo x2 ++ lo x6 in let r3 := lo x3 ++ lo x7 in
      let r4 := hi x0 ++ hi x4 in let r5 := hi x1 ++ hi x5 in
      let r6 := hi x2 ++ hi x6 in let r7 := hi x3 ++ hi x7 in
      let t0 := unpacklo8 r0 r1 in let t1 := unpackhi8 r0 r1 in
      let t2 := unpacklo8 r2 r3 in let t3 := unpackhi8 r2 r3 in
      let t4 := unpacklo8 r4 r5 in let t5 := unpackhi8 r4 r5 in
      let t6 := unpacklo8 r6 r7 in let t7 := unpackhi8 r6 r7 in
      let v := shuffle4E t0 t2 in let r0 := blendCC t0 v in let r1 := blend33 t2 v in
      let v := shuffle4E t1 t3 in let r2 := blendCC t1 v in let r3 := blend33 t3 v in
      let v := shuffle4E t4 t6 in let r4 := blendCC t4 v in let r5 := blend33 t6 v in
      let v := shuffle4E t5 t7 in let r6 := blendCC t5 v in let r7 := blend33 t7 v in
      [r0; r1; r2; r3; r4; r5; r6; r7]
  | _ => [] end.

(** transposeDoubleKernel, AVX2, l.88-126.  (The aligned stores _mm256_store_pd of l.122-125 are taken
    as plain stores.) *)
Definition unpacklo4d (a b : reg) : reg :=
  match a, b with [a0; _; a2; _], [b0; _; b2; _] => [a0; b0; a2; b2] | _, _ => [] end.
Definition unpackhi4d (a b : reg) : reg :=
  match a, b with [_; a1; _; a3], [_; b1; _; b3] => [a1; b1; a3; b3] | _, _ => [] end.
Definition shuffle0d (a b : reg) : reg :=
  match a, b with [a0; _; a2; _], [b0; _; b2; _] => [a0; b0; a2; b2] | _, _ => [] end.
Definition blendCd (a b : reg) : reg :=
  match a, b with [a0; a1; _; _], [_; _; b2; b3] => [a0; a1; b2; b3] | _, _ => [] end.
Definition blend3d (a b : reg) : reg :=
  match a, b with [_; _; a2; a3], [b0; b1; _; _] => [b0; b1; a2; a3] | _, _ => [] end.
Definition avx_double : kernel := fun rs =>
  match rs with
  | [x0; x1; x2; x3] =>
      let lo r := firstn 2 r in let hi r := skipn 2 r in
      let r0 := lo x0 ++ lo x2 in let r1 := lo x1 ++ lo x3 in
      let r2 := hi x0 ++ hi x2 in let r3 := hi x1 ++ hi x3 in
      let t0 := unpacklo4d r0 r1 in let t1 := unpackhi4d r0 r1 in
      let t2 := unpacklo4d r2 r3 in let t3 := unpackhi4d r2 r3 in
      let v := shuffle0d t0 t2 in let r0 := blendCd t0 v in let r1 := blend3d t2 v in
      let v := shuffle0d t1 t3 in let r2 := blendCd t1 v in let r3 := blend3d t3 v in
      [r0; r1; r2; r3]
  | _ => [] end.

(** transposeFloatKernel, SSE, l.132-151: _mm_shuffle_ps with 0x44, 0xEE, 0x88, 0xDD *)
Definition sh44 (a b : reg) : reg := match a, b with [a0; a1; _; _], [b0; b1; _; _] => [a0; a1; b0; b1] | _, _ => [] end.
Definition shEE (a b : reg) : reg := match a, b with [_; _; a2; a3], [_; _; b2; b3] => [a2; a3; b2; b3] | _, _ => [] end.
Definition sh88 (a b : reg) : reg := match a, b with [a0; _; a2; _], [b0; _; b2; _] => [a0; a2; b0; b2] | _, _ => [] end.
Definition shDD (a b : reg) : reg := match a, b with [_; a1; _; a3], [_; b1; _; b3] => [a1; a3; b1; b3] | _, _ => [] end.
Definition sse_float : kernel := fun rs =>
  match rs with
  | [x0; x1; x2; x3] =>
      let tmp0 := sh44 x0 x1 in let tmp2 := shEE x0 x1 in
      let tmp1 := sh44 x2 x3 in let tmp3 := shEE x2 x3 in
      [sh88 tmp0 tmp1; shDD tmp0 tmp1; sh88 tmp2 tmp3; shDD tmp2 tmp3]
  | _ => [] end.
(** transposeDoubleKernel, SSE, l.153-173 *)
Definition unpacklo2 (a b : reg) : reg := match a, b with [a0; _], [b0; _] => [a0; b0] | _, _ => [] end.
Definition unpackhi2 (a b : reg) : reg := match a, b with [_; a1], [_; b1] => [a1; b1] | _, _ => [] end.
Definition sse_double : kernel := fun rs =>
  match rs with [x0; x1] => [unpacklo2 x0 x1; unpackhi2 x0 x1] | _ => [] end.

(** NEON, l.179-208 and l.210-226: vzip1q/vzip2q, vget_low/high, vcombine *)
Definition zip1 (a b : reg) : reg := match a, b with [a0; a1; _; _], [b0; b1; _; _] => [a0; b0; a1; b1] | _, _ => [] end.
Definition zip2 (a b : reg) : reg := match a, b with [_; _; a2; a3], [_; _; b2; b3] => [a2; b2; a3; b3] | _, _ => [] end.
Definition neon_float : kernel := fun rs =>
  match rs with
  | [r0; r1; r2; r3] =>
      let low r := firstn 2 r in let high r := skipn 2 r in
      let t0 := zip1 r0 r1 in let t1 := zip2 r0 r1 in
      let t2 := zip1 r2 r3 in let t3 := zip2 r2 r3 in
      [low t0 ++ low t2; high t0 ++ high t2; low t1 ++ low t3; high t1 ++ high t3]
  | _ => [] end.
Definition neon_double : kernel := fun rs =>
  match rs with [r0; r1] => [unpacklo2 r0 r1; unpackhi2 r0 r1] | _ => [] end.

(** ** Performing the stores *)
(** vector load and store *)
Definition vload (m : list A) (p w : nat) : outcome reg :=
  if p + w <=? length m then Ok (firstn w (skipn p m)) else UB.
Fixpoint vstore (m : list A) (p : nat) (v : reg) : outcome (list A) :=
  match v with [] => Ok m | x :: v' => do m' <- wr m p x; vstore m' (p + 1) v' end.
(** the loads of the kernel: rows in[base + r * stride], r = 0 .. b-1 *)
Fixpoint loads (m : list A) (base stride w : nat) (rs : list nat) : outcome (list reg) :=
  match rs with
  | [] => Ok []
  | r :: rs' => do x <- vload m (base + r * stride) w; do xs <- loads m base stride w rs'; Ok (x :: xs)
  end.

(** One store.  [scaled] says whether the scalar code multiplies by alpha: the float version (l.290,
    l.308) does not.  The vector kernel is called with &out[j * rows + i], &in[i * cols + j] and
    [rows] as the only stride (l.284, l.302, l.332, l.350). *)
Definition perform (rows cols b : nat) (K : kernel) (scaled : bool) (alpha : A) (inp : list A) (o : op) (out : list A)
  : outcome (list A) :=
  match o with
  | Cell row col =>
      do x <- rd inp (row * cols + col);
      wr out (col * rows + row) (if scaled then mul x alpha else x)
  | Store i j k =>
      do xs <- loads inp (i * cols + j) rows b (seq 0 b);
      match nth_error (K xs) k with
      | Some r => vstore out (j * rows + i + k * rows) (map (fun x => mul x alpha) r)
      | None => UB
      end
  end.

(** A run: the stores in the order [sched]. *)
Definition run (rows cols b : nat) (K : kernel) (scaled : bool) (alpha : A) (inp : list A) (sched : list op) (out : list A)
  : outcome (list A) := for_list sched (perform rows cols b K scaled alpha inp) out.

(** The serial generic routine (no vector kernel). *)
Definition transposeImpl (rows cols b : nat) (alpha : A) (inp out : list A) : outcome (list A) :=
  run rows cols b (fun _ => []) true alpha inp (generic_ops rows cols b) out.

(** ** The Transpose object *)
(** transpose(array, axes), l.715-726: axes.size() is the product of the entries *)
Definition transpose_axes (n : nat) (axes : list N) : list N :=
  if (size axes =? 0)%N then map (fun i => N.of_nat (n - i - 1)) (seq 0 n) else axes.
(** Transpose(array, axes, alpha), l.584-596: the output shape *)
Fixpoint permute (asserts : bool) (s : shape) (axes : list N) : outcome (list N) :=
  match axes with
  | [] => Ok []
  | a :: axes' =>
      do e <- extent asserts s (Z.of_N a);
      do es <- permute asserts s axes';
      Ok (e :: es)
  end.
Definition output_shape (asserts : bool) (s : shape) (axes : list N) : outcome shape :=
  do _ <- check asserts RuntimeError (length s =? length axes);
  if length s =? length axes then permute asserts s axes else UB.
(** eval() of a Transpose of an array, l.692-699, through applyTo, l.641-690 (host); [impl] is the
    transposeImpl overload, [b] is cacheLineSize / sizeof(Scalar), [junk] the new storage *)
Definition eval_transpose (asserts : bool) (impl : nat -> nat -> A -> list A -> list A -> outcome (list A))
    (junk : nat -> A) (arr : shape * list A) (axes : list N) (alpha : A) : outcome (shape * list A) :=
  let (s, data) := arr in
  do os <- output_shape asserts s axes;
  match s with
  | [rows; cols] =>
      do out <- impl (N.to_nat rows) (N.to_nat cols) alpha data (map junk (seq 0 (N.to_nat (size os))));
      Ok (os, out)
  | _ => Throw NotImplemented
  end.

(** ** Expressions built from transpose() and scalar multiplication (l.728-786, l.700-704) *)
(** aT * b and b * aT become Transpose(a, axes, alpha * b). *)
Inductive texpr : Type :=
| TArr (a : shape * list A)
| TTrans (e : texpr) (axes : list N) (alpha : A).
Definition scale (e : texpr) (b : A) : texpr :=
  match e with TArr a => TArr a | TTrans e' axes alpha => TTrans e' axes (mul alpha b) end.
(** eval(), l.692-704 *)
Fixpoint teval (asserts : bool) (impl : nat -> nat -> A -> list A -> list A -> outcome (list A)) (junk : nat -> A)
    (e : texpr) : outcome (shape * list A) :=
  match e with
  | TArr a => Ok a
  | TTrans e' axes alpha =>
      do a <- teval asserts impl junk e';
      eval_transpose asserts impl junk a axes alpha
  end.
(** array = transpose expression, arrayContainer.hpp l.523-531 and applyTo: only the transpose of an
    array is implemented (l.687-689) *)
Definition tassign (asserts : bool) (impl : nat -> nat -> A -> list A -> list A -> outcome (list A)) (junk : nat -> A)
    (e : texpr) : outcome (shape * list A) :=
  match e with
  | TTrans (TArr a) axes alpha => eval_transpose asserts impl junk a axes alpha
  | TTrans _ _ _ => Throw NotImplemented
  | TArr a => Ok a
  end.

(** ** opencl/kernels/transpose.cl *)
(** Work items (gx, gy, lx, ly) of a launch with groups of TILE x TILE (transpose.hpp l.383-386).  Local
    memory is one tile per group, a map from (group, row, column). *)
Record item := Item { gx : nat; gy : nat; lx : nat; ly : nat }.
Definition tiles := nat -> nat -> nat -> nat -> option A.   (* gx gy row col *)
Definition tile_set (t : tiles) (a b c d : nat) (x : A) : tiles :=
  fun a' b' c' d' => if (a =? a') && (b =? b') && (c =? c') && (d =? d') then Some x else t a' b' c' d'.
(** before the barrier *)
Definition cl_load (T rows cols : nat) (inp : list A) (w : item) (t : tiles) : outcome tiles :=
  let x := gx w * T + lx w in let y := gy w * T + ly w in
  if (x <? cols) && (y <? rows) then do v <- rd inp (y * cols + x); Ok (tile_set t (gx w) (gy w) (ly w) (lx w) v)
  else Ok t.
(** after the barrier; reading an unset tile cell is an uninitialised read *)
Definition cl_store (T rows cols : nat) (alpha : A) (t : tiles) (w : item) (out : list A) : outcome (list A) :=
  let x := gy w * T + lx w in let y := gx w * T + ly w in
  if (x <? rows) && (y <? cols) then
    match t (gx w) (gy w) (lx w) (ly w) with
    | Some v => wr out (y * rows + x) (mul v alpha)
    | None => UB
    end
  else Ok out.
Definition cl_items (T rows cols : nat) : list item :=
  flat_map (fun a => flat_map (fun b => flat_map (fun c => map (fun d => Item a b c d) (seq 0 T)) (seq 0 T))
     (seq 0 ((rows + T - 1) / T))) (seq 0 ((cols + T - 1) / T)).
(** A launch: the loads in any order, then the stores in any order.  (The barrier orders them inside
    each group; groups share no tile, and no work item writes [in], so running every load before every
    store loses no behaviour.) *)
Definition cl_transpose (T rows cols : nat) (alpha : A) (inp : list A) (s1 s2 : list item) (out : list A) : outcome (list A) :=
  do t <- for_list s1 (cl_load T rows cols inp) (fun _ _ _ _ => None);
  for_list s2 (cl_store T rows cols alpha t) out.
End Transpose.
