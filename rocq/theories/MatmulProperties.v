(** Theorems C30-C34 about matrix products. *)
From Coq Require Import Permutation ArithRing.
From Verif Require Import Base ShapeModel ShapeSpec ViewSpec TransposeModel TransposeSpec TransposeProofs MatmulModel MatmulSpec MatmulProofs.
From Coq Require Import ZifyNat ZifyN ZifyBool.
Ltac Zify.zify_post_hook ::= idtac.

(** Elements are those of any commutative semiring (all exact C++ integer types; rounding is not covered). *)
Example nat_semiring : semiring 0 1 Nat.add Nat.mul (Nat.eqb 0).
Proof. split; [exact natSRth|]. intros x. destruct x; cbn; split; congruence. Qed.

(** ** C30: dot(A, B) for lazily transposed and scaled operands, all shapes, every interleaving of the
    threads that compute different columns, with or without assertions. *)
Theorem C30_matmul : forall A zero one add mul is_zero asserts sched junk (e1 e2 : @lexpr A) m k n f g,
  semiring zero one add mul is_zero ->
  (forall m n k, interleaving n (column_program m k) (sched m n k)) ->
  lmatrix mul e1 m k f -> lmatrix mul e2 k n g -> (m * n < 2 ^ 32)%N ->
  exists out, dot zero one add mul is_zero asserts sched junk e1 e2 = Ok ([m; n], out) /\
    length out = N.to_nat m * N.to_nat n /\
    forall i j, (i < m)%N -> (j < n)%N ->
      element [m; n] out [i; j] = Some (sum zero add (N.to_nat k) (fun h => mul (f (N.to_nat i) h) (g h (N.to_nat j)))).
Proof. intros A zero one add mul is_zero asserts sched junk e1 e2 m k n f g (SR & ZT). apply dot_mm; auto. Qed.
Print Assumptions C30_matmul.
Theorem C30_rejects : forall A zero one add mul is_zero sched junk (e1 e2 : @lexpr A) m k k' n f g,
  semiring zero one add mul is_zero -> lmatrix mul e1 m k f -> lmatrix mul e2 k' n g -> k <> k' ->
  dot zero one add mul is_zero true sched junk e1 e2 = Throw RuntimeError.
Proof. intros A zero one add mul is_zero sched junk e1 e2 m k k' n f g (SR & ZT). eapply dot_mm_reject; eauto. Qed.
Print Assumptions C30_rejects.
Example C30_rejects_ex : dot 0 1 Nat.add Nat.mul (Nat.eqb 0) true (fun m n k => serial_schedule m n k) (fun i => i)
  (LArr ([2; 3]%N, [1; 2; 3; 4; 5; 6])) (LArr ([2; 1]%N, [1; 2])) = Throw RuntimeError.
Proof. reflexivity. Qed.
(** Column after column (the serial code) is one of the interleavings. *)
Theorem C30_serial : forall m n k, interleaving n (column_program m k) (serial_schedule m n k).
Proof. exact serial_interleaving. Qed.
Print Assumptions C30_serial.
(** transpose(A) * 2 for a 3 x 2 matrix A, and a 3 x 2 matrix B. *)
Example C30_lhs := LScale (LTrans (LArr ([3; 2]%N, [1; 2; 3; 4; 5; 6])) 1) 2.
Example C30_rhs := LArr ([3; 2]%N, [1; 0; 0; 1; 1; 1]).
Example C30_ex : lmatrix Nat.mul C30_lhs 2 3 (fun i j => 2 * (2 * j + i + 1)).
Proof.
  split; [split; [reflexivity|exact (eq_refl : (6 < 2 ^ 32)%N)]|]. split; [reflexivity|]. intros i j Hi Hj.
  assert (i = 0 \/ i = 1)%N as [-> | ->] by lia; assert (j = 0 \/ j = 1 \/ j = 2)%N as [-> |[-> | ->]] by lia; reflexivity.
Qed.
Example C30_ex_run : dot 0 1 Nat.add Nat.mul (Nat.eqb 0) true (fun m n k => serial_schedule m n k) (fun i => 99 + i) C30_lhs C30_rhs
  = Ok ([2; 2]%N, [12; 16; 16; 20]).
Proof. reflexivity. Qed.
(** A real interleaving: both columns scale before either accumulates. *)
Example C30_ex_parallel : interleaving 2 (column_program 1 1) [(1, Scal 0); (0, Scal 0); (0, Acc 0); (1, Acc 0)].
Proof.
  split; [intros ls [<- |[<- |[<- |[<- |[]]]]]; cbn; lia|]. intros l Hl. assert (l = 0 \/ l = 1) as [-> | ->] by lia; reflexivity.
Qed.

(** The cxxblas routines: any storage order, leading dimensions, alpha, beta and all operation modes except
    the two below; cells of C outside the block are untouched. *)
Theorem C57_cxxblas_gemm_partial : forall A zero one add mul is_zero (cj : A -> A) o ta tb m n k alpha a lda b ldb beta c ldc sched f g,
  semiring zero one add mul is_zero -> conjugation zero add mul cj ->
  match o with RowMajor => gemm_right ta tb | ColMajor => gemm_right tb ta end \/ (forall x, cj x = x) ->
  is_matrix cj o ta lda a m k f -> is_matrix cj o tb ldb b k n g ->
  match o with RowMajor => n | ColMajor => m end <= ldc ->
  (forall i j, i < m -> j < n -> match o with RowMajor => i * ldc + j | ColMajor => j * ldc + i end < length c) ->
  interleaving (match o with RowMajor => n | ColMajor => m end) (column_program (match o with RowMajor => m | ColMajor => n end) k) sched ->
  exists c', gemm zero one add mul is_zero cj o ta tb m n k alpha a lda b ldb beta c ldc sched = Ok c' /\ length c' = length c /\
    (forall i j, i < m -> j < n -> nth_error c' (match o with RowMajor => i * ldc + j | ColMajor => j * ldc + i end)
       = option_map (fun v => add (mul beta v) (mul alpha (sum zero add k (fun h => mul (f i h) (g h j)))))
           (nth_error c (match o with RowMajor => i * ldc + j | ColMajor => j * ldc + i end))) /\
    outside_kept o ldc m n c c'.
Proof. intros A zero one add mul is_zero cj o ta tb m n k alpha a lda b ldb beta c ldc sched f g (SR & ZT) CJ. apply gemm_ok; auto. Qed.
Print Assumptions C57_cxxblas_gemm_partial.
(** 2 x 2 := 10 * C + 1 * A^T * B^T in column order, with gaps between the columns of C *)
Example C57_gemm_ex : gemm_right Trans Trans /\
  gemm 0 1 Nat.add Nat.mul (Nat.eqb 0) (fun x => x) ColMajor Trans Trans 2 2 1 1 [3; 4] 1 [5; 6] 2 10 [1; 2; 77; 3; 4; 77] 3 (serial_schedule 2 2 1)
  = Ok [25; 40; 77; 48; 64; 77].
Proof. split; [split; intros [E F]; discriminate|reflexivity]. Qed.
(** Complex elements: Conj x NoTrans and ConjTrans x Conj forget a conjugation (shown on Gaussian integers). *)
Definition gauss := (Z * Z)%type.
Definition gadd (x y : gauss) : gauss := (fst x + fst y, snd x + snd y)%Z.
Definition gmul (x y : gauss) : gauss := (fst x * fst y - snd x * snd y, fst x * snd y + snd x * fst y)%Z.
Definition gconj (x : gauss) : gauss := (fst x, - snd x)%Z.
Definition gzero (x : gauss) : bool := ((fst x =? 0) && (snd x =? 0))%Z.
Theorem C57_conj_refuted :
  ~ (forall a b : gauss, gemm (0, 0)%Z (1, 0)%Z gadd gmul gzero gconj RowMajor Conj NoTrans 1 1 1 (1, 0)%Z [a] 1 [b] 1 (0, 0)%Z [(0, 0)%Z] 1
       (serial_schedule 1 1 1) = Ok [gmul (gconj a) b]) /\
  ~ (forall a b : gauss, gemm (0, 0)%Z (1, 0)%Z gadd gmul gzero gconj RowMajor ConjTrans Conj 1 1 1 (1, 0)%Z [a] 1 [b] 1 (0, 0)%Z [(0, 0)%Z] 1
       (serial_schedule 1 1 1) = Ok [gmul (gconj a) (gconj b)]).
Proof. split; intros H; specialize (H (0, 1)%Z (0, 1)%Z); discriminate H. Qed.
Print Assumptions C57_conj_refuted.

(** ** C31: dot(A, x).  Proved for A used as stored (scaled or not, also transposed an even number of times), or
    square.  Missing: transposed non-square A, empty rows, and products with the vector on the left. *)
Theorem C31_matvec_partial : forall A zero one add mul is_zero asserts sched junk (e1 e2 : @lexpr A) m k f g,
  semiring zero one add mul is_zero -> lmatrix mul e1 m k f -> lvector mul e2 k g ->
  (0 < k)%N -> Nat.odd (transposes e1) = false \/ m = k -> (m < 2 ^ 32)%N ->
  exists out, dot zero one add mul is_zero asserts sched junk e1 e2 = Ok ([m], out) /\ length out = N.to_nat m /\
    forall i, (i < m)%N -> element [m] out [i] = Some (sum zero add (N.to_nat k) (fun h => mul (f (N.to_nat i) h) (g h))).
Proof. intros A zero one add mul is_zero asserts sched junk e1 e2 m k f g (SR & ZT). apply dot_mv; auto. Qed.
Print Assumptions C31_matvec_partial.
Theorem C31_rejects : forall A zero one add mul is_zero sched junk (e1 e2 : @lexpr A) m k k' f g,
  semiring zero one add mul is_zero -> lmatrix mul e1 m k f -> lvector mul e2 k' g -> k <> k' ->
  dot zero one add mul is_zero true sched junk e1 e2 = Throw RuntimeError.
Proof. intros A zero one add mul is_zero sched junk e1 e2 m k k' f g (SR & ZT). eapply dot_mv_reject; eauto. Qed.
Print Assumptions C31_rejects.
Example C31_ex : dot 0 1 Nat.add Nat.mul (Nat.eqb 0) true (fun m n k => []) (fun i => 99 + i)
  (LArr ([2; 3]%N, [1; 2; 3; 4; 5; 6])) (LScale (LArr ([3]%N, [1; 1; 2])) 10) = Ok ([2]%N, [90; 210]).
Proof. reflexivity. Qed.
Example C31_ex_hyp : lvector Nat.mul (LScale (LArr ([3]%N, [1; 1; 2])) 10) 3 (fun i => match i with 2 => 20 | _ => 10 end).
Proof.
  split; [split; [reflexivity|exact (eq_refl : (3 < 2 ^ 32)%N)]|]. split; [reflexivity|]. intros i Hi.
  assert (i = 0 \/ i = 1 \/ i = 2)%N as [-> |[-> | ->]] by lia; reflexivity.
Qed.
(** Transposed non-square matrices leave the buffers: transpose(3 x 2) writes past the result, transpose(2 x 3)
    reads past the vector. *)
Theorem C31_transposed_refuted :
  dot 0 1 Nat.add Nat.mul (Nat.eqb 0) true (fun m n k => []) (fun i => i)
    (LTrans (LArr ([3; 2]%N, [1; 2; 3; 4; 5; 6])) 1) (LArr ([3]%N, [1; 1; 2])) = UB /\
  dot 0 1 Nat.add Nat.mul (Nat.eqb 0) true (fun m n k => []) (fun i => i)
    (LTrans (LArr ([2; 3]%N, [1; 2; 3; 4; 5; 6])) 1) (LArr ([2]%N, [1; 1])) = UB.
Proof. split; reflexivity. Qed.
Print Assumptions C31_transposed_refuted.
(** A matrix without columns: the result is uninitialised instead of zero. *)
Theorem C31_empty_refuted : forall junk : nat -> nat,
  dot 0 1 Nat.add Nat.mul (Nat.eqb 0) true (fun m n k => []) junk (LArr ([2; 0]%N, [])) (LArr ([0]%N, [])) = Ok ([2]%N, [junk 0; junk 1]).
Proof. reflexivity. Qed.
Print Assumptions C31_empty_refuted.
(** dot(vector, matrix) and dot(vector, vector) never produce a value. *)
Theorem C31_vector_left_refuted : forall A zero one add mul is_zero asserts sched junk (e1 e2 : @lexpr A) m k n f g h,
  semiring zero one add mul is_zero -> lvector mul e1 m f ->
  (lmatrix mul e2 k n g -> forall r, dot zero one add mul is_zero asserts sched junk e1 e2 <> Ok r) /\
  (lvector mul e2 k h -> forall r, dot zero one add mul is_zero asserts sched junk e1 e2 <> Ok r).
Proof.
  intros A zero one add mul is_zero asserts sched junk e1 e2 m k n f g h (SR & ZT) H1.
  split; intros H2; [eapply dot_vm_never|eapply dot_vv_never]; eauto.
Qed.
Print Assumptions C31_vector_left_refuted.

(** ** C32: nesting.  The folded operand: flags cancel in pairs, factors multiply, the array is the innermost. *)
Theorem C32_folding : forall A (one : A) mul e,
  dotHelper one mul e = (Nat.odd (transposes e), product one mul (factors e), base e).
Proof. intros. apply dotHelper_fold. Qed.
Print Assumptions C32_folding.
Example C32_folding_ex : dotHelper 1 Nat.mul (LTrans (LScale (LTrans (LTrans (LArr ([1; 2]%N, [3; 4])) 5) 2) 3) 1) = (true, 30, ([1; 2]%N, [3; 4])).
Proof. reflexivity. Qed.
(** Any two nestings give the product of the evaluated operands. *)
Theorem C32_dot : forall A zero one add mul is_zero asserts sched junk (e1 e2 : @lexpr A) a1 a2 m k n,
  semiring zero one add mul is_zero ->
  (forall m n k, interleaving n (column_program m k) (sched m n k)) ->
  array (base e1) -> lshape e1 = [m; k] -> array (base e2) -> lshape e2 = [k; n] -> (m * n < 2 ^ 32)%N ->
  evaluated mul e1 a1 -> evaluated mul e2 a2 ->
  dot zero one add mul is_zero asserts sched junk e1 e2 = dot zero one add mul is_zero asserts sched junk (LArr a1) (LArr a2).
Proof. intros A zero one add mul is_zero asserts sched junk e1 e2 a1 a2 m k n (SR & ZT). apply dot_folds; auto. Qed.
Print Assumptions C32_dot.
Example C32_ex_lhs := LTrans (LScale (LTrans (LTrans (LArr ([1; 2]%N, [3; 4])) 5) 2) 3) 1.
Example C32_ex : evaluated Nat.mul C32_ex_lhs ([2; 1]%N, [90; 120]) /\
  dot 0 1 Nat.add Nat.mul (Nat.eqb 0) true (fun m n k => serial_schedule m n k) (fun i => 99) C32_ex_lhs (LArr ([1; 1]%N, [7])) = Ok ([2; 1]%N, [630; 840]).
Proof.
  split; [|reflexivity]. split; [split; [reflexivity|exact (eq_refl : (2 < 2 ^ 32)%N)]|]. split; [reflexivity|].
  intros idx H. unfold in_range in H. cbn [fst] in H. inversion H as [|i x l1 l2 Hi H2]; subst. inversion H2 as [|j y l3 l4 Hj H3]; subst. inversion H3; subst.
  assert (i = 0 \/ i = 1)%N as [-> | ->] by lia; assert (j = 0)%N as -> by lia; reflexivity.
Qed.

(** ** C33: the GPU fallback kernels.  gemv: every order of the work items, any superset of the rows launched. *)
Theorem C33_gemv : forall A zero one add mul is_zero tr M N alpha (a : list A) lda x ix beta iy items y f g,
  semiring zero one add mul is_zero ->
  is_matrix (fun x => x) RowMajor (if tr : bool then Trans else NoTrans) lda a M N f ->
  (forall j, j < N -> nth_error x (j * ix) = Some (g j)) -> 0 < iy -> (forall i, i < M -> i * iy < length y) ->
  NoDup items -> (forall i, i < M -> In i items) ->
  exists y', gemv_kernel zero add mul tr M N alpha a lda x ix beta iy items y = Ok y' /\ length y' = length y /\
    (forall i, i < M -> nth_error y' (i * iy)
       = option_map (fun v => add (mul alpha (sum zero add N (fun h => mul (f i h) (g h)))) (mul beta v)) (nth_error y (i * iy))) /\
    (forall p, (forall i, i < M -> p <> i * iy) -> nth_error y' p = nth_error y p).
Proof. intros A zero one add mul is_zero tr M N alpha a lda x ix beta iy items y f g (SR & ZT). eapply gemv_kernel_ok; eauto. Qed.
Print Assumptions C33_gemv.
Example C33_gemv_ex : gemv_kernel 0 Nat.add Nat.mul true 2 3 1 [1; 2; 3; 4; 5; 6] 2 [1; 1; 2] 1 0 1 [3; 1; 0; 2; 5; 4] [99; 99] = Ok [14; 18].
Proof. reflexivity. Qed.
(** The launch of m * n work items covers the m rows, unless the matrix has no columns. *)
Theorem C33_gemv_launch : forall m n items, 0 < n -> Permutation items (seq 0 (m * n)) -> NoDup items /\ forall i, i < m -> In i items.
Proof.
  intros m n items Hn HP. split; [apply (Permutation_NoDup (Permutation_sym HP)), seq_NoDup|].
  intros i Hi. apply (Permutation_in _ (Permutation_sym HP)), in_seq. nia.
Qed.
Print Assumptions C33_gemv_launch.
Example C33_gemv_launch_ex : Permutation [5; 4; 3; 2; 1; 0] (seq 0 (2 * 3)).
Proof. apply NoDup_Permutation; [repeat constructor; cbn; lia|apply seq_NoDup|intros x; cbn; lia]. Qed.
(** gemm is right when nothing is transposed, the inner extent is exactly one tile and the result fits in one
    tile.  Missing: everything else, see below. *)
Theorem C33_gemm_partial : forall A zero one add mul is_zero TS tiles M N alpha (a : list A) lda b ldb beta ldc c f g items,
  semiring zero one add mul is_zero -> 0 < TS -> 0 < tiles -> M <= TS -> N <= TS -> N <= ldc ->
  is_matrix (fun x => x) RowMajor NoTrans lda a M TS f -> is_matrix (fun x => x) RowMajor NoTrans ldb b TS N g ->
  (forall i j, i < M -> j < N -> i * ldc + j < length c) -> NoDup items -> (forall w, In w items <-> In w (gemm_items TS M N)) ->
  exists c', gemm_kernel zero add mul TS tiles false false M N TS alpha a lda b ldb beta ldc items c = Ok c' /\ length c' = length c /\
    (forall i j, i < M -> j < N -> nth_error c' (i * ldc + j)
      = option_map (fun v => add (mul alpha (sum zero add TS (fun h => mul (f i h) (g h j)))) (mul beta v)) (nth_error c (i * ldc + j))) /\
    outside_kept RowMajor ldc M N c c'.
Proof. intros A zero one add mul is_zero TS tiles M N alpha a lda b ldb beta ldc c f g items (SR & ZT). eapply gemm_kernel_one_tile; eauto. Qed.
Print Assumptions C33_gemm_partial.
Example C33_gemm_ex : gemm_kernel 0 Nat.add Nat.mul 2 2 false false 1 2 2 1 [1; 2] 2 [3; 4; 5; 6] 2 0 2 (gemm_items 2 1 2) [0; 0] = Ok [13; 16].
Proof. reflexivity. Qed.
(** With the real tile size 32, a 2 x 2 product reads outside B. *)
Theorem C33_gemm_bounds_refuted : gemm_kernel 0 Nat.add Nat.mul 32 1 false false 2 2 2 1 [1; 2; 3; 4] 2 [5; 6; 7; 8] 2 0 2 (gemm_items 32 2 2) [0; 0; 0; 0] = UB.
Proof. reflexivity. Qed.
Print Assumptions C33_gemm_bounds_refuted.
(** The flag of A has no effect at all; so a transposed A gives the product with A itself. *)
Theorem C33_gemm_transA_refuted : forall A (zero : A) add mul TS tiles tb M N K alpha a lda b ldb beta ldc items c,
  gemm_kernel zero add mul TS tiles true tb M N K alpha a lda b ldb beta ldc items c
  = gemm_kernel zero add mul TS tiles false tb M N K alpha a lda b ldb beta ldc items c.
Proof. intros. apply kernel_ignores_transA. Qed.
Print Assumptions C33_gemm_transA_refuted.
(** Two tiles, and a transposed B, are wrong for any tile size; shown for 2 x 2 tiles and B large enough to stay
    inside. *)
Theorem C33_gemm_tiles_refuted :
  gemm_kernel 0 Nat.add Nat.mul 2 2 false false 1 2 4 1 [1; 1; 1; 1] 4 [1; 2; 3; 4; 5; 6; 7; 8] 2 0 2 (gemm_items 2 1 2) [0; 0]
    <> Ok [1 + 3 + 5 + 7; 2 + 4 + 6 + 8] /\
  gemm_kernel 0 Nat.add Nat.mul 2 1 false true 1 1 2 1 [1; 1] 2 [1; 2] 2 0 1 (gemm_items 2 1 1) [0] <> Ok [1 + 2].
Proof. split; vm_compute; discriminate. Qed.
Print Assumptions C33_gemm_tiles_refuted.

(** ** C34: geam, for every right transposition routine (the generic one is, see C28). *)
Theorem C34_geam_partial : forall A zero one add mul is_zero asserts impl junk (a : @gop A) alpha b beta c rows cols f g,
  semiring zero one add mul is_zero -> good_impl mul impl ->
  gmatrix mul a rows cols f -> gmatrix mul b rows cols g -> fst c = [rows; cols] ->
  (match a with GTrans _ own => own = one | _ => True end) -> (match b with GTrans _ own => own = one | _ => True end) ->
  exists out, geam one add mul asserts impl junk a alpha b beta c = Ok ([rows; cols], out) /\ length out = N.to_nat (rows * cols) /\
    forall i j, (i < rows)%N -> (j < cols)%N -> element [rows; cols] out [i; j] = Some (add (mul alpha (f i j)) (mul beta (g i j))).
Proof. intros A zero one add mul is_zero asserts impl junk a alpha b beta c rows cols f g (SR & ZT). eapply geam_ok; eauto. Qed.
Print Assumptions C34_geam_partial.
Example C34_ex : geam 1 Nat.add Nat.mul true (fun r c => transposeImpl Nat.mul r c 8) (fun i => 99)
  (GTrans ([2; 3]%N, [1; 2; 3; 4; 5; 6]) 1) 10 (GArr ([3; 2]%N, [1; 1; 1; 1; 1; 1])) 2 ([3; 2]%N, [0; 0; 0; 0; 0; 0])
  = Ok ([3; 2]%N, [12; 42; 22; 52; 32; 62]).
Proof. reflexivity. Qed.
(** With assertions, operands or a destination that do not fit are always reported. *)
Theorem C34_mismatch : forall A (one : A) add mul impl junk (a : @gop A) alpha b beta c,
  (exists rows cols, op_shape a rows cols /\ op_shape b rows cols /\ fst c = [rows; cols])
  \/ geam one add mul true impl junk a alpha b beta c = Throw RuntimeError.
Proof. intros. apply geam_checks. Qed.
Print Assumptions C34_mismatch.
Example C34_mismatch_ex : geam 1 Nat.add Nat.mul true (fun r c => transposeImpl Nat.mul r c 8) (fun i => 99)
  (GTrans ([2; 1]%N, [1; 2]) 1) 10 (GArr ([1; 2]%N, [1; 1])) 2 ([2; 1]%N, [0; 0]) = Throw RuntimeError.
Proof. reflexivity. Qed.
(** A lazily scaled transpose loses its own factor. *)
Theorem C34_own_factor_refuted : geam 1 Nat.add Nat.mul true (fun r c => transposeImpl Nat.mul r c 8) (fun i => 99)
  (GTrans ([1; 1]%N, [7]) 3) 1 (GArr ([1; 1]%N, [0])) 1 ([1; 1]%N, [0]) = Ok ([1; 1]%N, [7]) /\ 1 * (3 * 7) + 1 * 0 <> 7.
Proof. split; [reflexivity|discriminate]. Qed.
Print Assumptions C34_own_factor_refuted.
