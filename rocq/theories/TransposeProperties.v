(** C28 (transpose) and C29 (transposing twice, explicit axes). *)
From Coq Require Import Permutation.
From Verif Require Import Base ShapeModel ShapeSpec ViewSpec TransposeModel TransposeSpec TransposeProofs.
From Coq Require Import ZifyNat ZifyN ZifyBool.
Ltac Zify.zify_post_hook ::= idtac.

(** ** C28 *)
(** The generic routine: every size, block size, scale factor, and every order of the stores (hence
    every thread schedule). *)
Theorem C28_generic : forall A (mul : A -> A -> A) rows cols b alpha inp out sched,
  0 < b -> length inp = rows * cols -> length out = cols * rows ->
  Permutation sched (generic_ops rows cols b) ->
  exists out', run mul rows cols b (fun _ => []) true alpha inp sched out = Ok out' /\
    transposed mul alpha rows cols inp out'.
Proof. intros. apply generic_run; auto. Qed.
Print Assumptions C28_generic.
(** The block size is the cache line size over the element size.  For elements that fit in a cache line, the block
    loops end, after visiting every block once … *)
Theorem C28_block_loops_partial : forall line size n, 0 < size -> size <= line ->
  0 < block_size line size /\ forall l, loop_visits n (block_size line size) 0 l <-> l = starts n (block_size line size).
Proof.
  intros line size n Hs Hl. pose proof (proj2 (block_size_pos line size Hs) Hl) as P. split; auto.
  intros l. split; [intros V; exact (loop_visits_fun _ _ _ _ _ V (loop_visits_starts _ _ P))|intros ->; now apply loop_visits_starts].
Qed.
Print Assumptions C28_block_loops_partial.
Example C28_block_loops_ex : block_size 64 8 = 8 /\ starts 20 8 = [0; 8; 16] /\ loop_visits 20 8 0 [0; 8; 16].
Proof. split; [reflexivity|]. split; [reflexivity|]. apply (C28_block_loops_partial 64 8 20); [lia|lia|reflexivity]. Qed.
(** … but for larger elements (such as vectors of 16 doubles) the block size is 0 and the transpose never ends. *)
Theorem C28_block_loops_refuted : forall line size n, line < size -> 0 < n ->
  forall l, ~ loop_visits n (block_size line size) 0 l.
Proof. intros line size n H Hn l. unfold block_size. rewrite Nat.div_small by lia. now apply loop_visits_never. Qed.
Print Assumptions C28_block_loops_refuted.

(** The vector kernels turn a block into its transpose: all but the AVX2 double kernel. *)
Theorem C28_kernels : forall A,
  @block_transpose A 8 avx_float /\ @block_transpose A 4 sse_float /\ @block_transpose A 2 sse_double /\
  @block_transpose A 4 neon_float /\ @block_transpose A 2 neon_double.
Proof. intros A. exact (conj avx_float_ok (conj sse_float_ok (conj sse_double_ok (conj neon_float_ok neon_double_ok)))). Qed.
Print Assumptions C28_kernels.
Theorem C28_avx_double_refuted : ~ @block_transpose nat 4 avx_double.
Proof.
  intros H. destruct (H [[0; 1; 2; 3]; [10; 11; 12; 13]; [20; 21; 22; 23]; [30; 31; 32; 33]]) as (_ & B); [reflexivity|repeat constructor|].
  destruct (B 3 0) as (x & ri & rj & E1 & E2 & E3 & _ & E4); [lia|lia|].
  cbn in *. injection E1 as <-. injection E3 as <-. cbn in *. congruence.
Qed.
Print Assumptions C28_avx_double_refuted.
(** What that kernel stores instead, for every 4 x 4 block: only 5 of the 16 elements are in place. *)
Theorem C28_avx_double_contents_refuted : forall A (a b c d e f g h i j k l m n o p : A),
  avx_double [[a; b; c; d]; [e; f; g; h]; [i; j; k; l]; [m; n; o; p]]
  = [[a; e; i; k]; [a; c; k; o]; [b; f; j; l]; [b; d; l; p]].
Proof. reflexivity. Qed.
Print Assumptions C28_avx_double_contents_refuted.

(** The vectorised routine with a right kernel, in any order.  Proved for square matrices; for the float
    version, which does not scale in the remainder ([scaled] = false), also only for multiples of the
    block size or a neutral alpha. *)
Theorem C28_simd_partial : forall A (mul : A -> A -> A) n b K (scaled : bool) alpha inp out sched,
  0 < b -> block_transpose b K -> (scaled = true \/ n mod b = 0 \/ forall x, mul x alpha = x) ->
  length inp = n * n -> length out = n * n -> Permutation sched (simd_ops n n b) ->
  exists out', run mul n n b K scaled alpha inp sched out = Ok out' /\ transposed mul alpha n n inp out'.
Proof. intros. apply simd_run; auto. Qed.
Print Assumptions C28_simd_partial.
Example C28_simd_ex : block_transpose 2 (@sse_double nat) /\
  run Nat.mul 3 3 2 sse_double true 10 (seq 1 9) (rev (simd_ops 3 3 2)) (repeat 0 9) = Ok [10; 40; 70; 20; 50; 80; 30; 60; 90].
Proof. split; [apply C28_kernels|reflexivity]. Qed.

(** Non-square: a 2 x 4 double matrix (SSE or NEON) is transposed wrongly... *)
Theorem C28_simd_nonsquare_refuted : ~ (forall rows cols inp out, length inp = rows * cols -> length out = cols * rows ->
  exists out', run Nat.mul rows cols 2 sse_double true 1 inp (simd_ops rows cols 2) out = Ok out' /\
    transposed Nat.mul 1 rows cols inp out').
Proof.
  intros H. destruct (H 2 4 (seq 0 8) (repeat 0 8) eq_refl eq_refl) as (o & E & _ & T).
  vm_compute in E. injection E as <-. destruct (T 1 0) as (x & X1 & X2); [lia|lia|]. vm_compute in X1. injection X1 as <-. discriminate X2.
Qed.
Print Assumptions C28_simd_nonsquare_refuted.
(** ... and a 4 x 2 one is read out of bounds. *)
Theorem C28_simd_bounds_refuted :
  run Nat.mul 4 2 2 sse_double true 1 (seq 0 8) (simd_ops 4 2 2) (repeat 0 8) = UB.
Proof. reflexivity. Qed.
Print Assumptions C28_simd_bounds_refuted.
(** A scaled 5 x 5 float transpose loses the factor in the last row and column. *)
Theorem C28_simd_alpha_refuted : ~ (forall n alpha inp out, length inp = n * n -> length out = n * n ->
  exists out', run Nat.mul n n 4 sse_float false alpha inp (simd_ops n n 4) out = Ok out' /\
    transposed Nat.mul alpha n n inp out').
Proof.
  intros H. destruct (H 5 3 (seq 1 25) (repeat 0 25) eq_refl eq_refl) as (o & E & _ & T).
  vm_compute in E. injection E as <-. destruct (T 4 0) as (x & X1 & X2); [lia|lia|]. vm_compute in X1. injection X1 as <-. discriminate X2.
Qed.
Print Assumptions C28_simd_alpha_refuted.

(** The OpenCL kernel: every tile size, every order of the work items before and after the barrier. *)
Theorem C28_opencl : forall A (mul : A -> A -> A) T rows cols alpha inp out s1 s2,
  0 < T -> length inp = rows * cols -> length out = cols * rows ->
  Permutation s1 (cl_items T rows cols) -> Permutation s2 (cl_items T rows cols) ->
  exists out', cl_transpose mul T rows cols alpha inp s1 s2 out = Ok out' /\ transposed mul alpha rows cols inp out'.
Proof. intros. apply cl_run; auto. Qed.
Print Assumptions C28_opencl.

(** Through the API: transpose(m).eval() on the host for element types without a vector kernel. *)
Theorem C28_eval : forall A (mul : A -> A -> A) asserts b junk (a : shape * list A) alpha rows cols,
  0 < b -> fst a = [rows; cols] -> N.of_nat (length (snd a)) = prod (fst a) -> (prod (fst a) < 2 ^ 32)%N ->
  exists t, eval_transpose asserts (fun r c => transposeImpl mul r c b) junk a (transpose_axes 2 [0; 0]%N) alpha = Ok t /\
    transpose_of mul alpha a t.
Proof.
  intros A mul asserts b junk a alpha rows cols Hb Hs W1 W2.
  change (transpose_axes 2 [0; 0]%N) with [1; 0]%N.
  destruct (eval_transpose_ok mul asserts (fun r c => transposeImpl mul r c b) junk a alpha rows cols) as (t & E & H & _); eauto.
  - apply generic_good. auto.
  - split; auto.
Qed.
Print Assumptions C28_eval.

Example C28_example :
  transposeImpl Nat.mul 2 3 2 10 [1; 2; 3; 4; 5; 6] (repeat 0 6) = Ok [10; 40; 20; 50; 30; 60] /\
  generic_ops 3 2 2 = [Cell 0 0; Cell 0 1; Cell 1 0; Cell 1 1; Cell 2 0; Cell 2 1] /\
  run Nat.mul 4 4 4 neon_float true 1 (seq 0 16) (simd_ops 4 4 4) (repeat 0 16)
    = Ok [0; 4; 8; 12; 1; 5; 9; 13; 2; 6; 10; 14; 3; 7; 11; 15] /\
  cl_transpose Nat.mul 2 2 3 10 [1; 2; 3; 4; 5; 6] (cl_items 2 2 3) (rev (cl_items 2 2 3)) (repeat 0 6)
    = Ok [10; 40; 20; 50; 30; 60].
Proof. vm_compute. repeat split. Qed.

(** ** C29 *)
(** Transposing twice gives back the array (and multiplies the factors). *)
Theorem C29_twice : forall A (mul : A -> A -> A) asserts b junk (a : shape * list A) alpha beta rows cols,
  0 < b -> fst a = [rows; cols] -> N.of_nat (length (snd a)) = prod (fst a) -> (prod (fst a) < 2 ^ 32)%N ->
  (forall x, mul (mul x alpha) beta = x) ->
  teval asserts (fun r c => transposeImpl mul r c b) junk
    (TTrans (TTrans (TArr a) (transpose_axes 2 [0; 0]%N) alpha) (transpose_axes 2 [0; 0]%N) beta) = Ok a.
Proof.
  intros A mul asserts b junk a alpha beta rows cols Hb Hs W1 W2 Hab.
  change (transpose_axes 2 [0; 0]%N) with [1; 0]%N. rewrite (teval_twice mul) with (rows := rows) (cols := cols); auto.
  - rewrite (map_ext _ (fun x => x)) by auto. rewrite map_id. destruct a. reflexivity.
  - apply generic_good. auto.
  - split; auto.
Qed.
Print Assumptions C29_twice.
(** A scalar multiple of a lazy transpose is folded into its factor without changing the result. *)
Theorem C29_scale : forall A (mul : A -> A -> A) asserts b junk (a : shape * list A) alpha beta rows cols,
  0 < b -> fst a = [rows; cols] -> N.of_nat (length (snd a)) = prod (fst a) -> (prod (fst a) < 2 ^ 32)%N ->
  exists t, teval asserts (fun r c => transposeImpl mul r c b) junk
      (scale mul (TTrans (TArr a) (transpose_axes 2 [0; 0]%N) alpha) beta) = Ok t /\
    transpose_of mul (mul alpha beta) a t.
Proof.
  intros A mul asserts b junk a alpha beta rows cols Hb Hs W1 W2. cbn [scale teval bind].
  eapply C28_eval; eauto.
Qed.
Print Assumptions C29_scale.
Example C29_scale_ex : teval true (fun r c => transposeImpl Nat.mul r c 2) (fun _ => 9)
    (scale Nat.mul (TTrans (TArr ([2; 3]%N, [1; 2; 3; 4; 5; 6])) (transpose_axes 2 [0; 0]%N) 5) 2) = Ok ([3; 2]%N, [10; 40; 20; 50; 30; 60]).
Proof. reflexivity. Qed.
(** Assigning a double transpose to an array is not implemented, although eval() is. *)
Theorem C29_assign_refuted : forall A (mul : A -> A -> A) asserts impl junk (a : shape * list A) ax1 ax2 alpha beta,
  tassign asserts impl junk (TTrans (TTrans (TArr a) ax1 alpha) ax2 beta) = Throw NotImplemented.
Proof. reflexivity. Qed.
Print Assumptions C29_assign_refuted.
(** Arrays of other ranks are rejected, with or without assertions, whenever the axes are valid. *)
Theorem C29_rank_rejected : forall A asserts impl junk (a : shape * list A) axes alpha,
  length (fst a) <> 2 -> length axes = length (fst a) -> Forall (fun x => N.to_nat x < length (fst a)) axes ->
  eval_transpose asserts impl junk a axes alpha = Throw NotImplemented.
Proof.
  intros A asserts impl junk [s d] axes alpha H L F. cbn [fst] in *. unfold eval_transpose, output_shape.
  replace (length s =? length axes) with true by lia. rewrite ViewProofs.check_true. cbn [bind].
  destruct (permute_ok asserts s axes F) as (os & -> & _). cbn [bind].
  destruct s as [|r [|c [|? ?]]]; auto. exfalso. apply H. reflexivity.
Qed.
Print Assumptions C29_rank_rejected.
(** The Transpose object reports the permuted shape. *)
Theorem C29_shape_partial : forall asserts s axes, length axes = length s -> Forall (fun x => N.to_nat x < length s) axes ->
  exists os, output_shape asserts s axes = Ok os /\ permuted_shape s axes os.
Proof.
  intros asserts s axes L F. unfold output_shape. replace (length s =? length axes) with true by lia.
  rewrite ViewProofs.check_true. cbn [bind]. apply permute_ok. auto.
Qed.
Print Assumptions C29_shape_partial.
Example C29_shape_ex : output_shape true [5; 6; 7]%N [2; 0; 1]%N = Ok [7; 5; 6]%N.
Proof. reflexivity. Qed.
(** But transpose() discards the axes it is given: every permutation contains 0, so the product is 0. *)
Theorem C29_axes_refuted : forall n axes, In 0%N axes -> (prod axes < 2 ^ 64)%N ->
  transpose_axes n axes = map (fun i => N.of_nat (n - i - 1)) (seq 0 n).
Proof.
  intros n axes H P. apply axes_default. rewrite ShapeProofs.size_exact by auto. clear P.
  induction axes as [|a axes IH]; [contradiction|]. cbn [prod]. destruct H as [->|H]; [lia|]. rewrite IH by auto. lia.
Qed.
Print Assumptions C29_axes_refuted.
(** With the identity permutation the matrix is transposed all the same. *)
Theorem C29_identity_refuted : ~ (forall (a : shape * list nat), length (fst a) = 2 -> N.of_nat (length (snd a)) = prod (fst a) ->
  eval_transpose true (fun r c => transposeImpl Nat.mul r c 8) (fun _ => 0) a (transpose_axes 2 [0; 1]%N) 1 = Ok a).
Proof. intros H. specialize (H ([1; 2]%N, [5; 6]) eq_refl eq_refl). vm_compute in H. discriminate H. Qed.
Print Assumptions C29_identity_refuted.

Example C29_example :
  teval true (fun r c => transposeImpl Nat.mul r c 2) (fun _ => 9)
    (TTrans (TTrans (TArr ([2; 3]%N, [1; 2; 3; 4; 5; 6])) (transpose_axes 2 [0; 0]%N) 1) (transpose_axes 2 [0; 0]%N) 1)
  = Ok ([2; 3]%N, [1; 2; 3; 4; 5; 6]) /\
  eval_transpose true (fun r c => transposeImpl Nat.mul r c 2) (fun _ => 9) ([1; 1; 1]%N, [7]) [2; 1; 0]%N 1 = Throw NotImplemented.
Proof. vm_compute. split; reflexivity. Qed.
