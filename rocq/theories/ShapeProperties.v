(** C11, C13, C14, C15: shapes and strides. *)
From Verif Require Import Base ShapeModel ShapeSpec ShapeProofs.

(** ** C11 *)
(** Proved for shapes whose element count fits 32 bits (strides are uint32_t); missing: zero
    dimensions and 2^32 or more elements, where the claim is false (below). *)
Theorem C11_rowmajor_bijection_partial :
  forall s, s <> [] -> positive s -> (prod s < 2 ^ 32)%N ->
  exists st, stride s = Ok st /\ length st = length s /\
    (forall idx, in_range idx s -> dot_stride idx st = position idx s /\ (dot_stride idx st < size s)%N) /\
    (forall p, (p < size s)%N -> exists idx, in_range idx s /\ dot_stride idx st = p /\
        forall idx', in_range idx' s -> dot_stride idx' st = p -> idx' = idx).
Proof. exact rowmajor_bijection. Qed.
Print Assumptions C11_rowmajor_bijection_partial.
Example C11_instance : positive [2; 3; 4]%N /\ stride [2; 3; 4]%N = Ok [12; 4; 1]%N /\
  in_range [1; 2; 3]%N [2; 3; 4]%N /\ position [1; 2; 3]%N [2; 3; 4]%N = 23%N.
Proof. repeat split; repeat constructor. Qed.

Theorem C11_strides_partial :
  forall s, s <> [] -> positive s -> (prod s < 2 ^ 32)%N ->
  exists st, stride s = Ok st /\ length st = length s /\
    forall k, k < length s -> nth k st 0%N = prod (skipn (S k) s).
Proof. exact strides_are_products. Qed.
Print Assumptions C11_strides_partial.
Example C11_strides_ex : stride [5; 2; 3; 4]%N = Ok [24; 12; 4; 1]%N /\ positive [5; 2; 3; 4]%N /\ (prod [5; 2; 3; 4] < 2 ^ 32)%N.
Proof. split; [reflexivity|]. split; [repeat constructor|reflexivity]. Qed.

(** Row-major order is lexicographic order of the indices. *)
Theorem C11_lexicographic :
  forall s a b, in_range a s -> in_range b s -> (lex_lt a b <-> (position a s < position b s)%N).
Proof. exact position_lex. Qed.
Print Assumptions C11_lexicographic.
Example C11_lexicographic_instance : in_range [0; 2]%N [2; 3]%N /\ in_range [1; 0]%N [2; 3]%N /\
  lex_lt [0; 2]%N [1; 0]%N.
Proof. repeat split; repeat constructor. Qed.

(** The strides of a zero-dimensional shape are not well defined: the constructor writes before the
    start of a local array. *)
Theorem C11_zero_dim_refuted : of_values [] = Ok [] /\ stride [] = UB.
Proof. exact (conj eq_refl stride_zero_dim). Qed.
Print Assumptions C11_zero_dim_refuted.

(** Nor is the offset the row-major position when a partial product reaches 2^32, although size() is exact. *)
Theorem C11_stride_wrap_refuted :
  exists s st idx, Forall (fun e => 0 < e < 2 ^ 32)%N s /\ (prod s < 2 ^ 64)%N /\
  stride s = Ok st /\ in_range idx s /\ dot_stride idx st <> position idx s.
Proof. exact stride_wrap_refuted. Qed.
Print Assumptions C11_stride_wrap_refuted.

(** ** C13 *)
Theorem C13_shape_from_values :
  forall vals, fits vals -> length vals <= 16 -> of_values vals = Ok vals.
Proof. exact of_values_spec. Qed.
Print Assumptions C13_shape_from_values.
Example C13_values_instance : of_values [3; 4294967295]%N = Ok [3; 4294967295]%N.
Proof. reflexivity. Qed.

(** "A shape with too many dimensions is rejected" is false: it is undefined behaviour, always. *)
Theorem C13_too_many_dimensions_refuted : forall vals, 16 < length vals -> of_values vals = UB.
Proof. exact of_values_overflow. Qed.
Print Assumptions C13_too_many_dimensions_refuted.
Example C13_too_many_instance : 16 < length (repeat 1%N 17).
Proof. vm_compute. auto. Qed.

(** [size] is the product of the extents as long as that fits size_t, and its residue otherwise. *)
Theorem C13_size : forall s, size s = (prod s mod 2 ^ 64)%N.
Proof. exact size_spec. Qed.
Print Assumptions C13_size.
Example C13_size_ex : size [3; 0; 7]%N = 0%N /\ size [1000; 1000; 1000; 1000]%N = (10 ^ 12)%N /\ size [2 ^ 31; 2 ^ 31; 8]%N = 0%N.
Proof. split; [|split]; reflexivity. Qed.

Theorem C13_matrix_round_trip : forall asserts m, m_of_shape asserts (of_m m) = Ok m.
Proof. exact matrix_round_trip. Qed.
Print Assumptions C13_matrix_round_trip.
Example C13_matrix_round_trip_ex : of_m (3, 5)%N = [3; 5]%N /\ m_of_shape true [3; 5]%N = Ok (3, 5)%N.
Proof. split; reflexivity. Qed.

Theorem C13_shape_to_matrix :
  forall asserts s, length s <= 2 -> s <> [] ->
  exists m, m_of_shape asserts s = Ok m /\ of_m m = s ++ repeat 1%N (2 - length s) /\ prod (of_m m) = prod s.
Proof. exact matrix_of_shape. Qed.
Print Assumptions C13_shape_to_matrix.
Example C13_shape_to_matrix_instance : m_of_shape true [7]%N = Ok (7, 1)%N.
Proof. reflexivity. Qed.

Theorem C13_matrix_too_many : forall s, 2 < length s -> m_of_shape true s = Throw InvalidArgument.
Proof. exact matrix_too_many. Qed.
Print Assumptions C13_matrix_too_many.
Example C13_matrix_too_many_ex : m_of_shape true [3; 5; 1]%N = Throw InvalidArgument /\ 2 < length [3; 5; 1]%N.
Proof. split; [reflexivity|repeat constructor]. Qed.

Theorem C13_vector_round_trip :
  (forall asserts v, v_of_shape asserts (of_v v) = Ok v) /\
  (forall asserts s, length s = 1 -> exists v, v_of_shape asserts s = Ok v /\ of_v v = s) /\
  (forall s, length s <> 1 -> v_of_shape true s = Throw InvalidArgument).
Proof. exact (conj vector_round_trip (conj vector_of_shape vector_too_many)). Qed.
Print Assumptions C13_vector_round_trip.
Example C13_vector_round_trip_ex : v_of_shape true [9]%N = Ok 9%N /\ v_of_shape true [9; 1]%N = Throw InvalidArgument.
Proof. split; reflexivity. Qed.

(** A MatrixShape has the size of the Shape with the same extents only below 2^32 elements. *)
Theorem C13_matrix_size_partial :
  forall m, (fst m * snd m < 2 ^ 32)%N -> m_size m = prod (of_m m) /\ m_size m = size (of_m m).
Proof. exact matrix_size. Qed.
Print Assumptions C13_matrix_size_partial.
Theorem C13_matrix_size_refuted :
  exists m, (fst m < 2 ^ 32)%N /\ (snd m < 2 ^ 32)%N /\ size (of_m m) = 4294967296%N /\ m_size m = 0%N.
Proof. exact matrix_size_refuted. Qed.
Print Assumptions C13_matrix_size_refuted.
Example C13_matrix_size_instance : m_size (3, 5)%N = 15%N.
Proof. reflexivity. Qed.

Theorem C13_vector_size : forall v, (v < 2 ^ 32)%N -> v_size v = prod (of_v v) /\ v_size v = size (of_v v).
Proof. exact vector_size. Qed.
Print Assumptions C13_vector_size.
Example C13_vector_size_ex : v_size 4000000000%N = 4000000000%N.
Proof. reflexivity. Qed.

Theorem C13_equality : forall a b, any_eqb a b = true <-> extents a = extents b.
Proof. exact any_eqb_spec. Qed.
Print Assumptions C13_equality.
Example C13_equality_ex : any_eqb (S_ [2; 3]%N) (M_ (2, 3)%N) = true /\ any_eqb (S_ [2; 3; 1]%N) (M_ (2, 3)%N) = false.
Proof. split; reflexivity. Qed.

(** ** C14 *)
Theorem C14_subshape :
  forall asserts s a b,
  let start := if (a <? 0)%Z then 0 else Z.to_nat a in
  let stop := if (b <? 0)%Z then length s else Z.to_nat b in
  start <= stop <= length s ->
  exists t, subshape asserts s a b = Ok t /\ length t = stop - start /\
    forall k, k < stop - start -> nth_error t k = nth_error s (start + k).
Proof. exact subshape_spec. Qed.
Print Assumptions C14_subshape.
Example C14_instance : subshape true [5; 6; 7; 8]%N 1 (-1) = Ok [6; 7; 8]%N.
Proof. reflexivity. Qed.

Theorem C14_subshape_rejects :
  forall s a b,
  let start := if (a <? 0)%Z then 0%Z else a in
  let stop := if (b <? 0)%Z then Z.of_nat (length s) else b in
  ~ (start <= stop <= Z.of_nat (length s))%Z -> exists e, subshape true s a b = Throw e.
Proof. exact subshape_rejects. Qed.
Print Assumptions C14_subshape_rejects.
Example C14_rejects_instance : subshape true [5; 6]%N 1 3 = Throw OutOfRange.
Proof. reflexivity. Qed.

(** MatrixShape: only non-negative bounds. *)
Theorem C14_matrix_subshape_partial :
  forall asserts m a b, (0 <= a <= b)%Z -> (b <= 2)%Z ->
  exists t, m_subshape asserts m a b = Ok t /\ length t = Z.to_nat (b - a) /\
    forall k, k < Z.to_nat (b - a) -> nth_error t k = nth_error (of_m m) (Z.to_nat a + k).
Proof. exact m_subshape_spec. Qed.
Print Assumptions C14_matrix_subshape_partial.
Example C14_matrix_instance : m_subshape true (5, 6)%N 1 2 = Ok [6]%N.
Proof. reflexivity. Qed.

(** Negative bounds are rejected rather than meaning "from the start" / "to the end". *)
Theorem C14_matrix_negative_refuted :
  forall m a b, (a < 0 \/ b < a \/ 2 < b)%Z -> exists e, m_subshape true m a b = Throw e.
Proof. exact m_subshape_negative. Qed.
Print Assumptions C14_matrix_negative_refuted.
Example C14_matrix_negative_instance : m_subshape true (5, 6)%N (-1) (-1) = Throw OutOfRange.
Proof. reflexivity. Qed.

(** VectorShape: whatever the bounds, the result is the shape (0). *)
Theorem C14_vector_subshape_refuted :
  (forall asserts v a b t, v_subshape asserts v a b = Ok t -> t = [0%N]) /\
  v_subshape true 5%N 0 1 = Ok [0%N].
Proof. exact (conj v_subshape_always eq_refl). Qed.
Print Assumptions C14_vector_subshape_refuted.

(** ** C15 *)
Theorem C15_equal_shapes_accepted : forall l, all_equal l -> shapesMatch l = true.
Proof. exact shapesMatch_complete. Qed.
Print Assumptions C15_equal_shapes_accepted.
Example C15_instance : all_equal [S_ [2; 3]%N; M_ (2, 3)%N; S_ [2; 3]%N].
Proof. intros a b Ha Hb. cbn in *. intuition (subst; reflexivity). Qed.

Theorem C15_unequal_rejected_partial : forall l, length l <= 2 -> (shapesMatch l = true <-> all_equal l).
Proof. exact shapesMatch_sound_partial. Qed.
Print Assumptions C15_unequal_rejected_partial.
Example C15_unequal_ex : shapesMatch [S_ [2; 3]%N; M_ (3, 2)%N] = false /\ length [S_ [2; 3]%N; M_ (3, 2)%N] <= 2.
Proof. split; [reflexivity|repeat constructor]. Qed.

(** For every number of shapes, exactly the disjoint neighbouring pairs are compared. *)
Theorem C15_what_is_compared :
  forall l, shapesMatch l = true <->
  forall k a b, nth_error l (2 * k) = Some a -> nth_error l (2 * k + 1) = Some b -> extents a = extents b.
Proof. exact shapesMatch_pairs. Qed.
Print Assumptions C15_what_is_compared.
Example C15_what_is_compared_ex : shapesMatch [S_ [2]%N; S_ [2]%N; S_ [3]%N; S_ [3]%N] = true /\ shapesMatch [S_ [2]%N; S_ [2]%N; S_ [3]%N; S_ [4]%N] = false.
Proof. split; reflexivity. Qed.

Theorem C15_unequal_rejected_refuted : exists l, shapesMatch l = true /\ ~ all_equal l.
Proof. exact shapesMatch_unsound. Qed.
Print Assumptions C15_unequal_rejected_refuted.
