(** C12, C16, C17: element access, views, strided copies. *)
From Verif Require Import Base ShapeModel ShapeSpec ViewModel ViewSpec ViewProofs.

(** ** C12 *)
(** array(idx) = v, then array(jdx): the new value at equal indices, the old one elsewhere. *)
Theorem C12_read_over_write :
  forall (A : Type) asserts s (m : list A) idx v, N.of_nat (length m) = prod s -> in_range idx s ->
  exists m', call_set asserts s m (map Z.of_N idx) v = Ok m' /\ length m' = length m /\
    forall jdx, in_range jdx s ->
      element s m' jdx = if list_eq_dec N.eq_dec jdx idx then Some v else element s m jdx.
Proof. exact (@call_set_element). Qed.
Print Assumptions C12_read_over_write.

Theorem C12_read :
  forall (A : Type) asserts s (m : list A) idx, N.of_nat (length m) = prod s -> in_range idx s ->
  exists x, call_get asserts s m (map Z.of_N idx) = Ok x /\ element s m idx = Some x.
Proof. exact (@call_get_element). Qed.
Print Assumptions C12_read.
Example C12_instance : in_range [1; 0]%N [2; 2]%N /\
  call_set true [2; 2]%N [10; 11; 12; 13] [1; 0]%Z 99 = Ok [10; 11; 99; 13] /\
  call_get true [2; 2]%N [10; 11; 99; 13] [1; 0]%Z = Ok 99.
Proof. repeat split; repeat constructor. Qed.

Theorem C12_chain_is_call :
  forall (A : Type) asserts s (m : list A) idx v, dense s -> N.of_nat (length m) = prod s -> in_range idx s ->
  exists w, array_chain asserts s (map Z.of_N idx) = Ok w /\
    view_get asserts w m = call_get asserts s m (map Z.of_N idx) /\
    view_set asserts w m v = call_set asserts s m (map Z.of_N idx) v /\
    exists x, view_get asserts w m = Ok x.
Proof. exact (@chain_is_call). Qed.
Print Assumptions C12_chain_is_call.
Example C12_chain_ex : exists w, array_chain true [2; 3]%N [1; 2]%Z = Ok w /\ view_get true w [10; 11; 12; 13; 14; 15] = Ok 15 /\
  view_set true w [10; 11; 12; 13; 14; 15] 99 = Ok [10; 11; 12; 13; 14; 99].
Proof. eexists. split; [reflexivity|]. split; reflexivity. Qed.

(** A wrong number of indices or an index out of range is reported by operator() … *)
Theorem C12_call_rejects :
  forall s idx, ~ Forall2 (fun i e => (0 <= i < Z.of_N e)%Z) idx s ->
  exists e, call_position true s idx = Throw e.
Proof. exact call_position_rejects. Qed.
Print Assumptions C12_call_rejects.
Example C12_call_rejects_instance : call_position true [2; 3]%N [1; 3]%Z = Throw OutOfRange /\
  call_position true [2; 3]%N [1]%Z = Throw InvalidArgument /\ call_position true [2; 3]%N [-1; 0]%Z = Throw OutOfRange.
Proof. repeat split. Qed.

(** … and by a chain of operator[] (also when the chain is longer than the number of dimensions). *)
Theorem C12_chain_rejects :
  forall s idx, dense s ->
  ~ Forall2 (fun i e => (0 <= i < Z.of_N e)%Z) idx (firstn (length idx) s) ->
  array_chain true s idx = Throw OutOfRange.
Proof. exact (array_chain_rejects). Qed.
Print Assumptions C12_chain_rejects.
Example C12_chain_rejects_instance : array_chain true [2; 3]%N [1; 2; 0]%Z = Throw OutOfRange.
Proof. reflexivity. Qed.

(** ** C16 *)
(** array[i1]…[ik] denotes the sub-block: element (j…) of the view is element (i…, j…) of the array. *)
Theorem C16_view_elements :
  forall (A : Type) asserts s (m : list A) idx, dense s -> N.of_nat (length m) = prod s ->
  length idx <= length s -> in_range idx (firstn (length idx) s) ->
  exists w, array_chain asserts s (map Z.of_N idx) = Ok w /\ v_shape w = skipn (length idx) s /\
    forall jdx, in_range jdx (skipn (length idx) s) ->
      view_element w m jdx = element s m (idx ++ jdx) /\
      cell w jdx = Z.of_N (position (idx ++ jdx) s).
Proof. exact (@chain_view_element). Qed.
Print Assumptions C16_view_elements.
Example C16_view_elements_ex : exists w, array_chain true [2; 3]%N [1]%Z = Ok w /\ view_element w [10; 11; 12; 13; 14; 15] [2%N] = Some 15.
Proof. eexists. split; reflexivity. Qed.
Example C16_instance : dense [2; 3; 2]%N /\ in_range [1; 2]%N (firstn 2 [2; 3; 2]%N).
Proof.
  split.
  - split; [discriminate|]. split; [repeat constructor|reflexivity].
  - repeat constructor.
Qed.

(** A moved view denotes the same elements; a copied view is shifted to the start of the storage. *)
Theorem C16_copy_exact : forall v idx,
  cell (move_ctor v) idx = cell v idx /\ cell (copy_ctor v) idx = (cell v idx - v_offset v)%Z.
Proof. exact (fun v idx => conj (move_denotes v idx) (copy_denotes v idx)). Qed.
Print Assumptions C16_copy_exact.
Example C16_copy_exact_ex : let v := {| v_shape := [3]%N; v_stride := [1]%N; v_offset := 3 |} in
  cell v [2%N] = 5%Z /\ cell (move_ctor v) [2%N] = 5%Z /\ cell (copy_ctor v) [2%N] = 2%Z.
Proof. repeat split. Qed.

Theorem C16_copy_refuted :
  exists v, array_chain true [2; 2]%N [1]%Z = Ok v /\
    view_element v [10; 11; 12; 13] [0%N] = Some 12 /\
    view_element (copy_ctor v) [10; 11; 12; 13] [0%N] = Some 10.
Proof.
  exact (ex_intro _ {| v_shape := [2%N]; v_stride := [1%N]; v_offset := 2 |}
    (conj eq_refl (conj eq_refl eq_refl))).
Qed.
Print Assumptions C16_copy_refuted.

(** Iterating a one-dimensional array visits its elements in order. *)
Theorem C16_iterate_partial :
  forall (A : Type) asserts e (m : list A), dense [e] -> N.of_nat (length m) = e ->
  visit_array asserts [e] m = Ok m.
Proof. exact (@visit_1d). Qed.
Print Assumptions C16_iterate_partial.
Example C16_iterate_instance : visit_array true [3]%N [7; 8; 9] = Ok [7; 8; 9].
Proof. reflexivity. Qed.

(** With more dimensions the nested loops read the first last-dimension-many elements of the storage
    again and again, because each begin() copies the row view. *)
Theorem C16_iterate_nested_exact :
  forall (A : Type) asserts e s (m : list A), dense (e :: s) -> s <> [] ->
  (last s 0 <= N.of_nat (length m))%N ->
  visit_array asserts (e :: s) m
  = Ok (concat (repeat (firstn (N.to_nat (last s 0%N)) m) (N.to_nat (prod (removelast (e :: s)))))).
Proof. exact (@visit_nested). Qed.
Print Assumptions C16_iterate_nested_exact.
Example C16_iterate_nested_ex : dense [2; 3]%N /\ (last [3] 0 <= 6)%N /\ visit_array true [2; 3]%N [1; 2; 3; 4; 5; 6] = Ok [1; 2; 3; 1; 2; 3].
Proof. split; [split; [discriminate|split; [repeat constructor|exact (eq_refl : (6 < 2 ^ 32)%N)]]|]. split; [discriminate|reflexivity]. Qed.
Theorem C16_iterate_nested_refuted : visit_array true [2; 2]%N [10; 11; 12; 13] = Ok [10; 11; 10; 11].
Proof. exact eq_refl. Qed.
Print Assumptions C16_iterate_nested_refuted.

(** ** C17 *)
(** Views of arrays satisfy the hypotheses of the theorems below. *)
Theorem C17_array_views_ok :
  forall (A : Type) v s off (m : list A), dense s -> block v s off -> (off + prod s <= N.of_nat (length m))%N ->
  view_ok v m /\ view_injective v.
Proof. exact (@block_ok). Qed.
Print Assumptions C17_array_views_ok.
Example C17_block_instance :
  exists w, array_chain true [3; 2; 2]%N [2]%Z = Ok w /\ block w [2; 2]%N 8.
Proof. eexists. split; [reflexivity|]. repeat split. Qed.

(** Destination and source in different storage, any offsets and strides. *)
Theorem C17_assign_view :
  forall (A : Type) asserts fuel v w (m msrc : list A),
  view_ok v m -> view_injective v -> view_ok w msrc -> v_shape w = v_shape v ->
  N.to_nat (prod (v_shape v)) <= fuel ->
  exists m', view_assign asserts fuel v (v_shape w) (fun _ d => view_scalar w msrc d) m = Ok m' /\
    length m' = length m /\
    (forall idx, in_range idx (v_shape v) -> view_element v m' idx = view_element w msrc idx) /\
    (forall q, (forall idx, in_range idx (v_shape v) -> q <> Z.to_nat (cell v idx)) ->
       nth_error m' q = nth_error m q).
Proof. exact (@view_assign_view). Qed.
Print Assumptions C17_assign_view.
Example C17_assign_view_ex :
  let v := {| v_shape := [2; 2]%N; v_stride := [3; 1]%N; v_offset := 1 |} in
  let w := {| v_shape := [2; 2]%N; v_stride := [1; 2]%N; v_offset := 0 |} in
  view_assign true 4 v [2; 2]%N (fun _ d => view_scalar w [7; 8; 9; 10] d) [0; 1; 2; 3; 4; 5] = Ok [0; 7; 9; 3; 8; 10].
Proof. reflexivity. Qed.

(** Destination and source in the same storage (a[i] = a[j]): identical or disjoint. *)
Theorem C17_assign_view_same_storage :
  forall (A : Type) asserts fuel v w (m : list A),
  view_ok v m -> view_injective v -> view_ok w m -> v_shape w = v_shape v ->
  (w = v \/ forall a b, in_range a (v_shape v) -> in_range b (v_shape v) -> cell v a <> cell w b) ->
  N.to_nat (prod (v_shape v)) <= fuel ->
  exists m', view_assign asserts fuel v (v_shape w) (fun m d => view_scalar w m d) m = Ok m' /\
    length m' = length m /\
    (forall idx, in_range idx (v_shape v) -> view_element v m' idx = view_element w m idx) /\
    (forall q, (forall idx, in_range idx (v_shape v) -> q <> Z.to_nat (cell v idx)) ->
       nth_error m' q = nth_error m q).
Proof. exact (@view_assign_same). Qed.
Print Assumptions C17_assign_view_same_storage.
Example C17_assign_instance :
  let v := {| v_shape := [2; 2]%N; v_stride := [2; 1]%N; v_offset := 4 |} in
  let w := {| v_shape := [2; 2]%N; v_stride := [2; 1]%N; v_offset := 0 |} in
  view_assign true 4 v [2; 2]%N (fun m d => view_scalar w m d) [0; 1; 2; 3; 4; 5; 6; 7]
  = Ok [0; 1; 2; 3; 0; 1; 2; 3].
Proof. reflexivity. Qed.

Theorem C17_assign_shape_mismatch :
  forall (A : Type) fuel v s' src (m : list A), v_shape v <> s' ->
  view_assign true fuel v s' src m = Throw RangeError.
Proof. exact (@view_assign_shape_mismatch). Qed.
Print Assumptions C17_assign_shape_mismatch.
Example C17_assign_shape_mismatch_ex : let v := {| v_shape := [2; 2]%N; v_stride := [2; 1]%N; v_offset := 0 |} in
  v_shape v <> [4]%N /\ view_assign true 9 v [4]%N (fun _ _ => Ok 5) [0; 1; 2; 3] = Throw RangeError.
Proof. split; [discriminate|reflexivity]. Qed.

(** Evaluating a view into a new array of its shape. *)
Theorem C17_eval :
  forall (A : Type) fuel v (m res : list A),
  view_ok v m -> N.of_nat (length res) = prod (v_shape v) -> N.to_nat (prod (v_shape v)) <= fuel ->
  exists res', view_eval fuel v m res = Ok res' /\ length res' = length res /\
    forall idx, in_range idx (v_shape v) -> element (v_shape v) res' idx = view_element v m idx.
Proof. exact (@view_eval_spec). Qed.
Print Assumptions C17_eval.
Example C17_eval_instance :
  view_eval 6 {| v_shape := [2; 3]%N; v_stride := [1; 2]%N; v_offset := 0 |} [0; 1; 2; 3; 4; 5] [9; 9; 9; 9; 9; 9]
  = Ok [0; 2; 4; 1; 3; 5].
Proof. reflexivity. Qed.

(** A view with a zero extent has no elements, yet the do-while loops access one: undefined. *)
Theorem C17_empty_refuted :
  exists v, of_array [0%N] = Ok v /\ forall fuel, view_eval fuel v (@nil nat) [] = UB /\
    forall src, (forall m d, exists x, src m d = Ok x) -> view_assign true fuel v [0%N] src (@nil nat) = UB.
Proof. exact empty_view_undefined. Qed.
Print Assumptions C17_empty_refuted.
