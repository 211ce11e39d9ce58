(** Elements of arrays and views, addressed by multi-indices. *)
From Verif Require Import Base ShapeModel ShapeSpec ViewModel.

(** Shapes of real arrays: at least one dimension, no zero extent, fewer than 2^32 elements. *)
Definition dense (s : list N) : Prop := s <> [] /\ positive s /\ (prod s < 2 ^ 32)%N.

(** Element [idx] of the array with shape [s] stored row-major in [m]. *)
Definition element {A} (s : list N) (m : list A) (idx : list N) : option A :=
  nth_error m (N.to_nat (position idx s)).

(** The cell of the referenced storage that element [idx] of a view denotes. *)
Definition cell (v : view) (idx : list N) : Z := (v_offset v + Z.of_N (dot_stride idx (v_stride v)))%Z.

(** Element [idx] of the view into storage [m]. *)
Definition view_element {A} (v : view) (m : list A) (idx : list N) : option A :=
  if (cell v idx <? 0)%Z then None else nth_error m (Z.to_nat (cell v idx)).

(** Well-formed views: strides that do not wrap 32 bits, all cells inside the storage. *)
Definition view_ok {A} (v : view) (m : list A) : Prop :=
  positive (v_shape v) /\ fits (v_shape v) /\
  Forall2 (fun e k => ((e - 1) * k < 2 ^ 32)%N) (v_shape v) (v_stride v) /\
  forall idx, in_range idx (v_shape v) -> (0 <= cell v idx < Z.of_nat (length m))%Z.

(** Different elements of the view are different cells. *)
Definition view_injective (v : view) : Prop :=
  forall a b, in_range a (v_shape v) -> in_range b (v_shape v) -> cell v a = cell v b -> a = b.
