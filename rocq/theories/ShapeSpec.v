(** Extents, products and row-major positions, independent of the model. *)
From Verif Require Import Base ShapeModel.

(** Number of elements: the exact product of the extents. *)
Fixpoint prod (s : list N) : N := match s with [] => 1%N | e :: s' => (e * prod s')%N end.

(** A multi-index within a shape. *)
Definition in_range (idx s : list N) : Prop := Forall2 (fun i e => (i < e)%N) idx s.

(** Row-major position: the last index varies fastest. *)
Fixpoint position (idx s : list N) : N :=
  match idx, s with
  | i :: idx', _ :: s' => (i * prod s' + position idx' s')%N
  | _, _ => 0%N
  end.

(** Sum of index times stride. *)
Fixpoint dot_stride (idx st : list N) : N :=
  match idx, st with
  | i :: idx', k :: st' => (i * k + dot_stride idx' st')%N
  | _, _ => 0%N
  end.

(** Lexicographic order of multi-indices. *)
Fixpoint lex_lt (a b : list N) : Prop :=
  match a, b with
  | x :: a', y :: b' => (x < y)%N \/ (x = y /\ lex_lt a' b')
  | _, _ => False
  end.

(** The extents of any of the three shape types. *)
Definition extents (a : anyshape) : list N :=
  match a with S_ s => s | M_ m => [fst m; snd m] | V_ v => [v] end.

(** Values a uint32_t can hold. *)
Definition fits (s : list N) : Prop := Forall (fun e => (e < 2 ^ 32)%N) s.
Definition positive (s : list N) : Prop := Forall (fun e => (0 < e)%N) s.

Definition all_equal (l : list anyshape) : Prop := forall a b, In a l -> In b l -> extents a = extents b.
