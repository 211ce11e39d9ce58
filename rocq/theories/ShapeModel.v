(** Model of librapid/include/librapid/array/shape.hpp and array/strideTools.hpp.

    Extents are [uint32_t] (represented by [N]; constructors reduce modulo 2^32), [size_t] is 64 bit.
    A [Shape] is the list of its first m_dims entries of m_data (capacity LIBRAPID_MAX_ARRAY_DIMS = 16,
    core/config.hpp l.482-484); entries beyond m_dims are never observable. *)
From Verif Require Import Base.

Definition MaxDimensions : nat := 16.
Definition u32 (x : N) : N := (x mod 2 ^ 32)%N.
Definition u64 (x : N) : N := (x mod 2 ^ 64)%N.

Definition shape := list N.

(** LIBRAPID_ASSERT_WITH_EXCEPTION(e, cond): checked only when assertions are compiled in. *)
Definition check (asserts : bool) (e : exn) (cond : bool) : outcome unit :=
  if asserts && negb cond then Throw e else Ok tt.

(** Shape(initializer_list) / Shape(vector) / assignments, l.286-296, 308-320.  The number of values
    is not checked: the 17th value is written past m_data. *)
Definition of_values (vals : list N) : outcome shape :=
  if length vals <=? MaxDimensions then Ok (map u32 vals) else UB.

(** Shape::zeros / ones, l.322-334 *)
Definition zeros (dims : nat) : outcome shape := of_values (repeat 0%N dims).
Definition ones (dims : nat) : outcome shape := of_values (repeat 1%N dims).

(** Shape::operator[], l.336-363.  Without assertions an index in [m_dims, 16) reads an unused entry;
    it is treated as undefined here. *)
Definition extent (asserts : bool) (s : shape) (i : Z) : outcome N :=
  do _ <- check asserts OutOfRange (i <? Z.of_nat (length s))%Z;
  do _ <- check asserts OutOfRange (0 <=? i)%Z;
  if (i <? 0)%Z then UB else rd s (Z.to_nat i).

(** Shape::operator==, l.365-371 *)
Fixpoint entries_eqb (a b : shape) : bool :=
  match a, b with
  | x :: a', y :: b' => (x =? y)%N && entries_eqb a' b'
  | _, _ => true
  end.
Definition shape_eqb (a b : shape) : bool := (length a =? length b) && entries_eqb a b.

(** Shape::subshape, l.379-403 *)
Definition subshape (asserts : bool) (s : shape) (start0 end0 : Z) : outcome shape :=
  let start := if (start0 <? 0)%Z then 0%Z else start0 in
  let end_ := if (end0 <? 0)%Z then Z.of_nat (length s) else end0 in
  do _ <- check asserts RangeError (start <=? end_)%Z;
  do _ <- check asserts OutOfRange (end_ <=? Z.of_nat (length s))%Z;
  do _ <- check asserts OutOfRange (0 <=? start)%Z;
  (* without assertions a bad range copies unused entries (or none); modelled as undefined *)
  if ((start <=? end_) && (end_ <=? Z.of_nat (length s)))%Z
  then Ok (firstn (Z.to_nat (end_ - start)) (skipn (Z.to_nat start) s)) else UB.

(** Shape::size, l.405-409 *)
Definition size (s : shape) : N := fold_left (fun r e => u64 (r * e)) s 1%N.

(** ** MatrixShape: m_rows, m_cols *)
Definition mshape := (N * N)%type.
(** MatrixShape(initializer_list / vector), l.426-459 and the assignments l.479-519 *)
Definition m_of_values (asserts : bool) (vals : list N) : outcome mshape :=
  do _ <- check asserts InvalidArgument (length vals <=? 2);
  match vals with
  | [r; c] => Ok (u32 r, u32 c)
  | [r] => Ok (u32 r, 1%N)
  | _ => Ok (0%N, 0%N)
  end.
(** MatrixShape(const Shape &), l.461-477 *)
Definition m_of_shape (asserts : bool) (s : shape) : outcome mshape :=
  do _ <- check asserts InvalidArgument (length s <=? 2);
  match s with
  | [r; c] => Ok (r, c)
  | [r] => Ok (r, 1%N)
  | _ => Ok (0%N, 0%N)
  end.
(** Shape(const MatrixShape &), l.298-302 *)
Definition of_m (m : mshape) : shape := [fst m; snd m].
(** MatrixShape::operator[], l.532-556 *)
Definition m_extent (asserts : bool) (m : mshape) (i : Z) : outcome N :=
  do _ <- check asserts OutOfRange (i <? 2)%Z;
  do _ <- check asserts OutOfRange (0 <=? i)%Z;
  Ok (if (i =? 0)%Z then fst m else snd m).
(** MatrixShape::subshape, l.560-580 *)
Definition m_subshape (asserts : bool) (m : mshape) (start end_ : Z) : outcome shape :=
  do _ <- check asserts InvalidArgument (start <=? end_)%Z;
  do _ <- check asserts OutOfRange (end_ <=? 2)%Z;
  do _ <- check asserts OutOfRange (0 <=? start)%Z;
  subshape asserts (of_m m) start end_.
(** MatrixShape::size, l.582: uint32_t * uint32_t, widened after the multiplication *)
Definition m_size (m : mshape) : N := u32 (fst m * snd m).

(** ** VectorShape: m_elements *)
Definition vshape := N.
(** VectorShape(initializer_list / vector), l.597-618 *)
Definition v_of_values (asserts : bool) (vals : list N) : outcome vshape :=
  do _ <- check asserts InvalidArgument (length vals =? 1);
  match vals with v :: _ => Ok (u32 v) | [] => UB end.
(** VectorShape(const Shape &), l.620-627 *)
Definition v_of_shape (asserts : bool) (s : shape) : outcome vshape :=
  do _ <- check asserts InvalidArgument (length s =? 1);
  extent asserts s 0.
(** Shape(const VectorShape &), l.304-307 *)
Definition of_v (v : vshape) : shape := [v].
(** VectorShape::subshape, l.686-703 *)
Definition v_subshape (asserts : bool) (v : vshape) (start end_ : Z) : outcome shape :=
  do _ <- check asserts InvalidArgument (start <=? end_)%Z;
  do _ <- check asserts RangeError (end_ <=? 1)%Z;
  do _ <- check asserts RangeError (0 <=? start)%Z;
  zeros 1.
(** VectorShape::size, l.705 *)
Definition v_size (v : vshape) : N := v.

(** Comparisons between the three types, l.715-775; MatrixShape == MatrixShape and
    VectorShape == VectorShape compare the members. *)
Inductive anyshape := S_ (s : shape) | M_ (m : mshape) | V_ (v : vshape).
Definition any_eqb (a b : anyshape) : bool :=
  match a, b with
  | S_ s, S_ t => shape_eqb s t
  | S_ s, M_ m | M_ m, S_ s =>
      match s with [r; c] => (r =? fst m)%N && (c =? snd m)%N | _ => false end
  | S_ s, V_ v | V_ v, S_ s => match s with [x] => (x =? v)%N | _ => false end
  | M_ m, V_ _ | V_ _, M_ m => false
  | M_ m, M_ m' => (fst m =? fst m')%N && (snd m =? snd m')%N
  | V_ v, V_ v' => (v =? v')%N
  end.
Definition any_size (a : anyshape) : N :=
  match a with S_ s => size s | M_ m => m_size m | V_ v => v_size v end.

(** shapesMatch on a tuple, l.796-818: compares the first two, then recurses on the rest. *)
Fixpoint shapesMatch (l : list anyshape) : bool :=
  match l with
  | a :: (b :: rest) =>
      match rest with [] => any_eqb a b | _ => any_eqb a b && shapesMatch rest end
  | _ => true
  end.

(** Stride(const ShapeType &), strideTools.hpp l.88-99.  tmp is filled from the back with 32-bit
    products. *)
Fixpoint stride_tmp (s : shape) : list N :=
  match s with
  | [] => []
  | _ :: s' => match s' with
               | [] => [1%N]
               | e :: _ => let t := stride_tmp s' in u32 (hd 0%N t * e) :: t
               end
  end.
Definition stride (s : shape) : outcome (list N) :=
  if (size s =? 0)%N then wr s 0 1%N
  else match s with
       | [] => UB                      (* tmp[ndim() - 1] is tmp[-1] *)
       | _ => Ok (stride_tmp s)
       end.
