(** Model of array/generalArrayView.hpp, array/arrayIterator.hpp and the element access of
    array/arrayContainer.hpp.

    The referenced array is its flat storage (a list).  An access outside the storage is [UB] (with
    assertions compiled in, Storage::operator[] would report it instead; theorems prove [Ok]).
    Offsets and positions are int64_t, modelled by [Z] without overflow; extents and strides are
    uint32_t and their products wrap as in C++. *)
From Verif Require Import Base ShapeModel.

Section View.
Context {A : Type}.

Definition rdz (m : list A) (p : Z) : outcome A := if (p <? 0)%Z then UB else rd m (Z.to_nat p).
Definition wrz (m : list A) (p : Z) (v : A) : outcome (list A) :=
  if (p <? 0)%Z then UB else wr m (Z.to_nat p) v.

(** ** ArrayContainer::operator()(indices...), arrayContainer.hpp l.681-731: the flat position. *)
Fixpoint horner (asserts : bool) (s : shape) (dim : nat) (idx : list Z) (index : Z) : outcome Z :=
  match idx with
  | [] => Ok index
  | i :: idx' =>
      do e <- extent asserts s (Z.of_nat dim);
      do _ <- check asserts OutOfRange ((0 <=? i) && (i <? Z.of_N e))%Z;
      horner asserts s (dim + 1) idx' (index * Z.of_N e + i)%Z
  end.
Definition call_position (asserts : bool) (s : shape) (idx : list Z) : outcome Z :=
  do _ <- check asserts InvalidArgument (length s =? length idx);
  horner asserts s 0 idx 0%Z.
(** reading array(i...) and array(i...) = v *)
Definition call_get (asserts : bool) (s : shape) (m : list A) (idx : list Z) : outcome A :=
  do p <- call_position asserts s idx; rdz m p.
Definition call_set (asserts : bool) (s : shape) (m : list A) (idx : list Z) (v : A) : outcome (list A) :=
  do p <- call_position asserts s idx; wrz m p v.

(** ** GeneralArrayView: m_shape, m_stride, m_offset; m_ref is passed as the memory. *)
Record view := { v_shape : shape; v_stride : list N; v_offset : Z }.

(** GeneralArrayView(ArrayViewType &&), l.191-196 *)
Definition of_array (s : shape) : outcome view :=
  do st <- stride s; Ok {| v_shape := s; v_stride := st; v_offset := 0 |}.
(** copy constructor, l.198-203: m_offset keeps its default 0 *)
Definition copy_ctor (v : view) : view :=
  {| v_shape := v_shape v; v_stride := v_stride v; v_offset := 0 |}.
(** move constructor, l.205-210 *)
Definition move_ctor (v : view) : view := v.

(** Stride::substride, strideTools.hpp l.112-120 *)
Definition substride (asserts : bool) (st : list N) (start end_ : Z) : outcome (list N) :=
  do _ <- check asserts RuntimeError (start <? end_)%Z;
  do _ <- check asserts RuntimeError (end_ <=? Z.of_nat (length st))%Z;
  subshape asserts st start end_.

(** operator[], l.391-429 (the result is returned by move).  The assertion reads m_shape[0]. *)
Definition index (asserts : bool) (v : view) (i : Z) : outcome view :=
  let s := v_shape v in
  do _ <- (if asserts then do e <- extent true s 0;
                           check true OutOfRange ((0 <=? i) && (i <? Z.of_N e))%Z
           else Ok tt);
  do st <- stride s;
  do s' <- subshape asserts s 1 (Z.of_nat (length s));
  do st' <- (if length s =? 1 then Ok [1%N] else substride asserts st 1 (Z.of_nat (length s)));
  do k <- extent asserts st 0;
  Ok {| v_shape := s'; v_stride := st'; v_offset := (v_offset v + i * Z.of_N k)%Z |}.

(** view[i0][i1]...[ik] *)
Fixpoint index_chain (asserts : bool) (v : view) (idx : list Z) : outcome view :=
  match idx with
  | [] => Ok v
  | i :: idx' => do w <- index asserts v i; index_chain asserts w idx'
  end.
(** array[i0][i1]...[ik]: ArrayContainer::operator[], arrayContainer.hpp l.585-643, then the view's *)
Definition array_chain (asserts : bool) (s : shape) (idx : list Z) : outcome view :=
  do v <- of_array s; index_chain asserts v idx.

(** scalar(index), l.498-512.  [digits] is the loop computing tmp, last dimension first. *)
Fixpoint digits (rs : list N) (index : N) : outcome (list N) :=
  match rs with
  | [] => Ok []
  | e :: rs' => if (e =? 0)%N then UB      (* % 0 *)
                else do t <- digits rs' (index / e)%N; Ok (t ++ [(index mod e)%N])
  end.
Fixpoint offset_sum (tmp st : list N) : Z :=
  match tmp, st with
  | t :: tmp', k :: st' => (Z.of_N (u32 (t * k)) + offset_sum tmp' st')%Z
  | _, _ => 0%Z
  end.
Definition view_scalar (v : view) (m : list A) (i : N) : outcome A :=
  match v_shape v with
  | [] => rdz m (v_offset v)
  | _ => do tmp <- digits (rev (v_shape v)) i;
         rdz m (v_offset v + offset_sum tmp (v_stride v))%Z
  end.

(** get(), l.431-440, and assignment of a scalar, l.212-221 *)
Definition view_get (asserts : bool) (v : view) (m : list A) : outcome A :=
  do _ <- check asserts InvalidArgument (length (v_shape v) =? 0); view_scalar v m 0.
Definition view_set (asserts : bool) (v : view) (m : list A) (x : A) : outcome (list A) :=
  do _ <- check asserts InvalidArgument (length (v_shape v) =? 0); wrz m (v_offset v) x.

(** One step of the counter shared by operator= and eval, e.g. l.238-247: extents, strides and
    counters are listed last dimension first.  The flag says that every dimension wrapped. *)
Fixpoint odo_step (ext st coord : list N) (p : Z) : list N * Z * bool :=
  match ext, st, coord with
  | e :: ext', k :: st', c :: coord' =>
      if (u32 (c + 1) =? e)%N then
        let '(coord'', p', fin) :=
          odo_step ext' st' coord' (p - Z.of_N (u32 (u32 (e + 2 ^ 32 - 1) * k)))%Z in
        (0%N :: coord'', p', fin)
      else (u32 (c + 1) :: coord', (p + Z.of_N k)%Z, false)
  | _, _, _ => ([], p, true)
  end.

(** The do-while loop.  [fuel] bounds the number of iterations (running out is UB in the model, so a
    theorem concluding [Ok] has enough); [body d p m] is the copy of element d. *)
Fixpoint odometer (fuel : nat) (ext st coord : list N) (p : Z) (d : N)
    (body : N -> Z -> list A -> outcome (list A)) (m : list A) : outcome (list A) :=
  match fuel with
  | O => UB
  | S f =>
      do m' <- body d p m;
      let '(coord', p', fin) := odo_step ext st coord p in
      if fin then Ok m' else odometer f ext st coord' p' (d + 1)%N body m'
  end.

(** operator=(view / array / Function / Transpose / ArrayMultiply), l.223-389.  [src m d] is
    other.scalar(d), which may read the memory being written. *)
Definition view_assign (asserts : bool) (fuel : nat) (v : view) (src_shape : shape)
    (src : list A -> N -> outcome A) (m : list A) : outcome (list A) :=
  do _ <- check asserts RangeError (shape_eqb (v_shape v) src_shape);
  odometer fuel (rev (v_shape v)) (rev (v_stride v)) (repeat 0%N (length (v_shape v))) 0 0
    (fun d p m => do x <- src m d; wrz m (p + v_offset v)%Z x) m.

(** eval(), l.546-571: [res] is the freshly allocated storage of size() elements. *)
Definition view_eval (fuel : nat) (v : view) (m : list A) (res : list A) : outcome (list A) :=
  odometer fuel (rev (v_shape v)) (rev (v_stride v)) (repeat 0%N (length (v_shape v))) 0 0
    (fun d p res => do x <- rdz m (p + v_offset v)%Z; wrz res (Z.of_N d) x) res.

(** ** Iteration: ArrayIterator, arrayIterator.hpp; begin()/end(). *)
Fixpoint collect {B} (f : nat -> outcome (list B)) (n start : nat) : outcome (list B) :=
  match n with
  | O => Ok []
  | S n' => do x <- f start; do xs <- collect f n' (start + 1); Ok (x ++ xs)
  end.
(** for (auto x : view) for (auto y : x) ... reading the scalars at depth [depth].  The iterator
    stores a copy of the view (l.573-583, arrayIterator.hpp l.55-57). *)
Fixpoint visit_view (asserts : bool) (depth : nat) (v : view) (m : list A) : outcome (list A) :=
  match depth with
  | O => do x <- view_get asserts v m; Ok [x]
  | S depth' =>
      do e <- extent asserts (v_shape v) 0;
      collect (fun i => do w <- index asserts (copy_ctor v) (Z.of_nat i);
                        visit_view asserts depth' w m) (N.to_nat e) 0
  end.
(** The outermost loop is over the array: arrayContainer.hpp l.915-935, the view is moved. *)
Definition visit_array (asserts : bool) (s : shape) (m : list A) : outcome (list A) :=
  do v <- of_array s;
  do e <- extent asserts s 0;
  collect (fun i => do w <- index asserts (move_ctor v) (Z.of_nat i);
                    visit_view asserts (length s - 1) w m) (N.to_nat e) 0.
End View.
