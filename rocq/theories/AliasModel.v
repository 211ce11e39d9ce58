(** Model of assignments whose right-hand side mentions the destination (a = a + transpose(a), a = a[1],
    a[0] = a[0] * a[1], a = dot(a, b), ...): ArrayContainer::operator= (array/arrayContainer.hpp
    l.486-555), detail::assign (assignOps.hpp l.16-66), Transpose (linalg/transpose.hpp l.584-704),
    GeneralArrayView::operator= (generalArrayView.hpp l.223-389), ArrayMultiply (linalg/arrayMultiply.hpp).

    Arrays live in a store indexed by names; every operand reads the store at the moment the C++ code
    reads it.  Lazy transposes and views switch vectorisation off (TypeInfo, transpose.hpp l.13,
    generalArrayView.hpp l.15), so the loops here are the scalar ones; AssignModel has the packets. *)
From Verif Require Import Base ShapeModel ViewModel TransposeModel MatmulModel.
From Verif Require AssignModel.

Section Alias.
Context {A : Type}.
Variable mul : A -> A -> A.
Local Notation arr := (shape * list A)%type.

Definition store := nat -> arr.
Definition set_arr (st : store) (id : nat) (a : arr) : store := fun j => if j =? id then a else st j.

(** Lazy expressions.  A named array is held by reference (makeFunction, operations.hpp l.136-140:
    Args = Array &), a view object refers to its array (generalArrayView.hpp l.183).  A Transpose
    remembers the shape its operand had when it was made (transpose.hpp l.584-596); only matrices. *)
Inductive expr :=
| EArr (id : nat)
| EView (id : nat) (v : view)
| EScalar (x : A)
| EUn (f : A -> A) (e : expr)
| EBin (f : A -> A -> A) (e1 e2 : expr)
| ETrans (rows cols : nat) (e : expr) (alpha : A).

(** The shape found when the expression is built: getShape, operations.hpp l.64-113.  Scalars have none. *)
Fixpoint eshape (asserts : bool) (st : store) (e : expr) : outcome (option shape) :=
  match e with
  | EArr id => Ok (Some (fst (st id)))
  | EView _ v => Ok (Some (v_shape v))
  | EScalar _ => Ok None
  | EUn _ a => eshape asserts st a
  | EBin _ a b =>
      do x <- eshape asserts st a;
      do y <- eshape asserts st b;
      match x, y with
      | Some s, Some t => do _ <- check asserts RangeError (shape_eqb s t); Ok (Some s)
      | Some s, None => Ok (Some s)
      | None, r => Ok r
      end
  | ETrans rows cols _ _ => Ok (Some [N.of_nat cols; N.of_nat rows])
  end.

Fixpoint mapM {B C} (f : B -> outcome C) (l : list B) : outcome (list C) :=
  match l with [] => Ok [] | x :: l' => do y <- f x; do ys <- mapM f l'; Ok (y :: ys) end.

(** scalar(index): arrays arrayContainer.hpp l.799-803, views generalArrayView.hpp l.498-512, functions
    function.hpp l.305-317.  Transpose::scalar (transpose.hpp l.613-617) evaluates the whole transpose
    (eval, l.692-704) from what its operand holds at that moment, then picks one element; an operand that
    is not an array is first evaluated into a temporary.  [b] is the block size, [junk] new storage. *)
Fixpoint scalar (b : nat) (junk : nat -> A) (st : store) (e : expr) (i : nat) : outcome A :=
  match e with
  | EArr id => rd (snd (st id)) i
  | EView id v => view_scalar v (snd (st id)) (N.of_nat i)
  | EScalar x => Ok x
  | EUn f a => do x <- scalar b junk st a i; Ok (f x)
  | EBin f a c => do x <- scalar b junk st a i; do y <- scalar b junk st c i; Ok (f x y)
  | ETrans rows cols a alpha =>
      do inp <- match a with
                | EArr id => Ok (snd (st id))
                | _ => mapM (fun k => scalar b junk st a k) (seq 0 (rows * cols))
                end;
      do out <- transposeImpl mul rows cols b alpha inp (map junk (seq 0 (cols * rows)));
      rd out i
  end.

(** array = function, arrayContainer.hpp l.486-504 with assignOps.hpp l.20-66 and l.140-192 (not
    vectorised).  [sched] is the order of the iterations (0, 1, 2, ... in the serial loop). *)
Definition assign_fn (asserts : bool) (b : nat) (junk : nat -> A) (sched : list nat) (lhs : nat) (e : expr) (st : store)
    : outcome store :=
  do os <- eshape asserts st e;
  match os with
  | None => UB                                (* no such overload *)
  | Some s =>
      do d <- AssignModel.resize_discard asserts junk (snd (st lhs)) (N.to_nat (size s));
      do _ <- check asserts RangeError (shape_eqb (fst (st lhs)) s);
      for_list sched (fun i st =>
          do x <- scalar b junk st e i;
          do d <- wr (snd (st lhs)) i x;
          Ok (set_arr st lhs (fst (st lhs), d))) (set_arr st lhs (fst (st lhs), d))
  end.
(** array += e and its relatives, l.833-911: *this = *this op value *)
Definition assign_op (asserts : bool) (b : nat) (junk : nat -> A) (sched : list nat) (f : A -> A -> A) (lhs : nat) (e : expr)
    (st : store) : outcome store :=
  assign_fn asserts b junk sched lhs (EBin f (EArr lhs) e) st.

(** array = transpose(src) * alpha, arrayContainer.hpp l.522-531 and applyTo, transpose.hpp l.641-690: the
    shape and the storage of the destination change first; then the addresses are compared, in an
    assertion only.  The stores are those of TransposeModel (generic routine, in the order [sched]); the
    __restrict qualifiers are ignored: without assertions an aliased call is taken as plain loads and
    stores. *)
Definition assign_transpose (asserts : bool) (b : nat) (junk : nat -> A) (sched : nat -> nat -> list op) (lhs src : nat) (alpha : A)
    (st : store) : outcome store :=
  match fst (st src) with
  | [rows; cols] =>
      let s := [cols; rows] in
      let r := N.to_nat rows in let c := N.to_nat cols in
      do d <- AssignModel.resize_discard asserts junk (snd (st lhs)) (N.to_nat (size s));
      do _ <- check asserts RuntimeError (negb (lhs =? src));
      for_list (sched r c) (fun o st =>
          do d <- perform mul r c b (fun _ => []) true alpha (snd (st src)) o (snd (st lhs));
          Ok (set_arr st lhs (s, d))) (set_arr st lhs (s, d))
  | _ => Throw NotImplemented
  end.

(** array = view of src, arrayContainer.hpp l.546-555: shape and storage change first *)
Definition assign_view (asserts : bool) (junk : nat -> A) (lhs src : nat) (v : view) (st : store) : outcome store :=
  let s := v_shape v in
  do d <- AssignModel.resize_discard asserts junk (snd (st lhs)) (N.to_nat (size s));
  for_range 0 (N.to_nat (size s)) (fun i st =>
      do x <- view_scalar v (snd (st src)) (N.of_nat i);
      do d <- wr (snd (st lhs)) i x;
      Ok (set_arr st lhs (s, d))) (set_arr st lhs (s, d)).

(** view of array [id] = e, generalArrayView.hpp l.223-389 ([fuel] as in ViewModel) *)
Definition assign_to_view (asserts : bool) (b : nat) (junk : nat -> A) (fuel : nat) (id : nat) (v : view) (e : expr) (st : store)
    : outcome store :=
  do os <- eshape asserts st e;
  match os with
  | None => UB                                (* operator=(const Scalar &): ViewModel.view_set *)
  | Some s =>
      do d <- view_assign asserts fuel v s
                (fun d i => scalar b junk (set_arr st id (fst (st id), d)) e (N.to_nat i)) (snd (st id));
      Ok (set_arr st id (fst (st id), d))
  end.

(** Operands of dot by name; dot copies the arrays when it is called (dotHelper, arrayMultiply.hpp
    l.594-613, make_tuple; the members m_a, m_b, l.172-174, are values). *)
Inductive dexpr :=
| DArr (id : nat)
| DTrans (d : dexpr) (alpha : A)
| DScale (d : dexpr) (alpha : A).
Fixpoint capture (st : store) (d : dexpr) : @lexpr A :=
  match d with
  | DArr id => LArr (st id)
  | DTrans d' alpha => LTrans (capture st d') alpha
  | DScale d' alpha => LScale (capture st d') alpha
  end.
(** array = p where p is a product dot(e1, e2) made earlier, arrayContainer.hpp l.533-544: the destination
    takes the shape and is resized, then applyTo runs on the copies. *)
Definition assign_product (zero one : A) (add : A -> A -> A) (is_zero : A -> bool) (asserts : bool)
    (sched : nat -> nat -> nat -> list (nat * mvstep)) (junk : nat -> A) (lhs : nat) (e1 e2 : @lexpr A) (st : store) : outcome store :=
  let '(ta, alpha, a) := dotHelper one mul e1 in
  let '(tb, beta, b) := dotHelper one mul e2 in
  do s <- calculateShape asserts ta tb (fst a) (fst b);
  do d <- AssignModel.resize_discard asserts junk (snd (st lhs)) (N.to_nat (size s));
  let k (s : shape) (i : nat) := N.to_nat (nth i s 0%N) in
  do r <- applyTo zero one add mul is_zero asserts (sched (k s 0) (k s 1) (k (fst a) (if ta then 0 else 1))) ta tb
            a (mul alpha beta) b zero (s, d);
  Ok (set_arr st lhs r).
(** array = dot(x, y) *)
Definition assign_dot (zero one : A) (add : A -> A -> A) (is_zero : A -> bool) (asserts : bool)
    (sched : nat -> nat -> nat -> list (nat * mvstep)) (junk : nat -> A) (lhs : nat) (x y : dexpr) (st : store) : outcome store :=
  assign_product zero one add is_zero asserts sched junk lhs (capture st x) (capture st y) st.
End Alias.
Arguments store : clear implicits.
Arguments expr : clear implicits.
Arguments dexpr : clear implicits.
