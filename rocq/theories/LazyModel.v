(** Model of the life of lazy expressions: what an expression object holds, what copying, iterating,
    indexing and assigning it does, and what it reads when it is evaluated later.
    detail::makeFunction (array/operations.hpp l.125-140), Function (array/function.hpp l.148-330),
    ArrayIterator (array/arrayIterator.hpp l.9-60), GeneralArrayView (array/generalArrayView.hpp
    l.40-230 and l.391-429), ArrayContainer::operator[] (array/arrayContainer.hpp l.585-640).

    The objects of a program live in numbered slots that are never reused; a slot holding None is an
    object whose life has ended, and reading it is undefined behaviour. *)
From Coq Require Import List Arith.
From Verif Require Import Base.
Import ListNotations.

Definition prodn (s : list nat) : nat := fold_right Nat.mul 1 s.

Section Lazy.
Context {A : Type}.

(** What an object or an operand is.  makeFunction stores std::tuple<Args...>: an lvalue operand (a named
    array, number, view or expression) is a reference (Args = T &), a temporary is held by value.  A
    Function keeps the shape found when it was made (function.hpp l.251-255).  A view holds a reference
    to its array or expression (createGeneralArrayView( *this )), an offset and a shape; only the row-major
    views that operator[] makes are modelled, so the stride is that of the shape (ViewModel has the
    general decoding). *)
Inductive thing :=
| TArr (s : list nat) (d : list A)
| TNum (x : A)
| TRef (a : nat)
| TView (a : nat) (off : nat) (s : list nat)
| TMap (f : A -> A) (s : list nat) (t : thing)
| TFun (f : A -> A -> A) (s : list nat) (l r : thing).

Definition state := list (option thing).

Definition deref (st : state) (a : nat) : outcome thing :=
  match nth_error st a with Some (Some t) => Ok t | _ => UB end.

(** shape() of an object: arrayContainer.hpp l.690-698, function.hpp l.257-261, generalArrayView.hpp
    l.443-447.  Numbers have none. *)
Definition own_dims (t : thing) : option (list nat) :=
  match t with
  | TArr s _ | TView _ _ s | TMap _ s _ | TFun _ s _ _ => Some s
  | TNum _ | TRef _ => None
  end.
Definition dims (st : state) (t : thing) : outcome (option (list nat)) :=
  match t with TRef a => do o <- deref st a; Ok (own_dims o) | _ => Ok (own_dims t) end.

(** scalar(i): arrayContainer.hpp l.799-803, generalArrayView.hpp l.498-512, function.hpp l.122-129 and
    l.305-317.  [fuel] bounds the length of a chain of references (there are no cycles: a reference is to
    an object made earlier). *)
Fixpoint read (fuel : nat) (st : state) (t : thing) : nat -> outcome A :=
  match fuel with
  | O => fun _ => UB
  | S n =>
      (fix go (t : thing) (i : nat) : outcome A :=
         match t with
         | TArr _ d => rd d i
         | TNum x => Ok x
         | TRef a => do o <- deref st a; read n st o i
         | TView a off _ => do o <- deref st a; read n st o (off + i)
         | TMap f _ u => do x <- go u i; Ok (f x)
         | TFun f _ l r => do x <- go l i; do y <- go r i; Ok (f x y)
         end) t
  end.
Definition read_obj (st : state) (t : thing) (i : nat) : outcome A := read (S (length st)) st t i.

(** Source expressions.  A name is an lvalue; everything else is a temporary.  [Row e k] is e[k]; [Temp s d] is an
    array returned by a function, such as zeros(shape). *)
Inductive sexp :=
| Name (a : nat)
| Lit (x : A)
| Temp (s : list nat) (d : list A)
| Un (f : A -> A) (e : sexp)
| Bin (f : A -> A -> A) (e1 e2 : sexp)
| Row (e : sexp) (k : nat).

(** TypeInfo<Plus...>::getShape, operations.hpp l.64-113: the first array's shape, the others checked. *)
Definition join (asserts : bool) (d1 d2 : option (list nat)) : outcome (option (list nat)) :=
  match d1, d2 with
  | Some s, Some s' =>
      if asserts && negb (if list_eq_dec Nat.eq_dec s s' then true else false) then Throw RangeError
      else Ok (Some s)
  | Some s, None => Ok (Some s)
  | None, d => Ok d
  end.

(** The index-th sub-array of something of shape [s] starting at [off] of slot [a]: generalArrayView.hpp
    l.391-429.  There is no overload for numbers, and a 0-dimensional array has no m_shape[0]. *)
Definition row_of (asserts : bool) (a off : nat) (s : list nat) (k : nat) : outcome thing :=
  match s with
  | [] => UB
  | n :: s' =>
      if asserts && negb (k <? n) then Throw OutOfRange
      else Ok (TView a (off + k * prodn s') s')
  end.

(** Building the object an expression denotes.  Returns the object (TRef a for the lvalue a) and the
    state extended with the temporaries that indexing needed: operator[] of an array or an expression is
    createGeneralArrayView( *this )[k], a view referring to *this even when *this is a temporary
    (function.hpp l.283-286, arrayContainer.hpp l.585-646); operator[] of a view refers to the view's own
    array.  An operator on two numbers is ordinary arithmetic. *)
Fixpoint build (asserts : bool) (st : state) (e : sexp) : outcome (thing * state) :=
  match e with
  | Name a => do _ <- deref st a; Ok (TRef a, st)
  | Lit x => Ok (TNum x, st)
  | Temp s d => Ok (TArr s d, st)
  | Un f e1 =>
      do (t, st1) <- build asserts st e1;
      do d <- dims st1 t;
      match d with
      | Some s => Ok (TMap f s t, st1)
      | None => do x <- read_obj st1 t 0; Ok (TNum (f x), st1)
      end
  | Bin f e1 e2 =>
      do (t1, st1) <- build asserts st e1;
      do (t2, st2) <- build asserts st1 e2;
      do d1 <- dims st2 t1;
      do d2 <- dims st2 t2;
      do d <- join asserts d1 d2;
      match d with
      | Some s => Ok (TFun f s t1 t2, st2)
      | None => do x <- read_obj st2 t1 0; do y <- read_obj st2 t2 0; Ok (TNum (f x y), st2)
      end
  | Row e1 k =>
      do (t, st1) <- build asserts st e1;
      match t with
      | TView a off s => do v <- row_of asserts a off s k; Ok (v, st1)
      | TRef a =>
          do o <- deref st1 a;
          match o with
          | TView b off s => do v <- row_of asserts b off s k; Ok (v, st1)
          | TArr s _ | TMap _ s _ | TFun _ s _ _ => do v <- row_of asserts a 0 s k; Ok (v, st1)
          | TNum _ | TRef _ => UB
          end
      | TArr s _ | TMap _ s _ | TFun _ s _ _ =>
          do v <- row_of asserts (length st1) 0 s k; Ok (v, st1 ++ [Some t])
      | TNum _ => UB
      end
  end.

(** Copy construction: Function's is defaulted (function.hpp l.174), which copies the tuple: references
    stay references, numbers and arrays are copied, and views go through GeneralArrayView's copy
    constructor, which does not copy m_offset (generalArrayView.hpp l.195-200), so it is 0. *)
Fixpoint copied (t : thing) : thing :=
  match t with
  | TView a _ s => TView a 0 s
  | TMap f s u => TMap f s (copied u)
  | TFun f s l r => TFun f s (copied l) (copied r)
  | TArr _ _ | TNum _ | TRef _ => t
  end.

(** The elements of an object in order, as eval() (function.hpp l.288-293) or operator= computes them. *)
Fixpoint collect (f : nat -> outcome A) (l : list nat) : outcome (list A) :=
  match l with [] => Ok [] | i :: l' => do x <- f i; do xs <- collect f l'; Ok (x :: xs) end.
Definition evaluate (st : state) (t : thing) : outcome (list nat * list A) :=
  do d <- dims st t;
  let s := match d with Some s => s | None => [] end in
  do xs <- collect (read_obj st t) (seq 0 (prodn s));
  Ok (s, xs).

(** for (auto x : e): begin() gives ArrayIterator an object copied from *this (function.hpp l.319-327,
    arrayIterator.hpp l.13-17), and *it indexes that copy; here the rows are flattened. *)
Definition iterate (st : state) (t : thing) : outcome (list nat * list A) := evaluate st (copied t).

Definition drop_from (n : nat) (st : state) : state := firstn n st ++ repeat None (length st - n).

(** Statements.  Temporaries die at the end of the full expression. *)
Inductive cmd :=
| DeclArray (s : list nat) (d : list A)     (* Array a = ... *)
| DeclNum (x : A)                           (* double k = x; *)
| DeclAuto (e : sexp)                       (* auto f = e; *)
| DeclEval (e : sexp)                       (* Array a = e;  auto a = (e).eval(); *)
| SetElem (a i : nat) (x : A)               (* a(...) = x;  k = x; *)
| Reassign (a : nat) (s : list nat) (d : list A)  (* a = another array, shape and all *)
| Kill (a : nat).                           (* the scope of a ends *)

Definition put (st : state) (a : nat) (t : option thing) : state := upd st a t.

Definition step (asserts : bool) (c : cmd) (st : state) : outcome state :=
  match c with
  | DeclArray s d => Ok (st ++ [Some (TArr s d)])
  | DeclNum x => Ok (st ++ [Some (TNum x)])
  | DeclAuto (Name a) => do o <- deref st a; Ok (st ++ [Some (copied o)])
  | DeclAuto e =>
      do (t, st1) <- build asserts st e;
      Ok (drop_from (length st) st1 ++ [Some t])
  | DeclEval e =>
      do (t, st1) <- build asserts st e;
      do (s, xs) <- evaluate st1 t;
      Ok (drop_from (length st) st1 ++ [Some (TArr s xs)])
  | SetElem a i x =>
      do o <- deref st a;
      match o with
      | TArr s d => do d' <- wr d i x; Ok (put st a (Some (TArr s d')))
      | TNum _ => Ok (put st a (Some (TNum x)))
      | _ => UB
      end
  | Reassign a s d =>
      do o <- deref st a;
      match o with TArr _ _ => Ok (put st a (Some (TArr s d))) | _ => UB end
  | Kill a => do _ <- deref st a; Ok (put st a None)
  end.

Fixpoint run (asserts : bool) (l : list cmd) (st : state) : outcome state :=
  match l with [] => Ok st | c :: l' => do st' <- step asserts c st; run asserts l' st' end.

(** f = g for two expressions of one type: Function::operator= is defaulted (function.hpp l.181-189) and
    assigns the tuples member by member.  Assigning to a member that is a reference assigns to the object
    it refers to.  View members are left out (GeneralArrayView::operator= writes elements). *)
Fixpoint assign_members (fuel : nat) (st : state) (dst src : thing) : outcome (thing * state) :=
  match fuel with
  | O => UB
  | S n =>
      match dst, src with
      | TNum _, TNum y => Ok (TNum y, st)
      | TArr _ _, TArr s d => Ok (TArr s d, st)
      | TRef a, TRef b =>
          do o <- deref st a;
          do p <- deref st b;
          do (o', st') <- assign_members n st o p;
          Ok (TRef a, put st' a (Some o'))
      | TMap f _ t, TMap _ s u => do (t', st') <- assign_members n st t u; Ok (TMap f s t', st')
      | TFun f _ l r, TFun _ s l2 r2 =>
          do (l', st1) <- assign_members n st l l2;
          do (r', st2) <- assign_members n st1 r r2;
          Ok (TFun f s l' r', st2)
      | _, _ => UB
      end
  end.
Definition assign_expr (fuel : nat) (st : state) (f g : nat) : outcome state :=
  do o <- deref st f;
  do p <- deref st g;
  do (o', st') <- assign_members fuel st o p;
  Ok (put st' f (Some o')).

End Lazy.
Arguments thing : clear implicits.
Arguments sexp : clear implicits.
Arguments cmd : clear implicits.
Arguments state : clear implicits.
