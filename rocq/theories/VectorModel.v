(** Model of the fixed-size Vector class.
    Sources: librapid/include/librapid/math/vectorImpl.hpp, vectorForward.hpp.
    A Vector<T, N> stores its elements in packets of [w] lanes: w = packetWidth for SIMD types
    (SimdVectorStorage), w = 1 for the others (GenericVectorStorage); vectorForward.hpp l.12-16.
    The lanes after element N-1 are padding.  A default-constructed SimdVectorStorage leaves its
    lanes uninitialised (l.303-310): their contents are the parameter [junk] below, any values.
    GenericVectorStorage zero-initialises (l.186-189): its junk is zeros, and it has no padding.
    Simplification: all operands of an expression have the same scalar type (mixed scalar types
    are first cast, l.890-896). *)
From Verif Require Import Base.

Section Vector.
Context {A : Type}.
(** packetWidth *)
Variable w : nat.
(** whether LIBRAPID_ASSERT is active *)
Variable asserts : bool.

Record vec := mkv { dims : nat; cells : list A }.

(** length = (dims + packetWidth - 1) / packetWidth, l.277, 294 *)
Definition packets (d : nat) : nat := (d + w - 1) / w.

(** SimdVectorStorage / GenericVectorStorage operator[], l.222-237, 332-347 *)
Definition at_ (v : vec) (i : nat) : outcome A :=
  if asserts && negb (i <? dims v) then Throw RuntimeError
  else if i <? dims v then rd (cells v) i else UB.
Definition put (v : vec) (i : nat) (a : A) : outcome vec :=
  if asserts && negb (i <? dims v) then Throw RuntimeError
  else if i <? dims v then do c <- wr (cells v) i a; Ok (mkv (dims v) c) else UB.

(** _get and _set, l.251-265, 363-377: packet [i]; the assertion compares with dims *)
Definition get (v : vec) (i : nat) : outcome (list A) :=
  if asserts && negb (i <? dims v) then Throw RuntimeError
  else if i <? packets (dims v) then Ok (firstn w (skipn (i * w) (cells v))) else UB.
Definition set (v : vec) (i : nat) (p : list A) : outcome vec :=
  if asserts && negb (i <? dims v) then Throw RuntimeError
  else if i <? packets (dims v)
  then Ok (mkv (dims v) (firstn (i * w) (cells v) ++ p ++ skipn (i * w + w) (cells v)))
  else UB.

(** Vector ret; (l.303, 487) *)
Definition fresh (d : nat) (junk : list A) : vec := mkv d junk.

(** Construction from values: l.192-220, 305-330 (variadic, initializer_list, std::vector) *)
Definition of_list (d : nat) (junk : list A) (args : list A) : outcome vec :=
  if asserts && (d <? length args) then Throw RuntimeError
  else for_range 0 (Nat.min (length args) d)
         (fun i v => do a <- rd args i; put v i a) (fresh d junk).

(** Vector(value), one(), full(value), operator=(value): l.492-494, 523-533, 567-570 *)
Definition fill (v : vec) (a : A) : outcome vec :=
  for_range 0 (dims v) (fun i v => put v i a) v.

(** Lazy expressions, l.671-788: a vector, a scalar, a binary or unary operation.  An operation
    on one lane may have undefined behaviour (integer division by zero, shifts). *)
Inductive expr :=
| V (v : vec)
| K (a : A)
| Bin (f : A -> A -> outcome A) (l r : expr)
| Un (f : A -> outcome A) (e : expr).

(** dims of an expression: that of the left operand unless it is a scalar,
    vectorForward.hpp l.18-34, vectorImpl.hpp l.676-678, 733-735 *)
Fixpoint edims (e : expr) : option nat :=
  match e with
  | V v => Some (dims v)
  | K _ => None
  | Bin _ l r => match edims l with Some d => Some d | None => edims r end
  | Un _ e => edims e
  end.

(** operator[] of an expression: l.380-402, 712-718, 767-774 *)
Fixpoint eat (e : expr) (i : nat) : outcome A :=
  match e with
  | V v => at_ v i
  | K a => Ok a
  | Bin f l r => do x <- eat l i; do y <- eat r i; f x y
  | Un f e => do x <- eat e i; f x
  end.

(** An operation on packets acts lane by lane. *)
Fixpoint lanes1 (f : A -> outcome A) (p : list A) : outcome (list A) :=
  match p with
  | [] => Ok []
  | x :: p' => do z <- f x; do r <- lanes1 f p'; Ok (z :: r)
  end.
Fixpoint lanes2 (f : A -> A -> outcome A) (p q : list A) : outcome (list A) :=
  match p, q with
  | x :: p', y :: q' => do z <- f x y; do r <- lanes2 f p' q'; Ok (z :: r)
  | _, _ => Ok []
  end.

(** _get of an expression: l.404-434, 725-727, 785-787; a scalar operand is broadcast *)
Fixpoint eget (e : expr) (i : nat) : outcome (list A) :=
  match e with
  | V v => get v i
  | K a => Ok (repeat a w)
  | Bin f l r => do x <- eget l i; do y <- eget r i; lanes2 f x y
  | Un f e => do x <- eget e i; lanes1 f x
  end.

(** vectorDetail::assign for equal scalar types, l.790-835 *)
Definition assign (dst : vec) (e : expr) : outcome vec :=
  let lengthSrc := match edims e with Some d => packets d | None => 0 end in
  let minLength := Nat.min (packets (dims dst)) lengthSrc in
  for_range 0 minLength (fun i v => do p <- eget e i; set v i p) dst.

(** eval() and the constructor from an expression: l.511-519, 697-700, 752-755 *)
Definition eval (junk : list A) (e : expr) : outcome vec :=
  match edims e with
  | Some d => assign (fresh d junk) e
  | None => UB
  end.

(** The in-place operators, l.616-631.  The expression holds a copy of [*this] (l.683). *)
Definition inplace (f : A -> A -> outcome A) (v : vec) (e : expr) : outcome vec :=
  assign v (Bin f (V v) e).

(** Vector::cast to [d] dimensions with the same scalar type, l.601-609.
    Generic storage (w = 1): element by element up to the smaller size, l.124-129.
    SIMD storage: all the packets of the destination, l.145-166. *)
Definition cast_generic (v : vec) (d : nat) (junk : list A) : outcome vec :=
  for_range 0 (Nat.min d (dims v)) (fun i r => do a <- at_ v i; put r i a) (fresh d junk).
Definition cast_simd (v : vec) (d : nat) (junk : list A) : outcome vec :=
  for_range 0 (packets d) (fun i r =>
    if i <? packets (dims v)
    then Ok (mkv (dims r) (firstn (i * w) (cells r) ++ firstn w (skipn (i * w) (cells v))
                           ++ skipn (i * w + w) (cells r)))
    else UB) (fresh d junk).

(** Reductions.  [zero], [add], [mul] are the scalar 0, + and *.  The order in which
    xsimd::reduce_add adds the lanes is not specified; left to right here. *)
Variable zero : A.
Variable add mul : A -> A -> A.
Definition reduce_add (p : list A) : A := fold_left add p zero.
Definition plus2 (p q : list A) : list A := map (fun xy => add (fst xy) (snd xy)) (combine p q).
Definition times2 (p q : list A) : list A := map (fun xy => mul (fst xy) (snd xy)) (combine p q).
Definition packet (v : vec) (i : nat) : outcome (list A) :=
  if i <? packets (dims v) then Ok (firstn w (skipn (i * w) (cells v))) else UB.

(** SimdVectorStorage::sum and sum2, l.349-361; with w = 1 GenericVectorStorage::sum and sum2,
    l.239-249 *)
Definition ssum (v : vec) : outcome A :=
  do s <- for_range 0 (packets (dims v))
            (fun i s => do p <- packet v i; Ok (plus2 s p)) (repeat zero w);
  Ok (reduce_add s).
Definition ssum2 (v : vec) : outcome A :=
  do s <- for_range 0 (packets (dims v))
            (fun i s => do p <- packet v i; Ok (plus2 s (times2 p p))) (repeat zero w);
  Ok (reduce_add s).

(** sum(val), mag2(val), dot(first, second): l.1008-1030 *)
Definition vsum (junk : list A) (e : expr) : outcome A := do v <- eval junk e; ssum v.
Definition mag2 (junk : list A) (e : expr) : outcome A := do v <- eval junk e; ssum2 v.
Definition dot (junk : list A) (l r : expr) : outcome A :=
  vsum junk (Bin (fun x y => Ok (mul x y)) l r).

(** cross, l.1032-1050 *)
Variable sub : A -> A -> A.
Definition cross (junk : list A) (first second : expr) : outcome vec :=
  if asserts && negb (match edims first, edims second with
                      | Some a, Some b => (a =? 3) && (b =? 3) | _, _ => false end)
  then Throw RuntimeError
  else
    do x1 <- eat first 0; do y1 <- eat first 1; do z1 <- eat first 2;
    do x2 <- eat second 0; do y2 <- eat second 1; do z2 <- eat second 2;
    of_list 3 junk [sub (mul y1 z2) (mul z1 y2); sub (mul z1 x2) (mul x1 z2);
                    sub (mul x1 y2) (mul y1 x2)].

(** norm(val) = val / mag(val), l.1052-1056; [div] and [root] are scalar / and sqrt *)
Variable div : A -> A -> A.
Variable root : A -> A.
Definition norm (junk junk' : list A) (e : expr) : outcome vec :=
  do m <- mag2 junk e;
  eval junk' (Bin (fun x y => Ok (div x y)) e (K (root m))).

(** fromPolar, l.553-562 *)
Variable cosine sine : A -> A.
Definition fromPolar2 (junk : list A) (r theta : A) : outcome vec :=
  of_list 2 junk [mul (cosine theta) r; mul (sine theta) r].
Definition fromPolar3 (junk : list A) (r theta phi : A) : outcome vec :=
  of_list 3 junk [mul (mul (cosine theta) (cosine phi)) r; mul (mul (sine theta) (cosine phi)) r;
                  mul (sine phi) r].

(** Vector::str, l.643-651: the pieces of text written *)
Inductive piece := Open | Elem (a : A) | Comma | Close.
Definition str (v : vec) : outcome (list piece) :=
  do out <- for_range 0 (dims v) (fun i out =>
    do a <- at_ v i;
    Ok (out ++ [Elem a] ++ (if i =? dims v - 1 then [] else [Comma]))) [Open];
  Ok (out ++ [Close]).
End Vector.
Arguments vec : clear implicits.
Arguments expr : clear implicits.
