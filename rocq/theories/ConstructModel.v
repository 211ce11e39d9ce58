(** Model of array construction: array/arrayFromData.hpp (nested lists), array/commaInitializer.hpp and
    array/pseudoConstructors.hpp (zeros, ones, ordered, arange, linspace, logspace). *)
From Coq Require Import Reals.
From Verif Require Import Base ShapeModel ViewModel.

(** ** Nested lists *)
(** std::initializer_list or std::vector nested [k] deep *)
Fixpoint nest (A : Type) (k : nat) : Type :=
  match k with O => A | S k' => list (nest A k') end.

Section FromData.
Context {A : Type}.
Variable asserts : bool.
Variable vec : bool.           (* std::vector rather than std::initializer_list: other exception type *)
Variable junk : nat -> A.      (* contents of a new, uninitialised array *)

(** an array: shape and row-major data *)
Definition arr : Type := shape * list A.

Definition mapM {X Y} (f : X -> outcome Y) : list X -> outcome (list Y) :=
  fix go l := match l with [] => Ok [] | x :: l' => do y <- f x; do ys <- go l'; Ok (y :: ys) end.

(** ArrayContainer(list of scalars), l.5-21 *)
Definition from1 (d : list A) : outcome arr :=
  do _ <- check asserts InvalidArgument (0 <? length d);
  Ok ([u32 (N.of_nat (length d))], d).

(** ArrayContainer(shape): uninitialised, arrayContainer.hpp l.455-458 *)
Definition uninit (s : shape) : list A := map junk (seq 0 (N.to_nat (size s))).

(** res[i] = t, through ArrayContainer::operator[] and GeneralArrayView::operator=.  The fuel of the
    copy loop (see [odometer]) is the size of the whole array. *)
Definition set_row (s : shape) (i : nat) (t : arr) (res : list A) : outcome (list A) :=
  do w <- array_chain asserts s [Z.of_nat i];
  view_assign asserts (S (length res)) w (fst t) (fun _ d => rd (snd t) (N.to_nat d)) res.

(** for each item: res[index++] = item *)
Fixpoint set_rows (s : shape) (i : nat) (ts : list arr) (res : list A) : outcome (list A) :=
  match ts with
  | [] => Ok res
  | t :: ts' => do res' <- set_row s i t res; set_rows s (i + 1) ts' res'
  end.

(** Two levels, dynamic Shape, l.23-111 (else branches).  [rec] is ArrayContainer(item). *)
Fixpoint from2_rows (rec : list A -> outcome arr) (s : shape) (i : nat) (d : list (list A)) (res : list A) : outcome (list A) :=
  match d with
  | [] => Ok res
  | x :: d' => do t <- rec x; do res' <- set_row s i t res; from2_rows rec s (i + 1) d' res'
  end.
Definition from2 (rec : list A -> outcome arr) (d : list (list A)) : outcome arr :=
  do _ <- check asserts InvalidArgument (0 <? length d);
  match d with
  | [] => UB                                             (* data.begin()->size() *)
  | first :: _ =>
      let s := [u32 (N.of_nat (length d)); u32 (N.of_nat (length first))] in
      do _ <- check asserts (if vec then RangeError else LengthError)
                (forallb (fun row => N.eqb (N.of_nat (length row)) (u32 (N.of_nat (length first)))) d);
      do res <- from2_rows rec s 0 d (uninit s);
      Ok (s, res)
  end.

(** Three and more levels, l.113-137 *)
Definition fromN {X} (rec : X -> outcome arr) (d : list X) : outcome arr :=
  do _ <- check asserts InvalidArgument (0 <? length d);
  do tmp <- mapM rec d;
  match tmp with
  | [] => UB                                             (* tmp[0] *)
  | t0 :: _ =>
      let zeroShape := fst t0 in
      do _ <- check asserts RangeError (forallb (fun t => shape_eqb (fst t) zeroShape) tmp);
      let s := u32 (N.of_nat (length d)) :: zeroShape in
      do res <- set_rows s 0 tmp (uninit s);
      Ok (s, res)
  end.

(** The constructor selected for data nested [k] deep (k = 0 is not a constructor; a scalar). *)
Fixpoint from_data (k : nat) : nest A k -> outcome arr :=
  match k return nest A k -> outcome arr with
  | O => fun x => Ok ([], [x])
  | S k' =>
      match k' return (nest A k' -> outcome arr) -> nest A (S k') -> outcome arr with
      | O => fun _ (d : list A) => from1 d
      | 1 => fun rec (d : list (list A)) => from2 rec d
      | S (S k'') => fun rec (d : list (nest A (S (S k'')))) => fromN rec d
      end (from_data k')
  end.

(** Two levels, MatrixShape, l.27-46 and l.75-91: res(i, j) = data[i][j] *)
Fixpoint matrix_row (s : shape) (i j : nat) (row : list A) (res : list A) : outcome (list A) :=
  match row with
  | [] => Ok res
  | x :: row' => do res' <- call_set asserts s res [Z.of_nat i; Z.of_nat j] x; matrix_row s i (j + 1) row' res'
  end.
Fixpoint matrix_rows (s : shape) (c : N) (i : nat) (d : list (list A)) (res : list A) : outcome (list A) :=
  match d with
  | [] => Ok res
  | row :: d' =>
      do _ <- check asserts RangeError (N.of_nat (length row) =? c)%N;
      do res' <- matrix_row s i 0 row res;
      matrix_rows s c (i + 1) d' res'
  end.
Definition from_matrix (d : list (list A)) : outcome arr :=
  do _ <- check asserts InvalidArgument (0 <? length d);
  match d with
  | [] => UB
  | first :: _ =>
      let c := u32 (N.of_nat (length first)) in
      let s := [u32 (N.of_nat (length d)); c] in
      do res <- matrix_rows s c 0 d (uninit s);
      Ok (s, res)
  end.

(** ** Comma initialisation: array << v1, v2, ...; next, commaInitializer.hpp l.36-39, with the bounds
    assertion of Storage::operator[] (storage.hpp l.620-623).  The result pairs the outcome with the
    contents at that point. *)
Fixpoint comma (m_index : nat) (vs : list A) (data : list A) : outcome unit * list A :=
  match vs with
  | [] => (Ok tt, data)
  | v :: vs' =>
      if m_index <? length data then comma (m_index + 1) vs' (upd data m_index v)
      else (if asserts then Throw RuntimeError else UB, data)
  end.

(** ** zeros, ones: Array(shape, value), pseudoConstructors.hpp l.54-57, l.84-87; fill, fill.hpp l.5-9 *)
Definition filled (s : shape) (x : A) : arr := (s, repeat x (N.to_nat (size s))).
(** ordered, l.112-118 *)
Definition ordered (of_nat : nat -> A) (s : shape) : arr := (s, map of_nat (seq 0 (N.to_nat (size s)))).
End FromData.
Arguments arr : clear implicits.

(** ** arange, l.137-150 *)
Definition u64z (x : Z) : Z := (x mod 2 ^ 64)%Z.
(** signed 64-bit reinterpretation of an unsigned value *)
Definition s64z (x : Z) : Z := if (x <? 2 ^ 63)%Z then x else (x - 2 ^ 64)%Z.

(** Integer start, stop and step.  The differences are int arithmetic (no overflow assumed); [i] is a
    size_t, so [start + i * step] is computed modulo 2^64. *)
Definition arange_count (start stop step : Z) : Z := Z.abs (Z.quot (stop - start) step).
Definition arange_raw (start step : Z) (i : nat) : Z := u64z (u64z start + u64z (Z.of_nat i * u64z step)).
Definition arange {B} (asserts : bool) (conv : Z -> B) (start stop step : Z) : outcome (list B) :=
  do _ <- check asserts InvalidArgument (negb (step =? 0)%Z);
  if (step =? 0)%Z then UB else
  do _ <- check asserts InvalidArgument (0 <? Z.quot (stop - start) step)%Z;
  Ok (map (fun i => conv (arange_raw start step i)) (seq 0 (Z.to_nat (arange_count start stop step)))).
(** Scalar(x) for a 64-bit signed and for a floating (exact) element type *)
Definition to_int64 (x : Z) : Z := s64z x.
Definition to_double (x : Z) : Z := x.

(** arange(start, stop), l.153-162 *)
Definition arange2 {B} (asserts : bool) (conv : Z -> B) (start stop : Z) : outcome (list B) :=
  do _ <- check asserts InvalidArgument (0 <? stop - start)%Z;
  Ok (map (fun i => conv (u64z (u64z start + Z.of_nat i))) (seq 0 (Z.to_nat (Z.abs (stop - start))))).
(** arange(stop), l.165-170 *)
Definition arange1 {B} (conv : Z -> B) (stop : Z) : list B :=
  map (fun i => conv (Z.of_nat i)) (seq 0 (Z.to_nat (Z.abs stop))).

Local Open Scope R_scope.
(** Floating start, stop and step: exact reals.  (int64_t) of a non-negative real is its floor. *)
Definition rtrunc (x : R) : nat := Z.to_nat (up x - 1).
Definition arange_real (asserts : bool) (start stop step : R) : outcome (list R) :=
  do _ <- check asserts InvalidArgument (if Req_EM_T step 0 then false else true);
  if Req_EM_T step 0 then UB else
  do _ <- check asserts InvalidArgument (if Rlt_dec 0 ((stop - start) / step) then true else false);
  Ok (map (fun i => start + INR i * step) (seq 0 (rtrunc (Rabs ((stop - start) / step))))).

(** linspace, l.190-203: a floating division by zero gives NaN ([None]) here since its numerator is zero
    too (i = 0) *)
Definition rdiv (x y : R) : option R := if Req_EM_T y 0 then None else Some (x / y).
Definition linspace (asserts : bool) (start stop : R) (num : Z) (includeEnd : bool) : outcome (list (option R)) :=
  do _ <- check asserts InvalidArgument (0 <? num)%Z;
  let den := IZR (num - (if includeEnd then 1 else 0))%Z in
  Ok (map (fun i => match rdiv ((stop - start) * INR i) den with Some q => Some (start + q) | None => None end)
          (seq 0 (Z.to_nat num))).
(** the same with an integer element type: the division truncates, and by zero it is undefined *)
Definition linspace_int (asserts : bool) (start stop num : Z) (includeEnd : bool) : outcome (list Z) :=
  do _ <- check asserts InvalidArgument (0 <? num)%Z;
  let den := (num - (if includeEnd then 1 else 0))%Z in
  if (den =? 0)%Z then UB
  else Ok (map (fun i => (start + Z.quot ((stop - start) * Z.of_nat i) den)%Z) (seq 0 (Z.to_nat num))).
(** logspace, l.207-226 *)
Definition logspace (asserts : bool) (start stop : R) (num : Z) (includeEnd : bool) : outcome (list (option R)) :=
  do _ <- check asserts InvalidArgument (0 <? num)%Z;
  if Rlt_dec 0 start then if Rlt_dec 0 stop then
    let den := IZR (num - (if includeEnd then 1 else 0))%Z in
    Ok (map (fun i => match rdiv ((ln stop - ln start) * INR i) den with
                      | Some q => Some (exp (ln start + q)) | None => None end) (seq 0 (Z.to_nat num)))
  else Ok (repeat None (Z.to_nat num)) else Ok (repeat None (Z.to_nat num)).
