(** Model of the generic BLAS level 1 routines.  Source: librapid/cxxblas/level1/*.tcc, the
    templates used when no CBLAS overload applies (the overloads call an external library).
    Memory is one list of elements; a pointer is an address in it, so two operands may overlap.
    Dereferencing an address outside the memory is undefined behaviour.  Sizes and increments are
    mathematical integers: overflow of IndexType is not modelled; forming a pointer outside the
    memory without dereferencing it is not treated as an error. *)
From Coq Require Import ZArith.
From Verif Require Import Base.
Local Open Scope Z_scope.

(** *p and *p = v *)
Definition load {A} (m : list A) (p : Z) : outcome A := if p <? 0 then UB else rd m (Z.to_nat p).
Definition store {A} (m : list A) (p : Z) (v : A) : outcome (list A) := if p <? 0 then UB else wr m (Z.to_nat p) v.

(** if (incX < 0) x -= incX * (n - 1), the first line of every routine (e.g. copy.tcc l.49) *)
Definition start (x inc n : Z) : Z := if inc <? 0 then x - inc * (n - 1) else x.

(** for (i = 0, iX = 0, iY = 0; i < n; ++i, iX += incX, iY += incY) body(iX, iY): [k] rounds are left *)
Fixpoint rounds {St} (k : nat) (iX incX iY incY : Z) (body : Z -> Z -> St -> outcome St) (s : St) : outcome St :=
  match k with
  | O => Ok s
  | S k' => do s' <- body iX iY s; rounds k' (iX + incX) incX (iY + incY) incY body s'
  end.
Definition walk {St} (n incX incY : Z) (body : Z -> Z -> St -> outcome St) (s : St) : outcome St :=
  rounds (Z.to_nat n) 0 incX 0 incY body s.
(** the same with one index *)
Definition walk1 {St} (n incX : Z) (body : Z -> St -> outcome St) (s : St) : outcome St :=
  walk n incX 0 (fun iX _ => body iX) s.

Section Blas.
Context {A : Type}.
Variables (zero : A) (add mul : A -> A -> A) (conj : A -> A).

(** copy, copy.tcc l.40-52 *)
Definition copy (n x incX y incY : Z) (m : list A) : outcome (list A) :=
  let x := start x incX n in let y := start y incY n in
  walk n incX incY (fun iX iY m => do v <- load m (x + iX); store m (y + iY) v) m.
(** axpy, axpy.tcc l.41-56 *)
Definition axpy (n : Z) (alpha : A) (x incX y incY : Z) (m : list A) : outcome (list A) :=
  let x := start x incX n in let y := start y incY n in
  walk n incX incY (fun iX iY m =>
    do u <- load m (x + iX); do v <- load m (y + iY); store m (y + iY) (add v (mul alpha u))) m.
(** swap, swap.tcc l.40-52; std::swap reads both, then writes x, then y *)
Definition swap (n x incX y incY : Z) (m : list A) : outcome (list A) :=
  let x := start x incX n in let y := start y incY n in
  walk n incX incY (fun iX iY m =>
    do u <- load m (x + iX); do v <- load m (y + iY);
    do m' <- store m (x + iX) v; store m' (y + iY) u) m.
(** rot, rot.tcc l.41-58; [neg] is unary minus.  The complex version (l.126-159) has the same loop
    twice, with conj(s) in place of s in the second line and a subtraction. *)
Definition rot (neg : A -> A) (n x incX y incY : Z) (c s : A) (m : list A) : outcome (list A) :=
  let x := start x incX n in let y := start y incY n in
  walk n incX incY (fun iX iY m =>
    do u <- load m (x + iX); do v <- load m (y + iY);
    do m' <- store m (x + iX) (add (mul c u) (mul s v));
    store m' (y + iY) (add (mul (neg s) u) (mul c v))) m.
(** scal, scal.tcc l.40-45, 58-62 *)
Definition scal_from (n : Z) (alpha : A) (y incY : Z) (m : list A) : outcome (list A) :=
  walk1 n incY (fun iY m => do v <- load m (y + iY); store m (y + iY) (mul v alpha)) m.
Definition scal (n : Z) (alpha : A) (y incY : Z) (m : list A) : outcome (list A) :=
  scal_from n alpha (start y incY n) incY m.
(** scal_init, l.47-56, 64-68; [is_zero] is alpha == ALPHA(0) *)
Definition scal_init (is_zero : A -> bool) (n : Z) (alpha : A) (y incY : Z) (m : list A) : outcome (list A) :=
  let y := start y incY n in
  if is_zero alpha then walk1 n incY (fun iY m => store m (y + iY) zero) m else scal_from n alpha y incY m.

(** dotu, dot.tcc l.40-49, 64-69, and dot, l.51-60, 71-76.  Result is the element type. *)
Definition dotu (n x incX y incY : Z) (m : list A) : outcome A :=
  let x := start x incX n in let y := start y incY n in
  walk n incX incY (fun iX iY r => do u <- load m (x + iX); do v <- load m (y + iY); Ok (add r (mul u v))) zero.
Definition dot (n x incX y incY : Z) (m : list A) : outcome A :=
  let x := start x incX n in let y := start y incY n in
  walk n incX incY (fun iX iY r => do u <- load m (x + iX); do v <- load m (y + iY); Ok (add r (mul (conj u) v))) zero.
(** asum, asum.tcc l.41-57; [abs1] is |re| + |im|.  The pointer walks: x += incX.  asum1, level1extensions/asum1.tcc l.41-57, is the same
    with std::abs for [abs1]. *)
Definition asum (abs1 : A -> A) (n x incX : Z) (m : list A) : outcome A :=
  let x := start x incX n in
  walk1 n incX (fun iX r => do u <- load m (x + iX); Ok (add r (abs1 u))) zero.
End Blas.

(** iamax, iamax.tcc l.42-56, 58-82; [abs] is abs (or abs1 for complex), [gt] is operator>.
    State of the loop: the counter i, iAbsMaxX and absMaxX.  imax1, level1extensions/imax1.tcc l.42-73, is the same with std::abs. *)
Definition iamax {A B} (abs : A -> B) (gt : B -> B -> bool) (n x incX : Z) (m : list A) : outcome Z :=
  let x := start x incX n in
  if n <=? 0 then Ok (-1) else
    do u <- load m x;
    do s <- walk1 n incX (fun iX s =>
        let '(i, best, top) := s in
        do v <- load m (x + iX);
        Ok (if gt (abs v) top then (i + 1, i, abs v) else (i + 1, best, top))) (0, 0, abs u);
    Ok (snd (fst s)).
