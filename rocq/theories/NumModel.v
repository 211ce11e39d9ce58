(** Scalar helpers, sequences, random numbers and complex arithmetic over float and double: the code of
    math/coreMath.hpp, math/utilityFunctions.hpp, array/pseudoConstructors.hpp, math/random.hpp and
    math/complex.hpp with IEEE 754 arithmetic (see [AccModel] for the format and the simplifications).
    The same code over exact numbers is in RoundModel, ConstructModel, RandomModel and ComplexModel. *)
From Coq Require Import ZArith List Bool.
From Flocq Require Import Core BinarySingleNaN.
From Verif Require Import Base ShapeModel AccModel.
Import ListNotations.

(** A conversion between floating-point types: rounds to nearest, may overflow to infinity *)
Definition fconvert {prec emax : Z} (prec' emax' : Z) (Hp' : Prec_gt_0 prec') (Hm' : Prec_lt_emax prec' emax')
    (x : binary_float prec emax) : binary_float prec' emax' :=
  match x with
  | B754_zero s => B754_zero s
  | B754_infinity s => B754_infinity s
  | B754_nan => B754_nan
  | B754_finite s m e _ => binary_normalize prec' emax' Hp' Hm' mode_NE (cond_Zopp s (Zpos m)) e s
  end.

Section Num.
Variables prec emax : Z.
Context (Hp : Prec_gt_0 prec) (Hm : Prec_lt_emax prec emax).
Local Notation num := (binary_float prec emax).
Local Notation fzero := (fzero prec emax).
Local Notation fone := (fone prec emax Hp Hm).
Local Notation fadd := (fadd prec emax Hp Hm).
Local Notation fmul := (fmul prec emax Hp Hm).

(** ** Operators of C++ on the type *)
Definition fsub (x y : num) : num := Bminus mode_NE x y.
Definition fdiv (x y : num) : num := Bdiv mode_NE x y.
Definition fneg (x : num) : num := Bopp x.
Definition flt (x y : num) : bool := Bltb x y.
Definition fle (x y : num) : bool := Bleb x y.
Definition feq (x y : num) : bool := Beqb x y.
(** static_cast<Scalar>(i) of an integer: nearest *)
Definition fint (z : Z) : num := binary_normalize prec emax Hp Hm mode_NE z 0 false.
(** (int64_t)x: truncation towards zero; undefined unless the truncated value is an int64_t *)
Definition to_int64 (x : num) : outcome Z :=
  if is_finite x then
    let z := Btrunc x in
    if (- 2 ^ 63 <=? z)%Z && (z <? 2 ^ 63)%Z then Ok z else UB
  else UB.

(** ** math/coreMath.hpp l.30-34, 49-53: min and max of two values; l.59-63: abs *)
Definition vmin2 (x y : num) : num := if flt x y then x else y.
Definition vmax2 (x y : num) : num := if flt y x then x else y.
Definition vabs (x : num) : num := if flt x fzero then fneg x else x.
(** l.78-80: map *)
Definition vmap (val start1 stop1 start2 stop2 : num) : num :=
  fadd start2 (fdiv (fmul (fsub val start1) (fsub stop2 start2)) (fsub stop1 start1)).

(** ** math/utilityFunctions.hpp *)
(** l.25-30: clamp *)
Definition fclamp (asserts : bool) (x lowerLimit upperLimit : num) : outcome num :=
  do _ <- check asserts RuntimeError (flt lowerLimit upperLimit);
  if flt x lowerLimit then Ok lowerLimit
  else if flt upperLimit x then Ok upperLimit
  else Ok x.
(** l.50-70: lerp on three arguments of the same floating-point type (FMA is not defined) *)
Definition flerp (t lower upper : num) : num :=
  if is_nan t || is_nan lower || is_nan upper then B754_nan
  else if (fle t fzero && fle fzero upper) || (fle fzero lower && fle upper fzero)
  then fadd (fmul t upper) (fmul (fsub fone t) lower)
  else if feq t fone then upper
  else let x := fadd lower (fmul t (fsub upper lower)) in
       if Bool.eqb (flt fone t) (flt lower upper) then vmax2 upper x else vmin2 upper x.
(** l.117-121: smoothStep *)
Definition fsmooth (s : num) : num :=
  fmul (fmul (fmul s s) s) (fadd (fmul s (fsub (fmul s (fint 6)) (fint 15))) (fint 10)).
Definition fsmoothStep (asserts : bool) (t lowerEdge upperEdge : num) : outcome num :=
  do s <- fclamp asserts (fdiv (fsub t lowerEdge) (fsub upperEdge lowerEdge)) fzero fone;
  Ok (fsmooth s).
(** l.141-147: isClose *)
Definition fisClose (val1 val2 absTol relTol : num) : bool :=
  fle (vabs (fsub val2 val1)) (vmax2 (fmul relTol (vmax2 (vabs val1) (vabs val2))) absTol).

(** ** array/pseudoConstructors.hpp, all arguments of type Scalar *)
(** l.190-203: linspace *)
Definition linspace_at (start stop den : num) (i : nat) : num :=
  fadd start (fdiv (fmul (fsub stop start) (fint (Z.of_nat i))) den).
Definition flinspace (asserts : bool) (start stop : num) (n : Z) (includeEnd : bool) : outcome (list num) :=
  do _ <- check asserts InvalidArgument (0 <? n)%Z;
  let den := fint (n - (if includeEnd then 1 else 0)) in
  Ok (map (linspace_at start stop den) (seq 0 (Z.to_nat n))).
(** l.137-150: arange *)
Definition arange_at (start step : num) (i : nat) : num := fadd start (fmul (fint (Z.of_nat i)) step).
Definition farange (asserts : bool) (start stop step : num) : outcome (list num) :=
  do _ <- check asserts InvalidArgument (negb (feq step fzero));
  let q := fdiv (fsub stop start) step in
  do _ <- check asserts InvalidArgument (flt fzero q);
  do n <- to_int64 (vabs q);
  Ok (map (arange_at start step) (seq 0 (Z.to_nat n))).

(** ** math/random.hpp *)
(** l.18 with double arguments; [u] is what distribution(generator) returned *)
Definition frandom (lower upper u : num) : num := fadd lower (fmul (fsub upper lower) u).
(** l.21-24: randint *)
Definition frandint (lower upper : Z) (u : num) : outcome Z :=
  to_int64 (frandom (fint (lower - (if (lower <? 0)%Z then 1 else 0))) (fadd (fint upper) fone) u).

(** ** math/complex.hpp: (real, imag) *)
Definition fcomplex : Type := (num * num)%type.
(** l.727-734: _mul *)
Definition cmul (z w : fcomplex) : fcomplex :=
  (fsub (fmul (fst z) (fst w)) (fmul (snd z) (snd w)), fadd (fmul (fst z) (snd w)) (fmul (snd z) (fst w))).
(** l.747-749: the modulus of a component *)
Definition cmod (x : num) : num := if flt x fzero then fneg x else x.
(** l.740-777: _div *)
Definition cdiv (z w : fcomplex) : fcomplex :=
  let '(re, im) := z in let '(otherReal, otherImag) := w in
  if is_nan otherReal || is_nan otherImag then (B754_nan, B754_nan)
  else if flt (cmod otherImag) (cmod otherReal) then
    let wr := fdiv otherImag otherReal in
    let wd := fadd otherReal (fmul wr otherImag) in
    if is_nan wd || feq wd fzero then (B754_nan, B754_nan)
    else (fdiv (fadd re (fmul im wr)) wd, fdiv (fsub im (fmul re wr)) wd)
  else if feq otherImag fzero then (B754_nan, B754_nan)
  else
    let wr := fdiv otherReal otherImag in
    let wd := fadd otherImag (fmul wr otherReal) in
    if is_nan wd || feq wd fzero then (B754_nan, B754_nan)
    else (fdiv (fadd (fmul re wr) im) wd, fdiv (fsub (fmul im wr) re) wd).
End Num.

(** math/random.hpp l.18 with float arguments: upper - lower is a float operation, the rest happens in
    double, and the result is converted to float *)
Section Mixed.
Context (Hp : Prec_gt_0 53) (Hm : Prec_lt_emax 53 1024) (Hp' : Prec_gt_0 24) (Hm' : Prec_lt_emax 24 128).
Definition frandom_float (lower upper : binary_float 24 128) (u : binary_float 53 1024) : binary_float 24 128 :=
  let wide := fconvert 53 1024 Hp Hm in
  fconvert 24 128 Hp' Hm'
    (fadd 53 1024 Hp Hm (wide lower) (fmul 53 1024 Hp Hm (wide (fsub 24 128 Hp' Hm' upper lower)) u)).
End Mixed.
