(** Rounding functions over double: the code of math/round.hpp and src/fastMath.cpp with IEEE 754
    arithmetic (see [AccModel] for the format). The same code over exact numbers is in RoundModel.
    The template parameters are double: [prec] is 53 and [emax] is 1024 in the theorems. *)
From Coq Require Import ZArith List Bool.
From Flocq Require Import Core BinarySingleNaN.
From Verif Require Import Base ShapeModel AccModel NumModel.
Import ListNotations.

Section Rnd.
Variables prec emax : Z.
Context (Hp : Prec_gt_0 prec) (Hm : Prec_lt_emax prec emax).
Local Notation num := (binary_float prec emax).
Local Notation fzero := (fzero prec emax).
Local Notation fone := (fone prec emax Hp Hm).
Local Notation fadd := (fadd prec emax Hp Hm).
Local Notation fmul := (fmul prec emax Hp Hm).
Local Notation fsub := (fsub prec emax Hp Hm).
Local Notation fdiv := (fdiv prec emax Hp Hm).
Local Notation fint := (fint prec emax Hp Hm).
Local Notation flt := (flt prec emax).
Local Notation fle := (fle prec emax).
Local Notation feq := (feq prec emax).
Local Notation vabs := (vabs prec emax).

(** math/coreMath.hpp l.107: floor is std::floor, exact; keeps zeros, infinities and NaN *)
Definition ffloor (x : num) : num := Bnearbyint mode_DN x.
(** utils/memUtils.hpp l.70-80: copySign is std::copysign. The sign of a NaN is not modelled: copying
    the sign of NaN gives the positive number (round only does that when the magnitude is NaN as well). *)
Definition fcopySign (mag sgn : num) : num :=
  match mag with
  | B754_zero _ => B754_zero (Bsign sgn)
  | B754_infinity _ => B754_infinity (Bsign sgn)
  | B754_nan => B754_nan
  | B754_finite _ m e H => B754_finite (Bsign sgn) m e H
  end.
(** math/coreMath.hpp: mod is std::fmod, exact; the result has the sign of x *)
Definition fmod (x y : num) : num :=
  match x, y with
  | B754_nan, _ | _, B754_nan => B754_nan
  | B754_infinity _, _ | _, B754_zero _ => B754_nan
  | _, B754_infinity _ => x
  | B754_zero _, _ => x
  | B754_finite s m e _, B754_finite _ m' e' _ =>
      let e0 := Z.min e e' in
      let r := Z.rem (Zpos m * 2 ^ (e - e0)) (Zpos m' * 2 ^ (e' - e0)) in
      binary_normalize prec emax Hp Hm mode_NE (cond_Zopp s r) e0 s
  end.
(** (uint64_t)y: undefined unless the truncated value is a uint64_t *)
Definition to_uint64 (x : num) : outcome Z :=
  if is_finite x then
    let z := Btrunc x in
    if (0 <=? z)%Z && (z <? 2 ^ 64)%Z then Ok z else UB
  else UB.

(** src/fastMath.cpp l.4-30: pow10. A literal 10^-k is the number nearest to it; the entry for 7 is
    1000000, as in the source. *)
Definition ftable (e : Z) : num :=
  if (e <? 0)%Z then fdiv fone (fint (10 ^ (- e))) else fint (10 ^ (Z.min e 6)).
Fixpoint frepeat (k : nat) (f res : num) : num :=
  match k with
  | O => res
  | S k' => frepeat k' f (fmul res f)
  end.
Definition fpow10 (e : Z) : num :=
  if (-7 <=? e)%Z && (e <=? 7)%Z then ftable e
  else if (0 <? e)%Z then frepeat (Z.to_nat e) (fint 10) fone
  else frepeat (Z.to_nat (- e)) (fdiv fone (fint 10)) fone.

(** math/round.hpp l.5-19: the bits of RoundingMode *)
Definition MATH : Z := 1.
Definition DOWN : Z := 0.
Definition UP : Z := 3.
Definition HALF_EVEN : Z := 20.
Definition fhalf : num := fdiv fone (fint 2).
(** math/round.hpp l.21-38: round; l.29 *)
Definition round_up (mode : Z) (diff y : num) : num :=
  if Z.testbit mode 0 && fle fhalf diff then fadd y fone else y.
(** l.30-34 *)
Definition round_even (mode : Z) (diff y : num) : outcome num :=
  if Z.testbit mode 2 then
    do integer <- to_uint64 y;
    let nearestEven := if Z.odd integer then fadd y fone else fint integer in
    Ok (if Z.testbit mode 4 && feq diff fhalf then nearestEven else y)
  else Ok y.
(** l.23-37, with alpha and beta given *)
Definition round_with (alpha beta x : num) (mode : Z) : outcome num :=
  let absNum := vabs (fmul x alpha) in
  let y := ffloor absNum in
  let diff := fsub absNum y in
  do y <- round_even mode diff (round_up mode diff y);
  Ok (fcopySign (fmul y beta) x).
Definition fround (x : num) (dp mode : Z) : outcome num := round_with (fpow10 dp) (fpow10 (- dp)) x mode.

(** math/round.hpp l.67-74: roundTo *)
Definition froundTo (x val : num) : num :=
  if feq x fzero then fzero
  else
    let rem := fmod (vabs x) val in
    if fle (fdiv val (fint 2)) rem then fcopySign (fsub (fadd (vabs x) val) rem) x
    else fcopySign (fsub x rem) x.
(** math/round.hpp l.87-92: roundUpTo *)
Definition froundUpTo (x val : num) : num :=
  let rem := fmod x val in
  if feq rem fzero then x else fsub (fadd x val) rem.

(** math/round.hpp l.106-132: roundSigFig. The loops of l.119-127 with the number of iterations
    bounded by [fuel]; None when that is not enough. *)
Fixpoint scale_down (fuel : nat) (tmp : num) (n : Z) : option (num * Z) :=
  if flt (fint 10) tmp then
    match fuel with
    | O => None
    | S fuel' => scale_down fuel' (fdiv tmp (fint 10)) (n + 1)
    end
  else Some (tmp, n).
Fixpoint scale_up (fuel : nat) (tmp : num) (n : Z) : option (num * Z) :=
  if flt tmp fone then
    match fuel with
    | O => None
    | S fuel' => scale_up fuel' (fmul tmp (fint 10)) (n - 1)
    end
  else Some (tmp, n).
Definition froundSigFig (fuel : nat) (asserts : bool) (x : num) (figs : Z) : option (outcome num) :=
  if asserts && negb (0 <? figs)%Z then Some (Throw RuntimeError)
  else if feq x fzero then Some (Ok fzero)
  else match scale_down fuel (vabs x) 0 with
       | None => None
       | Some (tmp, n) =>
           match scale_up fuel tmp n with
           | None => None
           | Some (tmp, n) => Some (do r <- fround tmp (figs - 1) MATH; Ok (fcopySign (fmul r (fpow10 n)) x))
           end
       end.
End Rnd.
