(** The modulus and the square root of complex numbers with float and double components, IEEE arithmetic operation by operation:
    math/complex.hpp l.1568-1650, 1786-1827.  The same code over real numbers is in ComplexModel.  All NaNs are one value, so the sign
    that copySign takes from a NaN is not modelled (it is +). *)
From Coq Require Import ZArith Bool.
From Flocq Require Import Core BinarySingleNaN.
From Verif Require Import AccModel NumModel NrmModel.

Section Float.
Variables prec emax : Z.
Context (Hp : Prec_gt_0 prec) (Hm : Prec_lt_emax prec emax).
Local Notation num := (binary_float prec emax).
Local Notation fzero := (fzero prec emax).
Local Notation fone := (fone prec emax Hp Hm).
Local Notation fadd := (fadd prec emax Hp Hm).
Local Notation fmul := (fmul prec emax Hp Hm).
Local Notation fsub := (fsub prec emax Hp Hm).
Local Notation fdiv := (fdiv prec emax Hp Hm).
Local Notation fint := (fint prec emax Hp Hm).
Local Notation flt := (flt prec emax).
Local Notation fle := (fle prec emax).
Local Notation feq := (feq prec emax).
Local Notation vabs := (vabs prec emax).
Local Notation fsqrt := (fsqrt prec emax Hp Hm).

(** A constant m * 2^e of the type T *)
Definition lit (m e : Z) : num := binary_normalize prec emax Hp Hm mode_NE m e false.
(** l.1634-1637: the literals 1.4142135623730950488016887242096981L and 1.4341252375973918872420969807856967e-7L are long doubles of 64
    bits, then cast to T; 10125945.0 / 4194304.0 is exact *)
Definition froot2 : num := lit 13043817825332782212 (-63).
Definition flow : num := lit 11096006581071691461 (-86).
Definition fhigh : num := lit 10125945 (-22).
(** l.1591-1593: epsilon() and min() of T, and legTiny *)
Definition feps : num := lit 1 (1 - prec).
Definition fmin : num := lit 1 (2 - emax).
Definition flegTiny : num := if feq feps fzero then fzero else fdiv (fmul (fint 2) fmin) feps.

(** utils/memUtils.hpp l.122-124, 59-61, 70-80: std::ldexp, std::isinf, std::copysign *)
Definition fldexp (x : num) (k : Z) : num := Bldexp mode_NE x k.
Definition fisInf (x : num) : bool := match x with B754_infinity _ => true | _ => false end.
Definition fcopySign (x s : num) : num := if Bool.eqb (Bsign x) (Bsign s) then x else Bopp x.

(** l.1583-1612: the scaled larger and smaller component and the exponent *)
Definition fscale (av bv : num) : num * num * Z :=
  if fle fone av then (fmul av (lit 1 (-4)), fmul bv (lit 1 (-4)), 4%Z)
  else if flt av flegTiny then
    let exponent := (-2 * prec)%Z in (fldexp av (- exponent), fldexp bv (- exponent), exponent)
  else (fmul av (fint 4), fmul bv (fint 4), (-2)%Z).
(** l.1614-1645, on scaled components av >= bv *)
Definition fhyp (av bv : num) : num :=
  let tmp := fsub av bv in
  if feq tmp av then av
  else if flt bv tmp then
    let qv := fdiv av bv in
    fadd av (fdiv bv (fadd qv (fsqrt (fadd (fmul qv qv) fone))))
  else
    let qv := fdiv tmp bv in
    let rv := fmul (fadd qv (fint 2)) qv in
    let sv := fadd (fadd (fadd (fdiv rv (fadd froot2 (fsqrt (fadd rv (fint 2))))) flow) qv) fhigh in
    fadd av (fdiv bv sv).
(** _fabs, l.1568-1650: the modulus divided by 2^exp, and exp *)
Definition fcabs (re im : num) : num * Z :=
  let av := vabs re in
  let bv := vabs im in
  if fisInf av || fisInf bv then (B754_infinity false, 0%Z)
  else if is_nan av then (av, 0%Z)
  else if is_nan bv then (bv, 0%Z)
  else
    let '(av, bv) := if flt av bv then (bv, av) else (av, bv) in
    if feq av fzero then (av, 0%Z)
    else let '(av, bv, exp) := fscale av bv in (fhyp av bv, exp).

(** sqrt, l.1786-1827 *)
Definition fcsqrt (re im : num) : num * num :=
  let '(rho, otherExp) := fcabs re im in
  if (otherExp =? 0)%Z then
    if feq rho fzero then (fzero, im)
    else if fisInf rho then
      if fisInf im then (B754_infinity false, im)
      else if is_nan im then
        if flt re fzero then (vabs im, fcopySign re im) else (re, im)
      else if flt re fzero then (fzero, fcopySign re im) else (re, fcopySign fzero im)
    else (rho, rho)
  else
    let realMag := fldexp (vabs re) (- otherExp) in
    let rho := fldexp (fsqrt (fmul (fint 2) (fadd realMag rho))) (Z.quot otherExp 2 - 1) in
    if fle fzero re then (rho, fdiv im (fmul (fint 2) rho))
    else (vabs (fdiv im (fmul (fint 2) rho)), fcopySign rho im).
End Float.
