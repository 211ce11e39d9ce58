(** The exponential, the hyperbolic and trigonometric sine and cosine, and polar coordinates of complex numbers with float and double
    components, IEEE arithmetic operation by operation: librapid/include/librapid/math/complex.hpp l.388-410, 1488-1546, 1780-1784,
    1890-1894, 1989-2011.  The same code over real numbers is in ComplexModel.
    ::librapid::exp, sin, cos, sinh and cosh of a float or double are the functions of the C++ library (math/coreMath.hpp): they are
    parameters.  All NaNs are one value without a sign.  The branch for Microsoft's compiler and the one for mpfr in expMul are not
    modelled. *)
From Coq Require Import ZArith Bool.
From Flocq Require Import Core BinarySingleNaN.
From Verif Require Import AccModel NumModel NrmModel CsqModel.

Section Float.
Variables prec emax : Z.
Context (Hp : Prec_gt_0 prec) (Hm : Prec_lt_emax prec emax).
Local Notation num := (binary_float prec emax).
Local Notation fzero := (fzero prec emax).
Local Notation fone := (fone prec emax Hp Hm).
Local Notation fmul := (fmul prec emax Hp Hm).
Local Notation flt := (flt prec emax).
Local Notation feq := (feq prec emax).
Local Notation fisInf := (fisInf prec emax).
Local Notation fcopySign := (fcopySign prec emax).
Local Notation vabs := (vabs prec emax).
Variables libExp libSin libCos libSinh libCosh : num -> num.

(** l.403: expMul with exponent = 0, as exp calls it; ::librapid::exp2 of the short 0 is std::exp2(0.0) = 1 *)
Definition fexpMul (left right : num) : num := fmul (fmul (libExp left) right) fone.
(** polarPositiveNanInfZeroRho, l.1494-1509 *)
Definition polar_special (rho theta : num) : num * num :=
  if is_nan theta || fisInf theta then
    if fisInf rho then (rho, libSin theta) else (rho, fcopySign rho theta)
  else if feq theta fzero then (rho, theta)
  else (fmul rho (libCos theta), fmul rho (libSin theta)).
(** exp, l.1521-1546 *)
Definition fcexp (logRho theta : num) : num * num :=
  if negb (is_nan logRho) && negb (fisInf logRho) then (fexpMul logRho (libCos theta), fexpMul logRho (libSin theta))
  else if fisInf logRho then
    if flt logRho fzero then polar_special fzero theta else polar_special logRho theta
  else polar_special (vabs logRho) theta.
(** cosh, l.1488-1492 *)
Definition fccosh (re im : num) : num * num := (fmul (libCosh re) (libCos im), fmul (libSinh re) (libSin im)).
(** sinh, l.1780-1784 *)
Definition fcsinh (re im : num) : num * num := (fmul (libSinh re) (libCos im), fmul (libCosh re) (libSin im)).
(** cos, l.1890-1894 *)
Definition fccos (re im : num) : num * num := (fmul (libCosh im) (libCos re), fmul (Bopp (libSinh im)) (libSin re)).
(** sin, l.2007-2011 *)
Definition fcsin (re im : num) : num * num := (fmul (libCosh im) (libSin re), fmul (libSinh im) (libCos re)).
(** polar, l.1989-2001; the unary minus negates both parts, l.790-793 *)
Definition fpolar (rho theta : num) : num * num :=
  if negb (is_nan rho) && negb (fisInf rho) && negb (feq rho fzero) then (fmul rho (libCos theta), fmul rho (libSin theta))
  else if Bsign rho then let z := polar_special (Bopp rho) theta in (Bopp (fst z), Bopp (snd z))
  else polar_special rho theta.
End Float.
