(** The hyperbolic tangent and the tangent of complex numbers with float and double components, IEEE arithmetic operation by operation:
    librapid/include/librapid/math/complex.hpp l.1841-1857, 2017-2021.  The same code over real numbers is in ComplexModel.
    ::librapid::tan and ::librapid::sinh of a float or double are std::tan and std::sinh (math/coreMath.hpp): they are parameters.
    All NaNs are one value. *)
From Coq Require Import ZArith Bool.
From Flocq Require Import Core BinarySingleNaN.
From Verif Require Import AccModel NumModel NrmModel CsqModel.

Section Float.
Variables prec emax : Z.
Context (Hp : Prec_gt_0 prec) (Hm : Prec_lt_emax prec emax).
Local Notation num := (binary_float prec emax).
Local Notation fzero := (fzero prec emax).
Local Notation fone := (fone prec emax Hp Hm).
Local Notation fadd := (fadd prec emax Hp Hm).
Local Notation fmul := (fmul prec emax Hp Hm).
Local Notation fdiv := (fdiv prec emax Hp Hm).
Local Notation flt := (flt prec emax).
Local Notation fsqrt := (fsqrt prec emax Hp Hm).
Local Notation fisInf := (fisInf prec emax).

(** l.1845: bv *)
Definition tanh_bv (sv tv : num) : num := fmul sv (fadd fone (fmul tv tv)).
(** l.1846: dv *)
Definition tanh_dv (sv tv : num) : num := fadd fone (fmul (tanh_bv sv tv) sv).
(** l.1848-1856, from sv = sinh of the real part and tv = tan of the imaginary part *)
Definition tanh_parts (sv tv : num) : num * num :=
  let bv := tanh_bv sv tv in
  let dv := tanh_dv sv tv in
  if fisInf dv then ((if flt sv fzero then Bopp fone else fone), fzero)
  else (fdiv (fmul (fsqrt (fadd fone (fmul sv sv))) bv) dv, fdiv tv dv).

Variables (libTan libSinh : num -> num).
(** tanh l.1841-1857 *)
Definition fctanh (re im : num) : num * num := tanh_parts (libSinh re) (libTan im).
(** tan l.2017-2021 *)
Definition fctan (re im : num) : num * num := let zv := fctanh (Bopp im) re in (snd zv, Bopp (fst zv)).
End Float.
