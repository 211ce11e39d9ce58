(** Complex<float> and Complex<double> as elements of arrays: the operators that the bundled BLAS and the matrix products
    use on them (librapid/include/librapid/math/complex.hpp; the products themselves are BlasModel and MatmulModel, the
    multiplication is NumModel.cmul).
    Simplifications: those of AccModel; a complex number is the pair (real, imag), the SIMD representation of the two parts is not
    modelled. *)
From Coq Require Import ZArith Bool.
From Flocq Require Import Core BinarySingleNaN.
From Verif Require Import AccModel NumModel.

Section Cac.
Variables prec emax : Z.
Context (Hp : Prec_gt_0 prec) (Hm : Prec_lt_emax prec emax).
Local Notation complex := (fcomplex prec emax).

(** Complex(0) and Complex(1): the constructor from a real number sets the imaginary part to zero, l.430-440 *)
Definition czero : complex := (fzero prec emax, fzero prec emax).
Definition cone : complex := (fone prec emax Hp Hm, fzero prec emax).
(** _add, l.708-712, operator+, l.805-812 *)
Definition cadd (z w : complex) : complex := (fadd prec emax Hp Hm (fst z) (fst w), fadd prec emax Hp Hm (snd z) (snd w)).
(** operator==, l.1023-1027, with Complex(0) *)
Definition cis_zero (z : complex) : bool := fis_zero prec emax (fst z) && fis_zero prec emax (snd z).
(** conj, l.1139-1142; cxxblas::conjugate, l.2099-2102 *)
Definition cconj (z : complex) : complex := (fst z, fneg prec emax (snd z)).
End Cac.
