(** Applying a Givens rotation to vectors of float or double: rot of librapid/cxxblas/level1/rot.tcc l.41-58 ([BlasModel.rot]) with the
    IEEE 754 operators of [AccModel] and [NumModel] (same simplifications).  rotg is [NrmModel.frotg]. *)
From Coq Require Import ZArith List.
From Flocq Require Import Core BinarySingleNaN.
From Verif Require Import Base BlasModel AccModel NumModel.

Section Float.
Variables prec emax : Z.
Context (Hp : Prec_gt_0 prec) (Hm : Prec_lt_emax prec emax).
Definition frot (n x incX y incY : Z) (c s : binary_float prec emax) (m : list (binary_float prec emax)) : outcome (list (binary_float prec emax)) :=
  rot (fadd prec emax Hp Hm) (fmul prec emax Hp Hm) (fneg prec emax) n x incX y incY c s m.
End Float.
