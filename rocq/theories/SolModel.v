(** Products with a triangular matrix and triangular systems over float and double: the routines of [TriModel]
    (cxxblas/level2/{trmv,trsv}.tcc) with the IEEE 754 operators of [AccModel] and [NumModel]
    (same simplifications).  conjugate is the identity on real numbers. *)
From Coq Require Import ZArith.
From Flocq Require Import Core BinarySingleNaN.
From Verif Require Import Base MatmulModel BlasModel TriModel AccModel NumModel.

Section Sol.
Variables prec emax : Z.
Context (Hp : Prec_gt_0 prec) (Hm : Prec_lt_emax prec emax).
Local Notation num := (binary_float prec emax).
(** level2/trmv.tcc l.40-196 *)
Definition ftrmv (o : order) (up : uplo) (t : trans) (dg : diag) (n a lda x incX : Z) (m : list num) : outcome (list num) :=
  trmv (fzero prec emax) (fadd prec emax Hp Hm) (fmul prec emax Hp Hm) (fconj prec emax) o up t dg n a lda x incX m.
(** level2/trsv.tcc l.40-214 *)
Definition ftrsv (o : order) (up : uplo) (t : trans) (dg : diag) (n a lda x incX : Z) (m : list num) : outcome (list num) :=
  trsv (fzero prec emax) (fadd prec emax Hp Hm) (fsub prec emax Hp Hm) (fmul prec emax Hp Hm) (fdiv prec emax Hp Hm) (fconj prec emax)
    o up t dg n a lda x incX m.
End Sol.
