(** Triangular matrices with many right-hand sides over float and double: the routines of [TriModel]
    (cxxblas/level3/{trmm,trsm}.tcc) with the IEEE 754 operators of [AccModel] and [NumModel]
    (same simplifications).  conjugate is the identity on real numbers. *)
From Coq Require Import ZArith.
From Flocq Require Import Core BinarySingleNaN.
From Verif Require Import Base MatmulModel BlasModel TriModel AccModel NumModel.

Section Trl.
Variables prec emax : Z.
Context (Hp : Prec_gt_0 prec) (Hm : Prec_lt_emax prec emax).
Local Notation num := (binary_float prec emax).
(** level3/trmm.tcc l.40-71: the products first, then gescal_init by alpha *)
Definition ftrmm (o : order) (sd : side) (up : uplo) (t : trans) (dg : diag) (rows cols : Z) (alpha : num) (a lda b ldb : Z)
    (m : list num) : outcome (list num) :=
  trmm (fzero prec emax) (fadd prec emax Hp Hm) (fmul prec emax Hp Hm) (fconj prec emax) (fis_zero prec emax)
    o sd up t dg rows cols alpha a lda b ldb m.
(** level3/trsm.tcc l.40-71: the systems first, then gescal by alpha *)
Definition ftrsm (o : order) (sd : side) (up : uplo) (t : trans) (dg : diag) (rows cols : Z) (alpha : num) (a lda b ldb : Z)
    (m : list num) : outcome (list num) :=
  trsm (fzero prec emax) (fadd prec emax Hp Hm) (fsub prec emax Hp Hm) (fmul prec emax Hp Hm) (fdiv prec emax Hp Hm) (fconj prec emax)
    o sd up t dg rows cols alpha a lda b ldb m.
End Trl.
