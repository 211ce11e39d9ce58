(** The product of a sparse matrix and a vector or matrix of float or double: the templates of [CrsModel] (sources named there:
    librapid/cxxblas/sparselevel2/gecrsmv.tcc, sparselevel3/gecrsmm.tcc) with the IEEE 754 operators of [AccModel] and [NumModel]
    (same simplifications).  The conjugate of a real number is the number. *)
From Coq Require Import ZArith List.
From Flocq Require Import Core BinarySingleNaN.
From Verif Require Import Base TriModel CrsModel AccModel NumModel.

Section Float.
Variables prec emax : Z.
Context (Hp : Prec_gt_0 prec) (Hm : Prec_lt_emax prec emax).
Local Notation num := (binary_float prec emax).
(** beta == BETA(1), gecrsmv.tcc l.74 and 114 *)
Definition fis_one (v : num) : bool := Beqb v (fone prec emax Hp Hm).
(** gecrsmv, gecrsmv.tcc l.43-145 *)
Definition fgecrsmv := gecrsmv (fzero prec emax) (fadd prec emax Hp Hm) (fmul prec emax Hp Hm) (fun v : num => v) (fis_zero prec emax) fis_one.
(** gecrsmm, gecrsmm.tcc l.43-55 *)
Definition fgecrsmm := gecrsmm (fzero prec emax) (fadd prec emax Hp Hm) (fmul prec emax Hp Hm) (fun v : num => v) (fis_zero prec emax) fis_one.
End Float.
