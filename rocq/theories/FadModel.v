(** Adding and scaling vectors and matrices of float or double: the routines of [BlasModel], [ExtModel] and [SymModel] (sources named
    there: librapid/cxxblas/level1/{axpy,scal}.tcc, level1extensions/{axpby,raxpy,rscal,geaxpy,geaxpby,geraxpy,gerscal}.tcc,
    level2/ger.tcc) with the IEEE 754 operators of [AccModel] and [NumModel] (same simplifications).  The conjugate of a real number is
    the number. *)
From Coq Require Import ZArith List.
From Flocq Require Import Core BinarySingleNaN.
From Verif Require Import Base BlasModel TriModel ExtModel SymModel AccModel NumModel.

Section Float.
Variables prec emax : Z.
Context (Hp : Prec_gt_0 prec) (Hm : Prec_lt_emax prec emax).
Local Notation num := (binary_float prec emax).
Local Notation add := (fadd prec emax Hp Hm).
Local Notation mul := (fmul prec emax Hp Hm).
Local Notation div := (fdiv prec emax Hp Hm).
Local Notation zero := (fzero prec emax).
Local Notation is_zero := (fis_zero prec emax).
Local Notation conj := (fun v : num => v).
(** axpy.tcc l.41-58 *)
Definition faxpy (alpha : num) : @vop num := axpy_op add mul alpha.
(** axpby.tcc l.41-48 *)
Definition faxpby (alpha beta : num) : @vop num := axpby zero add mul is_zero alpha beta.
(** raxpy.tcc l.41-56 *)
Definition fraxpy (alpha : num) : @vop num := raxpy add div alpha.
(** scal.tcc l.40-62 *)
Definition fscal (alpha : num) (n y incY : Z) (m : list num) : outcome (list num) := scal mul n alpha y incY m.
(** rscal.tcc l.41-52 *)
Definition frscal (alpha : num) (n y incY : Z) (m : list num) : outcome (list num) := rscal div n alpha y incY m.
(** geaxpy.tcc l.41-82, geaxpby.tcc l.41-82, geraxpy.tcc l.41-66, gerscal.tcc l.41-54 *)
Definition fgeaxpy (alpha : num) := geaxpy add mul conj alpha.
Definition fgeaxpby (alpha beta : num) := geaxpby zero add mul conj is_zero alpha beta.
Definition fgeraxpy (asserts : bool) (alpha : num) := geraxpy add div conj asserts alpha.
Definition fgerscal := gerscal div.
(** ger.tcc l.41-54, 83-95 *)
Definition fger := geru add mul conj.
End Float.
