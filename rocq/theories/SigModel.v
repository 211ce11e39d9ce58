(** The Sigmoid activation over float and double: ml/activations.hpp with IEEE 754 arithmetic (see AccModel for the format and the
    simplifications).  The same code over real numbers is in DualModel. *)
From Coq Require Import ZArith.
From Flocq Require Import Core BinarySingleNaN.
From Verif Require Import AccModel NumModel.

Section Sigmoid.
Variables prec emax : Z.
Context (Hp : Prec_gt_0 prec) (Hm : Prec_lt_emax prec emax).
Local Notation num := (binary_float prec emax).
(** exp of the C++ library or of xsimd *)
Variable expf : num -> num.
(** Sigmoid::forward, l.93, 107, 122: StorageScalar(1) / (StorageScalar(1) + exp(-src)), each element *)
Definition fforward (src : num) : num :=
  fdiv prec emax Hp Hm (fone prec emax Hp Hm) (fadd prec emax Hp Hm (fone prec emax Hp Hm) (expf (fneg prec emax src))).
(** Sigmoid::backward, l.100, 114, 130: src * (StorageScalar(1) - src), each element *)
Definition fbackward (src : num) : num :=
  fmul prec emax Hp Hm src (fsub prec emax Hp Hm (fone prec emax Hp Hm) src).
End Sigmoid.
