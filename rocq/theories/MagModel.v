(** The length and the direction of a Vector over float and double: math/vectorImpl.hpp with IEEE 754 arithmetic (see AccModel for
    the format and the simplifications, VectorModel for the algorithms). *)
From Coq Require Import ZArith List.
From Flocq Require Import Core BinarySingleNaN.
From Verif Require Import Base AccModel NumModel NrmModel VectorModel.

Section Length.
Variables prec emax : Z.
Context (Hp : Prec_gt_0 prec) (Hm : Prec_lt_emax prec emax).
Local Notation num := (binary_float prec emax).
Variables (w : nat) (asserts : bool).
(** mag2(val), l.1008-1012 *)
Definition fmag2 (junk : list num) (e : expr num) : outcome num :=
  mag2 w asserts (fzero prec emax) (fadd prec emax Hp Hm) (fmul prec emax Hp Hm) junk e.
(** mag(val) = sqrt(mag2(val)), l.1014-1018 *)
Definition fmag (junk : list num) (e : expr num) : outcome num := omap (fsqrt prec emax Hp Hm) (fmag2 junk e).
(** norm(val) = val / mag(val), l.1052-1056 *)
Definition fnorm (junk junk' : list num) (e : expr num) : outcome (vec num) :=
  norm w asserts (fzero prec emax) (fadd prec emax Hp Hm) (fmul prec emax Hp Hm) (fdiv prec emax Hp Hm) (fsqrt prec emax Hp Hm) junk junk' e.
End Length.
