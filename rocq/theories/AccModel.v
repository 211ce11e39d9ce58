(** The element types float and double for the sums and products of the library: IEEE 754 binary
    arithmetic, rounding to nearest even, as Flocq defines it.  Instances of the generic code in
    [BlasModel], [MatmulModel] and [VectorModel].
    [prec] is the number of bits of the mantissa and 2^emax the overflow threshold: 24 and 128 for
    float, 53 and 1024 for double.
    Simplifications: all NaNs are one value; operations are rounded one by one (no -ffast-math, which is
    off by default, CMakeLists.txt l.52, 428-435, no contraction to fma, no excess precision). *)
From Coq Require Import ZArith.
From Flocq Require Import Core BinarySingleNaN.

Section Float.
Variables prec emax : Z.
Context (Hp : Prec_gt_0 prec) (Hm : Prec_lt_emax prec emax).

(** The C++ operators on float and double, as used in the source lines cited in BlasModel,
    MatmulModel and VectorModel *)
Local Notation num := (binary_float prec emax).
Definition fzero : num := B754_zero false.
Definition fone : num := Bone.
Definition fadd (x y : num) : num := Bplus mode_NE x y.
Definition fmul (x y : num) : num := Bmult mode_NE x y.
(** x == 0: both zeros *)
Definition fis_zero (x : num) : bool := match x with B754_zero _ => true | _ => false end.
(** abs(x), also abs1 of a real number (asum.tcc l.41-57) *)
Definition fabs (x : num) : num := Babs x.
(** conjugate of a real number, auxiliary/complex.h *)
Definition fconj (x : num) : num := x.
End Float.
