(** Model of the doubled-precision arithmetic behind the complex logarithm: detail::multiprec
    (math/complex.hpp l.28-216), normMinusOne (l.262-276) and logP1 (l.286-312).

    Floating-point values are the real numbers of a binary format with [prec] bits and smallest exponent
    [emin] (gradual underflow); each operation rounds to nearest, ties to even.  Overflow is not modelled:
    the numbers here have no largest exponent, so a statement about them is about C++ as long as no
    intermediate result reaches 2^1024 (double) or 2^128 (float). *)
From Coq Require Import ZArith Reals.
From Flocq Require Import Core.
Open Scope R_scope.

(** x op y in the format: the exact result, rounded. *)
Definition rnd (prec emin : Z) (x : R) : R := round radix2 (FLT_exp emin prec) ZnearestE x.
Definition rnd64 : R -> R := rnd 53 (-1074).   (* double *)
Definition rnd32 : R -> R := rnd 24 (-149).    (* float *)

(** Fmp, l.30-34 *)
Record fmp := Fmp { val0 : R; val1 : R }.

Section Arithmetic.
Variable rn : R -> R.

(** addX2, l.55-65 *)
Definition addX2 (x y : R) : fmp :=
  let sum0 := rn (x + y) in
  let yMod := rn (sum0 - x) in
  let xMod := rn (sum0 - yMod) in
  let yErr := rn (y - yMod) in
  let xErr := rn (x - xMod) in
  Fmp sum0 (rn (xErr + yErr)).

(** addSmallX2, l.90-98 *)
Definition addSmallX2 (x y : R) : fmp :=
  let sum0 := rn (x + y) in
  let yMod := rn (sum0 - x) in
  let yErr := rn (y - yMod) in
  Fmp sum0 yErr.

(** addSmallX2 with a 2x precision operand, l.108-113 *)
Definition addSmallX2_fmp (x : R) (y : fmp) : fmp :=
  let sum0 := addSmallX2 x (val0 y) in
  addSmallX2 (val0 sum0) (rn (val1 sum0 + val1 y)).

(** addX1, l.120-126 *)
Definition addX1 (x y : fmp) : R :=
  let sum0 := addX2 (val0 x) (val0 y) in
  rn (val0 sum0 + rn (val1 sum0 + rn (val1 x + val1 y))).

(** sqrError with a fused multiply-subtract, l.148-170 *)
Definition sqrError_fma (x prod0 : R) : R := rn (x * x - prod0).

(** sqrError without one, l.174-180 (double) and l.187-192 (other types); [xHigh] is highHalf(x). *)
Definition sqrError_split (xHigh x prod0 : R) : R :=
  let xLow := rn (x - xHigh) in
  rn (rn (rn (rn (xHigh * xHigh) - prod0) + rn (rn (2 * xHigh) * xLow)) + rn (xLow * xLow)).

(** normMinusOne, l.269-276, from the squares of x and y *)
Definition normMinusOne (xSqr ySqr : fmp) : R :=
  let xSqrM1 := addSmallX2_fmp (-1) xSqr in
  addX1 xSqrM1 ySqr.

(** logP1, l.286-312, for finite x; [lg] is ::librapid::log, [eps] the epsilon of the type.  The test for
    the largest finite x (l.297) returns the same logarithm up to rounding and is left out. *)
Variable lg : R -> R.
Variable eps : R.
Definition logP1 (x : R) : R :=
  if Rle_dec x (- / 2) then lg (rn (1 + x))
  else if Rle_dec 2 x then lg (rn (1 + x))
  else if Rlt_dec (Rabs x) eps then
    if Req_EM_T x 0 then x else rn (x - rn (rn (/ 2 * x) * x))
  else
    let tmp := addSmallX2 1 x in
    rn (lg (val0 tmp) + rn (val1 tmp / val0 tmp)).

End Arithmetic.

(** The number with the binary64 bit pattern [b] (bitCast<double>); patterns with exponent field 2047 are
    not numbers and are given a meaningless value. *)
Definition magnitude (m : Z) : R :=
  let E := (m / 2 ^ 52)%Z in
  let f := (m mod 2 ^ 52)%Z in
  if (E =? 0)%Z then IZR f * bpow radix2 (-1074) else IZR (2 ^ 52 + f) * bpow radix2 (E - 1075).
Definition val64 (b : Z) : R :=
  if (b <? 2 ^ 63)%Z then magnitude b else - magnitude (b - 2 ^ 63).

(** highHalf, l.131-136: on the 64 bits of a double *)
Definition highHalf (b : Z) : Z :=
  Z.land ((b + 0x3ffffff) mod 2 ^ 64) 0xfffffffff8000000.

(** sqrX2 for double, l.200-204 *)
Definition sqrX2_fma (x : R) : fmp :=
  let prod0 := rnd64 (x * x) in Fmp prod0 (sqrError_fma rnd64 x prod0).
Definition sqrX2_split (b : Z) : fmp :=
  let x := val64 b in
  let prod0 := rnd64 (x * x) in Fmp prod0 (sqrError_split rnd64 (val64 (highHalf b)) x prod0).

(** sqrX2<float>, l.210-214, with the template sqrError: highHalf(x) converts the float to a double
    (whose bits are [b]) and the result is converted back. *)
Definition sqrX2_float (b : Z) : fmp :=
  let x := val64 b in
  let prod0 := rnd32 (x * x) in Fmp prod0 (sqrError_split rnd32 (rnd32 (val64 (highHalf b))) x prod0).

(** normMinusOne<double>, l.269-276, with and without a fused multiply-subtract, on the bits of x and y *)
Definition normMinusOne_fma (bx by_ : Z) : R := normMinusOne rnd64 (sqrX2_fma (val64 bx)) (sqrX2_fma (val64 by_)).
Definition normMinusOne_split (bx by_ : Z) : R := normMinusOne rnd64 (sqrX2_split bx) (sqrX2_split by_).
(** normMinusOne<float>; the floats are given by the bits of the same numbers as doubles *)
Definition normMinusOne_float (bx by_ : Z) : R := normMinusOne rnd32 (sqrX2_float bx) (sqrX2_float by_).
(** logP1<double>; epsilon is 2^-52 *)
Definition logP1_64 (lg : R -> R) (x : R) : R := logP1 rnd64 lg (bpow radix2 (-52)) x.

(** logHypot<double>, l.345-364, once absX and absY are ordered and absX is neither tiny nor huge:
    [bx] and [by_] are the bits of absX and absY, [sq] is sqrX2 on bits. *)
Definition legTiny : R := 14156865331029228 / 10 ^ 162.   (* HypotLegTiny<double>, l.247 *)
Definition legHuge : R := 6703903964971298 * 10 ^ 138.    (* HypotLegHuge<double>, l.229 *)
Definition logHypot_mid (sq : Z -> fmp) (lg : R -> R) (bx by_ : Z) : R :=
  let x := val64 bx in
  let y := val64 by_ in
  let ySqr := rnd64 (y * y) in
  if Req_EM_T x 1 then rnd64 (logP1_64 lg ySqr * / 2)
  else
    let norm := rnd64 (rnd64 (x * x) + ySqr) in
    if Rlt_dec (/ 2) norm then
      if Rlt_dec norm 3 then rnd64 (logP1_64 lg (normMinusOne rnd64 (sq bx) (sq by_)) * / 2)
      else rnd64 (lg norm * / 2)
    else rnd64 (lg norm * / 2).
Definition square_fma (b : Z) : fmp := sqrX2_fma (val64 b).
