(** The real part of the complex logarithm for every double, detail::algorithm::logHypot (math/complex.hpp l.322-379) as called by
    _logAbs and log (l.1651-1678).  Doubles are given by their 64 bits, as in EftModel, whose middle branch (logHypot_mid) is used here.
    Simplifications: those of EftModel; a NaN has no sign and no payload; floating-point exceptions are not modelled. *)
From Coq Require Import ZArith Reals.
From Flocq Require Import Core.
From Verif Require Import EftModel.
Local Open Scope R_scope.

(** What a double can be *)
Inductive value := Num (v : R) | Inf (negative : bool) | NaN.
(** isFinite, isNaN, isInf on the bits (utils/memUtils.hpp l.36-61) *)
Definition decode (b : Z) : value :=
  if (b mod 2 ^ 63 / 2 ^ 52 =? 2047)%Z then
    if (b mod 2 ^ 52 =? 0)%Z then Inf (2 ^ 63 <=? b)%Z else NaN
  else Num (val64 b).
(** abs(x): the sign bit is cleared *)
Definition abs64 (b : Z) : Z := (b mod 2 ^ 63)%Z.

(** l.369-370: cm is exact; cl is a long double literal (64 bits) converted to double *)
Definition cm : R := 22713 / 32768.
Definition cl : R := rnd64 (rnd 64 (-16445) (14286068203094172321214581765680755 / 10000000000000000000000000000000000000000)).

(** l.365-379: absX is tiny or huge.  ilogb is the exponent of the leading bit, scalbn multiplies by a power of two and rounds *)
Definition logHypot_far (lg : R -> R) (bx by_ : Z) : R :=
  let x := val64 bx in
  let y := val64 by_ in
  let exp := (mag radix2 x - 1)%Z in
  let absXScaled := rnd64 (x * bpow radix2 (- exp)) in
  let absYScaled := rnd64 (y * bpow radix2 (- exp)) in
  let absYScaledSqr := rnd64 (absYScaled * absYScaled) in
  let normScaled := rnd64 (rnd64 (absXScaled * absXScaled) + absYScaledSqr) in
  let realShifted := rnd64 (lg normScaled * / 2) in
  rnd64 (rnd64 (realShifted + rnd64 (IZR exp * cl)) + rnd64 (IZR exp * cm)).

(** l.345-379: finite arguments.  [sq] is sqrX2 with or without a fused multiply-subtract, [lg] is log on positive numbers; log(0) is
    minus infinity *)
Definition logHypot_finite (sq : Z -> fmp) (lg : R -> R) (bx by_ : Z) : value :=
  let ax := abs64 bx in
  let ay := abs64 by_ in
  let p := if Rlt_dec (val64 ax) (val64 ay) then (ay, ax) else (ax, ay) in
  let absX := fst p in
  let absY := snd p in
  if Req_EM_T (val64 absY) 0 then
    if Req_EM_T (val64 absX) 0 then Inf true else Num (lg (val64 absX))
  else if Rlt_dec legTiny (val64 absX) then
    if Rlt_dec (val64 absX) legHuge then Num (logHypot_mid sq lg absX absY) else Num (logHypot_far lg absX absY)
  else Num (logHypot_far lg absX absY).

(** l.333-343, 345-379: a NaN added to anything is a NaN *)
Definition logHypot (sq : Z -> fmp) (lg : R -> R) (bx by_ : Z) : value :=
  match decode bx, decode by_ with
  | Num _, Num _ => logHypot_finite sq lg bx by_
  | NaN, _ => NaN
  | _, NaN => NaN
  | Inf s, _ => Inf s
  | _, Inf s => Inf s
  end.
