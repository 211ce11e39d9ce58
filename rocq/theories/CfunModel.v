(** Model of the logarithm, powers and inverse functions of Complex numbers.
    Source: librapid/include/librapid/math/complex.hpp.
    Simplification as in ComplexModel: the components are real numbers (no rounding, overflow, infinities or NaN).  The one bit that reals
    lack and these functions use, the sign of a zero component, is passed separately ([ni]: sign bit of the imaginary,
    [nr]: of the real component). *)
From Coq Require Import Reals ZArith Bool.
From Verif Require Import ComplexModel.
Local Open Scope R_scope.

(** What differs between component types.  [n_signed]: a fundamental type, where copySign (utils/memUtils.hpp l.66-78) is std::copysign;
    otherwise (multi-precision) it tests [sign < 0].  The constants of the square root and of the logarithm
    are exact, as on the multi-precision path.  [n_logP1]: logP1; [n_arcBig]: 0.25 * sqrt(max). *)
Record num := { n_signed : bool; n_arcBig : R; n_legTiny : R; n_digits : Z; n_logP1 : R -> R }.
Definition copy_sign (n : num) (mag : R) (bit : bool) (s : R) : R :=
  if n_signed n then (if bit then - Rabs mag else Rabs mag) else if rlt s 0 then - mag else mag.

(** sqrt l.1786-1827, as ComplexModel.csqrt, with the sign bit of the imaginary part *)
Definition root (n : num) (ni : bool) (z : cx) : cx :=
  let '(rho, otherExp) := fabs true (sqrt 2) 0 (sqrt 2 + 1) (n_legTiny n) (n_digits n) z in
  if (otherExp =? 0)%Z then
    if req rho 0 then mk 0 (im z) else mk rho rho
  else
    let realMag := ldexp (Rabs (re z)) (- otherExp) in
    let rho := ldexp (sqrt (2 * (realMag + rho))) (Z.quot otherExp 2 - 1) in
    if rle 0 (re z) then mk rho (im z / (2 * rho))
    else mk (Rabs (im z / (2 * rho))) (copy_sign n rho ni (im z)).

(** std::atan2 with the sign bit of the first argument *)
Definition atan2s (bit : bool) (y x : R) : R := if rlt x 0 && req y 0 then (if bit then - PI else PI) else atan2 y x.

(** ** Logarithm and powers *)
(** log l.1674-1678 with _logAbs l.1651-1668 (logHypot on the multi-precision path, l.326-327) *)
Definition clog (ni : bool) (z : cx) : cx := mk (ln (cabs z)) (atan2s ni (im z) (re z)).
(** log(z, base) for a complex base l.1689-1693 and a real base l.1704-1711; log2 l.1954-1957, log10 l.1963-1966 *)
Definition clog_base (ni bi : bool) (z base : cx) : option cx := div (clog ni z) (clog bi base).
Definition clog_real (ni : bool) (z : cx) (base : R) : cx := div_r (clog ni z) (ln base).
Definition clog2 (ni : bool) (z : cx) : cx := div_r (clog ni z) (ln 2).
Definition clog10 (ni : bool) (z : cx) : cx := div_r (clog ni z) (ln 10).
(** std::pow on reals, for a non-negative base (0^y with y < 0 is infinite: not modelled) *)
Definition rpow (x y : R) : R := if req x 0 then (if req y 0 then 1 else 0) else Rpower x y.
(** _pow l.1713-1720 *)
Definition pow_rr (left right : R) : cx :=
  if rle 0 left then mk (rpow left right) 0 else cexp (mul_l right (clog false (of_real left))).
(** pow(Complex, scalar) l.1728-1740 *)
Definition pow_cr (ni : bool) (left : cx) (right : R) : cx :=
  if req (im left) 0 then (if ni then conj (pow_rr (re left) right) else pow_rr (re left) right)
  else cexp (mul_l right (clog ni left)).
(** pow(scalar, Complex) l.1748-1758 *)
Definition pow_rc (left : R) (right : cx) : cx :=
  if req (im right) 0 then pow_rr left (re right)
  else if rlt 0 left then cexp (mul_r right (ln left))
  else cexp (mul right (clog false (of_real left))).
(** pow(Complex, Complex) l.1765-1774 *)
Definition pow_cc (ni : bool) (left right : cx) : cx :=
  if req (im right) 0 then pow_cr ni left (re right)
  else if req (im left) 0 && rlt 0 (re left) then cexp (mul_r right (ln (re left)))
  else cexp (mul right (clog ni left)).
(** exp2 l.1553-1556, exp10 l.1563-1566, cbrt l.1829-1833 *)
Definition cexp2 (z : cx) : cx := pow_rc 2 z.
Definition cexp10 (z : cx) : cx := pow_rc 10 z.
Definition ccbrt (ni : bool) (z : cx) : cx := pow_cr ni z (1 / 3).

(** ** Inverse functions, finite arguments *)
(** std::asinh *)
Definition rasinh (x : R) : R := ln (x + sqrt (x * x + 1)).
(** the correction for a scaled argument, e.g. l.1214-1221 *)
Definition unscale (alpha v : R) : R := if req alpha 0 then v else if rle 0 v then v + ln alpha else v - ln alpha.
(** acos l.1188-1222 *)
Definition cacos (n : num) (ni : bool) (z : cx) : cx :=
  let wx := root n (negb ni) (mk (1 + re z) (- im z)) in
  let zx := root n (negb ni) (mk (1 - re z) (- im z)) in
  let ux := 2 * atan2 (re zx) (re wx) in
  let '(alpha, beta) :=
    if rlt (n_arcBig n) (re wx) then (re wx, im zx + im wx * (re zx / re wx))
    else if rlt (n_arcBig n) (im wx) then (im wx, re wx * (im zx / im wx) + re zx)
    else if rlt (im wx) (- n_arcBig n) then (- im wx, re wx * (im zx / - im wx) - re zx)
    else (0, re wx * im zx + im wx * re zx) in
  mk ux (unscale alpha (rasinh beta)).
(** acosh l.1270-1299 *)
Definition cacosh (n : num) (ni : bool) (z : cx) : cx :=
  let wx := root n (negb ni) (mk (re z - 1) (- im z)) in
  let zx := root n ni (mk (re z + 1) (im z)) in
  let '(alpha, beta) :=
    if rlt (n_arcBig n) (re wx) then (re wx, re zx - im wx * (im zx / re wx))
    else if rlt (n_arcBig n) (im wx) then (im wx, re wx * (re zx / im wx) - im zx)
    else (0, re wx * re zx - im wx * im zx) in
  mk (unscale alpha (rasinh beta)) (2 * atan2 (im (root n ni (mk (re z - 1) (im z)))) (re zx)).
(** asinh l.1345-1376 *)
Definition casinh (n : num) (nr : bool) (z : cx) : cx :=
  let wx := root n nr (mk (1 - im z) (re z)) in
  let zx := root n (negb nr) (mk (1 + im z) (- re z)) in
  let '(alpha, beta) :=
    if rlt (n_arcBig n) (re wx) then (re wx, im wx * (re zx / re wx) - im zx)
    else if rlt (n_arcBig n) (im wx) then (im wx, re zx - re wx * (im zx / im wx))
    else if rlt (im wx) (- n_arcBig n) then (- im wx, - re zx - re wx * (im zx / - im wx))
    else (0, im wx * re zx - re wx * im zx) in
  mk (unscale alpha (rasinh beta)) (atan2 (im z) (re (mul wx zx))).
(** asin l.1392-1396 *)
Definition casin (n : num) (ni : bool) (z : cx) : cx :=
  let a := casinh n (negb ni) (mk (- im z) (re z)) in mk (im a) (- re a).
(** atanh l.1432-1460; at +/-1 the result is infinite ([None]) *)
Definition catanh (n : num) (nr ni : bool) (z : cx) : option cx :=
  let i := im z in
  let magIm := Rabs i in
  let r := Rabs (re z) in
  let piBy2 := PI / 2 in
  let finish ux vx := Some (mk (copy_sign n ux nr (re z)) vx) in
  if rlt (n_arcBig n) r then
    let fx := i / r in finish (1 / r / (1 + fx * fx)) (copy_sign n piBy2 ni i)
  else if rlt (n_arcBig n) magIm then
    let fx := r / i in finish (fx / i / (1 + fx * fx)) (copy_sign n piBy2 ni i)
  else if negb (req r 1) then
    let reFrom1 := 1 - r in
    let imEps2 := magIm * magIm in
    finish (/ 4 * n_logP1 n (4 * r / (reFrom1 * reFrom1 + imEps2))) (/ 2 * atan2s ni (2 * i) (reFrom1 * (1 + r) - imEps2))
  else if req i 0 then None
  else finish (ln (sqrt (sqrt (4 + i * i)) / sqrt magIm)) (copy_sign n (/ 2 * (piBy2 + atan2 magIm 2)) ni i).
(** atan l.1474-1478 *)
Definition catan (n : num) (nr ni : bool) (z : cx) : option cx :=
  match catanh n (negb ni) nr (mk (- im z) (re z)) with Some a => Some (mk (im a) (- re a)) | None => None end.
(** acsc l.1928-1930, asec l.1937-1939, acot l.1946-1948; the sign bits are those of the components of 1 / z *)
Definition cacsc (n : num) (ni : bool) (z : cx) : option cx := match div_l 1 z with Some r => Some (casin n ni r) | None => None end.
Definition casec (n : num) (ni : bool) (z : cx) : option cx := match div_l 1 z with Some r => Some (cacos n ni r) | None => None end.
Definition cacot (n : num) (nr ni : bool) (z : cx) : option cx := match div_l 1 z with Some r => catan n nr ni r | None => None end.

(** ** The logarithm of the modulus on a floating type *)
(** Fmp l.29-33, addSmallX2 l.90-98 and l.107-113, addX2 l.55-65, addX1 l.120-126 *)
Definition addSmallX2 (x y : R) : R * R := let sum0 := x + y in let yMod := sum0 - x in (sum0, y - yMod).
Definition addSmallX2' (x : R) (y : R * R) : R * R :=
  let sum0 := addSmallX2 x (fst y) in addSmallX2 (fst sum0) (snd sum0 + snd y).
Definition addX2 (x y : R) : R * R :=
  let sum0 := x + y in
  let yMod := sum0 - x in
  let xMod := sum0 - yMod in
  (sum0, (x - xMod) + (y - yMod)).
Definition addX1 (x y : R * R) : R := let sum0 := addX2 (fst x) (fst y) in fst sum0 + (snd sum0 + (snd x + snd y)).
Section Float.
(** highHalf l.131-136: the leading bits of a number; any function here *)
Variable highHalf : R -> R.
(** limits: NumericInfo epsilon and max, HypotLegTiny, HypotLegHuge l.216-259; std::ilogb *)
Variables eps maxv legTiny legHuge cm cl : R.
Variable ilogb : R -> Z.
(** sqrError l.173-191 without FMA, sqrX2 l.200-214 *)
Definition sqrError (x prod0 : R) : R :=
  let xHigh := highHalf x in
  let xLow := x - xHigh in
  ((xHigh * xHigh - prod0) + 2 * xHigh * xLow) + xLow * xLow.
Definition sqrX2 (x : R) : R * R := let prod0 := x * x in (prod0, sqrError x prod0).
(** normMinusOne l.269-276 *)
Definition normMinusOne (x y : R) : R := addX1 (addSmallX2' (-1) (sqrX2 x)) (sqrX2 y).
(** logP1 l.286-312 *)
Definition logP1 (x : R) : R :=
  if rle x (- / 2) || rle 2 x then (if req x maxv then ln x else ln (1 + x))
  else if rlt (Rabs x) eps then (if req x 0 then x else x - / 2 * x * x)
  else let tmp := addSmallX2 1 x in ln (fst tmp) + snd tmp / fst tmp.
(** logHypot l.322-379, finite arguments *)
Definition logHypot (x y : R) : R :=
  let a0 := Rabs x in
  let b0 := Rabs y in
  let absX := if rlt a0 b0 then b0 else a0 in
  let absY := if rlt a0 b0 then a0 else b0 in
  if req absY 0 then ln absX
  else if rlt legTiny absX && rlt absX legHuge then
    let absYSqr := absY * absY in
    if req absX 1 then logP1 absYSqr * / 2
    else
      let norm := absX * absX + absYSqr in
      if rlt (/ 2) norm && rlt norm 3 then logP1 (normMinusOne absX absY) * / 2
      else ln norm * / 2
  else
    let e := ilogb absX in
    let absXScaled := ldexp absX (- e) in
    let absYScaled := ldexp absY (- e) in
    let absYScaledSqr := absYScaled * absYScaled in
    let normScaled := absXScaled * absXScaled + absYScaledSqr in
    let realShifted := ln normScaled * / 2 in
    (realShifted + IZR e * cl) + IZR e * cm.
End Float.
