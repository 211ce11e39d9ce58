(** Model of the scalar helpers: math/round.hpp, math/utilityFunctions.hpp, min/max/abs/map/mod of
    math/coreMath.hpp and src/fastMath.cpp.

    A floating-point number is a rational (every finite float is one) and its arithmetic is exact: IEEE
    rounding, overflow, infinities, NaN and the sign of zero are left out.  Integer instantiations work on Z
    without overflow. *)
From Coq Require Import QArith Qround.
From Verif Require Import Base.
Local Open Scope Q_scope.

Definition qlt (a b : Q) : bool := negb (Qle_bool b a).

(* coreMath.hpp l.59-63: abs. *)
Definition qabs (x : Q) : Q := if qlt x 0 then - x else x.
(* std::copysign, as ::librapid::copySign calls it. *)
Definition copySign (mag sgn : Q) : Q := if qlt sgn 0 then - qabs mag else qabs mag.
(* static_cast from a floating-point to an integer type: the fraction is dropped. *)
Definition qtrunc (x : Q) : Z := if qlt x 0 then (- Qfloor (- x))%Z else Qfloor x.
(* std::fmod; coreMath.hpp l.92-99: mod. *)
Definition fmod (x y : Q) : Q := x - y * inject_Z (qtrunc (x / y)).

(* coreMath.hpp l.21-34 and l.40-53: variadic min and max. *)
Fixpoint vmin (v : Q) (vs : list Q) : Q := match vs with [] => v | w :: ws => if qlt v w then vmin v ws else vmin w ws end.
Fixpoint vmax (v : Q) (vs : list Q) : Q := match vs with [] => v | w :: ws => if qlt w v then vmax v ws else vmax w ws end.
(* coreMath.hpp l.77-80: map on floating-point and on integer arguments. *)
Definition qmap (val start1 stop1 start2 stop2 : Q) : Q :=
  start2 + (val - start1) * (stop2 - start2) / (stop1 - start1).
Definition zmap (val start1 stop1 start2 stop2 : Z) : Z :=
  (start2 + Z.quot ((val - start1) * (stop2 - start2)) (stop1 - start1))%Z.

(* src/fastMath.cpp l.4-31: pow10.  The literals 0.1 ... are taken at their decimal value. *)
Definition pows : list Q :=
  [1 # 10000000; 1 # 1000000; 1 # 100000; 1 # 10000; 1 # 1000; 1 # 100; 1 # 10; 1 # 1;
   10 # 1; 100 # 1; 1000 # 1; 10000 # 1; 100000 # 1; 1000000 # 1; 1000000 # 1].
Definition pow10 (exponent : Z) : Q :=
  if (-7 <=? exponent)%Z && (exponent <=? 7)%Z then nth (Z.to_nat (exponent + 7)) pows 0
  else if (0 <? exponent)%Z then Nat.iter (Z.to_nat exponent) (fun res => res * (10 # 1)) 1
  else Nat.iter (Z.to_nat (- exponent)) (fun res => res * (1 # 10)) 1.

(* round.hpp l.5-19: RoundingMode. *)
Definition UP : Z := 3.
Definition DOWN : Z := 0.
Definition TRUNC : Z := 0.
Definition HALF_EVEN : Z := 20.
Definition MATH : Z := 1.

(* round.hpp l.21-38: round<double>; (uint64_t)y is undefined when y does not fit. *)
Definition round (num : Q) (dp mode : Z) : outcome Q :=
  let alpha := pow10 dp in
  let beta := pow10 (- dp) in
  let absNum := qabs (num * alpha) in
  let y := inject_Z (Qfloor absNum) in
  let diff := absNum - y in
  let y := if Z.testbit mode 0 && Qle_bool (1 # 2) diff then y + 1 else y in
  do y <- (if Z.testbit mode 2 then
             if Qle_bool (inject_Z (2 ^ 64)) y then UB
             else let integer := Qfloor y in
                  let nearestEven := if Z.odd integer then y + 1 else inject_Z integer in
                  Ok (if Z.testbit mode 4 && Qeq_bool diff (1 # 2) then nearestEven else y)
           else Ok y);
  Ok (copySign (y * beta) num).
(* the same with an integer T: the argument is exact as a double, the result is cast back. *)
Definition round_int (num : Z) (dp mode : Z) : outcome Z := omap qtrunc (round (inject_Z num) dp mode).

(* round.hpp l.67-74: roundTo<double, double>, and with integers. *)
Definition roundTo (num val : Q) : Q :=
  if Qeq_bool num 0 then 0
  else let rem := fmod (qabs num) val in
       if Qle_bool (val / (2 # 1)) rem then copySign (qabs num + val - rem) num
       else copySign (num - rem) num.
Definition zcopySign (mag sgn : Z) : Z := if (sgn <? 0)%Z then (- Z.abs mag)%Z else Z.abs mag.
Definition roundTo_int (num val : Z) : Z :=
  (if num =? 0 then 0
   else let rem := Z.rem (Z.abs num) val in
        if Z.quot val 2 <=? rem then zcopySign (Z.abs num + val - rem) num
        else zcopySign (num - rem) num)%Z.

(* round.hpp l.87-92: roundUpTo<double, double>, and with integers. *)
Definition roundUpTo (num val : Q) : Q :=
  let rem := fmod num val in
  if Qeq_bool rem 0 then num else num + val - rem.
Definition roundUpTo_int (num val : Z) : Z :=
  (let rem := Z.rem num val in if rem =? 0 then num else num + val - rem)%Z.

(* round.hpp l.106-132: roundSigFig.  The while loops get fuel; None = not finished.  Scalar is double for
   floating-point T and T itself otherwise. *)
Fixpoint scale_down (fuel : nat) (tmp : Q) (n : Z) : option (Q * Z) :=
  match fuel with
  | O => None
  | S fuel => if qlt (10 # 1) tmp then scale_down fuel (tmp / (10 # 1)) (n + 1) else Some (tmp, n)
  end.
Fixpoint scale_up (fuel : nat) (tmp : Q) (n : Z) : option (Q * Z) :=
  match fuel with
  | O => None
  | S fuel => if qlt tmp 1 then scale_up fuel (tmp * (10 # 1)) (n - 1) else Some (tmp, n)
  end.
Definition roundSigFig (asserts : bool) (fuel : nat) (num : Q) (figs : Z) : option (outcome Q) :=
  if asserts && (figs <=? 0)%Z then Some (Throw RuntimeError)
  else if Qeq_bool num 0 then Some (Ok 0)
  else match scale_down fuel (qabs num) 0 with
       | None => None
       | Some (tmp, n) =>
           match scale_up fuel tmp n with
           | None => None
           | Some (tmp, n) => Some (do r <- round tmp (figs - 1) MATH; Ok (copySign (r * pow10 n) num))
           end
       end.
Fixpoint scale_down_int (fuel : nat) (tmp n : Z) : option (Z * Z) :=
  match fuel with
  | O => None
  | S fuel => if (10 <? tmp)%Z then scale_down_int fuel (Z.quot tmp 10) (n + 1) else Some (tmp, n)
  end.
(* tmp < one cannot hold after the first loop when num <> 0. *)
Definition roundSigFig_int (fuel : nat) (num figs : Z) : option (outcome Z) :=
  if (num =? 0)%Z then Some (Ok 0%Z)
  else match scale_down_int fuel (Z.abs num) 0 with
       | None => None
       | Some (tmp, n) =>
           Some (do r <- round_int tmp (figs - 1) MATH;
                 Ok (zcopySign (qtrunc (inject_Z r * pow10 n)) num))
       end.

(* utilityFunctions.hpp l.20-30: clamp. *)
Definition clamp (asserts : bool) (x lowerLimit upperLimit : Q) : outcome Q :=
  if asserts && negb (qlt lowerLimit upperLimit) then Throw RuntimeError
  else if qlt x lowerLimit then Ok lowerLimit
  else if qlt upperLimit x then Ok upperLimit
  else Ok x.
(* utilityFunctions.hpp l.43-70: lerp on floating-point arguments that are not NaN (FMA is not defined). *)
Definition lerp (t lower upper : Q) : Q :=
  if (Qle_bool t 0 && Qle_bool 0 upper) || (Qle_bool 0 lower && Qle_bool upper 0)
  then t * upper + (1 - t) * lower
  else if Qeq_bool t 1 then upper
  else let x := lower + t * (upper - lower) in
       if Bool.eqb (qlt 1 t) (qlt lower upper) then vmax upper [x] else vmin upper [x].
(* utilityFunctions.hpp l.84-94: lerp with some non-floating-point argument (values converted to ST). *)
Definition lerp_mixed (t lower upper : Q) : Q := lower + (upper - lower) * t.
(* utilityFunctions.hpp l.112-121: smoothStep. *)
Definition smoothStep (asserts : bool) (t lowerEdge upperEdge : Q) : outcome Q :=
  do u <- clamp asserts ((t - lowerEdge) / (upperEdge - lowerEdge)) 0 1;
  Ok (u * u * u * (u * (u * (6 # 1) - (15 # 1)) + (10 # 1))).
(* utilityFunctions.hpp l.141-147: isClose. *)
Definition isClose (val1 val2 absTol relTol : Q) : bool :=
  Qle_bool (qabs (val2 - val1)) (vmax (relTol * vmax (qabs val1) [qabs val2]) [absTol]).
