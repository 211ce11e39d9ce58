(** Model of Complex numbers.
    Source: librapid/include/librapid/math/complex.hpp.
    Simplification: the component type is the real numbers, so rounding, overflow, infinities
    and signed zeros are not modelled and the isNaN/isInf branches are not taken, except that
    "set the result to NaN" is [None].  The library functions on reals are the mathematical
    ones. *)
From Coq Require Import Reals ZArith List.
Local Open Scope R_scope.

(** m_val[RE], m_val[IM], l.780-782 *)
Record cx := mk { re : R; im : R }.

(** Constructors l.430, 440, 452 *)
Definition zero : cx := mk 0 0.
Definition of_real (r : R) : cx := mk r 0.

(** ** Assignment *)
(** operator=(const Complex<T> &) l.479-484 *)
Definition assign_same (z other : cx) : cx := mk (re other) (im other).
(** operator=(const T &) l.555-559 *)
Definition assign_scalar (z : cx) (other : R) : cx := mk other 0.
(** template operator=(const Complex<Other> &) l.568-573: both components are set from
    other.real() *)
Definition assign_other (z other : cx) : cx := mk (re other) (re other).
(** converting constructor l.465-466 *)
Definition construct_other (other : cx) : cx := mk (re other) (im other).

(** ** Compound assignment.
    The right operand is a reference; it may be a component of the left one (real() and
    imag() return references, l.538, 546) or the left one itself.  It is read again at every
    use. *)
Inductive sarg := Scalar (c : R) | OwnReal | OwnImag.
Definition sread (z : cx) (a : sarg) : R :=
  match a with Scalar c => c | OwnReal => re z | OwnImag => im z end.
Inductive carg := Other (w : cx) | Self.
Definition cread (z : cx) (a : carg) : cx := match a with Other w => w | Self => z end.

(** l.581-584, 592-595 *)
Definition add_scalar (z : cx) (a : sarg) : cx := mk (re z + sread z a) (im z).
Definition sub_scalar (z : cx) (a : sarg) : cx := mk (re z - sread z a) (im z).
(** l.603-607, 615-619 *)
Definition mul_scalar (z : cx) (a : sarg) : cx :=
  let z := mk (re z * sread z a) (im z) in
  mk (re z) (im z * sread z a).
Definition div_scalar (z : cx) (a : sarg) : cx :=
  let z := mk (re z / sread z a) (im z) in
  mk (re z) (im z / sread z a).

(** _add l.708-712, _sub l.717-721 *)
Definition add_assign (z : cx) (a : carg) : cx :=
  let z := mk (re z + re (cread z a)) (im z) in
  mk (re z) (im z + im (cread z a)).
Definition sub_assign (z : cx) (a : carg) : cx :=
  let z := mk (re z - re (cread z a)) (im z) in
  mk (re z) (im z - im (cread z a)).
(** _mul l.726-734 *)
Definition mul_assign (z : cx) (a : carg) : cx :=
  let otherReal := re (cread z a) in
  let otherImag := im (cread z a) in
  let tmp := re z * otherReal - im z * otherImag in
  let z := mk (re z) (re z * otherImag + im z * otherReal) in
  mk tmp (im z).
(** _div l.739-777; None: both components are NaN *)
Definition rlt (x y : R) : bool := if Rlt_dec x y then true else false.
Definition rle (x y : R) : bool := if Rle_dec x y then true else false.
Definition req (x y : R) : bool := if Req_EM_T x y then true else false.
Definition div_assign (z : cx) (a : carg) : option cx :=
  let otherReal := re (cread z a) in
  let otherImag := im (cread z a) in
  if rlt (if rlt otherImag 0 then - otherImag else otherImag)
         (if rlt otherReal 0 then - otherReal else otherReal) then
    let wr := otherImag / otherReal in
    let wd := otherReal + wr * otherImag in
    if req wd 0 then None
    else
      let tmp := (re z + im z * wr) / wd in
      let z := mk (re z) ((im z - re z * wr) / wd) in
      Some (mk tmp (im z))
  else if req otherImag 0 then None
  else
    let wr := otherReal / otherImag in
    let wd := otherImag + wr * otherReal in
    if req wd 0 then None
    else
      let tmp := (re z * wr + im z) / wd in
      let z := mk (re z) ((im z * wr - re z) / wd) in
      Some (mk tmp (im z)).

(** ** Binary operators l.789-1015: copy the left operand, then compound assignment *)
Definition neg (z : cx) : cx := mk (- re z) (- im z).
Definition add (l r : cx) : cx := add_assign (mk (re l) (im l)) (Other (mk (re r) (im r))).
Definition sub (l r : cx) : cx := sub_assign (mk (re l) (im l)) (Other (mk (re r) (im r))).
Definition mul (l r : cx) : cx := mul_assign (mk (re l) (im l)) (Other (mk (re r) (im r))).
Definition div (l r : cx) : option cx := div_assign (mk (re l) (im l)) (Other (mk (re r) (im r))).
(** Complex op scalar *)
Definition add_r (l : cx) (c : R) : cx := mk (re l + c) (im l).
Definition sub_r (l : cx) (c : R) : cx := sub_scalar l (Scalar c).
Definition mul_r (l : cx) (c : R) : cx := mul_scalar l (Scalar c).
Definition div_r (l : cx) (c : R) : cx := div_scalar l (Scalar c).
(** scalar op Complex *)
Definition add_l (c : R) (r : cx) : cx := add_assign (of_real c) (Other r).
Definition sub_l (c : R) (r : cx) : cx := sub_assign (of_real c) (Other r).
Definition mul_l (c : R) (r : cx) : cx := mul_assign (of_real c) (Other r).
Definition div_l (c : R) (r : cx) : option cx := div_assign (of_real c) (Other r).
(** operator== l.1023-1027 *)
Definition ceq (l r : cx) : bool := req (re l) (re r) && req (im l) (im r).

(** ** Square root *)
(** ldexp: scale by a power of two *)
Definition ldexp (x : R) (k : Z) : R := x * powerRZ 2 k.
(** copySign with a finite sign argument (a zero counts as positive) *)
Definition copySign (x s : R) : R := if rlt s 0 then - Rabs x else Rabs x.

(** _fabs l.1568-1650: |other| * 2^-exp and exp.  [mp]: the multi-precision variant
    (l.1619-1628), which has no [bv < tmp] branch.  [root2], [low], [high]: the constants
    (l.1621-1622, 1634-1637); [legTiny], [digits]: limits of the component type. *)
Definition fabs (mp : bool) (root2 low high legTiny : R) (digits : Z) (z : cx) : R * Z :=
  let a0 := Rabs (re z) in
  let b0 := Rabs (im z) in
  let av := if rlt a0 b0 then b0 else a0 in
  let bv := if rlt a0 b0 then a0 else b0 in
  if req av 0 then (av, 0%Z)
  else
    let exp := if rle 1 av then 4%Z else if rlt av legTiny then (-2 * digits)%Z else (-2)%Z in
    let scale x := if rle 1 av then x * (1 / 16)
                   else if rlt av legTiny then ldexp x (- exp) else x * 4 in
    let av := scale av in
    let bv := scale bv in
    let tmp := av - bv in
    if req tmp av then (av, exp)
    else if (negb mp && rlt bv tmp)%bool then
      let qv := av / bv in
      (av + bv / (qv + sqrt (qv * qv + 1)), exp)
    else
      let qv := tmp / bv in
      let rv := (qv + 2) * qv in
      let sv := rv / (root2 + sqrt (rv + 2)) + low + qv + high in
      (av + bv / sv, exp).

(** sqrt l.1786-1827 *)
Definition csqrt (mp : bool) (root2 low high legTiny : R) (digits : Z) (z : cx) : cx :=
  let '(rho, otherExp) := fabs mp root2 low high legTiny digits z in
  if (otherExp =? 0)%Z then
    if req rho 0 then mk 0 (im z) else mk rho rho
  else
    let realMag := ldexp (Rabs (re z)) (- otherExp) in
    let rho := ldexp (sqrt (2 * (realMag + rho))) (Z.quot otherExp 2 - 1) in
    if rle 0 (re z) then mk rho (im z / (2 * rho))
    else mk (Rabs (im z / (2 * rho))) (copySign rho (im z)).

(** The literals of the source, l.1634-1637 *)
Definition root2_lit : R := 14142135623730950488016887242096981 / 10000000000000000000000000000000000.
Definition high_lit : R := 10125945 / 4194304.
Definition low_lit : R :=
  14341252375973918872420969807856967 / 100000000000000000000000000000000000000000.

(** sqrt on a floating type and on a multi-precision type *)
Definition sqrt_float (legTiny : R) (digits : Z) : cx -> cx :=
  csqrt false root2_lit low_lit high_lit legTiny digits.
Definition sqrt_mp (legTiny : R) (digits : Z) : cx -> cx :=
  csqrt true (sqrt 2) 0 (sqrt 2 + 1) legTiny digits.

(** ** Elementary functions *)
(** expMul l.388-410 *)
Definition expMul (left right : R) (exponent : Z) : R := exp left * right * powerRZ 2 exponent.
(** exp l.1521-1546, finite argument *)
Definition cexp (z : cx) : cx := mk (expMul (re z) (cos (im z)) 0) (expMul (re z) (sin (im z)) 0).
(** cosh l.1488-1492, sinh l.1780-1784 *)
Definition ccosh (z : cx) : cx := mk (cosh (re z) * cos (im z)) (sinh (re z) * sin (im z)).
Definition csinh (z : cx) : cx := mk (sinh (re z) * cos (im z)) (cosh (re z) * sin (im z)).
(** tanh l.1841-1857 *)
Definition ctanh (z : cx) : cx :=
  let tv := tan (im z) in
  let sv := sinh (re z) in
  let bv := sv * (1 + tv * tv) in
  let dv := 1 + bv * sv in
  mk (sqrt (1 + sv * sv) * bv / dv) (tv / dv).
(** cos l.1890-1894, sin l.2007-2011, tan l.2017-2021 *)
Definition ccos (z : cx) : cx := mk (cosh (im z) * cos (re z)) (- sinh (im z) * sin (re z)).
Definition csin (z : cx) : cx := mk (cosh (im z) * sin (re z)) (sinh (im z) * cos (re z)).
Definition ctan (z : cx) : cx :=
  let zv := ctanh (mk (- im z) (re z)) in mk (im zv) (- re zv).
(** abs l.1130-1133 (std::hypot), conj l.1139-1142, norm l.1974-1977 *)
Definition cabs (z : cx) : R := sqrt (re z * re z + im z * im z).
Definition conj (z : cx) : cx := mk (re z) (- im z).
Definition norm (z : cx) : R := re z * re z + im z * im z.
(** std::atan2 on finite arguments *)
Definition atan2 (y x : R) : R :=
  if rlt 0 x then atan (y / x)
  else if rlt x 0 then (if rle 0 y then atan (y / x) + PI else atan (y / x) - PI)
  else if rlt 0 y then PI / 2 else if rlt y 0 then - (PI / 2) else 0.
(** arg l.1868-1871 *)
Definition arg (z : cx) : R := atan2 (im z) (re z).
(** polar l.1989-2001 with polarPositiveNanInfZeroRho l.1494-1509 for rho = 0 *)
Definition polar (rho theta : R) : cx :=
  if negb (req rho 0) then mk (rho * cos theta) (rho * sin theta)
  else if req theta 0 then mk rho theta else mk (rho * cos theta) (rho * sin theta).
(** csc, sec, cot l.1900-1921 *)
Definition csc (z : cx) : option cx := div_l 1 (csin z).
Definition sec (z : cx) : option cx := div_l 1 (ccos z).
Definition cot (z : cx) : option cx := div_l 1 (ctan z).
