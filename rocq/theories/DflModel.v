(** Dual numbers over any scalar type: the code of DualModel with the operators of the scalar type left
    open, and its instance for float and double (IEEE 754 arithmetic, see [AccModel] for the format and
    the simplifications).
    Source: librapid/include/librapid/autodiff/dual.hpp l.27-362.
    Simplifications: all scalars have the type of the components; the literals 1, 2 and 3 of the source
    are the scalars [int 1], [int 2], [int 3] (conversion of an int operand), and [logInt k] is
    ::librapid::log(k) of an int, a double: with components of type float the source computes such an
    expression in double and narrows it. *)
From Coq Require Import ZArith.
From Flocq Require Import Core BinarySingleNaN.
From Verif Require Import DualModel AccModel NumModel NrmModel.

(** l.27-28 *)
Record gdual (A : Type) := gmk { gval : A; gder : A }.
Arguments gmk {A}. Arguments gval {A}. Arguments gder {A}.

(** User code: an expression over one Dual variable, Dual constants (constructor l.31) and scalars. *)
Inductive gexpr (A : Type) :=
| GX
| GK (c : A)
| GNeg (e : gexpr A) | GPos (e : gexpr A)
| GBin (o : op) (l r : gexpr A)
| GBinR (o : op) (l : gexpr A) (c : A)
| GBinL (o : op) (c : A) (r : gexpr A)
| GFun (f : fn) (e : gexpr A)
| GPowR (e : gexpr A) (y : A)
| GPowL (x : A) (e : gexpr A)
| GPowD (x y : gexpr A).
Arguments GX {A}. Arguments GK {A}. Arguments GNeg {A}. Arguments GPos {A}. Arguments GBin {A}. Arguments GBinR {A}.
Arguments GBinL {A}. Arguments GFun {A}. Arguments GPowR {A}. Arguments GPowL {A}. Arguments GPowD {A}.

Section Scalar.
Context {A : Type}.
Variables (zero : A) (int logInt : Z -> A) (add sub mul div : A -> A -> A) (opp : A -> A) (lib : fn -> A -> A) (power : A -> A -> A).
Local Infix "+" := add. Local Infix "-" := sub. Local Infix "*" := mul. Local Infix "/" := div.

(** Dual op Dual: l.116-120, 136-140, 156-160, 176-182 *)
Definition gbin (o : op) (l r : gdual A) : gdual A :=
  match o with
  | Add => gmk (gval l + gval r) (gder l + gder r)
  | Sub => gmk (gval l - gval r) (gder l - gder r)
  | Mul => gmk (gval l * gval r) (gder l * gval r + gval l * gder r)
  | Div => gmk (gval l / gval r) ((gder l * gval r - gval l * gder r) / (gval r * gval r))
  end.
(** Dual op scalar: l.122-127, 142-147, 162-167, 184-189 *)
Definition gbin_r (o : op) (l : gdual A) (c : A) : gdual A :=
  match o with
  | Add => gmk (gval l + c) (gder l)
  | Sub => gmk (gval l - c) (gder l)
  | Mul => gmk (gval l * c) (gder l * c)
  | Div => gmk (gval l / c) (gder l / c)
  end.
(** scalar op Dual: l.129-134, 149-154, 169-174, 191-196 *)
Definition gbin_l (o : op) (c : A) (r : gdual A) : gdual A :=
  match o with
  | Add => gmk (c + gval r) (gder r)
  | Sub => gmk (c - gval r) (opp (gder r))
  | Mul => gmk (c * gval r) (c * gder r)
  | Div => gmk (c / gval r) (opp c * gder r / (gval r * gval r))
  end.
(** unary operators: l.198-206 *)
Definition gneg (a : gdual A) : gdual A := gmk (opp (gval a)) (opp (gder a)).
Definition gpos (a : gdual A) : gdual A := gmk (gval a) (gder a).
(** the functions: l.208-337 *)
Definition gfun (f : fn) (x : gdual A) : gdual A :=
  let v := gval x in let d := gder x in
  match f with
  | Sin => gmk (lib Sin v) (lib Cos v * d)
  | Cos => gmk (lib Cos v) (opp (lib Sin v) * d)
  | Tan => let cosX := lib Cos v in gmk (lib Tan v) (d / (cosX * cosX))
  | Asin => gmk (lib Asin v) (d / lib Sqrt (int 1 - v * v))
  | Acos => gmk (lib Acos v) (opp d / lib Sqrt (int 1 - v * v))
  | Atan => gmk (lib Atan v) (d / (int 1 + v * v))
  | Sinh => gmk (lib Sinh v) (lib Cosh v * d)
  | Cosh => gmk (lib Cosh v) (lib Sinh v * d)
  | Tanh => let coshX := lib Cosh v in gmk (lib Tanh v) (d / (coshX * coshX))
  | Asinh => gmk (lib Asinh v) (d / lib Sqrt (int 1 + v * v))
  | Acosh => gmk (lib Acosh v) (d / lib Sqrt (v * v - int 1))
  | Atanh => gmk (lib Atanh v) (d / (int 1 - v * v))
  | Exp => let expX := lib Exp v in gmk expX (expX * d)
  | Exp2 => let exp2X := lib Exp2 v in gmk exp2X (exp2X * logInt 2 * d)
  | Exp10 => let exp2X := lib Exp10 v in gmk exp2X (exp2X * logInt 10 * d)
  | Log => gmk (lib Log v) (d / v)
  | Log10 => gmk (lib Log10 v) (d / (v * logInt 10))
  | Log2 => gmk (lib Log2 v) (d / (v * logInt 2))
  | Sqrt => gmk (lib Sqrt v) (d / (int 2 * lib Sqrt v))
  | Cbrt => gmk (lib Cbrt v) (d / (int 3 * lib Cbrt (v * v)))
  end.
(** pow: l.339-345, 347-353, 355-362 *)
Definition gpow_r (x : gdual A) (y : A) : gdual A := gmk (power (gval x) y) (y * power (gval x) (y - int 1) * gder x).
Definition gpow_l (x : A) (y : gdual A) : gdual A := gmk (power x (gval y)) (lib Log x * power x (gval y) * gder y).
Definition gpow_d (x y : gdual A) : gdual A :=
  gmk (power (gval x) (gval y)) (power (gval x) (gval y) * (gder y * lib Log (gval x) + gval y * gder x / gval x)).

Fixpoint geval (e : gexpr A) (x : gdual A) : gdual A :=
  match e with
  | GX => x
  | GK c => gmk c zero
  | GNeg e => gneg (geval e x)
  | GPos e => gpos (geval e x)
  | GBin o l r => gbin o (geval l x) (geval r x)
  | GBinR o l c => gbin_r o (geval l x) c
  | GBinL o c r => gbin_l o c (geval r x)
  | GFun f e => gfun f (geval e x)
  | GPowR e y => gpow_r (geval e x) y
  | GPowL c e => gpow_l c (geval e x)
  | GPowD l r => gpow_d (geval l x) (geval r x)
  end.
End Scalar.

(** float and double; the library functions other than sqrt are left open *)
Section Float.
Variables prec emax : Z.
Context (Hp : Prec_gt_0 prec) (Hm : Prec_lt_emax prec emax).
Local Notation num := (binary_float prec emax).
Variables (logInt : Z -> num) (lib : fn -> num -> num) (power : num -> num -> num).
Definition flib (f : fn) : num -> num := match f with Sqrt => fsqrt prec emax Hp Hm | _ => lib f end.
Definition fbin : op -> gdual num -> gdual num -> gdual num :=
  gbin (fadd prec emax Hp Hm) (fsub prec emax Hp Hm) (fmul prec emax Hp Hm) (fdiv prec emax Hp Hm).
Definition fbin_r : op -> gdual num -> num -> gdual num :=
  gbin_r (fadd prec emax Hp Hm) (fsub prec emax Hp Hm) (fmul prec emax Hp Hm) (fdiv prec emax Hp Hm).
Definition fbin_l : op -> num -> gdual num -> gdual num :=
  gbin_l (fadd prec emax Hp Hm) (fsub prec emax Hp Hm) (fmul prec emax Hp Hm) (fdiv prec emax Hp Hm) (fneg prec emax).
Definition ffun : fn -> gdual num -> gdual num :=
  gfun (fint prec emax Hp Hm) logInt (fadd prec emax Hp Hm) (fsub prec emax Hp Hm) (fmul prec emax Hp Hm) (fdiv prec emax Hp Hm) (fneg prec emax) flib.
Definition feval : gexpr num -> gdual num -> gdual num :=
  geval (fzero prec emax) (fint prec emax Hp Hm) logInt (fadd prec emax Hp Hm) (fsub prec emax Hp Hm) (fmul prec emax Hp Hm) (fdiv prec emax Hp Hm)
    (fneg prec emax) flib power.
End Float.
