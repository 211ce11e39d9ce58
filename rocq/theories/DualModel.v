(** Model of Dual numbers (forward mode automatic differentiation) and of the Sigmoid
    activation.
    Sources: librapid/include/librapid/autodiff/dual.hpp l.16-362,
             librapid/include/librapid/ml/activations.hpp l.50-131,
             librapid/include/librapid/opencl/kernels/arithmetic.cl l.44-146 (Dual kernels),
             librapid/include/librapid/opencl/kernels/activations.cl,
             librapid/include/librapid/cuda/kernels/activations.cu.
    Simplification: the scalar type is the real numbers; a library function (std::sin, …)
    is the mathematical function.  Rounding, overflow and NaN are not modelled. *)
From Coq Require Import Reals List.
From Verif Require Import Base.
Import ListNotations.
Local Open Scope R_scope.

(** dual.hpp l.27-28 *)
Record dual := mk { value : R; derivative : R }.

(** The library functions of one argument, l.208-337. *)
Inductive fn :=
| Sin | Cos | Tan | Asin | Acos | Atan | Sinh | Cosh | Tanh | Asinh | Acosh | Atanh
| Exp | Exp2 | Exp10 | Log | Log10 | Log2 | Sqrt | Cbrt.

(** std::cbrt *)
Definition cbrt (x : R) : R :=
  if Rlt_dec 0 x then Rpower x (/ 3) else if Rlt_dec x 0 then - Rpower (- x) (/ 3) else 0.

(** The C++ functions on a scalar (coreMath.hpp l.120-480): trusted to be the mathematical
    functions; the value outside the domain (NaN in C++) is arbitrary. *)
Definition std (f : fn) (x : R) : R :=
  match f with
  | Sin => sin x | Cos => cos x | Tan => tan x
  | Asin => asin x | Acos => acos x | Atan => atan x
  | Sinh => sinh x | Cosh => cosh x | Tanh => tanh x
  | Asinh => arcsinh x
  | Acosh => ln (x + sqrt (x * x - 1))
  | Atanh => / 2 * ln ((1 + x) / (1 - x))
  | Exp => exp x | Exp2 => Rpower 2 x | Exp10 => Rpower 10 x
  | Log => ln x | Log10 => ln x / ln 10 | Log2 => ln x / ln 2
  | Sqrt => sqrt x
  | Cbrt => cbrt x
  end.

(** std::pow: exp (y ln x) for x > 0; the repeated product for an integral exponent. *)
Definition cpow (x y : R) : R :=
  if Rlt_dec 0 x then Rpower x y
  else if Req_EM_T y (IZR (up y - 1)) then powerRZ x (up y - 1) else 0.

(** The four arithmetic operators. *)
Inductive op := Add | Sub | Mul | Div.

(** Dual op Dual: l.116-120, 136-140, 156-160, 176-182 *)
Definition bin (o : op) (l r : dual) : dual :=
  match o with
  | Add => mk (value l + value r) (derivative l + derivative r)
  | Sub => mk (value l - value r) (derivative l - derivative r)
  | Mul => mk (value l * value r) (derivative l * value r + value l * derivative r)
  | Div => mk (value l / value r)
              ((derivative l * value r - value l * derivative r) / (value r * value r))
  end.

(** Dual op scalar: l.122-127, 142-147, 162-167, 184-189 *)
Definition bin_r (o : op) (l : dual) (c : R) : dual :=
  match o with
  | Add => mk (value l + c) (derivative l)
  | Sub => mk (value l - c) (derivative l)
  | Mul => mk (value l * c) (derivative l * c)
  | Div => mk (value l / c) (derivative l / c)
  end.

(** scalar op Dual: l.129-134, 149-154, 169-174, 191-196 *)
Definition bin_l (o : op) (c : R) (r : dual) : dual :=
  match o with
  | Add => mk (c + value r) (derivative r)
  | Sub => mk (c - value r) (- derivative r)
  | Mul => mk (c * value r) (c * derivative r)
  | Div => mk (c / value r) (- c * derivative r / (value r * value r))
  end.

(** unary operators: l.198-206 *)
Definition neg (a : dual) : dual := mk (- value a) (- derivative a).
Definition pos (a : dual) : dual := mk (value a) (derivative a).

(** the functions: l.208-337 *)
Definition fun1 (f : fn) (x : dual) : dual :=
  let v := value x in let d := derivative x in
  match f with
  | Sin => mk (std Sin v) (std Cos v * d)
  | Cos => mk (std Cos v) (- std Sin v * d)
  | Tan => let cosX := std Cos v in mk (std Tan v) (d / (cosX * cosX))
  | Asin => mk (std Asin v) (d / std Sqrt (1 - v * v))
  | Acos => mk (std Acos v) (- d / std Sqrt (1 - v * v))
  | Atan => mk (std Atan v) (d / (1 + v * v))
  | Sinh => mk (std Sinh v) (std Cosh v * d)
  | Cosh => mk (std Cosh v) (std Sinh v * d)
  | Tanh => let coshX := std Cosh v in mk (std Tanh v) (d / (coshX * coshX))
  | Asinh => mk (std Asinh v) (d / std Sqrt (1 + v * v))
  | Acosh => mk (std Acosh v) (d / std Sqrt (v * v - 1))
  | Atanh => mk (std Atanh v) (d / (1 - v * v))
  | Exp => let expX := std Exp v in mk expX (expX * d)
  | Exp2 => let exp2X := std Exp2 v in mk exp2X (exp2X * std Log 2 * d)
  | Exp10 => let exp2X := std Exp10 v in mk exp2X (exp2X * std Log 10 * d)
  | Log => mk (std Log v) (d / v)
  | Log10 => mk (std Log10 v) (d / (v * std Log 10))
  | Log2 => mk (std Log2 v) (d / (v * std Log 2))
  | Sqrt => mk (std Sqrt v) (d / (2 * std Sqrt v))
  | Cbrt => mk (std Cbrt v) (d / (3 * std Cbrt (v * v)))
  end.

(** pow (Dual, scalar): l.339-345 *)
Definition pow_r (x : dual) (y : R) : dual :=
  mk (cpow (value x) y) (y * cpow (value x) (y - 1) * derivative x).
(** pow (scalar, Dual): l.347-353 *)
Definition pow_l (x : R) (y : dual) : dual :=
  mk (cpow x (value y)) (std Log x * cpow x (value y) * derivative y).
(** pow (Dual, Dual): l.355-362 *)
Definition pow_d (x y : dual) : dual :=
  mk (cpow (value x) (value y))
     (cpow (value x) (value y)
      * (derivative y * std Log (value x) + value y * derivative x / value x)).

(** User code is an expression over one Dual variable, Dual constants (constructor l.31:
    the derivative is Scalar() = 0) and scalars. *)
Inductive expr :=
| X
| K (c : R)
| Neg (e : expr) | Pos (e : expr)
| Bin (o : op) (l r : expr)
| BinR (o : op) (l : expr) (c : R)
| BinL (o : op) (c : R) (r : expr)
| Fun (f : fn) (e : expr)
| PowR (e : expr) (y : R)
| PowL (x : R) (e : expr)
| PowD (x y : expr).

Fixpoint deval (e : expr) (x : dual) : dual :=
  match e with
  | X => x
  | K c => mk c 0
  | Neg e => neg (deval e x)
  | Pos e => pos (deval e x)
  | Bin o l r => bin o (deval l x) (deval r x)
  | BinR o l c => bin_r o (deval l x) c
  | BinL o c r => bin_l o c (deval r x)
  | Fun f e => fun1 f (deval e x)
  | PowR e y => pow_r (deval e x) y
  | PowL c e => pow_l c (deval e x)
  | PowD l r => pow_d (deval l x) (deval r x)
  end.

(** Compound assignment with a Dual, l.57-80.  The first statement updates [value]; the
    second one reads the updated [value]. *)
Definition assign (o : op) (a other : dual) : dual :=
  match o with
  | Add => let v := value a + value other in mk v (derivative a + derivative other)
  | Sub => let v := value a - value other in mk v (derivative a - derivative other)
  | Mul => let v := value a * value other in
           mk v (derivative a * value other + v * derivative other)
  | Div => let v := value a / value other in
           mk v ((derivative a * value other - v * derivative other)
                 / (value other * value other))
  end.

(** Compound assignment with a scalar, l.82-102 *)
Definition assign_r (o : op) (a : dual) (other : R) : dual :=
  match o with
  | Add => mk (value a + other) (derivative a)
  | Sub => mk (value a - other) (derivative a)
  | Mul => mk (value a * other) (derivative a * other)
  | Div => mk (value a / other) (derivative a / other)
  end.

(** One work item of the OpenCL Dual kernels, arithmetic.cl l.45-146: a Dual is two cells of
    global memory; the addresses of the destination and of the two operands may be equal,
    because the host passes the destination buffer of an array that may also be an operand.
    Each statement stores one field, reading the operands from memory. *)
Definition kernel_item (o : op) (dst lhs rhs : nat) (m : list R) : outcome (list R) :=
  do lv <- rd m lhs;
  do rv <- rd m rhs;
  do m1 <- wr m dst (match o with
                     | Add => lv + rv | Sub => lv - rv | Mul => lv * rv | Div => lv / rv
                     end);
  do lv' <- rd m1 lhs;
  do ld' <- rd m1 (S lhs);
  do rv' <- rd m1 rhs;
  do rd' <- rd m1 (S rhs);
  wr m1 (S dst) (match o with
                 | Add => ld' + rd' | Sub => ld' - rd'
                 | Mul => ld' * rv' + lv' * rd'
                 | Div => (ld' * rv' - lv' * rd') / (rv' * rv')
                 end).

(** Sigmoid::forward, activations.hpp l.93, 107, 122: dst = 1 / (1 + exp(-src)) for each
    element (the element-wise evaluation is the subject of C18 and C19), and the kernels
    sigmoidActivationForward *)
Definition forward (src : R) : R := 1 / (1 + exp (- src)).
(** Sigmoid::backward, l.100, 114, 130, and the kernels sigmoidActivationBackward *)
Definition backward (src : R) : R := src * (1 - src).

(** Kernel over integer elements (SIGMOID_KERNEL_CAST): the real result is converted to the
    integer type (toward zero) when it is stored. *)
Definition forward_int (src : Z) : Z := (up (forward (IZR src)) - 1)%Z.

(** A chain of layers as a user writes it: multiply by a weight, add a bias, activate. *)
Fixpoint network (layers : list (R * R)) (x : R) : R :=
  match layers with
  | [] => x
  | (w, b) :: ls => network ls (forward (w * x + b))
  end.

(** Back-propagation from the stored activations: multiply the [backward] of every layer's
    output by the layer's weight. *)
Fixpoint gradient (layers : list (R * R)) (x : R) : R :=
  match layers with
  | [] => 1
  | (w, b) :: ls => let y := forward (w * x + b) in gradient ls y * (backward y * w)
  end.
