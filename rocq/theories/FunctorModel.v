(** Model of array/operations.hpp: the elementwise functions exported for arrays, the functor structs
    behind them, the scalar functions of math/coreMath.hpp the functors call, and the GPU kernels named
    by TypeInfo.

    Elements are exact: a floating point element is a real number or [None] (NaN, or a pole), an integer
    element is an integer.  The C++ standard library's and xsimd's own functions are trusted to compute
    the function of their name ([std_fun]); rounding is not modelled. *)
From Coq Require Import Reals.
From Verif Require Import Base.
Local Open Scope R_scope.

(** The unary functions a user calls on an array, operations.hpp l.931 (unary minus), l.947-1277. *)
Inductive name :=
| neg | sin_ | cos_ | tan_ | asin_ | acos_ | atan_ | sinh_ | cosh_ | tanh_ | asinh_ | acosh_ | atanh_
| exp_ | exp2_ | exp10_ | log_ | log10_ | log2_ | sqrt_ | cbrt_ | abs_ | floor_ | ceil_.

(** detail:: functor structs *)
Inductive functor :=
| Neg | Sin | Cos | Tan | Asin | Acos | Atan | Sinh | Cosh | Tanh | Asinh | Acosh | Atanh
| Exp | Exp2 | Exp10 | Log | Log2 | Log10 | Sqrt | Cbrt | Abs | Floor | Ceil.

(** the functor each exported function constructs, l.931, l.947-1280 *)
Definition functor_of (f : name) : functor :=
  match f with
  | neg => Neg | sin_ => Sin | cos_ => Cos | tan_ => Tan | asin_ => Asin | acos_ => Acos | atan_ => Atan
  | sinh_ => Sinh | cosh_ => Cosh | tanh_ => Tanh | asinh_ => Asinh | acosh_ => Acosh | atanh_ => Atanh
  | exp_ => Exp | exp2_ => Exp2 | exp10_ => Exp10 | log_ => Log | log10_ => Log10 | log2_ => Log2
  | sqrt_ => Sqrt | cbrt_ => Cbrt | abs_ => Abs | floor_ => Floor | ceil_ => Ceil
  end.

(** scalar functions of namespace librapid (coreMath.hpp; packets: simd/vecOps.hpp), and unary minus *)
Inductive core :=
| c_neg | c_sin | c_cos | c_tan | c_asin | c_acos | c_atan | c_sinh | c_cosh | c_tanh | c_asinh | c_acosh | c_atanh
| c_exp | c_exp2 | c_exp10 | c_log | c_log2 | c_log10 | c_sqrt | c_cbrt | c_abs | c_floor | c_ceil.

(** LIBRAPID_UNARY_FUNCTOR(NAME, OP), l.147, l.156-179 *)
Definition core_of (f : functor) : core :=
  match f with
  | Neg => c_neg
  | Sin => c_sin | Cos => c_cos | Tan => c_tan | Asin => c_asin | Acos => c_acos | Atan => c_atan
  | Sinh => c_sinh | Cosh => c_cosh | Tanh => c_tanh
  | Asinh => c_sinh | Acosh => c_cosh | Atanh => c_tanh            (* l.165-167 *)
  | Exp => c_exp
  | Exp2 => c_exp | Exp10 => c_exp                                 (* l.170-171 *)
  | Log => c_log | Log2 => c_log2 | Log10 => c_log10 | Sqrt => c_sqrt | Cbrt => c_cbrt
  | Abs => c_abs | Floor => c_floor | Ceil => c_ceil
  end.

Definition rfloor (x : R) : R := IZR (up x - 1).
Definition when (c : bool) (y : R) : option R := if c then Some y else None.
Definition leb (x y : R) : bool := if Rle_dec x y then true else false.
Definition ltb (x y : R) : bool := if Rlt_dec x y then true else false.
Definition eqb (x y : R) : bool := if Req_EM_T x y then true else false.

(** The mathematical functions (the C++ library functions of the same name): trusted. *)
Definition std_fun (f : core) (x : R) : option R :=
  match f with
  | c_neg => Some (- x)
  | c_sin => Some (sin x) | c_cos => Some (cos x) | c_tan => when (negb (eqb (cos x) 0)) (tan x)
  | c_asin => when (leb (-1) x && leb x 1) (asin x) | c_acos => when (leb (-1) x && leb x 1) (acos x)
  | c_atan => Some (atan x)
  | c_sinh => Some (sinh x) | c_cosh => Some (cosh x) | c_tanh => Some (tanh x)
  | c_asinh => Some (arcsinh x)
  | c_acosh => when (leb 1 x) (ln (x + sqrt (x * x - 1)))
  | c_atanh => when (ltb (-1) x && ltb x 1) (/ 2 * ln ((1 + x) / (1 - x)))
  | c_exp => Some (exp x) | c_exp2 => Some (Rpower 2 x) | c_exp10 => Some (Rpower 10 x)
  | c_log => when (ltb 0 x) (ln x) | c_log2 => when (ltb 0 x) (ln x / ln 2) | c_log10 => when (ltb 0 x) (ln x / ln 10)
  | c_sqrt => when (leb 0 x) (sqrt x)
  | c_cbrt => Some (if ltb 0 x then Rpower x (/ 3) else if ltb x 0 then - Rpower (- x) (/ 3) else 0)
  | c_abs => Some (if ltb x 0 then - x else x)                    (* coreMath.hpp l.59-63 *)
  | c_floor => Some (rfloor x) | c_ceil => Some (- rfloor (- x))
  end.

(** conversion of a floating value to an integer type: toward zero *)
Definition trunc (y : R) : Z := if ltb y 0 then (- (up (- y) - 1))%Z else (up y - 1)%Z.

(** The functor on a floating point element: (T)(OP(arg)), l.119; NaN arguments give NaN.
    [packet] (l.123-125) applies the same OP to every lane. *)
Definition unary (f : name) (a : option R) : option R :=
  match a with Some x => std_fun (core_of (functor_of f)) x | None => None end.
Definition unary_packet (f : name) (p : list (option R)) : list (option R) :=
  map (unary f) p.

(** On an integer element: the coreMath functions compute in double (e.g. log2, coreMath.hpp l.273-281),
    the cast (T) truncates; abs and unary minus stay in the integers, floor and ceil change nothing.
    A NaN or out of range value makes the conversion undefined; the range is not modelled. *)
Definition unary_int (f : name) (n : Z) : outcome Z :=
  match core_of (functor_of f) with
  | c_neg => Ok (- n)%Z
  | c_abs => Ok (if (n <? 0)%Z then (- n)%Z else n)
  | c => match std_fun c (IZR n) with Some y => Ok (trunc y) | None => UB end
  end.

(** ** Binary operators, l.668-925 with functors l.142-155 *)
Inductive binop := add | sub | mul | div | lt | gt | le | ge | eq_ | ne.
Inductive bfunctor := Plus | Minus | Multiply | Divide
| LessThan | GreaterThan | LessThanEqual | GreaterThanEqual | ElementWiseEqual | ElementWiseNotEqual.
Definition bfunctor_of (o : binop) : bfunctor :=
  match o with add => Plus | sub => Minus | mul => Multiply | div => Divide
  | lt => LessThan | gt => GreaterThan | le => LessThanEqual | ge => GreaterThanEqual
  | eq_ => ElementWiseEqual | ne => ElementWiseNotEqual end.
Definition b2r (b : bool) : R := if b then 1 else 0.
(** (common_type)(lhs OP rhs) for the comparisons, l.19-32 *)
Definition bfunctor_fun (f : bfunctor) (x y : R) : option R :=
  match f with
  | Plus => Some (x + y) | Minus => Some (x - y) | Multiply => Some (x * y)
  | Divide => when (negb (eqb y 0)) (x / y)
  | LessThan => Some (b2r (ltb x y)) | GreaterThan => Some (b2r (ltb y x))
  | LessThanEqual => Some (b2r (leb x y)) | GreaterThanEqual => Some (b2r (leb y x))
  | ElementWiseEqual => Some (b2r (eqb x y)) | ElementWiseNotEqual => Some (b2r (negb (eqb x y)))
  end.
(** NaN operands: arithmetic gives NaN, comparisons are false except != *)
Definition binary (o : binop) (a b : option R) : option R :=
  match a, b with
  | Some x, Some y => bfunctor_fun (bfunctor_of o) x y
  | _, _ => match bfunctor_of o with
            | Plus | Minus | Multiply | Divide => None
            | ElementWiseNotEqual => Some 1
            | _ => Some 0
            end
  end.

(** ** GPU kernels.  TypeInfo<functor>::kernelName, l.383-590, is the functor's own name; the kernel it
    denotes in the source files, if there is one. *)
(** opencl/kernels/trigonometry.cl, expLogPow.cl, abs.cl, negate.cl, floorCeilRound.cl *)
Definition opencl_kernel (f : functor) : option core :=
  match f with
  | Neg => Some c_neg
  | Sin => Some c_sin | Cos => Some c_cos | Tan => Some c_tan | Asin => Some c_asin | Acos => Some c_acos
  | Atan => Some c_atan | Sinh => Some c_sinh | Cosh => Some c_cosh | Tanh => Some c_tanh
  | Asinh => Some c_asinh | Acosh => Some c_acosh | Atanh => Some c_atanh
  | Exp => Some c_exp | Exp2 => None | Exp10 => None
  | Log => Some c_log | Log2 => Some c_log2 | Log10 => Some c_log10 | Sqrt => Some c_sqrt | Cbrt => Some c_cbrt
  | Abs => Some c_abs | Floor => Some c_floor | Ceil => Some c_ceil
  end.
(** cuda/kernels/trigonometry.cu l.7-16, expLogPow.cu, abs.cu, negate.cu, floorCeilRound.cu *)
Definition cuda_kernel (f : functor) : option core :=
  match f with
  | Neg => Some c_neg
  | Sin => Some c_sin | Cos => Some c_cos | Tan => Some c_tan | Asin => Some c_asin | Acos => Some c_acos
  | Atan => Some c_atan | Sinh => Some c_sinh | Cosh => Some c_cosh | Tanh => Some c_tanh
  | Asinh => None | Acosh => None | Atanh => None
  | Exp => Some c_exp | Exp2 => None | Exp10 => None
  | Log => Some c_log | Log2 => Some c_log2 | Log10 => Some c_log10 | Sqrt => Some c_sqrt | Cbrt => Some c_cbrt
  | Abs => Some c_abs | Floor => Some c_floor | Ceil => Some c_ceil
  end.
