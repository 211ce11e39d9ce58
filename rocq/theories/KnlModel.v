(** Model of how an operation on OpenCL arrays finds its kernel: the names of the element types
    (core/traits.hpp), the names of the kernels (array/operations.hpp and the callers), the kernels the program is
    built from (opencl/kernels/*.cl, array/linalg/level2/gemv.cl, array/linalg/level3/gemm.cl, in the order of
    src/openclConfigure.cpp l.262-276) and the arguments bound to their parameters.

    What a kernel does is a term ([body]); the gemm, gemv, transpose and random kernels are only named here, their
    bodies are modelled in MatmulModel, TransposeModel and RandomModel.  The OpenCL C++ bindings do not throw
    (core/openclConfig.hpp includes them without their exception macros). *)
From Coq Require Import String.
From Verif Require Import Base.
Local Open Scope string_scope.

(** Element types. [Cplx] and [Dual] are Complex<T> and Dual<T>. *)
Inductive ety := TBool | TChar | I8 | U8 | I16 | U16 | I32 | U32 | I64 | U64 | F32 | F64 | Half
| Cplx (t : ety) | Dual (t : ety).

(** TypeInfo<T>::name, core/traits.hpp l.167, l.189, l.221, l.253, l.285, l.317, l.349, l.381, l.413, l.445, l.477,
    l.509; math/half.hpp l.724; math/complex.hpp l.2068; autodiff/dual.hpp l.375 *)
Definition tname (t : ety) : string :=
  match t with
  | TBool => "char" | TChar => "bool"
  | I8 => "int8_t" | U8 => "uint8_t" | I16 => "int16_t" | U16 => "uint16_t"
  | I32 => "int32_t" | U32 => "uint32_t" | I64 => "int64_t" | U64 => "uint64_t"
  | F32 => "float" | F64 => "double" | Half => "half"
  | Cplx _ => "Complex" | Dual _ => "Dual_T"
  end.
(** sizeof *)
Fixpoint tsize (t : ety) : nat :=
  match t with
  | TBool | TChar | I8 | U8 => 1 | I16 | U16 | Half => 2 | I32 | U32 | F32 => 4 | I64 | U64 | F64 => 8
  | Cplx t => 2 * tsize t | Dual t => 2 * tsize t
  end.
(** decltype(a * b) of the built-in types: the usual arithmetic conversions (int of 32 and long of 64 bits).
    Of the class types only equal operands are modelled. *)
Definition level (t : ety) : option nat :=
  match t with
  | TBool | TChar | I8 | U8 | I16 | U16 | I32 => Some 0 | U32 => Some 1 | I64 => Some 2 | U64 => Some 3
  | F32 => Some 4 | F64 => Some 5 | _ => None
  end.
Definition of_level (n : nat) : ety :=
  match n with 0 => I32 | 1 => U32 | 2 => I64 | 3 => U64 | 4 => F32 | _ => F64 end.
Fixpoint ety_eqb (a b : ety) : bool :=
  match a, b with
  | TBool, TBool | TChar, TChar | I8, I8 | U8, U8 | I16, I16 | U16, U16 | I32, I32 | U32, U32 | I64, I64 | U64, U64
  | F32, F32 | F64, F64 | Half, Half => true
  | Cplx a, Cplx b => ety_eqb a b
  | Dual a, Dual b => ety_eqb a b
  | _, _ => false
  end.
Definition product_type (a b : ety) : option ety :=
  match level a, level b with
  | Some m, Some n => Some (of_level (Nat.max m n))
  | _, _ => if ety_eqb a b then Some a else None
  end.

(** std::common_type_t *)
Definition common_type (a b : ety) : option ety := if ety_eqb a b then Some a else product_type a b.

(** ** The device program *)
Inductive param := PBuf (name : string) (t : ety) | PVal (name : string) (t : ety).
(** what is read: the work-item's element of a buffer parameter, or a value parameter *)
Inductive operand := Elem (name : string) | Val (name : string).
Inductive body :=
| Binary (op : string) (a b : operand)              (* dst[gid] = a OP b *)
| DualBinary (op : string) (a b : operand)          (* the same on Dual structs, by the rule of OP *)
| Call (f : string) (a : operand)                   (* dst[gid] = f(a) *)
| CallCast (f : string) (a : operand)               (* dst[gid] = (DTYPE)f((double)a) *)
| Copy (a : operand)                                (* dst[gid] = a *)
| Minus (a : operand)                               (* dst[gid] = -a *)
| AbsIf (a : operand)                               (* dst[gid] = a >= 0 ? a : -a *)
| Named (what : string).
Record kernel := { k_name : string; k_params : list param; k_body : body }.

(** core.cl l.12-19: the typedefs; [DTYPE] in the macros below is such a type *)
Definition dname (t : ety) : string :=
  match t with
  | I8 => "int8_t" | I16 => "int16_t" | I32 => "int32_t" | I64 => "int64_t"
  | U8 => "uint8_t" | U16 => "uint16_t" | U32 => "uint32_t" | U64 => "uint64_t" | F32 => "float" | F64 => "double"
  | _ => ""
  end.
(** the two orders in which the macros are instantiated *)
Definition types_abs : list ety := [I8; U8; I16; U16; I32; U32; I64; U64; F32; F64].
Definition types_arith : list ety := [I8; I16; I32; I64; U8; U16; U32; U64; F32; F64].
Definition int_types : list ety := [I8; U8; I16; U16; I32; U32; I64; U64].
Definition float_types : list ety := [F32; F64].

(** fill.cl l.158-187 *)
Definition fill_cl : list kernel :=
  map (fun t => {| k_name := "fillRandom_" ++ dname t;
    k_params := [PBuf "data" t; PVal "elements" I64; PVal "lower" t; PVal "upper" t; PBuf "seeds" I64; PVal "numSeeds" I64];
    k_body := Named "random" |}) types_abs.
(** negate.cl *)
Definition negate_cl : list kernel :=
  map (fun t => {| k_name := "negateArrays_" ++ dname t; k_params := [PBuf "dst" t; PBuf "data" t];
    k_body := Minus (Elem "data") |}) types_abs.
(** arithmetic.cl l.1-30: ARITHMETIC_OP_IMPL(NAME, OP) *)
Definition arithmetic_kernel (name op : string) (t : ety) : list kernel :=
  [ {| k_name := name ++ "Arrays_" ++ dname t; k_params := [PBuf "dst" t; PBuf "lhs" t; PBuf "rhs" t];
       k_body := Binary op (Elem "lhs") (Elem "rhs") |};
    {| k_name := name ++ "ArraysScalarRhs_" ++ dname t; k_params := [PBuf "dst" t; PBuf "lhs" t; PVal "rhs" t];
       k_body := Binary op (Elem "lhs") (Val "rhs") |};
    {| k_name := name ++ "ArraysScalarLhs_" ++ dname t; k_params := [PBuf "dst" t; PVal "lhs" t; PBuf "rhs" t];
       k_body := Binary op (Val "lhs") (Elem "rhs") |} ].
Definition arithmetic_op (name op : string) : list kernel := flat_map (arithmetic_kernel name op) types_arith.
(** arithmetic.cl l.44-157: DUAL_ARITHMETIC_OP(DTYPE), add, sub, mul, div *)
Definition dual_kernel (name op : string) (t : ety) : list kernel :=
  [ {| k_name := name ++ "Arrays_Dual_" ++ dname t; k_params := [PBuf "dst" (Dual t); PBuf "lhs" (Dual t); PBuf "rhs" (Dual t)];
       k_body := DualBinary op (Elem "lhs") (Elem "rhs") |};
    {| k_name := name ++ "ArraysScalarRhs_Dual_" ++ dname t; k_params := [PBuf "dst" (Dual t); PBuf "lhs" (Dual t); PVal "rhs" (Dual t)];
       k_body := DualBinary op (Elem "lhs") (Val "rhs") |};
    {| k_name := name ++ "ArraysScalarLhs_Dual_" ++ dname t; k_params := [PBuf "dst" (Dual t); PVal "lhs" (Dual t); PBuf "rhs" (Dual t)];
       k_body := DualBinary op (Val "lhs") (Elem "rhs") |} ].
Definition dual_op (t : ety) : list kernel :=
  dual_kernel "add" "+" t ++ dual_kernel "sub" "-" t ++ dual_kernel "mul" "*" t ++ dual_kernel "div" "/" t.
Definition arithmetic_cl : list kernel :=
  flat_map (fun p => arithmetic_op (fst p) (snd p))
    [("add", "+"); ("sub", "-"); ("mul", "*"); ("div", "/"); ("lessThan", "<"); ("lessThanEqual", "<=");
     ("greaterThan", ">"); ("greaterThanEqual", ">="); ("elementWiseEqual", "=="); ("elementWiseNotEqual", "!=")] ++
  flat_map dual_op types_arith.
(** abs.cl *)
Definition abs_cl : list kernel :=
  map (fun t => {| k_name := "absArrays_" ++ dname t; k_params := [PBuf "dst" t; PBuf "data" t];
    k_body := AbsIf (Elem "data") |}) types_abs.
(** NAME_IMPL(NAME) of floorCeilRound.cl l.13-23, trigonometry.cl l.14-24, expLogPow.cl l.19-29: one body for the
    integer types, another for float and double *)
Definition unary_impl (ints floats : string -> body) (name : string) : list kernel :=
  map (fun t => {| k_name := name ++ "Arrays_" ++ dname t; k_params := [PBuf "dst" t; PBuf "data" t]; k_body := ints name |}) int_types ++
  map (fun t => {| k_name := name ++ "Arrays_" ++ dname t; k_params := [PBuf "dst" t; PBuf "data" t]; k_body := floats name |}) float_types.
Definition floorCeilRound_cl : list kernel :=
  flat_map (unary_impl (fun _ => Copy (Elem "data")) (fun f => Call f (Elem "data"))) ["floor"; "ceil"].
Definition trigonometry_cl : list kernel :=
  flat_map (unary_impl (fun f => CallCast f (Elem "data")) (fun f => Call f (Elem "data")))
    ["sin"; "cos"; "tan"; "asin"; "acos"; "atan"; "sinh"; "cosh"; "tanh"; "asinh"; "acosh"; "atanh"].
(** expLogPow.cl l.31-36; its ABS_KERNEL macro is not instantiated *)
Definition expLogPow_cl : list kernel :=
  flat_map (unary_impl (fun f => CallCast f (Elem "data")) (fun f => Call f (Elem "data")))
    ["exp"; "log"; "log2"; "log10"; "sqrt"; "cbrt"].
(** transpose.cl l.26-31 *)
Definition transpose_cl : list kernel :=
  map (fun t => {| k_name := "transpose_" ++ dname t;
    k_params := [PBuf "out" t; PBuf "in" t; PVal "rows" I32; PVal "cols" I32; PVal "alpha" t];
    k_body := Named "transpose" |}) [I8; I16; I32; I64; F32; F64].
(** gemm.cl l.3-16, l.53-62 *)
Definition gemm_cl : list kernel :=
  map (fun t => {| k_name := "gemm_" ++ dname t;
    k_params := [PVal "transA" I32; PVal "transB" I32; PVal "M" I32; PVal "N" I32; PVal "K" I32; PVal "alpha" t;
                 PBuf "A" t; PVal "lda" I32; PBuf "B" t; PVal "ldb" I32; PVal "beta" t; PBuf "C" t; PVal "ldc" I32];
    k_body := Named "gemm" |}) types_arith.
(** gemv.cl l.1-12, l.32-41 *)
Definition gemv_cl : list kernel :=
  map (fun t => {| k_name := "gemv_" ++ dname t;
    k_params := [PVal "trans" I32; PVal "M" I32; PVal "N" I32; PVal "alpha" t; PBuf "A" t; PVal "lda" I32;
                 PBuf "x" t; PVal "incX" I32; PVal "beta" t; PBuf "y" t; PVal "incy" I32];
    k_body := Named "gemv" |}) types_arith.
(** activations.cl: the two kernels of SIGMOID, for each type *)
Definition activations_cl : list kernel :=
  flat_map (fun t =>
    [ {| k_name := "sigmoidActivationForward_" ++ dname t; k_params := [PBuf "dst" t; PBuf "data" t]; k_body := Named "sigmoid" |};
      {| k_name := "sigmoidActivationBackward_" ++ dname t; k_params := [PBuf "dst" t; PBuf "data" t]; k_body := Named "sigmoid gradient" |} ])
    types_arith.
(** src/openclConfigure.cpp l.262-276 (core.cl and dual.cl define types only) *)
Definition program : list kernel :=
  fill_cl ++ negate_cl ++ arithmetic_cl ++ abs_cl ++ floorCeilRound_cl ++ trigonometry_cl ++ expLogPow_cl ++
  transpose_cl ++ gemm_cl ++ gemv_cl ++ activations_cl.

(** ** The host side *)
(** an argument: what it is (for the reader), and its type; a buffer is handed over without its element type *)
Inductive harg := HBuf (what : string) (t : ety) | HVal (what : string) (t : ety).
Inductive result :=
| Rejected                                             (* the program does not compile *)
| Ran (k : kernel) (bound : list (string * string))    (* the kernel runs; parameter, argument *)
| Library (t : ety)                                    (* clblast is called for this type *)
| Raised                                               (* an assertion reports the error *)
| Nothing                                              (* nothing is run and nothing is reported *)
| Undefined.                                           (* a buffer is read or written as another type *)

Definition find_kernel (name : string) : option kernel :=
  find (fun k => String.eqb (k_name k) name) program.
Definition pname (p : param) := match p with PBuf n _ => n | PVal n _ => n end.
Definition hname (a : harg) := match a with HBuf n _ => n | HVal n _ => n end.
(** clSetKernelArg accepts a value of the parameter's size and, for a buffer parameter, any buffer *)
Definition fits (p : param) (a : harg) : bool :=
  match p, a with
  | PBuf _ _, HBuf _ _ => true
  | PVal _ t, HVal _ u => Nat.eqb (tsize t) (tsize u)
  | _, _ => false
  end.
Definition same_type (p : param) (a : harg) : bool :=
  match p, a with PBuf _ t, HBuf _ u => ety_eqb t u | PVal _ t, HVal _ u => ety_eqb t u | _, _ => false end.
Fixpoint all2 {A B} (f : A -> B -> bool) (l : list A) (m : list B) : bool :=
  match l, m with [], [] => true | a :: l, b :: m => f a b && all2 f l m | _, _ => false end.
(** LIBRAPID_ASSERT(err == CL_SUCCESS) after enqueueNDRangeKernel, openclKernelProcessor.hpp l.39-42 *)
Definition failed (asserts : bool) : result := if asserts then Raised else Nothing.
(** cl::Kernel(program, name), setArg, enqueueNDRangeKernel *)
Definition enqueue (asserts : bool) (name : string) (args : list harg) : result :=
  match find_kernel name with
  | None => failed asserts                             (* CL_INVALID_KERNEL *)
  | Some k =>
      if all2 fits (k_params k) args then
        if all2 same_type (k_params k) args then Ran k (combine (map pname (k_params k)) (map hname args)) else Undefined
      else failed asserts                              (* CL_INVALID_KERNEL_ARGS *)
  end.
(** setKernelArgs, openclKernelProcessor.hpp l.8-22: scalars are converted to the kernel's type unless [noCast] *)
Definition cast_arg (s : ety) (a : harg) : harg := match a with HVal n _ => HVal n s | HBuf n t => HBuf n t end.
(** runLinearKernel<Scalar, noCast>, l.24-43 *)
Definition run_linear (asserts : bool) (s : ety) (noCast : bool) (base : string) (args : list harg) : result :=
  if Nat.leb (tsize s) 2 then Rejected
  else enqueue asserts (base ++ "_" ++ tname s) (if noCast then args else map (cast_arg s) args).

Inductive bname := Plus | Sub | Multiply | Divide | LessThan | GreaterThan | LessThanEqual | GreaterThanEqual
| ElementWiseEqual | ElementWiseNotEqual.
Inductive uname := Neg | Sin | Cos | Tan | Asin | Acos | Atan | Sinh | Cosh | Tanh | Asinh | Acosh | Atanh
| Exp | Exp2 | Exp10 | Log | Log2 | Log10 | Sqrt | Cbrt | Abs | Floor | Ceil.
(** which operands are scalars *)
Inductive shape := Arrays | ScalarRhs | ScalarLhs.

(** TypeInfo<functor>::kernelName…, operations.hpp l.273-374; LIBRAPID_BINARY_KERNEL_GETTER l.41-60 *)
Definition kernel_names (b : bname) : string * string * string :=
  match b with
  | Plus => ("addArrays", "addArraysScalarRhs", "addArraysScalarLhs")
  | Sub => ("subArrays", "subArraysScalarRhs", "subArraysScalarLhs")
  | Multiply => ("mulArrays", "mulArraysScalarRhs", "mulArraysScalarLhs")
  | Divide => ("divArrays", "divArraysScalarRhs", "divArraysScalarLhs")
  | LessThan => ("lessThanArrays", "lessThanArraysScalarRhs", "lessThanArraysScalarLhs")
  | GreaterThan => ("greaterThanArrays", "greaterThanArraysScalarRhs", "greaterThanArraysScalarLhs")
  | LessThanEqual => ("lessThanEqualArrays", "lessThanEqualArraysScalarRhs", "lessThanEqualArraysScalarLhs")
  | GreaterThanEqual => ("greaterThanEqualArrays", "greaterThanEqualArraysScalarRhs", "greaterThanEqualArraysScalarLhs")
  | ElementWiseEqual => ("elementWiseEqualArrays", "elementWiseEqualArraysScalarRhs", "elementWiseEqualArraysScalarLhs")
  | ElementWiseNotEqual => ("elementWiseNotEqualArrays", "elementWiseNotEqualArraysScalarRhs", "elementWiseNotEqualArraysScalarLhs")
  end.
Definition binary_kernel (b : bname) (s : shape) : string :=
  let '(n, r, l) := kernel_names b in match s with Arrays => n | ScalarRhs => r | ScalarLhs => l end.
(** l.383-590 *)
Definition unary_kernel (u : uname) : string :=
  match u with
  | Neg => "negateArrays" | Sin => "sinArrays" | Cos => "cosArrays" | Tan => "tanArrays" | Asin => "asinArrays"
  | Acos => "acosArrays" | Atan => "atanArrays" | Sinh => "sinhArrays" | Cosh => "coshArrays" | Tanh => "tanhArrays"
  | Asinh => "asinhArrays" | Acosh => "acoshArrays" | Atanh => "atanhArrays" | Exp => "expArrays"
  | Exp2 => "exp2Arrays" | Exp10 => "exp10Arrays" | Log => "logArrays" | Log2 => "log2Arrays" | Log10 => "log10Arrays"
  | Sqrt => "sqrtArrays" | Cbrt => "cbrtArrays" | Abs => "absArrays" | Floor => "floorArrays" | Ceil => "ceilArrays"
  end.
(** r = a op b evaluated on the device, assignOps.hpp l.319-350: [a] and [b] are the types of the operands, which are
    arrays or scalars according to [s]; the kernel is that of Function::Scalar (function.hpp l.85-88), and [d] is
    the type of the destination. *)
(** the functors' return types, operations.hpp l.4-32, l.142-153: decltype(lhs OP rhs), and common_type for the
    comparisons *)
Definition functor_type (b : bname) (ta tb : ety) : option ety :=
  match b with
  | Plus | Sub | Multiply | Divide => product_type ta tb
  | LessThan | GreaterThan | LessThanEqual | GreaterThanEqual | ElementWiseEqual | ElementWiseNotEqual => common_type ta tb
  end.
Definition binary_op (asserts : bool) (b : bname) (s : shape) (ta tb d : ety) : result :=
  match functor_type b ta tb with
  | None => Rejected
  | Some t =>
      run_linear asserts t false (binary_kernel b s)
        [HBuf "result" d; (match s with ScalarLhs => HVal | _ => HBuf end) "left" ta;
         (match s with ScalarRhs => HVal | _ => HBuf end) "right" tb]
  end.
(** r = f(a): the functor returns its argument's type, operations.hpp l.113-121 *)
Definition unary_op (asserts : bool) (u : uname) (ta d : ety) : result :=
  run_linear asserts ta false (unary_kernel u) [HBuf "result" d; HBuf "operand" ta].
(** fillRandom, array/fill.hpp l.57-83 *)
Definition fill_random (asserts : bool) (t : ety) : result :=
  run_linear asserts t true "fillRandom"
    [HBuf "array" t; HVal "number of elements" I64; HVal "lower bound" t; HVal "upper bound" t; HBuf "seeds" I64;
     HVal "number of seeds" I64].
(** Sigmoid::forward, backward, ml/activations.hpp l.133-157; the operand has the array's type *)
Definition sigmoid_forward (asserts : bool) (t : ety) : result :=
  run_linear asserts t false "sigmoidActivationForward" [HBuf "result" t; HBuf "operand" t].
Definition sigmoid_backward (asserts : bool) (t : ety) : result :=
  run_linear asserts t false "sigmoidActivationBackward" [HBuf "result" t; HBuf "operand" t].
(** transposeImpl<Scalar>, array/linalg/transpose.hpp l.370-389 *)
Definition transpose (asserts : bool) (t : ety) : result :=
  enqueue asserts ("transpose_" ++ tname t)
    [HBuf "result" t; HBuf "operand" t; HVal "rows" I32; HVal "columns" I32; HVal "factor" t].
(** IsBlasType, array/linalg/linalg.hpp l.5-21 *)
Definition blas_type (t : ety) : bool :=
  match t with Half | F32 | F64 | Cplx F32 | Cplx F64 => true | _ => false end.
(** clblast is called for [t] with buffers of the given types *)
Definition library (t : ety) (bufs : list ety) : result :=
  if forallb (ety_eqb t) bufs then Library t else Undefined.
(** ArrayMultiply::applyTo, arrayMultiply.hpp l.51, l.404-470, then gemm (gemm.hpp l.53-113) or gemv (gemv.hpp
    l.49-104): Scalar = decltype(ScalarA * ScalarB), alpha and beta are converted to it, and
    GemmScalar = decltype(alpha * beta).  [d]: the type of the output array. *)
Definition gemm_op (asserts : bool) (ta tb d : ety) : result :=
  match product_type ta tb with
  | None => Rejected
  | Some s =>
      match product_type s s with
      | None => Rejected
      | Some g =>
          if blas_type g then library g [ta; tb; d]
          else enqueue asserts ("gemm_" ++ tname g)
            [HVal "transA" I32; HVal "transB" I32; HVal "m" I32; HVal "n" I32; HVal "k" I32; HVal "alpha" g;
             HBuf "a" ta; HVal "lda" I32; HBuf "b" tb; HVal "ldb" I32; HVal "beta" g; HBuf "c" d; HVal "ldc" I32]
      end
  end.
Definition gemv_op (asserts : bool) (ta tx d : ety) : result :=
  match product_type ta tx with
  | None => Rejected
  | Some s =>
      match product_type s s with
      | None => Rejected
      | Some g =>
          if blas_type g then library g [ta; tx; d]
          else enqueue asserts ("gemv_" ++ tname g)
            [HVal "trans" I32; HVal "m" I32; HVal "n" I32; HVal "alpha" g; HBuf "a" ta; HVal "lda" I32; HBuf "x" tx;
             HVal "incX" I32; HVal "beta" g; HBuf "y" d; HVal "incY" I32]
      end
  end.
