(** Model of how an operation on CUDA arrays chooses and instantiates its kernel: the file and name of the kernel
    (array/operations.hpp), the types its template is instantiated with, float and double arrays being read in packets
    (CudaVectorExtractor, CudaCanVectorise, CudaVectorHelper and cudaTupleEvaluator, array/assignOps.hpp
    l.402-549), the kernels (cuda/kernels/*.cu), the operators of the packet types (cuda/kernels/vectorOps.cuh) and
    the run of the instantiated kernel on arrays that know their element type.

    A packet is loaded, computed and stored by one thread in one step, and the packets are treated in any order; the
    finer interleavings, the launch configuration and the 32-bit thread index are the subject of DeviceModel.
    The values of elements are abstract, and so is what an operator computes from them: any function, for each
    combination of types. *)
From Coq Require Import String.
From Verif Require Import Base CudaModel KnlModel.
Local Open Scope string_scope.

(** A type of device code: an element type, or a packet (float2 … double4) *)
Inductive dty := DS (t : ety) | DV (t : ety) (w : nat).
(** TypeInfo<T>::Scalar; for the packets core/traits.hpp l.569-729 *)
Definition scal (d : dty) : ety := match d with DS t => t | DV t _ => t end.
(** the elements in one object of the type *)
Definition lanes_of (d : dty) : nat := match d with DS _ => 1 | DV _ w => w end.
Definition dty_eqb (a b : dty) : bool :=
  match a, b with
  | DS s, DS t => ety_eqb s t
  | DV s v, DV t w => ety_eqb s t && (v =? w)%nat
  | _, _ => false
  end.
(** TypeInfo<T>::allowVectorisation, core/traits.hpp l.171-513, math/half.hpp l.728, math/complex.hpp l.2072,
    autodiff/dual.hpp l.380 *)
Definition allow_vec (t : ety) : bool :=
  match t with
  | TChar | I8 | U8 | I16 | U16 | I32 | U32 | F32 | F64 => true
  | TBool | I64 | U64 | Half | Cplx _ | Dual _ => false
  end.
(** l.578-738: true for every packet type *)
Definition allow_d (d : dty) : bool := match d with DS t => allow_vec t | DV _ _ => true end.
(** TypeInfo<T>::cudaPacketWidth, core/traits.hpp l.197-517 and l.582-742 (float2 has 1), math/half.hpp l.732,
    autodiff/dual.hpp l.384.  bool (traits.hpp l.160-179) and Complex (complex.hpp l.2061-2080) have none. *)
Definition packet_width (d : dty) : option nat :=
  match d with
  | DS TBool | DS (Cplx _) => None
  | DS _ => Some 1
  | DV F32 2 => Some 1
  | DV _ w => Some w
  end.

(** ** The kernels *)
(** what the kernel stores: an operator or a function applied to its parameters, counted after [dst] *)
Inductive cbody := COp (op : string) (i j : nat) | CCall (f : string) (i : nat) | CNeg (i : nat).
(** template<typename Destination, typename P1, …> void name(size_t elements, Destination *dst, P1 …): for each
    parameter after [dst], whether it is a pointer *)
Record ckernel := { c_file : string; c_name : string; c_ptr : list bool; c_body : cbody }.
(** arithmetic.cu *)
Definition arithmetic_cu (name op : string) : list ckernel :=
  [ {| c_file := "arithmetic"; c_name := name ++ "Arrays"; c_ptr := [true; true]; c_body := COp op 0 1 |};
    {| c_file := "arithmetic"; c_name := name ++ "ArraysScalarRhs"; c_ptr := [true; false]; c_body := COp op 0 1 |};
    {| c_file := "arithmetic"; c_name := name ++ "ArraysScalarLhs"; c_ptr := [false; true]; c_body := COp op 0 1 |} ].
Definition unary_cu (file f : string) : ckernel :=
  {| c_file := file; c_name := f ++ "Arrays"; c_ptr := [true]; c_body := CCall f 0 |}.
Definition cuda_program : list ckernel :=
  flat_map (fun p => arithmetic_cu (fst p) (snd p))
    [("add", "+"); ("sub", "-"); ("mul", "*"); ("div", "/"); ("lessThan", "<"); ("greaterThan", ">");
     ("lessThanEqual", "<="); ("greaterThanEqual", ">="); ("elementWiseEqual", "=="); ("elementWiseNotEqual", "!=")] ++
  (* negate.cu l.4-79: the template, and a specialisation for each packet type that negates its components *)
  [{| c_file := "negate"; c_name := "negateArrays"; c_ptr := [true]; c_body := CNeg 0 |}] ++
  (* trigonometry.cu l.8-16 *)
  map (unary_cu "trigonometry") ["sin"; "cos"; "tan"; "asin"; "acos"; "atan"; "sinh"; "cosh"; "tanh"] ++
  (* expLogPow.cu *)
  map (unary_cu "expLogPow") ["exp"; "log"; "log2"; "log10"; "sqrt"; "cbrt"; "abs"; "floor"; "ceil"] ++
  (* abs.cu, floorCeilRound.cu *)
  map (unary_cu "abs") ["abs"] ++ map (unary_cu "floorCeilRound") ["floor"; "ceil"].
(** program.kernel(name).instantiate: the program is the one file (loadKernel, src/cudaKernelProcessor.cpp) *)
Definition find_cuda (file name : string) : option ckernel :=
  find (fun k => String.eqb (c_file k) file && String.eqb (c_name k) name) cuda_program.

(** vectorOps.cuh: for each of these operators and each packet type: packet OP packet, packet OP scalar and scalar OP
    packet, with the scalar of the packet's component type; and these functions of a packet *)
Definition vector_ops : list string := ["+"; "-"; "*"; "/"; ">"; "<"; ">="; "<="; "=="; "!="].
Definition vector_calls : list string :=
  ["sin"; "cos"; "tan"; "asin"; "acos"; "atan"; "sinh"; "cosh"; "tanh"; "asinh"; "acosh"; "atanh"; "exp"; "log";
   "log2"; "log10"; "sqrt"; "cbrt"; "abs"; "ceil"; "floor"].
Definition has (l : list string) (s : string) : bool := existsb (String.eqb s) l.
Definition is_vec (t : ety) (w : nat) : bool :=
  match t with F32 | F64 => (2 <=? w)%nat && (w <=? 4)%nat | _ => false end.
Definition builtin (t : ety) : bool := match level t with Some _ => true | None => false end.
(** The type of the expression in the kernel, if it compiles.  Operators of the class types (half, Dual) are not
    modelled, nor is the overload that a function call on integers selects: both count as refused here. *)
Definition op_type (op : string) (a b : dty) : option dty :=
  match a, b with
  | DS s, DS t => if builtin s && builtin t then option_map DS (product_type s t) else None
  | DV s v, DV t w => if ety_eqb s t && (v =? w)%nat && is_vec s v && has vector_ops op then Some a else None
  | DV s v, DS t => if ety_eqb s t && is_vec s v && has vector_ops op then Some a else None
  | DS s, DV t w => if ety_eqb s t && is_vec t w && has vector_ops op then Some b else None
  end.
Definition call_type (f : string) (a : dty) : option dty :=
  match a with
  | DS F32 | DS F64 => Some a
  | DS _ => None
  | DV t w => if is_vec t w && has vector_calls f then Some a else None
  end.
(** dst[i] = …: the arithmetic types convert to each other; a packet is assigned to its own type only *)
Definition stores (d r : dty) : bool :=
  match d, r with DS s, DS t => builtin s && builtin t | DV _ _, DV _ _ => dty_eqb d r | _, _ => false end.
(** does the instantiated kernel compile? *)
Definition instantiates (k : ckernel) (d : dty) (ts : list dty) : bool :=
  match c_body k with
  | COp op i j =>
      match nth_error ts i, nth_error ts j with
      | Some a, Some b => match op_type op a b with Some r => stores d r | None => false end
      | _, _ => false
      end
  | CCall f i => match nth_error ts i with Some a => match call_type f a with Some r => stores d r | None => false end | None => false end
  | CNeg i =>
      match nth_error ts i with
      | Some (DS t) => match d with DS s => builtin s && builtin t | _ => false end
      | Some (DV t w) => is_vec t w && dty_eqb d (DV t w)          (* the specialisations *)
      | None => false
      end
  end.

(** ** The host side *)
(** TypeInfo<functor>::filename, array/operations.hpp l.272-589 *)
Definition unary_file (u : uname) : string :=
  match u with
  | Neg => "negate"
  | Sin | Cos | Tan | Asin | Acos | Atan | Sinh | Cosh | Tanh | Asinh | Acosh | Atanh => "trigonometry"
  | Exp | Exp2 | Exp10 | Log | Log2 | Log10 | Sqrt | Cbrt => "expLogPow"
  | Abs => "abs" | Floor | Ceil => "floorCeilRound"
  end.
Definition binary_file (b : bname) : string := "arithmetic".

Section Cuda.
Context {V : Type}.
(** LIBRAPID_CUDA_FLOAT_VECTOR_WIDTH and LIBRAPID_CUDA_DOUBLE_VECTOR_WIDTH, CMakeLists.txt l.55-56: 1 to 4 *)
Variables wf wd : nat.
(** the value stored in an element of type [d]: (d)(x OP y), (d)(f(x)), for operands of the given types *)
Variable vop : string -> ety -> ety -> ety -> V -> V -> V.
Variable vcall : string -> ety -> ety -> V -> V.
(** what newly allocated memory holds *)
Variable junk : nat -> nat -> V.

(** CUDA_FLOAT_VECTOR_TYPE, CUDA_DOUBLE_VECTOR_TYPE (core/cudaConfig.hpp l.76-86) and CudaVectorExtractor<T>,
    assignOps.hpp l.402-418, for an element type T *)
Definition vec_type (t : ety) : dty :=
  match t with
  | F32 => if (1 <? wf)%nat then DV F32 wf else DS F32
  | F64 => if (1 <? wd)%nat then DV F64 wd else DS F64
  | _ => DS t
  end.

(** Expressions: arrays (of an element type, by their number) and scalars, under unary and binary functors *)
Inductive expr := EArr (t : ety) (a : nat) | EScal (t : ety) (x : V) | EUn (u : uname) (e : expr) | EBin (b : bname) (e1 e2 : expr).
(** TypeInfo<…>::Scalar; of a Function, function.hpp l.85-88 *)
Fixpoint ty_of (e : expr) : option ety :=
  match e with
  | EArr t _ => Some t
  | EScal t _ => Some t
  | EUn _ e => ty_of e
  | EBin b e1 e2 => match ty_of e1, ty_of e2 with Some s, Some t => functor_type b s t | _, _ => None end
  end.
Definition opt_eqb (a b : option ety) : bool :=
  match a, b with Some s, Some t => ety_eqb s t | _, _ => false end.
(** TypeInfo<…>::allowVectorisation; of a container, arrayContainer.hpp l.59-65; of a Function,
    checkAllowVectorisation, function.hpp l.7-18 *)
Fixpoint allow (e : expr) : bool :=
  match e with
  | EArr t _ => allow_vec t
  | EScal t _ => allow_vec t
  | EUn _ e => allow e
  | EBin _ e1 e2 => allow e1 && allow e2 && opt_eqb (ty_of e1) (ty_of e2)
  end.
(** CudaCanVectorise<X, Function>::value, l.420-456, where X has the scalar type [s] and allows vectorisation or not
    ([ok]).  [dtypesAreSame] (l.442-445) compares every scalar type with itself.  [None]: cudaPacketWidth is
    missing, a compilation error.  edgeCases excludes Dual, which never allows vectorisation. *)
Definition dtypes_are_same (s t : ety) : bool := ety_eqb s s && ety_eqb t t.
Definition can_vectorise (ok : bool) (s : ety) (e : expr) : option bool :=
  match ty_of e with
  | None => None
  | Some t =>
      match packet_width (vec_type s), packet_width (vec_type t) with
      | Some v, Some w => Some (ok && allow e && dtypes_are_same s t && ((1 <? v)%nat && (1 <? w)%nat))
      | _, _ => None
      end
  end.
(** CudaVectorHelper<…>::extractor<T>(), l.458-475, for an array or a Function with the scalar type [t] *)
Definition extract (can : bool) (t : ety) : dty := if can then vec_type t else DS t.
Definition extract_arg (can : bool) (e : expr) : option dty :=
  match e with
  | EScal t _ => Some (DS t)
  | _ => option_map (extract can) (ty_of e)
  end.
Record plan := { p_dst : dty; p_args : list (option dty); p_width : nat }.
(** assign, l.525-547 (the type of [dst]), and cudaTupleEvaluator, l.488-511: Destination is the type of [dst], the
    other template arguments those of the operands, and the number of packets is computed with the width of the
    packets of the Function *)
Definition make_plan (d : ety) (e : expr) (args : list expr) : option plan :=
  match can_vectorise (allow_vec d) d e with
  | None => None
  | Some c1 =>
      let pointer := extract c1 d in
      let scalar := scal pointer in
      match can_vectorise (allow_d pointer) scalar e, can_vectorise (allow_vec scalar) scalar e, ty_of e with
      | Some c2, Some c3, Some t =>
          match packet_width (extract c2 t) with
          | Some w => Some {| p_dst := pointer; p_args := map (extract_arg c3) args; p_width := w |}
          | None => None
          end
      | _, _, _ => None
      end
  end.
(** the temporaries of all subexpressions compile *)
Fixpoint sub_compiles (e : expr) : bool :=
  match e with
  | EArr _ _ | EScal _ _ => true
  | EUn _ e1 => sub_compiles e1 && match ty_of e with Some t => match make_plan t e [e1] with Some _ => true | None => false end | None => false end
  | EBin _ e1 e2 =>
      sub_compiles e1 && sub_compiles e2 &&
      match ty_of e with Some t => match make_plan t e [e1; e2] with Some _ => true | None => false end | None => false end
  end.
Definition compiles (d : ety) (e : expr) : bool :=
  match e with
  | EArr _ _ | EScal _ _ => true
  | EUn _ e1 => sub_compiles e1 && match make_plan d e [e1] with Some _ => true | None => false end
  | EBin _ e1 e2 => sub_compiles e1 && sub_compiles e2 && match make_plan d e [e1; e2] with Some _ => true | None => false end
  end.

(** ** Running a kernel *)
Record array := { a_ty : ety; a_data : list V }.
Definition memory := list array.
Inductive arg := AArr (p : nat) | AScal (t : ety) (x : V).
Fixpoint each {X Y} (f : X -> outcome Y) (l : list X) : outcome (list Y) :=
  match l with [] => Ok [] | x :: l' => do y <- f x; do ys <- each f l'; Ok (y :: ys) end.
(** parameter [d] (a pointer or not) in thread [k]: the pointer is untyped when it is passed, and reading an array as
    another type gives undefined values *)
Definition load (m : memory) (k : nat) (p : dty * bool * arg) : outcome (dty * list V) :=
  let '(d, ptr, a) := p in
  match a, ptr with
  | AArr q, true =>
      do r <- rd m q;
      if ety_eqb (a_ty r) (scal d)
      then do xs <- each (fun j => rd (a_data r) (lanes_of d * k + j)) (seq 0 (lanes_of d)); Ok (d, xs)
      else UB
  | AScal t x, false => if dty_eqb d (DS t) then Ok (d, [x]) else UB
  | _, _ => UB
  end.
(** component [j] of an operand; a scalar operand has one value for all *)
Definition component (j : nat) (p : dty * list V) : outcome V :=
  rd (snd p) (match fst p with DS _ => 0 | DV _ _ => j end).
(** the components of the result, vectorOps.cuh: each from the same component of the operands *)
Definition body_value (b : cbody) (d : ety) (ts : list ety) (vs : list V) : outcome V :=
  match b with
  | COp op i j => do x <- rd vs i; do y <- rd vs j; do s <- rd ts i; do t <- rd ts j; Ok (vop op d s t x y)
  | CCall f i => do x <- rd vs i; do t <- rd ts i; Ok (vcall f d t x)
  | CNeg i => do x <- rd vs i; do t <- rd ts i; Ok (vcall "-" d t x)
  end.
(** dst[k] = … *)
Definition put (m : memory) (d : dty) (dst k : nat) (vs : list V) : outcome memory :=
  do r <- rd m dst;
  if ety_eqb (a_ty r) (scal d)
  then do l <- for_list (combine (seq 0 (lanes_of d)) vs) (fun p l => wr l (lanes_of d * k + fst p) (snd p)) (a_data r);
       wr m dst {| a_ty := a_ty r; a_data := l |}
  else UB.
Definition thread (kn : ckernel) (d : dty) (dst : nat) (ps : list (dty * bool * arg)) (k : nat) (m : memory) : outcome memory :=
  do xs <- each (load m k) ps;
  do vs <- each (fun j => do cs <- each (component j) xs; body_value (c_body kn) (scal d) (map (fun x => scal (fst x)) xs) cs)
             (seq 0 (lanes_of d));
  put m d dst k vs.
(** runKernel, cuda/cudaKernelProcesor.hpp l.27-60: an unknown kernel and one that does not compile are reported by an
    exception of jitify; a launch without threads is an error that is reported if assertions are on.
    [order]: the order of the packets. *)
Fixpoint all_some {X} (l : list (option X)) : option (list X) :=
  match l with [] => Some [] | Some x :: l' => option_map (cons x) (all_some l') | None :: _ => None end.
Definition run_kernel (asserts : bool) (file name : string) (d : dty) (ts : list dty) (packets : nat) (dst : nat)
    (args : list arg) (order : list nat) (m : memory) : outcome memory :=
  match find_cuda file name with
  | None => Throw RuntimeError
  | Some kn =>
      if instantiates kn d ts then
        if (packets =? 0)%nat then if asserts then Throw RuntimeError else Ok m
        else for_list order (thread kn d dst (combine (combine ts (c_ptr kn)) args)) m
      else Throw RuntimeError
  end.
(** l.506-507 *)
Definition packets_of (n w : nat) : nat := ((n + (w - 1)) / w)%nat.
Definition run_plan (asserts : bool) (file name : string) (n : nat) (p : plan) (dst : nat) (args : list arg)
    (order : nat -> list nat) (m : memory) : outcome memory :=
  match all_some (p_args p) with
  | None => UB
  | Some ts => run_kernel asserts file name (p_dst p) ts (packets_of n (p_width p)) dst args (order (packets_of n (p_width p))) m
  end.

(** getKernelName, operations.hpp l.33-66 *)
Definition is_scalar (e : expr) : bool := match e with EScal _ _ => true | _ => false end.
Definition binary_name (b : bname) (e1 e2 : expr) : string :=
  binary_kernel b (if is_scalar e1 then ScalarLhs else if is_scalar e2 then ScalarRhs else Arrays).
(** cudaTupleEvaluatorImpl, l.360-401: the array of a subexpression, a temporary of its type being assigned; [source]
    yields the argument handed to the kernel (dataSourceExtractor, l.355-363).  [order d k]: the order in which the [k] packets of the
    kernel that writes array [d] are treated. *)
Definition temporary (n : nat) (t : ety) (m : memory) : memory :=
  (m ++ [{| a_ty := t; a_data := map (junk (List.length m)) (seq 0 (pad n)) |}])%list.
Fixpoint source (asserts : bool) (n : nat) (order : nat -> nat -> list nat) (e : expr) (m : memory) : outcome (memory * arg) :=
  match e with
  | EArr _ a => Ok (m, AArr a)
  | EScal t x => Ok (m, AScal t x)
  | EUn u e1 =>
      match ty_of e with
      | None => UB
      | Some t =>
          match make_plan t e [e1] with
          | None => UB
          | Some p =>
              let d := List.length m in
              do r <- source asserts n order e1 (temporary n t m);
              do m' <- run_plan asserts (unary_file u) (unary_kernel u) n p d [snd r] (order d) (fst r);
              Ok (m', AArr d)
          end
      end
  | EBin b e1 e2 =>
      match ty_of e with
      | None => UB
      | Some t =>
          match make_plan t e [e1; e2] with
          | None => UB
          | Some p =>
              let d := List.length m in
              do r1 <- source asserts n order e1 (temporary n t m);
              do r2 <- source asserts n order e2 (fst r1);
              do m' <- run_plan asserts (binary_file b) (binary_name b e1 e2) n p d [snd r1; snd r2] (order d) (fst r2);
              Ok (m', AArr d)
          end
      end
  end.
(** dst = e, l.525-547; [d]: the element type of dst.  [None]: the program does not compile.  An expression that is an
    array or a scalar is copied by the storage (CudaModel). *)
Definition assign (asserts : bool) (n : nat) (order : nat -> nat -> list nat) (d : ety) (dst : nat) (e : expr) (m : memory) : option (outcome memory) :=
  if negb (compiles d e) then None
  else Some match e with
  | EArr _ _ | EScal _ _ => Ok m
  | EUn u e1 =>
      match make_plan d e [e1] with
      | None => UB
      | Some p => do r <- source asserts n order e1 m; run_plan asserts (unary_file u) (unary_kernel u) n p dst [snd r] (order dst) (fst r)
      end
  | EBin b e1 e2 =>
      match make_plan d e [e1; e2] with
      | None => UB
      | Some p =>
          do r1 <- source asserts n order e1 m;
          do r2 <- source asserts n order e2 (fst r1);
          run_plan asserts (binary_file b) (binary_name b e1 e2) n p dst [snd r1; snd r2] (order dst) (fst r2)
      end
  end.
End Cuda.
Arguments expr : clear implicits.
Arguments memory : clear implicits.
Arguments array : clear implicits.

(** ** Matrix products, array/linalg/level3/gemm.hpp l.164-292 *)
Inductive gres :=
| GRejected                                        (* the program does not compile *)
| Cublas (a b c : string)                          (* cuBLASLt is given these types for the matrices *)
| Fallback (ok : bool).                            (* the gemm kernel runs; does it read its arguments as the types they have? *)
(** TypeInfo<T>::CudaType, traits.hpp l.484, l.516, half.hpp l.731, complex.hpp l.2075: one constant for every Complex *)
Definition cuda_type (t : ety) : string :=
  match t with Half => "CUDA_R_16F" | F32 => "CUDA_R_32F" | F64 => "CUDA_R_64F" | Cplx _ => "CUDA_C_64F" | _ => "" end.
(** the kernel's template parameters, level3/gemm.cu l.3-6, and the types given for them, gemm.hpp l.282-289 *)
Definition gemm_parameters : list string := ["Int"; "Alpha"; "TypeA"; "TypeB"; "Beta"; "TypeC"].
Definition gemm_types (alpha a b beta c : ety) : list ety := [I64; alpha; a; beta; b; c].
(** the type each argument is read as: the pointers a, b, c and the values alpha, beta *)
Definition param_type (n : string) (ts : list ety) : option ety :=
  option_map snd (find (fun p => String.eqb (fst p) n) (combine gemm_parameters ts)).
Definition reads_as (t : ety) (o : option ety) : bool := match o with Some u => ety_eqb t u | None => false end.
(** ArrayMultiply::applyTo, arrayMultiply.hpp l.429-466: alpha and beta have the type of the product of two elements; a
    matrix-vector product calls the same gemm (gemv.hpp l.200-212).  [d]: the type of the result array. *)
Definition cuda_gemm (ta tb d : ety) : gres :=
  match product_type ta tb with
  | None => GRejected
  | Some s =>
      if blas_type ta && blas_type tb && blas_type d then Cublas (cuda_type ta) (cuda_type tb) (cuda_type d)
      else let ts := gemm_types s ta tb s d in
        Fallback (reads_as s (param_type "Alpha" ts) && reads_as ta (param_type "TypeA" ts) && reads_as tb (param_type "TypeB" ts) &&
                  reads_as s (param_type "Beta" ts) && reads_as d (param_type "TypeC" ts))
  end.
