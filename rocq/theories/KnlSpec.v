(** Specification of kernel selection: the kernel that runs computes the operation that was asked for, on the
    operands that were given, in their element type. *)
From Coq Require Import String.
From Verif Require Import Base KnlModel.
Local Open Scope string_scope.

(** the numeric types a kernel can be written for, and those of four or eight bytes *)
Definition numeric (t : ety) : Prop := In t [I8; U8; I16; U16; I32; U32; I64; U64; F32; F64].
Definition wide (t : ety) : Prop := In t [I32; U32; I64; U64; F32; F64].
Definition narrow (t : ety) : Prop := In t [I8; U8; I16; U16].
Definition unsigned (t : ety) : Prop := In t [U8; U16; U32; U64].

Definition arithmetic (b : bname) : Prop := In b [Plus; Sub; Multiply; Divide].

Definition symbol (b : bname) : string :=
  match b with
  | Plus => "+" | Sub => "-" | Multiply => "*" | Divide => "/" | LessThan => "<" | GreaterThan => ">"
  | LessThanEqual => "<=" | GreaterThanEqual => ">=" | ElementWiseEqual => "==" | ElementWiseNotEqual => "!="
  end.
(** the OpenCL function of an elementwise function *)
Definition math_name (u : uname) : string :=
  match u with
  | Sin => "sin" | Cos => "cos" | Tan => "tan" | Asin => "asin" | Acos => "acos" | Atan => "atan"
  | Sinh => "sinh" | Cosh => "cosh" | Tanh => "tanh" | Asinh => "asinh" | Acosh => "acosh" | Atanh => "atanh"
  | Exp => "exp" | Exp2 => "exp2" | Exp10 => "exp10" | Log => "log" | Log2 => "log2" | Log10 => "log10"
  | Sqrt => "sqrt" | Cbrt => "cbrt" | Floor => "floor" | Ceil => "ceil" | Neg => "-" | Abs => "fabs"
  end.
Definition integral (t : ety) : Prop := In t [I8; U8; I16; U16; I32; U32; I64; U64].

(** the argument bound to a parameter *)
Definition bound_to (bound : list (string * string)) (o : operand) : option string :=
  let n := match o with Elem n => n | Val n => n end in
  option_map snd (find (fun p => String.eqb (fst p) n) bound).
(** every parameter of the kernel that depends on the element type has the type [t] *)
Definition elements_of (t : ety) (k : kernel) : Prop :=
  forall n u, In (PBuf n u) (k_params k) -> u = t.

(** [r] is a run of a kernel for elements of type [t] that stores "left OP right" in every element of the result *)
Definition runs_binary (b : bname) (s : shape) (t : ety) (r : result) : Prop :=
  exists k bound x y, r = Ran k bound /\ elements_of t k /\ k_body k = Binary (symbol b) x y /\
    bound_to bound (Elem "dst") = Some "result" /\ bound_to bound x = Some "left" /\ bound_to bound y = Some "right" /\
    (match x with Elem _ => s <> ScalarLhs | Val _ => s = ScalarLhs end) /\
    (match y with Elem _ => s <> ScalarRhs | Val _ => s = ScalarRhs end).
(** … that stores f(operand).  On the integers floor and ceil copy, and the others compute in double. *)
Definition body_of (u : uname) (t : ety) (x : operand) : body -> Prop := fun bd =>
  match u with
  | Neg => bd = Minus x
  | Abs => bd = AbsIf x
  | Floor | Ceil => (integral t /\ bd = Copy x) \/ (~ integral t /\ bd = Call (math_name u) x)
  | _ => (integral t /\ bd = CallCast (math_name u) x) \/ (~ integral t /\ bd = Call (math_name u) x)
  end.
Definition runs_unary (u : uname) (t : ety) (r : result) : Prop :=
  exists k bound n, r = Ran k bound /\ elements_of t k /\ body_of u t (Elem n) (k_body k) /\
    bound_to bound (Elem "dst") = Some "result" /\ bound_to bound (Elem n) = Some "operand".
(** … the named kernel, with these arguments in this order *)
Definition runs_named (what : string) (t : ety) (binding : list (string * string)) (r : result) : Prop :=
  exists k, r = Ran k binding /\ k_body k = Named what /\
    (forall n u, In (PBuf n u) (k_params k) -> n <> "seeds" -> u = t) /\ map pname (k_params k) = map fst binding.

(** the result array of an expression has the expression's type *)
Definition widest (ta tb t : ety) : Prop :=
  (t = ta \/ t = tb) /\ product_type ta tb = Some t.
