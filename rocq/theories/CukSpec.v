(** Specification of elementwise evaluation on CUDA arrays of any element types: the value of an expression at an index, with
    the types in which every operation is carried out. *)
From Coq Require Import String Permutation.
From Verif Require Import Base CudaModel KnlModel KnlSpec CukModel.
Local Open Scope string_scope.

Definition floating (t : ety) : Prop := t = F32 \/ t = F64.
(** the CUDA function of an elementwise function *)
Definition cuda_math (u : uname) : string := match u with Abs => "abs" | _ => math_name u end.
(** the functions that have no CUDA kernel *)
Definition absent (u : uname) : Prop := In u [Asinh; Acosh; Atanh; Exp2; Exp10].

Section Spec.
Context {V : Type}.
Variable vop : string -> ety -> ety -> ety -> V -> V -> V.
Variable vcall : string -> ety -> ety -> V -> V.

(** element [i] of array [p] *)
Definition element (m : memory V) (p i : nat) : option V :=
  match nth_error m p with Some r => nth_error (a_data r) i | None => None end.
(** The value of the expression at index [i], stored as an element of type [d]: the operation on the values of the
    operands, each of its own type. *)
Fixpoint value (m : memory V) (d : ety) (e : expr V) (i : nat) : option V :=
  match e with
  | EArr _ a => element m a i
  | EScal _ x => Some x
  | EUn u e1 =>
      match ty_of e1 with
      | Some t => option_map (vcall (cuda_math u) d t) (value m t e1 i)
      | None => None
      end
  | EBin b e1 e2 =>
      match ty_of e1, ty_of e2 with
      | Some s, Some t =>
          match value m s e1 i, value m t e2 i with Some x, Some y => Some (vop (symbol b) d s t x y) | _, _ => None end
      | _, _ => None
      end
  end.
Definition is_function (e : expr V) : bool := match e with EUn _ _ | EBin _ _ _ => true | _ => false end.
(** Expressions of numeric arrays and scalars.  Functions other than the negation are applied to floats and
    doubles, and have a kernel. *)
Fixpoint supported (e : expr V) : Prop :=
  match e with
  | EArr t _ => numeric t
  | EScal t _ => numeric t
  | EUn u e1 => supported e1 /\ is_scalar e1 = false /\
      (u = Neg \/ (~ absent u /\ (ty_of e1 = Some F32 \/ ty_of e1 = Some F64)))
  | EBin _ e1 e2 => supported e1 /\ supported e2 /\ (is_scalar e1 = false \/ is_scalar e2 = false)
  end.
(** array [p] exists, has elements of type [t], and room for [n] of them in the units of 32 that CUDA storage allocates *)
Definition holds (n : nat) (m : memory V) (t : ety) (p : nat) : Prop :=
  exists r, nth_error m p = Some r /\ a_ty r = t /\ pad n <= length (a_data r).
Fixpoint arrays_in (n : nat) (m : memory V) (e : expr V) : Prop :=
  match e with
  | EArr t a => holds n m t a
  | EScal _ _ => True
  | EUn _ e1 => arrays_in n m e1
  | EBin _ e1 e2 => arrays_in n m e1 /\ arrays_in n m e2
  end.
(** elements [0 .. n-1] of [dst] have the values of [e] in the memory before the assignment; its type and size and
    all other arrays are unchanged *)
Definition assigned (n : nat) (d : ety) (dst : nat) (e : expr V) (m m' : memory V) : Prop :=
  (forall i, i < n -> exists v, value m d e i = Some v /\ element m' dst i = Some v) /\
  (exists r r', nth_error m dst = Some r /\ nth_error m' dst = Some r' /\ a_ty r' = a_ty r /\ length (a_data r') = length (a_data r)) /\
  (forall p, p < length m -> p <> dst -> nth_error m' p = nth_error m p).
End Spec.
(** every packet of every kernel is treated once, in any order *)
Definition schedule (order : nat -> nat -> list nat) : Prop := forall d k, Permutation (order d k) (seq 0 k).
(** packet widths that divide the unit of allocation *)
Definition even_width (w : nat) : Prop := w = 1 \/ w = 2 \/ w = 4.
