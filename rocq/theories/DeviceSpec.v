(** What elementwise evaluation on a device means. *)
From Coq Require Import ZArith.
From Verif Require Import Base CudaModel DeviceModel.

Section Spec.
Context {A T : Type}.
(** element [i] of buffer [p] *)
Definition val (m : memory A T) (p i : nat) : option A :=
  match nth_error m p with Some b => nth_error (b_data b) i | None => None end.
Definition value (m : memory A T) (a : arg A) (i : nat) : option A :=
  match a with AScal x => Some x | AArr p => val m p i end.
(** nothing about a buffer changes *)
Definition same_buffer (m m' : memory A T) (p : nat) : Prop := nth_error m' p = nth_error m p.
(** [m'] is [m] with elements [0 .. n-1] of the destination replaced by the function of the corresponding ORIGINAL argument
    elements, and nothing else changed *)
Definition elementwise (n : nat) (k : kernel A T) (m m' : memory A T) : Prop :=
  length m' = length m /\
  (forall p, p <> k_dst k -> same_buffer m m' p) /\
  (forall i, i < n -> exists vs, Forall2 (fun a v => value m a i = Some v) (k_args k) vs /\ val m' (k_dst k) i = Some (k_fun k vs)) /\
  (forall i, n <= i -> val m' (k_dst k) i = val m (k_dst k) i).
(** buffer [p] exists, has at least [n] elements and, where it matters, the type [t] *)
Definition holds (t : option T) (n : nat) (m : memory A T) (p : nat) : Prop :=
  exists b, nth_error m p = Some b /\ n <= length (b_data b) /\ (forall t', t = Some t' -> b_ty b = t').
Definition usable (t : option T) (n : nat) (m : memory A T) (a : arg A) : Prop :=
  match a with AScal _ => True | AArr p => holds t n m p end.
(** a schedule in which the threads [0 .. nt-1] all run to the end: at most two argument reads and a store *)
Definition complete (nt : nat) (sched : list nat) : Prop :=
  Forall (fun q => q < nt) sched /\ forall q, q < nt -> 3 <= count_occ Nat.eq_dec sched q.

(** the value of an expression at element [i], in the memory before the assignment *)
Fixpoint denote (m : memory A T) (e : expr A T) (i : nat) : option A :=
  match e with
  | EArr a => val m a i
  | EScal _ x => Some x
  | EUn f e => option_map f (denote m e i)
  | EBin f e1 e2 => match denote m e1 i, denote m e2 i with Some x, Some y => Some (f x y) | _, _ => None end
  end.
Definition is_function (e : expr A T) : bool := match e with EUn _ _ | EBin _ _ _ => true | _ => false end.
(** every array in the expression exists and has at least [n] elements *)
Fixpoint arrays_in (n : nat) (m : memory A T) (e : expr A T) : Prop :=
  match e with
  | EArr a => holds None n m a
  | EScal _ _ => True
  | EUn _ e => arrays_in n m e
  | EBin _ e1 e2 => arrays_in n m e1 /\ arrays_in n m e2
  end.
(** every array and every intermediate result has the type [t] *)
Fixpoint one_typed (promote : T -> T -> T) (dflt : T) (t : T) (m : memory A T) (e : expr A T) : Prop :=
  match e with
  | EArr a => ty_of promote dflt m e = t
  | EScal _ _ => True
  | EUn _ e1 => ty_of promote dflt m e = t /\ one_typed promote dflt t m e1
  | EBin _ e1 e2 => ty_of promote dflt m e = t /\ one_typed promote dflt t m e1 /\ one_typed promote dflt t m e2
  end.
(** [m'] is [m] with the first [n] elements of buffer [d] replaced by the values of the expression; apart from new
    buffers (the temporaries) and elements [n ..] of [d] (the padding) nothing else has changed *)
Definition assigned (n d : nat) (e : expr A T) (m m' : memory A T) : Prop :=
  (forall i, i < n -> val m' d i = denote m e i /\ denote m e i <> None) /\
  (forall p, p < length m -> p <> d -> same_buffer m m' p).
End Spec.
