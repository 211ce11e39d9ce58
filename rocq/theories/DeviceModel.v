(** Model of elementwise evaluation on a GPU: the launch configuration (cuda/cudaKernelProcesor.hpp,
    opencl/openclKernelProcessor.hpp), the elementwise kernels (cuda/kernels/*.cu, opencl/kernels/*.cl) run by any number of
    threads in any interleaving, and the recursive evaluation of expression trees (array/assignOps.hpp).
    The arithmetic of one element is abstract: any function of the argument elements. *)
From Coq Require Import ZArith.
From Verif Require Import Base CudaModel.

(** ** Launch configuration *)
(** cudaKernelProcesor.hpp l.27-35: elements < 512 run in one block, otherwise blocks of 512.  The quotient is
    computed in double, which is exact below 2^53 elements. *)
Definition threadsPerBlock (n : nat) : nat := if n <? 512 then n else 512.
Definition blocksPerGrid (n : nat) : nat := if n <? 512 then 1 else (n + 511) / 512.
(** Thread [t] of block [b] is number [b * threadsPerBlock + t]; all numbers below this one exist. *)
Definition cuda_threads (n : nat) : nat := blocksPerGrid n * threadsPerBlock n.
(** [const size_t kernelIndex = blockDim.x * blockIdx.x + threadIdx.x], e.g. cuda/kernels/arithmetic.cu l.6: the operands are
    32-bit unsigned, so the sum is taken modulo 2^32 before it is widened. *)
Definition cuda_index (q : nat) : outcome nat := Ok (Z.to_nat (Z.of_nat q mod 2 ^ 32)).
(** openclKernelProcessor.hpp l.35-37: one work-item per element; [int gid = get_global_id(0)], e.g. arithmetic.cl l.4: beyond 2^31 the
    value does not fit and the accesses go out of range. *)
Definition opencl_threads (n : nat) : nat := n.
Definition opencl_index (q : nat) : outcome nat := if (Z.of_nat q <? 2 ^ 31)%Z then Ok q else UB.
(** [if (kernelIndex < elements)] in every CUDA kernel; none in the OpenCL kernels *)
Definition cuda_guard (n i : nat) : bool := i <? n.
Definition opencl_guard (n i : nat) : bool := true.

Section Kernel.
Context {A T : Type}.                       (** element values, element types *)
Variable ty_eqb : T -> T -> bool.

(** Device memory; a buffer knows the type its elements were written with. *)
Record buffer := { b_ty : T; b_data : list A }.
Definition memory := list buffer.
Inductive arg := AArr (a : nat) | AScal (x : A).
(** A kernel: its arguments, destination, elementwise function, and, for OpenCL, the one element type that it
    was compiled for (the kernel's name ends in it; buffers are passed untyped).  CUDA kernels are
    templates instantiated with the type of every argument. *)
Record kernel := { k_args : list arg; k_dst : nat; k_fun : list A -> A; k_ty : option T }.
Definition typed (k : kernel) (b : buffer) : bool :=
  match k_ty k with Some t => ty_eqb t (b_ty b) | None => true end.
(** reading element [i] of an argument: outside a buffer, or with another type, the value is undefined *)
Definition fetch (k : kernel) (m : memory) (a : arg) (i : nat) : outcome A :=
  match a with
  | AScal x => Ok x
  | AArr p => do b <- rd m p; if typed k b then rd (b_data b) i else UB
  end.
Definition put_elt (k : kernel) (m : memory) (i : nat) (x : A) : outcome memory :=
  do b <- rd m (k_dst k);
  if typed k b then do d <- wr (b_data b) i x; wr m (k_dst k) {| b_ty := b_ty b; b_data := d |} else UB.

(** Execution state: memory, the argument values thread [q] has read so far, and whether it has stored its result *)
Record kstate := { s_mem : memory; s_loc : nat -> list A; s_done : nat -> bool }.
(** The configuration: index and guard of the kernels *)
Record config := { c_index : nat -> outcome nat; c_guard : nat -> bool }.
(** One step of thread [q]: read the next argument or store the result *)
Definition kstep (cf : config) (k : kernel) (st : kstate) (q : nat) : outcome kstate :=
  do i <- c_index cf q;
  if negb (c_guard cf i) || s_done st q then Ok st
  else match nth_error (k_args k) (length (s_loc st q)) with
       | Some a => do v <- fetch k (s_mem st) a i;
                   Ok {| s_mem := s_mem st; s_loc := fun x => if x =? q then s_loc st q ++ [v] else s_loc st x; s_done := s_done st |}
       | None => do m <- put_elt k (s_mem st) i (k_fun k (s_loc st q));
                 Ok {| s_mem := m; s_loc := s_loc st; s_done := fun x => if x =? q then true else s_done st x |}
       end.
Definition kinit (m : memory) : kstate := {| s_mem := m; s_loc := fun _ => []; s_done := fun _ => false |}.
(** Running a kernel under a schedule: the sequence of threads that make a step *)
Definition krun (cf : config) (k : kernel) (m : memory) (sched : list nat) : outcome memory :=
  omap s_mem (for_list sched (fun q st => kstep cf k st q) (kinit m)).

(** ** Launches *)
Record backend := { threads : nat -> nat; conf : nat -> config;
                    lanes : nat -> nat;       (** elements processed for an array of [n] elements *)
                    capacity : nat -> nat;    (** allocated elements *)
                    one_type : bool }.
Definition cuda_conf (n : nat) : config := {| c_index := cuda_index; c_guard := cuda_guard n |}.
Definition opencl_conf (n : nat) : config := {| c_index := opencl_index; c_guard := opencl_guard n |}.
(** CUDA with packets of [w] elements, assignOps.hpp l.506-507: (size + w - 1) / w packets.  A thread treats the [w] elements of
    one packet; here every one of them gets a thread of its own, which allows more interleavings. *)
Definition cuda (w : nat) : backend :=
  {| threads := cuda_threads; conf := cuda_conf; lanes := fun n => w * ((n + (w - 1)) / w); capacity := pad; one_type := false |}.
Definition opencl : backend :=
  {| threads := opencl_threads; conf := opencl_conf; lanes := fun n => n; capacity := fun n => n; one_type := true |}.

(** A launch of no threads is an error: reported if assertions are on (cudaConfig.hpp l.57-60; openclKernelProcessor.hpp l.39-42),
    else ignored. *)
Definition launch (asserts : bool) (bk : backend) (n : nat) (k : kernel) (m : memory) (sched : list nat) : outcome memory :=
  let n' := lanes bk n in
  if threads bk n' =? 0 then if asserts then Throw RuntimeError else Ok m
  else krun (conf bk n') k m sched.

(** ** Expression trees, assignOps.hpp l.280-549 *)
(** Leaves are arrays and scalars (with their type); inner nodes a unary or binary function. *)
Inductive expr := EArr (a : nat) | EScal (t : T) (x : A) | EUn (f : A -> A) (e : expr) | EBin (f : A -> A -> A) (e1 e2 : expr).
Variable junk : nat -> nat -> A.
Variable promote : T -> T -> T.                     (** the usual arithmetic conversions *)
Variable dflt : T.
(** Function::Scalar, array/function.hpp l.85-88: the type the functor returns for its arguments' types *)
Fixpoint ty_of (m : memory) (e : expr) : T :=
  match e with
  | EArr a => match nth_error m a with Some b => b_ty b | None => dflt end
  | EScal t _ => t
  | EUn _ e => ty_of m e
  | EBin _ e1 e2 => promote (ty_of m e1) (ty_of m e2)
  end.
(** the kernel of a node: openCLTupleEvaluator l.319-328, cudaTupleEvaluator l.489-510 *)
Definition fun1 (f : A -> A) (l : list A) : A := match l with [x] => f x | _ => junk 0 0 end.
Definition fun2 (f : A -> A -> A) (l : list A) : A := match l with [x; y] => f x y | _ => junk 0 0 end.
Definition kty (bk : backend) (t : T) : option T := if one_type bk then Some t else None.
(** a temporary for [n] elements, openCLTupleEvaluatorImpl l.307-315, cudaTupleEvaluatorImpl l.393-401 *)
Definition temporary (bk : backend) (n : nat) (t : T) (m : memory) : memory * nat :=
  (m ++ [{| b_ty := t; b_data := map (junk (length m)) (seq 0 (capacity bk n)) |}], length m).

(** [source]: the storage or scalar handed to the kernel for a subexpression; [assign]: assign, l.336-350 and l.525-547.
    [sched d] is the schedule of the kernel that writes buffer [d].  Subexpressions are evaluated from
    left to right (the order is unspecified in C++). *)
Fixpoint source (asserts : bool) (bk : backend) (n : nat) (sched : nat -> list nat) (e : expr) (m : memory) : outcome (memory * arg) :=
  match e with
  | EArr a => Ok (m, AArr a)
  | EScal _ x => Ok (m, AScal x)
  | EUn f e1 =>
      let t := ty_of m e in
      let (m0, d) := temporary bk n t m in
      do r <- source asserts bk n sched e1 m0;
      do m2 <- launch asserts bk n {| k_args := [snd r]; k_dst := d; k_fun := fun1 f; k_ty := kty bk t |} (fst r) (sched d);
      Ok (m2, AArr d)
  | EBin f e1 e2 =>
      let t := ty_of m e in
      let (m0, d) := temporary bk n t m in
      do r1 <- source asserts bk n sched e1 m0;
      do r2 <- source asserts bk n sched e2 (fst r1);
      do m2 <- launch asserts bk n {| k_args := [snd r1; snd r2]; k_dst := d; k_fun := fun2 f; k_ty := kty bk t |} (fst r2) (sched d);
      Ok (m2, AArr d)
  end.
Definition assign (asserts : bool) (bk : backend) (n : nat) (sched : nat -> list nat) (d : nat) (e : expr) (m : memory) : outcome memory :=
  match e with
  | EArr _ | EScal _ _ => Ok m                       (* not a Function: copied by the storage (CudaModel, OclModel) *)
  | EUn f e1 =>
      do r <- source asserts bk n sched e1 m;
      launch asserts bk n {| k_args := [snd r]; k_dst := d; k_fun := fun1 f; k_ty := kty bk (ty_of m e) |} (fst r) (sched d)
  | EBin f e1 e2 =>
      do r1 <- source asserts bk n sched e1 m;
      do r2 <- source asserts bk n sched e2 (fst r1);
      launch asserts bk n {| k_args := [snd r1; snd r2]; k_dst := d; k_fun := fun2 f; k_ty := kty bk (ty_of m e) |} (fst r2) (sched d)
  end.
End Kernel.
Arguments buffer : clear implicits.
Arguments memory : clear implicits.
Arguments expr : clear implicits.
Arguments kernel : clear implicits.
Arguments arg : clear implicits.
