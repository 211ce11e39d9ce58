(** Model of array/function.hpp (lazy expressions), array/assignOps.hpp (assign, assignParallel) and
    ArrayContainer::assign (arrayContainer.hpp l.486-520).

    Element types and functors are abstract.  The packet version of a functor is its scalar version on
    every lane (xsimd's operators; trusted).  Arrays live in a store indexed by names, so that the
    destination may also be an operand (a = a + b). *)
From Verif Require Import Base ShapeModel.

Section Assign.
Context {A : Type}.

(** detail::Function with its arguments: arrays, scalars, or further Functions. *)
Inductive expr :=
| EArr (id : nat)
| EScalar (x : A)
| EUn (f : A -> A) (e : expr)
| EBin (f : A -> A -> A) (e1 e2 : expr).

Definition store := nat -> list A.
Definition set_arr (st : store) (id : nat) (l : list A) : store := fun j => if j =? id then l else st j.

(** Function::scalar, l.305-317; scalarExtractor, l.124-130; ArrayContainer::scalar, arrayContainer.hpp l.799-803 *)
Fixpoint scalar (st : store) (e : expr) (i : nat) : outcome A :=
  match e with
  | EArr id => rd (st id) i
  | EScalar x => Ok x
  | EUn f a => do x <- scalar st a i; Ok (f x)
  | EBin f a b => do x <- scalar st a i; do y <- scalar st b i; Ok (f x y)
  end.

Fixpoint map2 (f : A -> A -> A) (l1 l2 : list A) : list A :=
  match l1, l2 with x :: l1', y :: l2' => f x y :: map2 f l1' l2' | _, _ => [] end.

(** A packet load of w consecutive elements: all must be inside the array. *)
Definition load (l : list A) (i w : nat) : outcome (list A) :=
  if i + w <=? length l then Ok (firstn w (skipn i l)) else UB.

(** Function::packet, l.287-303; packetExtractor, l.113-122: a scalar operand is broadcast *)
Fixpoint packet (st : store) (e : expr) (w i : nat) : outcome (list A) :=
  match e with
  | EArr id => load (st id) i w
  | EScalar x => Ok (repeat x w)
  | EUn f a => do x <- packet st a w i; Ok (map f x)
  | EBin f a b => do x <- packet st a w i; do y <- packet st b w i; Ok (map2 f x y)
  end.

(** ArrayContainer::write / writePacket, arrayContainer.hpp l.805-820 *)
Definition write (st : store) (id i : nat) (x : A) : outcome store :=
  do l <- wr (st id) i x; Ok (set_arr st id l).
Fixpoint write_lanes (l : list A) (i : nat) (p : list A) : list A :=
  match p with [] => l | x :: p' => write_lanes (upd l i x) (i + 1) p' end.
Definition writePacket (st : store) (id i : nat) (p : list A) : outcome store :=
  if i + length p <=? length (st id) then Ok (set_arr st id (write_lanes (st id) i p)) else UB.

(** One loop iteration: a packet or a single element. *)
Inductive iteration := Packet (index : nat) | Single (index : nat).
Definition run_iteration (w lhs : nat) (e : expr) (it : iteration) (st : store) : outcome store :=
  match it with
  | Packet i => do p <- packet st e w i; writePacket st lhs i p
  | Single i => do x <- scalar st e i; write st lhs i x
  end.

(** The iterations of the loops: (first loop, second loop).  The first loop is the parallel one. *)
Definition packets (w vectorSize : nat) : list iteration := map (fun k => Packet (k * w)) (seq 0 (vectorSize / w)).
Definition singles (lo hi : nat) : list iteration := map Single (seq lo (hi - lo)).

(** assign for Storage (l.20-66), for FixedStorage (l.78-126), assignParallel for Storage (l.140-192) *)
Definition loops (vectorise : bool) (size packetWidth : nat) : list iteration * list iteration :=
  let w := if vectorise then packetWidth else 1 in
  let vectorSize := size - size mod w in
  if vectorise then (packets w vectorSize, singles vectorSize size) else (singles 0 size, []).
(** assignParallel for FixedStorage, l.204-255: the unvectorised loop starts at vectorSize *)
Definition loops_fixed_parallel (vectorise : bool) (size packetWidth : nat) : list iteration * list iteration :=
  let w := if vectorise then packetWidth else 1 in
  let vectorSize := size - size mod w in
  if vectorise then (packets w vectorSize, singles vectorSize size) else (singles vectorSize size, []).

(** Serial execution *)
Definition run_serial (w lhs : nat) (e : expr) (ls : list iteration * list iteration) (st : store) : outcome store :=
  for_list (fst ls ++ snd ls) (run_iteration w lhs e) st.

(** ** Parallel execution with arbitrary interleaving of individual loads and stores.

    An iteration is a little program: for every array operand (leaf) and lane a load into a private
    register, then for every lane a store of the value computed from the registers.  A schedule is
    the list of iteration numbers in the order in which they execute their next instruction. *)
Fixpoint leaves (e : expr) : list nat :=
  match e with
  | EArr id => [id]
  | EScalar _ => []
  | EUn _ a => leaves a
  | EBin _ a b => leaves a ++ leaves b
  end.
(** value of the expression from the values of its leaves (in order) *)
Fixpoint apply (e : expr) (vals : list A) : option A :=
  match e with
  | EArr _ => nth_error vals 0
  | EScalar x => Some x
  | EUn f a => option_map f (apply a vals)
  | EBin f a b =>
      match apply a vals, apply b (skipn (length (leaves a)) vals) with
      | Some x, Some y => Some (f x y)
      | _, _ => None
      end
  end.

Definition it_start (it : iteration) : nat := match it with Packet i | Single i => i end.
Definition it_width (w : nat) (it : iteration) : nat := match it with Packet _ => w | Single _ => 1 end.

(** pc and registers of one iteration; registers are listed in load order (lane by lane within a leaf) *)
Record thread := { t_pc : nat; t_regs : list A }.
Record machine := { mc_store : store; mc_threads : list thread }.

Definition lane_values (regs : list A) (nl w j : nat) : list A :=
  flat_map (fun l => match nth_error regs (l * w + j) with Some x => [x] | None => [] end) (seq 0 nl).

Definition step (w0 lhs : nat) (e : expr) (its : list iteration) (k : nat) (mc : machine) : outcome machine :=
  do it <- rd its k;
  do t <- rd (mc_threads mc) k;
  let w := it_width w0 it in
  let nl := length (leaves e) in
  let pc := t_pc t in
  if pc <? nl * w then                                  (* a load *)
    do id <- rd (leaves e) (pc / w);
    do x <- rd (mc_store mc id) (it_start it + pc mod w);
    Ok {| mc_store := mc_store mc;
          mc_threads := upd (mc_threads mc) k {| t_pc := pc + 1; t_regs := t_regs t ++ [x] |} |}
  else if pc <? nl * w + w then                          (* a store *)
    match apply e (lane_values (t_regs t) nl w (pc - nl * w)) with
    | None => UB
    | Some x =>
        do st <- write (mc_store mc) lhs (it_start it + (pc - nl * w)) x;
        Ok {| mc_store := st; mc_threads := upd (mc_threads mc) k {| t_pc := pc + 1; t_regs := t_regs t |} |}
    end
  else UB.                                               (* iteration already finished *)

(** number of instructions of iteration [it] *)
Definition instructions (w0 : nat) (e : expr) (it : iteration) : nat :=
  (length (leaves e) + 1) * it_width w0 it.

Definition run_schedule (w0 lhs : nat) (e : expr) (its : list iteration) (sched : list nat) (st : store) : outcome store :=
  do mc <- for_list sched (step w0 lhs e its)
             {| mc_store := st; mc_threads := repeat {| t_pc := 0; t_regs := [] |} (length its) |};
  Ok (mc_store mc).
(** parallel loop, barrier, serial remainder *)
Definition run_parallel (w lhs : nat) (e : expr) (ls : list iteration * list iteration)
    (sched : list nat) (st : store) : outcome store :=
  do st1 <- run_schedule w lhs e (fst ls) sched st;
  for_list (snd ls) (run_iteration w lhs e) st1.

(** ** ArrayContainer::assign, arrayContainer.hpp l.486-504 *)
Record array := { a_shape : shape; a_size : N; a_data : list A }.

(** Storage::resize(newSize, int), storage.hpp l.594-611, for storage that owns its data; a new block
    has arbitrary contents [junk].  The object is left unchanged when the check fails. *)
Definition resize_discard (asserts : bool) (junk : nat -> A) (d : list A) (n : nat) : outcome (list A) :=
  do _ <- check asserts RuntimeError (negb (n =? 0));
  if length d =? n then Ok d else Ok (map junk (seq 0 n)).

(** The result pairs the outcome with the destination afterwards (needed when it throws).
    [fdata] are the values the element loop writes (see [run_serial]); [fshape] is function.shape(). *)
Definition array_assign (asserts : bool) (junk : nat -> A) (dst : array) (fshape : shape) (fdata : list A)
    : outcome unit * array :=
  match resize_discard asserts junk (a_data dst) (N.to_nat (size fshape)) with
  | Throw x => (Throw x, dst)
  | UB => (UB, dst)
  | Ok d =>
      let dst1 := {| a_shape := a_shape dst; a_size := a_size dst; a_data := d |} in
      match check asserts RangeError (shape_eqb (a_shape dst) fshape) with
      | Ok _ => (Ok tt, {| a_shape := a_shape dst; a_size := a_size dst; a_data := fdata |})
      | Throw x => (Throw x, dst1)
      | UB => (UB, dst1)
      end
  end.
(** Construction from an expression, l.506-512 *)
Definition array_construct (asserts : bool) (junk : nat -> A) (fshape : shape) (fdata : list A) : outcome unit * array :=
  array_assign asserts junk
    {| a_shape := fshape; a_size := size fshape; a_data := map junk (seq 0 (N.to_nat (size fshape))) |} fshape fdata.
(** Assignment from a view, l.546-555 (Transpose, ArrayMultiply l.522-544 alike): shape first *)
Definition array_assign_view (asserts : bool) (junk : nat -> A) (dst : array) (vshape : shape) (vdata : list A)
    : outcome unit * array :=
  let dst1 := {| a_shape := vshape; a_size := size vshape; a_data := a_data dst |} in
  match resize_discard asserts junk (a_data dst) (N.to_nat (size vshape)) with
  | Throw x => (Throw x, dst1)
  | UB => (UB, dst1)
  | Ok _ => (Ok tt, {| a_shape := vshape; a_size := size vshape; a_data := vdata |})
  end.
End Assign.
Arguments expr : clear implicits.
Arguments store : clear implicits.
Arguments array : clear implicits.
Arguments thread : clear implicits.
Arguments machine : clear implicits.
