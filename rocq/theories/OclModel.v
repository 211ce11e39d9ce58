(** Model of librapid/include/librapid/opencl/openclStorage.hpp: OpenCLStorage (arrays in device memory,
    held through reference-counted cl::Buffer handles) and OpenCLRef (a reference to one element).
    OpenCL reports errors as return codes; the code ignores them (C++ exceptions of the OpenCL bindings are
    not switched on), so a call the runtime rejects has no effect.  The command queue executes in order and
    element reads and writes block (CL_TRUE), so calls are modelled as taking effect immediately. *)
From Verif Require Import Base.

Section Ocl.
Context {A : Type}.

(** ** Device memory: buffers with a reference count; [None] is a buffer that has been released. *)
Record buffer := { b_data : list A; b_refs : nat }.
Definition memory := list (option buffer).
Definition buf (h : memory) (a : nat) : option buffer :=
  match nth_error h a with Some b => b | None => None end.

(** contents of fresh device memory: arbitrary *)
Variable junk : nat -> nat -> A.

(** cl::Buffer(context, flags, n * sizeof(Scalar)): clCreateBuffer rejects size zero, leaving a null handle *)
Definition create (h : memory) (n : nat) : memory * option nat :=
  if n =? 0 then (h, None)
  else (h ++ [Some {| b_data := map (junk (length h)) (seq 0 n); b_refs := 1 |}], Some (length h)).
(** copying a cl::Buffer handle: clRetainMemObject *)
Definition retain (h : memory) (p : option nat) : outcome memory :=
  match p with
  | None => Ok h
  | Some a => match buf h a with
              | Some b => Ok (upd h a (Some {| b_data := b_data b; b_refs := S (b_refs b) |}))
              | None => UB
              end
  end.
(** destroying or overwriting a cl::Buffer handle: clReleaseMemObject *)
Definition release (h : memory) (p : option nat) : outcome memory :=
  match p with
  | None => Ok h
  | Some a => match buf h a with
              | Some b => Ok (upd h a (if b_refs b <=? 1 then None
                                       else Some {| b_data := b_data b; b_refs := b_refs b - 1 |}))
              | None => UB
              end
  end.
(** storing [l] at the start of a buffer, or nothing when the call is rejected
    (null handle, no bytes, beyond the end of the buffer) *)
Definition store (h : memory) (p : option nat) (l : list A) : outcome memory :=
  match p with
  | None => Ok h
  | Some a => match buf h a with
              | Some b => if (0 <? length l) && (length l <=? length (b_data b))
                          then Ok (upd h a (Some {| b_data := l ++ skipn (length l) (b_data b); b_refs := b_refs b |}))
                          else Ok h
              | None => UB
              end
  end.
(** enqueueCopyBuffer(src, dst, 0, 0, n * sizeof(Scalar)); overlapping regions are rejected *)
Definition copyBuffer (h : memory) (src dst : option nat) (n : nat) : outcome memory :=
  match src, dst with
  | Some s, Some d =>
      match buf h s, buf h d with
      | Some bs, Some _ => if (s =? d) || (length (b_data bs) <? n) then Ok h
                           else store h dst (firstn n (b_data bs))
      | _, _ => UB
      end
  | _, _ => Ok h
  end.

(** ** Objects *)
(** The members, l.217-219; m_size is left uninitialised ([None]) by the default constructor *)
Record storage := { o_size : option nat; o_buf : option nat; o_owns : bool }.
(** OpenCLRef, l.110-111 *)
Record ref := { r_buf : option nat; r_off : nat }.
Inductive handle := HStorage (s : storage) | HRef (r : ref).
(** the buffer a handle keeps alive *)
Definition holds (o : option handle) : option nat :=
  match o with Some (HStorage s) => o_buf s | Some (HRef r) => r_buf r | None => None end.

(** A program state: device memory and the variables of the program *)
Record state := { st_mem : memory; st_env : list (option handle) }.
Definition var (st : state) (i : nat) : option handle := nth i (st_env st) None.
Definition storage_at (st : state) (i : nat) : option storage :=
  match var st i with Some (HStorage s) => Some s | _ => None end.
Definition set_var (st : state) (h : memory) (i : nat) (o : option handle) : state :=
  {| st_mem := h; st_env := upd (st_env st) i o |}.

(** reading an uninitialised m_size is undefined *)
Definition size_of (s : storage) : outcome nat := match o_size s with Some n => Ok n | None => UB end.

(** What a program can do.  The first argument is the variable constructed or acted upon. *)
Inductive cmd :=
| CDefault (i : nat)                    (* OpenCLStorage s_i;                     l.145 *)
| CSize (i n : nat)                     (* OpenCLStorage s_i(n);                  l.222-227 *)
| CFill (i n : nat) (x : A)             (* OpenCLStorage s_i(n, x);               l.229-235 *)
| CList (i : nat) (l : list A)          (* OpenCLStorage s_i({..}) / vector       l.263-281 *)
| CShare (i j n : nat) (owns : bool)    (* OpenCLStorage s_i(s_j.data(), n, owns) l.237-241 *)
| CCopyCtor (i j : nat)                 (* OpenCLStorage s_i(s_j);                l.243-252 *)
| CMoveCtor (i j : nat)                 (* OpenCLStorage s_i(std::move(s_j));     l.254-261 *)
| CCopy (i j : nat)                     (* OpenCLStorage s_i = s_j.copy();        l.324-331 *)
| CAssign (i j : nat)                   (* s_i = s_j;                             l.283-307 *)
| CMoveAssign (i j : nat)               (* s_i = std::move(s_j);                  l.309-322 *)
| CResize (i n : nat)                   (* s_i.resize(n);                         l.358-373 *)
| CResizeDiscard (i n : nat)            (* s_i.resize(n, 0);                      l.375-382 *)
| CRef (r i k : nat)                    (* auto r = s_i[k];                       l.389-406 *)
| CSetRef (r : nat) (x : A)             (* r = x;                                 l.85-89 *)
| CGetRef (r : nat)                     (* r.get() (value discarded)              l.91-97 *)
| CDestroy (i : nat).                   (* end of the variable's life             l.350-356 *)

Definition result := (outcome unit * state)%type.
(** continue with the memory a step produced *)
Definition andThen {B} (st : state) (o : outcome B) (k : B -> result) : result :=
  match o with Ok x => k x | Throw e => (Throw e, st) | UB => (UB, st) end.

Definition own (n : nat) (p : option nat) : option handle :=
  Some (HStorage {| o_size := Some n; o_buf := p; o_owns := true |}).
Definition moved_from : option handle :=
  Some (HStorage {| o_size := Some 0; o_buf := None; o_owns := false |}).

(** OpenCLRef::get, l.91-97: a rejected read leaves the uninitialised local variable, whose value is then returned *)
Definition get (h : memory) (r : ref) : outcome A :=
  match r_buf r with
  | None => UB
  | Some a => match buf h a with Some b => rd (b_data b) (r_off r) | None => UB end
  end.
(** OpenCLRef::operator=, l.85-89: a write beyond the buffer is rejected *)
Definition set (h : memory) (r : ref) (x : A) : outcome memory :=
  match r_buf r with
  | None => Ok h
  | Some a => match buf h a with
              | Some b => Ok (upd h a (Some {| b_data := upd (b_data b) (r_off r) x; b_refs := b_refs b |}))
              | None => UB
              end
  end.

(** operator=(const OpenCLStorage&), different objects *)
Definition copy_assign (asserts : bool) (st : state) (i : nat) (s o : storage) : result :=
  let h := st_mem st in
  andThen st (size_of o) (fun no =>
  if no =? 0 then (Ok tt, st)                                                  (* quick return *)
  else andThen st (size_of s) (fun ns =>
    let finish h2 p :=
      let st2 := set_var st h2 i (Some (HStorage {| o_size := Some no; o_buf := p; o_owns := o_owns s |})) in
      andThen st2 (copyBuffer h2 (o_buf o) p no) (fun h3 => (Ok tt, {| st_mem := h3; st_env := st_env st2 |})) in
    if ns =? no then finish h (o_buf s)
    else if o_owns s then
      let (h1, p) := create h no in
      andThen st (release h1 (o_buf s)) (fun h2 => finish h2 p)
    else if asserts
         then (Throw RuntimeError, set_var st h i (Some (HStorage {| o_size := Some no; o_buf := o_buf s; o_owns := o_owns s |})))
         else finish h (o_buf s))).

(** resize: [keep] tells the two overloads apart *)
Definition do_resize (asserts keep : bool) (st : state) (i : nat) (s : storage) (n : nat) : result :=
  let h := st_mem st in
  andThen st (size_of s) (fun ns =>
  if n =? ns then (Ok tt, st)
  else if asserts && (n =? 0) then (Throw RuntimeError, st)
  else if asserts && negb (o_owns s) then (Throw RuntimeError, st)
  else
    let (h1, p) := create h n in
    andThen st (if keep then copyBuffer h1 (o_buf s) p (Nat.min n ns) else Ok h1) (fun h2 =>
    andThen st (release h2 (o_buf s)) (fun h3 =>
      (Ok tt, set_var st h3 i (Some (HStorage {| o_size := Some n; o_buf := p; o_owns := o_owns s |})))))).

(** a new buffer of [n] elements holding a copy of the first [n] elements of [src] *)
Definition duplicate (st : state) (i n : nat) (src : option nat) : result :=
  let (h1, p) := create (st_mem st) n in
  andThen st (copyBuffer h1 src p n) (fun h2 => (Ok tt, set_var st h2 i (own n p))).

(** One command.  Naming a variable that is not there (or constructing one that is) is not a C++ program;
    the result UB is never used. *)
Definition step (asserts : bool) (st : state) (c : cmd) : result :=
  let h := st_mem st in
  match c with
  | CDefault i => (Ok tt, set_var st h i (Some (HStorage {| o_size := None; o_buf := None; o_owns := true |})))
  | CSize i n => let (h1, p) := create h n in (Ok tt, set_var st h1 i (own n p))
  | CFill i n x =>
      let (h1, p) := create h n in
      andThen st (store h1 p (repeat x n)) (fun h2 => (Ok tt, set_var st h2 i (own n p)))
  | CList i l =>
      let (h1, p) := create h (length l) in
      andThen st (store h1 p l) (fun h2 => (Ok tt, set_var st h2 i (own (length l) p)))
  | CShare i j n ow =>
      match storage_at st j with
      | Some o => andThen st (retain h (o_buf o)) (fun h1 =>
                    (Ok tt, set_var st h1 i (Some (HStorage {| o_size := Some n; o_buf := o_buf o; o_owns := ow |}))))
      | None => (UB, st)
      end
  | CCopyCtor i j | CCopy i j =>
      match storage_at st j with
      | Some o => andThen st (size_of o) (fun n => duplicate st i n (o_buf o))
      | None => (UB, st)
      end
  | CMoveCtor i j =>
      match var st j with
      | Some (HStorage o) => andThen st (size_of o) (fun _ =>
          (Ok tt, set_var (set_var st h i (Some (HStorage o))) h j moved_from))
      | _ => (UB, st)
      end
  | CAssign i j =>
      match storage_at st i, storage_at st j with
      | Some s, Some o => if i =? j then (Ok tt, st) else copy_assign asserts st i s o
      | _, _ => (UB, st)
      end
  | CMoveAssign i j =>
      match storage_at st i, storage_at st j with
      | Some s, Some o =>
          if i =? j then (Ok tt, st)
          else andThen st (size_of o) (fun _ => andThen st (release h (o_buf s)) (fun h1 =>
                 (Ok tt, set_var (set_var st h1 i (Some (HStorage o))) h1 j moved_from)))
      | _, _ => (UB, st)
      end
  | CResize i n =>
      match storage_at st i with Some s => do_resize asserts true st i s n | None => (UB, st) end
  | CResizeDiscard i n =>
      match storage_at st i with Some s => do_resize asserts false st i s n | None => (UB, st) end
  | CRef r i k =>
      match storage_at st i with
      | Some s => andThen st (if asserts then size_of s else Ok (S k)) (fun n =>
                    if n <=? k then (Throw RuntimeError, st)
                    else andThen st (retain h (o_buf s)) (fun h1 =>
                           (Ok tt, set_var st h1 r (Some (HRef {| r_buf := o_buf s; r_off := k |})))))
      | None => (UB, st)
      end
  | CSetRef r x =>
      match var st r with
      | Some (HRef f) => andThen st (set h f x) (fun h1 => (Ok tt, {| st_mem := h1; st_env := st_env st |}))
      | _ => (UB, st)
      end
  | CGetRef r =>
      match var st r with
      | Some (HRef f) => andThen st (get h f) (fun _ => (Ok tt, st))
      | _ => (UB, st)
      end
  | CDestroy i =>
      match var st i with
      | Some o => andThen st (release h (holds (Some o))) (fun h1 => (Ok tt, set_var st h1 i None))
      | None => (UB, st)
      end
  end.

(** A program with room for [n] variables, none of them alive yet *)
Definition init (n : nat) : state := {| st_mem := []; st_env := repeat None n |}.

(** A history: exceptions are caught and the program goes on with the objects as they were left;
    undefined behaviour ends everything ([None]). *)
Fixpoint run (asserts : bool) (st : state) (cs : list cmd) : option state :=
  match cs with
  | [] => Some st
  | c :: cs =>
      match step asserts st c with
      | (UB, _) => None
      | (_, st') => run asserts st' cs
      end
  end.
End Ocl.
Arguments buffer : clear implicits.
Arguments memory : clear implicits.
Arguments cmd : clear implicits.
Arguments state : clear implicits.
Arguments result : clear implicits.
