(** Model of librapid/include/librapid/cuda/cudaStorage.hpp: CudaStorage (arrays in CUDA device memory, raw
    pointers) and CudaRef.  All calls go to one stream and are modelled as taking effect immediately.
    cudaSafeCall (core/cudaConfig.hpp l.49-64) throws on an error when assertions are on and ignores it
    otherwise.  The constructor that adopts a foreign pointer (l.275-277) is not modelled. *)
From Verif Require Import Base StorageModel.

Section Cuda.
Context {A : Type}.
(** contents of fresh device memory: arbitrary *)
Variable junk : nat -> nat -> A.

(** cudaSafeAllocate, l.242-253: no elements, no block; otherwise the size is rounded up to a multiple of 32
    with (size + 31) & ~31 *)
Definition pad (n : nat) : nat := 32 * ((n + 31) / 32).
Definition allocate (h : heap A) (n : nat) : heap A * option nat :=
  if n =? 0 then (h, None)
  else let (h', a) := alloc h (map (junk (length h)) (seq 0 (pad n))) in (h', Some a).
(** cudaSafeDeallocate, l.255-262 *)
Definition deallocate (h : heap A) (p : option nat) : outcome (heap A) :=
  match p with None => Ok h | Some a => free h a end.
(** storing [l] at the start of a block: cudaMemcpyAsync from host memory or a fill kernel *)
Definition store (asserts : bool) (h : heap A) (p : option nat) (l : list A) : outcome (heap A) :=
  if length l =? 0 then Ok h
  else match p with
       | None => if asserts then Throw RuntimeError else Ok h
       | Some a => match block h a with
                   | Some d => if length l <=? length d then Ok (upd h a (Some (l ++ skipn (length l) d))) else UB
                   | None => UB
                   end
       end.
(** cudaMemcpyAsync(dst, src, n, cudaMemcpyDeviceToDevice) *)
Definition copyDD (asserts : bool) (h : heap A) (dst src : option nat) (n : nat) : outcome (heap A) :=
  if n =? 0 then Ok h
  else match dst, src with
       | Some d, Some s => match block h s with
                           | Some ls => if (n <=? length ls) && negb (d =? s) then store asserts h dst (firstn n ls) else UB
                           | None => UB
                           end
       | _, _ => if asserts then Throw RuntimeError else Ok h
       end.

(** The members, l.236-238; m_size is left uninitialised ([None]) by the default constructor *)
Record cstorage := { c_ptr : option nat; c_size : option nat; c_owns : bool }.
Record cstate := { c_heap : heap A; c_obj : nat -> option cstorage }.
Definition put (st : cstate) (h : heap A) (i : nat) (o : option cstorage) : cstate :=
  {| c_heap := h; c_obj := fun x => if x =? i then o else c_obj st x |}.
Definition result := (outcome unit * cstate)%type.
Definition andThen {B} (st : cstate) (o : outcome B) (k : B -> result) : result :=
  match o with Ok x => k x | Throw e => (Throw e, st) | UB => (UB, st) end.
(** reading an uninitialised m_size is undefined *)
Definition size_of (s : cstorage) : outcome nat := match c_size s with Some n => Ok n | None => UB end.
Definition own (p : option nat) (n : nat) : option cstorage := Some {| c_ptr := p; c_size := Some n; c_owns := true |}.
Definition moved_from : option cstorage := Some {| c_ptr := None; c_size := Some 0; c_owns := false |}.

(** operator=(const CudaStorage&), different objects, l.332-359 *)
Definition copy_assign (asserts : bool) (st : cstate) (i : nat) (s o : cstorage) : result :=
  let h := c_heap st in
  andThen st (size_of o) (fun no =>
  if no =? 0 then (Ok tt, st)                                                  (* quick return *)
  else andThen st (size_of s) (fun ns =>
    let finish h2 p :=
      let st2 := put st h2 i (Some {| c_ptr := p; c_size := Some no; c_owns := c_owns s |}) in
      andThen st2 (copyDD asserts h2 p (c_ptr o) no) (fun h3 => (Ok tt, {| c_heap := h3; c_obj := c_obj st2 |})) in
    if ns =? no then finish h (c_ptr s)
    else if c_owns s then
      andThen st (deallocate h (c_ptr s)) (fun h1 => let (h2, p) := allocate h1 no in finish h2 p)
    else if asserts
         then (Throw RuntimeError, put st h i (Some {| c_ptr := c_ptr s; c_size := Some no; c_owns := c_owns s |}))
         else finish h (c_ptr s))).

(** resize(n), l.406-428, and resize(n, int), l.431-438 *)
Definition do_resize (asserts keep : bool) (st : cstate) (i : nat) (s : cstorage) (n : nat) : result :=
  let h := c_heap st in
  if asserts && (n =? 0) then (Throw RuntimeError, st)
  else andThen st (size_of s) (fun ns =>
  if n =? ns then (Ok tt, st)
  else if asserts && negb (c_owns s) then (Throw RuntimeError, st)
  else if keep then
    let (h1, p) := allocate h n in
    let st1 := put st h1 i (Some {| c_ptr := p; c_size := Some n; c_owns := c_owns s |}) in
    andThen st1 (copyDD asserts h1 p (c_ptr s) (Nat.min ns n)) (fun h2 =>
    andThen st1 (deallocate h2 (c_ptr s)) (fun h3 => (Ok tt, {| c_heap := h3; c_obj := c_obj st1 |})))
  else
    andThen st (deallocate h (c_ptr s)) (fun h1 =>
    let (h2, p) := allocate h1 n in
    (Ok tt, put st h2 i (Some {| c_ptr := p; c_size := Some n; c_owns := c_owns s |})))).

(** element access through CudaRef, l.78-91: operator[] (l.446-454) checks nothing; a null pointer makes the copy fail,
    and a failed read leaves the uninitialised local variable that is then returned *)
Definition get (asserts : bool) (h : heap A) (s : cstorage) (k : nat) : outcome A :=
  match c_ptr s with
  | None => if asserts then Throw RuntimeError else UB
  | Some a => match block h a with Some l => rd l k | None => UB end
  end.
Definition set (asserts : bool) (h : heap A) (s : cstorage) (k : nat) (x : A) : outcome (heap A) :=
  match c_ptr s with
  | None => if asserts then Throw RuntimeError else Ok h
  | Some a => match block h a with
              | Some l => do l' <- wr l k x; Ok (upd h a (Some l'))
              | None => UB
              end
  end.

(** One command (the commands are those of Storage).  Naming an object that is not there (or constructing one
    that is) is not a C++ program; the result UB is never used. *)
Definition step (asserts : bool) (st : cstate) (c : cmd A) : result :=
  let h := c_heap st in
  match c with
  | CDefault i => (Ok tt, put st h i (Some {| c_ptr := None; c_size := None; c_owns := true |}))   (* l.138 *)
  | CSize i n => let (h1, p) := allocate h n in (Ok tt, put st h1 i (own p n))                      (* l.264-266 *)
  | CFill i n x =>                                                                                  (* l.268-273 *)
      (* an empty launch is an invalid configuration *)
      if (n =? 0) && asserts then (Throw RuntimeError, st)
      else let (h1, p) := allocate h n in
           andThen st (store asserts h1 p (repeat x n)) (fun h2 => (Ok tt, put st h2 i (own p n)))
  | CList i l =>                                                                                    (* l.294-309 *)
      (* [&list[0]] of an empty std::vector is undefined; here, as for an empty initializer_list, a copy of no bytes *)
      let (h1, p) := allocate h (length l) in
      andThen st (store asserts h1 p l) (fun h2 => (Ok tt, put st h2 i (own p (length l))))
  | CCopyCtor i j =>                                                                                (* l.279-283 *)
      match c_obj st j with
      | Some o => andThen st (size_of o) (fun n =>
          match c_ptr o with
          | None => (Ok tt, put st h i (Some {| c_ptr := None; c_size := Some n; c_owns := true |}))
          | Some _ => if n =? 0 then (Ok tt, put st h i (Some {| c_ptr := None; c_size := Some 0; c_owns := true |}))
                      (* initData, l.392-404, copies with cudaMemcpyHostToDevice although the source is a device
                         pointer; the CUDA runtime documentation makes a copy whose direction
                         does not match its pointers undefined *)
                      else (UB, st)
          end)
      | None => (UB, st)
      end
  | CMoveCtor i j =>                                                                                (* l.285-292 *)
      match c_obj st j with
      | Some o => andThen st (size_of o) (fun _ => (Ok tt, put (put st h i (Some o)) h j moved_from))
      | None => (UB, st)
      end
  | CCopy i j =>                                                                                    (* l.382-390 *)
      match c_obj st j with
      | Some o => andThen st (size_of o) (fun n =>
          let (h1, p) := allocate h n in
          andThen st (copyDD asserts h1 p (c_ptr o) n) (fun h2 => (Ok tt, put st h2 i (own p n))))
      | None => (UB, st)
      end
  | CAssign i j =>
      match c_obj st i, c_obj st j with
      | Some s, Some o => if i =? j then (Ok tt, st) else copy_assign asserts st i s o
      | _, _ => (UB, st)
      end
  | CMoveAssign i j =>                                                                              (* l.362-373 *)
      match c_obj st i, c_obj st j with
      | Some _, Some o => if i =? j then (Ok tt, st)
                          else andThen st (size_of o) (fun _ => (Ok tt, put (put st h i (Some o)) h j moved_from))
      | _, _ => (UB, st)
      end
  | CResize i n => match c_obj st i with Some s => do_resize asserts true st i s n | None => (UB, st) end
  | CResizeDiscard i n => match c_obj st i with Some s => do_resize asserts false st i s n | None => (UB, st) end
  | CSet i k x =>
      match c_obj st i with
      | Some s => andThen st (set asserts h s k x) (fun h1 => (Ok tt, {| c_heap := h1; c_obj := c_obj st |}))
      | None => (UB, st)
      end
  | CGet i k =>
      match c_obj st i with
      | Some s => andThen st (get asserts h s k) (fun _ => (Ok tt, st))
      | None => (UB, st)
      end
  | CDestroy i =>                                                                                   (* l.376-379 *)
      match c_obj st i with
      | Some s => andThen st (if c_owns s then deallocate h (c_ptr s) else Ok h) (fun h1 => (Ok tt, put st h1 i None))
      | None => (UB, st)
      end
  end.

Definition init : cstate := {| c_heap := []; c_obj := fun _ => None |}.
(** A history, as for Storage *)
Fixpoint run (asserts : bool) (st : cstate) (cs : list (cmd A)) : option cstate :=
  match cs with
  | [] => Some st
  | c :: cs =>
      match step asserts st c with
      | (UB, _) => None
      | (_, st') => run asserts st' cs
      end
  end.
End Cuda.
Arguments cstate : clear implicits.
Arguments result : clear implicits.
