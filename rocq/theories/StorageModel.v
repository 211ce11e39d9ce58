(** Model of librapid/include/librapid/array/storage.hpp: Storage (dynamic, owning), FixedStorage,
    and of the ownership behaviour of heap-allocated BitSets (datastructures/bitset.hpp). *)
From Verif Require Import Base.

Section Storage.
Context {A : Type}.

(** ** Memory: a block is a list of cells; [None] is a freed block; addresses are never reused. *)
Definition heap := list (option (list A)).
Definition block (h : heap) (a : nat) : option (list A) :=
  match nth_error h a with Some b => b | None => None end.
Definition alloc (h : heap) (l : list A) : heap * nat := (h ++ [Some l], length h).
(** freeing anything but a live block is undefined *)
Definition free (h : heap) (a : nat) : outcome heap :=
  match block h a with Some _ => Ok (upd h a None) | None => UB end.

(** Contents of fresh memory: arbitrary. *)
Variable junk : nat -> nat -> A.

(** detail::safeAllocate, l.352-392 (allocation failure not modelled) *)
Definition safeAllocate (h : heap) (n : nat) : heap * option nat :=
  if n =? 0 then (h, None)
  else let (h', a) := alloc h (map (junk (length h)) (seq 0 n)) in (h', Some a).
(** detail::safeDeallocate, l.321-341; LIBRAPID_ASSUME(size > 0) is undefined when false *)
Definition safeDeallocate (h : heap) (p : option nat) (n : nat) : outcome heap :=
  match p with
  | None => Ok h
  | Some a => if n =? 0 then UB else free h a
  end.
(** detail::fastCopy, l.394-417: the pointers are __restrict *)
Definition fastCopy (asserts : bool) (h : heap) (dst src : option nat) (n : nat) : outcome heap :=
  if n =? 0 then Ok h
  else match dst, src with
       | Some d, Some s =>
           match block h d, block h s with
           | Some ld, Some ls =>
               if (n <=? length ld) && (n <=? length ls) && negb (d =? s)
               then Ok (upd h d (Some (firstn n ls ++ skipn n ld))) else UB
           | _, _ => UB
           end
       | _, _ => if asserts then Throw RuntimeError else UB
       end.

(** The three members, l.176-183 *)
Record storage := { m_begin : option nat; m_size : nat; m_owns : bool }.

(** A program state: memory and the named Storage objects alive in it. *)
Record state := { st_heap : heap; st_obj : nat -> option storage }.
Definition set_obj (f : nat -> option storage) (i : nat) (o : option storage) : nat -> option storage :=
  fun x => if x =? i then o else f x.

(** What a program can do with Storage objects.  The first argument is the object constructed or
    acted upon. *)
Inductive cmd :=
| CDefault (i : nat)                    (* Storage s_i;                   l.46 *)
| CSize (i n : nat)                     (* Storage s_i(n);                l.419-422 *)
| CFill (i n : nat) (x : A)             (* Storage s_i(n, x);             l.429-434 *)
| CList (i : nat) (l : list A)          (* Storage s_i({..}) / vector     l.453-476 *)
| CCopyCtor (i j : nat)                 (* Storage s_i(s_j);              l.436-442 *)
| CMoveCtor (i j : nat)                 (* Storage s_i(std::move(s_j));   l.444-451 *)
| CCopy (i j : nat)                     (* Storage s_i = s_j.copy();      l.553-557 *)
| CAssign (i j : nat)                   (* s_i = s_j;                     l.478-501 *)
| CMoveAssign (i j : nat)               (* s_i = std::move(s_j);          l.503-515 *)
| CResize (i n : nat)                   (* s_i.resize(n);                 l.570-591 *)
| CResizeDiscard (i n : nat)            (* s_i.resize(n, 0);              l.593-611 *)
| CSet (i k : nat) (x : A)              (* s_i[k] = x;                    l.619-623 *)
| CGet (i k : nat)                      (* s_i[k] (value discarded)       l.613-617 *)
| CDestroy (i : nat).                   (* ~Storage                       l.517-520 *)

(** initData(begin, end), l.522-534, on a freshly default-initialised object of size [sz0] (the copy
    constructor has already set m_size); [src], [n] delimit the source range. *)
Definition initData (asserts : bool) (h : heap) (sz0 : nat) (src : option nat) (n : nat) : outcome (heap * storage) :=
  match src with
  | None => Ok (h, {| m_begin := None; m_size := sz0; m_owns := true |})
  | Some _ =>
      if n =? 0 then Ok (h, {| m_begin := None; m_size := sz0; m_owns := true |})
      else
        let (h1, p) := safeAllocate h n in
        do h2 <- fastCopy asserts h1 p src n;
        Ok (h2, {| m_begin := p; m_size := n; m_owns := true |})
  end.

Definition read (asserts : bool) (h : heap) (s : storage) (k : nat) : outcome A :=
  if asserts && negb (k <? m_size s) then Throw RuntimeError
  else match m_begin s with
       | None => UB
       | Some a => match block h a with Some l => rd l k | None => UB end
       end.
Definition write (asserts : bool) (h : heap) (s : storage) (k : nat) (x : A) : outcome heap :=
  if asserts && negb (k <? m_size s) then Throw RuntimeError
  else match m_begin s with
       | None => UB
       | Some a => match block h a with
                   | Some l => do l' <- wr l k x; Ok (upd h a (Some l'))
                   | None => UB
                   end
       end.

(** operator=(const Storage&) between different objects: outcome, memory and target afterwards. *)
Definition copy_assign (asserts : bool) (h : heap) (s o : storage) : outcome unit * (heap * storage) :=
  if m_size o =? 0 then (Ok tt, (h, s))                                       (* quick return *)
  else
    let s1 := {| m_begin := m_begin s; m_size := m_size o; m_owns := m_owns s |} in
    let finish h2 s2 :=
      match fastCopy asserts h2 (m_begin s2) (m_begin o) (m_size s2) with
      | Ok h3 => (Ok tt, (h3, s2))
      | Throw e => (Throw e, (h2, s2))
      | UB => (UB, (h2, s2))
      end in
    if m_size s =? m_size o then finish h s1
    else if m_owns s then
      match safeDeallocate h (m_begin s) (m_size s) with
      | Ok h1 =>
          let (h2, p) := safeAllocate h1 (m_size o) in
          finish h2 {| m_begin := p; m_size := m_size o; m_owns := true |}
      | Throw e => (Throw e, (h, s1))
      | UB => (UB, (h, s1))
      end
    else if asserts then (Throw RuntimeError, (h, s1))
    else finish h s1.

(** resize: [keep] tells the two overloads apart *)
Definition do_resize (asserts keep : bool) (h : heap) (s : storage) (n : nat) : outcome unit * (heap * storage) :=
  if asserts && (n =? 0) then (Throw RuntimeError, (h, s))
  else if n =? m_size s then (Ok tt, (h, s))
  else if asserts && negb (m_owns s) then (Throw RuntimeError, (h, s))
  else
    let (h1, p) := safeAllocate h n in
    let s1 := {| m_begin := p; m_size := n; m_owns := m_owns s |} in
    match (if keep then fastCopy asserts h1 p (m_begin s) (Nat.min (m_size s) n) else Ok h1) with
    | Ok h2 =>
        match safeDeallocate h2 (m_begin s) (m_size s) with
        | Ok h3 => (Ok tt, (h3, s1))
        | Throw e => (Throw e, (h2, s1))
        | UB => (UB, (h2, s1))
        end
    | Throw e => (Throw e, (h1, s1))
    | UB => (UB, (h1, s1))
    end.

Definition build (st : state) (i : nat) (r : outcome (heap * storage)) : outcome unit * state :=
  match r with
  | Ok (h, s) => (Ok tt, {| st_heap := h; st_obj := set_obj (st_obj st) i (Some s) |})
  | Throw e => (Throw e, st)                   (* constructor threw: no object *)
  | UB => (UB, st)
  end.
Definition modify (st : state) (i : nat) (r : outcome unit * (heap * storage)) : outcome unit * state :=
  (fst r, {| st_heap := fst (snd r); st_obj := set_obj (st_obj st) i (Some (snd (snd r))) |}).

Definition moved_from : storage := {| m_begin := None; m_size := 0; m_owns := false |}.

(** One command.  Naming an object that is not there (or constructing one that is) is not a C++
    program; the result UB is never used. *)
Definition step (asserts : bool) (st : state) (c : cmd) : outcome unit * state :=
  let h := st_heap st in
  let obj := st_obj st in
  match c with
  | CDefault i => build st i (Ok (h, {| m_begin := None; m_size := 0; m_owns := true |}))
  | CSize i n => let (h1, p) := safeAllocate h n in build st i (Ok (h1, {| m_begin := p; m_size := n; m_owns := true |}))
  | CFill i n x =>
      let (h1, p) := safeAllocate h n in
      let h2 := match p with Some a => upd h1 a (Some (repeat x n)) | None => h1 end in
      build st i (Ok (h2, {| m_begin := p; m_size := n; m_owns := true |}))
  | CList i l =>
      (* initData from memory outside the model *)
      let (h1, p) := safeAllocate h (length l) in
      let h2 := match p with Some a => upd h1 a (Some l) | None => h1 end in
      build st i (Ok (h2, {| m_begin := p; m_size := length l; m_owns := true |}))
  | CCopyCtor i j =>
      match obj j with
      | Some o => build st i (if m_size o =? 0 then Ok (h, {| m_begin := None; m_size := 0; m_owns := true |})
                              else initData asserts h (m_size o) (m_begin o) (m_size o))
      | None => (UB, st)
      end
  | CMoveCtor i j =>
      match obj j with
      | Some o => (Ok tt, {| st_heap := h; st_obj := set_obj (set_obj obj i (Some o)) j (Some moved_from) |})
      | None => (UB, st)
      end
  | CCopy i j =>
      match obj j with
      | Some o => build st i (initData asserts h 0 (m_begin o) (m_size o))
      | None => (UB, st)
      end
  | CAssign i j =>
      match obj i, obj j with
      | Some s, Some o => if i =? j then (Ok tt, st) else modify st i (copy_assign asserts h s o)
      | _, _ => (UB, st)
      end
  | CMoveAssign i j =>
      match obj i, obj j with
      | Some _, Some o =>
          if i =? j then (Ok tt, st)
          else (Ok tt, {| st_heap := h; st_obj := set_obj (set_obj obj i (Some o)) j (Some moved_from) |})
      | _, _ => (UB, st)
      end
  | CResize i n =>
      match obj i with Some s => modify st i (do_resize asserts true h s n) | None => (UB, st) end
  | CResizeDiscard i n =>
      match obj i with Some s => modify st i (do_resize asserts false h s n) | None => (UB, st) end
  | CSet i k x =>
      match obj i with
      | Some s => match write asserts h s k x with
                  | Ok h' => (Ok tt, {| st_heap := h'; st_obj := obj |})
                  | Throw e => (Throw e, st)
                  | UB => (UB, st)
                  end
      | None => (UB, st)
      end
  | CGet i k =>
      match obj i with
      | Some s => match read asserts h s k with
                  | Ok _ => (Ok tt, st)
                  | Throw e => (Throw e, st)
                  | UB => (UB, st)
                  end
      | None => (UB, st)
      end
  | CDestroy i =>
      match obj i with
      | Some s =>
          match (if m_owns s then safeDeallocate h (m_begin s) (m_size s) else Ok h) with
          | Ok h' => (Ok tt, {| st_heap := h'; st_obj := set_obj obj i None |})
          | Throw e => (Throw e, st)
          | UB => (UB, st)
          end
      | None => (UB, st)
      end
  end.

Definition init : state := {| st_heap := []; st_obj := fun _ => None |}.

(** A history: exceptions are caught and the program goes on with the objects as they were left;
    undefined behaviour ends everything ([None]). *)
Fixpoint run (asserts : bool) (st : state) (cs : list cmd) : option state :=
  match cs with
  | [] => Some st
  | c :: cs =>
      match step asserts st c with
      | (UB, _) => None
      | (_, st') => run asserts st' cs
      end
  end.

(** ** FixedStorage, l.690-764: the elements live in the object; a default-constructed object has
    arbitrary contents [junk0]. *)
Definition fixed_copy (junk0 : list A) (s : list A) : list A := junk0.      (* copy(), l.749-752 *)
Definition fixed_copy_ctor (s : list A) : list A := s.                       (* l.698-702 *)
Definition fixed_assign (dst src : list A) : list A := src.                  (* l.716-722 *)
Definition fixed_resize (asserts : bool) (s : list A) (n : nat) : outcome (list A) :=   (* l.734-742 *)
  if asserts && negb (n =? length s) then Throw RuntimeError else Ok s.

(** ** Heap BitSet (stackAlloc = false): one pointer to numElements words.
    Copy constructor l.27-34 (deep); move constructor l.36, copy and move assignment l.57-58 are
    defaulted, i.e. copy the pointer; destructor l.60-62 deletes it. *)
Inductive bcmd :=
| BNew (i : nat) (l : list A)          (* BitSet(), BitSet(value), BitSet(string): l.25, 38-55 *)
| BCopyCtor (i j : nat)
| BMoveCtor (i j : nat)
| BAssign (i j : nat)
| BMoveAssign (i j : nat)
| BWrite (i k : nat) (x : A)           (* any write of word k *)
| BDestroy (i : nat).
Record bstate := { b_heap : heap; b_obj : nat -> option nat }.
Definition bset (f : nat -> option nat) (i : nat) (o : option nat) : nat -> option nat :=
  fun x => if x =? i then o else f x.
Definition bstep (st : bstate) (c : bcmd) : outcome bstate :=
  let h := b_heap st in
  let obj := b_obj st in
  match c with
  | BNew i l => let (h1, a) := alloc h l in Ok {| b_heap := h1; b_obj := bset obj i (Some a) |}
  | BCopyCtor i j =>
      match obj j with
      | Some a => match block h a with
                  | Some l => let (h1, b) := alloc h l in Ok {| b_heap := h1; b_obj := bset obj i (Some b) |}
                  | None => UB
                  end
      | None => UB
      end
  | BMoveCtor i j =>
      match obj j with Some a => Ok {| b_heap := h; b_obj := bset obj i (Some a) |} | None => UB end
  | BAssign i j | BMoveAssign i j =>
      match obj i, obj j with
      | Some _, Some a => Ok {| b_heap := h; b_obj := bset obj i (Some a) |}
      | _, _ => UB
      end
  | BWrite i k x =>
      match obj i with
      | Some a => match block h a with
                  | Some l => do l' <- wr l k x; Ok {| b_heap := upd h a (Some l'); b_obj := obj |}
                  | None => UB
                  end
      | None => UB
      end
  | BDestroy i =>
      match obj i with
      | Some a => do h' <- free h a; Ok {| b_heap := h'; b_obj := bset obj i None |}
      | None => UB
      end
  end.
Definition brun (st : bstate) (cs : list bcmd) : outcome bstate := for_list cs (fun c s => bstep s c) st.
Definition binit : bstate := {| b_heap := []; b_obj := fun _ => None |}.
End Storage.
Arguments heap : clear implicits.
Arguments cmd : clear implicits.
Arguments bcmd : clear implicits.
Arguments state : clear implicits.
Arguments bstate : clear implicits.
