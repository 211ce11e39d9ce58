(** C21–C24 — storage lifetime, copies, resizing; heap BitSets. *)
From Verif Require Import Base StorageModel StorageSpec StorageProofs.

(** ** C21 *)
(** Proved: every history in which no non-empty storage is copy-assigned to a moved-from one (and indices
    are in range when assertions are off) is free of undefined behaviour: no double free, no use after
    free, no null access.  Missing: that excluded case, which is false (below). *)
Theorem C21_safe_partial : forall (A : Type) (junk : nat -> nat -> A) (asserts : bool) (cs : list (cmd A)),
  along junk asserts (allowed asserts) init cs -> exists st, run junk asserts init cs = Some st.
Proof. intros. apply histories_safe; auto. Qed.
Print Assumptions C21_safe_partial.
(** … and if moreover nothing is move-assigned over a non-empty storage, nothing leaks. *)
Theorem C21_leak_free_partial : forall (A : Type) (junk : nat -> nat -> A) (asserts : bool) (cs : list (cmd A)),
  along junk asserts (leakfree asserts) init cs ->
  exists st, run junk asserts init cs = Some st /\ (no_objects st -> no_blocks st).
Proof. intros. apply histories_leak_free; auto. Qed.
Print Assumptions C21_leak_free_partial.
(** Refuted: move assignment over a storage with elements loses its block for good, … *)
Theorem C21_move_assign_leaks_refuted : forall (A : Type) (junk : nat -> nat -> A) asserts cs st i j s o a,
  along junk asserts (allowed asserts) init cs -> run junk asserts init cs = Some st ->
  i <> j -> st_obj st i = Some s -> st_obj st j = Some o -> m_begin s = Some a ->
  exists st', step junk asserts st (CMoveAssign i j) = (Ok tt, st') /\
    block (st_heap st') a <> None /\ forall x t, st_obj st' x = Some t -> m_begin t <> Some a.
Proof. intros. eapply histories_leak; eauto. Qed.
Print Assumptions C21_move_assign_leaks_refuted.
(** … and assigning to a moved-from storage is undefined; with assertions it throws, and leaves an object
    whose first element is read through a null pointer. *)
Theorem C21_assign_to_moved_refuted : forall (A : Type) (junk : nat -> nat -> A) (asserts : bool) st i j o,
  i <> j -> st_obj st i = Some moved_from -> st_obj st j = Some o -> m_size o <> 0 ->
  if asserts then
    exists st', step junk true st (CAssign i j) = (Throw RuntimeError, st') /\ fst (step junk true st' (CGet i 0)) = UB
  else fst (step junk false st (CAssign i j)) = UB.
Proof. intros. eapply assign_to_moved; eauto. Qed.
Print Assumptions C21_assign_to_moved_refuted.

(** A history that satisfies the hypotheses *)
Definition ex_history : list (cmd nat) :=
  [CList 0 [1;2;3]; CCopyCtor 1 0; CSet 1 0 9; CMoveCtor 2 0; CResize 1 5; CAssign 1 2; CMoveAssign 0 2; CGet 0 7; CResize 0 0;
   CDestroy 2; CDestroy 0; CDestroy 1].
Example C21_ex : along (fun _ i => i) true (leakfree true) init ex_history /\
  exists st, run (fun _ i => i) true init ex_history = Some st /\ st_heap st = [None; None; None; None].
Proof.
  split.
  - vm_compute. repeat split; try discriminate; eauto 7.
  - eexists. split; [vm_compute; reflexivity|reflexivity].
Qed.
Example C21_leak_ex : exists st,
  run (fun _ i => i) true init [CList 0 [1]; CList 1 [2]; CMoveAssign 0 1; CDestroy 0; CDestroy 1] = Some st /\
  no_objects st /\ block (st_heap st) 0 = Some [1].
Proof.
  eexists. split; [vm_compute; reflexivity|]. split; [|reflexivity].
  intros [|[|i]]; reflexivity.
Qed.
Example C21_moved_ex : run (fun _ i => i) true init [CList 0 [1]; CMoveCtor 1 0; CAssign 0 1; CGet 0 0] = None.
Proof. reflexivity. Qed.

(** ** C22 *)
(** After any such history, every command has its value semantics ([spec_step]): in particular copy
    construction, copy() and copy assignment give the target the source's elements and change nothing
    else.  Missing: copy assignment from an empty storage to a non-empty one (false, below). *)
Theorem C22_value_semantics_partial : forall (A : Type) (junk : nat -> nat -> A) asserts cs c st,
  along junk asserts (allowed asserts) init cs -> run junk asserts init cs = Some st ->
  allowed asserts st c -> no_assign_from_empty st c ->
  match step junk asserts st c with
  | (Ok _, st') => spec_step (value_of st) c (value_of st')
  | (Throw _, st') => asserts = true /\ forall i, value_of st' i = value_of st i
  | (UB, _) => False
  end.
Proof. intros. eapply histories_values; eauto. Qed.
Print Assumptions C22_value_semantics_partial.
(** Independence: whatever is later done to other objects, an object keeps its elements. *)
Theorem C22_independent : forall (A : Type) (junk : nat -> nat -> A) asserts cs cs' x st,
  along junk asserts (allowed asserts) init cs -> run junk asserts init cs = Some st ->
  along junk asserts (fun s c => allowed asserts s c /\ ~ In x (touched c)) st cs' ->
  exists st', run junk asserts st cs' = Some st' /\ value_of st' x = value_of st x.
Proof. intros. eapply histories_frame; eauto. Qed.
Print Assumptions C22_independent.
Example C22_independent_ex : exists st st', run (fun _ i => i) true init [CList 0 [1;2;3]; CCopyCtor 1 0] = Some st /\
  along (fun _ i => i) true (fun s c => allowed true s c /\ ~ In 0 (touched c)) st [CSet 1 0 9; CResize 1 7; CDestroy 1] /\
  run (fun _ i => i) true st [CSet 1 0 9; CResize 1 7; CDestroy 1] = Some st' /\ value_of st' 0 = Some [1;2;3].
Proof.
  eexists. eexists. split; [vm_compute; reflexivity|]. split; [|split; [vm_compute; reflexivity|reflexivity]].
  vm_compute. repeat split; try discriminate; try (intros [H|[]]; discriminate); eauto 7.
Qed.
(** Elements are what indexing returns. *)
Theorem C22_read : forall (A : Type) (junk : nat -> nat -> A) asserts cs st i k s,
  along junk asserts (allowed asserts) init cs -> run junk asserts init cs = Some st -> st_obj st i = Some s ->
  forall l, value_of st i = Some l -> k < length l ->
  exists x, nth_error l k = Some x /\ read asserts (st_heap st) s k = Ok x.
Proof. intros. eapply histories_read; eauto. Qed.
Print Assumptions C22_read.
(** Refuted: assigning an empty storage leaves the target's elements in place. *)
Theorem C22_assign_empty_refuted : forall (A : Type) (junk : nat -> nat -> A) asserts st i j s o,
  st_obj st i = Some s -> st_obj st j = Some o -> m_size o = 0 ->
  exists st', step junk asserts st (CAssign i j) = (Ok tt, st') /\ forall x, value_of st' x = value_of st x.
Proof. intros. eapply assign_from_empty; eauto. Qed.
Print Assumptions C22_assign_empty_refuted.
(** Refuted: FixedStorage::copy() returns uninitialised elements (whatever [u] was in memory). *)
Theorem C22_fixed_copy_refuted : exists (s u : list nat), fixed_copy u s <> s.
Proof. exists [1], [0]. discriminate. Qed.
Print Assumptions C22_fixed_copy_refuted.
Example C22_ex : exists st, run (fun _ i => i) true init [CList 0 [1;2;3]; CCopyCtor 1 0; CSet 1 0 9] = Some st /\
  value_of st 0 = Some [1;2;3] /\ value_of st 1 = Some [9;2;3].
Proof. eexists. split; [vm_compute; reflexivity|]. split; reflexivity. Qed.

(** ** C23 *)
Theorem C23_resize_keeps_prefix : forall (A : Type) (junk : nat -> nat -> A) asserts cs i n st,
  along junk asserts (allowed asserts) init cs -> run junk asserts init cs = Some st -> value_of st i <> None ->
  match step junk asserts st (CResize i n) with
  | (Ok _, st') => exists l e, value_of st i = Some l /\ length e = n - length l /\
                     value_of st' i = Some (firstn n l ++ e) /\ forall x, x <> i -> value_of st' x = value_of st x
  | (Throw _, st') => asserts = true /\ forall x, value_of st' x = value_of st x
  | (UB, _) => False
  end.
Proof.
  intros A junk asserts cs i n st H E Hi.
  pose proof (histories_values junk asserts cs (CResize i n) st H E) as G.
  cbn [no_assign_from_empty] in G. apply G; [|exact I]. repeat split; auto.
Qed.
Print Assumptions C23_resize_keeps_prefix.
Theorem C23_resize_discard : forall (A : Type) (junk : nat -> nat -> A) asserts cs i n st,
  along junk asserts (allowed asserts) init cs -> run junk asserts init cs = Some st -> value_of st i <> None ->
  match step junk asserts st (CResizeDiscard i n) with
  | (Ok _, st') => exists l, length l = n /\ value_of st' i = Some l /\ forall x, x <> i -> value_of st' x = value_of st x
  | (Throw _, st') => asserts = true /\ forall x, value_of st' x = value_of st x
  | (UB, _) => False
  end.
Proof.
  intros A junk asserts cs i n st H E Hi.
  pose proof (histories_values junk asserts cs (CResizeDiscard i n) st H E) as G.
  cbn [no_assign_from_empty] in G. apply G; [|exact I]. repeat split; auto.
Qed.
Print Assumptions C23_resize_discard.
Example C23_resize_discard_ex : exists st, run (fun _ i => 100 + i) true init [CList 0 [1;2;3]; CResizeDiscard 0 2] = Some st /\
  value_of st 0 = Some [100;101].
Proof. eexists. split; [vm_compute; reflexivity|reflexivity]. Qed.
Theorem C23_non_owning_refuses : forall (A : Type) (junk : nat -> nat -> A) asserts st i s n (keep : bool),
  asserts = true -> st_obj st i = Some s -> m_owns s = false -> n <> m_size s ->
  exists e st', step junk asserts st (if keep then CResize i n else CResizeDiscard i n) = (Throw e, st') /\
    forall x, value_of st' x = value_of st x.
Proof. intros. eapply resize_refused; eauto. Qed.
Print Assumptions C23_non_owning_refuses.
(** a storage that was moved from does not own its (missing) block *)
Example C23_non_owning_ex : exists st s, run (fun _ i => i) true init [CList 0 [1;2;3]; CMoveCtor 1 0] = Some st /\ st_obj st 0 = Some s /\
  m_owns s = false /\ 5 <> m_size s /\ fst (step (fun _ i => i) true st (CResize 0 5)) = Throw RuntimeError.
Proof. eexists. eexists. split; [vm_compute; reflexivity|]. split; [vm_compute; reflexivity|]. split; [reflexivity|]. split; [discriminate|reflexivity]. Qed.
(** FixedStorage keeps its size: resize to that size changes nothing, to any other size throws with assertions on. *)
Theorem C23_fixed_resize : forall (A : Type) asserts (s : list A) n,
  (n = length s -> fixed_resize asserts s n = Ok s) /\ (n <> length s -> fixed_resize true s n = Throw RuntimeError).
Proof.
  intros A asserts s n. unfold fixed_resize. split; intros H.
  - subst. rewrite Nat.eqb_refl. now destruct asserts.
  - apply Nat.eqb_neq in H. now rewrite H.
Qed.
Print Assumptions C23_fixed_resize.
Example C23_ex : exists st, run (fun _ i => 100 + i) true init [CList 0 [1;2;3]; CResize 0 5; CList 1 [4;5;6]; CResize 1 2] = Some st /\
  value_of st 0 = Some [1;2;3;103;104] /\ value_of st 1 = Some [4;5].
Proof. eexists. split; [vm_compute; reflexivity|]. split; reflexivity. Qed.

(** ** C24 *)
(** Proved for histories that construct, copy-construct, write and destroy.  Missing: moves and assignments
    between different heap BitSets (false, below). *)
Theorem C24_heap_bitset_partial : forall (A : Type) (cs : list (bcmd A)), balong ballowed binit cs ->
  exists st, brun binit cs = Ok st /\
    ((forall i, b_obj st i = None) -> forall a, block (b_heap st) a = None) /\
    (forall c, ballowed st c -> exists st', bstep st c = Ok st' /\ bspec_step (bvalue st) c (bvalue st')).
Proof. intros. apply bhistories; auto. Qed.
Print Assumptions C24_heap_bitset_partial.
(** Refuted: every move or assignment between two heap BitSets leads to a double delete. *)
Theorem C24_shallow_refuted : forall (A : Type) (st : bstate A) i j c, i <> j ->
  (c = BMoveCtor i j \/ c = BAssign i j \/ c = BMoveAssign i j) ->
  forall st1, bstep st c = Ok st1 -> brun st1 [BDestroy i; BDestroy j] = UB.
Proof. intros. eapply bshallow; eauto. Qed.
Print Assumptions C24_shallow_refuted.
Example C24_ex : balong ballowed binit [BNew 0 [1;2]; BCopyCtor 1 0; BWrite 1 0 7; BDestroy 0; BDestroy 1].
Proof. vm_compute. repeat split; try discriminate. exists [1;2]. split; auto. Qed.
Example C24_ex2 : brun binit [BNew 0 [1;2]; BNew 1 [3;4]; BAssign 0 1; BDestroy 0; BDestroy 1] = UB.
Proof. reflexivity. Qed.
