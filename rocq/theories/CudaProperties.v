(** C61, C62 — arrays in CUDA device memory: lifetime and value semantics. *)
From Verif Require Import Base StorageModel StorageSpec StorageProofs CudaModel CudaSpec CudaProofs.

(** ** C61 *)
(** Proved: every history without out-of-range indexing in which no default-constructed storage's size is used, no
    non-empty storage is copy-constructed from, and no non-empty storage is copy-assigned to a moved-from one is
    free of undefined behaviour.  Missing: those three cases, which are false (below). *)
Theorem C61_safe_partial : forall (A : Type) (junk : nat -> nat -> A) (asserts : bool) (cs : list (cmd A)),
  along junk asserts allowed init cs -> exists st, run junk asserts init cs = Some st.
Proof. intros A junk asserts cs H. destruct (run_safe junk asserts cs init (proj1 init_safe) H) as [st [E _]]. eauto. Qed.
Print Assumptions C61_safe_partial.
(** … and if moreover nothing is move-assigned over a non-empty storage, nothing leaks. *)
Theorem C61_leak_free_partial : forall (A : Type) (junk : nat -> nat -> A) (asserts : bool) (cs : list (cmd A)),
  along junk asserts (leakfree asserts) init cs ->
  exists st, run junk asserts init cs = Some st /\ (no_objects st -> no_blocks st).
Proof.
  intros A junk asserts cs H.
  destruct (run_tidy junk asserts cs init (proj1 init_safe) (proj2 init_safe) H) as [st [E [_ [_ T]]]].
  exists st. split; auto. intros N a. destruct (block (c_heap st) a) eqn:B; auto. destruct (T a) as [i Hi]; [congruence|].
  rewrite N in Hi. discriminate.
Qed.
Print Assumptions C61_leak_free_partial.
(** Refuted: the copy constructor copies device memory as if it were host memory, … *)
Theorem C61_copy_construct_refuted : forall (A : Type) (junk : nat -> nat -> A) asserts cs st i j o l,
  along junk asserts allowed init cs -> run junk asserts init cs = Some st ->
  c_obj st j = Some o -> value_of st j = Some l -> l <> [] ->
  fst (step junk asserts st (CCopyCtor i j)) = UB.
Proof.
  intros A junk asserts cs st i j o l H E Hj Vj NL.
  destruct (run_safe junk asserts cs init (proj1 init_safe) H) as [st' [E' HS]]. rewrite E in E'. inversion E'; subst st'.
  unfold step. rewrite Hj. pose proof (proj1 HS j o Hj) as W. rewrite (value_at st j o Hj) in Vj. inversion Vj; subst l.
  unfold wf in W. unfold size_of, content in *. destruct (c_size o) as [n|] eqn:En.
  - cbn [andThen]. destruct (c_ptr o) as [a|]; [|congruence]. destruct W as [N0 _]. destruct (Nat.eqb_spec n 0); [lia|auto].
  - destruct (c_ptr o); [contradiction|congruence].
Qed.
Print Assumptions C61_copy_construct_refuted.
(** … move assignment over a storage with elements loses its block for good, … *)
Theorem C61_move_assign_leaks_refuted : forall (A : Type) (junk : nat -> nat -> A) asserts cs st i j s o n a,
  along junk asserts allowed init cs -> run junk asserts init cs = Some st ->
  i <> j -> c_obj st i = Some s -> c_obj st j = Some o -> c_size o = Some n -> c_ptr s = Some a ->
  exists st', step junk asserts st (CMoveAssign i j) = (Ok tt, st') /\
    block (c_heap st') a <> None /\ forall x t, c_obj st' x = Some t -> c_ptr t <> Some a.
Proof.
  intros A junk asserts cs st i j s o n a H E NE Hi Hj En Pa.
  destruct (run_safe junk asserts cs init (proj1 init_safe) H) as [st' [E' HS]]. rewrite E in E'. inversion E'; subst st'.
  unfold step. rewrite Hi, Hj. destruct (Nat.eqb_spec i j); [congruence|]. unfold size_of. rewrite En. cbn [andThen].
  eexists. split; [reflexivity|]. split.
  - cbn. apply (wf_live _ s); auto. apply (proj1 HS i). auto.
  - intros x t. destruct (Nat.eq_dec x j) as [->|NJ].
    + rewrite put_same. unfold moved_from. intros X. inversion X. discriminate.
    + rewrite put_other by auto. destruct (Nat.eq_dec x i) as [->|NI].
      * rewrite put_same. intros X. inversion X; subst t. intros P. apply NE. apply (proj2 HS i j a); [rewrite Hi|rewrite Hj]; auto.
      * rewrite put_other by auto. intros X P. apply NI. apply (proj2 HS x i a); [rewrite X|rewrite Hi]; auto.
Qed.
Print Assumptions C61_move_assign_leaks_refuted.
(** … and a default-constructed storage has no size, so assigning to it, copying it, moving it or resizing it is
    undefined. *)
Theorem C61_default_refuted : forall (A : Type) (junk : nat -> nat -> A) (asserts : bool) (st : cstate A) i j k o n,
  i <> j -> k <> i -> c_obj st j = Some o -> c_size o = Some n -> n <> 0 ->
  forall c, In c [CAssign i j; CAssign j i; CMoveAssign j i; CResize i n; CResizeDiscard i n; CCopyCtor k i; CMoveCtor k i; CCopy k i] ->
  run junk asserts st [CDefault i; c] = None.
Proof.
  intros A junk asserts st i j k o n NE NK Hj Hn Hz c HC.
  set (st1 := put st (c_heap st) i (Some {| c_ptr := None; c_size := None; c_owns := true |})).
  assert (S1 : c_obj st1 i = Some {| c_ptr := None; c_size := None; c_owns := true |}) by apply put_same.
  assert (S2 : c_obj st1 j = Some o) by (unfold st1; rewrite put_other; auto).
  cbn [run step]. fold st1. cbn [In] in HC.
  repeat (destruct HC as [<-|HC]); cbn [step]; rewrite ?S1, ?S2; auto; try contradiction.
  - destruct (Nat.eqb_spec i j); [congruence|]. unfold copy_assign, size_of. rewrite Hn. cbn [andThen].
    destruct (Nat.eqb_spec n 0); [congruence|auto].
  - destruct (Nat.eqb_spec j i); [congruence|auto].
  - destruct (Nat.eqb_spec j i); [congruence|auto].
  - unfold do_resize. destruct (Nat.eqb_spec n 0); [congruence|]. rewrite andb_false_r. auto.
  - unfold do_resize. destruct (Nat.eqb_spec n 0); [congruence|]. rewrite andb_false_r. auto.
Qed.
Print Assumptions C61_default_refuted.
(** A history that satisfies the hypotheses *)
Definition ex_history : list (cmd nat) :=
  [CList 0 [1;2;3]; CCopy 1 0; CSet 1 0 9; CMoveCtor 2 0; CResize 1 40; CAssign 1 2; CMoveAssign 0 2; CGet 0 2; CFill 3 33 7; CAssign 3 1;
   CResize 0 0; CDefault 4; CDestroy 4; CDestroy 3; CDestroy 2; CDestroy 0; CDestroy 1].
Example C61_ex : along (fun _ i => i) true (leakfree true) init ex_history /\
  exists st, run (fun _ i => i) true init ex_history = Some st /\ forall x, c_obj st x = None.
Proof.
  split.
  - vm_compute. repeat split; try discriminate; eauto 12.
    all: try (left; reflexivity). all: try (eexists; split; [reflexivity|cbv; lia]).
    all: try (right; split; do 2 eexists; split; reflexivity).
  - eexists. split; [vm_compute; reflexivity|]. intros [|[|[|[|[|x]]]]]; reflexivity.
Qed.
Example C61_copy_ex : run (fun _ i => i) true init [CList 0 [1]; CCopyCtor 1 0] = None.
Proof. reflexivity. Qed.

(** ** C62 *)
(** After any such history, every command has its value semantics; if it throws, no storage changes. *)
Theorem C62_value_semantics_partial : forall (A : Type) (junk : nat -> nat -> A) asserts cs c st,
  along junk asserts allowed init cs -> run junk asserts init cs = Some st ->
  allowed st c -> no_assign_from_empty st c ->
  match step junk asserts st c with
  | (Ok _, st') => spec_step (value_of st) c (value_of st')
  | (Throw _, st') => asserts = true /\ forall i, value_of st' i = value_of st i
  | (UB, _) => False
  end.
Proof.
  intros A junk asserts cs c st H E HA HE.
  destruct (run_safe junk asserts cs init (proj1 init_safe) H) as [st' [E' HS]]. rewrite E in E'. inversion E'; subst st'.
  pose proof (step_good junk asserts st c HS HA) as G. destruct (step junk asserts st c) as [[?|?|] st']; cbn [good] in G; auto.
  - tauto.
  - destruct G as [-> ->]. auto.
Qed.
Print Assumptions C62_value_semantics_partial.
(** Elements are what indexing returns. *)
Theorem C62_read : forall (A : Type) (junk : nat -> nat -> A) asserts cs st i k s,
  along junk asserts allowed init cs -> run junk asserts init cs = Some st -> c_obj st i = Some s ->
  forall l, value_of st i = Some l -> k < length l ->
  exists x, nth_error l k = Some x /\ get asserts (c_heap st) s k = Ok x.
Proof.
  intros A junk asserts cs st i k s H E Hi l Vl Lk.
  destruct (run_safe junk asserts cs init (proj1 init_safe) H) as [st' [E' HS]]. rewrite E in E'. inversion E'; subst st'.
  rewrite (value_at st i s Hi) in Vl. inversion Vl; subst l. apply get_ok; auto. apply (proj1 HS i). auto.
Qed.
Print Assumptions C62_read.
(** Refuted: an index past the end is not reported, with assertions or without: it reads the padding of the
    block. *)
Theorem C62_unchecked_index_refuted : forall (A : Type) (junk : nat -> nat -> A) asserts cs st i k l,
  along junk asserts allowed init cs -> run junk asserts init cs = Some st -> value_of st i = Some l ->
  l <> [] -> length l <= k < pad (length l) -> fst (step junk asserts st (CGet i k)) = Ok tt.
Proof.
  intros A junk asserts cs st i k l H E Vl NL HK.
  destruct (run_safe junk asserts cs init (proj1 init_safe) H) as [st' [E' HS]]. rewrite E in E'. inversion E'; subst st'.
  destruct (value_some st i) as [s [Hi Vi]]; [congruence|]. rewrite Vi in Vl. inversion Vl; subst l.
  pose proof (proj1 HS i s Hi) as W. unfold step. rewrite Hi. destruct (c_size s) as [n|] eqn:En.
  - pose proof (wf_length _ _ _ W En) as L. rewrite L in HK. assert (P : n > 0) by (destruct n; [cbn in HK; lia|lia]).
    destruct (wf_block _ _ _ W En P) as [a [d [Pa [Ba [Ld _]]]]]. unfold get. rewrite Pa, Ba. unfold rd.
    destruct (nth_error d k) eqn:N; auto. apply nth_error_None in N. lia.
  - unfold content in NL. rewrite En in NL. destruct (c_ptr s); congruence.
Qed.
Print Assumptions C62_unchecked_index_refuted.
(** Refuted: assigning an empty storage leaves the target's elements in place. *)
Theorem C62_assign_empty_refuted : forall (A : Type) (junk : nat -> nat -> A) asserts st i j s o,
  c_obj st i = Some s -> c_obj st j = Some o -> c_size o = Some 0 ->
  step junk asserts st (CAssign i j) = (Ok tt, st).
Proof.
  intros A junk asserts st i j s o Hi Hj En. unfold step. rewrite Hi, Hj. destruct (i =? j); auto.
  unfold copy_assign, size_of. rewrite En. auto.
Qed.
Print Assumptions C62_assign_empty_refuted.
(** Refuted: assigning a non-empty storage to a moved-from one throws, or (unchecked) silently copies nothing; either
    way the target then claims [n] elements that it does not have. *)
Theorem C62_assign_to_moved_refuted : forall (A : Type) (junk : nat -> nat -> A) (asserts : bool) st i j o n,
  i <> j -> c_obj st i = moved_from -> c_obj st j = Some o -> c_size o = Some n -> n <> 0 ->
  exists st', step junk asserts st (CAssign i j) = ((if asserts then Throw RuntimeError else Ok tt), st') /\
    option_map c_size (c_obj st' i) = Some (Some n) /\ option_map c_ptr (c_obj st' i) = Some None /\
    fst (step junk asserts st' (CGet i 0)) = if asserts then Throw RuntimeError else UB.
Proof.
  intros A junk asserts st i j o n NE Hi Hj Hn Hz. unfold step at 1. rewrite Hi, Hj. unfold moved_from.
  destruct (Nat.eqb_spec i j); [congruence|]. unfold copy_assign, size_of. rewrite Hn. cbn [andThen].
  destruct (Nat.eqb_spec n 0); [congruence|]. cbn [c_size andThen]. destruct (Nat.eqb_spec 0 n); [congruence|].
  cbn [c_owns c_ptr]. unfold copyDD. destruct (Nat.eqb_spec n 0); [congruence|].
  destruct asserts; cbn [andThen]; (eexists; split; [reflexivity|]); cbn [c_obj put]; rewrite Nat.eqb_refl;
    (split; [reflexivity|split; [reflexivity|]]); unfold step; cbn [c_obj put]; rewrite Nat.eqb_refl; reflexivity.
Qed.
Print Assumptions C62_assign_to_moved_refuted.
(** Refuted: constructing an array of no elements with a fill value throws when assertions are on. *)
Theorem C62_fill_empty_refuted : forall (A : Type) (junk : nat -> nat -> A) st i x,
  step junk true st (CFill i 0 x) = (Throw RuntimeError, st).
Proof. reflexivity. Qed.
Print Assumptions C62_fill_empty_refuted.
Example C62_ex : exists st, run (fun _ i => 100 + i) true init
    [CList 0 [1;2;3]; CCopy 1 0; CSet 1 0 9; CResize 0 5; CFill 2 2 7; CAssign 2 1] = Some st /\
  value_of st 0 = Some [1;2;3;103;104] /\ value_of st 1 = Some [9;2;3] /\ value_of st 2 = Some [9;2;3].
Proof. eexists. split; [vm_compute; reflexivity|]. repeat split; reflexivity. Qed.
