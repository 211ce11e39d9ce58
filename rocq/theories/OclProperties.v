(** C59, C60 — device arrays on OpenCL: lifetime of buffers, value semantics, element references. *)
From Verif Require Import Base OclModel OclSpec OclProofs.

(** ** C59 *)
(** Every program that reads no uninitialised size and no element that does not exist is free of undefined
    behaviour, and at every moment the buffers allocated are exactly those some variable refers to: nothing is
    released too early, nothing leaks.  Sharing, out-of-range writes, exceptions, and assignments to
    non-owning storages are all included. *)
Theorem C59_lifetime : forall (A : Type) (junk : nat -> nat -> A) (asserts : bool) (n : nat) (cs : list (cmd A)),
  along junk asserts (legal asserts) (init n) cs ->
  exists st, run junk asserts (init n) cs = Some st /\ forall a, allocated st a <-> referenced st a.
Proof.
  intros A junk asserts n cs H. destruct (run_rc junk asserts cs (init n) (RC_init n) H) as [st [E R]].
  exists st. split; auto. intros a. exact (RC_live_iff st a R).
Qed.
Print Assumptions C59_lifetime.
(** In particular, when the last variable is gone no device memory is left. *)
Theorem C59_no_leak : forall (A : Type) (junk : nat -> nat -> A) (asserts : bool) (n : nat) (cs : list (cmd A)) st,
  along junk asserts (legal asserts) (init n) cs -> run junk asserts (init n) cs = Some st ->
  (forall i, var st i = None) -> forall a, ~ allocated st a.
Proof.
  intros A junk asserts n cs st H E HN a. destruct (C59_lifetime A junk asserts n cs H) as [st' [E' L]].
  rewrite E in E'. inversion E'; subst st'. rewrite L. intros [i Hi]. rewrite HN in Hi. discriminate.
Qed.
Print Assumptions C59_no_leak.
(** Refuted without that hypothesis: a default-constructed storage has no size, so assigning to it, copying it,
    moving it or resizing it is undefined. *)
Theorem C59_default_refuted : forall (A : Type) (junk : nat -> nat -> A) (asserts : bool) (st : state A) i j o n,
  i <> j -> i < length (st_env st) -> storage_at st j = Some o -> o_size o = Some n -> n <> 0 ->
  forall c, In c [CAssign i j; CAssign j i; CMoveAssign j i; CResize i n] ->
  run junk asserts st [CDefault i; c] = None.
Proof.
  intros A junk asserts st i j o n NE Li Hj Hn Hz c HC.
  set (st1 := set_var st (st_mem st) i (Some (HStorage {| o_size := None; o_buf := None; o_owns := true |}))).
  assert (S1 : storage_at st1 i = Some {| o_size := None; o_buf := None; o_owns := true |}).
  { unfold st1. rewrite storage_set by auto. rewrite Nat.eqb_refl. auto. }
  assert (S2 : storage_at st1 j = Some o).
  { unfold st1. rewrite storage_set by auto. destruct (Nat.eqb_spec j i); [congruence|auto]. }
  cbn [run step]. fold st1. cbn [In] in HC.
  destruct HC as [<-|[<-|[<-|[<-|[]]]]]; cbn [step]; rewrite ?S1, ?S2; auto.
  - destruct (Nat.eqb_spec i j); [congruence|]. unfold copy_assign, size_of. rewrite Hn. cbn [andThen o_size].
    destruct (Nat.eqb_spec n 0); [congruence|auto].
  - destruct (Nat.eqb_spec j i); [congruence|auto].
  - destruct (Nat.eqb_spec j i); [congruence|auto].
Qed.
Print Assumptions C59_default_refuted.

(** A history that satisfies the hypotheses: sharing, references, moves, resizing, destruction *)
Definition ex_history : list (cmd nat) :=
  [CList 0 [1;2;3]; CCopyCtor 1 0; CRef 2 0 1; CShare 3 0 3 false; CMoveCtor 4 0; CSetRef 2 9; CResize 4 5; CGetRef 2;
   CAssign 0 1; CDestroy 3; CAssign 1 4; CDestroy 2; CMoveAssign 1 4; CDestroy 0; CDestroy 1; CDestroy 4].
Example C59_ex : along (fun _ i => i) true (legal true) (init 5) ex_history /\
  exists st, run (fun _ i => i) true (init 5) ex_history = Some st /\ st_mem st = [None; None; None; None].
Proof.
  split.
  - vm_compute. repeat split; try discriminate; eauto 12; try lia.
    do 3 eexists. repeat split; cbn; lia.
  - eexists. split; [vm_compute; reflexivity|reflexivity].
Qed.

(** ** C60 *)
(** After any history without buffer sharing in which no non-empty storage is copy-assigned to a moved-from one of
    another size, every command has its value semantics ([spec_step]).  Missing: those assignments and
    the assignment of an empty storage to a non-empty one (both false, below). *)
Theorem C60_value_semantics_partial : forall (A : Type) (junk : nat -> nat -> A) asserts n cs c st,
  along junk asserts (allowed asserts) (init n) cs -> run junk asserts (init n) cs = Some st ->
  allowed asserts st c -> no_assign_from_empty st c ->
  match step junk asserts st c with
  | (Ok _, st') => spec_step st c (value_of st')
  | (Throw _, st') => asserts = true /\ forall i, value_of st' i = value_of st i
  | (UB, _) => False
  end.
Proof.
  intros A junk asserts n cs c st H E HA HE. destruct (run_v junk asserts cs (init n) (V_init n) H) as [st' [E' HV]].
  rewrite E in E'. inversion E'; subst st'. pose proof (step_v junk asserts st c HV HA) as G.
  destruct (step junk asserts st c) as [[?|?|] st']; cbn [goodV] in G; auto; tauto.
Qed.
Print Assumptions C60_value_semantics_partial.
(** An element reference denotes the element it was taken from … *)
Theorem C60_reference : forall (A : Type) (junk : nat -> nat -> A) asserts n cs st r i k l,
  along junk asserts (allowed asserts) (init n) cs -> run junk asserts (init n) cs = Some st ->
  unused st r -> initialised st i -> value_of st i = Some l -> k < length l ->
  exists st', step junk asserts st (CRef r i k) = (Ok tt, st') /\ denotes st' r i k /\
              forall x, value_of st' x = value_of st x.
Proof.
  intros A junk asserts n cs st r i k l H E U I Hv Lk.
  destruct (run_v junk asserts cs (init n) (V_init n) H) as [st' [E' HV]]. rewrite E in E'. inversion E'; subst st'.
  eapply ref_denotes; eauto.
Qed.
Print Assumptions C60_reference.
(** … for as long as neither the storage nor the reference is rebound, whatever else the program does, … *)
Theorem C60_reference_stays : forall (A : Type) (junk : nat -> nat -> A) asserts st cs st' r i k,
  denotes st r i k -> run junk asserts st cs = Some st' ->
  (forall c, In c cs -> ~ In r (rebinds c) /\ ~ In i (rebinds c)) -> denotes st' r i k.
Proof. intros. eapply denotes_run; eauto. Qed.
Print Assumptions C60_reference_stays.
(** … and reading through it gives that element. *)
Theorem C60_reference_reads : forall (A : Type) (junk : nat -> nat -> A) asserts n cs st r i k l,
  along junk asserts (allowed asserts) (init n) cs -> run junk asserts (init n) cs = Some st ->
  denotes st r i k -> value_of st i = Some l -> k < length l ->
  exists f x, var st r = Some (HRef f) /\ nth_error l k = Some x /\ get (st_mem st) f = Ok x.
Proof.
  intros A junk asserts n cs st r i k l H E D Hv Lk.
  destruct (run_v junk asserts cs (init n) (V_init n) H) as [st' [E' HV]]. rewrite E in E'. inversion E'; subst st'.
  eapply denotes_get; eauto.
Qed.
Print Assumptions C60_reference_reads.
(** Refuted: assigning a non-empty storage to a moved-from one.  With assertions it throws; without, the copy is
    silently lost.  Either way the target then claims a size its (missing) buffer does not have,
    and reading its first element is undefined. *)
Theorem C60_assign_to_moved_refuted : forall (A : Type) (junk : nat -> nat -> A) (asserts : bool) st i j r o n,
  i <> j -> r <> i -> r < length (st_env st) -> i < length (st_env st) -> var st i = moved_from ->
  storage_at st j = Some o -> o_size o = Some n -> n <> 0 ->
  exists st' st'', step junk asserts st (CAssign i j) = ((if asserts then Throw RuntimeError else Ok tt), st') /\
    option_map o_size (storage_at st' i) = Some (Some n) /\ value_of st' i = Some [] /\
    step junk asserts st' (CRef r i 0) = (Ok tt, st'') /\ fst (step junk asserts st'' (CGetRef r)) = UB.
Proof.
  intros A junk asserts st i j r o n NE NR Lr Li Vi Hj Hn Hz.
  assert (Hi : storage_at st i = Some {| o_size := Some 0; o_buf := None; o_owns := false |}).
  { unfold storage_at. rewrite Vi. auto. }
  set (st' := set_var st (st_mem st) i (Some (HStorage {| o_size := Some n; o_buf := None; o_owns := false |}))).
  set (st'' := set_var st' (st_mem st) r (Some (HRef {| r_buf := None; r_off := 0 |}))).
  assert (Hi' : storage_at st' i = Some {| o_size := Some n; o_buf := None; o_owns := false |}).
  { unfold st'. rewrite storage_set, Nat.eqb_refl by auto. auto. }
  exists st', st''. split.
  - cbn [step]. rewrite Hi, Hj. destruct (Nat.eqb_spec i j); [congruence|]. unfold copy_assign, size_of. rewrite Hn.
    cbn [andThen o_size o_owns o_buf]. destruct (Nat.eqb_spec n 0); [congruence|]. destruct (Nat.eqb_spec 0 n); [congruence|].
    destruct asserts; [reflexivity|]. destruct (o_buf o); reflexivity.
  - split; [rewrite Hi'; auto|]. split; [unfold value_of; rewrite Hi'; auto|]. split.
    + cbn [step]. rewrite Hi'. cbn [size_of o_size o_buf].
      destruct asserts; cbn [andThen]; [destruct n; [congruence|]|]; reflexivity.
    + cbn [step]. unfold st'' at 1. rewrite var_set_same; [reflexivity|].
      unfold st'. cbn [set_var st_env]. rewrite BaseProofs.upd_length. auto.
Qed.
Print Assumptions C60_assign_to_moved_refuted.
(** Refuted: assigning an empty storage leaves the target's elements in place. *)
Theorem C60_assign_empty_refuted : forall (A : Type) (junk : nat -> nat -> A) asserts (st : state A) i j s o,
  i <> j -> storage_at st i = Some s -> storage_at st j = Some o -> o_size o = Some 0 ->
  step junk asserts st (CAssign i j) = (Ok tt, st).
Proof.
  intros A junk asserts st i j s o NE Hi Hj H0. cbn [step]. rewrite Hi, Hj.
  destruct (Nat.eqb_spec i j); [congruence|]. unfold copy_assign, size_of. rewrite H0. reflexivity.
Qed.
Print Assumptions C60_assign_empty_refuted.
Example C60_ex : along (fun _ i => i) true (allowed true) (init 4)
    [CList 0 [1;2;3]; CCopyCtor 1 0; CRef 2 0 1; CMoveCtor 3 0; CSetRef 2 9; CAssign 1 3; CResize 3 5] /\
  exists st, run (fun _ i => 100 + i) true (init 4)
    [CList 0 [1;2;3]; CCopyCtor 1 0; CRef 2 0 1; CMoveCtor 3 0; CSetRef 2 9; CAssign 1 3; CResize 3 5] = Some st /\
  value_of st 0 = Some [] /\ value_of st 1 = Some [1;9;3] /\ value_of st 3 = Some [1;9;3;103;104].
Proof.
  split.
  - vm_compute. repeat split; try discriminate; try (right; right; do 2 eexists; repeat split; left; reflexivity); eauto 12.
  - eexists. split; [vm_compute; reflexivity|]. repeat split.
Qed.
