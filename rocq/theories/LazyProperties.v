(** Property C74: lazy expressions, the lifetimes of what they refer to, and copies of them. *)
From Coq Require Import List Arith Lia.
From Verif Require Import Base BaseProofs LazyModel LazySpec LazyProofs.
Import ListNotations.
From Coq Require Import ZifyNat ZifyN ZifyBool.
Ltac Zify.zify_post_hook ::= idtac.

(** Whatever the history of declarations, updates and scope ends, as long as an object goes only when
    nothing alive refers to it, no statement touches a dead object and every element of every object can
    be read, giving what the object stands for at that moment. *)
Theorem C74_scoped : forall {A} (l : list (cmd A)), scoped unused [] l ->
  run true l [] <> UB
  /\ forall st, run true l [] = Ok st ->
     forall a t i, live st a t -> i < count t -> exists x, read_obj st t i = Ok x /\ elem st t i x.
Proof.
  intros A l Hl. destruct (scoped_run l Hl) as (H1 & H2). split; [exact H1|].
  intros st E a t i Ht Hi. exact (sound_object st a t i (H2 st E) Ht Hi).
Qed.
Print Assumptions C74_scoped.

(** In particular when scopes nest: objects go in the reverse order of their declarations. *)
Theorem C74_blocks : forall {A} (l : list (cmd A)), scoped block [] l ->
  run true l [] <> UB
  /\ forall st, run true l [] = Ok st ->
     forall a t i, live st a t -> i < count t -> exists x, read_obj st t i = Ok x /\ elem st t i x.
Proof. intros A l Hl. apply C74_scoped. exact (block_scoped l [] sound_nil Hl). Qed.
Print Assumptions C74_blocks.

Example C74_blocks_example :
  let l := [DeclArray [2] [1; 2]; DeclArray [2] [10; 20]; DeclAuto (Bin Nat.add (Name 0) (Name 1));
            DeclAuto (Un (Nat.mul 2) (Name 2)); SetElem 0 1 5; DeclEval (Row (Bin Nat.add (Name 3) (Name 1)) 1);
            Kill 5; Kill 3] in
  scoped block [] l
  /\ run true l [] = Ok [Some (TArr [2] [1; 5]); Some (TArr [2] [10; 20]);
                         Some (TFun Nat.add [2] (TRef 0) (TRef 1)); None; None; None].
Proof. split; [|vm_compute; reflexivity].
  cbn [scoped admissible typed lasting sdims prodn fold_right length].
  split; [reflexivity|]. intros s [= <-].
  split; [reflexivity|]. intros s [= <-].
  split; [split; [split; eexists; reflexivity|split; exact I]|]. intros s [= <-].
  split; [split; [eexists; reflexivity|exact I]|]. intros s [= <-].
  split; [left; exists [2], [1; 2]; split; [reflexivity|auto]|]. intros s [= <-].
  split.
  { split; [split; eexists; reflexivity|]. exists 2, []. reflexivity. }
  intros s Es. vm_compute in Es. injection Es as <-.
  split.
  { split; [eexists; reflexivity|]. intros b t Hb Ht. unfold live in Ht.
    rewrite (proj2 (nth_error_None _ _)) in Ht by (cbn; lia). discriminate Ht. }
  intros s [= <-].
  split; [|intros s _; exact I].
  split; [eexists; reflexivity|]. intros b t Hb Ht. unfold live in Ht.
  do 6 (destruct b as [|b]; [try lia; discriminate Ht|]). destruct b; discriminate Ht.
Qed.

(** Evaluating an expression where it is written, whatever temporaries it goes through, gives the elements
    the source text stands for, and leaves every other object as it was. *)
Theorem C74_at_once : forall {A} (l : list (cmd A)) st (e : sexp A),
  scoped unused [] l -> run true l [] = Ok st -> typed st e ->
  (exists ex, step true (DeclEval e) st = Throw ex)
  \/ exists st' s xs, step true (DeclEval e) st = Ok st'
     /\ live st' (length st' - 1) (TArr s xs)
     /\ s = match sdims st e with Some s => s | None => [] end
     /\ length xs = prodn s
     /\ (forall i, i < prodn s -> exists x, nth_error xs i = Some x /\ sval st e i x)
     /\ (forall a, a < length st -> nth_error st' a = nth_error st a).
Proof.
  intros A l st e Hl E Ht. pose proof (proj2 (scoped_run l Hl) st E) as Hs. cbn [step].
  destruct (build_ok e st Hs Ht) as [(ex & Eb)|(t & st1 & Eb & Hx & Hs1 & Hf & Hd)]; rewrite Eb.
  - left. exists ex. reflexivity.
  - right. cbn [bind]. destruct (evaluate_ok st1 t Hs1 Hf) as (s & xs & -> & Es & Hlen & Hel). cbn [bind].
    rewrite (drop_from_ext _ _ Hx). eexists _, s, xs. split; [reflexivity|]. split; [|split; [|split; [exact Hlen|split]]].
    + unfold live. rewrite !app_length. cbn [length]. rewrite nth_error_app2; rewrite app_length; [|lia].
      match goal with |- nth_error _ ?k = _ => replace k with 0 by lia end. reflexivity.
    + rewrite <- Hd. exact Es.
    + intros i Hi. destruct (Hel i Hi) as (x & Ex & He). exists x. split; [exact Ex|].
      apply (build_value e st st t st1 Hs (ext_refl st) Hs Ht Eb); [|exact He].
      unfold within. rewrite Es in Hi. destruct (idims st1 t); [exact Hi|exact I].
    + intros a Ha. rewrite <- app_assoc, nth_error_app1 by exact Ha. reflexivity.
Qed.
Print Assumptions C74_at_once.

Example C74_at_once_example :
  let st := [Some (TArr [2; 2] [1; 2; 3; 4]); Some (TNum 10)] in
  step true (DeclEval (Row (Bin Nat.mul (Name 0) (Name 1)) 1)) st
  = Ok (st ++ [None; Some (TArr [2] [30; 40])]).
Proof. vm_compute. reflexivity. Qed.

(** A kept expression is evaluated anew each time it is read: after any further sound history its
    elements are those of its source text over what the names hold by then (operations on numbers alone
    apart, which are done at once). *)
Theorem C74_current : forall {A} (l1 l2 : list (cmd A)) st st1 st2 (e : sexp A) t i,
  scoped unused [] l1 -> run true l1 [] = Ok st ->
  operation e -> typed st e -> lasting e -> all_lazy st e ->
  step true (DeclAuto e) st = Ok st1 ->
  scoped unused st1 l2 -> run true l2 st1 = Ok st2 ->
  live st2 (length st) t -> (forall a, In a (names e) -> exists u, live st2 a u) -> i < count t ->
  exists x, read_obj st2 t i = Ok x /\ sval st2 e i x.
Proof.
  intros A l1 l2 st st1 st2 e t i Hl1 E1 Hop Ht Hla Hz Es Hl2 E2 Hlive Hnames Hi.
  pose proof (proj2 (scoped_run l1 Hl1) st E1) as Hs.
  destruct (decl_auto st e Hs Ht Hla) as [(ex & Ex)|(u & Eu & Hnr & Hf & Hd & Hb)]; [congruence|].
  assert (Hst1 : st1 = st ++ [Some u]) by congruence. clear Es. subst st1.
  assert (Hs1 : sound (st ++ [Some u])) by (apply sound_snoc; assumption).
  destruct (run_sound l2 _ Hs1 Hl2) as [(ex & Ex)|(st' & E' & Hs2 & L)]; [congruence|].
  assert (st' = st2) by congruence. subst st'.
  destruct (proj2 L _ _ Hlive) as (o & Ho & F); [rewrite app_length; cbn; lia|].
  assert (Hu : live (st ++ [Some u]) (length st) u)
    by (unfold live; rewrite nth_error_app2, Nat.sub_diag by lia; reflexivity).
  rewrite (live_fun _ _ _ _ Ho Hu) in F.
  destruct (sound_object st2 _ t i Hs2 Hlive Hi) as (x & Hx & He). exists x. split; [exact Hx|].
  assert (Eb : build true st e = Ok (u, st)) by (apply Hb; destruct e; try contradiction; exact I).
  pose proof (same_form_expr u t (operation_object st e u Hop Hla Hz Hs Ht Eb) F) as ->.
  apply (denotes st st2 Hs Hs2 (later_trans _ _ _ (later_app st [Some u]) L) e Hla Hz Ht Hnames u Eb); [|exact He].
  unfold count in Hi. unfold idims. destruct u; try exact I; try exact Hi. destruct Hnr.
Qed.
Print Assumptions C74_current.

(** f = a + b[1] is declared, a changes, f is read. *)
Example C74_current_example :
  let st := [Some (TArr [2] [1; 2]); Some (TArr [2; 2] [10; 20; 30; 40])] in
  let e := Bin Nat.add (Name 0) (Row (Name 1) 1) in
  let f := TFun Nat.add [2] (TRef 0) (TView 1 2 [2]) in
  typed st e /\ lasting e /\ all_lazy st e
  /\ run true [DeclAuto e; SetElem 0 0 7] st = Ok [Some (TArr [2] [7; 2]); nth 1 st None; Some f]
  /\ evaluate [Some (TArr [2] [7; 2]); nth 1 st None; Some f] f = Ok ([2], [37; 42]).
Proof.
  cbn zeta. split; [|split; [|split; [|split; vm_compute; reflexivity]]].
  - split; [eexists; reflexivity|]. split; [eexists; reflexivity|]. exists 2, [2]. reflexivity.
  - split; exact I.
  - cbn. repeat split; try exact I; discriminate.
Qed.

(** What an object stands for depends only on the objects it reaches through references. *)
Theorem C74_frame : forall {A} (st st' : state A) t i x,
  (forall a, reaches st t a -> nth_error st' a = nth_error st a) -> elem st t i x -> elem st' t i x.
Proof. intros A st st' t i x. apply elem_frame. Qed.
Print Assumptions C74_frame.

Example C74_frame_example :
  let st := [Some (TArr [1] [1]); Some (TArr [1] [2]); Some (TMap S [1] (TRef 0))] in
  let st' := upd st 1 (Some (TArr [1] [9])) in
  (forall a, reaches st (TMap S [1] (TRef 0)) a -> nth_error st' a = nth_error st a)
  /\ elem st (TMap S [1] (TRef 0)) 0 2.
Proof.
  cbn zeta. split.
  - intros a Ha. inversion Ha as [t b Hb|t b u c Hb Hu Hr]; subst.
    + destruct Hb as [<-|[]]. reflexivity.
    + destruct Hb as [<-|[]]. unfold live in Hu. cbn in Hu. injection Hu as <-.
      inversion Hr as [t b' Hb'|t b' u c' Hb' Hu' Hr']; subst; destruct Hb'.
  - constructor. econstructor; [reflexivity|]. constructor. reflexivity.
Qed.

(** An object that refers to something whose life has ended cannot be read at all: this is what becomes
    of an expression over local arrays that is returned from a function. *)
Theorem C74_outlived_refuted : forall {A} (st : state A) t a i,
  In a (refs t) -> (forall u, ~ live st a u) -> read_obj st t i = UB.
Proof. intros A st t a i H1 H2. exact (dead_ref _ st t a i H1 H2). Qed.
Print Assumptions C74_outlived_refuted.

Example C74_outlived_example :
  exists st, run true [DeclArray [1] [1]; DeclArray [1] [2]; DeclAuto (Bin Nat.add (Name 0) (Name 1)); Kill 1; Kill 0] []
             = Ok st
  /\ live st 2 (TFun Nat.add [1] (TRef 0) (TRef 1))
  /\ evaluate st (TFun Nat.add [1] (TRef 0) (TRef 1)) = UB.
Proof. eexists. split; [vm_compute; reflexivity|]. split; reflexivity. Qed.

(** The same befalls a row of any temporary (zeros(shape)[k], (a + b)[k]) that is kept with auto: it
    refers to the temporary, so no element of it can ever be read. *)
Theorem C74_temporary_row_refuted : forall {A} asserts (st st' : state A) e k,
  match e with Temp _ _ | Un _ _ | Bin _ _ _ => True | _ => False end ->
  step asserts (DeclAuto (Row e k)) st = Ok st' ->
  exists st1 v, st' = st1 ++ [Some v] /\ forall i, read_obj st' v i = UB.
Proof.
  intros A asserts st st' e k He H. destruct (row_of_temporary asserts st e k st' He H) as (st1 & a & off & s & E & U).
  exists st1, (TView a off s). auto.
Qed.
Print Assumptions C74_temporary_row_refuted.

Example C74_temporary_row_example :
  step true (DeclAuto (Row (Temp [2; 2] [1; 2; 3; 4]) 1)) [] = Ok [None; Some (TView 0 2 [2])]
  /\ step true (DeclEval (Row (Temp [2; 2] [1; 2; 3; 4]) 1)) [] = Ok [None; Some (TArr [2] [3; 4])].
Proof. split; vm_compute; reflexivity. Qed.

(** Copying an expression keeps its meaning, and iterating over it visits its elements, when the views
    inside start at the first element of what they view. *)
Theorem C74_copy_partial : forall {A} (st : state A) a t,
  live st a t -> offset_free t ->
  step true (DeclAuto (Name a)) st = Ok (st ++ [Some t])
  /\ iterate st t = evaluate st t.
Proof.
  intros A st a t Ht Hf. cbn [step]. rewrite (proj2 (deref_ok _ _ _) Ht). cbn [bind]. unfold iterate.
  rewrite (copied_offset_free t Hf). split; reflexivity.
Qed.
Print Assumptions C74_copy_partial.

Example C74_copy_example :
  offset_free (TFun Nat.add [2] (TRef 0) (TMap S [2] (TRef 1))).
Proof. repeat split. Qed.

(** Otherwise both read other elements: every row k > 0 of an array inside an expression becomes the rows
    starting at 0 in the copy. *)
Theorem C74_copy_refuted : ~ (forall (l : list (cmd nat)) st t a,
  scoped block [] l -> run true l [] = Ok st -> live st a t ->
  forall st', step true (DeclAuto (Name a)) st = Ok st' ->
  forall t', live st' (length st) t' -> evaluate st' t' = evaluate st t)
  /\ ~ (forall (l : list (cmd nat)) st t a,
  scoped block [] l -> run true l [] = Ok st -> live st a t -> iterate st t = evaluate st t).
Proof.
  assert (Hsc : scoped block [] [DeclArray [2; 2] [1; 2; 3; 4]; DeclAuto (Un (Nat.mul 10) (Row (Name 0) 1))]).
  { split; [reflexivity|]. intros s [= <-]. split; [|intros s _; exact I].
    split; [|exact I]. split; [eexists; reflexivity|]. exists 2, [2]. reflexivity. }
  set (st := [Some (TArr [2; 2] [1; 2; 3; 4]); Some (TMap (Nat.mul 10) [2] (TView 0 2 [2]))]).
  assert (Hrun : run true [DeclArray [2; 2] [1; 2; 3; 4]; DeclAuto (Un (Nat.mul 10) (Row (Name 0) 1))] [] = Ok st)
    by (vm_compute; reflexivity).
  split; intros H.
  - specialize (H _ st (TMap (Nat.mul 10) [2] (TView 0 2 [2])) 1 Hsc Hrun eq_refl _ eq_refl _ eq_refl).
    vm_compute in H. discriminate H.
  - specialize (H _ st (TMap (Nat.mul 10) [2] (TView 0 2 [2])) 1 Hsc Hrun eq_refl).
    vm_compute in H. discriminate H.
Qed.
Print Assumptions C74_copy_refuted.

(** Assigning one expression to another of the same type (f = a + b; g = c + d; f = g) does not make f
    stand for g: it overwrites the arrays a and b with c and d. *)
Theorem C74_assign_refuted : forall {A} (op : A -> A -> A) s da db dc dd,
  let before := [Some (TArr s da); Some (TArr s db); Some (TArr s dc); Some (TArr s dd);
                 Some (TFun op s (TRef 0) (TRef 1)); Some (TFun op s (TRef 2) (TRef 3))] in
  assign_expr 3 before 4 5
  = Ok [Some (TArr s dc); Some (TArr s dd); Some (TArr s dc); Some (TArr s dd);
        Some (TFun op s (TRef 0) (TRef 1)); Some (TFun op s (TRef 2) (TRef 3))].
Proof. reflexivity. Qed.
Print Assumptions C74_assign_refuted.

(** An expression keeps the shape it was made with: when an operand is replaced by a shorter array, its
    elements past the end are read from outside the array. *)
Theorem C74_resized_refuted : forall {A} (f : A -> A) s s' d d' i,
  length d' <= i < prodn s -> length d = prodn s ->
  let st := [Some (TArr s d); Some (TMap f s (TRef 0))] in
  exists st', step true (Reassign 0 s' d') st = Ok st'
  /\ live st' 0 (TArr s' d') /\ live st' 1 (TMap f s (TRef 0)) /\ i < count (TMap f s (TRef 0))
  /\ read_obj st' (TMap f s (TRef 0)) i = UB.
Proof.
  intros A f s s' d d' i Hi Hd st. eexists. split; [reflexivity|]. split; [reflexivity|]. split; [reflexivity|].
  split; [cbn; lia|]. cbn. unfold rd. rewrite (proj2 (nth_error_None d' i)) by lia. reflexivity.
Qed.
Print Assumptions C74_resized_refuted.

Example C74_resized_example :
  length [9] <= 1 < prodn [3] /\ length [1; 2; 3] = prodn [3].
Proof. cbn. lia. Qed.

(** Arrays of different shapes are not combined when assertions are compiled in; without them the first
    operand's shape is taken. *)
Theorem C74_mismatch : forall {A} asserts (st : state A) f a b s s' da db,
  live st a (TArr s da) -> live st b (TArr s' db) -> s <> s' ->
  build asserts st (Bin f (Name a) (Name b)) = if asserts then Throw RangeError else Ok (TFun f s (TRef a) (TRef b), st).
Proof.
  intros A asserts st f a b s s' da db Ha Hb N. cbn [build]. rewrite (proj2 (deref_ok _ _ _) Ha). cbn [bind].
  rewrite (proj2 (deref_ok _ _ _) Hb). cbn [bind dims].
  rewrite (proj2 (deref_ok _ _ _) Ha), (proj2 (deref_ok _ _ _) Hb). cbn [bind own_dims join].
  destruct (list_eq_dec Nat.eq_dec s s') as [E|_]; [contradiction|]. destruct asserts; reflexivity.
Qed.
Print Assumptions C74_mismatch.
Example C74_mismatch_example :
  step true (DeclAuto (Bin Nat.add (Name 0) (Name 1))) [Some (TArr [2] [1; 2]); Some (TArr [1] [3])] = Throw RangeError /\
  step false (DeclAuto (Bin Nat.add (Name 0) (Name 1))) [Some (TArr [1] [3]); Some (TArr [2] [1; 2])]
  = Ok [Some (TArr [1] [3]); Some (TArr [2] [1; 2]); Some (TFun Nat.add [1] (TRef 0) (TRef 1))].
Proof. split; reflexivity. Qed.
