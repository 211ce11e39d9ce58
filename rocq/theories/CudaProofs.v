From Verif Require Import Base BaseProofs StorageModel StorageSpec StorageProofs CudaModel CudaSpec.
From Coq Require Import ZifyNat ZifyN ZifyBool.
Ltac Zify.zify_post_hook ::= idtac.

Lemma pad_ge n : n <= pad n.
Proof. unfold pad. pose proof (Nat.div_mod (n + 31) 32). pose proof (Nat.mod_upper_bound (n + 31) 32). lia. Qed.
Lemma pad_lt n : pad n < n + 32.
Proof. unfold pad. pose proof (Nat.div_mod (n + 31) 32). lia. Qed.

Local Arguments pad : simpl never.

Section M.
Context {A : Type}.
Implicit Types h : heap A.
Implicit Types st : cstate A.

(** ** Memory primitives by their effect on blocks *)
Definition is (p : option nat) (x : nat) : bool := match p with Some a => a =? x | None => false end.
Lemma is_true p x : is p x = true <-> p = Some x.
Proof. unfold is. destruct p as [a|]; [|split; discriminate]. rewrite Nat.eqb_eq. split; congruence. Qed.
Lemma is_false p x : is p x = false <-> p <> Some x.
Proof. rewrite <- is_true. destruct (is p x); split; congruence. Qed.

Lemma deallocate_ok h p : (forall a, p = Some a -> block h a <> None) ->
  exists h', deallocate h p = Ok h' /\ length h' = length h /\
    forall x, block h' x = if is p x then None else block h x.
Proof.
  intros H. unfold deallocate. destruct p as [a|]; [|exists h; auto]. specialize (H a eq_refl).
  unfold free. destruct (block h a) as [l|] eqn:E; [|congruence]. eexists. split; [reflexivity|].
  split; [apply upd_length|]. intros x. apply block_upd. eapply block_lt; eauto.
Qed.
Lemma store_ok asserts h a l d : block h a = Some d -> length l <= length d ->
  exists h', store asserts h (Some a) l = Ok h' /\ length h' = length h /\
    forall x, block h' x = if a =? x then Some (l ++ skipn (length l) d) else block h x.
Proof.
  intros B L. unfold store. destruct (Nat.eqb_spec (length l) 0) as [E|E].
  - exists h. split; auto. split; auto. destruct l; [|discriminate]. intros x. cbn.
    destruct (Nat.eqb_spec a x); [subst; auto|auto].
  - rewrite B. replace (length l <=? length d) with true by lia. eexists. split; [reflexivity|].
    split; [apply upd_length|]. intros x. apply block_upd. eapply block_lt; eauto.
Qed.
Lemma copyDD_ok asserts h a b d e n : block h a = Some d -> block h b = Some e -> a <> b ->
  n <= length d -> n <= length e ->
  exists h', copyDD asserts h (Some a) (Some b) n = Ok h' /\ length h' = length h /\
    forall x, block h' x = if a =? x then Some (firstn n e ++ skipn n d) else block h x.
Proof.
  intros B1 B2 NE L1 L2. unfold copyDD. destruct (Nat.eqb_spec n 0) as [->|N0].
  - exists h. split; auto. split; auto. intros x. cbn. destruct (Nat.eqb_spec a x); [subst; auto|auto].
  - rewrite B2. replace ((n <=? length e) && negb (a =? b)) with true.
    2:{ destruct (Nat.eqb_spec a b); [congruence|]. lia. }
    assert (LF : length (firstn n e) = n) by (rewrite firstn_length; lia).
    destruct (store_ok asserts h a (firstn n e) d B1 ltac:(lia)) as [h' [E [L F]]].
    rewrite LF in F. eauto.
Qed.
Lemma copyDD_zero asserts h p q : copyDD asserts h p q 0 = Ok h.
Proof. reflexivity. Qed.

(** ** The invariant *)
Definition wf h (s : cstorage) : Prop :=
  match c_ptr s, c_size s with
  | Some a, Some n => n > 0 /\ exists l, block h a = Some l /\ length l = pad n
  | Some _, None => False
  | None, Some n => n = 0
  | None, None => True
  end.
Definition ptr_of (o : option cstorage) : option nat := match o with Some s => c_ptr s | None => None end.
Definition Safe st : Prop :=
  (forall i s, c_obj st i = Some s -> wf (c_heap st) s) /\
  (forall i j a, ptr_of (c_obj st i) = Some a -> ptr_of (c_obj st j) = Some a -> i = j).
Definition Tidy st : Prop :=
  (forall i s a, c_obj st i = Some s -> c_ptr s = Some a -> c_owns s = true) /\
  (forall a, block (c_heap st) a <> None -> exists i, ptr_of (c_obj st i) = Some a).

Lemma wf_live h s a : wf h s -> c_ptr s = Some a -> block h a <> None.
Proof. unfold wf. intros W E. rewrite E in W. destruct (c_size s); [|contradiction]. destruct W as [_ [l [-> _]]]. discriminate. Qed.
Lemma wf_length h s n : wf h s -> c_size s = Some n -> length (content h s) = n.
Proof.
  unfold wf, content. intros W E. rewrite E in *. destruct (c_ptr s) as [a|]; [|subst; auto].
  destruct W as [_ [l [-> L]]]. rewrite firstn_length. pose proof (pad_ge n). lia.
Qed.
Lemma wf_block h s n : wf h s -> c_size s = Some n -> n > 0 ->
  exists a l, c_ptr s = Some a /\ block h a = Some l /\ length l = pad n /\ content h s = firstn n l.
Proof.
  unfold wf, content. intros W E P. rewrite E in *. destruct (c_ptr s) as [a|]; [|lia].
  destruct W as [_ [l [B L]]]. rewrite B. eauto 10.
Qed.
Lemma wf_empty h s : wf h s -> content h s = [] -> c_ptr s = None.
Proof.
  unfold wf, content. destruct (c_ptr s) as [a|]; auto. destruct (c_size s) as [n|]; [|contradiction].
  intros [P [l [B L]]]. rewrite B. pose proof (pad_ge n). destruct l; cbn [length] in L; [lia|]. destruct n; [lia|]. discriminate.
Qed.
Lemma wf_size0 h s : wf h s -> c_size s = Some 0 -> c_ptr s = None.
Proof. unfold wf. intros W E. rewrite E in W. destruct (c_ptr s); auto. lia. Qed.

(** going from heap [h] to [h'] when the pointer [p] of one object is replaced by [p'] *)
Definition effect h (p : option nat) h' (p' : option nat) : Prop :=
  (forall x, is p x = false -> is p' x = false -> block h' x = block h x) /\
  (forall a, p' = Some a -> p = Some a \/ block h a = None).
Definition clean (p : option nat) h' (p' : option nat) : Prop :=
  forall x, is p x = true -> is p' x = false -> block h' x = None.

Lemma put_same st h i o : c_obj (put st h i o) i = o.
Proof. cbn. rewrite Nat.eqb_refl. auto. Qed.
Lemma put_other st h i o x : x <> i -> c_obj (put st h i o) x = c_obj st x.
Proof. intros. cbn. destruct (Nat.eqb_spec x i); congruence. Qed.

Lemma replace st h' i o' : Safe st -> effect (c_heap st) (ptr_of (c_obj st i)) h' (ptr_of o') ->
  (forall s', o' = Some s' -> wf h' s') ->
  Safe (put st h' i o') /\
  (forall x, x <> i -> value_of (put st h' i o') x = value_of st x) /\
  value_of (put st h' i o') i = option_map (content h') o' /\
  (Tidy st -> clean (ptr_of (c_obj st i)) h' (ptr_of o') ->
    (forall s' a, o' = Some s' -> c_ptr s' = Some a -> c_owns s' = true) -> Tidy (put st h' i o')).
Proof.
  intros [S1 S2] [K1 K2] W.
  assert (KEEP : forall x s, x <> i -> c_obj st x = Some s -> forall a, c_ptr s = Some a ->
                 block h' a = block (c_heap st) a /\ ptr_of o' <> Some a).
  { intros x s NE Hs a Ha. pose proof (wf_live _ _ _ (S1 x s Hs) Ha) as HL.
    assert (X : ptr_of (c_obj st i) <> Some a).
    { intros E. apply NE. apply (S2 x i a); auto. rewrite Hs. auto. }
    assert (Y : ptr_of o' <> Some a). { intros E. destruct (K2 a E); congruence. }
    split; auto. apply K1; apply is_false; auto. }
  assert (KW : forall x s, x <> i -> c_obj st x = Some s -> wf h' s /\ content h' s = content (c_heap st) s).
  { intros x s NE Hs. pose proof (S1 x s Hs) as Ws. pose proof (KEEP x s NE Hs) as K. unfold wf, content in *.
    destruct (c_ptr s) as [a|]; auto. destruct (K a eq_refl) as [-> _]. auto. }
  split; [split|split; [|split]].
  - intros x s. destruct (Nat.eq_dec x i) as [->|NE]; [rewrite put_same; eauto|].
    rewrite put_other by auto. intros Hs. apply (KW x s); auto.
  - intros x y a. destruct (Nat.eq_dec x i) as [->|NX], (Nat.eq_dec y i) as [->|NY]; auto;
      rewrite ?put_same, ?put_other by auto; intros X Y.
    + destruct (c_obj st y) as [s|] eqn:E; [|discriminate]. exfalso. apply (proj2 (KEEP y s NY E a Y)). auto.
    + destruct (c_obj st x) as [s|] eqn:E; [|discriminate]. exfalso. apply (proj2 (KEEP x s NX E a X)). auto.
    + eauto.
  - intros x NE. unfold value_of. rewrite put_other by auto. destruct (c_obj st x) as [s|] eqn:E; auto. cbn.
    f_equal. apply (KW x s); auto.
  - unfold value_of. rewrite put_same. auto.
  - intros [T1 T2] C O. split.
    + intros x s a. destruct (Nat.eq_dec x i) as [->|NE]; [rewrite put_same; eauto|]. rewrite put_other by auto. eauto.
    + intros a Ha. change (c_heap (put st h' i o')) with h' in Ha.
      destruct (is (ptr_of o') a) eqn:E1; [exists i; rewrite put_same; apply is_true; auto|].
      destruct (is (ptr_of (c_obj st i)) a) eqn:E2; [exfalso; apply Ha; apply C; auto|].
      rewrite K1 in Ha by auto. destruct (T2 a Ha) as [x Hx]. exists x. rewrite put_other; auto.
      intros ->. apply is_false in E2. auto.
Qed.

Lemma move st i j o : Safe st -> i <> j -> c_obj st j = Some o ->
  let st' := put (put st (c_heap st) i (Some o)) (c_heap st) j moved_from in
  Safe st' /\ value_of st' i = value_of st j /\ value_of st' j = Some [] /\
  (forall x, x <> i -> x <> j -> value_of st' x = value_of st x) /\
  (Tidy st -> ptr_of (c_obj st i) = None -> Tidy st').
Proof.
  intros [S1 S2] NE Hj st'.
  assert (Oj : c_obj st' j = moved_from) by apply put_same.
  assert (Oi : c_obj st' i = Some o) by (unfold st'; rewrite put_other, put_same; auto).
  assert (Ox : forall x, x <> i -> x <> j -> c_obj st' x = c_obj st x).
  { intros. unfold st'. rewrite !put_other; auto. }
  split; [split|split; [|split; [|split]]].
  - intros x s. change (c_heap st') with (c_heap st). destruct (Nat.eq_dec x j) as [->|NJ].
    + rewrite Oj. unfold moved_from. intros X. inversion X. reflexivity.
    + destruct (Nat.eq_dec x i) as [->|NI]; [rewrite Oi; intros X; inversion X; subst; eauto|].
      rewrite Ox by auto. eauto.
  - intros x y a. destruct (Nat.eq_dec x j) as [->|NJ]; [rewrite Oj; discriminate|].
    destruct (Nat.eq_dec y j) as [->|NJ']; [rewrite Oj; discriminate|].
    assert (P : forall z, z <> j -> ptr_of (c_obj st' z) = Some a -> ptr_of (c_obj st (if z =? i then j else z)) = Some a).
    { intros z NZ. destruct (Nat.eqb_spec z i) as [->|]; [rewrite Oi, Hj; auto|]. rewrite Ox by auto. auto. }
    intros X Y. apply P in X; auto. apply P in Y; auto. pose proof (S2 _ _ _ X Y) as E.
    destruct (Nat.eqb_spec x i), (Nat.eqb_spec y i); subst; auto; congruence.
  - unfold value_of. rewrite Oi, Hj. auto.
  - unfold value_of. rewrite Oj. auto.
  - intros x X Y. unfold value_of. rewrite Ox by auto. auto.
  - intros [T1 T2] E. split.
    + intros x s a. destruct (Nat.eq_dec x j) as [->|NJ].
      * rewrite Oj. unfold moved_from. intros X. inversion X. discriminate.
      * destruct (Nat.eq_dec x i) as [->|NI]; [rewrite Oi; intros X; inversion X; subst; eauto|].
        rewrite Ox by auto. eauto.
    + intros a Ha. change (c_heap st') with (c_heap st) in Ha. destruct (T2 a Ha) as [x Hx].
      destruct (Nat.eq_dec x j) as [->|NJ]; [exists i; rewrite Oi; rewrite Hj in Hx; auto|].
      destruct (Nat.eq_dec x i) as [->|NI]; [congruence|]. exists x. rewrite Ox; auto.
Qed.

(** the result of a step on a safe state *)
Definition good (asserts : bool) st c (r : result A) : Prop :=
  match r with
  | (UB, _) => False
  | (Throw _, st') => asserts = true /\ st' = st
  | (Ok _, st') => (no_assign_from_empty st c -> spec_step (value_of st) c (value_of st')) /\ Safe st' /\
                   (Tidy st -> no_move_over asserts st c -> Tidy st')
  end.

Lemma value_none st i : value_of st i = None -> c_obj st i = None.
Proof. unfold value_of. destruct (c_obj st i); [discriminate|auto]. Qed.
Lemma value_some st i : value_of st i <> None -> exists s, c_obj st i = Some s /\ value_of st i = Some (content (c_heap st) s).
Proof. unfold value_of. destruct (c_obj st i) as [s|]; [eauto|]. intros H. exfalso. apply H. auto. Qed.
Lemma value_at st i s : c_obj st i = Some s -> value_of st i = Some (content (c_heap st) s).
Proof. unfold value_of. intros ->. auto. Qed.
Lemma init_safe : Safe (@init A) /\ Tidy init.
Proof.
  split; split; cbn; try discriminate. intros a H. exfalso. apply H. unfold block. destruct a; auto.
Qed.
Lemma firstn_app_exact (l r : list A) n : length l = n -> firstn n (l ++ r) = l.
Proof. intros <-. rewrite firstn_app, Nat.sub_diag, firstn_all, firstn_O, app_nil_r. auto. Qed.
Lemma firstn_upd (l : list A) n k x : k < n -> firstn n (upd l k x) = upd (firstn n l) k x.
Proof. revert n k. induction l; intros [|n] [|k] H; cbn; auto; try lia. f_equal. apply IHl. lia. Qed.
Lemma get_ok asserts h s k : wf h s -> k < length (content h s) ->
  exists x, nth_error (content h s) k = Some x /\ get asserts h s k = Ok x.
Proof.
  unfold wf, content, get. destruct (c_ptr s) as [a|]; [|cbn; lia]. destruct (c_size s) as [n|]; [|contradiction].
  intros [_ [l [-> L]]]. rewrite firstn_length. intros H. destruct (nth_error l k) as [x|] eqn:E.
  2:{ apply nth_error_None in E. lia. }
  exists x. split; [|unfold rd; rewrite E; auto]. rewrite <- E. rewrite <- (firstn_skipn n l) at 2. symmetry. apply nth_error_app1.
  rewrite firstn_length. lia.
Qed.
End M.

Section P.
Context {A : Type}.
Variable junk : nat -> nat -> A.
Implicit Types h : heap A.
Implicit Types st : cstate A.

Lemma allocate_ok h n : n > 0 -> exists h' d, allocate junk h n = (h', Some (length h)) /\ length d = pad n /\
  length h' = S (length h) /\ (forall x, block h' x = if x =? length h then Some d else block h x).
Proof.
  intros P. unfold allocate, alloc. destruct (Nat.eqb_spec n 0); [lia|].
  eexists _, (map (junk (length h)) (seq 0 (pad n))). split; [reflexivity|].
  split; [rewrite map_length, seq_length; auto|]. split; [rewrite app_length; cbn; lia|]. intros x. apply block_app.
Qed.

(** a freshly constructed object: [allocate] followed by writing the elements [l] *)
Lemma created st i n h1 h' l d : Safe st -> c_obj st i = None -> n > 0 -> length l = n ->
  length h1 = S (length (c_heap st)) -> length d = pad n ->
  (forall x, block h1 x = if x =? length (c_heap st) then Some d else block (c_heap st) x) ->
  (forall x, block h' x = if length (c_heap st) =? x then Some (l ++ skipn n d) else block h1 x) ->
  let st' := put st h' i (own (Some (length (c_heap st))) n) in
  becomes (value_of st) i l (value_of st') /\ Safe st' /\ (Tidy st -> Tidy st').
Proof.
  intros HS Hi P Ll L1 Ld B1 B' st'.
  assert (B : forall x, x <> length (c_heap st) -> block h' x = block (c_heap st) x).
  { intros x NE. rewrite B', B1. destruct (Nat.eqb_spec (length (c_heap st)) x); [congruence|].
    destruct (Nat.eqb_spec x (length (c_heap st))); [congruence|auto]. }
  assert (BL : block h' (length (c_heap st)) = Some (l ++ skipn n d)) by (rewrite B', Nat.eqb_refl; auto).
  assert (W : wf h' {| c_ptr := Some (length (c_heap st)); c_size := Some n; c_owns := true |}).
  { unfold wf. cbn. split; auto. rewrite BL. eexists. split; [reflexivity|]. rewrite app_length, skipn_length.
    pose proof (pad_ge n). lia. }
  destruct (replace st h' i (own (Some (length (c_heap st))) n) HS) as [S' [V1 [V2 T]]].
  - rewrite Hi. cbn. split.
    + intros x _ NE. apply Nat.eqb_neq in NE. apply B. auto.
    + intros a E. inversion E; subst. right. apply block_fresh.
  - unfold own. intros s' E. inversion E; subst. auto.
  - split; [split|split]; auto.
    + unfold st'. rewrite V2. unfold own, content. cbn. rewrite BL. rewrite firstn_app_exact; auto.
    + intros Ti. apply T; auto.
      * rewrite Hi. intros x X. discriminate.
      * unfold own. intros s' a E. inversion E; subst. auto.
Qed.
Lemma created_empty st i ow : Safe st -> c_obj st i = None ->
  let st' := put st (c_heap st) i (Some {| c_ptr := None; c_size := ow; c_owns := true |}) in
  match ow with Some n => n = 0 | None => True end ->
  becomes (value_of st) i [] (value_of st') /\ Safe st' /\ (Tidy st -> Tidy st').
Proof.
  intros HS Hi st' H.
  destruct (replace st (c_heap st) i (Some {| c_ptr := None; c_size := ow; c_owns := true |}) HS) as [S' [V1 [V2 T]]].
  - cbn. rewrite Hi. split; [auto|discriminate].
  - intros s' E. inversion E; subst. unfold wf. cbn. auto.
  - split; [split|split]; auto. intros Ti. apply T; auto.
    + rewrite Hi. intros x X. discriminate.
    + intros s' a E. inversion E; subst. auto.
Qed.

(** object [i] gets a new block (its old one, if any, is freed) or rewrites its own *)
Lemma changed st i s h' s' l : Safe st -> c_obj st i = Some s ->
  effect (c_heap st) (c_ptr s) h' (c_ptr s') -> wf h' s' -> content h' s' = l ->
  becomes (value_of st) i l (value_of (put st h' i (Some s'))) /\ Safe (put st h' i (Some s')) /\
  (Tidy st -> clean (c_ptr s) h' (c_ptr s') -> (c_ptr s' <> None -> c_owns s' = true) -> Tidy (put st h' i (Some s'))).
Proof.
  intros HS Hi K W C. destruct (replace st h' i (Some s') HS) as [S' [V1 [V2 T]]].
  - rewrite Hi. auto.
  - intros s0 E. inversion E; subst. auto.
  - split; [split|split]; auto.
    + rewrite V2. cbn. congruence.
    + intros Ti Cl Ow. apply T; auto.
      * rewrite Hi. auto.
      * intros s0 a E Ea. inversion E; subst. apply Ow. congruence.
Qed.

Lemma assign_good asserts st i j s o : Safe st -> c_obj st i = Some s -> c_obj st j = Some o -> i <> j ->
  allowed st (CAssign i j) -> good asserts st (CAssign i j) (copy_assign junk asserts st i s o).
Proof.
  intros HS Hi Hj NE [_ [_ [NU [_ NA]]]]. cbn [no_uninitialised no_assign_to_moved] in NU, NA.
  destruct NU as [NU|[[s0 [ns [E0 Es]]] [o0 [no [E1 Eo]]]]]; [congruence|].
  assert (s0 = s) by congruence. assert (o0 = o) by congruence. subst s0 o0. clear E0 E1.
  pose proof (proj1 HS i s Hi) as Ws. pose proof (proj1 HS j o Hj) as Wo.
  pose proof (wf_length _ _ _ Ws Es) as Ls. pose proof (wf_length _ _ _ Wo Eo) as Lo.
  unfold copy_assign, size_of. rewrite Eo. cbn [andThen].
  destruct (Nat.eqb_spec no 0) as [->|N0].
  { cbn [good]. split; [|split; auto]. cbn [no_assign_from_empty spec_step]. rewrite (value_at st i s Hi), (value_at st j o Hj).
    destruct (content (c_heap st) o); [|discriminate]. intros H. exists []. split; auto. split; auto.
    rewrite (value_at st i s Hi). apply H. auto. }
  destruct (wf_block _ _ _ Wo Eo ltac:(lia)) as [b [lo [Pb [Bb [Lb Cb]]]]]. pose proof (pad_ge no) as Pno.
  rewrite Es. cbn [andThen]. destruct (Nat.eqb_spec ns no) as [->|NS].
  - destruct (wf_block _ _ _ Ws Es ltac:(lia)) as [a [ls [Pa [Ba [La Ca]]]]].
    assert (AB : a <> b). { intros <-. apply NE. apply (proj2 HS i j a); [rewrite Hi|rewrite Hj]; auto. }
    rewrite Pa, Pb. destruct (copyDD_ok asserts (c_heap st) a b ls lo no) as [h' [E [_ B]]]; auto; try lia.
    rewrite E. cbn [andThen good].
    destruct (changed st i s h' {| c_ptr := Some a; c_size := Some no; c_owns := c_owns s |} (content (c_heap st) o) HS Hi)
      as [V [S' T]].
    + rewrite Pa. cbn [c_ptr]. split; [|intros x X; auto]. intros x X _. rewrite B. unfold is in X. rewrite X. auto.
    + unfold wf. cbn. split; [lia|]. rewrite B, Nat.eqb_refl. eexists. split; [reflexivity|].
      rewrite app_length, firstn_length, skipn_length. lia.
    + unfold content at 1. cbn. rewrite B, Nat.eqb_refl, Cb. apply firstn_app_exact. rewrite firstn_length. lia.
    + split; [|split; auto].
      * intros _. exists (content (c_heap st) o). split; [apply value_at; auto|exact V].
      * intros Ti _. apply T; auto.
        -- rewrite Pa. intros x X Y. cbn in Y. unfold is in X. congruence.
        -- intros _. cbn. eapply (proj1 Ti); eauto.
  - assert (OW : c_owns s = true).
    { destruct NA as [NA|[NA|[NA|NA]]]; [congruence| | |].
      - rewrite (value_at st j o Hj) in NA. inversion NA as [N]. rewrite N in Lo. cbn in Lo. lia.
      - destruct NA as [s0 [E0 NA]]. congruence.
      - rewrite (value_at st i s Hi), (value_at st j o Hj) in NA. cbn in NA. inversion NA. lia. }
    rewrite OW. destruct (deallocate_ok (c_heap st) (c_ptr s)) as [h1 [E1 [L1 B1]]].
    { intros a Ha. apply (wf_live _ s); auto. }
    rewrite E1. cbn [andThen]. destruct (allocate_ok h1 no ltac:(lia)) as [h2 [d [E2 [Ld [L2 B2]]]]]. rewrite E2.
    assert (AB : c_ptr s <> Some b). { intros E. apply NE. apply (proj2 HS i j b); [rewrite Hi|rewrite Hj]; auto. }
    assert (LB : b < length (c_heap st)) by (eapply block_lt; eauto).
    destruct (copyDD_ok asserts h2 (length h1) b d lo no) as [h3 [E3 [_ B3]]]; try lia.
    { rewrite B2, Nat.eqb_refl. auto. }
    { rewrite B2. destruct (Nat.eqb_spec b (length h1)); [lia|]. rewrite B1. replace (is (c_ptr s) b) with false; auto.
      symmetry. apply is_false. auto. }
    rewrite Pb, E3. cbn [andThen good].
    destruct (changed st i s h3 {| c_ptr := Some (length h1); c_size := Some no; c_owns := true |} (content (c_heap st) o) HS Hi)
      as [V [S' T]].
    + cbn [c_ptr]. split.
      * intros x X Y. cbn in Y. rewrite B3, Y, B2. destruct (Nat.eqb_spec x (length h1)); [lia|]. rewrite B1, X. auto.
      * intros x X. inversion X. right. rewrite L1. apply block_fresh.
    + unfold wf. cbn. split; [lia|]. rewrite B3, Nat.eqb_refl. eexists. split; [reflexivity|].
      rewrite app_length, firstn_length, skipn_length. lia.
    + unfold content at 1. cbn. rewrite B3, Nat.eqb_refl, Cb. apply firstn_app_exact. rewrite firstn_length. lia.
    + split; [|split; auto].
      * intros _. exists (content (c_heap st) o). split; [apply value_at; auto|exact V].
      * intros Ti _. apply T; auto. intros x X Y. cbn in Y. rewrite B3, Y, B2.
        destruct (Nat.eqb_spec x (length h1)); [lia|]. rewrite B1, X. auto.
Qed.

Lemma resize_good asserts (keep : bool) st i s n c : Safe st -> c_obj st i = Some s ->
  c = (if keep then CResize i n else CResizeDiscard i n) -> sized st i ->
  good asserts st c (do_resize junk asserts keep st i s n).
Proof.
  intros HS Hi Ec [s0 [ns [E0 Es]]]. assert (s0 = s) by congruence. subst s0. clear E0.
  pose proof (proj1 HS i s Hi) as Ws. pose proof (wf_length _ _ _ Ws Es) as Ls. pose proof (value_at st i s Hi) as Vi.
  unfold do_resize. destruct (asserts && (n =? 0)) eqn:EA.
  { cbn [good]. apply andb_true_iff in EA. split; auto. apply EA. }
  unfold size_of. rewrite Es. cbn [andThen]. destruct (Nat.eqb_spec n ns) as [->|NN].
  { cbn [good]. split; [|split; auto]. intros _. subst c. destruct keep; cbn [spec_step].
    - exists (content (c_heap st) s), []. split; auto. split; [cbn; lia|].
      rewrite app_nil_r, <- Ls, firstn_all. split; auto.
    - exists (content (c_heap st) s). split; auto. split; auto. }
  destruct (asserts && negb (c_owns s)) eqn:EO.
  { cbn [good]. apply andb_true_iff in EO. split; auto. apply EO. }
  assert (OW : no_move_over asserts st c -> c_owns s = true).
  { intros H. assert (H' : asserts = true \/ owning st i) by (subst c; destruct keep; exact H).
    destruct H' as [->|[s0 [E0 E]]]; [|congruence]. destruct (c_owns s); auto. }
  assert (LV : forall a, c_ptr s = Some a -> block (c_heap st) a <> None) by (intros a Ha; apply (wf_live _ s); auto).
  (* the old block is freed, a new one of [n] elements may have been made *)
  assert (FIN : forall h' p l e, (forall x, is p x = false -> block h' x = if is (c_ptr s) x then None else block (c_heap st) x) ->
    (forall a, p = Some a -> block (c_heap st) a = None) ->
    wf h' {| c_ptr := p; c_size := Some n; c_owns := c_owns s |} ->
    content h' {| c_ptr := p; c_size := Some n; c_owns := c_owns s |} = l -> length l = n ->
    (keep = true -> l = firstn n (content (c_heap st) s) ++ e /\ length e = n - ns) ->
    good asserts st c (Ok tt, put st h' i (Some {| c_ptr := p; c_size := Some n; c_owns := c_owns s |}))).
  { intros h' p l e B PF W C L K. cbn [good].
    destruct (changed st i s h' {| c_ptr := p; c_size := Some n; c_owns := c_owns s |} l HS Hi ltac:(split; [intros x X Y; rewrite B, X; auto|intros a E; right; apply PF; exact E]) W C) as [V [S' T]].
    split; [|split; auto].
    - intros _. subst c. destruct keep; cbn [spec_step].
      + destruct (K eq_refl) as [-> Le]. exists (content (c_heap st) s), e. rewrite Ls. auto.
      + exists l. auto.
    - intros Ti H. apply T; auto. intros x X Y. rewrite B, X by auto. auto. }
  destruct (Nat.eq_dec n 0) as [->|N0].
  - unfold allocate. cbn [Nat.eqb]. rewrite Nat.min_0_r, copyDD_zero. cbn [andThen].
    destruct (deallocate_ok (c_heap st) (c_ptr s) LV) as [h1 [-> [L1 B1]]]. cbn [andThen].
    assert (G : good asserts st c (Ok tt, put st h1 i (Some {| c_ptr := None; c_size := Some 0; c_owns := c_owns s |}))).
    { apply (FIN h1 None [] []); auto; try discriminate; try reflexivity. }
    destruct keep; exact G.
  - assert (PC : forall n, n <> 0 -> n > 0) by (intros; lia).
    destruct keep.
    + destruct (allocate_ok (c_heap st) n ltac:(lia)) as [h1 [d [-> [Ld [L1 B1]]]]]. pose proof (pad_ge n) as Pn.
      assert (COPY : exists h2, copyDD asserts h1 (Some (length (c_heap st))) (c_ptr s) (Nat.min ns n) = Ok h2 /\
        forall x, block h2 x = if x =? length (c_heap st)
          then Some (firstn n (content (c_heap st) s) ++ skipn (Nat.min ns n) d) else block (c_heap st) x).
      { destruct (Nat.eq_dec ns 0) as [->|NZ].
        - exists h1. split; [apply copyDD_zero|]. intros x. rewrite B1. destruct (content (c_heap st) s); [|discriminate].
          rewrite firstn_nil. auto.
        - destruct (wf_block _ _ _ Ws Es (PC _ NZ)) as [a [ls [Pa [Ba [La Ca]]]]]. pose proof (pad_ge ns) as Pns.
          assert (LA : a < length (c_heap st)) by (eapply block_lt; eauto).
          destruct (copyDD_ok asserts h1 (length (c_heap st)) a d ls (Nat.min ns n)) as [h2 [E2 [_ B2]]]; try lia.
          { rewrite B1, Nat.eqb_refl. auto. }
          { rewrite B1. destruct (Nat.eqb_spec a (length (c_heap st))); [lia|auto]. }
          rewrite Pa. exists h2. split; auto. intros x. rewrite B2, B1, Ca.
          rewrite firstn_firstn, (Nat.min_comm n ns), (Nat.eqb_sym (length (c_heap st)) x).
          destruct (x =? length (c_heap st)); auto. }
      destruct COPY as [h2 [-> B2]]. cbn [andThen].
      destruct (deallocate_ok h2 (c_ptr s)) as [h3 [E3 [_ B3]]].
      { intros a Ha. specialize (LV a Ha). rewrite B2. destruct (a =? length (c_heap st)); [discriminate|auto]. }
      rewrite E3. cbn [andThen].
      assert (NP : is (c_ptr s) (length (c_heap st)) = false).
      { apply is_false. intros E. apply LV in E. apply E. apply block_fresh. }
      assert (B3' : block h3 (length (c_heap st)) = Some (firstn n (content (c_heap st) s) ++ skipn (Nat.min ns n) d)).
      { rewrite B3, NP, B2, Nat.eqb_refl. auto. }
      assert (LL : length (firstn n (content (c_heap st) s) ++ skipn (Nat.min ns n) d) = pad n).
      { rewrite app_length, firstn_length, skipn_length. lia. }
      refine (FIN h3 (Some (length (c_heap st))) _ (firstn (n - ns) (skipn (Nat.min ns n) d)) _ _ _ eq_refl _ _).
      * intros x X. cbn in X. rewrite B3, B2, (Nat.eqb_sym x), X. auto.
      * intros a E. inversion E. apply block_fresh.
      * unfold wf. cbn. split; [lia|]. rewrite B3'. eauto.
      * unfold content. cbn. fold (content (c_heap st) s). rewrite B3', firstn_length. lia.
      * intros _. split; [|rewrite firstn_length, skipn_length; lia]. unfold content at 1. cbn. rewrite B3'.
        rewrite firstn_app, firstn_firstn, Nat.min_id. f_equal. f_equal. rewrite firstn_length. lia.
    + destruct (deallocate_ok (c_heap st) (c_ptr s) LV) as [h1 [-> [L1 B1]]]. cbn [andThen].
      destruct (allocate_ok h1 n ltac:(lia)) as [h2 [d [-> [Ld [L2 B2]]]]]. pose proof (pad_ge n) as Pn.
      assert (B2' : block h2 (length h1) = Some d) by (rewrite B2, Nat.eqb_refl; auto).
      refine (FIN h2 (Some (length h1)) _ [] _ _ _ eq_refl _ _).
      * intros x X. cbn in X. rewrite B2, (Nat.eqb_sym x), X. apply B1.
      * intros a E. inversion E. rewrite L1. apply block_fresh.
      * unfold wf. cbn. split; [lia|]. rewrite B2'. eauto.
      * unfold content. cbn. rewrite B2', firstn_length. lia.
      * discriminate.
Qed.

Lemma store_created asserts st i l n : Safe st -> c_obj st i = None -> n > 0 -> length l = n ->
  forall P : result A -> Prop,
  (forall h2, let st' := put st h2 i (own (Some (length (c_heap st))) n) in
     becomes (value_of st) i l (value_of st') -> Safe st' -> (Tidy st -> Tidy st') -> P (Ok tt, st')) ->
  P (let (h1, p) := allocate junk (c_heap st) n in
     andThen st (store asserts h1 p l) (fun h2 => (Ok tt, put st h2 i (own p n)))).
Proof.
  intros HS Hi N0 L P K. destruct (allocate_ok (c_heap st) n N0) as [h1 [d [-> [Ld [L1 B1]]]]]. pose proof (pad_ge n) as Pn.
  destruct (store_ok asserts h1 (length (c_heap st)) l d) as [h2 [-> [L2 B2]]]; try lia.
  { rewrite B1, Nat.eqb_refl. auto. }
  cbn [andThen]. rewrite L in B2.
  destruct (created st i n h1 h2 l d HS Hi N0 L L1 Ld B1 B2) as [V [S' T]]. apply K; auto.
Qed.

Lemma step_good asserts st c : Safe st -> allowed st c -> good asserts st c (step junk asserts st c).
Proof.
  intros HS HA. assert (HA' := HA). destruct HA' as [WF [IX [NU [NC NA]]]].
  destruct c as [i|i n|i n x|i l|i j|i j|i j|i j|i j|i n|i n|i k x|i k|i];
    cbn [well_formed indexed no_uninitialised no_copy_construct] in *; unfold step.
  - apply value_none in WF. destruct (created_empty st i None HS WF I) as [V [S' T]]. cbn [good]. auto.
  - apply value_none in WF. destruct (Nat.eq_dec n 0) as [->|N0].
    + unfold allocate. cbn [Nat.eqb]. destruct (created_empty st i (Some 0) HS WF eq_refl) as [V [S' T]]. cbn [good].
      split; [|split; auto]. intros _. exists []. auto.
    + destruct (allocate_ok (c_heap st) n ltac:(lia)) as [h1 [d [-> [Ld [L1 B1]]]]]. pose proof (pad_ge n) as Pn.
      destruct (created st i n h1 h1 (firstn n d) d HS WF) as [V [S' T]]; try lia; auto.
      * rewrite firstn_length. lia.
      * intros x. rewrite firstn_skipn. destruct (Nat.eqb_spec (length (c_heap st)) x); [|auto].
        subst. rewrite B1, Nat.eqb_refl. auto.
      * cbn [good]. split; [|split; auto]. intros _. exists (firstn n d). split; [rewrite firstn_length; lia|auto].
  - apply value_none in WF. destruct (Nat.eq_dec n 0) as [->|N0].
    + cbn [Nat.eqb andb]. destruct asserts; [cbn; auto|]. unfold allocate, store. cbn [Nat.eqb repeat length andThen].
      destruct (created_empty st i (Some 0) HS WF eq_refl) as [V [S' T]]. cbn [good]. auto.
    + destruct (Nat.eqb_spec n 0); [lia|]. cbn [andb].
      apply store_created; auto; [lia|apply repeat_length|]. intros h2 st' V S' T. cbn [good]. auto.
  - apply value_none in WF. destruct l as [|y l].
    + unfold allocate, store. cbn [Nat.eqb length andThen].
      destruct (created_empty st i (Some 0) HS WF eq_refl) as [V [S' T]]. cbn [good]. auto.
    + apply store_created; auto; [cbn; lia|]. intros h2 st' V S' T. cbn [good]. auto.
  - destruct WF as [WF _]. apply value_none in WF. destruct NU as [o [n [Hj En]]].
    rewrite (value_at st j o Hj) in NC. inversion NC as [C0]. rewrite Hj.
    pose proof (proj1 HS j o Hj) as Wo. rewrite (wf_empty _ _ Wo C0). pose proof (wf_length _ _ _ Wo En) as L.
    rewrite C0 in L. cbn in L. subst n. unfold size_of. rewrite En. cbn [andThen].
    destruct (created_empty st i (Some 0) HS WF eq_refl) as [V [S' T]]. cbn [good]. split; [|split; auto].
    intros _. exists []. rewrite (value_at st j o Hj), C0. auto.
  - destruct WF as [WF _]. apply value_none in WF. destruct NU as [o [n [Hj En]]]. rewrite Hj. unfold size_of. rewrite En.
    cbn [andThen]. assert (NE : i <> j) by congruence. destruct (move st i j o HS NE Hj) as [S' [V1 [V2 [V3 T]]]].
    cbn [good]. split; [|split; auto].
    + intros _. exists (content (c_heap st) o). rewrite V1. rewrite (value_at st j o Hj). auto.
    + intros Ti _. apply T; auto. rewrite WF. auto.
  - destruct WF as [WF _]. apply value_none in WF. destruct NU as [o [n [Hj En]]]. rewrite Hj. unfold size_of. rewrite En.
    cbn [andThen]. pose proof (proj1 HS j o Hj) as Wo. pose proof (wf_length _ _ _ Wo En) as L.
    destruct (Nat.eq_dec n 0) as [->|N0].
    + unfold allocate. cbn [Nat.eqb]. rewrite copyDD_zero. cbn [andThen].
      destruct (created_empty st i (Some 0) HS WF eq_refl) as [V [S' T]]. cbn [good]. split; [|split; auto].
      intros _. destruct (content (c_heap st) o) eqn:C0; [|discriminate]. exists []. rewrite (value_at st j o Hj), C0. auto.
    + destruct (wf_block _ _ _ Wo En ltac:(lia)) as [b [lo [Pb [Bb [Lb Cb]]]]].
      destruct (allocate_ok (c_heap st) n ltac:(lia)) as [h1 [d [-> [Ld [L1 B1]]]]]. pose proof (pad_ge n) as Pn.
      assert (LB : b < length (c_heap st)) by (eapply block_lt; eauto).
      destruct (copyDD_ok asserts h1 (length (c_heap st)) b d lo n) as [h2 [E2 [L2 B2]]]; try lia.
      { rewrite B1, Nat.eqb_refl. auto. }
      { rewrite B1. destruct (Nat.eqb_spec b (length (c_heap st))); [lia|auto]. }
      rewrite Pb, E2. cbn [andThen]. destruct (created st i n h1 h2 (firstn n lo) d HS WF) as [V [S' T]]; auto; try lia.
      { rewrite firstn_length. lia. }
      cbn [good]. split; [|split; auto]. intros _. exists (firstn n lo). rewrite (value_at st j o Hj), Cb. auto.
  - destruct WF as [W1 W2]. destruct (value_some st i W1) as [s [Hi _]]. destruct (value_some st j W2) as [o [Hj _]].
    rewrite Hi, Hj. destruct (Nat.eqb_spec i j) as [->|NE].
    + cbn [good]. split; [|split; auto]. intros _. exists (content (c_heap st) o). rewrite (value_at st j o Hj).
      split; auto. split; auto. apply value_at. auto.
    + apply assign_good; auto.
  - destruct WF as [W1 W2]. destruct (value_some st i W1) as [s [Hi Vi]]. destruct (value_some st j W2) as [o [Hj Vj]].
    rewrite Hi, Hj. destruct (Nat.eqb_spec i j) as [->|NE].
    + cbn [good]. split; [|split; auto]. intros _. exists (content (c_heap st) o). rewrite Vj.
      repeat split; auto; congruence.
    + destruct NU as [NU|[o0 [n [E0 En]]]]; [congruence|]. assert (o0 = o) by congruence. subst o0.
      unfold size_of. rewrite En. cbn [andThen]. destruct (move st i j o HS NE Hj) as [S' [V1 [V2 [V3 T]]]].
      cbn [good]. split; [|split; auto].
      * intros _. exists (content (c_heap st) o). rewrite V1, Vj. auto.
      * intros Ti H. cbn in H. apply T; auto. destruct H as [H|H]; [congruence|]. rewrite Hi. cbn.
        rewrite Vi in H. eapply wf_empty; [apply (proj1 HS i s Hi)|]. congruence.
  - destruct (value_some st i WF) as [s [Hi Vi]]. rewrite Hi. apply (resize_good asserts true st i s n); auto.
  - destruct (value_some st i WF) as [s [Hi Vi]]. rewrite Hi. apply (resize_good asserts false st i s n); auto.
  - destruct (value_some st i WF) as [s [Hi Vi]]. rewrite Hi. destruct IX as [l [Vl Lk]]. rewrite Vi in Vl. inversion Vl; subst l.
    pose proof (proj1 HS i s Hi) as Ws. assert (Ws' := Ws). unfold wf in Ws'.
    assert (Cs := eq_refl (content (c_heap st) s)). unfold content at 2 in Cs.
    destruct (c_ptr s) as [a|] eqn:Pa; [|rewrite Cs in Lk; cbn in Lk; lia].
    destruct (c_size s) as [n|] eqn:Es; [|contradiction]. destruct Ws' as [N0 [d [Ba Ld]]]. rewrite Ba in Cs.
    assert (Lc : length (content (c_heap st) s) = n) by (apply wf_length; auto). pose proof (pad_ge n) as Pn.
    unfold set. rewrite Pa, Ba. rewrite wr_Ok by lia. cbn [bind andThen].
    assert (LT : a < length (c_heap st)) by (eapply block_lt; eauto).
    assert (B : forall y, block (upd (c_heap st) a (Some (upd d k x))) y = if a =? y then Some (upd d k x) else block (c_heap st) y)
      by (intros; apply block_upd; auto).
    set (h' := upd (c_heap st) a (Some (upd d k x))) in *.
    destruct (changed st i s h' s (upd (content (c_heap st) s) k x) HS Hi) as [V [S' T]].
    + split; [|auto]. intros y Y _. rewrite Pa in Y. cbn in Y. rewrite B, Y. auto.
    + unfold wf. rewrite Pa, Es. split; auto. rewrite B, Nat.eqb_refl. eexists. split; [reflexivity|].
      rewrite upd_length. auto.
    + unfold content at 1. rewrite Pa, Es, B, Nat.eqb_refl, Cs. apply firstn_upd. lia.
    + replace {| c_heap := h'; c_obj := c_obj st |} with {| c_heap := h'; c_obj := c_obj st |} by auto.
      assert (VE : forall y, value_of {| c_heap := h'; c_obj := c_obj st |} y = value_of (put st h' i (Some s)) y).
      { intros y. unfold value_of. cbn. destruct (Nat.eqb_spec y i); [subst; rewrite Hi|]; auto. }
      assert (OE : forall y, c_obj (put st h' i (Some s)) y = c_obj st y).
      { intros y. cbn. destruct (Nat.eqb_spec y i); [congruence|auto]. }
      cbn [good]. split; [|split].
      * intros _. cbn [spec_step]. exists (content (c_heap st) s). split; auto. split; auto.
        destruct V as [V1 V2]. split; [rewrite VE; auto|]. intros y NY. rewrite VE. auto.
      * destruct S' as [S1 S2]. split; cbn [c_heap c_obj].
        -- intros y t Hy. apply (S1 y t). rewrite OE. auto.
        -- intros y z b. rewrite <- (OE y), <- (OE z). apply S2.
      * intros Ti _. destruct T as [T1 T2]; auto.
        -- intros y Y Z. congruence.
        -- intros _. eapply (proj1 Ti); eauto.
        -- split; cbn [c_heap c_obj].
           ++ intros y t b Hy. apply (T1 y t). rewrite OE. auto.
           ++ intros b Hb. destruct (T2 b Hb) as [y Hy]. exists y. rewrite <- OE. auto.
  - destruct (value_some st i WF) as [s [Hi Vi]]. rewrite Hi. destruct IX as [l [Vl Lk]]. rewrite Vi in Vl. inversion Vl; subst l.
    pose proof (proj1 HS i s Hi) as Ws. destruct (get_ok asserts _ _ k Ws Lk) as [x [_ ->]]. cbn [andThen good].
    split; [|split; auto]. intros _. split; eauto.
  - destruct (value_some st i WF) as [s [Hi Vi]]. rewrite Hi. pose proof (proj1 HS i s Hi) as Ws.
    assert (E : exists h', (if c_owns s then deallocate (c_heap st) (c_ptr s) else Ok (c_heap st)) = Ok h' /\
      (forall x, is (c_ptr s) x = false -> block h' x = block (c_heap st) x) /\
      (c_owns s = true -> forall x, is (c_ptr s) x = true -> block h' x = None)).
    { destruct (c_owns s); [|exists (c_heap st); repeat split; auto; discriminate].
      destruct (deallocate_ok (c_heap st) (c_ptr s)) as [h1 [E1 [_ B1]]].
      - intros a Ha. apply (wf_live _ s); auto.
      - exists h1. split; auto. split; [intros x X; rewrite B1, X; auto|intros _ x X; rewrite B1, X; auto]. }
    destruct E as [h' [-> [B1 B2]]]. cbn [andThen].
    destruct (replace st h' i None HS) as [S' [V1 [V2 T]]].
    + rewrite Hi. cbn. split; [auto|discriminate].
    + discriminate.
    + cbn [good]. split; [|split; auto].
      * intros _. cbn [spec_step]. split; auto.
      * intros Ti _. apply T; auto; [|discriminate]. rewrite Hi. intros x X _. apply B2; auto.
        apply is_true in X. eapply (proj1 Ti); eauto.
Qed.

Lemma run_safe asserts : forall cs st, Safe st -> along junk asserts allowed st cs ->
  exists st', run junk asserts st cs = Some st' /\ Safe st'.
Proof.
  induction cs as [|c cs IH]; intros st HS H; cbn [run along] in *; [eauto|]. destruct H as [HA H].
  pose proof (step_good asserts st c HS HA) as G. destruct (step junk asserts st c) as [[u|e|] st']; cbn [good] in G.
  - apply IH; tauto.
  - destruct G as [_ ->]. apply IH; auto.
  - contradiction.
Qed.
Lemma run_tidy asserts : forall cs st, Safe st -> Tidy st -> along junk asserts (leakfree asserts) st cs ->
  exists st', run junk asserts st cs = Some st' /\ Safe st' /\ Tidy st'.
Proof.
  induction cs as [|c cs IH]; intros st HS HT H; cbn [run along] in *; [eauto|]. destruct H as [[HA HM] H].
  pose proof (step_good asserts st c HS HA) as G. destruct (step junk asserts st c) as [[u|e|] st']; cbn [good] in G.
  - apply IH; tauto.
  - destruct G as [_ ->]. apply IH; auto.
  - contradiction.
Qed.
End P.
