From Verif Require Import Base BaseProofs StorageModel StorageSpec.
Ltac Zify.zify_post_hook ::= idtac.

Section P.
Context {A : Type}.
Implicit Types h : heap A.
Implicit Types st : state A.

(** ** Heaps *)
Lemma block_lt h a l : block h a = Some l -> a < length h.
Proof. unfold block. destruct (nth_error h a) eqn:E; [|discriminate]. intros _. apply nth_error_Some. congruence. Qed.
Lemma block_app h l a : block (h ++ [Some l]) a = if a =? length h then Some l else block h a.
Proof.
  unfold block. destruct (Nat.eqb_spec a (length h)).
  - subst. rewrite nth_error_app2, Nat.sub_diag by lia. reflexivity.
  - destruct (Nat.lt_ge_cases a (length h)).
    + rewrite nth_error_app1 by auto. auto.
    + rewrite !(proj2 (nth_error_None _ _)); auto; rewrite ?app_length; cbn; lia.
Qed.
Lemma block_upd h a b x : a < length h -> block (upd h a b) x = if a =? x then b else block h x.
Proof.
  intros H. unfold block. rewrite nth_error_upd. destruct (Nat.eqb_spec a x); cbn [andb]; auto.
  replace (a <? length h) with true by lia. auto.
Qed.
Lemma block_fresh h : block h (length h) = None.
Proof. unfold block. rewrite (proj2 (nth_error_None _ _)); auto. Qed.

Variable junk : nat -> nat -> A.
Lemma safeAllocate_cases h n : safeAllocate junk h n =
  if n =? 0 then (h, None) else (h ++ [Some (map (junk (length h)) (seq 0 n))], Some (length h)).
Proof. unfold safeAllocate, alloc. reflexivity. Qed.

(** ** The invariant *)
Definition wf_storage h (s : storage) : Prop :=
  match m_begin s with
  | None => m_size s = 0
  | Some a => exists l, block h a = Some l /\ length l = m_size s /\ m_size s > 0
  end.
Definition Safe st : Prop :=
  (forall i s, st_obj st i = Some s -> wf_storage (st_heap st) s) /\
  (forall i j s t a, st_obj st i = Some s -> st_obj st j = Some t ->
     m_begin s = Some a -> m_begin t = Some a -> i = j).
Definition Tidy st : Prop :=
  (forall i s a, st_obj st i = Some s -> m_begin s = Some a -> m_owns s = true) /\
  (forall a l, block (st_heap st) a = Some l -> exists i s, st_obj st i = Some s /\ m_begin s = Some a).

Lemma wf_content h s : wf_storage h s -> length (content h s) = m_size s.
Proof.
  unfold wf_storage, content. destruct (m_begin s); [|auto]. intros [l [-> [H _]]]. auto.
Qed.
Lemma wf_content_eq h s a l : m_begin s = Some a -> block h a = Some l -> content h s = l.
Proof. unfold content. intros -> ->. auto. Qed.

(** Replace (or create) object [i] by [o'], going from heap [h] to [h']: *)
Definition owned (o : option storage) (a : nat) : Prop :=
  match o with Some s => m_begin s = Some a | None => False end.

Lemma replace_safe st h' i o' :
  Safe st ->
  (forall a l, block (st_heap st) a = Some l -> ~ owned (st_obj st i) a -> block h' a = Some l) ->
  (forall s', o' = Some s' -> wf_storage h' s') ->
  (forall a, owned o' a -> owned (st_obj st i) a \/ block (st_heap st) a = None) ->
  Safe {| st_heap := h'; st_obj := set_obj (st_obj st) i o' |} /\
  (forall x, x <> i -> value_of {| st_heap := h'; st_obj := set_obj (st_obj st) i o' |} x = value_of st x) /\
  value_of {| st_heap := h'; st_obj := set_obj (st_obj st) i o' |} i = option_map (content h') o'.
Proof.
  intros [S1 S2] HB HW HO.
  assert (KEEP : forall x s, x <> i -> st_obj st x = Some s -> wf_storage h' s /\ content h' s = content (st_heap st) s).
  { intros x s NE Hs. pose proof (S1 x s Hs) as W. unfold wf_storage, content in *.
    destruct (m_begin s) as [a|] eqn:Eb; [|auto]. destruct W as [l [B L]].
    assert (B' : block h' a = Some l).
    { apply HB; auto. intros HOw. unfold owned in HOw. destruct (st_obj st i) as [t|] eqn:Et; [|auto].
      apply NE. eapply S2; eauto. }
    split; [eauto|]. rewrite B, B'. auto. }
  split; [split|split].
  - cbn [st_obj st_heap]. unfold set_obj. intros x s. destruct (Nat.eqb_spec x i); [intros; apply HW; auto|].
    intros Hs. apply (KEEP x s); auto.
  - cbn [st_obj]. unfold set_obj. intros x y s t a.
    assert (CROSS : forall z u s', z <> i -> st_obj st z = Some u -> o' = Some s' ->
      m_begin u = Some a -> m_begin s' = Some a -> False).
    { intros z u s' NE Hu -> Ha Ha'. destruct (HO a Ha') as [H|H].
      - unfold owned in H. destruct (st_obj st i) as [t'|] eqn:Et; [|auto]. apply NE. eapply S2; eauto.
      - pose proof (S1 z u Hu) as W. unfold wf_storage in W. rewrite Ha in W. destruct W as [l [B _]]. congruence. }
    destruct (Nat.eqb_spec x i), (Nat.eqb_spec y i); intros; subst; auto.
    + exfalso. eapply (CROSS y); eauto.
    + exfalso. eapply (CROSS x); eauto.
    + eapply S2; eauto.
  - intros x NE. unfold value_of. cbn [st_obj st_heap]. unfold set_obj. destruct (Nat.eqb_spec x i); [congruence|].
    destruct (st_obj st x) as [s|] eqn:Es; [|auto]. cbn. f_equal. apply (KEEP x s); auto.
  - unfold value_of. cbn [st_obj st_heap]. unfold set_obj. rewrite Nat.eqb_refl. auto.
Qed.

Lemma set_obj_same f i o : @set_obj f i o i = o.
Proof. unfold set_obj. rewrite Nat.eqb_refl. auto. Qed.
Lemma set_obj_other f i o x : x <> i -> set_obj f i o x = f x.
Proof. unfold set_obj. destruct (Nat.eqb_spec x i); congruence. Qed.

Lemma replace_tidy st h' i o' :
  Safe st -> Tidy st ->
  (forall a l, block h' a = Some l -> owned o' a \/ (block (st_heap st) a <> None /\ ~ owned (st_obj st i) a)) ->
  (forall s' a, o' = Some s' -> m_begin s' = Some a -> m_owns s' = true) ->
  Tidy {| st_heap := h'; st_obj := set_obj (st_obj st) i o' |}.
Proof.
  intros _ [T1 T2] HB HO. split; cbn [st_obj st_heap].
  - unfold set_obj. intros x s a. destruct (Nat.eqb_spec x i); eauto.
  - intros a l Hb. destruct (HB a l Hb) as [H|[H1 H2]].
    + destruct o' as [s|]; [|contradiction]. exists i, s. rewrite set_obj_same. auto.
    + destruct (block (st_heap st) a) as [l'|] eqn:E; [|congruence].
      destruct (T2 a l' E) as [x [s [Hs Hb']]].
      assert (x <> i). { intros ->. apply H2. unfold owned. rewrite Hs. auto. }
      exists x, s. rewrite set_obj_other; auto.
Qed.

(** Swapping contents by a move *)
Lemma move_safe st i j o : Safe st -> i <> j -> st_obj st j = Some o ->
  let st' := {| st_heap := st_heap st; st_obj := set_obj (set_obj (st_obj st) i (Some o)) j (Some moved_from) |} in
  Safe st' /\ value_of st' i = value_of st j /\ value_of st' j = Some [] /\
  (forall x, x <> i -> x <> j -> value_of st' x = value_of st x).
Proof.
  intros [S1 S2] NE Hj st'. split; [split|].
  - subst st'. cbn [st_obj st_heap]. unfold set_obj. intros x s. destruct (Nat.eqb_spec x j).
    + intros H. inversion H. reflexivity.
    + destruct (Nat.eqb_spec x i); eauto. intros H. inversion H; subst. eauto.
  - subst st'. cbn [st_obj st_heap]. unfold set_obj. intros x y s t a.
    destruct (Nat.eqb_spec x j), (Nat.eqb_spec y j); intros H1 H2 B1 B2; subst; auto;
      try (inversion H1; subst; discriminate); try (inversion H2; subst; discriminate).
    destruct (Nat.eqb_spec x i), (Nat.eqb_spec y i); subst; auto.
    + inversion H1; subst. exfalso. apply n0. symmetry. eapply (S2 j y); eauto.
    + inversion H2; subst. exfalso. apply n. eapply (S2 x j); eauto.
    + eapply S2; eauto.
  - subst st'. unfold value_of. cbn [st_obj st_heap]. split; [|split].
    + rewrite set_obj_other, set_obj_same by auto. rewrite Hj. auto.
    + rewrite set_obj_same. reflexivity.
    + intros x H1 H2. rewrite !set_obj_other by auto. auto.
Qed.
Lemma move_tidy st i j o : Safe st -> Tidy st -> i <> j -> st_obj st j = Some o ->
  (forall a, ~ owned (st_obj st i) a) ->
  Tidy {| st_heap := st_heap st; st_obj := set_obj (set_obj (st_obj st) i (Some o)) j (Some moved_from) |}.
Proof.
  intros _ [T1 T2] NE Hj HN. split; cbn [st_obj st_heap].
  - unfold set_obj. intros x s a. destruct (Nat.eqb_spec x j); [intros H; inversion H; discriminate|].
    destruct (Nat.eqb_spec x i); [intros H; inversion H; subst|]; eauto.
  - intros a l Hb. destruct (T2 a l Hb) as [x [s [Hs Ha]]]. destruct (Nat.eq_dec x j) as [->|NJ].
    + exists i, o. rewrite set_obj_other, set_obj_same by auto. split; congruence.
    + assert (x <> i). { intros ->. apply (HN a). unfold owned. rewrite Hs. auto. }
      exists x, s. rewrite !set_obj_other by auto. auto.
Qed.

(** ** Helper functions *)
Lemma fastCopy_ok asserts h d s n ld ls : n > 0 -> block h d = Some ld -> block h s = Some ls ->
  n <= length ld -> n <= length ls -> d <> s ->
  fastCopy asserts h (Some d) (Some s) n = Ok (upd h d (Some (firstn n ls ++ skipn n ld))).
Proof.
  intros H0 B1 B2 L1 L2 NE. unfold fastCopy. destruct (Nat.eqb_spec n 0); [lia|]. rewrite B1, B2.
  replace ((n <=? length ld) && (n <=? length ls) && negb (d =? s)) with true; [auto|].
  destruct (Nat.eqb_spec d s); [congruence|]. lia.
Qed.
Lemma upd_last {B} (l : list B) x y : upd (l ++ [x]) (length l) y = l ++ [y].
Proof. induction l; cbn; congruence. Qed.

Lemma initData_ok asserts h a l : block h a = Some l -> length l > 0 -> forall sz0,
  initData junk asserts h sz0 (Some a) (length l) =
  Ok (h ++ [Some l], {| m_begin := Some (length h); m_size := length l; m_owns := true |}).
Proof.
  intros B L sz0. unfold initData. destruct (Nat.eqb_spec (length l) 0); [lia|].
  rewrite safeAllocate_cases. destruct (Nat.eqb_spec (length l) 0); [lia|].
  pose proof (block_lt _ _ _ B).
  rewrite (fastCopy_ok asserts _ _ _ _ (map (junk (length h)) (seq 0 (length l))) l); auto.
  - cbn [bind]. rewrite upd_last. rewrite firstn_all, skipn_all2 by (rewrite map_length, seq_length; lia).
    rewrite app_nil_r. auto.
  - rewrite block_app, Nat.eqb_refl. auto.
  - rewrite block_app. destruct (Nat.eqb_spec a (length h)); [lia|auto].
  - rewrite map_length, seq_length. lia.
  - lia.
Qed.

(** the effect of each storage function on memory, for a well-formed object *)
Lemma read_ok asserts h s k : wf_storage h s -> (asserts = true \/ k < length (content h s)) ->
  (k < length (content h s) /\ exists x, read asserts h s k = Ok x /\ nth_error (content h s) k = Some x) \/
  (length (content h s) <= k /\ read asserts h s k = Throw RuntimeError).
Proof.
  intros W H. pose proof (wf_content _ _ W) as L. rewrite L in *. unfold read.
  destruct (Nat.ltb_spec k (m_size s)); cbn [negb].
  - left. split; auto. rewrite andb_false_r. unfold wf_storage, content in *. destruct (m_begin s) as [a|]; [|lia].
    destruct W as [l [B [Ll _]]]. rewrite B in *. unfold rd. destruct (nth_error l k) eqn:E; eauto.
    apply nth_error_None in E. lia.
  - right. destruct H as [->|H]; [|lia]. auto.
Qed.
Lemma write_ok asserts h s k x : wf_storage h s -> (asserts = true \/ k < length (content h s)) ->
  (k < length (content h s) /\ exists a, m_begin s = Some a /\
      write asserts h s k x = Ok (upd h a (Some (upd (content h s) k x)))) \/
  (length (content h s) <= k /\ write asserts h s k x = Throw RuntimeError).
Proof.
  intros W H. pose proof (wf_content _ _ W) as L. rewrite L in *. unfold write.
  destruct (Nat.ltb_spec k (m_size s)); cbn [negb].
  - left. split; auto. rewrite andb_false_r. unfold wf_storage, content in *. destruct (m_begin s) as [a|]; [|lia].
    destruct W as [l [B [Ll _]]]. rewrite B in *. exists a. split; auto. rewrite wr_Ok by lia. auto.
  - right. destruct H as [->|H]; [|lia]. auto.
Qed.

(** what a replaced object looks like *)
Definition replaces h (s : storage) (h' : heap A) (s' : storage) (l : list A) (r : Prop) : Prop :=
  wf_storage h' s' /\ content h' s' = l /\
  (forall a b, block h a = Some b -> m_begin s <> Some a -> block h' a = Some b) /\
  (forall a, m_begin s' = Some a -> m_begin s = Some a \/ block h a = None) /\
  (* nothing else is allocated afterwards *)
  (r -> forall a b, block h' a = Some b -> m_begin s' = Some a \/ (block h a <> None /\ m_begin s <> Some a)).

Lemma replaces_refl h s : wf_storage h s -> replaces h s h s (content h s) True.
Proof.
  intros W. split; [auto|]. split; [auto|]. split; [auto|]. split; [auto|]. intros _ a b B.
  destruct (m_begin s) as [a'|].
  - destruct (Nat.eq_dec a' a); [subst; auto|]. right. split; congruence.
  - right. split; congruence.
Qed.

Lemma resize_ok asserts keep h s n : wf_storage h s ->
  (exists e, do_resize junk asserts keep h s n = (Throw e, (h, s)) /\ asserts = true /\ (n = 0 \/ (m_owns s = false /\ n <> m_size s))) \/
  (exists h' s' e, do_resize junk asserts keep h s n = (Ok tt, (h', s')) /\ m_owns s' = m_owns s /\
     (asserts = true -> n = m_size s \/ m_owns s = true) /\
     (keep = true -> length e = n - length (content h s) /\ replaces h s h' s' (firstn n (content h s) ++ e) True) /\
     (keep = false -> length e = n /\ replaces h s h' s' e True)).
Proof.
  intros W. pose proof (wf_content _ _ W) as L. unfold do_resize.
  destruct (asserts && (n =? 0)) eqn:E0.
  { left. exists RuntimeError. split; auto. apply andb_true_iff in E0. destruct E0. split; auto. left. lia. }
  destruct (Nat.eqb_spec n (m_size s)) as [->|NE].
  { right. exists h, s. exists (if keep then [] else content h s). split; auto. split; auto. split; auto. split; intros ->.
    - split; [cbn; lia|]. rewrite app_nil_r, <- L, firstn_all. apply replaces_refl; auto.
    - split; auto. apply replaces_refl; auto. }
  destruct (asserts && negb (m_owns s)) eqn:E1.
  { left. exists RuntimeError. split; auto. apply andb_true_iff in E1. destruct E1 as [-> E1]. split; auto. right.
    destruct (m_owns s); [discriminate|auto]. }
  right. rewrite safeAllocate_cases.
  assert (OW : asserts = true -> n = m_size s \/ m_owns s = true).
  { intros ->. destruct (m_owns s); auto. }
  destruct (m_begin s) as [a|] eqn:Eb.
  - (* old block *)
    assert (W' := W). unfold wf_storage in W'. rewrite Eb in W'. destruct W' as [l [B [Ll Lp]]].
    rewrite (wf_content_eq _ _ _ _ Eb B) in *.
    pose proof (block_lt _ _ _ B) as La.
    destruct (Nat.eqb_spec n 0) as [->|N0].
    + (* shrink to nothing, unchecked *)
      rewrite Nat.min_0_r. unfold fastCopy. cbn [Nat.eqb].
      replace (if keep then Ok h else Ok h) with (Ok h) by (destruct keep; auto).
      unfold safeDeallocate, free. destruct (Nat.eqb_spec (m_size s) 0); [lia|]. rewrite B.
      exists (upd h a None), {| m_begin := None; m_size := 0; m_owns := m_owns s |}, (@nil A).
      split; [auto|]. split; [auto|]. split; [auto|].
      assert (R : replaces h s (upd h a None) {| m_begin := None; m_size := 0; m_owns := m_owns s |} [] True).
      { split; [reflexivity|]. split; [reflexivity|]. split; [|split].
        - intros x b Bx NX. rewrite block_upd by auto. destruct (Nat.eqb_spec a x); [congruence|auto].
        - intros x H. discriminate.
        - intros _ x b. rewrite block_upd by auto. destruct (Nat.eqb_spec a x); [discriminate|].
          intros Bx. right. split; congruence. }
      split; intros ->; split; auto; cbn; lia.
    + set (jl := map (junk (length h)) (seq 0 n)).
      assert (Ljl : length jl = n) by (unfold jl; rewrite map_length, seq_length; auto).
      pose (h1 := (h ++ [Some jl]) : heap A). change (h ++ [Some jl]) with h1.
      set (l' := if keep then firstn n l ++ skipn (Nat.min (length l) n) jl else jl).
      assert (EC : (if keep then fastCopy asserts h1 (Some (length h)) (Some a) (Nat.min (m_size s) n) else Ok h1)
                   = Ok ((h ++ [Some l']) : heap A)).
      { destruct keep; [|reflexivity].
        rewrite (fastCopy_ok asserts h1 (length h) a _ jl l); try lia.
        - unfold h1. rewrite upd_last. unfold l'. rewrite L.
          replace (firstn (Nat.min (m_size s) n) l) with (firstn n l); [reflexivity|].
          destruct (Nat.le_ge_cases (m_size s) n).
          + rewrite Nat.min_l by auto. rewrite !firstn_all2 by lia. auto.
          + rewrite Nat.min_r by auto. auto.
        - unfold h1. rewrite block_app, Nat.eqb_refl. auto.
        - unfold h1. rewrite block_app. destruct (Nat.eqb_spec a (length h)); [lia|auto]. }
      cbv beta iota zeta. rewrite EC.
      assert (Ll' : length l' = n).
      { unfold l'. destruct keep; auto. rewrite app_length, firstn_length, skipn_length. lia. }
      unfold safeDeallocate. destruct (Nat.eqb_spec (m_size s) 0); [lia|]. unfold free.
      rewrite block_app. destruct (Nat.eqb_spec a (length h)); [lia|]. rewrite B.
      set (h' := upd (h ++ [Some l']) a None).
      set (s' := {| m_begin := Some (length h); m_size := n; m_owns := m_owns s |}).
      assert (BX : forall x, block h' x = if a =? x then None else if x =? length h then Some l' else block h x).
      { intros x. unfold h'. rewrite block_upd by (rewrite app_length; cbn; lia). rewrite block_app. auto. }
      assert (R : replaces h s h' s' l' True).
      { split.
        { unfold wf_storage. cbn [s' m_begin m_size]. exists l'. rewrite BX.
          destruct (Nat.eqb_spec a (length h)); [lia|]. rewrite Nat.eqb_refl. split; [auto|split; [auto|lia]]. }
        split.
        { unfold content. cbn [s' m_begin]. rewrite BX. destruct (Nat.eqb_spec a (length h)); [lia|].
          rewrite Nat.eqb_refl. auto. }
        split; [|split].
        - intros x b Bx NX. rewrite BX. destruct (Nat.eqb_spec a x); [congruence|].
          pose proof (block_lt _ _ _ Bx). destruct (Nat.eqb_spec x (length h)); [lia|auto].
        - intros x H. assert (x = length h) as -> by (cbn in H; congruence). right. apply block_fresh.
        - intros _ x b. rewrite BX. destruct (Nat.eqb_spec a x); [discriminate|].
          destruct (Nat.eqb_spec x (length h)); [left; cbn; congruence|]. intros Bx. right. split; congruence. }
      exists h', s'. exists (if keep then skipn (Nat.min (length l) n) jl else jl).
      split; [reflexivity|]. split; [auto|]. split; [auto|]. split; intros ->.
      * split; [rewrite skipn_length; lia|]. exact R.
      * split; auto.
  - (* no block *)
    assert (W' := W). unfold wf_storage in W'. rewrite Eb in W'.
    assert (C0 : content h s = []) by (unfold content; rewrite Eb; auto). rewrite C0 in *.
    destruct (Nat.eqb_spec n 0) as [->|N0]; [lia|].
    rewrite W'. cbn [Nat.min]. unfold fastCopy. cbn [Nat.eqb].
    set (jl := map (junk (length h)) (seq 0 n)).
    assert (Ljl : length jl = n) by (unfold jl; rewrite map_length, seq_length; auto).
    cbn [safeDeallocate].
    set (s' := {| m_begin := Some (length h); m_size := n; m_owns := m_owns s |}).
    assert (R : replaces h s (h ++ [Some jl]) s' jl True).
    { split.
      { unfold wf_storage. cbn [s' m_begin m_size]. exists jl. rewrite block_app, Nat.eqb_refl. split; [auto|split; [auto|lia]]. }
      split; [unfold content; cbn [s' m_begin]; rewrite block_app, Nat.eqb_refl; auto|].
      split; [|split].
      - intros x b Bx _. rewrite block_app. pose proof (block_lt _ _ _ Bx). destruct (Nat.eqb_spec x (length h)); [lia|auto].
      - intros x H. assert (x = length h) as -> by (cbn in H; congruence). right. apply block_fresh.
      - intros _ x b. rewrite block_app. destruct (Nat.eqb_spec x (length h)); [left; cbn; congruence|]. intros Bx. right.
        split; congruence. }
    exists (h ++ [Some jl]), s', jl. split; [destruct keep; reflexivity|]. split; [auto|].
    split; [intros Ha; destruct (OW Ha); [lia|auto]|].
    split; intros ->; split; cbn [length]; rewrite ?firstn_nil; auto; lia.
Qed.

Lemma copy_assign_ok asserts h s o : wf_storage h s -> wf_storage h o ->
  (forall a, m_begin s = Some a -> m_begin o = Some a -> False) ->
  m_size o <> 0 -> m_owns s = true ->
  exists h' s', copy_assign junk asserts h s o = (Ok tt, (h', s')) /\ m_owns s' = true /\
    replaces h s h' s' (content h o) True.
Proof.
  intros W WO ND NZ OW. pose proof (wf_content _ _ W) as L. pose proof (wf_content _ _ WO) as LO.
  unfold copy_assign. destruct (Nat.eqb_spec (m_size o) 0); [lia|].
  assert (WO' := WO). unfold wf_storage in WO'. destruct (m_begin o) as [b|] eqn:Eb; [|lia].
  destruct WO' as [lo [B [Ll Lp]]]. rewrite (wf_content_eq _ _ _ _ Eb B) in *.
  pose proof (block_lt _ _ _ B) as Lb.
  destruct (Nat.eqb_spec (m_size s) (m_size o)) as [ES|ES].
  - assert (W' := W). unfold wf_storage in W'. destruct (m_begin s) as [a|] eqn:Ea; [|lia].
    destruct W' as [l [Ba [La Lpa]]]. cbn [m_begin m_size]. pose proof (block_lt _ _ _ Ba) as Lta.
    assert (a <> b) by (intros ->; eapply ND; eauto).
    rewrite (fastCopy_ok asserts h a b (m_size o) l lo) by (auto; lia).
    rewrite firstn_all2, skipn_all2, app_nil_r by lia.
    eexists _, _. split; [reflexivity|]. split; [auto|].
    split.
    { unfold wf_storage. cbn [m_begin m_size]. exists lo. rewrite block_upd, Nat.eqb_refl by auto. auto. }
    split; [unfold content; cbn [m_begin]; rewrite block_upd, Nat.eqb_refl by auto; auto|].
    split; [|split].
    + intros x c Bx NX. rewrite block_upd by auto. destruct (Nat.eqb_spec a x); [subst; congruence|auto].
    + intros x H'. cbn in H'. left. congruence.
    + intros _ x c. rewrite block_upd by auto. destruct (Nat.eqb_spec a x); [subst; auto|]. intros Bx. right. split; congruence.
  - rewrite OW.
    set (h1 := match m_begin s with Some a => upd h a None | None => h end).
    assert (ED : safeDeallocate h (m_begin s) (m_size s) = Ok h1).
    { unfold safeDeallocate, h1, wf_storage in *. destruct (m_begin s) as [a|]; auto.
      destruct W as [l [Ba [La Lpa]]]. destruct (Nat.eqb_spec (m_size s) 0); [lia|]. unfold free. rewrite Ba. auto. }
    rewrite ED, safeAllocate_cases. destruct (Nat.eqb_spec (m_size o) 0); [lia|].
    assert (LH : length h1 = length h) by (unfold h1; destruct (m_begin s); rewrite ?upd_length; auto).
    assert (BH : forall x, block h1 x = match m_begin s with Some a => if a =? x then None else block h x | None => block h x end).
    { intros x. unfold h1, wf_storage in *. destruct (m_begin s) as [a|]; auto. destruct W as [l [Ba _]].
      apply block_upd. eapply block_lt; eauto. }
    assert (Bb : block h1 b = Some lo).
    { rewrite BH. destruct (m_begin s) as [a|] eqn:Ea; auto. destruct (Nat.eqb_spec a b); auto. subst. exfalso. eapply ND; eauto. }
    set (jl := map (junk (length h1)) (seq 0 (m_size o))).
    assert (Ljl : length jl = m_size o) by (unfold jl; rewrite map_length, seq_length; auto).
    cbn [m_begin m_size].
    rewrite (fastCopy_ok asserts _ (length h1) b (m_size o) jl lo); try lia.
    2:{ rewrite block_app, Nat.eqb_refl. auto. }
    2:{ rewrite block_app. destruct (Nat.eqb_spec b (length h1)); [lia|auto]. }
    rewrite firstn_all2, skipn_all2, app_nil_r by lia. rewrite upd_last.
    eexists _, _. split; [reflexivity|]. split; [auto|].
    split.
    { unfold wf_storage. cbn [m_begin m_size]. exists lo. rewrite block_app, Nat.eqb_refl. auto. }
    split; [unfold content; cbn [m_begin]; rewrite block_app, Nat.eqb_refl; auto|].
    split; [|split].
    + intros x c Bx NX. rewrite block_app. pose proof (block_lt _ _ _ Bx). destruct (Nat.eqb_spec x (length h1)); [lia|].
      rewrite BH. destruct (m_begin s) as [a|]; auto. destruct (Nat.eqb_spec a x); [subst; congruence|auto].
    + intros x H'. cbn in H'. right. inversion H'. rewrite LH. apply block_fresh.
    + intros _ x c. rewrite block_app. destruct (Nat.eqb_spec x (length h1)); [subst; auto|].
      rewrite BH. intros Bx. right. destruct (m_begin s) as [a|]; [|split; congruence].
      destruct (Nat.eqb_spec a x); [discriminate|]. split; congruence.
Qed.

(** ** One step *)

Lemma value_none st i : value_of st i = None -> st_obj st i = None.
Proof. unfold value_of. destruct (st_obj st i); [discriminate|auto]. Qed.
Lemma value_some st i : value_of st i <> None -> exists s, st_obj st i = Some s /\ value_of st i = Some (content (st_heap st) s).
Proof. unfold value_of. destruct (st_obj st i) as [s|]; [eauto|]. intros H. exfalso. apply H. auto. Qed.

(** the result of a step on a safe state *)
Definition good asserts st c (r : outcome unit * state A) : Prop :=
  match r with
  | (UB, _) => False
  | (Throw _, st') => asserts = true /\ (forall x, value_of st' x = value_of st x) /\ Safe st' /\ (Tidy st -> Tidy st')
  | (Ok _, st') => (no_assign_from_empty st c -> spec_step (value_of st) c (value_of st')) /\ Safe st' /\
                   (Tidy st -> no_move_over asserts st c -> Tidy st')
  end.

Lemma build_new st i h' s' l : Safe st -> st_obj st i = None ->
  (forall a b, block (st_heap st) a = Some b -> block h' a = Some b) ->
  wf_storage h' s' -> content h' s' = l -> m_owns s' = true ->
  (forall a, m_begin s' = Some a -> block (st_heap st) a = None) ->
  (forall a b, block h' a = Some b -> m_begin s' = Some a \/ block (st_heap st) a <> None) ->
  let st' := {| st_heap := h'; st_obj := set_obj (st_obj st) i (Some s') |} in
  becomes (value_of st) i l (value_of st') /\ Safe st' /\ (Tidy st -> Tidy st').
Proof.
  intros HS Hi HB HW HC HO HF HT st'.
  destruct (replace_safe st h' i (Some s') HS) as [R1 [R2 R3]].
  - intros a b Bx _. eauto.
  - intros s0 E. inversion E; subst; auto.
  - intros a Ha. right. eauto.
  - split; [split|split].
    + unfold st'. rewrite R3. cbn. congruence.
    + intros x NE. apply R2; auto.
    + auto.
    + intros T. apply replace_tidy; auto.
      * intros a b Bx. destruct (HT a b Bx); [left; auto|right]. split; auto. unfold owned. rewrite Hi. auto.
      * intros s0 a E Ea. congruence.
Qed.

Lemma modify_old st i s h' s' l r : Safe st -> st_obj st i = Some s -> replaces (st_heap st) s h' s' l r ->
  let st' := {| st_heap := h'; st_obj := set_obj (st_obj st) i (Some s') |} in
  becomes (value_of st) i l (value_of st') /\ Safe st' /\
  (r -> m_owns s' = true \/ m_begin s' = None -> Tidy st -> Tidy st').
Proof.
  intros HS Hi [W [C [K1 [K2 K3]]]] st'.
  destruct (replace_safe st h' i (Some s') HS) as [R1 [R2 R3]].
  - intros a b Bx Ho. apply K1; auto. intros E. apply Ho. unfold owned. rewrite Hi. auto.
  - intros s0 E. inversion E; subst; auto.
  - intros a Ha. unfold owned. rewrite Hi. apply K2. auto.
  - split; [split|split].
    + unfold st'. rewrite R3. cbn. congruence.
    + intros x NE. apply R2; auto.
    + auto.
    + intros Hr Ho T. apply replace_tidy; auto.
      * intros a b Bx. destruct (K3 Hr a b Bx) as [|[X Y]]; [left; auto|right]. split; auto. unfold owned. rewrite Hi. auto.
      * intros s0 a E Ea. inversion E; subst. destruct Ho; congruence.
Qed.

Lemma safe_wf st i s : Safe st -> st_obj st i = Some s -> wf_storage (st_heap st) s.
Proof. intros [S1 _]. eauto. Qed.

Lemma same_state st i s : st_obj st i = Some s ->
  forall x, set_obj (st_obj st) i (Some s) x = st_obj st x.
Proof. intros H x. unfold set_obj. destruct (Nat.eqb_spec x i); congruence. Qed.

Lemma Safe_ext st st' : st_heap st' = st_heap st -> (forall x, st_obj st' x = st_obj st x) -> Safe st -> Safe st'.
Proof.
  intros H1 H2 [S1 S2]. split.
  - intros i s. rewrite H1, H2. eauto.
  - intros i j s t a. rewrite !H2. eauto.
Qed.
Lemma Tidy_ext st st' : st_heap st' = st_heap st -> (forall x, st_obj st' x = st_obj st x) -> Tidy st -> Tidy st'.
Proof.
  intros H1 H2 [S1 S2]. split.
  - intros i s a. rewrite H2. eauto.
  - intros a l. rewrite H1. intros H. destruct (S2 a l H) as [i [s [X Y]]]. exists i, s. rewrite H2. auto.
Qed.
Lemma value_ext st st' : st_heap st' = st_heap st -> (forall x, st_obj st' x = st_obj st x) ->
  forall x, value_of st' x = value_of st x.
Proof. intros H1 H2 x. unfold value_of. rewrite H1, H2. auto. Qed.

Lemma step_good asserts st c : Safe st -> allowed asserts st c -> good asserts st c (step junk asserts st c).
Proof.
  intros HS [WF [IX NA]]. destruct c as [i|i n|i n x|i l|i j|i j|i j|i j|i j|i n|i n|i k x|i k|i];
    cbn [well_formed indexed no_assign_to_moved] in *; unfold step.
  - (* default *)
    cbn [build good]. apply value_none in WF.
    destruct (build_new st i (st_heap st) {| m_begin := None; m_size := 0; m_owns := true |} [] HS WF) as [B [S T]];
      auto; try reflexivity.
    + intros a H; discriminate.
    + intros a b H. right. congruence.
  - (* size *)
    apply value_none in WF. rewrite safeAllocate_cases. destruct (Nat.eqb_spec n 0) as [->|N0]; cbn [build good].
    + destruct (build_new st i (st_heap st) {| m_begin := None; m_size := 0; m_owns := true |} [] HS WF) as [B [S T]];
        auto; try reflexivity.
      * intros a H; discriminate.
      * intros a b H. right. congruence.
      * split; [intros _; exists []; split; auto; exact B|]. auto.
    + set (jl := map (junk (length (st_heap st))) (seq 0 n)).
      destruct (build_new st i (st_heap st ++ [Some jl]) {| m_begin := Some (length (st_heap st)); m_size := n; m_owns := true |} jl HS WF) as [B [S T]]; auto.
      * intros a b Bx. rewrite block_app. pose proof (block_lt _ _ _ Bx). destruct (Nat.eqb_spec a (length (st_heap st))); [lia|auto].
      * exists jl. cbn [m_begin m_size]. rewrite block_app, Nat.eqb_refl. split; auto. unfold jl. rewrite map_length, seq_length. split; [auto|lia].
      * unfold content. cbn [m_begin]. rewrite block_app, Nat.eqb_refl. auto.
      * intros a H. cbn in H. inversion H. apply block_fresh.
      * intros a b. rewrite block_app. cbn [m_begin]. destruct (Nat.eqb_spec a (length (st_heap st))); [subst; auto|]. intros Bx. right. congruence.
      * split; [intros _; exists jl; split; [unfold jl; rewrite map_length, seq_length; auto|exact B]|]. auto.
  - (* fill *)
    apply value_none in WF. rewrite safeAllocate_cases. destruct (Nat.eqb_spec n 0) as [->|N0]; cbn [build good].
    + destruct (build_new st i (st_heap st) {| m_begin := None; m_size := 0; m_owns := true |} [] HS WF) as [B [S T]];
        auto; try reflexivity.
      * intros a H; discriminate.
      * intros a b H. right. congruence.
    + rewrite upd_last. set (jl := repeat x n).
      destruct (build_new st i (st_heap st ++ [Some jl]) {| m_begin := Some (length (st_heap st)); m_size := n; m_owns := true |} jl HS WF) as [B [S T]]; auto.
      * intros a b Bx. rewrite block_app. pose proof (block_lt _ _ _ Bx). destruct (Nat.eqb_spec a (length (st_heap st))); [lia|auto].
      * exists jl. cbn [m_begin m_size]. rewrite block_app, Nat.eqb_refl. split; auto. unfold jl. rewrite repeat_length. split; [auto|lia].
      * unfold content. cbn [m_begin]. rewrite block_app, Nat.eqb_refl. auto.
      * intros a H. cbn in H. inversion H. apply block_fresh.
      * intros a b. rewrite block_app. cbn [m_begin]. destruct (Nat.eqb_spec a (length (st_heap st))); [subst; auto|]. intros Bx. right. congruence.
  - (* list *)
    apply value_none in WF. rewrite safeAllocate_cases. destruct (Nat.eqb_spec (length l) 0) as [N0|N0]; cbn [build good].
    + destruct l; [|discriminate]. cbn [length].
      destruct (build_new st i (st_heap st) {| m_begin := None; m_size := 0; m_owns := true |} [] HS WF) as [B [S T]];
        auto; try reflexivity.
      * intros a H; discriminate.
      * intros a b H. right. congruence.
    + rewrite upd_last.
      destruct (build_new st i (st_heap st ++ [Some l]) {| m_begin := Some (length (st_heap st)); m_size := length l; m_owns := true |} l HS WF) as [B [S T]]; auto.
      * intros a b Bx. rewrite block_app. pose proof (block_lt _ _ _ Bx). destruct (Nat.eqb_spec a (length (st_heap st))); [lia|auto].
      * exists l. cbn [m_begin m_size]. rewrite block_app, Nat.eqb_refl. split; auto. split; [auto|lia].
      * unfold content. cbn [m_begin]. rewrite block_app, Nat.eqb_refl. auto.
      * intros a H. cbn in H. inversion H. apply block_fresh.
      * intros a b. rewrite block_app. cbn [m_begin]. destruct (Nat.eqb_spec a (length (st_heap st))); [subst; auto|]. intros Bx. right. congruence.
  - (* copy ctor *)
    destruct WF as [WF1 WF2]. apply value_none in WF1. apply value_some in WF2. destruct WF2 as [o [Ho Vo]]. rewrite Ho.
    pose proof (safe_wf _ _ _ HS Ho) as W. pose proof (wf_content _ _ W) as Lc.
    destruct (Nat.eqb_spec (m_size o) 0) as [Z|Z]; cbn [build good].
    + destruct (build_new st i (st_heap st) {| m_begin := None; m_size := 0; m_owns := true |} [] HS WF1) as [B [S T]];
        auto; try reflexivity.
      * intros a H; discriminate.
      * intros a b H. right. congruence.
      * split; auto. intros _. exists []. split; auto. rewrite Vo. f_equal. apply length_zero_iff_nil. lia.
    + unfold wf_storage in W. destruct (m_begin o) as [a0|] eqn:Ea; [|lia]. destruct W as [l [B0 [Ll Lp]]].
      rewrite (wf_content_eq _ _ _ _ Ea B0) in *. rewrite <- Ll. rewrite (initData_ok asserts _ _ _ B0) by lia. cbn [build good].
      destruct (build_new st i (st_heap st ++ [Some l]) {| m_begin := Some (length (st_heap st)); m_size := length l; m_owns := true |} l HS WF1) as [B [S T]]; auto.
      * intros a b Bx. rewrite block_app. pose proof (block_lt _ _ _ Bx). destruct (Nat.eqb_spec a (length (st_heap st))); [lia|auto].
      * exists l. cbn [m_begin m_size]. rewrite block_app, Nat.eqb_refl. split; auto. split; [auto|lia].
      * unfold content. cbn [m_begin]. rewrite block_app, Nat.eqb_refl. auto.
      * intros a H. cbn in H. inversion H. apply block_fresh.
      * intros a b. rewrite block_app. cbn [m_begin]. destruct (Nat.eqb_spec a (length (st_heap st))); [subst; auto|]. intros Bx. right. congruence.
      * split; [intros _; exists l; split; [congruence|exact B]|]. auto.
  - (* move ctor *)
    destruct WF as [WF1 WF2]. pose proof WF1 as Vi. apply value_none in WF1. apply value_some in WF2. destruct WF2 as [o [Ho Vo]]. rewrite Ho.
    assert (NE : i <> j) by congruence. cbn [good].
    destruct (move_safe st i j o HS NE Ho) as [S [V1 [V2 V3]]].
    split; [|split; auto].
    + intros _. exists (content (st_heap st) o). split; auto. split; [rewrite V1; auto|]. split; auto.
    + intros T _. apply move_tidy; auto. intros a. unfold owned. rewrite WF1. auto.
  - (* copy() *)
    destruct WF as [WF1 WF2]. apply value_none in WF1. apply value_some in WF2. destruct WF2 as [o [Ho Vo]]. rewrite Ho.
    pose proof (safe_wf _ _ _ HS Ho) as W. pose proof (wf_content _ _ W) as Lc.
    unfold wf_storage in W. destruct (m_begin o) as [a0|] eqn:Ea.
    + destruct W as [l [B0 [Ll Lp]]]. 
      rewrite (wf_content_eq _ _ _ _ Ea B0) in *. rewrite <- Ll. rewrite (initData_ok asserts _ _ _ B0) by lia. cbn [build good].
      destruct (build_new st i (st_heap st ++ [Some l]) {| m_begin := Some (length (st_heap st)); m_size := length l; m_owns := true |} l HS WF1) as [B [S T]]; auto.
      * intros a b Bx. rewrite block_app. pose proof (block_lt _ _ _ Bx). destruct (Nat.eqb_spec a (length (st_heap st))); [lia|auto].
      * exists l. cbn [m_begin m_size]. rewrite block_app, Nat.eqb_refl. split; auto. split; [auto|lia].
      * unfold content. cbn [m_begin]. rewrite block_app, Nat.eqb_refl. auto.
      * intros a H. cbn in H. inversion H. apply block_fresh.
      * intros a b. rewrite block_app. cbn [m_begin]. destruct (Nat.eqb_spec a (length (st_heap st))); [subst; auto|]. intros Bx. right. congruence.
      * split; [intros _; exists l; split; [congruence|exact B]|]. auto.
    + cbn [initData build good].
      destruct (build_new st i (st_heap st) {| m_begin := None; m_size := 0; m_owns := true |} [] HS WF1) as [B [S T]];
        auto; try reflexivity.
      * intros a H; discriminate.
      * intros a b H. right. congruence.
      * split; auto. intros _. exists []. split; auto. rewrite Vo. f_equal. apply length_zero_iff_nil. lia.
  - (* copy assignment *)
    destruct WF as [WF1 WF2]. apply value_some in WF1, WF2. destruct WF1 as [s [Hs Vs]], WF2 as [o [Ho Vo]]. rewrite Hs, Ho.
    pose proof (safe_wf _ _ _ HS Hs) as W. pose proof (safe_wf _ _ _ HS Ho) as WO.
    pose proof (wf_content _ _ W) as Lc. pose proof (wf_content _ _ WO) as LcO.
    destruct (Nat.eqb_spec i j) as [->|NE]; cbn [good].
    { split; [|split; auto]. intros _. exists (content (st_heap st) o). split; auto. split; auto. }
    destruct (Nat.eq_dec (m_size o) 0) as [Z|NZ].
    { unfold copy_assign. rewrite (proj2 (Nat.eqb_eq _ _) Z). unfold modify. cbn [fst snd good].
      assert (EV := value_ext st {| st_heap := st_heap st; st_obj := set_obj (st_obj st) i (Some s) |} eq_refl (same_state st i s Hs)).
      split; [|split].
      - cbn [no_assign_from_empty]. intros HE. assert (content (st_heap st) o = []) by (apply length_zero_iff_nil; lia).
        exists []. split; [congruence|]. split.
        + rewrite EV. apply HE. congruence.
        + intros x _. apply EV.
      - eapply Safe_ext; [..|exact HS]; [reflexivity|]. apply same_state; auto.
      - intros T _. eapply Tidy_ext; [..|exact T]; [reflexivity|]. apply same_state; auto. }
    assert (OW : m_owns s = true).
    { destruct NA as [|[E|[s0 [E1 E2]]]]; [congruence| |congruence].
      rewrite Vo in E. inversion E as [E']. rewrite E' in LcO. cbn in LcO. lia. }
    destruct (copy_assign_ok asserts (st_heap st) s o W WO) as [h' [s' [E [O R]]]]; auto.
    { intros a E1 E2. apply NE. destruct HS as [_ S2]. eapply S2; eauto. }
    rewrite E. unfold modify. cbn [fst snd good]. destruct (modify_old _ _ _ _ _ _ _ HS Hs R) as [B [S T]].
    split; [|split; auto]. intros _. exists (content (st_heap st) o). split; auto.
  - (* move assignment *)
    destruct WF as [WF1 WF2]. apply value_some in WF1, WF2. destruct WF1 as [s [Hs Vs]], WF2 as [o [Ho Vo]]. rewrite Hs, Ho.
    destruct (Nat.eqb_spec i j) as [->|NE]; cbn [good].
    { split; [|split; auto]. intros _. exists (content (st_heap st) o). split; auto. split; [congruence|]. split; [congruence|auto]. }
    destruct (move_safe st i j o HS NE Ho) as [S [V1 [V2 V3]]].
    split; [|split; auto].
    + intros _. exists (content (st_heap st) o). split; auto. split; [rewrite V1; auto|]. split; auto.
    + intros T NM. apply move_tidy; auto. cbn [no_move_over] in NM. destruct NM as [|NM]; [congruence|].
      intros a Ha. unfold owned in Ha. rewrite Hs in Ha.
      pose proof (safe_wf _ _ _ HS Hs) as W. unfold wf_storage in W. rewrite Ha in W. destruct W as [l [B0 [Ll Lp]]].
      rewrite Vs in NM. rewrite (wf_content_eq _ _ _ _ Ha B0) in NM. inversion NM; subst. cbn in Ll. lia.
  - (* resize *)
    apply value_some in WF. destruct WF as [s [Hs Vs]]. rewrite Hs.
    pose proof (safe_wf _ _ _ HS Hs) as W.
    destruct (resize_ok asserts true (st_heap st) s n W) as [[e [E [Ea _]]]|[h' [s' [e [E [O [OA [R _]]]]]]]].
    + rewrite E. unfold modify. cbn [fst snd good]. split; auto. split.
      * apply value_ext; [reflexivity|]. apply same_state; auto.
      * split; [eapply Safe_ext; [..|exact HS]|intros T; eapply Tidy_ext; [..|exact T]]; try reflexivity; apply same_state; auto.
    + rewrite E. unfold modify. cbn [fst snd good]. destruct (R eq_refl) as [Le R'].
      destruct (modify_old _ _ _ _ _ _ _ HS Hs R') as [B [S T]]. split; [|split; auto].
      * intros _. exists (content (st_heap st) s), e. split; auto.
      * intros HT NM. apply T; auto. cbn [no_move_over] in NM.
        destruct R' as [W' _].
        destruct NM as [->|[s0 [X Y]]]; [|left; congruence].
        destruct (OA eq_refl) as [EQ|]; [|left; congruence].
        destruct (m_begin s) as [a|] eqn:Eb; [destruct HT as [T1 _]; left; rewrite O; eapply T1; eauto|].
        unfold wf_storage in W, W'. rewrite Eb in W. right.
        destruct (m_begin s') as [a|] eqn:Eb'; auto. exfalso.
        assert (E2 := E). unfold do_resize in E2. rewrite EQ, W in E2. cbn in E2. congruence.
  - (* resize discard *)
    apply value_some in WF. destruct WF as [s [Hs Vs]]. rewrite Hs.
    pose proof (safe_wf _ _ _ HS Hs) as W.
    destruct (resize_ok asserts false (st_heap st) s n W) as [[e [E [Ea _]]]|[h' [s' [e [E [O [OA [_ R]]]]]]]].
    + rewrite E. unfold modify. cbn [fst snd good]. split; auto. split.
      * apply value_ext; [reflexivity|]. apply same_state; auto.
      * split; [eapply Safe_ext; [..|exact HS]|intros T; eapply Tidy_ext; [..|exact T]]; try reflexivity; apply same_state; auto.
    + rewrite E. unfold modify. cbn [fst snd good]. destruct (R eq_refl) as [Le R'].
      destruct (modify_old _ _ _ _ _ _ _ HS Hs R') as [B [S T]]. split; [|split; auto].
      * intros _. exists e. split; auto.
      * intros HT NM. apply T; auto. cbn [no_move_over] in NM.
        destruct NM as [->|[s0 [X Y]]]; [|left; congruence].
        destruct (OA eq_refl) as [EQ|]; [|left; congruence].
        destruct (m_begin s) as [a|] eqn:Eb; [destruct HT as [T1 _]; left; rewrite O; eapply T1; eauto|].
        unfold wf_storage in W. rewrite Eb in W. right.
        destruct (m_begin s') as [a|] eqn:Eb'; auto. exfalso.
        assert (E2 := E). unfold do_resize in E2. rewrite EQ, W in E2. cbn in E2. congruence.
  - (* set *)
    apply value_some in WF. destruct WF as [s [Hs Vs]]. rewrite Hs.
    pose proof (safe_wf _ _ _ HS Hs) as W. rewrite Vs in IX.
    destruct (write_ok asserts (st_heap st) s k x W) as [[Hk [a [Ea E]]]|[Hk E]].
    { destruct IX as [|[l [X Y]]]; auto. right. congruence. }
    + rewrite E. cbn [good].
      assert (W' := W). unfold wf_storage in W'. rewrite Ea in W'. destruct W' as [l [B0 [Ll Lp]]].
      rewrite (wf_content_eq _ _ _ _ Ea B0) in *. pose proof (block_lt _ _ _ B0) as La.
      set (h' := upd (st_heap st) a (Some (upd l k x))).
      assert (BX : forall y, block h' y = if a =? y then Some (upd l k x) else block (st_heap st) y).
      { intros y. unfold h'. apply block_upd. auto. }
      assert (R : replaces (st_heap st) s h' s (upd l k x) True).
      { split. { unfold wf_storage. rewrite Ea. exists (upd l k x). rewrite BX, Nat.eqb_refl, upd_length. auto. }
        split. { unfold content. rewrite Ea, BX, Nat.eqb_refl. auto. }
        split; [|split].
        - intros y b By Ny. rewrite BX. destruct (Nat.eqb_spec a y); [congruence|auto].
        - auto.
        - intros _ y b. rewrite BX. destruct (Nat.eqb_spec a y); [subst; auto|]. intros By. right. split; congruence. }
      destruct (modify_old _ _ _ _ _ _ _ HS Hs R) as [B [S T]].
      set (st2 := {| st_heap := h'; st_obj := set_obj (st_obj st) i (Some s) |}) in *.
      assert (EV : forall y, value_of {| st_heap := h'; st_obj := st_obj st |} y = value_of st2 y).
      { intros y. unfold value_of. cbn [st_heap st_obj st2]. rewrite same_state by auto. auto. }
      split; [|split].
      * intros _. exists l. split; [congruence|]. split; auto. destruct B as [B1 B2]. split; [rewrite EV; auto|].
        intros y Hy. rewrite EV. auto.
      * eapply Safe_ext; [..|exact S]; [reflexivity|]. intros y. cbn [st_obj st2]. rewrite same_state; auto.
      * intros HT _. eapply Tidy_ext; [| |apply T; auto]; [reflexivity| |].
        -- intros y. cbn [st_obj st2]. rewrite same_state; auto.
        -- left. destruct HT as [T1 _]. eapply T1; eauto.
    + rewrite E. cbn [good]. split; [|auto]. destruct IX as [|[l [X Y]]]; auto. inversion X; subst. lia.
  - (* get *)
    apply value_some in WF. destruct WF as [s [Hs Vs]]. rewrite Hs.
    pose proof (safe_wf _ _ _ HS Hs) as W. rewrite Vs in IX.
    destruct (read_ok asserts (st_heap st) s k W) as [[Hk [y [E _]]]|[Hk E]].
    { destruct IX as [|[l [X Y]]]; auto. right. congruence. }
    + rewrite E. cbn [good]. split; [|auto]. intros _. split; auto. eexists. split; eauto.
    + rewrite E. cbn [good]. split; [|auto]. destruct IX as [|[l [X Y]]]; auto. inversion X; subst. lia.
  - (* destroy *)
    apply value_some in WF. destruct WF as [s [Hs Vs]]. rewrite Hs.
    pose proof (safe_wf _ _ _ HS Hs) as W.
    set (h' := if m_owns s then match m_begin s with Some a => upd (st_heap st) a None | None => st_heap st end else st_heap st).
    assert (E : (if m_owns s then safeDeallocate (st_heap st) (m_begin s) (m_size s) else Ok (st_heap st)) = Ok h').
    { unfold h', wf_storage, safeDeallocate in *. destruct (m_owns s); auto. destruct (m_begin s); auto.
      destruct W as [l [B0 [Ll Lp]]]. destruct (Nat.eqb_spec (m_size s) 0); [lia|]. unfold free. rewrite B0. auto. }
    rewrite E. cbn [good].
    assert (BX : forall y, block h' y = if m_owns s then match m_begin s with Some a => if a =? y then None else block (st_heap st) y | None => block (st_heap st) y end else block (st_heap st) y).
    { intros y. unfold h', wf_storage in *. destruct (m_owns s); auto. destruct (m_begin s); auto. destruct W as [l [B0 _]].
      apply block_upd. eapply block_lt; eauto. }
    destruct (replace_safe st h' i None HS) as [R1 [R2 R3]].
    + intros a l Ba Ho. rewrite BX. destruct (m_owns s); auto. destruct (m_begin s) as [b|] eqn:Eb; auto.
      destruct (Nat.eqb_spec b a); auto. subst. exfalso. apply Ho. unfold owned. rewrite Hs. auto.
    + intros s' H. discriminate.
    + intros a [].
    + split; [|split; auto].
      * intros _. split; [rewrite R3; reflexivity|]. intros x Hx. apply R2; auto.
      * intros HT _. apply replace_tidy; auto.
        -- intros a l. rewrite BX. intros Ba. right. destruct HT as [T1 T2]. unfold owned. rewrite Hs.
           destruct (m_begin s) as [b|] eqn:Eb.
           ++ rewrite (T1 i s b Hs Eb) in Ba. destruct (Nat.eqb_spec b a); [discriminate|]. split; congruence.
           ++ destruct (m_owns s); split; congruence.
        -- intros s' a H. discriminate.
Qed.

(** ** Histories *)
Lemma init_safe : Safe init /\ Tidy init.
Proof.
  split; split; cbn; intros; try discriminate. unfold block in H. destruct a; discriminate.
Qed.


Lemma run_safe asserts : forall cs st, Safe st -> along junk asserts (allowed asserts) st cs ->
  exists st', run junk asserts st cs = Some st' /\ Safe st'.
Proof.
  induction cs as [|c cs IH]; intros st HS HA; cbn [run along] in *; [eauto|].
  destruct HA as [H1 H2]. pose proof (step_good asserts st c HS H1) as G.
  destruct (step junk asserts st c) as [o st']. destruct o; cbn [good] in G.
  - apply IH; tauto.
  - apply IH; tauto.
  - contradiction.
Qed.
Lemma run_tidy asserts : forall cs st, Safe st -> Tidy st -> along junk asserts (leakfree asserts) st cs ->
  exists st', run junk asserts st cs = Some st' /\ Safe st' /\ Tidy st'.
Proof.
  induction cs as [|c cs IH]; intros st HS HT HA; cbn [run along] in *; [eauto|].
  destruct HA as [[H1 H1'] H2]. pose proof (step_good asserts st c HS H1) as G.
  destruct (step junk asserts st c) as [o st']. destruct o; cbn [good] in G.
  - destruct G as [_ [G1 G2]]. apply IH; auto.
  - destruct G as [_ [_ [G1 G2]]]. apply IH; auto.
  - contradiction.
Qed.

Theorem histories_safe asserts cs : along junk asserts (allowed asserts) init cs ->
  exists st, run junk asserts init cs = Some st.
Proof. intros H. destruct (run_safe asserts cs init (proj1 init_safe) H) as [st [E _]]. eauto. Qed.
Theorem histories_leak_free asserts cs : along junk asserts (leakfree asserts) init cs ->
  exists st, run junk asserts init cs = Some st /\ (no_objects st -> no_blocks st).
Proof.
  intros H. destruct (run_tidy asserts cs init (proj1 init_safe) (proj2 init_safe) H) as [st [E [_ [_ T2]]]].
  exists st. split; auto. intros NO a. destruct (block (st_heap st) a) as [l|] eqn:B; auto.
  destruct (T2 a l B) as [i [s [Hs _]]]. rewrite NO in Hs. discriminate.
Qed.

(** value semantics of any command at the end of any history *)
Theorem histories_values asserts cs c st : along junk asserts (allowed asserts) init cs ->
  run junk asserts init cs = Some st -> allowed asserts st c -> no_assign_from_empty st c ->
  match step junk asserts st c with
  | (Ok _, st') => spec_step (value_of st) c (value_of st')
  | (Throw _, st') => asserts = true /\ forall i, value_of st' i = value_of st i
  | (UB, _) => False
  end.
Proof.
  intros H E HA HN. destruct (run_safe asserts cs init (proj1 init_safe) H) as [st0 [E0 HS]].
  assert (st0 = st) by congruence. subst st0.
  pose proof (step_good asserts st c HS HA) as G. destruct (step junk asserts st c) as [o st']. destruct o; cbn [good] in G; tauto.
Qed.
(** reading *)
Theorem histories_read asserts cs st i k s : along junk asserts (allowed asserts) init cs ->
  run junk asserts init cs = Some st -> st_obj st i = Some s ->
  forall l, value_of st i = Some l -> k < length l ->
  exists x, nth_error l k = Some x /\ read asserts (st_heap st) s k = Ok x.
Proof.
  intros H E Hs l Hl Hk. destruct (run_safe asserts cs init (proj1 init_safe) H) as [st0 [E0 HS]].
  assert (st0 = st) by congruence. subst st0. unfold value_of in Hl. rewrite Hs in Hl. cbn in Hl. inversion Hl; subst.
  destruct (read_ok asserts (st_heap st) s k (safe_wf _ _ _ HS Hs)) as [[_ [x [X Y]]]|[X _]]; [auto| |lia]. eauto.
Qed.

(** ** Where it goes wrong *)
(** move assignment drops the old block *)
Theorem move_assign_leaks asserts st i j s o a : Safe st -> i <> j ->
  st_obj st i = Some s -> st_obj st j = Some o -> m_begin s = Some a ->
  forall st', step junk asserts st (CMoveAssign i j) = (Ok tt, st') ->
  block (st_heap st') a <> None /\ forall x t, st_obj st' x = Some t -> m_begin t <> Some a.
Proof.
  intros HS NE Hi Hj Ha st'. unfold step. rewrite Hi, Hj. destruct (Nat.eqb_spec i j); [congruence|].
  intros E. inversion E; subst; clear E. cbn [st_heap st_obj]. destruct HS as [S1 S2]. split.
  - pose proof (S1 i s Hi) as W. unfold wf_storage in W. rewrite Ha in W. destruct W as [l [B _]]. congruence.
  - intros x t. unfold set_obj. destruct (Nat.eqb_spec x j).
    + intros H. inversion H. discriminate.
    + destruct (Nat.eqb_spec x i).
      * intros H. inversion H; subst. intros C. apply NE. eapply S2; eauto.
      * intros H C. subst. apply n1. eapply (S2 x i); eauto.
Qed.
(** copy assignment to a moved-from storage *)
Theorem assign_to_moved (asserts : bool) st i j o : i <> j -> st_obj st i = Some moved_from -> st_obj st j = Some o ->
  m_size o <> 0 ->
  if asserts then
    exists st', step junk true st (CAssign i j) = (Throw RuntimeError, st') /\
      fst (step junk true st' (CGet i 0)) = UB
  else fst (step junk false st (CAssign i j)) = UB.
Proof.
  intros NE Hi Hj Hz. unfold step. rewrite Hi, Hj. destruct (Nat.eqb_spec i j); [congruence|].
  unfold copy_assign. destruct (Nat.eqb_spec (m_size o) 0); [lia|]. cbn [moved_from m_size m_owns m_begin].
  destruct (Nat.eqb_spec 0 (m_size o)); [lia|]. destruct asserts.
  - eexists. split; [reflexivity|]. unfold modify. cbn [fst snd st_obj st_heap]. rewrite set_obj_same.
    unfold read. cbn [m_size m_begin]. replace (0 <? m_size o) with true by lia. reflexivity.
  - unfold modify, fastCopy. cbn [fst snd m_size m_begin]. destruct (Nat.eqb_spec (m_size o) 0); [lia|]. reflexivity.
Qed.
(** copy assignment from an empty storage does nothing *)
Theorem assign_from_empty asserts st i j s o : st_obj st i = Some s -> st_obj st j = Some o -> m_size o = 0 ->
  exists st', step junk asserts st (CAssign i j) = (Ok tt, st') /\ forall x, value_of st' x = value_of st x.
Proof.
  intros Hi Hj Z. unfold step. rewrite Hi, Hj. destruct (Nat.eqb_spec i j) as [->|NE]; [eauto|].
  unfold copy_assign. rewrite Z. cbn [Nat.eqb]. unfold modify. cbn [fst snd]. eexists. split; [reflexivity|].
  apply value_ext; [reflexivity|]. apply same_state; auto.
Qed.

(** a command changes only the objects it acts on *)
Lemma value_dec (v : option (list A)) : {v = Some []} + {v <> Some []}.
Proof. destruct v as [[|x l]|]; [left; auto|right; discriminate|right; discriminate]. Qed.
Lemma step_frame asserts st c st' : Safe st -> allowed asserts st c -> step junk asserts st c = (Ok tt, st') ->
  forall x, ~ In x (touched c) -> value_of st' x = value_of st x.
Proof.
  intros HS HA E x NX. pose proof (step_good asserts st c HS HA) as G. rewrite E in G. cbn [good] in G. destruct G as [G _].
  destruct c as [i|i n|i n y|i l|i j|i j|i j|i j|i j|i n|i n|i k y|i k|i]; cbn [touched no_assign_from_empty spec_step In] in *;
    try (specialize (G I)).
  - destruct G as [_ G]. apply G. intuition congruence.
  - destruct G as [l [_ [_ G]]]. apply G. intuition congruence.
  - destruct G as [_ G]. apply G. intuition congruence.
  - destruct G as [_ G]. apply G. intuition congruence.
  - destruct G as [l [_ [_ G]]]. apply G. intuition congruence.
  - destruct G as [l [_ [_ [_ G]]]]. apply G; intuition congruence.
  - destruct G as [l [_ [_ G]]]. apply G. intuition congruence.
  - destruct (value_dec (value_of st j)) as [Ej|Ej].
    + destruct HA as [[W1 W2] _]. apply value_some in W1, W2. destruct W1 as [s [Hs _]], W2 as [o [Ho Vo]].
      destruct (assign_from_empty asserts st i j s o Hs Ho) as [st2 [E2 V2]].
      { rewrite <- (wf_content _ _ (safe_wf _ _ _ HS Ho)). rewrite Vo in Ej. inversion Ej as [E']. rewrite E'. auto. }
      rewrite E in E2. inversion E2; subst. apply V2.
    + destruct G as [l [_ [_ G]]]; [congruence|]. apply G. intuition congruence.
  - destruct G as [l [_ [_ [_ G]]]]. apply G; intuition congruence.
  - destruct G as [l [e [_ [_ [_ G]]]]]. apply G. intuition congruence.
  - destruct G as [l [_ [_ G]]]. apply G. intuition congruence.
  - destruct G as [l [_ [_ [_ G]]]]. apply G. intuition congruence.
  - destruct G as [_ G]. apply G.
  - destruct G as [_ G]. apply G. intuition congruence.
Qed.
Lemma run_frame asserts x : forall cs st, Safe st ->
  along junk asserts (fun s c => allowed asserts s c /\ ~ In x (touched c)) st cs ->
  exists st', run junk asserts st cs = Some st' /\ value_of st' x = value_of st x.
Proof.
  induction cs as [|c cs IH]; intros st HS HA; cbn [run along] in *; [eauto|].
  destruct HA as [[H1 H2] H3]. pose proof (step_good asserts st c HS H1) as G.
  destruct (step junk asserts st c) as [o st'] eqn:E. destruct o as [[]|e|]; cbn [good] in G.
  - destruct G as [_ [G1 _]]. destruct (IH st' G1 H3) as [st2 [E2 V2]]. exists st2. split; auto.
    rewrite V2. eapply step_frame; eauto.
  - destruct G as [_ [G0 [G1 _]]]. destruct (IH st' G1 H3) as [st2 [E2 V2]]. exists st2. split; auto.
    rewrite V2. auto.
  - contradiction.
Qed.
Theorem histories_frame asserts cs cs' x st : along junk asserts (allowed asserts) init cs ->
  run junk asserts init cs = Some st ->
  along junk asserts (fun s c => allowed asserts s c /\ ~ In x (touched c)) st cs' ->
  exists st', run junk asserts st cs' = Some st' /\ value_of st' x = value_of st x.
Proof.
  intros H E HA. destruct (run_safe asserts cs init (proj1 init_safe) H) as [st0 [E0 HS]].
  assert (st0 = st) by congruence. subst st0. apply run_frame; auto.
Qed.
(** the leak, reachable: any history that ends in a move assignment over a non-empty storage *)
Theorem histories_leak asserts cs st i j s o a : along junk asserts (allowed asserts) init cs ->
  run junk asserts init cs = Some st -> i <> j -> st_obj st i = Some s -> st_obj st j = Some o -> m_begin s = Some a ->
  exists st', step junk asserts st (CMoveAssign i j) = (Ok tt, st') /\
    block (st_heap st') a <> None /\ forall x t, st_obj st' x = Some t -> m_begin t <> Some a.
Proof.
  intros H E NE Hi Hj Ha. destruct (run_safe asserts cs init (proj1 init_safe) H) as [st0 [E0 HS]].
  assert (st0 = st) by congruence. subst st0.
  eexists. assert (X : step junk asserts st (CMoveAssign i j) = (Ok tt, {| st_heap := st_heap st; st_obj := set_obj (set_obj (st_obj st) i (Some o)) j (Some moved_from) |})).
  { unfold step. rewrite Hi, Hj. destruct (Nat.eqb_spec i j); [congruence|auto]. }
  split; [exact X|]. eapply (move_assign_leaks asserts st i j s o a); eauto.
Qed.
(** refusing to resize *)
Theorem resize_refused asserts st i s n keep : asserts = true -> st_obj st i = Some s -> m_owns s = false -> n <> m_size s ->
  exists e st', step junk asserts st (if keep : bool then CResize i n else CResizeDiscard i n) = (Throw e, st') /\
    forall x, value_of st' x = value_of st x.
Proof.
  intros -> Hi Ho Hn. exists RuntimeError.
  assert (E : do_resize junk true keep (st_heap st) s n = (Throw RuntimeError, (st_heap st, s))).
  { unfold do_resize. cbn [andb]. destruct (n =? 0); auto. destruct (Nat.eqb_spec n (m_size s)); [congruence|]. rewrite Ho. auto. }
  eexists. split.
  - destruct keep; cbn [step]; rewrite Hi, E; reflexivity.
  - cbn [fst snd]. apply value_ext; [reflexivity|]. apply same_state; auto.
Qed.
End P.

Section B.
Context {A : Type}.
(** ** BitSets *)
Definition BSafe (st : bstate A) : Prop :=
  (forall i a, b_obj st i = Some a -> block (b_heap st) a <> None) /\
  (forall i j a, b_obj st i = Some a -> b_obj st j = Some a -> i = j) /\
  (forall a l, block (b_heap st) a = Some l -> exists i, b_obj st i = Some a).

Lemma bset_same f i o : bset f i o i = o.
Proof. unfold bset. rewrite Nat.eqb_refl. auto. Qed.
Lemma bset_other f i o x : x <> i -> bset f i o x = f x.
Proof. unfold bset. destruct (Nat.eqb_spec x i); congruence. Qed.

Lemma bnew_good (st : bstate A) i l : BSafe st -> b_obj st i = None ->
  let st' := {| b_heap := b_heap st ++ [Some l]; b_obj := bset (b_obj st) i (Some (length (b_heap st))) |} in
  becomes (bvalue st) i l (bvalue st') /\ BSafe st'.
Proof.
  intros [S1 [S2 S3]] Hi st'. split; [split|split; [|split]]; subst st'; unfold bvalue; cbn [b_obj b_heap].
  - rewrite bset_same, block_app, Nat.eqb_refl. auto.
  - intros x NE. rewrite bset_other by auto. destruct (b_obj st x) as [a|] eqn:E; auto.
    rewrite block_app. destruct (Nat.eqb_spec a (length (b_heap st))); auto. subst.
    exfalso. apply (S1 x _ E). apply block_fresh.
  - intros x a. unfold bset. rewrite block_app. destruct (Nat.eqb_spec x i).
    + intros E. inversion E. rewrite Nat.eqb_refl. discriminate.
    + intros E. destruct (a =? length (b_heap st)); [discriminate|eauto].
  - intros x y a. unfold bset. destruct (Nat.eqb_spec x i), (Nat.eqb_spec y i); intros E1 E2; subst; auto.
    + inversion E1; subst. exfalso. apply (S1 y _ E2). apply block_fresh.
    + inversion E2; subst. exfalso. apply (S1 x _ E1). apply block_fresh.
    + eauto.
  - intros a b. rewrite block_app. destruct (Nat.eqb_spec a (length (b_heap st))).
    + intros _. exists i. rewrite bset_same. congruence.
    + intros B. destruct (S3 a b B) as [x Hx]. exists x. rewrite bset_other; auto. congruence.
Qed.

Lemma bvalue_some (st : bstate A) i : BSafe st -> bvalue st i <> None -> exists a l, b_obj st i = Some a /\ block (b_heap st) a = Some l /\ bvalue st i = Some l.
Proof.
  unfold bvalue. intros _. destruct (b_obj st i) as [a|]; [|congruence]. destruct (block (b_heap st) a) eqn:E; [eauto|congruence].
Qed.
Lemma bvalue_none (st : bstate A) i : BSafe st -> bvalue st i = None -> b_obj st i = None.
Proof.
  unfold bvalue. intros [S1 _]. destruct (b_obj st i) as [a|] eqn:E; auto. intros B. exfalso. eapply S1; eauto.
Qed.

Lemma bstep_good (st : bstate A) c : BSafe st -> ballowed st c ->
  exists st', bstep st c = Ok st' /\ BSafe st' /\ bspec_step (bvalue st) c (bvalue st').
Proof.
  intros HS [WF DP]. pose proof HS as [S1 [S2 S3]].
  assert (SELF : forall i, bvalue st i <> None -> exists st', 
    match b_obj st i, b_obj st i with
    | Some _, Some a => Ok {| b_heap := b_heap st; b_obj := bset (b_obj st) i (Some a) |}
    | _, _ => UB end = Ok st' /\ BSafe st' /\ exists l, bvalue st i = Some l /\ becomes (bvalue st) i l (bvalue st')).
  { intros i Hi. destruct (bvalue_some st i HS Hi) as [a [l [Ea [Eb Ev]]]]. rewrite Ea.
    eexists. split; [reflexivity|].
    assert (EX : forall x, bset (b_obj st) i (Some a) x = b_obj st x).
    { intros x. unfold bset. destruct (Nat.eqb_spec x i); congruence. }
    split; [split; [|split]|]; cbn [b_heap b_obj].
    - intros x b. rewrite EX. eauto.
    - intros x y b. rewrite !EX. eauto.
    - intros b m Hb. destruct (S3 b m Hb) as [x Hx]. exists x. rewrite EX. auto.
    - exists l. split; auto. split; unfold bvalue; cbn [b_heap b_obj].
      + rewrite EX, Ea, Eb. auto.
      + intros x _. rewrite EX. auto. }
  destruct c as [i l|i j|i j|i j|i j|i k x|i]; cbn [bwell_formed bdeep bstep bspec_step] in *; try contradiction.
  - apply bvalue_none in WF; auto. unfold alloc. destruct (bnew_good st i l HS WF) as [B S]. eexists. split; [reflexivity|]. auto.
  - destruct WF as [W1 W2]. apply bvalue_none in W1; auto. destruct (bvalue_some st j HS W2) as [a [l [Ea [Eb Ev]]]].
    rewrite Ea, Eb. unfold alloc. destruct (bnew_good st i l HS W1) as [B S]. eexists. split; [reflexivity|]. split; eauto.
  - subst j. destruct WF. apply SELF; auto.
  - subst j. destruct WF. apply SELF; auto.
  - destruct WF as [l0 [Ev0 Hk]]. destruct (bvalue_some st i HS ltac:(congruence)) as [a [l [Ea [Eb Ev]]]].
    assert (l0 = l) by congruence. subst l0.
    rewrite Ea, Eb. rewrite wr_Ok by auto. cbn [bind]. pose proof (block_lt _ _ _ Eb) as La.
    eexists. split; [reflexivity|]. split; [split; [|split]|]; cbn [b_heap b_obj].
    + intros y b Hy. rewrite block_upd by auto. destruct (a =? b); [discriminate|eauto].
    + eauto.
    + intros b m. rewrite block_upd by auto. destruct (Nat.eqb_spec a b); [subst; eauto|eauto].
    + exists l. split; auto. split; unfold bvalue; cbn [b_heap b_obj].
      * rewrite Ea, block_upd, Nat.eqb_refl by auto. auto.
      * intros y Hy. destruct (b_obj st y) as [b|] eqn:E; auto. rewrite block_upd by auto.
        destruct (Nat.eqb_spec a b); auto. subst. exfalso. apply Hy. eauto.
  - destruct (bvalue_some st i HS WF) as [a [l [Ea [Eb Ev]]]]. rewrite Ea. unfold free. rewrite Eb. cbn [bind].
    pose proof (block_lt _ _ _ Eb) as La.
    eexists. split; [reflexivity|]. split; [split; [|split]|]; cbn [b_heap b_obj].
    + intros y b. unfold bset. destruct (Nat.eqb_spec y i); [discriminate|]. intros Hy. rewrite block_upd by auto.
      destruct (Nat.eqb_spec a b); eauto. subst. exfalso. eauto.
    + intros x y b. unfold bset. destruct (x =? i), (y =? i); try discriminate. eauto.
    + intros b m. rewrite block_upd by auto. destruct (Nat.eqb_spec a b); [discriminate|]. intros Hb.
      destruct (S3 b m Hb) as [x Hx]. exists x. rewrite bset_other; auto. congruence.
    + split; unfold bvalue; cbn [b_heap b_obj].
      * rewrite bset_same. auto.
      * intros y Hy. rewrite bset_other by auto. destruct (b_obj st y) as [b|] eqn:E; auto. rewrite block_upd by auto.
        destruct (Nat.eqb_spec a b); auto. subst. exfalso. apply Hy. eauto.
Qed.

Lemma brun_safe : forall cs (st : bstate A), BSafe st -> balong ballowed st cs ->
  exists st', brun st cs = Ok st' /\ BSafe st'.
Proof.
  induction cs as [|c cs IH]; intros st HS HA; unfold brun in *; cbn [for_list balong] in *; [eauto|].
  destruct HA as [H1 H2]. destruct (bstep_good st c HS H1) as [st' [E [HS' _]]]. rewrite E in *. cbn [bind].
  apply IH; auto.
Qed.
Lemma binit_safe : BSafe binit.
Proof. split; [|split]; cbn; intros; try discriminate. unfold block in H. destruct a; discriminate. Qed.

Theorem bhistories (cs : list (bcmd A)) : balong ballowed binit cs ->
  exists st, brun binit cs = Ok st /\
    ((forall i, b_obj st i = None) -> forall a, block (b_heap st) a = None) /\
    (forall c, ballowed st c -> exists st', bstep st c = Ok st' /\ bspec_step (bvalue st) c (bvalue st')).
Proof.
  intros H. destruct (brun_safe cs binit binit_safe H) as [st [E HS]]. exists st. split; auto. split.
  - intros NO a. destruct (block (b_heap st) a) as [l|] eqn:B; auto. destruct HS as [_ [_ S3]].
    destruct (S3 a l B) as [i Hi]. rewrite NO in Hi. discriminate.
  - intros c HA. destruct (bstep_good st c HS HA) as [st' [E' [_ SP]]]. eauto.
Qed.

(** Any move or assignment between different heap BitSets makes the destruction of both undefined. *)
Theorem bshallow (st : bstate A) i j c : i <> j ->
  (c = BMoveCtor i j \/ c = BAssign i j \/ c = BMoveAssign i j) ->
  forall st1, bstep st c = Ok st1 -> brun st1 [BDestroy i; BDestroy j] = UB.
Proof.
  intros NE Hc st1 E.
  assert (ST : exists a, b_obj st1 i = Some a /\ b_obj st1 j = Some a).
  { destruct Hc as [-> | [-> | -> ]]; unfold bstep in E.
    - destruct (b_obj st j) as [a|] eqn:Ej; [|discriminate]. inversion E; subst. exists a. cbn [b_obj].
      rewrite bset_same, bset_other by auto. auto.
    - destruct (b_obj st i), (b_obj st j) as [a|] eqn:Ej; try discriminate. inversion E; subst. exists a. cbn [b_obj].
      rewrite bset_same, bset_other by auto. auto.
    - destruct (b_obj st i), (b_obj st j) as [a|] eqn:Ej; try discriminate. inversion E; subst. exists a. cbn [b_obj].
      rewrite bset_same, bset_other by auto. auto. }
  destruct ST as [a [Ei Ej]]. unfold brun. cbn [for_list]. unfold bstep at 1. rewrite Ei. unfold free at 1.
  destruct (block (b_heap st1) a) as [l|] eqn:B; [|reflexivity]. cbn [bind]. unfold bstep at 1. cbn [b_obj b_heap].
  rewrite bset_other, Ej by auto. unfold free. rewrite block_upd, Nat.eqb_refl by (eapply block_lt; eauto). reflexivity.
Qed.
End B.
