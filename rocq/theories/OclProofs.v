From Verif Require Import Base BaseProofs OclModel OclSpec.
From Coq Require Import ZifyNat ZifyN ZifyBool.
Ltac Zify.zify_post_hook ::= idtac.

Section M.
Context {A : Type}.
Implicit Types h : memory A.
Implicit Types st : state A.

(** ** Memory *)
Lemma buf_lt h a b : buf h a = Some b -> a < length h.
Proof. unfold buf. destruct (nth_error h a) eqn:E; [|discriminate]. intros _. apply nth_error_Some. congruence. Qed.
Lemma buf_app h b a : buf (h ++ [Some b]) a = if a =? length h then Some b else buf h a.
Proof.
  unfold buf. destruct (Nat.eqb_spec a (length h)).
  - subst. rewrite nth_error_app2, Nat.sub_diag by lia. reflexivity.
  - destruct (Nat.lt_ge_cases a (length h)).
    + rewrite nth_error_app1 by auto. auto.
    + rewrite !(proj2 (nth_error_None _ _)); auto; rewrite ?app_length; cbn; lia.
Qed.
Lemma buf_upd h a b x : a < length h -> buf (upd h a b) x = if a =? x then b else buf h x.
Proof.
  intros H. unfold buf. rewrite nth_error_upd. destruct (Nat.eqb_spec a x); cbn [andb]; auto.
  replace (a <? length h) with true by lia. auto.
Qed.
Lemma buf_fresh h : buf h (length h) = None.
Proof. unfold buf. rewrite (proj2 (nth_error_None _ _)); auto. Qed.

Definition rc h a : nat := match buf h a with Some b => b_refs b | None => 0 end.
Definition data h a : option (list A) := option_map b_data (buf h a).
Definition one (p : option nat) a : nat := match p with Some x => if x =? a then 1 else 0 | None => 0 end.
Definition pos h : Prop := forall a b, buf h a = Some b -> 0 < b_refs b.
Definition live h (p : option nat) : Prop := forall a, p = Some a -> exists b, buf h a = Some b.

Lemma pos_live h a : pos h -> 0 < rc h a <-> exists b, buf h a = Some b.
Proof.
  intros P. unfold rc. destruct (buf h a) eqn:E.
  - split; [eauto|]. intros _. eapply P; eauto.
  - split; [lia|]. intros [b H]. discriminate.
Qed.
Lemma one_same a : one (Some a) a = 1.
Proof. cbn. rewrite Nat.eqb_refl. auto. Qed.
Lemma one_pos p a : 0 < one p a -> p = Some a.
Proof. destruct p as [x|]; cbn; [|lia]. destruct (Nat.eqb_spec x a); [congruence|lia]. Qed.

(** updating one live buffer *)
Lemma upd_one h a b o : buf h a = Some b -> forall x, buf (upd h a o) x = if a =? x then o else buf h x.
Proof. intros B x. apply buf_upd. eapply buf_lt; eauto. Qed.

Lemma retain_ok h p : pos h -> live h p ->
  exists h', retain h p = Ok h' /\ pos h' /\ (forall a, rc h' a = rc h a + one p a) /\
    (forall a, data h' a = data h a).
Proof.
  intros P L. unfold retain. destruct p as [a|].
  - destruct (L a eq_refl) as [b B]. rewrite B. eexists. split; [reflexivity|].
    set (h' := upd _ _ _). assert (U : forall x, buf h' x = if a =? x then Some {| b_data := b_data b; b_refs := S (b_refs b) |} else buf h x) by (apply (upd_one _ _ _ _ B)).
    split; [|split].
    + intros x c. rewrite U. destruct (Nat.eqb_spec a x); [|eauto]. intros E. inversion E. cbn. lia.
    + intros x. unfold rc. rewrite U. cbn [one]. destruct (Nat.eqb_spec a x); [|lia]. subst. rewrite B. cbn. lia.
    + intros x. unfold data. rewrite U. destruct (Nat.eqb_spec a x); [|auto]. subst. rewrite B. auto.
  - exists h. repeat split; auto; intros; cbn; lia.
Qed.
Lemma release_ok h p : pos h -> live h p ->
  exists h', release h p = Ok h' /\ pos h' /\ (forall a, rc h' a + one p a = rc h a) /\
    (forall a, 0 < rc h' a -> data h' a = data h a) /\ (forall a, p <> Some a -> data h' a = data h a).
Proof.
  intros P L. unfold release. destruct p as [a|].
  - destruct (L a eq_refl) as [b B]. rewrite B. eexists. split; [reflexivity|].
    set (o := if b_refs b <=? 1 then _ else _). set (h' := upd _ _ _).
    assert (U : forall x, buf h' x = if a =? x then o else buf h x) by (apply (upd_one _ _ _ _ B)).
    pose proof (P _ _ B) as PB. split; [|split; [|split]].
    + intros x c. rewrite U. destruct (Nat.eqb_spec a x); [|eauto]. unfold o. destruct (Nat.leb_spec (b_refs b) 1); [discriminate|].
      intros E. inversion E. cbn. lia.
    + intros x. unfold rc. rewrite U. cbn [one]. destruct (Nat.eqb_spec a x); [|lia]. subst. rewrite B.
      unfold o. destruct (Nat.leb_spec (b_refs b) 1); cbn; lia.
    + intros x. unfold rc, data. rewrite U. destruct (Nat.eqb_spec a x); [|auto]. subst. rewrite B.
      unfold o. destruct (Nat.leb_spec (b_refs b) 1); cbn; [lia|auto].
    + intros x NE. unfold data. rewrite U. destruct (Nat.eqb_spec a x); [congruence|auto].
  - exists h. repeat split; auto; intros; cbn; lia.
Qed.
Lemma rc_live h h' p : pos h -> pos h' -> (forall a, rc h a <= rc h' a) -> live h p -> live h' p.
Proof. intros P P' R L a E. apply (pos_live h'); auto. specialize (R a). assert (0 < rc h a) by (apply pos_live; eauto). lia. Qed.

Lemma data_live h a : data h a <> None <-> exists b, buf h a = Some b.
Proof. unfold data. destruct (buf h a); cbn; split; intros H; eauto; try congruence; destruct H; discriminate. Qed.
Lemma set_data h a b l : pos h -> buf h a = Some b ->
  let h' := upd h a (Some {| b_data := l; b_refs := b_refs b |}) in
  pos h' /\ (forall x, rc h' x = rc h x) /\ (forall x, data h' x = if a =? x then Some l else data h x).
Proof.
  intros P B h'. assert (U : forall x, buf h' x = if a =? x then Some {| b_data := l; b_refs := b_refs b |} else buf h x) by (apply (upd_one _ _ _ _ B)).
  split; [|split].
  - intros x c. rewrite U. destruct (Nat.eqb_spec a x); [|eauto]. intros E. inversion E. cbn. eapply P; eauto.
  - intros x. unfold rc. rewrite U. destruct (Nat.eqb_spec a x); [|auto]. subst. rewrite B. auto.
  - intros x. unfold data. rewrite U. destruct (Nat.eqb_spec a x); auto.
Qed.
Lemma store_ok h p l : pos h -> live h p ->
  exists h', store h p l = Ok h' /\ pos h' /\ (forall a, rc h' a = rc h a) /\
    (forall a, p <> Some a -> data h' a = data h a) /\
    (forall a d, p = Some a -> data h a = Some d ->
       data h' a = Some (if (0 <? length l) && (length l <=? length d) then l ++ skipn (length l) d else d)).
Proof.
  intros P L. unfold store. destruct p as [a|].
  - destruct (L a eq_refl) as [b B]. rewrite B. destruct ((0 <? length l) && (length l <=? length (b_data b))) eqn:E.
    + destruct (set_data h a b (l ++ skipn (length l) (b_data b)) P B) as [P' [R D]].
      eexists. split; [reflexivity|]. split; auto. split; auto. split.
      * intros x NE. rewrite D. destruct (Nat.eqb_spec a x); [congruence|auto].
      * intros x d Ex. inversion Ex; subst. unfold data at 1. rewrite B. cbn [option_map]. intros Ed. inversion Ed; subst.
        rewrite D, Nat.eqb_refl, E. auto.
    + exists h. split; auto. split; auto. split; auto. split; auto.
      intros x d Ex. inversion Ex; subst. unfold data at 1. rewrite B. cbn [option_map]. intros Ed. inversion Ed; subst.
      rewrite E. unfold data. rewrite B. auto.
  - exists h. split; auto. split; auto. split; auto. split; auto. discriminate.
Qed.
Lemma copyBuffer_ok h src dst n : pos h -> live h src -> live h dst ->
  exists h', copyBuffer h src dst n = Ok h' /\ pos h' /\ (forall a, rc h' a = rc h a) /\
    (forall a, dst <> Some a -> data h' a = data h a) /\
    (forall s d ds dd, src = Some s -> dst = Some d -> s <> d -> data h s = Some ds -> data h d = Some dd ->
       0 < n -> n <= length ds -> n <= length dd -> data h' d = Some (firstn n ds ++ skipn n dd)).
Proof.
  intros P LS LD. unfold copyBuffer. destruct src as [s|]; [destruct dst as [d|]|].
  - destruct (LS s eq_refl) as [bs Bs]. destruct (LD d eq_refl) as [bd Bd]. rewrite Bs, Bd.
    destruct ((s =? d) || (length (b_data bs) <? n)) eqn:E.
    + exists h. split; auto. split; auto. split; auto. split; auto.
      intros s0 d0 ds dd Es Ed NE Ds. inversion Es; inversion Ed; subst. unfold data in Ds. rewrite Bs in Ds. inversion Ds; subst.
      intros. exfalso. destruct (Nat.eqb_spec s0 d0); cbn [orb] in E; [auto|lia].
    + destruct (store_ok h (Some d) (firstn n (b_data bs)) P LD) as [h' [Eh [P' [R [D1 D2]]]]].
      exists h'. split; auto. split; auto. split; auto. split; auto.
      intros s0 d0 ds dd Es Ed NE Ds Dd N0 N1 N2. inversion Es; inversion Ed; subst. rewrite (D2 d0 dd); auto.
      unfold data in Ds. rewrite Bs in Ds. inversion Ds; subst.
      rewrite firstn_length, Nat.min_l by lia. replace ((0 <? n) && (n <=? length dd)) with true by lia. auto.
  - exists h. split; auto. split; auto. split; auto. split; auto. discriminate.
  - exists h. split; auto. split; auto. split; auto. split; auto. discriminate.
Qed.
Lemma set_ok h r x : pos h -> live h (r_buf r) ->
  exists h', set h r x = Ok h' /\ pos h' /\ (forall a, rc h' a = rc h a) /\
    (forall a, r_buf r <> Some a -> data h' a = data h a) /\
    (forall a d, r_buf r = Some a -> data h a = Some d -> data h' a = Some (upd d (r_off r) x)).
Proof.
  intros P L. unfold set. destruct (r_buf r) as [a|].
  - destruct (L a eq_refl) as [b B]. rewrite B.
    destruct (set_data h a b (upd (b_data b) (r_off r) x) P B) as [P' [R D]].
    eexists. split; [reflexivity|]. split; auto. split; auto. split.
    + intros y NE. rewrite D. destruct (Nat.eqb_spec a y); [congruence|auto].
    + intros y d Ey. inversion Ey; subst. unfold data at 1. rewrite B. cbn [option_map]. intros Ed. inversion Ed; subst.
      rewrite D, Nat.eqb_refl. auto.
  - exists h. split; auto. split; auto. split; auto. split; auto. discriminate.
Qed.

(** ** Counting references *)
Fixpoint count (env : list (option handle)) a : nat :=
  match env with [] => 0 | o :: env => one (holds o) a + count env a end.
Lemma count_upd env i o a : i < length env ->
  count (upd env i o) a + one (holds (nth i env None)) a = count env a + one (holds o) a.
Proof.
  revert i. induction env as [|o0 env IH]; intros [|i] L; cbn in *; try lia.
  specialize (IH i). cbn in IH. lia.
Qed.
Lemma count_pos env a : 0 < count env a <-> exists i, holds (nth i env None) = Some a.
Proof.
  induction env as [|o env IH]; cbn [count].
  - split; [lia|]. intros [[|i] H]; discriminate.
  - split.
    + intros H. destruct (one (holds o) a) eqn:E.
      * destruct (proj1 IH) as [i Hi]; [lia|]. exists (S i). auto.
      * exists 0. cbn. apply one_pos. lia.
    + intros [[|i] Hi]; cbn in Hi.
      * rewrite Hi, one_same. lia.
      * assert (0 < count env a) by (apply IH; eauto). lia.
Qed.

Definition RC st : Prop := (forall a, rc (st_mem st) a = count (st_env st) a) /\ pos (st_mem st).

Lemma var_lt st i : var st i <> None -> i < length (st_env st).
Proof. unfold var. intros H. destruct (Nat.lt_ge_cases i (length (st_env st))); auto. rewrite nth_overflow in H; congruence. Qed.
Lemma storage_var st i s : storage_at st i = Some s -> var st i = Some (HStorage s).
Proof. unfold storage_at. destruct (var st i) as [[?|?]|]; congruence. Qed.
Lemma storage_lt st i s : storage_at st i = Some s -> i < length (st_env st).
Proof. intros H. apply var_lt. rewrite (storage_var _ _ _ H). discriminate. Qed.
Lemma var_set_same st h i o : i < length (st_env st) -> var (set_var st h i o) i = o.
Proof.
  intros L. unfold var, set_var. cbn [st_env]. rewrite nth_upd. rewrite Nat.eqb_refl. cbn [andb].
  replace (i <? length (st_env st)) with true by lia. auto.
Qed.
Lemma var_set_other st h i o x : x <> i -> var (set_var st h i o) x = var st x.
Proof.
  intros NE. unfold var, set_var. cbn [st_env]. rewrite nth_upd. destruct (Nat.eqb_spec i x); [congruence|]. auto.
Qed.
Lemma RC_live st i : RC st -> live (st_mem st) (holds (var st i)).
Proof.
  intros [R P] a E. apply (pos_live _ a P). rewrite R. apply count_pos. exists i. auto.
Qed.
Lemma RC_live_storage st i s : RC st -> storage_at st i = Some s -> live (st_mem st) (o_buf s).
Proof. intros R H. pose proof (RC_live st i R) as L. rewrite (storage_var _ _ _ H) in L. auto. Qed.
Lemma RC_set st h i o : RC st -> i < length (st_env st) ->
  (forall a, rc h a + one (holds (var st i)) a = rc (st_mem st) a + one (holds o) a) -> pos h ->
  RC (set_var st h i o).
Proof.
  intros [R P] L H PH. split; auto. intros a. cbn [st_mem st_env set_var].
  pose proof (count_upd (st_env st) i o a L) as C. specialize (H a). rewrite R in H. unfold var in H. lia.
Qed.
Lemma RC_mem st h : RC st -> (forall a, rc h a = rc (st_mem st) a) -> pos h -> RC {| st_mem := h; st_env := st_env st |}.
Proof. intros [R P] H PH. split; auto. intros a. cbn. rewrite H. apply R. Qed.
Lemma RC_live_iff st a : RC st -> allocated st a <-> referenced st a.
Proof.
  intros [R P]. unfold allocated, referenced, var. rewrite <- count_pos, <- R, pos_live by auto.
  destruct (buf (st_mem st) a); split; intros H; eauto; try congruence; destruct H; discriminate.
Qed.

(** ** The value invariant *)
Definition okS h (s : storage) : Prop :=
  match o_size s with
  | None => o_buf s = None
  | Some n => match o_buf s with
              | None => n = 0
              | Some a => exists d, data h a = Some d /\ length d = n /\ n > 0
              end
  end.
Definition V st : Prop :=
  RC st /\ (forall i s, storage_at st i = Some s -> okS (st_mem st) s) /\
  (forall i j s t a, storage_at st i = Some s -> storage_at st j = Some t ->
     o_buf s = Some a -> o_buf t = Some a -> i = j).

Lemma content_data h s : content h s = match o_buf s with Some a => match data h a with Some d => d | None => [] end | None => [] end.
Proof. unfold content, data. destruct (o_buf s); auto. destruct (buf h n); auto. Qed.
Lemma ok_length h s n : okS h s -> o_size s = Some n -> length (content h s) = n.
Proof.
  unfold okS. intros H E. rewrite E in H. rewrite content_data. destruct (o_buf s); [|auto].
  destruct H as [d [-> [H _]]]. auto.
Qed.
Lemma storage_set st h i o x : i < length (st_env st) ->
  storage_at (set_var st h i o) x = if x =? i then match o with Some (HStorage s) => Some s | _ => None end else storage_at st x.
Proof.
  intros L. unfold storage_at. destruct (Nat.eqb_spec x i).
  - subst. rewrite var_set_same; auto.
  - rewrite var_set_other; auto.
Qed.
Lemma content_same h h' s : (forall a, o_buf s = Some a -> data h' a = data h a) -> content h' s = content h s.
Proof. intros H. rewrite !content_data. destruct (o_buf s); auto. rewrite H; auto. Qed.
Lemma okS_same h h' s : (forall a, o_buf s = Some a -> data h' a = data h a) -> okS h s -> okS h' s.
Proof.
  intros H. unfold okS. destruct (o_size s); auto. destruct (o_buf s); auto. rewrite H; auto.
Qed.

Lemma V_set st h i o : V st -> RC (set_var st h i o) -> i < length (st_env st) ->
  (forall x s a, x <> i -> storage_at st x = Some s -> o_buf s = Some a -> data h a = data (st_mem st) a) ->
  (forall s', o = Some (HStorage s') -> okS h s' /\
     forall a x s, o_buf s' = Some a -> x <> i -> storage_at st x = Some s -> o_buf s <> Some a) ->
  V (set_var st h i o) /\ (forall x, x <> i -> value_of (set_var st h i o) x = value_of st x) /\
  value_of (set_var st h i o) i = match o with Some (HStorage s') => Some (content h s') | _ => None end.
Proof.
  intros [R [S1 S2]] R' L HD HO. split; [split; [auto|split]|split].
  - intros x s. rewrite storage_set by auto. destruct (Nat.eqb_spec x i).
    + destruct o as [[s0|]|]; try discriminate. intros E. inversion E; subst. apply HO. auto.
    + intros E. cbn [st_mem set_var]. apply (okS_same (st_mem st)); eauto.
  - intros x y s t a. rewrite !storage_set by auto.
    destruct (Nat.eqb_spec x i), (Nat.eqb_spec y i); subst; auto.
    + destruct o as [[s0|]|]; try discriminate. intros E1 E2 B1 B2. inversion E1; subst. exfalso.
      eapply (proj2 (HO s eq_refl)); eauto.
    + destruct o as [[s0|]|]; try discriminate. intros E1 E2 B1 B2. inversion E2; subst. exfalso.
      eapply (proj2 (HO t eq_refl)); eauto.
    + eauto.
  - intros x NE. unfold value_of. rewrite storage_set by auto. destruct (Nat.eqb_spec x i); [congruence|].
    destruct (storage_at st x) as [s|] eqn:E; auto. cbn [option_map st_mem set_var]. f_equal. apply content_same. eauto.
  - unfold value_of. rewrite storage_set, Nat.eqb_refl by auto. destruct o as [[s0|]|]; auto.
Qed.

(** moving: slot [i] takes what slot [j] held *)
Lemma RC_move st h i j o : RC st -> i <> j -> i < length (st_env st) -> storage_at st j = Some o ->
  (forall a, rc h a + one (holds (var st i)) a = rc (st_mem st) a) -> pos h ->
  RC (set_var (set_var st h i (Some (HStorage o))) h j moved_from).
Proof.
  intros [R P] NE Li Hj H PH. split; auto. intros a. cbn [st_mem st_env set_var].
  pose proof (storage_lt _ _ _ Hj) as Lj.
  assert (Lj' : j < length (upd (st_env st) i (Some (HStorage o)))) by (rewrite upd_length; auto).
  pose proof (count_upd _ j moved_from a Lj') as C1.
  pose proof (count_upd (st_env st) i (Some (HStorage o)) a Li) as C2.
  rewrite nth_upd in C1. destruct (Nat.eqb_spec i j); [congruence|]. cbn [andb] in C1.
  specialize (H a). rewrite R in H. unfold var in H. apply storage_var in Hj. unfold var in Hj. rewrite Hj in C1.
  cbn [holds moved_from o_buf one] in C1, C2. lia.
Qed.

Lemma V_move st h i j o : V st -> i <> j -> i < length (st_env st) -> storage_at st j = Some o ->
  (forall a, rc h a + one (holds (var st i)) a = rc (st_mem st) a) -> pos h ->
  (forall x s a, x <> i -> storage_at st x = Some s -> o_buf s = Some a -> data h a = data (st_mem st) a) ->
  let st' := set_var (set_var st h i (Some (HStorage o))) h j moved_from in
  V st' /\ value_of st' i = value_of st j /\ value_of st' j = Some [] /\
  (forall x, x <> i -> x <> j -> value_of st' x = value_of st x).
Proof.
  intros [R [S1 S2]] NE Li Hj H PH HD st'.
  pose proof (storage_lt _ _ _ Hj) as Lj.
  assert (SA : forall x, storage_at st' x = if x =? j then Some {| o_size := Some 0; o_buf := None; o_owns := false |}
                                         else if x =? i then Some o else storage_at st x).
  { intros x. unfold st'. rewrite storage_set by (cbn [set_var st_env]; rewrite upd_length; auto).
    destruct (x =? j); auto. apply storage_set; auto. }
  assert (Doo : forall a, o_buf o = Some a -> data h a = data (st_mem st) a) by (intros; eapply (HD j); eauto).
  split; [split; [|split]|].
  - apply RC_move; auto.
  - intros x s. rewrite SA. change (st_mem st') with h. destruct (Nat.eqb_spec x j); [intros E; inversion E; reflexivity|].
    destruct (Nat.eqb_spec x i).
    + intros E. inversion E; subst. apply (okS_same (st_mem st)); eauto.
    + intros E. apply (okS_same (st_mem st)); eauto.
  - intros x y s t a. rewrite !SA.
    destruct (Nat.eqb_spec x j), (Nat.eqb_spec y j); subst; auto;
      try (intros E1 E2 B1 B2; inversion E1; subst; discriminate); try (intros E1 E2 B1 B2; inversion E2; subst; discriminate).
    destruct (Nat.eqb_spec x i), (Nat.eqb_spec y i); subst; auto; intros E1 E2 B1 B2.
    + inversion E1; subst. exfalso. apply n0. symmetry. eapply (S2 j y); eauto.
    + inversion E2; subst. exfalso. apply n. eapply (S2 x j); eauto.
    + eapply S2; eauto.
  - unfold value_of. change (st_mem st') with h. rewrite !SA. split; [|split].
    + destruct (Nat.eqb_spec i j); [congruence|]. rewrite Nat.eqb_refl, Hj. cbn. f_equal. apply content_same. auto.
    + rewrite Nat.eqb_refl. reflexivity.
    + intros x N1 N2. rewrite SA. destruct (Nat.eqb_spec x j); [congruence|]. destruct (Nat.eqb_spec x i); [congruence|].
      destruct (storage_at st x) as [s|] eqn:E; auto. cbn. f_equal. apply content_same. eauto.
Qed.

Lemma RC_init n : RC (init (A:=A) n).
Proof.
  split; [|intros a b; unfold buf; destruct a; discriminate].
  intros a. cbn [init st_mem st_env]. unfold rc, buf. replace (nth_error [] a) with (@None (option (buffer A))) by (destruct a; auto).
  induction n; cbn; auto.
Qed.
Lemma V_init n : V (init (A:=A) n).
Proof.
  assert (N : forall i, storage_at (init (A:=A) n) i = None).
  { intros i. unfold storage_at, var, init. cbn [st_env]. destruct (Nat.lt_ge_cases i n).
    - rewrite nth_repeat. auto.
    - rewrite nth_overflow; auto. rewrite repeat_length. auto. }
  split; [apply RC_init|]. split; intros; rewrite N in *; discriminate.
Qed.
End M.

Section P.
Context {A : Type}.
Variable junk : nat -> nat -> A.
Implicit Types h : memory A.
Implicit Types st : state A.

Lemma create_ok h n h' p : pos h -> create junk h n = (h', p) ->
  pos h' /\ (forall a, rc h' a = rc h a + one p a) /\ live h' p /\ (forall q, live h q -> live h' q) /\
  (forall a, p <> Some a -> data h' a = data h a) /\
  match p with None => n = 0 | Some a => n > 0 /\ rc h a = 0 /\ exists d, data h' a = Some d /\ length d = n end.
Proof.
  intros P. unfold create. destruct (Nat.eqb_spec n 0).
  - intros E. inversion E; subst. split; auto. split; [intros; cbn; lia|]. split; [discriminate|]. auto.
  - intros E. inversion E; subst. clear E. split; [|split; [|split; [|split; [|split]]]].
    + intros a b. rewrite buf_app. destruct (Nat.eqb_spec a (length h)); [|eauto]. intros E. inversion E. cbn. lia.
    + intros a. unfold rc. rewrite buf_app. cbn [one]. rewrite (Nat.eqb_sym (length h) a). destruct (Nat.eqb_spec a (length h)); [|lia].
      subst. rewrite buf_fresh. cbn. auto.
    + intros a E. inversion E; subst. rewrite buf_app, Nat.eqb_refl. eauto.
    + intros q L a E. destruct (L a E) as [b B]. exists b. rewrite buf_app. pose proof (buf_lt _ _ _ B).
      destruct (Nat.eqb_spec a (length h)); [lia|auto].
    + intros a NE. unfold data. rewrite buf_app. destruct (Nat.eqb_spec a (length h)); [congruence|auto].
    + split; [lia|]. split; [unfold rc; rewrite buf_fresh; auto|].
      eexists. split; [unfold data; rewrite buf_app, Nat.eqb_refl; reflexivity|]. cbn [b_data].
      rewrite map_length, seq_length. auto.
Qed.

(** ** Lifetime of one step *)
Lemma storage_some st i : is_storage st i -> exists s, storage_at st i = Some s.
Proof. unfold is_storage. destruct (storage_at st i); [eauto|congruence]. Qed.
Lemma init_size st i s : initialised st i -> storage_at st i = Some s -> exists n, o_size s = Some n.
Proof. intros [s' [n [H1 H2]]] H. rewrite H in H1. inversion H1; subst. eauto. Qed.
Lemma one_none a : one None a = 0.
Proof. auto. Qed.

Definition keepsRC (r : result A) : Prop := match r with (UB, _) => False | (_, st') => RC st' end.

Lemma duplicate_rc st i n src : RC st -> unused st i -> live (st_mem st) src -> keepsRC (duplicate junk st i n src).
Proof.
  intros R [Li Hi] L. unfold duplicate. destruct (create junk (st_mem st) n) as [h1 p] eqn:EC.
  destruct (create_ok _ _ _ _ (proj2 R) EC) as [P1 [R1 [L1 [K1 _]]]].
  destruct (copyBuffer_ok h1 src p n P1 (K1 _ L) L1) as [h2 [E2 [P2 [R2 _]]]]. rewrite E2. cbn [andThen keepsRC].
  apply RC_set; auto. intros a. rewrite R2, R1, Hi. cbn. lia.
Qed.
Lemma copy_assign_rc asserts st i s o j : RC st -> j <> i -> storage_at st i = Some s -> storage_at st j = Some o ->
  initialised st i -> initialised st j -> keepsRC (copy_assign junk asserts st i s o).
Proof.
  intros R NE Hi Hj Ii Ij. destruct (init_size _ _ _ Ii Hi) as [ns Es]. destruct (init_size _ _ _ Ij Hj) as [no Eo].
  unfold copy_assign, size_of. rewrite Es, Eo. cbn [andThen]. destruct (no =? 0); [exact R|].
  pose proof (RC_live_storage _ _ _ R Hi) as Ls. pose proof (RC_live_storage _ _ _ R Hj) as Lo.
  pose proof (storage_lt _ _ _ Hi) as Li. pose proof (storage_var _ _ _ Hi) as Vi.
  assert (SAME : forall sz : nat, RC (set_var st (st_mem st) i (Some (HStorage {| o_size := Some sz; o_buf := o_buf s; o_owns := o_owns s |})))).
  { intros sz. apply RC_set; auto; [|apply R]. intros a. rewrite Vi. cbn. lia. }
  assert (COPY : keepsRC (andThen (set_var st (st_mem st) i (Some (HStorage {| o_size := Some no; o_buf := o_buf s; o_owns := o_owns s |})))
     (copyBuffer (st_mem st) (o_buf o) (o_buf s) no) (fun h3 => (Ok tt, {| st_mem := h3; st_env := st_env (set_var st (st_mem st) i (Some (HStorage {| o_size := Some no; o_buf := o_buf s; o_owns := o_owns s |}))) |})))).
  { destruct (copyBuffer_ok (st_mem st) (o_buf o) (o_buf s) no (proj2 R) Lo Ls) as [h3 [E3 [P3 [R3 _]]]]. rewrite E3.
    cbn [andThen keepsRC]. apply RC_mem; auto. }
  destruct (ns =? no); [exact COPY|]. destruct (o_owns s) eqn:Eow; [|destruct asserts; [apply SAME|exact COPY]].
  clear SAME COPY. destruct (create junk (st_mem st) no) as [h1 p] eqn:EC.
  destruct (create_ok _ _ _ _ (proj2 R) EC) as [P1 [R1 [L1 [K1 [_ C1]]]]].
  destruct (release_ok h1 (o_buf s) P1 (K1 _ Ls)) as [h2 [E2 [P2 [R2 _]]]]. rewrite E2. cbn [andThen].
  assert (RC (set_var st h2 i (Some (HStorage {| o_size := Some no; o_buf := p; o_owns := true |})))) as RN.
  { apply RC_set; auto. intros a. rewrite Vi. cbn [holds o_buf]. specialize (R1 a). specialize (R2 a). lia. }
  destruct (copyBuffer_ok h2 (o_buf o) p no P2) as [h3 [E3 [P3 [R3 _]]]].
  - pose proof (RC_live _ j RN) as LJ. rewrite var_set_other, (storage_var _ _ _ Hj) in LJ by auto. exact LJ.
  - pose proof (RC_live _ i RN) as LI. rewrite var_set_same in LI by auto. exact LI.
  - rewrite E3. cbn [andThen keepsRC]. apply RC_mem; auto.
Qed.
Lemma resize_rc asserts keep st i s n : RC st -> storage_at st i = Some s -> initialised st i ->
  keepsRC (do_resize junk asserts keep st i s n).
Proof.
  intros R Hi Ii. destruct (init_size _ _ _ Ii Hi) as [ns Es].
  unfold do_resize, size_of. rewrite Es. cbn [andThen]. destruct (n =? ns); [exact R|].
  destruct (asserts && (n =? 0)); [exact R|]. destruct (asserts && negb (o_owns s)); [exact R|].
  pose proof (RC_live_storage _ _ _ R Hi) as Ls.
  pose proof (storage_lt _ _ _ Hi) as Li. pose proof (storage_var _ _ _ Hi) as Vi.
  destruct (create junk (st_mem st) n) as [h1 p] eqn:EC.
  destruct (create_ok _ _ _ _ (proj2 R) EC) as [P1 [R1 [L1 [K1 [_ C1]]]]].
  assert (exists h2, (if keep then copyBuffer h1 (o_buf s) p (Nat.min n ns) else Ok h1) = Ok h2 /\ pos h2 /\
            (forall a, rc h2 a = rc h1 a)) as [h2 [E2 [P2 R2]]].
  { destruct keep; [|eauto]. destruct (copyBuffer_ok h1 (o_buf s) p (Nat.min n ns) P1 (K1 _ Ls) L1) as [h2 [E2 [P2 [R2 _]]]].
    eauto. }
  rewrite E2. cbn [andThen].
  destruct (release_ok h2 (o_buf s) P2) as [h3 [E3 [P3 [R3 _]]]].
  { apply (rc_live (st_mem st)); auto; [apply R|]. intros a. rewrite R2, R1. lia. }
  rewrite E3. cbn [andThen keepsRC]. apply RC_set; auto.
  intros a. rewrite Vi. cbn [holds o_buf]. specialize (R1 a). specialize (R2 a). specialize (R3 a). lia.
Qed.

Lemma get_ok st r f : RC st -> var st r = Some (HRef f) -> element_exists st r ->
  exists a b x, r_buf f = Some a /\ buf (st_mem st) a = Some b /\ nth_error (b_data b) (r_off f) = Some x /\ get (st_mem st) f = Ok x.
Proof.
  intros R Vr [f' [a [b [V' [Ba [Bb L]]]]]]. rewrite Vr in V'. inversion V'; subst f'.
  destruct (nth_error (b_data b) (r_off f)) as [x|] eqn:E.
  - exists a, b, x. unfold get, rd. rewrite Ba, Bb, E. auto.
  - apply nth_error_None in E. lia.
Qed.

Lemma step_rc asserts st c : RC st -> legal asserts st c -> keepsRC (step junk asserts st c).
Proof.
  intros R [W D]. destruct c as [i|i n|i n x|i l|i j n ow|i j|i j|i j|i j|i j|i n|i n|r i k|r x|r|i]; cbn [step well_formed determinate] in *.
  - destruct W as [Li Hi]. apply RC_set; auto; [|apply R]. intros a. rewrite Hi. cbn. lia.
  - destruct W as [Li Hi]. destruct (create junk (st_mem st) n) as [h1 p] eqn:EC.
    destruct (create_ok _ _ _ _ (proj2 R) EC) as [P1 [R1 _]]. apply RC_set; auto. intros a. rewrite R1, Hi. cbn. lia.
  - destruct W as [Li Hi]. destruct (create junk (st_mem st) n) as [h1 p] eqn:EC.
    destruct (create_ok _ _ _ _ (proj2 R) EC) as [P1 [R1 [L1 _]]].
    destruct (store_ok h1 p (repeat x n) P1 L1) as [h2 [E2 [P2 [R2 _]]]]. rewrite E2. cbn [andThen keepsRC].
    apply RC_set; auto. intros a. rewrite R2, R1, Hi. cbn. lia.
  - destruct W as [Li Hi]. destruct (create junk (st_mem st) (length l)) as [h1 p] eqn:EC.
    destruct (create_ok _ _ _ _ (proj2 R) EC) as [P1 [R1 [L1 _]]].
    destruct (store_ok h1 p l P1 L1) as [h2 [E2 [P2 [R2 _]]]]. rewrite E2. cbn [andThen keepsRC].
    apply RC_set; auto. intros a. rewrite R2, R1, Hi. cbn. lia.
  - destruct W as [[Li Hi] Hj]. destruct (storage_some _ _ Hj) as [o Ho]. rewrite Ho.
    destruct (retain_ok _ _ (proj2 R) (RC_live_storage _ _ _ R Ho)) as [h1 [E1 [P1 [R1 _]]]]. rewrite E1. cbn [andThen keepsRC].
    apply RC_set; auto. intros a. rewrite R1, Hi. cbn. lia.
  - destruct W as [Wi Hj]. destruct (storage_some _ _ Hj) as [o Ho]. rewrite Ho. destruct (init_size _ _ _ D Ho) as [n En].
    unfold size_of. rewrite En. cbn [andThen]. apply duplicate_rc; auto. eapply RC_live_storage; eauto.
  - destruct W as [[Li Hi] Hj]. destruct (storage_some _ _ Hj) as [o Ho]. rewrite (storage_var _ _ _ Ho).
    destruct (init_size _ _ _ D Ho) as [n En]. unfold size_of. rewrite En. cbn [andThen keepsRC].
    apply RC_move; auto; [|intros a; rewrite Hi; cbn; lia|apply R].
    intros ->. apply storage_var in Ho. congruence.
  - destruct W as [Wi Hj]. destruct (storage_some _ _ Hj) as [o Ho]. rewrite Ho. destruct (init_size _ _ _ D Ho) as [n En].
    unfold size_of. rewrite En. cbn [andThen]. apply duplicate_rc; auto. eapply RC_live_storage; eauto.
  - destruct W as [Hi Hj]. destruct (storage_some _ _ Hi) as [s Hs]. destruct (storage_some _ _ Hj) as [o Ho]. rewrite Hs, Ho.
    destruct (Nat.eqb_spec i j); [exact R|]. destruct D as [D|[D1 D2]]; [congruence|]. eapply copy_assign_rc; eauto.
  - destruct W as [Hi Hj]. destruct (storage_some _ _ Hi) as [s Hs]. destruct (storage_some _ _ Hj) as [o Ho]. rewrite Hs, Ho.
    destruct (Nat.eqb_spec i j); [exact R|]. destruct (init_size _ _ _ D Ho) as [n0 En]. unfold size_of. rewrite En. cbn [andThen].
    destruct (release_ok _ _ (proj2 R) (RC_live_storage _ _ _ R Hs)) as [h1 [E1 [P1 [R1 _]]]]. rewrite E1. cbn [andThen keepsRC].
    apply RC_move; auto; [eapply storage_lt; eauto|]. intros a. rewrite (storage_var _ _ _ Hs). apply R1.
  - destruct (storage_some _ _ W) as [s Hs]. rewrite Hs. apply resize_rc; auto.
  - destruct (storage_some _ _ W) as [s Hs]. rewrite Hs. apply resize_rc; auto.
  - destruct W as [[Li Hi] Hj]. destruct (storage_some _ _ Hj) as [o Ho]. rewrite Ho.
    assert (exists m, (if asserts then size_of o else Ok (S k)) = Ok m) as [m ->].
    { destruct asserts; [|eauto]. destruct (init_size _ _ _ (D eq_refl) Ho) as [n0 En]. unfold size_of. rewrite En. eauto. }
    cbn [andThen]. destruct (m <=? k); [exact R|].
    destruct (retain_ok _ _ (proj2 R) (RC_live_storage _ _ _ R Ho)) as [h1 [E1 [P1 [R1 _]]]]. rewrite E1. cbn [andThen keepsRC].
    apply RC_set; auto. intros a. rewrite R1, Hi. cbn. lia.
  - destruct W as [f Hf]. rewrite Hf. pose proof (RC_live st r R) as L. rewrite Hf in L. cbn [holds] in L.
    destruct (set_ok _ f x (proj2 R) L) as [h1 [E1 [P1 [R1 _]]]]. rewrite E1. cbn [andThen keepsRC]. apply RC_mem; auto.
  - destruct W as [f Hf]. rewrite Hf. destruct (get_ok _ _ _ R Hf D) as [a [b [x [_ [_ [_ E]]]]]]. rewrite E. exact R.
  - destruct (var st i) as [o|] eqn:Vi; [|congruence].
    pose proof (RC_live st i R) as L. rewrite Vi in L.
    destruct (release_ok _ _ (proj2 R) L) as [h1 [E1 [P1 [R1 _]]]]. rewrite E1. cbn [andThen keepsRC].
    apply RC_set; auto. { apply var_lt. congruence. } intros a. rewrite Vi. specialize (R1 a). cbn. cbn in R1. lia.
Qed.

Lemma run_rc asserts cs : forall st, RC st -> along junk asserts (legal asserts) st cs ->
  exists st', run junk asserts st cs = Some st' /\ RC st'.
Proof.
  induction cs as [|c cs IH]; intros st R H; cbn [run along] in *; [eauto|].
  destruct H as [H1 H2]. pose proof (step_rc asserts st c R H1) as K. destruct (step junk asserts st c) as [[?|?|] st'];
    cbn [keepsRC] in K; [auto|auto|contradiction].
Qed.

(** ** Values of one step *)
Lemma value_storage st i l : value_of st i = Some l -> exists s, storage_at st i = Some s /\ l = content (st_mem st) s.
Proof. unfold value_of. destruct (storage_at st i) as [s|]; [|discriminate]. cbn. intros E. inversion E. eauto. Qed.
Lemma storage_value st i s : storage_at st i = Some s -> value_of st i = Some (content (st_mem st) s).
Proof. unfold value_of. intros ->. auto. Qed.
(** a fresh buffer is nobody's *)
Lemma fresh_not_held st a x s : RC st -> rc (st_mem st) a = 0 -> storage_at st x = Some s -> o_buf s <> Some a.
Proof.
  intros R H E B. destruct (RC_live_storage _ _ _ R E a B) as [b Bb].
  assert (0 < rc (st_mem st) a) by (apply pos_live; [apply R|eauto]). lia.
Qed.

(** installing a new buffer [p] of [n] elements with contents [l] in a free slot *)
Lemma V_new st i n h1 p h2 l : V st -> unused st i -> create junk (st_mem st) n = (h1, p) ->
  pos h2 -> (forall a, rc h2 a = rc h1 a) -> (forall a, p <> Some a -> data h2 a = data h1 a) ->
  (forall a d, p = Some a -> data h1 a = Some d -> length d = n -> data h2 a = Some l /\ length l = n) ->
  (n = 0 -> l = []) ->
  let st' := set_var st h2 i (own n p) in V st' /\ becomes (value_of st) i l (value_of st').
Proof.
  intros HV [Li Hi] EC P2 R2 D2 DP L0 st'. pose proof HV as [R [S1 S2]].
  destruct (create_ok _ _ _ _ (proj2 R) EC) as [P1 [R1 [L1 [K1 [D1 C1]]]]].
  assert (CON : okS h2 {| o_size := Some n; o_buf := p; o_owns := true |} /\
                content h2 {| o_size := Some n; o_buf := p; o_owns := true |} = l).
  { unfold okS. rewrite content_data. cbn [o_size o_buf]. destruct p as [a|].
    - destruct C1 as [Hn [_ [d [Hd Ld]]]]. destruct (DP a d eq_refl Hd Ld) as [E El]. rewrite E. split; eauto.
    - split; auto. symmetry. auto. }
  destruct CON as [OK CON].
  destruct (V_set st h2 i (own n p) HV) as [V1 [V2 V3]]; auto.
  - apply RC_set; auto. intros a. rewrite R2, R1, Hi. cbn. lia.
  - intros x s a NE Hs Hb. assert (p <> Some a).
    { intros ->. destruct C1 as [_ [C1 _]]. eapply (fresh_not_held st); eauto. }
    rewrite D2, D1 by auto. auto.
  - intros s' E. inversion E; subst. split; auto. intros a x s Ha NE Hs. cbn [o_buf] in Ha. subst p.
    destruct C1 as [_ [C1 _]]. eapply (fresh_not_held st); eauto.
  - split; auto. split; [|auto]. unfold st'. rewrite V3. cbn. rewrite CON. auto.
Qed.

Lemma duplicate_v st i n s j : V st -> unused st i -> storage_at st j = Some s -> o_size s = Some n ->
  exists st', duplicate junk st i n (o_buf s) = (Ok tt, st') /\ V st' /\ becomes (value_of st) i (content (st_mem st) s) (value_of st').
Proof.
  intros HV U Hs En. pose proof HV as [R [S1 S2]]. unfold duplicate.
  destruct (create junk (st_mem st) n) as [h1 p] eqn:EC.
  destruct (create_ok _ _ _ _ (proj2 R) EC) as [P1 [R1 [L1 [K1 [D1 C1]]]]].
  pose proof (RC_live_storage _ _ _ R Hs) as L.
  destruct (copyBuffer_ok h1 (o_buf s) p n P1 (K1 _ L) L1) as [h2 [E2 [P2 [R2 [D2 C2]]]]]. rewrite E2. cbn [andThen].
  eexists. split; [reflexivity|]. pose proof (S1 _ _ Hs) as OK. pose proof (ok_length _ _ _ OK En) as LEN.
  apply (V_new st i n h1 p h2); auto.
  - intros a d -> Hd Ld. unfold okS in OK. rewrite En in OK. rewrite content_data in *. destruct (o_buf s) as [b|] eqn:Eb.
    + destruct OK as [ds [Hds [Lds Np]]]. rewrite Hds in *.
      assert (b <> a).
      { intros ->. destruct C1 as [_ [C1 _]]. eapply (fresh_not_held st a); eauto. }
      rewrite (C2 b a ds d); auto; try lia.
      * rewrite firstn_all2, skipn_all2, app_nil_r by lia. auto.
      * rewrite D1; congruence.
    + exfalso. cbn in LEN. destruct C1 as [C1 _]. lia.
  - intros ->. apply length_zero_iff_nil. auto.
Qed.

Definition goodV asserts st c (r : result A) : Prop :=
  match r with
  | (UB, _) => False
  | (Throw _, st') => asserts = true /\ (forall x, value_of st' x = value_of st x) /\ V st'
  | (Ok _, st') => (no_assign_from_empty st c -> spec_step st c (value_of st')) /\ V st'
  end.

(** replacing the buffer of storage [i] by a fresh one *)
Lemma V_replace st i s n h1 p h2 h3 l ow : V st -> storage_at st i = Some s -> create junk (st_mem st) n = (h1, p) ->
  pos h2 -> (forall a, rc h2 a = rc h1 a) -> (forall a, p <> Some a -> data h2 a = data h1 a) ->
  (forall a d, p = Some a -> data h1 a = Some d -> length d = n -> data h2 a = Some l /\ length l = n) ->
  (n = 0 -> l = []) ->
  release h2 (o_buf s) = Ok h3 ->
  let st' := set_var st h3 i (Some (HStorage {| o_size := Some n; o_buf := p; o_owns := ow |})) in
  V st' /\ becomes (value_of st) i l (value_of st').
Proof.
  intros HV Hs EC P2 R2 D2 DP L0 E3 st'. pose proof HV as [R [S1 S2]].
  destruct (create_ok _ _ _ _ (proj2 R) EC) as [P1 [R1 [L1 [K1 [D1 C1]]]]].
  pose proof (RC_live_storage _ _ _ R Hs) as Ls.
  destruct (release_ok h2 (o_buf s) P2) as [h3' [E3' [P3 [R3 [D3 D3']]]]].
  { apply (rc_live (st_mem st)); auto; [apply R|]. intros a. rewrite R2, R1. lia. }
  rewrite E3 in E3'. inversion E3'; subst h3'. clear E3'.
  assert (NP : forall a, p = Some a -> o_buf s <> Some a).
  { intros a ->. destruct C1 as [_ [C1 _]]. eapply (fresh_not_held st); eauto. }
  assert (CON : okS h3 {| o_size := Some n; o_buf := p; o_owns := ow |} /\
                content h3 {| o_size := Some n; o_buf := p; o_owns := ow |} = l).
  { unfold okS. rewrite content_data. cbn [o_size o_buf]. destruct p as [a|].
    - destruct C1 as [Hn [_ [d [Hd Ld]]]]. destruct (DP a d eq_refl Hd Ld) as [E El].
      rewrite D3' by auto. rewrite E. split; eauto.
    - split; auto. symmetry. auto. }
  destruct CON as [OK CON].
  destruct (V_set st h3 i (Some (HStorage {| o_size := Some n; o_buf := p; o_owns := ow |})) HV) as [V1 [V2 V3]].
  - apply RC_set; auto. { eapply storage_lt; eauto. } intros a. rewrite (storage_var _ _ _ Hs). cbn [holds o_buf].
    specialize (R1 a). specialize (R2 a). specialize (R3 a). lia.
  - eapply storage_lt; eauto.
  - intros x t a NE Ht Hb. assert (p <> Some a).
    { intros ->. destruct C1 as [_ [C1 _]]. eapply (fresh_not_held st); eauto. }
    rewrite D3', D2, D1; auto. intros Hb'. apply NE. eapply S2; eauto.
  - intros s' E. inversion E; subst. split; auto. intros a x t Ha NE Ht. cbn [o_buf] in Ha. subst p.
    destruct C1 as [_ [C1 _]]. eapply (fresh_not_held st); eauto.
  - split; auto. split; [|auto]. unfold st'. rewrite V3. cbn. rewrite CON. auto.
Qed.

Lemma resize_v asserts keep st i s n : V st -> storage_at st i = Some s -> initialised st i ->
  match do_resize junk asserts keep st i s n with
  | (UB, _) => False
  | (Throw _, st') => asserts = true /\ st' = st
  | (Ok _, st') => V st' /\ exists l e, value_of st i = Some l /\ 
      length e = (if keep then n - length l else n) /\ becomes (value_of st) i ((if keep then firstn n l else []) ++ e) (value_of st')
  end.
Proof.
  intros HV Hi Ii. pose proof HV as [R [S1 S2]]. destruct (init_size _ _ _ Ii Hi) as [ns Es].
  unfold do_resize, size_of. rewrite Es. cbn [andThen].
  pose proof (S1 _ _ Hi) as OK. pose proof (ok_length _ _ _ OK Es) as LEN.
  destruct (Nat.eqb_spec n ns).
  { subst n. split; auto. exists (content (st_mem st) s). exists (if keep then [] else content (st_mem st) s).
    split; [apply storage_value; auto|]. destruct keep; cbn [app length].
    - split; [lia|]. rewrite app_nil_r, <- LEN, firstn_all. split; auto. apply storage_value; auto.
    - split; [lia|]. split; auto. apply storage_value; auto. }
  destruct (asserts && (n =? 0)) eqn:EA. { destruct asserts; auto; discriminate. }
  destruct (asserts && negb (o_owns s)) eqn:EB. { destruct asserts; auto; discriminate. }
  destruct (create junk (st_mem st) n) as [h1 p] eqn:EC.
  destruct (create_ok _ _ _ _ (proj2 R) EC) as [P1 [R1 [L1 [K1 [D1 C1]]]]].
  pose proof (RC_live_storage _ _ _ R Hi) as Ls.
  assert (exists h2 e, (if keep then copyBuffer h1 (o_buf s) p (Nat.min n ns) else Ok h1) = Ok h2 /\ pos h2 /\
            (forall a, rc h2 a = rc h1 a) /\ (forall a, p <> Some a -> data h2 a = data h1 a) /\
            length e = (if keep then n - ns else n) /\
            (forall a d, p = Some a -> data h1 a = Some d -> length d = n ->
               data h2 a = Some ((if keep then firstn n (content (st_mem st) s) else []) ++ e))) as [h2 [e [E2 [P2 [R2 [D2 [Le C2]]]]]]].
  { destruct keep.
    - destruct (copyBuffer_ok h1 (o_buf s) p (Nat.min n ns) P1 (K1 _ Ls) L1) as [h2 [E2 [P2 [R2 [D2 C2]]]]].
      assert (CASE : exists e, length e = n - ns /\ forall a d, p = Some a -> data h1 a = Some d -> length d = n ->
                data h2 a = Some (firstn n (content (st_mem st) s) ++ e)).
      { destruct p as [a|].
        - destruct C1 as [Np [F1 [d [Hd Ld]]]]. destruct (o_buf s) as [b|] eqn:Eb.
          + unfold okS in OK. rewrite Es, Eb in OK. destruct OK as [ds [Hds [Lds Np2]]].
            assert (b <> a). { intros ->. eapply (fresh_not_held st a); eauto. }
            exists (skipn (Nat.min n ns) d). split; [rewrite skipn_length; lia|].
            intros a0 d0 Ea Hd0 _. inversion Ea; subst a0. rewrite Hd in Hd0. inversion Hd0; subst d0.
            rewrite (C2 b a ds d); auto; try lia.
            * rewrite content_data, Eb, Hds. f_equal. f_equal.
              destruct (Nat.le_ge_cases n ns); [rewrite Nat.min_l by auto; auto|].
              rewrite Nat.min_r by auto. rewrite !firstn_all2 by lia. auto.
            * rewrite D1; congruence.
          + exists d. assert (content (st_mem st) s = []) as C0 by (rewrite content_data, Eb; auto). rewrite C0 in *.
            cbn in LEN. subst ns. split; [lia|]. intros a0 d0 Ea Hd0 _. inversion Ea; subst a0. rewrite firstn_nil. cbn [app].
            unfold copyBuffer in E2. inversion E2; subst. auto.
        - exists (repeat (junk 0 0) (n - ns)). split; [apply repeat_length|]. discriminate. }
      destruct CASE as [e [Le He]]. exists h2, e. repeat (split; auto).
    - destruct p as [a|].
      + destruct C1 as [Np [F1 [d [Hd Ld]]]]. exists h1, d. repeat (split; auto).
        intros a0 d0 Ea Hd0 _. inversion Ea; subst. cbn [app]. auto.
      + exists h1, []. subst n. repeat (split; auto). discriminate. }
  rewrite E2. cbn [andThen].
  destruct (release_ok h2 (o_buf s) P2) as [h3 [E3 _]].
  { apply (rc_live (st_mem st)); auto; [apply R|]. intros a. rewrite R2, R1. lia. }
  rewrite E3. cbn [andThen].
  destruct (V_replace st i s n h1 p h2 h3 ((if keep then firstn n (content (st_mem st) s) else []) ++ e) (o_owns s)) as [V1 B1]; auto.
  - intros a d Ea Hd Ld. split; [eauto|]. rewrite app_length, Le. destruct keep; [rewrite firstn_length; lia|cbn; lia].
  - intros ->. destruct keep.
    + cbn [firstn app]. apply length_zero_iff_nil. lia.
    + cbn. apply length_zero_iff_nil. auto.
  - split; auto. exists (content (st_mem st) s), e. split; [apply storage_value; auto|]. rewrite LEN. auto.
Qed.

Lemma copy_assign_v asserts st i j s o : V st -> i <> j -> storage_at st i = Some s -> storage_at st j = Some o ->
  initialised st i -> initialised st j -> no_assign_to_moved st (CAssign i j) ->
  exists st', copy_assign junk asserts st i s o = (Ok tt, st') /\ V st' /\
    (no_assign_from_empty st (CAssign i j) -> becomes (value_of st) i (content (st_mem st) o) (value_of st')).
Proof.
  intros HV NE Hi Hj Ii Ij HM. pose proof HV as [R [S1 S2]].
  destruct (init_size _ _ _ Ii Hi) as [ns Es]. destruct (init_size _ _ _ Ij Hj) as [no Eo].
  pose proof (S1 _ _ Hi) as OKs. pose proof (S1 _ _ Hj) as OKo.
  pose proof (ok_length _ _ _ OKs Es) as LENs. pose proof (ok_length _ _ _ OKo Eo) as LENo.
  pose proof (RC_live_storage _ _ _ R Hi) as Ls. pose proof (RC_live_storage _ _ _ R Hj) as Lo.
  unfold copy_assign, size_of. rewrite Es, Eo. cbn [andThen]. destruct (Nat.eqb_spec no 0).
  { eexists. split; [reflexivity|]. split; auto. intros HE. cbn in HE.
    assert (content (st_mem st) o = []) as C0 by (apply length_zero_iff_nil; lia).
    rewrite (storage_value _ _ _ Hj), C0 in *. split; auto. }
  assert (HM' : o_owns s = true \/ ns = no).
  { cbn in HM. destruct HM as [HM|[HM|[s' [o' [E1 [E2 HM]]]]]]; [congruence| |].
    - rewrite (storage_value _ _ _ Hj) in HM. inversion HM as [C0]. rewrite C0 in LENo. cbn in LENo. lia.
    - rewrite Hi in E1. rewrite Hj in E2. inversion E1; inversion E2; subst. rewrite Es, Eo in HM. destruct HM; auto.
      right. congruence. }
  assert (OKo' := OKo). unfold okS in OKo'. rewrite Eo in OKo'. destruct (o_buf o) as [b|] eqn:Eb; [|lia].
  destruct OKo' as [ds [Hds [Lds Np]]].
  assert (CO : content (st_mem st) o = ds) by (rewrite content_data, Eb, Hds; auto).
  destruct (Nat.eqb_spec ns no).
  - (* same size: copy in place *)
    subst ns. assert (OKs' := OKs). unfold okS in OKs'. rewrite Es in OKs'. destruct (o_buf s) as [a|] eqn:Ea; [|lia].
    destruct OKs' as [dd [Hdd [Ldd _]]].
    assert (a <> b). { intros ->. apply NE. eapply S2; eauto. }
    destruct (copyBuffer_ok (st_mem st) (Some b) (Some a) no (proj2 R) Lo Ls) as [h3 [E3 [P3 [R3 [D3 C3]]]]].
    rewrite E3. cbn [andThen]. eexists. split; [reflexivity|].
    specialize (C3 b a ds dd eq_refl eq_refl ltac:(auto) Hds Hdd ltac:(lia) ltac:(lia) ltac:(lia)).
    rewrite firstn_all2, skipn_all2, app_nil_r in C3 by lia.
    destruct (V_set st h3 i (Some (HStorage {| o_size := Some no; o_buf := Some a; o_owns := o_owns s |})) HV) as [V1 [V2 V3]].
    + apply RC_set; auto. { eapply storage_lt; eauto. } intros x. rewrite R3, (storage_var _ _ _ Hi). cbn [holds o_buf]. rewrite Ea. auto.
    + eapply storage_lt; eauto.
    + intros x t c NX Ht Hc. apply D3. intros E. inversion E; subst. apply NX. eapply S2; eauto.
    + intros s' E. inversion E; subst. split.
      * unfold okS. cbn [o_size o_buf]. eauto.
      * intros c x t Hc NX Ht Hc'. cbn [o_buf] in Hc. inversion Hc; subst. apply NX. eapply S2; eauto.
    + split; auto. intros _. split; [|auto]. unfold set_var in V3. cbn [st_env] in *. unfold set_var. cbn [st_env]. rewrite V3.
      rewrite content_data. cbn [o_buf]. rewrite C3. congruence.
  - (* reallocate *)
    destruct HM' as [Eow|HM']; [|congruence]. rewrite Eow.
    destruct (create junk (st_mem st) no) as [h1 p] eqn:EC.
    destruct (create_ok _ _ _ _ (proj2 R) EC) as [P1 [R1 [L1 [K1 [D1 C1]]]]].
    destruct (release_ok h1 (o_buf s) P1 (K1 _ Ls)) as [h2 [E2 [P2 [R2 [D2 D2']]]]]. rewrite E2. cbn [andThen].
    destruct p as [a|]; [|lia]. destruct C1 as [_ [F1 [dd [Hdd Ldd]]]].
    assert (NS : o_buf s <> Some a) by (eapply (fresh_not_held st); eauto).
    assert (NB : b <> a). { intros ->. eapply (fresh_not_held st a); eauto. }
    assert (NSB : o_buf s <> Some b). { intros E. apply NE. eapply S2; eauto. }
    (* the intermediate state, freshly allocated *)
    destruct (V_replace st i s no h1 (Some a) h1 h2 dd true HV Hi EC P1) as [VM BM]; auto.
    { intros a0 d0 Ea Hd0 Ld0. inversion Ea; subst. rewrite Hd0 in Hdd. inversion Hdd; subst. auto. }
    { intros; lia. }
    set (stm := set_var st h2 i (Some (HStorage {| o_size := Some no; o_buf := Some a; o_owns := true |}))) in *.
    pose proof VM as [RM [SM1 SM2]].
    assert (Hjm : storage_at stm j = Some o).
    { unfold stm. rewrite storage_set by (eapply storage_lt; eauto). destruct (Nat.eqb_spec j i); [congruence|auto]. }
    assert (Him : storage_at stm i = Some {| o_size := Some no; o_buf := Some a; o_owns := true |}).
    { unfold stm. rewrite storage_set by (eapply storage_lt; eauto). rewrite Nat.eqb_refl. auto. }
    destruct (copyBuffer_ok h2 (Some b) (Some a) no P2) as [h3 [E3 [P3 [R3 [D3 C3]]]]].
    { pose proof (RC_live_storage _ _ _ RM Hjm) as Q. rewrite Eb in Q. exact Q. }
    { exact (RC_live_storage _ _ _ RM Him). }
    rewrite E3. cbn [andThen]. eexists. split; [reflexivity|].
    assert (Hds2 : data h2 b = Some ds). { rewrite D2' by auto. rewrite D1 by congruence. auto. }
    assert (Hdd2 : data h2 a = Some dd). { rewrite D2' by auto. auto. }
    specialize (C3 b a ds dd eq_refl eq_refl NB Hds2 Hdd2 ltac:(lia) ltac:(lia) ltac:(lia)).
    rewrite firstn_all2, skipn_all2, app_nil_r in C3 by lia.
    assert (EQ : {| st_mem := h3; st_env := st_env stm |} = set_var st h3 i (Some (HStorage {| o_size := Some no; o_buf := Some a; o_owns := true |}))) by reflexivity.
    rewrite EQ.
    destruct (V_set st h3 i (Some (HStorage {| o_size := Some no; o_buf := Some a; o_owns := true |})) HV) as [V1 [V2 V3]].
    + rewrite <- EQ. apply RC_mem; auto.
    + eapply storage_lt; eauto.
    + intros x t c NX Ht Hc. assert (c <> a). { intros ->. eapply (fresh_not_held st a); eauto. }
      rewrite D3, D2', D1; try congruence. intros Hc'. apply NX. eapply S2; eauto.
    + intros s' E. inversion E; subst. split.
      * unfold okS. cbn [o_size o_buf]. eauto.
      * intros c x t Hc NX Ht. cbn [o_buf] in Hc. inversion Hc; subst. eapply (fresh_not_held st); eauto.
    + split; auto. intros _. split; [|auto]. rewrite V3. rewrite content_data. cbn [o_buf]. rewrite C3. congruence.
Qed.

Lemma value_none_slot st i : var st i = None -> value_of st i = None.
Proof. unfold value_of, storage_at. intros ->. auto. Qed.

Lemma step_v asserts st c : V st -> allowed asserts st c -> goodV asserts st c (step junk asserts st c).
Proof.
  intros HV [[W D] [NS HM]]. pose proof HV as [R [S1 S2]].
  destruct c as [i|i n|i n x|i l|i j n ow|i j|i j|i j|i j|i j|i n|i n|r i k|r x|r|i]; cbn [step well_formed determinate no_sharing] in *.
  - destruct W as [Li Hi].
    destruct (V_set st (st_mem st) i (Some (HStorage {| o_size := None; o_buf := None; o_owns := true |})) HV) as [V1 [V2 V3]]; auto.
    + apply RC_set; auto; [|apply R]. intros a. rewrite Hi. cbn. lia.
    + intros s' E. inversion E; subst. split; [reflexivity|]. discriminate.
    + split; auto. intros _. split; auto.
  - destruct (create junk (st_mem st) n) as [h1 p] eqn:EC.
    destruct (create_ok _ _ _ _ (proj2 R) EC) as [P1 [R1 [L1 [K1 [D1 C1]]]]].
    assert (exists l, length l = n /\ forall a d, p = Some a -> data h1 a = Some d -> length d = n -> data h1 a = Some l /\ length l = n) as [l [Ll Hl]].
    { destruct p as [a|].
      - destruct C1 as [_ [_ [d [Hd Ld]]]]. exists d. split; auto. intros a0 d0 E H1 H2. inversion E; subst. auto.
      - exists []. split; auto. discriminate. }
    destruct (V_new st i n h1 p h1 l) as [V1 B1]; auto.
    { intros ->. apply length_zero_iff_nil. auto. }
    split; auto. intros _. exists l. auto.
  - destruct (create junk (st_mem st) n) as [h1 p] eqn:EC.
    destruct (create_ok _ _ _ _ (proj2 R) EC) as [P1 [R1 [L1 [K1 [D1 C1]]]]].
    destruct (store_ok h1 p (repeat x n) P1 L1) as [h2 [E2 [P2 [R2 [D2 C2]]]]]. rewrite E2. cbn [andThen].
    destruct (V_new st i n h1 p h2 (repeat x n)) as [V1 B1]; auto.
    { intros a d -> Hd Ld. rewrite repeat_length. split; auto. rewrite (C2 a d) by auto. rewrite repeat_length.
      destruct C1 as [Np _]. replace ((0 <? n) && (n <=? length d)) with true by lia.
      rewrite skipn_all2, app_nil_r by lia. auto. }
    { intros ->. auto. }
    split; auto.
  - destruct (create junk (st_mem st) (length l)) as [h1 p] eqn:EC.
    destruct (create_ok _ _ _ _ (proj2 R) EC) as [P1 [R1 [L1 [K1 [D1 C1]]]]].
    destruct (store_ok h1 p l P1 L1) as [h2 [E2 [P2 [R2 [D2 C2]]]]]. rewrite E2. cbn [andThen].
    destruct (V_new st i (length l) h1 p h2 l) as [V1 B1]; auto.
    { intros a d -> Hd Ld. split; auto. rewrite (C2 a d) by auto.
      destruct C1 as [Np _]. replace ((0 <? length l) && (length l <=? length d)) with true by lia.
      rewrite skipn_all2, app_nil_r by lia. auto. }
    { apply length_zero_iff_nil. }
    split; auto.
  - contradiction.
  - destruct W as [Wi Hj]. destruct (storage_some _ _ Hj) as [o Ho]. rewrite Ho. destruct (init_size _ _ _ D Ho) as [n En].
    unfold size_of. rewrite En. cbn [andThen]. destruct (duplicate_v st i n o j HV Wi Ho En) as [st' [E [V1 B1]]]. rewrite E.
    split; auto. intros _. exists (content (st_mem st) o). split; auto. apply storage_value; auto.
  - destruct W as [[Li Hi] Hj]. destruct (storage_some _ _ Hj) as [o Ho]. rewrite (storage_var _ _ _ Ho).
    destruct (init_size _ _ _ D Ho) as [n En]. unfold size_of. rewrite En. cbn [andThen].
    assert (NE : i <> j) by (intros ->; apply storage_var in Ho; congruence).
    destruct (V_move st (st_mem st) i j o HV NE Li Ho) as [V1 [V2 [V3 V4]]]; auto.
    + intros a. rewrite Hi. cbn. lia.
    + apply R.
    + split; auto. intros _. exists (content (st_mem st) o). split; [apply storage_value; auto|]. rewrite V2.
      split; [apply storage_value; auto|]. auto.
  - destruct W as [Wi Hj]. destruct (storage_some _ _ Hj) as [o Ho]. rewrite Ho. destruct (init_size _ _ _ D Ho) as [n En].
    unfold size_of. rewrite En. cbn [andThen]. destruct (duplicate_v st i n o j HV Wi Ho En) as [st' [E [V1 B1]]]. rewrite E.
    split; auto. intros _. exists (content (st_mem st) o). split; auto. apply storage_value; auto.
  - destruct W as [Hi Hj]. destruct (storage_some _ _ Hi) as [s Hs]. destruct (storage_some _ _ Hj) as [o Ho]. rewrite Hs, Ho.
    destruct (Nat.eqb_spec i j).
    + subst j. split; auto. intros _. exists (content (st_mem st) s). split; [apply storage_value; auto|].
      split; auto. apply storage_value; auto.
    + destruct D as [D|[D1 D2]]; [congruence|].
      destruct (copy_assign_v asserts st i j s o) as [st' [E [V1 B1]]]; auto. rewrite E.
      split; auto. intros HE. exists (content (st_mem st) o). split; auto. apply storage_value; auto.
  - destruct W as [Hi Hj]. destruct (storage_some _ _ Hi) as [s Hs]. destruct (storage_some _ _ Hj) as [o Ho]. rewrite Hs, Ho.
    destruct (Nat.eqb_spec i j).
    + subst j. split; auto. intros _. exists (content (st_mem st) s). split; [apply storage_value; auto|].
      split; [apply storage_value; auto|]. split; [congruence|auto].
    + destruct (init_size _ _ _ D Ho) as [n0 En]. unfold size_of. rewrite En. cbn [andThen].
      destruct (release_ok _ _ (proj2 R) (RC_live_storage _ _ _ R Hs)) as [h1 [E1 [P1 [R1 [D1 D1']]]]]. rewrite E1. cbn [andThen].
      destruct (V_move st h1 i j o HV n) as [V1 [V2 [V3 V4]]]; auto.
      * eapply storage_lt; eauto.
      * intros a. rewrite (storage_var _ _ _ Hs). apply R1.
      * intros x t a NX Ht Ha. apply D1'. intros Ha'. apply NX. eapply S2; eauto.
      * split; auto. intros _. exists (content (st_mem st) o). split; [apply storage_value; auto|]. rewrite V2.
        split; [apply storage_value; auto|]. auto.
  - destruct (storage_some _ _ W) as [s Hs]. rewrite Hs. pose proof (resize_v asserts true st i s n HV Hs D) as G.
    destruct (do_resize junk asserts true st i s n) as [[?|?|] st']; [| |contradiction].
    + destruct G as [V1 [l [e G]]]. split; auto. intros _. exists l, e. auto.
    + destruct G as [-> ->]. split; auto.
  - destruct (storage_some _ _ W) as [s Hs]. rewrite Hs. pose proof (resize_v asserts false st i s n HV Hs D) as G.
    destruct (do_resize junk asserts false st i s n) as [[?|?|] st']; [| |contradiction].
    + destruct G as [V1 [l [e [_ G]]]]. split; auto. intros _. exists e. auto.
    + destruct G as [-> ->]. split; auto.
  - destruct W as [[Li Hi] Hj]. destruct (storage_some _ _ Hj) as [o Ho]. rewrite Ho.
    assert (exists m, (if asserts then size_of o else Ok (S k)) = Ok m /\ (asserts = false -> m = S k)) as [m [-> Hm]].
    { destruct asserts; [|eauto]. destruct (init_size _ _ _ (D eq_refl) Ho) as [n0 En]. unfold size_of. rewrite En.
      exists n0. split; auto. discriminate. }
    cbn [andThen]. destruct (Nat.leb_spec m k).
    { split; [destruct asserts; auto; specialize (Hm eq_refl); lia|]. auto. }
    destruct (retain_ok _ _ (proj2 R) (RC_live_storage _ _ _ R Ho)) as [h1 [E1 [P1 [R1 D1]]]]. rewrite E1. cbn [andThen].
    destruct (V_set st h1 r (Some (HRef {| r_buf := o_buf o; r_off := k |})) HV) as [V1 [V2 V3]]; auto.
    + apply RC_set; auto. intros a. rewrite R1, Hi. cbn. lia.
    + discriminate.
    + split; auto. intros _. split; [exists (content (st_mem st) o); apply storage_value; auto|].
      intros x. destruct (Nat.eq_dec x r) as [->|NE]; [|auto]. rewrite V3. symmetry. apply value_none_slot. auto.
  - destruct W as [f Hf]. rewrite Hf. pose proof (RC_live st r R) as L. rewrite Hf in L. cbn [holds] in L.
    destruct (set_ok _ f x (proj2 R) L) as [h1 [E1 [P1 [R1 [D1 C1]]]]]. rewrite E1. cbn [andThen].
    set (st' := {| st_mem := h1; st_env := st_env st |}).
    assert (SA : forall y, storage_at st' y = storage_at st y) by reflexivity.
    assert (OTHER : forall y s, storage_at st y = Some s -> (forall a, r_buf f = Some a -> o_buf s <> Some a) ->
              content h1 s = content (st_mem st) s).
    { intros y s Hs N. apply content_same. intros a Ha. apply D1. intros Hb. eapply N; eauto. }
    split.
    + intros _. split.
      * intros y k [f' [s [Hf' [Hs [NN [EB Ek]]]]]]. rewrite Hf in Hf'. inversion Hf'; subst f'. subst k.
        destruct (o_buf s) as [a|] eqn:Ea; [|congruence].
        destruct (RC_live_storage _ _ _ R Hs a Ea) as [b Bb].
        assert (Db : data (st_mem st) a = Some (b_data b)) by (unfold data; rewrite Bb; auto).
        exists (b_data b). split.
        { rewrite (storage_value _ _ _ Hs), content_data, Ea, Db. auto. }
        { unfold value_of. rewrite SA, Hs. cbn [option_map]. rewrite content_data. rewrite Ea.
          change (st_mem st') with h1. rewrite (C1 a (b_data b)); auto. }
      * intros y N. unfold value_of. rewrite SA. destruct (storage_at st y) as [s|] eqn:Hs; auto. cbn [option_map]. f_equal.
        apply (OTHER y); auto. intros a Ha Hb. apply (N (r_off f)). exists f, s. repeat split; auto; congruence.
    + split; [apply RC_mem; auto|split].
      * intros y s Hs. rewrite SA in Hs. specialize (S1 _ _ Hs). unfold okS in *. change (st_mem st') with h1.
        destruct (o_size s); auto. destruct (o_buf s) as [a|]; auto. destruct S1 as [d [Hd [Ld Np]]].
        destruct (r_buf f) as [b|] eqn:Eb.
        -- destruct (Nat.eq_dec a b) as [->|NE].
           ++ rewrite (C1 b d); auto. eexists. split; [reflexivity|]. rewrite upd_length. auto.
           ++ rewrite D1 by congruence. eauto.
        -- rewrite D1 by congruence. eauto.
      * intros y z s t a. rewrite !SA. eauto.
  - destruct W as [f Hf]. rewrite Hf. destruct (get_ok _ _ _ R Hf D) as [a [b [x [_ [_ [_ E]]]]]]. rewrite E. split; auto.
    intros _ y. auto.
  - destruct (var st i) as [o|] eqn:Vi; [|congruence].
    pose proof (RC_live st i R) as L. rewrite Vi in L.
    destruct (release_ok _ _ (proj2 R) L) as [h1 [E1 [P1 [R1 [D1 D1']]]]]. rewrite E1. cbn [andThen].
    assert (Li : i < length (st_env st)) by (apply var_lt; congruence).
    assert (RN : RC (set_var st h1 i None)).
    { apply RC_set; auto. intros a. rewrite Vi. specialize (R1 a). cbn. cbn in R1. lia. }
    destruct (V_set st h1 i None HV RN) as [V1 [V2 V3]]; auto.
    + intros x s a NE Hs Ha. apply D1. apply pos_live; auto.
      pose proof (RC_live _ x RN) as LX. rewrite var_set_other in LX by auto. rewrite (storage_var _ _ _ Hs) in LX.
      destruct (LX a Ha) as [b Bb]. eauto.
    + discriminate.
    + split; auto. intros _. split; auto.
Qed.

Lemma run_v asserts cs : forall st, V st -> along junk asserts (allowed asserts) st cs ->
  exists st', run junk asserts st cs = Some st' /\ V st'.
Proof.
  induction cs as [|c cs IH]; intros st R H; cbn [run along] in *; [eauto|].
  destruct H as [H1 H2]. pose proof (step_v asserts st c R H1) as K. destruct (step junk asserts st c) as [[?|?|] st'];
    cbn [goodV] in K; [apply IH; [apply K|auto]|apply IH; [apply K|auto]|contradiction].
Qed.

(** ** References *)
Lemma run_app asserts cs cs' : forall st, run junk asserts st (cs ++ cs') =
  match run junk asserts st cs with Some st' => run junk asserts st' cs' | None => None end.
Proof.
  induction cs as [|c cs IH]; intros st; cbn [run app]; auto.
  destruct (step junk asserts st c) as [[?|?|] st']; auto.
Qed.
(** a variable that a command does not rebind keeps its handle *)
Lemma step_handle asserts st c x st' r : step junk asserts st c = (r, st') -> r <> UB -> ~ In x (rebinds c) -> var st' x = var st x.
Proof.
  intros E NU NI. assert (SV : forall h i o, x <> i -> var (set_var st h i o) x = var st x) by (intros; apply var_set_other; auto).
  assert (AT : forall (o : outcome (memory A)) s0 (k : memory A -> result A), andThen s0 o k = (r, st') ->
            var s0 x = var st x -> (forall h, k h = (r, st') -> var st' x = var st x) -> var st' x = var st x).
  { intros o s0 k E0 H0 H. destruct o; cbn [andThen] in E0; eauto; inversion E0; subst; auto. }
  assert (AN : forall (o : outcome nat) s0 (k : nat -> result A), andThen s0 o k = (r, st') ->
            var s0 x = var st x -> (forall m, k m = (r, st') -> var st' x = var st x) -> var st' x = var st x).
  { intros o s0 k E0 H0 H. destruct o; cbn [andThen] in E0; eauto; inversion E0; subst; auto. }
  destruct c as [i|i n|i n y|i l|i j n ow|i j|i j|i j|i j|i j|i n|i n|rr i k|rr y|rr|i]; cbn [step rebinds In] in *;
    repeat match goal with H : ~ (_ \/ _) |- _ => apply Decidable.not_or in H; destruct H end.
  - inversion E; subst. auto.
  - destruct (create junk (st_mem st) n). inversion E; subst. auto.
  - destruct (create junk (st_mem st) n). match goal with H : andThen _ _ _ = _ |- _ => refine (AT _ _ _ H _ _); clear H; [first [reflexivity|apply SV; auto]|] end. intros h E0. inversion E0; subst. auto.
  - destruct (create junk (st_mem st) (length l)). match goal with H : andThen _ _ _ = _ |- _ => refine (AT _ _ _ H _ _); clear H; [first [reflexivity|apply SV; auto]|] end. intros h E0. inversion E0; subst. auto.
  - destruct (storage_at st j); [|inversion E; subst; auto]. match goal with H : andThen _ _ _ = _ |- _ => refine (AT _ _ _ H _ _); clear H; [first [reflexivity|apply SV; auto]|] end. intros h E0. inversion E0; subst. auto.
  - destruct (storage_at st j); [|inversion E; subst; auto]. match goal with H : andThen _ _ _ = _ |- _ => refine (AN _ _ _ H _ _); clear H; [first [reflexivity|apply SV; auto]|] end. intros n E0. unfold duplicate in E0.
    destruct (create junk (st_mem st) n). match goal with H : andThen _ _ _ = _ |- _ => refine (AT _ _ _ H _ _); clear H; [first [reflexivity|apply SV; auto]|] end. intros h E1. inversion E1; subst. auto.
  - destruct (var st j) as [[o|?]|]; try (inversion E; subst; auto; fail). match goal with H : andThen _ _ _ = _ |- _ => refine (AN _ _ _ H _ _); clear H; [first [reflexivity|apply SV; auto]|] end. intros n E0. inversion E0; subst.
    rewrite var_set_other by auto. auto.
  - destruct (storage_at st j); [|inversion E; subst; auto]. match goal with H : andThen _ _ _ = _ |- _ => refine (AN _ _ _ H _ _); clear H; [first [reflexivity|apply SV; auto]|] end. intros n E0. unfold duplicate in E0.
    destruct (create junk (st_mem st) n). match goal with H : andThen _ _ _ = _ |- _ => refine (AT _ _ _ H _ _); clear H; [first [reflexivity|apply SV; auto]|] end. intros h E1. inversion E1; subst. auto.
  - destruct (storage_at st i) as [s|]; [|inversion E; subst; auto]. destruct (storage_at st j) as [o|]; [|inversion E; subst; auto].
    destruct (i =? j); [inversion E; subst; auto|]. unfold copy_assign in E. match goal with H : andThen _ _ _ = _ |- _ => refine (AN _ _ _ H _ _); clear H; [first [reflexivity|apply SV; auto]|] end. intros no E0. cbn beta in E0.
    destruct (no =? 0); [inversion E0; subst; auto|]. match goal with H : andThen _ _ _ = _ |- _ => refine (AN _ _ _ H _ _); clear H; [first [reflexivity|apply SV; auto]|] end. intros ns E1. cbn beta zeta in E1.
    destruct (ns =? no). { match goal with H : andThen _ _ _ = _ |- _ => refine (AT _ _ _ H _ _); clear H; [first [reflexivity|apply SV; auto]|] end. intros h E2. inversion E2; subst. cbn [var st_env]. apply SV; auto. }
    destruct (o_owns s).
    { destruct (create junk (st_mem st) no). match goal with H : andThen _ _ _ = _ |- _ => refine (AT _ _ _ H _ _); clear H; [first [reflexivity|apply SV; auto]|] end. intros h E2. cbn beta in E2. match goal with H : andThen _ _ _ = _ |- _ => refine (AT _ _ _ H _ _); clear H; [first [reflexivity|apply SV; auto]|] end. intros h' E3. inversion E3; subst. cbn [var st_env].
      apply (SV h); auto. }
    destruct asserts; [inversion E1; subst; auto|]. match goal with H : andThen _ _ _ = _ |- _ => refine (AT _ _ _ H _ _); clear H; [first [reflexivity|apply SV; auto]|] end. intros h E2. inversion E2; subst. cbn [var st_env]. apply SV; auto.
  - destruct (storage_at st i) as [s|]; [|inversion E; subst; auto]. destruct (storage_at st j) as [o|]; [|inversion E; subst; auto].
    destruct (i =? j); [inversion E; subst; auto|]. match goal with H : andThen _ _ _ = _ |- _ => refine (AN _ _ _ H _ _); clear H; [first [reflexivity|apply SV; auto]|] end. intros n E0. cbn beta in E0. match goal with H : andThen _ _ _ = _ |- _ => refine (AT _ _ _ H _ _); clear H; [first [reflexivity|apply SV; auto]|] end. intros h E1. inversion E1; subst.
    rewrite var_set_other by auto. auto.
  - destruct (storage_at st i) as [s|]; [|inversion E; subst; auto]. unfold do_resize in E. match goal with H : andThen _ _ _ = _ |- _ => refine (AN _ _ _ H _ _); clear H; [first [reflexivity|apply SV; auto]|] end. intros ns E0. cbn beta in E0.
    destruct (n =? ns); [inversion E0; subst; auto|]. destruct (asserts && (n =? 0)); [inversion E0; subst; auto|].
    destruct (asserts && negb (o_owns s)); [inversion E0; subst; auto|]. destruct (create junk (st_mem st) n).
    match goal with H : andThen _ _ _ = _ |- _ => refine (AT _ _ _ H _ _); clear H; [first [reflexivity|apply SV; auto]|] end. intros h E1. cbn beta in E1. match goal with H : andThen _ _ _ = _ |- _ => refine (AT _ _ _ H _ _); clear H; [first [reflexivity|apply SV; auto]|] end. intros h' E2. inversion E2; subst. auto.
  - destruct (storage_at st i) as [s|]; [|inversion E; subst; auto]. unfold do_resize in E. match goal with H : andThen _ _ _ = _ |- _ => refine (AN _ _ _ H _ _); clear H; [first [reflexivity|apply SV; auto]|] end. intros ns E0. cbn beta in E0.
    destruct (n =? ns); [inversion E0; subst; auto|]. destruct (asserts && (n =? 0)); [inversion E0; subst; auto|].
    destruct (asserts && negb (o_owns s)); [inversion E0; subst; auto|]. destruct (create junk (st_mem st) n).
    match goal with H : andThen _ _ _ = _ |- _ => refine (AT _ _ _ H _ _); clear H; [first [reflexivity|apply SV; auto]|] end. intros h E1. cbn beta in E1. match goal with H : andThen _ _ _ = _ |- _ => refine (AT _ _ _ H _ _); clear H; [first [reflexivity|apply SV; auto]|] end. intros h' E2. inversion E2; subst. auto.
  - destruct (storage_at st i) as [s|]; [|inversion E; subst; auto]. match goal with H : andThen _ _ _ = _ |- _ => refine (AN _ _ _ H _ _); clear H; [first [reflexivity|apply SV; auto]|] end. intros n E0. cbn beta in E0.
    destruct (n <=? k); [inversion E0; subst; auto|]. match goal with H : andThen _ _ _ = _ |- _ => refine (AT _ _ _ H _ _); clear H; [first [reflexivity|apply SV; auto]|] end. intros h E1. inversion E1; subst. auto.
  - destruct (var st rr) as [[?|f]|]; try (inversion E; subst; auto; fail). match goal with H : andThen _ _ _ = _ |- _ => refine (AT _ _ _ H _ _); clear H; [first [reflexivity|apply SV; auto]|] end. intros h E0. inversion E0; subst. auto.
  - destruct (var st rr) as [[?|f]|]; try (inversion E; subst; auto; fail).
    destruct (get (st_mem st) f); inversion E; subst; auto.
  - destruct (var st i) as [o|]; [|inversion E; subst; auto]. match goal with H : andThen _ _ _ = _ |- _ => refine (AT _ _ _ H _ _); clear H; [first [reflexivity|apply SV; auto]|] end. intros h E0. inversion E0; subst. auto.
Qed.
Lemma denotes_handles st st' r i k : var st' r = var st r -> var st' i = var st i -> denotes st r i k -> denotes st' r i k.
Proof.
  intros E1 E2 [f [s [H1 [H2 H3]]]]. exists f, s. rewrite E1. unfold storage_at in *. rewrite E2. auto.
Qed.
Lemma denotes_run asserts cs r i k : forall st st', run junk asserts st cs = Some st' ->
  (forall c, In c cs -> ~ In r (rebinds c) /\ ~ In i (rebinds c)) -> denotes st r i k -> denotes st' r i k.
Proof.
  induction cs as [|c cs IH]; intros st st' E H D; cbn [run] in E; [inversion E; subst; auto|].
  destruct (H c (or_introl eq_refl)) as [N1 N2].
  destruct (step junk asserts st c) as [[?|?|] st1] eqn:ES; try discriminate;
    (apply (IH st1); [exact E|intros; apply H; right; auto|];
     apply (denotes_handles st); auto; eapply step_handle; eauto; discriminate).
Qed.
Lemma denotes_get st r i k l : V st -> denotes st r i k -> value_of st i = Some l -> k < length l ->
  exists f x, var st r = Some (HRef f) /\ nth_error l k = Some x /\ get (st_mem st) f = Ok x.
Proof.
  intros [R [S1 S2]] [f [s [Hf [Hs [NN [EB Ek]]]]]] Hv Lk.
  rewrite (storage_value _ _ _ Hs) in Hv. inversion Hv as [Hl]. rewrite content_data in Hl.
  destruct (o_buf s) as [a|] eqn:Ea; [|congruence]. destruct (RC_live_storage _ _ _ R Hs a Ea) as [b Bb].
  unfold data in Hl. rewrite Bb in Hl. cbn in Hl. subst l.
  destruct (nth_error (b_data b) k) as [x|] eqn:E; [|apply nth_error_None in E; lia].
  exists f, x. split; auto. split; [injection Hv as ->; exact E|]. unfold get, rd. rewrite <- EB, Bb, Ek, E. auto.
Qed.
Lemma ref_denotes asserts st r i k l : V st -> unused st r -> value_of st i = Some l -> k < length l ->
  (asserts = true -> initialised st i) ->
  exists st', step junk asserts st (CRef r i k) = (Ok tt, st') /\ denotes st' r i k /\ forall x, value_of st' x = value_of st x.
Proof.
  intros HV U Hv Lk D. pose proof HV as [R [S1 S2]]. destruct (value_storage _ _ _ Hv) as [s [Hs ->]].
  assert (AL : allowed asserts st (CRef r i k)).
  { repeat split; cbn; auto; try apply U. unfold is_storage. congruence. }
  pose proof (step_v asserts st _ HV AL) as G. cbn [step] in *. rewrite Hs in *.
  pose proof (S1 _ _ Hs) as OK.
  assert (exists m, (if asserts then size_of s else Ok (S k)) = Ok m /\ k < m) as [m [Em Lm]].
  { destruct asserts; [|exists (S k); split; auto]. destruct (init_size _ _ _ (D eq_refl) Hs) as [n En]. unfold size_of. rewrite En.
    exists n. split; auto. rewrite <- (ok_length _ _ _ OK En). auto. }
  rewrite Em in *. cbn [andThen] in *. destruct (Nat.leb_spec m k); [lia|].
  destruct (retain_ok _ _ (proj2 R) (RC_live_storage _ _ _ R Hs)) as [h1 [E1 [P1 [R1 D1]]]]. rewrite E1 in *. cbn [andThen] in *.
  eexists. split; [reflexivity|]. cbn [goodV] in G. destruct G as [G _]. specialize (G I). cbn [spec_step] in G. destruct G as [_ G].
  split; auto. destruct U as [Lr Hr]. exists {| r_buf := o_buf s; r_off := k |}, s.
  rewrite var_set_same by auto. split; auto. rewrite storage_set by auto.
  destruct (Nat.eqb_spec i r). { subst. unfold storage_at in Hs. rewrite Hr in Hs. discriminate. }
  split; auto. split; [|auto]. intros E. rewrite content_data, E in Lk. cbn in Lk. lia.
Qed.
End P.
