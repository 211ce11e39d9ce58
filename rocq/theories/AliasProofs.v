(** Proofs about assignments that mention their destination. *)
From Coq Require Import Permutation.
From Verif Require Import Base BaseProofs ShapeModel ShapeSpec ShapeProofs ViewModel ViewSpec ViewProofs.
From Verif Require Import TransposeModel TransposeSpec TransposeProofs MatmulModel MatmulSpec MatmulProofs AliasModel AliasSpec.
From Verif Require AssignModel.
From Coq Require Import ZifyNat ZifyN ZifyBool.
Ltac Zify.zify_post_hook ::= idtac.

Section Proofs.
Context {A : Type}.
Variable mul : A -> A -> A.
Local Notation value := (value mul).
Implicit Types (st : store A) (e : expr A).

Lemma set_same st id a : set_arr st id a id = a.
Proof. unfold set_arr. rewrite Nat.eqb_refl. auto. Qed.
Lemma set_other st id a j : j <> id -> set_arr st id a j = st j.
Proof. intros H. unfold set_arr. replace (j =? id) with false by lia. auto. Qed.

Lemma mapM_ok {B C} (f : B -> outcome C) (P : B -> C -> Prop) l :
  (forall x, In x l -> exists y, f x = Ok y /\ P x y) ->
  exists ys, mapM f l = Ok ys /\ Forall2 P l ys.
Proof.
  induction l as [|x l IH]; intros H; cbn [mapM]; [eauto|].
  destruct (H x (or_introl eq_refl)) as (y & E & HP). rewrite E. cbn [bind].
  destruct IH as (ys & E2 & H2); [intros; apply H; right; auto|]. rewrite E2. cbn [bind]. eauto.
Qed.
Lemma Forall2_nth {B C} (P : B -> C -> Prop) l l' : Forall2 P l l' -> length l' = length l /\
  forall i x, nth_error l i = Some x -> exists y, nth_error l' i = Some y /\ P x y.
Proof.
  induction 1 as [|x y l l' H HF (IH1 & IH2)]; [split; auto; intros [|]; discriminate|].
  cbn [length]. split; [lia|]. intros [|i] z Hz; cbn in Hz.
  - injection Hz as <-. exists y. auto.
  - apply IH2. auto.
Qed.

Lemma nth_error_seq n i : i < n -> nth_error (seq 0 n) i = Some i.
Proof. intros H. rewrite (nth_error_nth' _ 0) by (rewrite seq_length; auto). rewrite seq_nth by auto. auto. Qed.

Lemma decode2 r c (k : nat) : (k < r * c)%nat -> k = (k / c * c + k mod c)%nat /\ (k / c < r)%nat /\ (k mod c < c)%nat.
Proof.
  intros H. assert (c <> 0)%nat by lia. pose proof (Nat.div_mod k c H0). pose proof (Nat.mod_upper_bound k c H0).
  split; [lia|]. split; [|lia]. apply Nat.div_lt_upper_bound; lia.
Qed.

Lemma position2 (i j r c : N) : position [i; j] [r; c] = (i * c + j)%N.
Proof. cbn [position prod]. lia. Qed.
Lemma prod2 (r c : N) : prod [r; c] = (r * c)%N.
Proof. cbn [prod]. lia. Qed.
Lemma dense_swap r c : dense [r; c] -> dense [c; r].
Proof.
  intros (D1 & D2 & D3). inversion D2 as [|? ? Hr D2']; subst. inversion D2' as [|? ? Hc _]; subst.
  split; [discriminate|]. split; [repeat constructor; auto|]. rewrite prod2 in *. lia.
Qed.
Lemma in_range2 i j r c : in_range [i; j] [r; c] <-> (i < r /\ j < c)%N.
Proof.
  split; [|intros []; repeat constructor; auto]. intros H. inversion H as [|? ? ? ? H1 H2]; subst.
  inversion H2; subst. auto.
Qed.
Lemma in_range2_inv idx r c : in_range idx [r; c] -> exists i j, idx = [i; j] /\ (i < r)%N /\ (j < c)%N.
Proof.
  intros H. inversion H as [|i ? l ? H1 H2]; subst. inversion H2 as [|j ? l' ? H3 H4]; subst. inversion H4; subst. eauto.
Qed.

(** The value of an expression, computed by scalar(), is the value it stands for. *)
Lemma scalar_value b junk st : 0 < b -> forall e s idx, (s = [] \/ dense s) -> well_shaped st e s -> in_range idx s ->
  exists x, scalar mul b junk st e (N.to_nat (position idx s)) = Ok x /\ value st e idx = Some x.
Proof.
  intros Hb. induction e as [id|id v|x|f e IH|f e1 IH1 e2 IH2|rows cols e IH alpha]; intros s idx HD HW HR;
    cbn [scalar AliasSpec.value well_shaped] in *.
  - destruct HW as (<- & HL). pose proof (position_lt _ _ HR). unfold rd, element.
    destruct (nth_error_lt_some (snd (st id)) (N.to_nat (position idx (fst (st id))))) as (x & E); [lia|]. rewrite E. eauto.
  - destruct HW as (<- & HV). rewrite N2Nat.id. apply scalar_element; auto.
  - eauto.
  - destruct (IH s idx HD HW HR) as (x & E1 & E2). rewrite E1, E2. cbn [bind]. eauto.
  - destruct HW as (W1 & W2). destruct (IH1 s idx HD W1 HR) as (x & E1 & E2). destruct (IH2 s idx HD W2 HR) as (y & E3 & E4).
    rewrite E1, E2, E3, E4. cbn [bind]. eauto.
  - destruct HW as (-> & HW). destruct HD as [HD|HD]; [discriminate|]. pose proof (dense_swap _ _ HD) as HD'.
    assert (INP : exists inp,
      match e with EArr id => Ok (snd (st id)) | _ => mapM (fun k => scalar mul b junk st e k) (seq 0 (rows * cols)) end = Ok inp
      /\ length inp = rows * cols /\ forall i j, i < rows -> j < cols ->
           nth_error inp (i * cols + j) = value st e [N.of_nat i; N.of_nat j]).
    { assert (G : exists inp, mapM (fun k => scalar mul b junk st e k) (seq 0 (rows * cols)) = Ok inp
        /\ length inp = rows * cols /\ forall i j, i < rows -> j < cols ->
           nth_error inp (i * cols + j) = value st e [N.of_nat i; N.of_nat j]).
      { destruct (mapM_ok (fun k => scalar mul b junk st e k)
          (fun k x => value st e [N.of_nat (k / cols); N.of_nat (k mod cols)] = Some x) (seq 0 (rows * cols))) as (ys & E & F).
        { intros k Hk. apply in_seq in Hk. destruct (decode2 rows cols k) as (K1 & K2 & K3); [lia|].
          destruct (IH [N.of_nat rows; N.of_nat cols] [N.of_nat (k / cols); N.of_nat (k mod cols)]) as (x & E1 & E2); auto.
          { apply in_range2. lia. }
          exists x. split; auto. rewrite position2 in E1. rewrite K1. rewrite <- E1. f_equal. lia. }
        destruct (Forall2_nth _ _ _ F) as (L & P). rewrite seq_length in L. exists ys. split; auto. split; auto.
        intros i j Hi Hj. assert (Hk : i * cols + j < rows * cols) by nia.
        destruct (P _ _ (nth_error_seq _ _ Hk)) as (y & Ey & Hy). rewrite Ey, <- Hy.
        rewrite Nat.div_add_l, Nat.div_small, Nat.add_0_r by lia. rewrite Nat.add_comm, Nat.mod_add, Nat.mod_small by lia. reflexivity. }
      destruct e; try exact G. cbn [well_shaped] in HW. destruct HW as (W1 & W2). exists (snd (st id)). split; auto.
      rewrite prod2 in W2. split; [lia|]. intros i j Hi Hj. cbn [AliasSpec.value]. unfold element. rewrite W1, position2. f_equal. lia. }
    destruct INP as (inp & EI & LI & PI). rewrite EI. cbn [bind].
    destruct (generic_good mul b Hb rows cols alpha inp (map junk (seq 0 (cols * rows)))) as (out & EO & (LO & PO));
      [lia|rewrite map_length, seq_length; lia|].
    rewrite EO. cbn [bind]. destruct (in_range2_inv _ _ _ HR) as (i & j & -> & Hi & Hj).
    destruct (PO (N.to_nat j) (N.to_nat i)) as (x & E1 & E2); [lia|lia|].
    rewrite PI in E1 by lia. rewrite !N2Nat.id in E1. cbn [rev app]. rewrite E1. exists (mul x alpha). split; auto.
    unfold rd. rewrite position2. replace (N.to_nat (i * N.of_nat rows + j)) with (N.to_nat i * rows + N.to_nat j) by lia.
    rewrite E2. reflexivity.
Qed.

Lemma eshape_ok asserts st : forall e s, well_shaped st e s -> 
  (eshape asserts st e = Ok (Some s)) \/ (~ has_array e /\ eshape asserts st e = Ok None).
Proof.
  induction e as [id|id v|x|f e IH|f e1 IH1 e2 IH2|rows cols e IH alpha]; intros s HW; cbn [eshape well_shaped has_array] in *.
  - left. destruct HW as (<- & _). auto.
  - left. destruct HW as (<- & _). auto.
  - right. auto.
  - auto.
  - destruct HW as (W1 & W2). destruct (IH1 s W1) as [E1|(N1 & E1)], (IH2 s W2) as [E2|(N2 & E2)]; rewrite E1, E2; cbn [bind].
    + left. rewrite (proj2 (shape_eqb_spec s s) eq_refl), check_true. reflexivity.
    + left. auto.
    + left. auto.
    + right. split; auto. tauto.
  - left. destruct HW as (-> & _). auto.
Qed.
Lemma eshape_some asserts st e s : well_shaped st e s -> has_array e -> eshape asserts st e = Ok (Some s).
Proof. intros H1 H2. destruct (eshape_ok asserts st e s H1) as [E|(N & _)]; auto. contradiction. Qed.

(** ** Stability *)
Lemma view_ok_length v (m m' : list A) : length m' = length m -> view_ok v m -> view_ok v m'.
Proof. intros L (? & ? & ? & H4). split; [auto|split; [auto|split; auto]]. intros. rewrite L. auto. Qed.

Definition same_frame id st st' : Prop :=
  only_changes id st st' /\ fst (st' id) = fst (st id) /\ length (snd (st' id)) = length (snd (st id)).

Lemma well_shaped_frame id st st' : same_frame id st st' -> forall e s, well_shaped st e s -> well_shaped st' e s.
Proof.
  intros (F1 & F2 & F3). 
  assert (G : forall j, fst (st' j) = fst (st j) /\ length (snd (st' j)) = length (snd (st j))).
  { intros j. destruct (Nat.eq_dec j id) as [->|N]; auto. rewrite F1 by auto. auto. }
  induction e as [j|j v|x|f e IH|f e1 IH1 e2 IH2|rows cols e IH alpha]; intros s; cbn [well_shaped]; auto.
  - destruct (G j) as (-> & ->). auto.
  - destruct (G j) as (_ & L). intros (H1 & H2). split; auto. eapply view_ok_length; eauto.
  - intros []. auto.
  - intros []. auto.
Qed.

Lemma value_unmentioned id st st' : only_changes id st st' -> forall e idx, ~ mentions id e -> value st' e idx = value st e idx.
Proof.
  intros F. induction e as [j|j v|x|f e IH|f e1 IH1 e2 IH2|rows cols e IH alpha]; intros idx; cbn [AliasSpec.value mentions]; intros H.
  - rewrite F; auto.
  - rewrite F; auto.
  - auto.
  - rewrite IH; auto.
  - rewrite IH1, IH2; auto.
  - rewrite IH; auto.
Qed.
Lemma value_elementwise id st st' idx : only_changes id st st' ->
  element (fst (st' id)) (snd (st' id)) idx = element (fst (st id)) (snd (st id)) idx ->
  forall e, elementwise_in id e -> value st' e idx = value st e idx.
Proof.
  intros F HE. induction e as [j|j v|x|f e IH|f e1 IH1 e2 IH2|rows cols e IH alpha]; cbn [AliasSpec.value elementwise_in]; intros H.
  - destruct (Nat.eq_dec j id) as [->|N]; auto. rewrite F; auto.
  - rewrite F; auto.
  - auto.
  - rewrite IH; auto.
  - destruct H. rewrite IH1, IH2; auto.
  - rewrite (value_unmentioned id st st'); auto.
Qed.
Lemma value_views id (P : view -> Prop) st st' idx : only_changes id st st' ->
  (forall v, P v -> view_element v (snd (st' id)) idx = view_element v (snd (st id)) idx) ->
  forall e, views_in id P e -> value st' e idx = value st e idx.
Proof.
  intros F HE. induction e as [j|j v|x|f e IH|f e1 IH1 e2 IH2|rows cols e IH alpha]; cbn [AliasSpec.value views_in]; intros H.
  - rewrite F; auto.
  - destruct (Nat.eq_dec j id) as [->|N]; auto. rewrite F; auto.
  - auto.
  - rewrite IH; auto.
  - destruct H. rewrite IH1, IH2; auto.
  - rewrite (value_unmentioned id st st'); auto.
Qed.

(** ** array = expression *)
Lemma resize_keeps asserts (junk : nat -> A) d n : length d = n -> n <> 0 -> AssignModel.resize_discard asserts junk d n = Ok d.
Proof.
  intros L N. unfold AssignModel.resize_discard. replace (negb (n =? 0)) with true by lia. rewrite check_true. cbn [bind].
  replace (length d =? n) with true by lia. auto.
Qed.
Lemma dense_size s : dense s -> size s = prod s /\ (0 < prod s)%N.
Proof.
  intros (_ & D2 & D3). split; [apply size_exact; lia|apply prod_pos; auto].
Qed.

Lemma write_loop b junk lhs e st0 s : 0 < b -> dense s -> well_shaped st0 e s -> elementwise_in lhs e ->
  fst (st0 lhs) = s -> N.of_nat (length (snd (st0 lhs))) = prod s ->
  forall sched, NoDup sched -> (forall i, In i sched -> i < N.to_nat (prod s)) ->
  forall cur, same_frame lhs st0 cur ->
    (forall i, In i sched -> nth_error (snd (cur lhs)) i = nth_error (snd (st0 lhs)) i) ->
  exists st', for_list sched (fun i st =>
          do x <- scalar mul b junk st e i;
          do d <- wr (snd (st lhs)) i x;
          Ok (set_arr st lhs (fst (st lhs), d))) cur = Ok st' /\ same_frame lhs st0 st' /\
    (forall idx, in_range idx s -> In (N.to_nat (position idx s)) sched ->
       nth_error (snd (st' lhs)) (N.to_nat (position idx s)) = value st0 e idx) /\
    (forall i, ~ In i sched -> nth_error (snd (st' lhs)) i = nth_error (snd (cur lhs)) i).
Proof.
  intros Hb HD HW HE HS HL. induction sched as [|i sched IH]; intros ND HI cur HF HO; cbn [for_list].
  - exists cur. split; auto. split; auto. split; [intros ? ? []|auto].
  - assert (Hi : i < N.to_nat (prod s)) by (apply HI; left; auto).
    destruct (decode_spec s (N.of_nat i)) as (HR & HP); [apply HD|lia|].
    set (idx := decode (N.of_nat i) s) in *.
    assert (EP : N.to_nat (position idx s) = i) by lia.
    assert (V : value cur e idx = value st0 e idx).
    { apply (value_elementwise lhs); auto; [apply HF|]. destruct HF as (_ & F2 & _). unfold element. rewrite F2, HS, EP.
      apply HO. left. auto. }
    destruct (scalar_value b junk cur Hb e s idx (or_intror HD) (well_shaped_frame _ _ _ HF _ _ HW) HR) as (x & E1 & E2).
    rewrite EP in E1. rewrite E1. cbn [bind].
    pose proof HF as (F1 & F2 & F3).
    rewrite wr_Ok by lia. cbn [bind].
    set (cur' := set_arr cur lhs (fst (cur lhs), upd (snd (cur lhs)) i x)).
    assert (CL : cur' lhs = (fst (cur lhs), upd (snd (cur lhs)) i x)) by apply set_same.
    inversion ND as [|? ? N1 N2]; subst x0 l.
    destruct (IH N2 (fun k Hk => HI k (or_intror Hk)) cur') as (st' & E & F & P1 & P2).
    { split; [|split].
      - intros j Hj. unfold cur'. rewrite set_other by auto. apply F1. auto.
      - rewrite CL. auto.
      - rewrite CL. cbn [snd]. rewrite upd_length. auto. }
    { intros k Hk. rewrite CL. cbn [snd]. rewrite nth_error_upd. destruct (Nat.eqb_spec i k) as [->|NE]; [contradiction|].
      cbn [andb]. apply HO. right. auto. }
    exists st'. split; auto. split; auto. split.
    + intros jdx HJ [Hk|Hk].
      * assert (jdx = idx) by (apply (position_inj s); auto; lia). subst jdx. rewrite P2 by (rewrite EP; auto).
        rewrite CL. cbn [snd]. rewrite nth_error_upd, EP, Nat.eqb_refl. replace (i <? length (snd (cur lhs))) with true by lia.
        cbn [andb]. congruence.
      * apply P1; auto.
    + intros k Hk. rewrite P2 by (intros H; apply Hk; right; auto). rewrite CL. cbn [snd]. rewrite nth_error_upd.
      destruct (Nat.eqb_spec i k) as [->|NE]; auto. exfalso. apply Hk. left. auto.
Qed.

Lemma assign_fn_ok asserts b junk sched lhs e st s : 0 < b -> dense s -> well_shaped st e s -> has_array e -> elementwise_in lhs e ->
  fst (st lhs) = s -> N.of_nat (length (snd (st lhs))) = prod s -> Permutation sched (seq 0 (N.to_nat (prod s))) ->
  exists st', assign_fn mul asserts b junk sched lhs e st = Ok st' /\ only_changes lhs st st' /\ fst (st' lhs) = s /\
    length (snd (st' lhs)) = length (snd (st lhs)) /\
    forall idx, in_range idx s -> element s (snd (st' lhs)) idx = value st e idx /\ value st e idx <> None.
Proof.
  intros Hb HD HW HA HE HS HL HP. unfold assign_fn. rewrite (eshape_some asserts st e s HW HA). cbn [bind].
  destruct (dense_size s HD) as (SZ & PO). rewrite SZ, resize_keeps by lia. cbn [bind].
  rewrite HS, (proj2 (shape_eqb_spec s s) eq_refl), check_true. cbn [bind].
  destruct (write_loop b junk lhs e st s Hb HD HW HE HS HL sched) with (cur := set_arr st lhs (s, snd (st lhs)))
    as (st' & E & (F1 & F2 & F3) & P1 & P2).
  - apply (Permutation_NoDup (Permutation_sym HP)). apply seq_NoDup.
  - intros i Hi. apply (Permutation_in _ HP) in Hi. apply in_seq in Hi. lia.
  - split; [|split].
    + intros j Hj. apply set_other. auto.
    + rewrite set_same. auto.
    + rewrite set_same. auto.
  - intros. rewrite set_same. auto.
  - exists st'. split; auto. split; auto. split; [congruence|]. split; auto. intros idx HR. split.
    + apply P1; auto. apply (Permutation_in _ (Permutation_sym HP)). apply in_seq. pose proof (position_lt _ _ HR). lia.
    + destruct (scalar_value b junk st Hb e s idx (or_intror HD) HW HR) as (x & _ & ->). discriminate.
Qed.

(** ** view of an array = expression *)
Lemma in_range_app a b s t : in_range a s -> in_range b t -> in_range (a ++ b) (s ++ t).
Proof. unfold in_range. intros. apply Forall2_app; auto. Qed.
Lemma dense_skipn s n : dense s -> n < length s -> dense (skipn n s).
Proof.
  intros (D1 & D2 & D3) H. rewrite <- (firstn_skipn n s) in D2, D3. apply Forall_app in D2. destruct D2 as (Da & Db).
  split; [|split]; auto.
  - intros E. pose proof (skipn_length n s) as L. rewrite E in L. cbn in L. lia.
  - rewrite prod_app in D3. pose proof (prod_pos _ Da). nia.
Qed.
Lemma sub_array_cell asserts s n v : dense s -> n < length s -> sub_array asserts s n v ->
  exists k, length k = n /\ in_range k (firstn n s) /\ v_shape v = skipn n s /\ block v (skipn n s) (position k s) /\
    (position k s + prod (skipn n s) <= prod s)%N /\
    forall idx, in_range idx (skipn n s) -> cell v idx = Z.of_N (position (k ++ idx) s).
Proof.
  intros HD HN (k & HK & HR & HC). subst n. exists k. split; auto. split; auto.
  destruct (array_chain_block asserts s k HD ltac:(lia) HR) as (w & E & HB). rewrite HC in E. injection E as <-.
  assert (EP : forall idx, position (k ++ idx) s = (position k s + position idx (skipn (length k) s))%N).
  { clear - HN. intros idx. revert s HN. induction k as [|i k IH]; intros s HN; [reflexivity|].
    destruct s as [|e s]; cbn [length] in *; [lia|]. cbn [app skipn position]. rewrite IH by lia. lia. }
  split; [apply HB|]. split; [auto|]. split.
  - pose proof (dense_skipn s (length k) HD HN) as (_ & D2 & _). 
    assert (I : in_range (map (fun x : N => (x - 1)%N) (skipn (length k) s)) (skipn (length k) s)).
    { revert D2. generalize (skipn (length k) s). clear. intros l H. induction H; cbn [map]; constructor; auto. lia. }
    pose proof (position_lt _ _ (in_range_app _ _ _ _ HR I)) as PL. rewrite firstn_skipn, EP in PL.
    assert (PP : (position (map (fun x : N => (x - 1)%N) (skipn (length k) s)) (skipn (length k) s) + 1 = prod (skipn (length k) s))%N).
    { revert D2. generalize (skipn (length k) s). clear. intros l H. induction H as [|e l He Hl IH]; cbn [map position prod]; auto. nia. }
    lia.
  - intros idx HI. rewrite (block_cell v _ _ idx (or_intror (dense_skipn s _ HD HN)) HB HI), EP. reflexivity.
Qed.

Lemma assign_to_view_ok asserts b junk fuel id n v e st s : 0 < b -> dense s -> n < length s ->
  fst (st id) = s -> N.of_nat (length (snd (st id))) = prod s ->
  sub_array asserts s n v -> well_shaped st e (v_shape v) -> has_array e -> views_in id (sub_array asserts s n) e ->
  N.to_nat (prod (v_shape v)) <= fuel ->
  exists st', assign_to_view mul asserts b junk fuel id v e st = Ok st' /\ only_changes id st st' /\ fst (st' id) = s /\
    length (snd (st' id)) = length (snd (st id)) /\
    (forall idx, in_range idx (v_shape v) -> view_element v (snd (st' id)) idx = value st e idx /\ value st e idx <> None) /\
    (forall idx, in_range idx s -> (forall jdx, in_range jdx (v_shape v) -> cell v jdx <> Z.of_N (position idx s)) ->
       element s (snd (st' id)) idx = element s (snd (st id)) idx).
Proof.
  intros Hb HD HN HS HL HV HW HA HE HF. unfold assign_to_view. rewrite (eshape_some asserts st e _ HW HA). cbn [bind].
  destruct (sub_array_cell asserts s n v HD HN HV) as (k & K1 & K2 & K3 & K4 & K5 & K6).
  pose proof (dense_skipn s n HD HN) as HD'.
  destruct (block_ok v (skipn n s) (position k s) (snd (st id)) HD' K4) as (VO & VI); [lia|].
  set (t := v_shape v) in *.
  assert (DFL : exists dflt : A, True).
  { destruct (snd (st id)) as [|x] eqn:E; [|eauto]. cbn in HL. pose proof (prod_pos s ltac:(apply HD)). lia. }
  destruct DFL as (dflt & _).
  destruct (view_assign_general asserts fuel v
      (fun d i => scalar mul b junk (set_arr st id (fst (st id), d)) e (N.to_nat i))
      (fun d => match value st e (decode d t) with Some x => x | None => dflt end) (snd (st id)) VO VI HF) as (m' & E & L & P1 & P2).
  - intros d m' Hd Lm Q1 Q2. destruct (decode_spec t d) as (HR & HP); [apply VO|auto|]. set (idx := decode d t) in *.
    set (cur := set_arr st id (fst (st id), m')).
    assert (CL : cur id = (fst (st id), m')) by apply set_same.
    assert (FR : same_frame id st cur).
    { split; [intros j Hj; apply set_other; auto|]. rewrite CL. auto. }
    assert (V : value cur e idx = value st e idx).
    { apply (value_views id (sub_array asserts s n)); auto; [apply FR|]. intros w HWv. rewrite CL. cbn [snd].
      destruct (sub_array_cell asserts s n w HD HN HWv) as (k' & J1 & J2 & J3 & J4 & J5 & J6).
      destruct (block_ok w (skipn n s) (position k' s) (snd (st id)) HD' J4) as (WO & WI); [lia|].
      assert (HR' : in_range idx (skipn n s)) by (rewrite <- K3; auto).
      assert (HR2 : in_range idx (v_shape w)) by (rewrite J3; auto).
      rewrite !view_ok_element; auto; [|eapply view_ok_length; eauto].
      apply Q2. intros jdx HJ Hj. fold t in HJ, Hj. rewrite J6, K6 by (auto; rewrite <- K3; auto). intros EQ.
      assert (HJ' : in_range jdx (skipn n s)) by (rewrite <- K3; auto).
      assert (k' ++ idx = k ++ jdx).
      { apply (position_inj s); [| |lia]; rewrite <- (firstn_skipn n s); apply in_range_app; auto. }
      assert (idx = jdx).
      { assert (length k' = length k) by lia. clear - H H0. revert k H H0. induction k' as [|x k' IH]; intros [|y k] H H0; cbn in *; try lia; auto.
        injection H as _ H. eauto. }
      subst jdx. lia. }
    destruct (scalar_value b junk cur Hb e t idx) as (x & E1 & E2); auto.
    { right. rewrite K3. auto. } { eapply well_shaped_frame; eauto. }
    fold cur. rewrite HP in E1. rewrite E1. rewrite V in E2. rewrite E2. auto.
  - fold t in E. rewrite E. cbn [bind]. eexists. split; [reflexivity|]. rewrite set_same. cbn [fst snd].
    split; [intros j Hj; apply set_other; auto|]. split; auto. split; auto. split.
    + intros idx HI. destruct (scalar_value b junk st Hb e t idx) as (x & E1 & E2); auto; [right; rewrite K3; auto|].
      rewrite view_ok_element; auto; [|eapply view_ok_length; eauto].
      rewrite P1 by auto. destruct (decode_spec t (position idx t)) as (HR & HP); [apply VO|apply position_lt; auto|].
      assert (EQ : decode (position idx t) t = idx) by (apply (position_inj t); auto). fold t. rewrite EQ, E2. split; auto. discriminate.
    + intros idx HI HO. unfold element. apply P2. intros jdx HJ EQ. apply (HO jdx HJ).
      destruct (cell_nat v (snd (st id)) jdx VO HJ). lia.
Qed.

(** ** array = transpose(array) *)
(** A loop on the store whose steps read array [src] and rewrite array [lhs]. *)
Lemma store_loop {O} lhs src s (body : list A -> O -> list A -> outcome (list A)) st : lhs <> src ->
  forall l cur dd out, cur lhs = (s, dd) -> only_changes lhs st cur ->
  for_list l (body (snd (st src))) dd = Ok out ->
  exists cur', for_list l (fun o cur => do d <- body (snd (cur src)) o (snd (cur lhs)); Ok (set_arr cur lhs (s, d))) cur = Ok cur' /\
    cur' lhs = (s, out) /\ only_changes lhs st cur'.
Proof.
  intros HN. induction l as [|o l IH]; intros cur dd out HC HO H; cbn [for_list] in *.
  - injection H as <-. eauto.
  - rewrite HC, (HO src) by auto. cbn [snd]. destruct (body (snd (st src)) o dd) as [d'| |]; try discriminate. cbn [bind] in *.
    apply (IH (set_arr cur lhs (s, d')) d' out); auto; [apply set_same|]. intros j Hj. rewrite set_other by auto. auto.
Qed.
Lemma transpose_aside asserts b junk sched lhs src alpha st rows cols : 0 < b -> lhs <> src ->
  fst (st src) = [rows; cols] -> dense [rows; cols] -> N.of_nat (length (snd (st src))) = prod [rows; cols] ->
  (forall r c, Permutation (sched r c) (generic_ops r c b)) ->
  exists st', assign_transpose mul asserts b junk sched lhs src alpha st = Ok st' /\ only_changes lhs st st' /\
    transpose_of mul alpha (st src) (st' lhs).
Proof.
  intros Hb HN HS HD HL HP. unfold assign_transpose. rewrite HS. pose proof (dense_swap _ _ HD) as HD'.
  destruct (dense_size _ HD') as (SZ & PO). rewrite SZ. set (r := N.to_nat rows). set (c := N.to_nat cols).
  set (s := [cols; rows]).
  assert (RD : exists d, AssignModel.resize_discard asserts junk (snd (st lhs)) (N.to_nat (prod s)) = Ok d /\ length d = c * r).
  { unfold AssignModel.resize_discard. replace (negb (N.to_nat (prod s) =? 0)) with true by (unfold s; lia). rewrite check_true. cbn [bind].
    destruct (Nat.eqb_spec (length (snd (st lhs))) (N.to_nat (prod s))) as [E|E]; eexists; (split; [reflexivity|]).
    - rewrite E. unfold s. rewrite prod2. lia.
    - rewrite map_length, seq_length. unfold s. rewrite prod2. lia. }
  destruct RD as (d & ED & LD). rewrite ED. cbn [bind]. replace (negb (lhs =? src)) with true by lia. rewrite check_true. cbn [bind].
  rewrite prod2 in HL.
  destruct (generic_run mul r c b alpha (snd (st src)) ltac:(lia) (fun _ => []) (sched r c) d Hb (HP r c) LD) as (out & EO & LO & PO').
  destruct (store_loop lhs src s (perform mul r c b (fun _ => []) true alpha) st HN (sched r c) (set_arr st lhs (s, d)) d out)
    as (st' & E & E1 & E2).
  { apply set_same. } { intros j Hj. apply set_other. auto. } { exact EO. }
  exists st'. split; [exact E|]. split; auto. exists rows, cols. rewrite E1. cbn [fst snd]. split; auto. split; auto.
  split; [unfold s; rewrite prod2; lia|]. intros i j Hi Hj. destruct (PO' (N.to_nat i) (N.to_nat j)) as (x & X1 & X2); [lia|lia|].
  exists x. unfold element, s. assert (HS' : @fst (list N) (list A) (st src) = [rows; cols]) by exact HS. rewrite HS', !position2. split.
  - rewrite <- X1. f_equal. lia.
  - rewrite <- X2. f_equal. lia.
Qed.

(** In place, without the assertion: whatever the order of the stores, the result is symmetric. *)
Lemma transpose_inplace b junk sched id alpha st n : 0 < b -> (forall x, mul x alpha = x) ->
  fst (st id) = [n; n] -> dense [n; n] -> N.of_nat (length (snd (st id))) = prod [n; n] ->
  (forall r c, Permutation (sched r c) (generic_ops r c b)) ->
  exists st', assign_transpose mul false b junk sched id id alpha st = Ok st' /\ only_changes id st st' /\ fst (st' id) = [n; n] /\
    length (snd (st' id)) = length (snd (st id)) /\ symmetric (N.to_nat n) (snd (st' id)) /\
    forall i j, i < N.to_nat n -> j < N.to_nat n ->
      nth_error (snd (st' id)) (i * N.to_nat n + j) = nth_error (snd (st id)) (i * N.to_nat n + j) \/
      nth_error (snd (st' id)) (i * N.to_nat n + j) = nth_error (snd (st id)) (j * N.to_nat n + i).
Proof.
  intros Hb HM HS HD HL HP. unfold assign_transpose. rewrite HS. destruct (dense_size _ HD) as (SZ & PO). rewrite SZ.
  rewrite prod2 in *. set (k := N.to_nat n) in *.
  rewrite resize_keeps by lia. cbn [bind check andb]. set (m0 := snd (st id)) in *. set (s := [n; n]).
  assert (LM : length m0 = k * k) by lia.
  assert (G : forall l cur pre, (forall o, In o l -> exists r c, o = Cell r c /\ r < k /\ c < k) ->
    only_changes id st cur -> fst (cur id) = s -> length (snd (cur id)) = k * k ->
    (forall r c, r < k -> c < k -> In (Cell r c) pre -> nth_error (snd (cur id)) (r * k + c) = nth_error (snd (cur id)) (c * k + r)) ->
    (forall i j, i < k -> j < k -> nth_error (snd (cur id)) (i * k + j) = nth_error m0 (i * k + j) \/ nth_error (snd (cur id)) (i * k + j) = nth_error m0 (j * k + i)) ->
    exists cur', for_list l (fun o st => do d <- perform mul k k b (fun _ => []) true alpha (snd (st id)) o (snd (st id));
          Ok (set_arr st id (s, d))) cur = Ok cur' /\ only_changes id st cur' /\ fst (cur' id) = s /\ length (snd (cur' id)) = k * k /\
      (forall r c, r < k -> c < k -> In (Cell r c) (pre ++ l) -> nth_error (snd (cur' id)) (r * k + c) = nth_error (snd (cur' id)) (c * k + r)) /\
      (forall i j, i < k -> j < k -> nth_error (snd (cur' id)) (i * k + j) = nth_error m0 (i * k + j) \/ nth_error (snd (cur' id)) (i * k + j) = nth_error m0 (j * k + i))).
  { induction l as [|o l IH]; intros cur pre HI HO HF HLc HSy HV; cbn [for_list].
    - exists cur. rewrite app_nil_r. auto 10.
    - destruct (HI o (or_introl eq_refl)) as (r & c & -> & Hr & Hc). cbn [perform].
      destruct (nth_error_lt_some (snd (cur id)) (r * k + c)) as (x & Ex); [nia|].
      unfold rd. rewrite Ex. cbn [bind]. rewrite HM, wr_Ok by nia. cbn [bind].
      set (cur1 := set_arr cur id (s, upd (snd (cur id)) (c * k + r) x)).
      assert (C1 : cur1 id = (s, upd (snd (cur id)) (c * k + r) x)) by apply set_same.
      assert (IDX : forall a b' c' d', a < k -> b' < k -> c' < k -> d' < k -> a * k + b' = c' * k + d' -> a = c' /\ b' = d')
        by (intros; apply (Nat.div_mod_unique k); lia).
      assert (RV : forall i j, i < k -> j < k -> nth_error (snd (cur1 id)) (i * k + j) = if (i =? c) && (j =? r) then Some x else nth_error (snd (cur id)) (i * k + j)).
      { intros i j Hi Hj. rewrite C1. cbn [snd]. rewrite nth_error_upd.
        destruct (Nat.eqb_spec (c * k + r) (i * k + j)) as [EQ|NE].
        - destruct (IDX c r i j) as (-> & ->); auto. rewrite !Nat.eqb_refl. cbn [andb]. replace (i * k + j <? length (snd (cur id))) with true by nia. auto.
        - replace ((i =? c) && (j =? r)) with false; auto. symmetry. apply andb_false_iff.
          destruct (Nat.eqb_spec i c), (Nat.eqb_spec j r); auto. subst. lia. }
      destruct (IH cur1 (pre ++ [Cell r c])) as (cur' & E & H1 & H2 & H3 & H4 & H5).
      + intros o Ho. apply HI. right. auto.
      + intros j Hj. unfold cur1. rewrite set_other by auto. auto.
      + rewrite C1. auto.
      + rewrite C1. cbn [snd]. rewrite upd_length. auto.
      + intros r' c' Hr' Hc' HIn. rewrite !RV by auto. apply in_app_or in HIn.
        destruct (Nat.eqb_spec r' c), (Nat.eqb_spec c' r), (Nat.eqb_spec c' c), (Nat.eqb_spec r' r); cbn [andb]; subst; auto; try congruence.
        all: try (destruct HIn as [HIn|[HIn|[]]]; [apply HSy; auto|injection HIn as -> ->; congruence]).
        all: try (destruct HIn as [HIn|[HIn|[]]]; [apply HSy; auto|congruence]).
      + intros i j Hi Hj. rewrite RV by auto. destruct (Nat.eqb_spec i c), (Nat.eqb_spec j r); cbn [andb]; auto. subst i j.
        destruct (HV r c Hr Hc) as [V|V]; rewrite <- Ex, V; auto.
      + exists cur'. split; auto. split; auto. split; auto. split; auto. split; auto. intros r' c' Hr' Hc' HIn. apply H4; auto.
        rewrite <- app_assoc. auto. }
  destruct (G (sched k k) (set_arr st id (s, m0)) []) as (cur' & E & H1 & H2 & H3 & H4 & H5).
  - intros o Ho. apply (Permutation_in _ (HP k k)) in Ho. apply in_generic_ops in Ho; auto.
  - intros j Hj. apply set_other. auto.
  - rewrite set_same. auto.
  - rewrite set_same. auto.
  - intros ? ? ? ? [].
  - intros. rewrite set_same. auto.
  - exists cur'. split; [exact E|]. split; auto. split; auto. split; [lia|]. split; auto.
    intros i j Hi Hj. apply H4; auto. cbn [app]. apply (Permutation_in _ (Permutation_sym (HP k k))).
    apply in_generic_ops; eauto 6.
Qed.
(** ** array = view *)
Lemma upd_self (m : list A) : forall i x, nth_error m i = Some x -> upd m i x = m.
Proof. induction m as [|a m IH]; intros [|i] x H; cbn in *; try discriminate; [congruence|]. f_equal. auto. Qed.

Lemma view_loop lhs src v st m0 t : v_shape v = t -> dense t -> only_changes lhs st m0 ->
  (lhs <> src /\ view_ok v (snd (st src))) ->
  fst (m0 lhs) = t -> N.of_nat (length (snd (m0 lhs))) = prod t ->
  exists st', for_range 0 (N.to_nat (prod t)) (fun i st =>
      do x <- view_scalar v (snd (st src)) (N.of_nat i);
      do d <- wr (snd (st lhs)) i x;
      Ok (set_arr st lhs (t, d))) m0 = Ok st' /\ only_changes lhs st st' /\ fst (st' lhs) = t /\
    N.of_nat (length (snd (st' lhs))) = prod t /\
    forall idx, in_range idx t -> element t (snd (st' lhs)) idx = view_element v (snd (st src)) idx.
Proof.
  intros HT HD HO (HN & HV) HF HL.
  destruct (for_range_inv (fun n (cur : store A) => only_changes lhs st cur /\ fst (cur lhs) = t /\ N.of_nat (length (snd (cur lhs))) = prod t /\
      forall idx, in_range idx t -> N.to_nat (position idx t) < n -> element t (snd (cur lhs)) idx = view_element v (snd (st src)) idx)
    (fun i st => do x <- view_scalar v (snd (st src)) (N.of_nat i); do d <- wr (snd (st lhs)) i x; Ok (set_arr st lhs (t, d)))
    0 (N.to_nat (prod t)) m0) as (st' & E & P1 & P2 & P3 & P4); [lia| | |].
  - intros i cur Hi (Q1 & Q2 & Q3 & Q4).
    destruct (decode_spec t (N.of_nat i)) as (HR & HP); [apply HD|lia|]. set (idx := decode (N.of_nat i) t) in *.
    rewrite (Q1 src) by auto.
    destruct (scalar_element v (snd (st src)) idx HV) as (x & E1 & E2); [rewrite HT; auto|].
    rewrite HT, HP in E1. rewrite E1. cbn [bind]. rewrite wr_Ok by lia. cbn [bind].
    eexists. split; [reflexivity|]. rewrite set_same. cbn [fst snd]. rewrite upd_length.
    split; [intros j Hj; rewrite set_other by auto; auto|]. split; auto. split; auto.
    intros jdx HJ Hj. unfold element. rewrite nth_error_upd.
    destruct (Nat.eqb_spec i (N.to_nat (position jdx t))) as [EQ|NE].
    + assert (jdx = idx) by (apply (position_inj t); auto; lia). subst jdx.
      replace (i <? length (snd (cur lhs))) with true by lia. cbn [andb]. auto.
    + cbn [andb]. apply Q4; auto. lia.
  - split; auto. split; auto. split; auto. intros; lia.
  - exists st'. split; auto. split; auto. split; auto. split; auto. intros idx HR. apply P4; auto. pose proof (position_lt _ _ HR). lia.
Qed.

(** The view covers exactly the storage: every element is copied onto itself. *)
Lemma view_loop_self id v st t d : block v t 0 -> dense t -> N.of_nat (length d) = prod t ->
  exists st', for_range 0 (N.to_nat (prod t)) (fun i st =>
      do x <- view_scalar v (snd (st id)) (N.of_nat i);
      do d <- wr (snd (st id)) i x;
      Ok (set_arr st id (t, d))) (set_arr st id (t, d)) = Ok st' /\ only_changes id st st' /\ st' id = (t, d).
Proof.
  intros HB HD HL.
  apply (for_range_inv (fun n (cur : store A) => only_changes id st cur /\ cur id = (t, d))); [lia| |].
  - intros i cur Hi (Q1 & Q2). rewrite Q2. cbn [snd].
    destruct (decode_spec t (N.of_nat i)) as (HR & HP); [apply HD|lia|]. set (idx := decode (N.of_nat i) t) in *.
    destruct (block_ok v t 0 d HD HB) as (VO & _); [lia|].
    pose proof HB as (B1 & _ & _).
    destruct (scalar_element v d idx VO) as (x & E1 & E2); [rewrite B1; auto|]. rewrite B1, HP in E1. rewrite E1. cbn [bind].
    rewrite view_ok_element in E2 by (auto; rewrite B1; auto). rewrite (block_cell v t 0) in E2 by auto.
    replace (Z.to_nat (Z.of_N (0 + position idx t))) with i in E2 by lia.
    rewrite wr_Ok by lia. cbn [bind]. rewrite (upd_self _ _ _ E2). eexists. split; [reflexivity|].
    split; [intros j Hj; rewrite set_other by auto; auto|]. apply set_same.
  - split; [|apply set_same]. intros j Hj. apply set_other. auto.
Qed.

Lemma assign_view_aside asserts junk lhs src v st : lhs <> src -> dense (v_shape v) -> view_ok v (snd (st src)) ->
  exists st', assign_view asserts junk lhs src v st = Ok st' /\ only_changes lhs st st' /\ fst (st' lhs) = v_shape v /\
    N.of_nat (length (snd (st' lhs))) = prod (v_shape v) /\
    forall idx, in_range idx (v_shape v) -> element (v_shape v) (snd (st' lhs)) idx = view_element v (snd (st src)) idx.
Proof.
  intros HN HD HV. unfold assign_view. destruct (dense_size _ HD) as (SZ & PO). rewrite SZ. unfold AssignModel.resize_discard.
  replace (negb (N.to_nat (prod (v_shape v)) =? 0)) with true by lia. rewrite check_true. cbn [bind].
  destruct (Nat.eqb_spec (length (snd (st lhs))) (N.to_nat (prod (v_shape v)))) as [E|E]; cbn [bind].
  all: apply view_loop; auto; rewrite ?set_same; cbn [fst snd]; rewrite ?map_length, ?seq_length; auto; try lia.
  all: intros j Hj; apply set_other; auto.
Qed.
Lemma assign_view_unit asserts junk id n v st s : dense s -> n < length s -> fst (st id) = s ->
  N.of_nat (length (snd (st id))) = prod s -> sub_array asserts s n v -> prod (firstn n s) = 1%N ->
  exists st', assign_view asserts junk id id v st = Ok st' /\ only_changes id st st' /\ st' id = (v_shape v, snd (st id)) /\
    forall idx, in_range idx (v_shape v) -> element (v_shape v) (snd (st' id)) idx = view_element v (snd (st id)) idx.
Proof.
  intros HD HN HS HL HV HU. destruct (sub_array_cell asserts s n v HD HN HV) as (k & K1 & K2 & K3 & K4 & K5 & K6).
  pose proof (dense_skipn s n HD HN) as HD'.
  assert (PE : prod s = prod (skipn n s)) by (rewrite <- (firstn_skipn n s) at 1; rewrite prod_app, HU; lia).
  assert (PK : position k s = 0%N) by lia. rewrite PK in K4.
  unfold assign_view. rewrite K3. destruct (dense_size _ HD') as (SZ & PO). rewrite SZ.
  rewrite resize_keeps by lia. cbn [bind].
  destruct (view_loop_self id v st (skipn n s) (snd (st id)) K4 HD') as (st' & E & E1 & E2); [lia|].
  exists st'. split; auto. split; auto. split; auto. intros idx HI. rewrite E2. cbn [snd].
  destruct (block_ok v (skipn n s) 0 (snd (st id)) HD' K4) as (VO & _); [lia|].
  rewrite view_ok_element by (auto; rewrite K3; auto). rewrite (block_cell v (skipn n s) 0) by auto.
  unfold element. f_equal. lia.
Qed.
Lemma assign_view_row asserts junk id v st (e : N) t i : dense (e :: t) -> t <> [] -> (2 <= e)%N -> fst (st id) = e :: t ->
  N.of_nat (length (snd (st id))) = prod (e :: t) -> (i < e)%N -> array_chain asserts (e :: t) [Z.of_N i] = Ok v ->
  if (i =? 0)%N then exists st', assign_view asserts junk id id v st = Ok st' /\ only_changes id st st' /\
                       st' id = (t, map junk (seq 0 (N.to_nat (prod t))))
  else assign_view asserts junk id id v st = UB.
Proof.
  intros HD HT He HS HL Hi HC. assert (HD' : dense t) by (apply (dense_tail e); auto).
  destruct (array_chain_block asserts (e :: t) [i] HD) as (w & E & HB); [cbn; lia|repeat constructor; auto|].
  cbn [map] in E. rewrite HC in E. injection E as <-. cbn [length skipn position] in HB. rewrite N.add_0_r in HB.
  pose proof HB as (B1 & B2 & B3). unfold assign_view. rewrite B1. destruct (dense_size _ HD') as (SZ & PO). rewrite SZ.
  cbn [prod] in HL. unfold AssignModel.resize_discard. replace (negb (N.to_nat (prod t) =? 0)) with true by lia. rewrite check_true. cbn [bind].
  replace (length (snd (st id)) =? N.to_nat (prod t)) with false by nia. cbn [bind].
  destruct (N.eqb_spec i 0) as [->|NZ].
  - rewrite N.mul_0_l in HB. apply view_loop_self; auto. rewrite map_length, seq_length. lia.
  - unfold for_range. destruct (N.to_nat (prod t) - 0) as [|q] eqn:EQ; [lia|]. cbn [for_from].
    rewrite set_same. cbn [snd]. set (d := map junk (seq 0 (N.to_nat (prod t)))).
    assert (LD : length d = N.to_nat (prod t)) by (unfold d; rewrite map_length, seq_length; auto).
    destruct (zero_index t) as (Z1 & Z2); [apply HD'|].
    destruct (block_ok v t (i * prod t) (map junk (seq 0 (N.to_nat (i * prod t + prod t)))) HD' HB) as (VO & _).
    { rewrite map_length, seq_length. lia. }
    replace (view_scalar v d (N.of_nat 0)) with (@UB A); [reflexivity|].
    unfold view_scalar. rewrite B1. destruct t as [|x t']; [congruence|]. change (N.of_nat 0) with 0%N.
    rewrite <- Z2, digits_position by (auto; apply HD'). cbn [bind].
    rewrite (offset_sum_dot _ _ _ Z1) by (rewrite <- B1; apply VO). rewrite dot_zero, B2. unfold rdz.
    replace (Z.of_N (i * prod (x :: t')) + Z.of_N 0 <? 0)%Z with false by lia. unfold rd.
    replace (nth_error d _) with (@None A); auto. symmetry. apply nth_error_None. nia.
Qed.

End Proofs.

(** ** array = dot(...) *)
Section Dot.
Context {A : Type}.
Variables (zero one : A) (add mul : A -> A -> A) (is_zero : A -> bool).

Lemma junk_for (d : list A) dflt : map (fun i => nth i d dflt) (seq 0 (length d)) = d.
Proof.
  induction d as [|x d IH]; cbn [length seq map nth]; auto. f_equal. rewrite <- seq_shift, map_map. exact IH.
Qed.

Lemma product_is_dot asserts sched junk lhs e1 e2 (st : store A) s (P : list A -> Prop) : dense s ->
  (forall j, exists out, dot zero one add mul is_zero asserts sched j e1 e2 = Ok (s, out) /\ P out) ->
  calculateShape asserts (fst (fst (dotHelper one mul e1))) (fst (fst (dotHelper one mul e2)))
    (fst (snd (dotHelper one mul e1))) (fst (snd (dotHelper one mul e2))) = Ok s ->
  exists st' out, assign_product mul zero one add is_zero asserts sched junk lhs e1 e2 st = Ok st' /\ only_changes lhs st st' /\
    st' lhs = (s, out) /\ P out.
Proof.
  intros HD HJ HC. unfold assign_product. unfold dot in HJ.
  destruct (dotHelper one mul e1) as [[ta alpha] a], (dotHelper one mul e2) as [[tb beta] b]. cbn [fst snd] in HC.
  rewrite HC in *. cbn [bind] in *. destruct (dense_size s HD) as (SZ & PO). rewrite SZ in *.
  assert (RD : exists d, AssignModel.resize_discard asserts junk (snd (st lhs)) (N.to_nat (prod s)) = Ok d /\ length d = N.to_nat (prod s)).
  { unfold AssignModel.resize_discard. replace (negb (N.to_nat (prod s) =? 0)) with true by lia. rewrite check_true. cbn [bind].
    destruct (Nat.eqb_spec (length (snd (st lhs))) (N.to_nat (prod s))) as [E|E]; eexists; (split; [reflexivity|]); auto.
    rewrite map_length, seq_length. auto. }
  destruct RD as (d & ED & LD). rewrite ED. cbn [bind].
  destruct (HJ (fun i => nth i d zero)) as (out & E & HP). rewrite <- LD, junk_for in E.
  rewrite E. cbn [bind]. do 2 eexists. split; [reflexivity|]. split; [intros j Hj; apply set_other; auto|]. split; [apply set_same|auto].
Qed.

Lemma capture_shape (st : store A) d : lshape (capture st d) = dshape st d.
Proof. induction d; cbn [capture lshape dshape]; [reflexivity| |]; rewrite IHd; reflexivity. Qed.
Lemma capture_value (st : store A) d : forall idx, lvalue mul (capture st d) idx = dvalue mul st d idx.
Proof. induction d; intros idx; cbn [capture lvalue dvalue]; [reflexivity| |]; rewrite IHd; reflexivity. Qed.
Lemma capture_base (st : store A) d : base (capture st d) = st (dname d).
Proof. induction d; cbn [capture base dname]; auto. Qed.
Lemma capture_matrix (st : store A) d m k f : dmatrix mul st d m k f -> lmatrix mul (capture st d) m k f.
Proof.
  intros (H1 & H2 & H3). unfold lmatrix. rewrite capture_base, capture_shape. split; [exact H1|]. split; [exact H2|].
  intros i j Hi Hj. rewrite capture_value. auto.
Qed.

Lemma assign_dot_ok asserts sched junk lhs x y (st : store A) m k n f g :
  semiring zero one add mul is_zero -> (forall m n k, interleaving n (column_program m k) (sched m n k)) ->
  lmatrix mul x m k f -> lmatrix mul y k n g -> dense [m; n] ->
  exists st' out, assign_product mul zero one add is_zero asserts sched junk lhs x y st = Ok st' /\ only_changes lhs st st' /\
    st' lhs = ([m; n], out) /\ length out = N.to_nat m * N.to_nat n /\
    forall i j, (i < m)%N -> (j < n)%N ->
      element [m; n] out [i; j] = Some (sum zero add (N.to_nat k) (fun h => mul (f (N.to_nat i) h) (g h (N.to_nat j)))).
Proof.
  intros (SR & ZT) HS H1 H2 HD. pose proof HD as (_ & _ & D3). rewrite prod2 in D3.
  apply product_is_dot; auto.
  - intros j. destruct (dot_mm zero one add mul is_zero SR ZT asserts sched j x y m k n f g HS H1 H2 D3) as (out & E & L & P).
    eauto.
  - rewrite !dotHelper_fold by auto. cbn [fst snd].
    destruct (lmatrix_raw zero one add mul is_zero SR ZT _ _ _ _ H1) as (S1 & _). destruct (lmatrix_raw zero one add mul is_zero SR ZT _ _ _ _ H2) as (S2 & _).
    rewrite S1, S2, (shape_mm zero one is_zero ZT), N.eqb_refl, check_true. reflexivity.
Qed.
End Dot.
