From Verif Require Import Base BaseProofs ShapeModel ShapeSpec ShapeProofs ViewModel ViewSpec.
Ltac Zify.zify_post_hook ::= Z.div_mod_to_equations.
Local Open Scope N_scope.

Lemma in_range_length idx s : in_range idx s -> length idx = length s.
Proof. unfold in_range. induction 1; cbn; congruence. Qed.

Lemma check_true a e : check a e true = Ok tt.
Proof. unfold check. rewrite andb_false_r. reflexivity. Qed.
Lemma check_false a e : check a e false = if a then Throw e else Ok tt.
Proof. unfold check. destruct a; reflexivity. Qed.

Lemma prod_app a b : prod (a ++ b) = prod a * prod b.
Proof. induction a; cbn [prod app]; lia. Qed.
Lemma prod_snoc s e : prod (s ++ [e]) = prod s * e.
Proof. rewrite prod_app. cbn [prod]. lia. Qed.
Lemma position_app : forall a s b t, length a = length s ->
  position (a ++ b) (s ++ t) = position a s * prod t + position b t.
Proof.
  induction a as [|i a IH]; intros [|e s] b t H; try discriminate; cbn [app position]; [lia|].
  injection H as H. rewrite IH, prod_app by auto. lia.
Qed.
Lemma position_snoc a s i e : length a = length s -> position (a ++ [i]) (s ++ [e]) = position a s * e + i.
Proof. intros. rewrite position_app by auto. cbn [prod position]. lia. Qed.
Lemma dot_app : forall a s b t, length a = length s ->
  dot_stride (a ++ b) (s ++ t) = dot_stride a s + dot_stride b t.
Proof.
  induction a as [|i a IH]; intros [|e s] b t H; try discriminate; cbn [app dot_stride]; [lia|].
  injection H as H. rewrite IH by auto. lia.
Qed.
Lemma in_range_snoc a s i e : in_range a s -> i < e -> in_range (a ++ [i]) (s ++ [e]).
Proof. unfold in_range. intros. apply Forall2_app; auto. Qed.
Lemma in_range_app_inv a b s t : length a = length s -> in_range (a ++ b) (s ++ t) -> in_range a s /\ in_range b t.
Proof.
  unfold in_range. revert s. induction a as [|i a IH]; intros [|e s] HL H; try discriminate.
  - split; auto.
  - cbn [app] in H. inversion H; subst. injection HL as HL. destruct (IH s HL) as [H1 H2]; auto.
Qed.

(** ** operator() *)
Lemma skipn_skipn {A} (l : list A) : forall x y, skipn x (skipn y l) = skipn (x + y) l.
Proof.
  intros x y. revert l. induction y as [|y IH]; intros l; [rewrite Nat.add_0_r; auto|].
  rewrite Nat.add_succ_r. destruct l; [rewrite !skipn_nil; auto|]. cbn [skipn]. apply IH.
Qed.
Lemma extent_nth asserts s k : (k < length s)%nat -> extent asserts s (Z.of_nat k) = Ok (nth k s 0).
Proof.
  intros H. unfold extent. replace (Z.of_nat k <? Z.of_nat (length s))%Z with true by lia.
  replace (0 <=? Z.of_nat k)%Z with true by lia. rewrite !check_true. cbn [bind].
  replace (Z.of_nat k <? 0)%Z with false by lia. rewrite Nat2Z.id. apply rd_Ok. auto.
Qed.

Lemma horner_ok asserts : forall idx s dim acc, (dim <= length s)%nat ->
  in_range idx (skipn dim s) ->
  horner asserts s dim (map Z.of_N idx) acc
  = Ok (acc * Z.of_N (prod (skipn dim s)) + Z.of_N (position idx (skipn dim s)))%Z.
Proof.
  induction idx as [|i idx IH]; intros s dim acc HD HR; cbn [map horner].
  - inversion HR. cbn [prod position]. f_equal. lia.
  - destruct (skipn dim s) as [|e r] eqn:E; [inversion HR|].
    inversion HR as [|? ? ? ? Hi Hr]; subst.
    assert (HD' : (dim < length s)%nat).
    { pose proof (skipn_length dim s). rewrite E in H. cbn [length] in H. lia. }
    assert (En : nth dim s 0 = e).
    { rewrite <- (firstn_skipn dim s), E. rewrite app_nth2; rewrite firstn_length_le by lia; [|lia].
      rewrite Nat.sub_diag. reflexivity. }
    assert (Er : skipn (dim + 1) s = r).
    { rewrite Nat.add_comm. rewrite <- skipn_skipn, E. reflexivity. }
    rewrite extent_nth by auto. cbn [bind]. rewrite En.
    replace ((0 <=? Z.of_N i) && (Z.of_N i <? Z.of_N e))%Z with true by lia.
    rewrite check_true. cbn [bind]. rewrite IH; [|lia|rewrite Er; auto].
    rewrite Er. cbn [prod position]. f_equal. lia.
Qed.

Lemma call_position_ok asserts s idx : in_range idx s ->
  call_position asserts s (map Z.of_N idx) = Ok (Z.of_N (position idx s)).
Proof.
  intros H. unfold call_position. rewrite map_length, (in_range_length _ _ H), Nat.eqb_refl, check_true.
  cbn [bind]. rewrite horner_ok; [|lia|exact H]. reflexivity.
Qed.

Lemma horner_bad : forall idx s dim acc, (dim + length idx <= length s)%nat ->
  ~ Forall2 (fun i e => (0 <= i < Z.of_N e)%Z) idx (firstn (length idx) (skipn dim s)) ->
  horner true s dim idx acc = Throw OutOfRange.
Proof.
  induction idx as [|i idx IH]; intros s dim acc HL HB; cbn [horner length] in *.
  - exfalso. apply HB. constructor.
  - rewrite extent_nth by lia. cbn [bind].
    destruct (skipn dim s) as [|e r] eqn:E.
    { pose proof (skipn_length dim s). rewrite E in H. cbn [length] in H. lia. }
    assert (En : nth dim s 0 = e).
    { rewrite <- (firstn_skipn dim s), E. rewrite app_nth2; rewrite firstn_length_le by lia; [|lia].
      rewrite Nat.sub_diag. reflexivity. }
    assert (Er : skipn (dim + 1) s = r).
    { rewrite Nat.add_comm. rewrite <- skipn_skipn, E. reflexivity. }
    rewrite En. destruct ((0 <=? i) && (i <? Z.of_N e))%Z eqn:B.
    + rewrite check_true. cbn [bind]. apply IH; [lia|]. rewrite Er. intros HF. apply HB.
      cbn [firstn]. constructor; auto. lia.
    + rewrite check_false. reflexivity.
Qed.
Theorem call_position_rejects s idx :
  ~ Forall2 (fun i e => (0 <= i < Z.of_N e)%Z) idx s ->
  exists e, call_position true s idx = Throw e.
Proof.
  intros HB. unfold call_position. destruct (Nat.eqb_spec (length s) (length idx)) as [E|E].
  - rewrite check_true. cbn [bind]. exists OutOfRange. apply horner_bad; [lia|].
    cbn [skipn]. rewrite <- E, firstn_all. auto.
  - rewrite check_false. exists InvalidArgument. reflexivity.
Qed.

(** ** Strides of the model on dense shapes *)
Lemma dense_tail e s : dense (e :: s) -> s <> [] -> dense s.
Proof.
  intros [H1 [H2 H3]] H. inversion H2; subst. split; [auto|split; [auto|]].
  pose proof (prod_suffix_le s e ltac:(eassumption)). lia.
Qed.
Lemma dense_fits s : dense s -> fits s.
Proof.
  intros [_ [H2 H3]]. revert H3. induction H2 as [|e s He Hs IH]; intros H3; [constructor|].
  cbn [prod] in H3. pose proof (prod_pos s Hs). constructor; [nia|apply IH; nia].
Qed.
Lemma stride_tmp_length s : length (stride_tmp s) = length s.
Proof.
  induction s as [|e s IH]; [reflexivity|]. destruct s; [reflexivity|].
  rewrite stride_tmp_cons by discriminate. cbn [length] in *. lia.
Qed.
Lemma stride_tmp_hd e s : dense (e :: s) -> exists r, stride_tmp (e :: s) = prod s :: r /\ (s <> [] -> r = stride_tmp s).
Proof.
  intros [H1 [H2 H3]]. destruct (stride_tmp_spec (e :: s) H1 H2 H3) as [L N0].
  destruct s as [|e' s'].
  - exists []. split; [reflexivity|congruence].
  - exists (stride_tmp (e' :: s')). split; auto. rewrite stride_tmp_cons by discriminate.
    specialize (N0 0%nat ltac:(cbn; lia)). rewrite stride_tmp_cons in N0 by discriminate.
    cbn [nth skipn] in N0. rewrite N0. reflexivity.
Qed.

(** A contiguous block of an array: what operator[] produces. *)
Definition block (v : view) (s : shape) (off : N) : Prop :=
  v_shape v = s /\ v_offset v = Z.of_N off /\ v_stride v = match s with [] => [1] | _ => stride_tmp s end.

Lemma of_array_block s : dense s -> exists v, of_array s = Ok v /\ block v s 0.
Proof.
  intros [H1 [H2 H3]]. unfold of_array. rewrite stride_ok by auto. cbn [bind].
  eexists. split; [reflexivity|]. unfold block. cbn. destruct s; [congruence|]. auto.
Qed.
Lemma subshape_tail asserts e s : subshape asserts (e :: s) 1 (Z.of_nat (length (e :: s))) = Ok s.
Proof.
  unfold subshape. change (1 <? 0)%Z with false. cbn match.
  replace (Z.of_nat (length (e :: s)) <? 0)%Z with false by lia.
  replace (1 <=? Z.of_nat (length (e :: s)))%Z with true by (cbn [length]; lia).
  replace (Z.of_nat (length (e :: s)) <=? Z.of_nat (length (e :: s)))%Z with true by lia.
  change (0 <=? 1)%Z with true. rewrite !check_true. cbn [bind andb].
  f_equal. change (Z.to_nat 1) with 1%nat. cbn [skipn].
  replace (Z.to_nat (Z.of_nat (length (e :: s)) - 1)) with (length s) by (cbn [length]; lia).
  apply firstn_all.
Qed.

Lemma index_block asserts v e s off i : dense (e :: s) -> block v (e :: s) off -> i < e ->
  exists w, index asserts v (Z.of_N i) = Ok w /\ block w s (off + i * prod s).
Proof.
  intros HD [B1 [B2 B3]] Hi. unfold index. rewrite B1.
  assert (C : (if asserts
               then do e0 <- extent true (e :: s) 0;
                    check true OutOfRange ((0 <=? Z.of_N i) && (Z.of_N i <? Z.of_N e0))%Z
               else Ok tt) = Ok tt).
  { destruct asserts; auto. change 0%Z with (Z.of_nat 0) at 1. rewrite extent_nth by (cbn; lia).
    cbn [bind nth]. replace ((0 <=? Z.of_N i) && (Z.of_N i <? Z.of_N e))%Z with true by lia.
    apply check_true. }
  rewrite C. cbn [bind]. destruct HD as [D1 [D2 D3]]. rewrite stride_ok by auto. cbn [bind].
  rewrite subshape_tail. cbn [bind].
  destruct (stride_tmp_hd e s) as [r [Er Hr]]; [split; auto|]. rewrite Er.
  destruct s as [|e' s'].
  - cbn [length Nat.eqb bind]. change 0%Z with (Z.of_nat 0). rewrite extent_nth by (cbn; lia). cbn [bind nth].
    eexists. split; [reflexivity|]. unfold block. cbn [v_shape v_offset v_stride prod]. rewrite B2.
    split; [auto|split; [lia|auto]].
  - specialize (Hr ltac:(discriminate)). subst r.
    replace (length (e :: e' :: s') =? 1)%nat with false by reflexivity.
    unfold substride.
    assert (EL : length (e :: e' :: s') = length (prod (e' :: s') :: stride_tmp (e' :: s'))).
    { cbn [length]. rewrite stride_tmp_length. reflexivity. }
    rewrite EL.
    replace (1 <? Z.of_nat (length (prod (e' :: s') :: stride_tmp (e' :: s'))))%Z with true
      by (rewrite <- EL; cbn [length]; lia).
    rewrite check_true. cbn [bind]. rewrite Z.leb_refl, check_true. cbn [bind].
    rewrite subshape_tail. cbn [bind]. change 0%Z with (Z.of_nat 0). rewrite extent_nth by (cbn; lia).
    cbn [bind]. eexists. split; [reflexivity|]. unfold block. cbn [v_shape v_offset v_stride].
    rewrite B2. cbn [nth]. split; [auto|split; [lia|auto]].
Qed.

Lemma index_chain_block asserts : forall idx v s off, (s = [] \/ dense s) -> block v s off ->
  (length idx <= length s)%nat -> in_range idx (firstn (length idx) s) ->
  exists w, index_chain asserts v (map Z.of_N idx) = Ok w /\
    block w (skipn (length idx) s) (off + position idx s).
Proof.
  induction idx as [|i idx IH]; intros v s off HS HB HL HR; cbn [map index_chain].
  - exists v. split; auto. cbn [length skipn position]. rewrite N.add_0_r. auto.
  - destruct s as [|e s]; [cbn in HL; lia|]. destruct HS as [HS|HD]; [discriminate|].
    cbn [length firstn] in HR. inversion HR as [|? ? ? ? Hi Hr]; subst.
    destruct (index_block asserts v e s off i HD HB Hi) as [w [E HB']]. rewrite E. cbn [bind].
    assert (HS' : s = [] \/ dense s).
    { destruct s as [|e' s']; [auto|right]. apply (dense_tail e); auto. discriminate. }
    destruct (IH w s _ HS' HB' ltac:(cbn in HL; lia) Hr) as [w' [E' HB'']].
    exists w'. split; auto. cbn [length skipn position]. replace (off + (i * prod s + position idx s))
      with (off + i * prod s + position idx s) by lia. auto.
Qed.

Theorem array_chain_block asserts s idx : dense s -> (length idx <= length s)%nat ->
  in_range idx (firstn (length idx) s) ->
  exists w, array_chain asserts s (map Z.of_N idx) = Ok w /\
    block w (skipn (length idx) s) (position idx s).
Proof.
  intros HD HL HR. unfold array_chain. destruct (of_array_block s HD) as [v [E HB]]. rewrite E.
  cbn [bind]. destruct (index_chain_block asserts idx v s 0 (or_intror HD) HB HL HR) as [w [E' HB']].
  exists w. rewrite N.add_0_l in HB'. auto.
Qed.

Lemma in_range_firstn idx s : in_range idx s -> firstn (length idx) s = s.
Proof. intros H. rewrite (in_range_length _ _ H). apply firstn_all. Qed.
Lemma in_range_skipn idx s : in_range idx s -> skipn (length idx) s = [].
Proof. intros H. rewrite (in_range_length _ _ H). apply skipn_all. Qed.

Section Mem.
Context {A : Type}.
Implicit Types m : list A.

Lemma rdz_nth m (p : N) : rdz m (Z.of_N p) = match nth_error m (N.to_nat p) with Some x => Ok x | None => UB end.
Proof.
  unfold rdz. replace (Z.of_N p <? 0)%Z with false by lia. rewrite <- Z_N_nat, N2Z.id. reflexivity.
Qed.
Lemma wrz_ok m (p : N) v : p < N.of_nat (length m) -> wrz m (Z.of_N p) v = Ok (upd m (N.to_nat p) v).
Proof.
  intros H. unfold wrz. replace (Z.of_N p <? 0)%Z with false by lia. rewrite <- Z_N_nat, N2Z.id.
  apply wr_Ok. lia.
Qed.
Lemma nth_error_lt_some m k : (k < length m)%nat -> exists x, nth_error m k = Some x.
Proof. intros H. destruct (nth_error m k) eqn:E; eauto. apply nth_error_None in E. lia. Qed.

(** *** C12 *)
Theorem call_get_element asserts s m idx : N.of_nat (length m) = prod s -> in_range idx s ->
  exists x, call_get asserts s m (map Z.of_N idx) = Ok x /\ element s m idx = Some x.
Proof.
  intros HL HR. unfold call_get. rewrite call_position_ok by auto. cbn [bind]. rewrite rdz_nth.
  unfold element. pose proof (position_lt _ _ HR).
  destruct (nth_error_lt_some m (N.to_nat (position idx s))) as [x E]; [lia|]. rewrite E. eauto.
Qed.
Theorem call_set_element asserts s m idx v : N.of_nat (length m) = prod s -> in_range idx s ->
  exists m', call_set asserts s m (map Z.of_N idx) v = Ok m' /\ length m' = length m /\
    forall jdx, in_range jdx s ->
      element s m' jdx = if list_eq_dec N.eq_dec jdx idx then Some v else element s m jdx.
Proof.
  intros HL HR. unfold call_set. rewrite call_position_ok by auto. cbn [bind].
  pose proof (position_lt _ _ HR). rewrite wrz_ok by lia.
  eexists. split; [reflexivity|]. split; [apply upd_length|].
  intros jdx HJ. unfold element. rewrite nth_error_upd.
  pose proof (position_lt _ _ HJ). destruct (list_eq_dec N.eq_dec jdx idx) as [->|NE].
  - rewrite Nat.eqb_refl. replace (N.to_nat (position idx s) <? length m)%nat with true by lia. reflexivity.
  - destruct (Nat.eqb_spec (N.to_nat (position idx s)) (N.to_nat (position jdx s))) as [E|E]; auto.
    exfalso. apply NE. apply (position_inj s); auto. lia.
Qed.

Lemma view_get_block asserts v m off x : block v [] off -> nth_error m (N.to_nat off) = Some x ->
  view_get asserts v m = Ok x.
Proof.
  intros [B1 [B2 B3]] E. unfold view_get, view_scalar. rewrite B1, B2. cbn [length]. 
  rewrite check_true. cbn [bind]. rewrite rdz_nth, E. reflexivity.
Qed.
Lemma view_set_block asserts v m off x : block v [] off -> off < N.of_nat (length m) ->
  view_set asserts v m x = Ok (upd m (N.to_nat off) x).
Proof.
  intros [B1 [B2 B3]] H. unfold view_set. rewrite B1, B2. cbn [length]. rewrite check_true. cbn [bind].
  apply wrz_ok. auto.
Qed.

(** array[i0]..[ik] and array(i0..ik) are the same element, for reading and writing. *)
Theorem chain_is_call asserts s m idx v : dense s -> N.of_nat (length m) = prod s -> in_range idx s ->
  exists w, array_chain asserts s (map Z.of_N idx) = Ok w /\
    view_get asserts w m = call_get asserts s m (map Z.of_N idx) /\
    view_set asserts w m v = call_set asserts s m (map Z.of_N idx) v /\
    exists x, view_get asserts w m = Ok x.
Proof.
  intros HD HL HR.
  destruct (array_chain_block asserts s idx HD) as [w [E HB]].
  { rewrite (in_range_length _ _ HR). lia. } { rewrite in_range_firstn; auto. }
  rewrite in_range_skipn in HB by auto. exists w. split; auto.
  destruct (call_get_element asserts s m idx HL HR) as [x [E1 E2]].
  rewrite E1, (view_get_block asserts w m _ x HB E2). split; auto.
  pose proof (position_lt _ _ HR). rewrite (view_set_block asserts w m _ v HB) by lia.
  unfold call_set. rewrite call_position_ok by auto. cbn [bind]. rewrite wrz_ok by lia. eauto.
Qed.

Lemma index_rejects v i : 
  (match v_shape v with [] => True | e :: _ => ~ (0 <= i < Z.of_N e)%Z end) ->
  index true v i = Throw OutOfRange.
Proof.
  intros H. unfold index. destruct (v_shape v) as [|e s].
  - reflexivity.
  - change 0%Z with (Z.of_nat 0) at 1. rewrite extent_nth by (cbn; lia). cbn [bind nth].
    replace ((0 <=? i) && (i <? Z.of_N e))%Z with false by lia. reflexivity.
Qed.

Lemma index_chain_rejects : forall idx v s off, (s = [] \/ dense s) -> block v s off ->
  ~ Forall2 (fun i e => (0 <= i < Z.of_N e)%Z) idx (firstn (length idx) s) ->
  index_chain true v idx = Throw OutOfRange.
Proof.
  induction idx as [|i idx IH]; intros v s off HS HB HR; cbn [index_chain].
  - exfalso. apply HR. constructor.
  - destruct s as [|e s].
    + rewrite index_rejects; [reflexivity|]. destruct HB as [-> _]. exact I.
    + destruct HS as [HS|HD]; [discriminate|].
      assert (DEC : (0 <= i < Z.of_N e)%Z \/ ~ (0 <= i < Z.of_N e)%Z) by lia.
      destruct DEC as [Hi|Hi].
      * destruct (index_block true v e s off (Z.to_N i) HD HB ltac:(lia)) as [w [E HB']].
        rewrite Z2N.id in E by lia. rewrite E. cbn [bind]. eapply IH; [|exact HB'|].
        { destruct s as [|e' s']; [auto|right]. apply (dense_tail e); auto. discriminate. }
        intros HF. apply HR. cbn [length firstn]. constructor; auto.
      * rewrite index_rejects; [reflexivity|]. destruct HB as [-> _]. auto.
Qed.
Theorem array_chain_rejects s idx : dense s ->
  ~ Forall2 (fun i e => (0 <= i < Z.of_N e)%Z) idx (firstn (length idx) s) ->
  array_chain true s idx = Throw OutOfRange.
Proof.
  intros HD HR. unfold array_chain. destruct (of_array_block s HD) as [v [E HB]]. rewrite E. cbn [bind].
  eapply index_chain_rejects; eauto.
Qed.

(** ** scalar() *)
Lemma digits_spec : forall s i, positive s ->
  exists t, digits (rev s) i = Ok t /\ in_range t s /\ position t s = i mod prod s.
Proof.
  induction s as [|e s IH] using rev_ind; intros i HP.
  - exists []. split; [reflexivity|]. split; [constructor|]. cbn [prod position]. rewrite N.mod_1_r. reflexivity.
  - apply Forall_app in HP. destruct HP as [HP He]. inversion He as [|? ? He' _]; subst.
    rewrite rev_app_distr. cbn [rev app digits]. destruct (N.eqb_spec e 0); [lia|].
    destruct (IH (i / e) HP) as [t [E [HR HPos]]]. rewrite E. cbn [bind].
    exists (t ++ [i mod e]). split; auto. split.
    + apply in_range_snoc; auto. apply N.mod_lt. auto.
    + rewrite position_snoc by (apply in_range_length; auto). rewrite HPos, prod_snoc.
      pose proof (prod_pos s HP). rewrite (N.mul_comm (prod s) e). rewrite N.mod_mul_r by lia. lia.
Qed.
Lemma digits_position s idx : positive s -> in_range idx s -> digits (rev s) (position idx s) = Ok idx.
Proof.
  intros HP HR. destruct (digits_spec s (position idx s) HP) as [t [E [HR' HE]]]. rewrite E. f_equal.
  rewrite N.mod_small in HE by (apply position_lt; auto). apply (position_inj s); auto.
Qed.
Lemma offset_sum_dot : forall idx s st, in_range idx s -> Forall2 (fun e k => (e - 1) * k < 2 ^ 32) s st ->
  offset_sum idx st = Z.of_N (dot_stride idx st).
Proof.
  intros idx s st HR. revert st. unfold in_range in HR.
  induction HR as [|i e idx s Hi HR IH]; intros st HS; inversion HS as [|? k ? st' Hk HS']; subst;
    cbn [offset_sum dot_stride]; [reflexivity|].
  rewrite (IH st' HS'), u32_id; [lia|]. nia.
Qed.
Lemma scalar_element v m idx : view_ok v m -> in_range idx (v_shape v) ->
  exists x, view_scalar v m (position idx (v_shape v)) = Ok x /\ view_element v m idx = Some x.
Proof.
  intros [H1 [H2 [H3 H4]]] HR. specialize (H4 idx HR).
  assert (E : view_scalar v m (position idx (v_shape v)) = rdz m (cell v idx)).
  { unfold view_scalar, cell. destruct (v_shape v) as [|e s] eqn:ES.
    - inversion HR. subst. inversion H3. cbn [dot_stride]. f_equal. lia.
    - rewrite digits_position by auto. cbn [bind]. rewrite (offset_sum_dot _ _ _ HR H3). reflexivity. }
  rewrite E. unfold rdz, view_element. replace (cell v idx <? 0)%Z with false by lia.
  destruct (nth_error_lt_some m (Z.to_nat (cell v idx))) as [x Ex]; [lia|].
  exists x. unfold rd. rewrite Ex. auto.
Qed.

(** ** The odometer *)
Lemma rev_cons_inv {B} (l : list B) x r : rev l = x :: r -> l = rev r ++ [x].
Proof. intros H. rewrite <- (rev_involutive l), H. reflexivity. Qed.

(** little-endian version of in_range/position/dot over reversed lists *)
Lemma odo_step_spec : forall ext st c p, 
  in_range c ext -> fits ext -> Forall2 (fun e k => (e - 1) * k < 2 ^ 32) ext st ->
  forall c' p' fin, odo_step ext st c p = (c', p', fin) ->
  if fin then position (rev c) (rev ext) + 1 = prod (rev ext)
  else in_range c' ext /\ position (rev c') (rev ext) = position (rev c) (rev ext) + 1 /\
       (p' = p - Z.of_N (dot_stride (rev c) (rev st)) + Z.of_N (dot_stride (rev c') (rev st)))%Z.
Proof.
  unfold in_range, fits. intros ext st c p HR HF HS. revert st p HF HS.
  induction HR as [|ci e c ext Hi HR IH]; intros st p HF HS c' p' fin E;
    inversion HS as [|? k ? st' Hk HS']; subst.
  - cbn in E. inversion E; subst. reflexivity.
  - inversion HF as [|? ? He HF']; subst. cbn [odo_step] in E. cbn [rev].
    assert (HLc : length (rev c) = length (rev ext)).
    { rewrite !rev_length. apply in_range_length. auto. }
    assert (HLs : length (rev c) = length (rev st')).
    { rewrite HLc, !rev_length. clear -HS'. induction HS'; cbn; congruence. }
    rewrite position_snoc, prod_snoc by auto.
    rewrite u32_id in E by lia. 
    destruct (N.eqb_spec (ci + 1) e) as [EQ|NE].
    + destruct (odo_step ext st' c _) as [[c'' p''] fin'] eqn:E'. inversion E; subst c' p' fin; clear E.
      specialize (IH st' _ HF' HS' _ _ _ E').
      assert (W : u32 (e + 2 ^ 32 - 1) = e - 1).
      { unfold u32. replace (e + 2 ^ 32 - 1) with (e - 1 + 1 * 2 ^ 32) by lia.
        rewrite N.mod_add by discriminate. apply N.mod_small. lia. }
      rewrite W, u32_id in IH by auto. destruct fin'.
      * nia.
      * destruct IH as [I1 [I2 I3]]. split; [constructor; auto; lia|]. cbn [rev].
        assert (HLc2 : length (rev c'') = length (rev ext)) by (rewrite !rev_length; apply in_range_length; auto).
        rewrite position_snoc by auto. split; [rewrite I2; nia|].
        rewrite I3, !dot_app by lia. cbn [dot_stride]. nia.
    + inversion E; subst c' p' fin; clear E. split; [constructor; auto; lia|]. cbn [rev].
      rewrite position_snoc by auto. split; [lia|]. rewrite !dot_app by lia. cbn [dot_stride]. nia.
Qed.

Lemma odometer_inv s st body (P : N -> list A -> Prop) :
  positive s -> fits s -> Forall2 (fun e k => (e - 1) * k < 2 ^ 32) s st ->
  (forall d idx m, in_range idx s -> position idx s = d -> P d m ->
     exists m', body d (Z.of_N (dot_stride idx st)) m = Ok m' /\ P (d + 1) m') ->
  forall fuel idx m, in_range idx s -> (N.to_nat (prod s - position idx s) <= fuel)%nat ->
    P (position idx s) m ->
    exists m', odometer fuel (rev s) (rev st) (rev idx) (Z.of_N (dot_stride idx st)) (position idx s) body m = Ok m'
      /\ P (prod s) m'.
Proof.
  intros HP HF HS HB. induction fuel as [|f IH]; intros idx m HR HL HPm.
  - pose proof (position_lt _ _ HR). lia.
  - cbn [odometer]. destruct (HB _ idx m HR eq_refl HPm) as [m1 [E1 HP1]]. rewrite E1. cbn [bind].
    destruct (odo_step (rev s) (rev st) (rev idx) (Z.of_N (dot_stride idx st))) as [[c' p'] fin] eqn:E.
    assert (HRr : in_range (rev idx) (rev s)).
    { clear -HR. unfold in_range in *. induction HR; cbn [rev]; [constructor|]. apply Forall2_app; auto. }
    assert (HSr : Forall2 (fun e k => (e - 1) * k < 2 ^ 32) (rev s) (rev st)).
    { clear -HS. induction HS; cbn [rev]; [constructor|]. apply Forall2_app; auto. }
    assert (HFr : fits (rev s)) by (apply Forall_rev; auto).
    pose proof (odo_step_spec _ _ _ _ HRr HFr HSr _ _ _ E) as SP. rewrite !rev_involutive in SP.
    destruct fin.
    + exists m1. split; auto. rewrite <- SP. auto.
    + destruct SP as [S1 [S2 S3]].
      assert (HR' : in_range (rev c') s).
      { clear -S1. rewrite <- (rev_involutive s). unfold in_range in *.
        induction S1; cbn [rev]; [constructor|]. apply Forall2_app; auto. }
      rewrite <- (rev_involutive c'). rewrite <- S2.
      replace p' with (Z.of_N (dot_stride (rev c') st)) by lia.
      apply IH; auto; [|rewrite S2; auto]. pose proof (position_lt _ _ HR'). lia.
Qed.

Lemma zero_index : forall s, positive s -> in_range (repeat 0 (length s)) s /\ position (repeat 0 (length s)) s = 0.
Proof.
  unfold in_range, positive. induction 1 as [|e s He Hs [I1 I2]]; cbn [length repeat position].
  - split; [constructor|reflexivity].
  - split; [constructor; auto|]. lia.
Qed.
Lemma dot_zero : forall n st, dot_stride (repeat 0 n) st = 0.
Proof. induction n; intros [|k st]; cbn [repeat dot_stride]; auto. rewrite IHn. lia. Qed.
Lemma rev_repeat {B} (x : B) n : rev (repeat x n) = repeat x n.
Proof.
  induction n; cbn [repeat rev]; auto. rewrite IHn. clear. induction n; cbn [repeat app]; auto. rewrite IHn. auto.
Qed.

Lemma odometer_from_zero s st body (P : N -> list A -> Prop) :
  positive s -> fits s -> Forall2 (fun e k => (e - 1) * k < 2 ^ 32) s st ->
  (forall d idx m, in_range idx s -> position idx s = d -> P d m ->
     exists m', body d (Z.of_N (dot_stride idx st)) m = Ok m' /\ P (d + 1) m') ->
  forall fuel m, (N.to_nat (prod s) <= fuel)%nat -> P 0 m ->
    exists m', odometer fuel (rev s) (rev st) (repeat 0 (length s)) 0 0 body m = Ok m' /\ P (prod s) m'.
Proof.
  intros HP HF HS HB fuel m HL HPm. destruct (zero_index s HP) as [Z1 Z2].
  destruct (odometer_inv s st body P HP HF HS HB fuel (repeat 0 (length s)) m Z1) as [m' [E H]].
  - rewrite Z2. lia.
  - rewrite Z2. auto.
  - rewrite Z2, dot_zero, rev_repeat in E. exists m'. auto.
Qed.

(** ** Assignment to a view *)
Lemma cell_nat v m idx : view_ok v m -> in_range idx (v_shape v) ->
  cell v idx = Z.of_nat (Z.to_nat (cell v idx)) /\ (Z.to_nat (cell v idx) < length m)%nat.
Proof. intros [_ [_ [_ H]]] HR. specialize (H idx HR). lia. Qed.

(** General form: the source may read the memory being written, as long as the cells written so far
    do not change what it returns. *)
Theorem view_assign_general asserts fuel v src (x : N -> A) m :
  view_ok v m -> view_injective v -> (N.to_nat (prod (v_shape v)) <= fuel)%nat ->
  (forall d m', d < prod (v_shape v) -> length m' = length m ->
     (forall idx, in_range idx (v_shape v) -> position idx (v_shape v) < d ->
        nth_error m' (Z.to_nat (cell v idx)) = Some (x (position idx (v_shape v)))) ->
     (forall q, (forall idx, in_range idx (v_shape v) -> position idx (v_shape v) < d -> q <> Z.to_nat (cell v idx)) ->
        nth_error m' q = nth_error m q) ->
     src m' d = Ok (x d)) ->
  exists m', view_assign asserts fuel v (v_shape v) src m = Ok m' /\ length m' = length m /\
    (forall idx, in_range idx (v_shape v) ->
       nth_error m' (Z.to_nat (cell v idx)) = Some (x (position idx (v_shape v)))) /\
    (forall q, (forall idx, in_range idx (v_shape v) -> q <> Z.to_nat (cell v idx)) ->
       nth_error m' q = nth_error m q).
Proof.
  intros HV HI HF HX. pose proof HV as [H1 [H2 [H3 H4]]].
  unfold view_assign. replace (shape_eqb (v_shape v) (v_shape v)) with true
    by (symmetry; apply shape_eqb_spec; auto). rewrite check_true. cbn [bind].
  set (s := v_shape v) in *.
  set (P := fun (d : N) (m' : list A) => length m' = length m /\
     (forall idx, in_range idx s -> position idx s < d -> nth_error m' (Z.to_nat (cell v idx)) = Some (x (position idx s))) /\
     (forall q, (forall idx, in_range idx s -> position idx s < d -> q <> Z.to_nat (cell v idx)) ->
        nth_error m' q = nth_error m q)).
  destruct (odometer_from_zero s (v_stride v)
    (fun d p m => do x <- src m d; wrz m (p + v_offset v)%Z x) P H1 H2 H3) with (fuel := fuel) (m := m)
    as [m' [E [P1 [P2 P3]]]]; auto.
  - intros d idx m1 HR Hd [Q1 [Q2 Q3]].
    assert (Hlt : d < prod s) by (rewrite <- Hd; apply position_lt; auto).
    rewrite (HX d m1 Hlt Q1 Q2 Q3). cbn [bind].
    destruct (cell_nat v m idx HV HR) as [C1 C2].
    replace (Z.of_N (dot_stride idx (v_stride v)) + v_offset v)%Z with (cell v idx) by (unfold cell; lia).
    unfold wrz. replace (cell v idx <? 0)%Z with false by lia. rewrite wr_Ok by lia.
    eexists. split; [reflexivity|]. split; [rewrite upd_length; auto|]. split.
    + intros jdx HJ Hj. rewrite nth_error_upd.
      destruct (Nat.eqb_spec (Z.to_nat (cell v idx)) (Z.to_nat (cell v jdx))) as [EQ|NE].
      * assert (jdx = idx).
        { apply HI; auto. destruct (cell_nat v m jdx HV HJ). lia. }
        subst jdx. replace (Z.to_nat (cell v idx) <? length m1)%nat with true by lia. rewrite Hd. reflexivity.
      * cbn [andb]. apply Q2; auto. assert (position jdx s <> d); [|lia].
        intros EQ. apply NE. assert (jdx = idx) by (apply (position_inj s); auto; lia). subst. auto.
    + intros q Hq. rewrite nth_error_upd.
      destruct (Nat.eqb_spec (Z.to_nat (cell v idx)) q) as [EQ|NE].
      * exfalso. apply (Hq idx HR); [lia|auto].
      * cbn [andb]. apply Q3. intros jdx HJ Hj. apply Hq; auto. lia.
  - split; [auto|split]; [intros; lia|auto].
  - exists m'. split; auto. split; auto. split.
    + intros idx HR. apply P2; auto. apply position_lt; auto.
    + intros q Hq. apply P3. auto.
Qed.

Lemma view_ok_element v m idx : view_ok v m -> in_range idx (v_shape v) ->
  view_element v m idx = nth_error m (Z.to_nat (cell v idx)).
Proof. intros [_ [_ [_ H]]] HR. unfold view_element. specialize (H idx HR). replace (cell v idx <? 0)%Z with false by lia. auto. Qed.

Theorem view_assign_view asserts fuel v w m msrc :
  view_ok v m -> view_injective v -> view_ok w msrc -> v_shape w = v_shape v ->
  (N.to_nat (prod (v_shape v)) <= fuel)%nat ->
  exists m', view_assign asserts fuel v (v_shape w) (fun _ d => view_scalar w msrc d) m = Ok m' /\
    length m' = length m /\
    (forall idx, in_range idx (v_shape v) -> view_element v m' idx = view_element w msrc idx) /\
    (forall q, (forall idx, in_range idx (v_shape v) -> q <> Z.to_nat (cell v idx)) ->
       nth_error m' q = nth_error m q).
Proof.
  intros HV HI HW HS HF. rewrite HS.
  assert (HX : exists dflt : A, True).
  { destruct HV as [H1 [_ [_ H4]]]. destruct (zero_index _ H1) as [Z1 _]. specialize (H4 _ Z1).
    destruct m; [cbn in H4; lia|]. eauto. }
  destruct HX as [dflt _].
  destruct (view_assign_general asserts fuel v (fun _ d => view_scalar w msrc d)
    (fun d => match view_scalar w msrc d with Ok x => x | _ => dflt end) m HV HI HF) as [m' [E [L [P1 P2]]]].
  - intros d m' Hd _ _ _. destruct (decode_spec (v_shape v) d) as [HR HE]; auto; [apply HV|].
    rewrite <- HS in HR, HE. destruct (scalar_element w msrc _ HW HR) as [x [E _]]. rewrite HE in E. rewrite E. auto.
  - exists m'. split; auto. split; auto. split; auto. intros idx HR.
    rewrite view_ok_element with (m := m'); auto.
    + rewrite P1 by auto. rewrite <- HS in HR. destruct (scalar_element w msrc idx HW HR) as [x [Ex Ey]].
      rewrite HS in Ex. rewrite Ex, Ey. reflexivity.
    + destruct HV as [? [? [? H4]]]. split; [auto|split; [auto|split; auto]]. intros. rewrite L. auto.
Qed.

(** Source and destination in the same storage: either the same view, or no cell in common. *)
Theorem view_assign_same asserts fuel v w m :
  view_ok v m -> view_injective v -> view_ok w m -> v_shape w = v_shape v ->
  (w = v \/ forall a b, in_range a (v_shape v) -> in_range b (v_shape v) -> cell v a <> cell w b) ->
  (N.to_nat (prod (v_shape v)) <= fuel)%nat ->
  exists m', view_assign asserts fuel v (v_shape w) (fun m d => view_scalar w m d) m = Ok m' /\
    length m' = length m /\
    (forall idx, in_range idx (v_shape v) -> view_element v m' idx = view_element w m idx) /\
    (forall q, (forall idx, in_range idx (v_shape v) -> q <> Z.to_nat (cell v idx)) ->
       nth_error m' q = nth_error m q).
Proof.
  intros HV HI HW HS HD HF. rewrite HS.
  assert (HX : exists dflt : A, True).
  { destruct HV as [H1 [_ [_ H4]]]. destruct (zero_index _ H1) as [Z1 _]. specialize (H4 _ Z1).
    destruct m; [cbn in H4; lia|]. eauto. }
  destruct HX as [dflt _].
  assert (OK : forall v m', view_ok v m -> length m' = length m -> view_ok v m').
  { intros v0 m' [? [? [? H4]]] L. split; [auto|split; [auto|split; auto]]. intros. rewrite L. auto. }
  destruct (view_assign_general asserts fuel v (fun m d => view_scalar w m d)
    (fun d => match view_scalar w m d with Ok x => x | _ => dflt end) m HV HI HF) as [m' [E [L [P1 P2]]]].
  - intros d m' Hd L Q1 Q2. destruct (decode_spec (v_shape v) d) as [HR HE]; auto; [apply HV|].
    set (idx := decode d (v_shape v)) in *.
    assert (HRw : in_range idx (v_shape w)) by (rewrite HS; auto).
    destruct (scalar_element w m' idx (OK _ _ HW L) HRw) as [x [E1 E2]].
    destruct (scalar_element w m idx HW HRw) as [y [E3 E4]].
    rewrite HS, HE in E1, E3. rewrite E1, E3. f_equal.
    rewrite view_ok_element in E2 by (auto; apply OK; auto). rewrite view_ok_element in E4 by auto.
    assert (nth_error m' (Z.to_nat (cell w idx)) = nth_error m (Z.to_nat (cell w idx))).
    { apply Q2. intros jdx HJ Hj EQ. destruct (cell_nat w m idx HW HRw), (cell_nat v m jdx HV HJ).
      destruct HD as [->|HD].
      - assert (idx = jdx) by (apply HI; auto; lia). subst jdx. lia.
      - apply (HD jdx idx); auto. lia. }
    congruence.
  - exists m'. split; auto. split; auto. split; auto. intros idx HR.
    rewrite view_ok_element with (m := m') by (auto; apply OK; auto).
    rewrite P1 by auto. rewrite <- HS in HR. destruct (scalar_element w m idx HW HR) as [x [Ex Ey]].
    rewrite HS in Ex. rewrite Ex, Ey. reflexivity.
Qed.

Theorem view_eval_spec fuel v m res :
  view_ok v m -> N.of_nat (length res) = prod (v_shape v) -> (N.to_nat (prod (v_shape v)) <= fuel)%nat ->
  exists res', view_eval fuel v m res = Ok res' /\ length res' = length res /\
    forall idx, in_range idx (v_shape v) -> element (v_shape v) res' idx = view_element v m idx.
Proof.
  intros HV HL HF. pose proof HV as [H1 [H2 [H3 H4]]]. unfold view_eval. set (s := v_shape v) in *.
  set (P := fun (d : N) (r : list A) => length r = length res /\
     forall idx, in_range idx s -> position idx s < d -> element s r idx = view_element v m idx).
  destruct (odometer_from_zero s (v_stride v)
    (fun d p res => do x <- rdz m (p + v_offset v)%Z; wrz res (Z.of_N d) x) P H1 H2 H3)
    with (fuel := fuel) (m := res) as [m' [E [P1 P2]]]; auto.
  - intros d idx r HR Hd [Q1 Q2].
    replace (Z.of_N (dot_stride idx (v_stride v)) + v_offset v)%Z with (cell v idx) by (unfold cell; lia).
    destruct (cell_nat v m idx HV HR) as [C1 C2]. destruct (nth_error_lt_some m _ C2) as [x Ex].
    unfold rdz. replace (cell v idx <? 0)%Z with false by lia. unfold rd. rewrite Ex. cbn [bind].
    pose proof (position_lt _ _ HR). rewrite wrz_ok by lia.
    eexists. split; [reflexivity|]. split; [rewrite upd_length; auto|].
    intros jdx HJ Hj. unfold element. rewrite nth_error_upd. pose proof (position_lt _ _ HJ).
    destruct (Nat.eqb_spec (N.to_nat d) (N.to_nat (position jdx s))) as [EQ|NE].
    + assert (jdx = idx) by (apply (position_inj s); auto; lia). subst jdx.
      replace (N.to_nat d <? length r)%nat with true by lia. cbn [andb].
      rewrite view_ok_element by auto. auto.
    + cbn [andb]. apply Q2; auto. lia.
  - split; auto. intros; lia.
  - exists m'. split; auto. split; auto. intros idx HR. apply P2; auto. apply position_lt; auto.
Qed.

Theorem view_assign_shape_mismatch fuel v s' src m : v_shape v <> s' ->
  view_assign true fuel v s' src m = Throw RangeError.
Proof.
  intros H. unfold view_assign. destruct (shape_eqb (v_shape v) s') eqn:E.
  - apply shape_eqb_spec in E. congruence.
  - reflexivity.
Qed.

(** ** Views of arrays satisfy the assumptions *)
Lemma block_cell v s off idx : (s = [] \/ dense s) -> block v s off -> in_range idx s -> cell v idx = Z.of_N (off + position idx s).
Proof.
  intros HD [B1 [B2 B3]] HR. unfold cell. rewrite B2, B3. destruct s as [|e s].
  - inversion HR. cbn. lia.
  - destruct HD as [HD|[D1 [D2 D3]]]; [discriminate|].
    rewrite dot_stride_tmp; auto; [lia|]. apply in_range_length; auto.
Qed.
Lemma block_ok v s off m : dense s -> block v s off -> off + prod s <= N.of_nat (length m) ->
  view_ok v m /\ view_injective v.
Proof.
  intros HD HB HL. pose proof HB as [B1 [B2 B3]]. pose proof (dense_fits s HD) as HF.
  destruct HD as [D1 [D2 D3]]. split; [split; [|split; [|split]]|].
  - rewrite B1. auto.
  - rewrite B1. auto.
  - rewrite B1, B3. assert (S : match s with [] => [1] | _ => stride_tmp s end = stride_tmp s) by (destruct s; [congruence|auto]).
    rewrite S. clear -D1 D2 D3. induction s as [|e s IH]; [congruence|].
    assert (HD : dense (e :: s)) by (split; auto). destruct (stride_tmp_hd e s HD) as [r [E Hr]]. rewrite E.
    cbn [prod] in D3. inversion D2; subst. constructor; [nia|].
    destruct s as [|e' s'].
    + cbn in E. inversion E. constructor.
    + rewrite Hr by discriminate. pose proof (dense_tail e _ HD ltac:(discriminate)) as [? [? ?]]. apply IH; auto; discriminate.
  - intros idx HR. rewrite B1 in HR. rewrite (block_cell v s off) by (auto; right; split; auto).
    pose proof (position_lt _ _ HR). lia.
  - intros a b Ha Hb E. rewrite B1 in Ha, Hb.
    rewrite !(block_cell v s off) in E by (auto; right; split; auto). apply (position_inj s); auto. lia.
Qed.

(** Element of a sub-view: prefix index followed by the rest. *)
Theorem chain_view_element asserts s m idx : dense s -> N.of_nat (length m) = prod s ->
  (length idx <= length s)%nat -> in_range idx (firstn (length idx) s) ->
  exists w, array_chain asserts s (map Z.of_N idx) = Ok w /\ v_shape w = skipn (length idx) s /\
    forall jdx, in_range jdx (skipn (length idx) s) ->
      view_element w m jdx = element s m (idx ++ jdx) /\
      cell w jdx = Z.of_N (position (idx ++ jdx) s).
Proof.
  intros HD HL HLe HR. destruct (array_chain_block asserts s idx HD HLe HR) as [w [E HB]].
  exists w. split; auto. split; [apply HB|]. intros jdx HJ.
  assert (HS : skipn (length idx) s = [] \/ dense (skipn (length idx) s)).
  { clear -HD. destruct HD as [D1 [D2 D3]]. destruct (skipn (length idx) s) eqn:E; [auto|right].
    rewrite <- E. split; [rewrite E; discriminate|]. rewrite <- (firstn_skipn (length idx) s) in D2, D3.
    apply Forall_app in D2. destruct D2 as [Da Db]. split; auto. rewrite prod_app in D3.
    pose proof (prod_pos _ Da). nia. }
  assert (EP : position (idx ++ jdx) s = position idx s + position jdx (skipn (length idx) s)).
  { clear -HLe. revert s HLe. induction idx as [|i idx IH]; intros s HL; [reflexivity|].
    destruct s as [|e s]; cbn [length] in *; [lia|].
    cbn [app skipn position]. rewrite IH by lia. lia. }
  assert (EC : cell w jdx = Z.of_N (position (idx ++ jdx) s)).
  { rewrite (block_cell w _ _ jdx HS HB HJ), EP. reflexivity. }
  split; auto. unfold view_element, element. rewrite EC.
  replace (Z.of_N (position (idx ++ jdx) s) <? 0)%Z with false by lia. rewrite <- Z_N_nat, N2Z.id. auto.
Qed.

(** ** Copies of views *)
Theorem copy_denotes v idx : cell (copy_ctor v) idx = (cell v idx - v_offset v)%Z.
Proof. unfold cell, copy_ctor. cbn. lia. Qed.
Theorem move_denotes v idx : cell (move_ctor v) idx = cell v idx.
Proof. reflexivity. Qed.

(** ** Iteration *)
Lemma collect_ok {B} (f : nat -> outcome (list B)) (g : nat -> list B) n : forall start,
  (forall i, (start <= i < start + n)%nat -> f i = Ok (g i)) ->
  collect f n start = Ok (concat (map g (seq start n))).
Proof.
  induction n as [|n IH]; intros start H; cbn [collect seq map concat]; auto.
  rewrite H by lia. cbn [bind]. rewrite IH by (intros; apply H; lia). cbn [bind].
  rewrite Nat.add_1_r. reflexivity.
Qed.
Lemma collect_singletons m n : (n <= length m)%nat ->
  forall start (f : nat -> outcome (list A)),
  (forall i, (i < n)%nat -> exists x, nth_error m i = Some x /\ f (start + i)%nat = Ok [x]) ->
  collect f n start = Ok (firstn n m).
Proof.
  revert n. induction m as [|a m IH]; intros n HL start f H; cbn [length] in HL.
  - assert (n = 0)%nat by lia. subst. reflexivity.
  - destruct n as [|n]; [reflexivity|]. cbn [collect firstn].
    destruct (H 0%nat ltac:(lia)) as [x [E1 E2]]. cbn in E1. inversion E1; subst x.
    rewrite Nat.add_0_r in E2. rewrite E2. cbn [bind].
    rewrite (IH n ltac:(lia) (start + 1)%nat f); [reflexivity|].
    intros i Hi. destruct (H (S i) ltac:(lia)) as [y [F1 F2]]. exists y. split; auto.
    rewrite <- F2. f_equal. lia.
Qed.

Lemma copy_block v s off : block v s off -> block (copy_ctor v) s 0.
Proof. intros [B1 [B2 B3]]. unfold block, copy_ctor. cbn. auto. Qed.

Lemma visit_view_1 asserts v e m off : dense [e] -> block v [e] off -> (off + e <= N.of_nat (length m)) ->
  collect (fun i => do w <- index asserts v (Z.of_nat i); visit_view asserts 0 w m) (N.to_nat e) 0
  = Ok (firstn (N.to_nat e) (skipn (N.to_nat off) m)).
Proof.
  intros HD HB HL. apply collect_singletons; [rewrite skipn_length; lia|].
  intros i Hi. destruct (nth_error_lt_some m (N.to_nat off + i)) as [x Ex]; [lia|].
  exists x. rewrite nth_error_skipn_add. split; auto. cbn [plus].
  destruct (index_block asserts v e [] off (N.of_nat i) HD HB ltac:(lia)) as [w [E HB']].
  rewrite nat_N_Z in E. rewrite E. cbn [bind visit_view].
  rewrite (view_get_block asserts w m _ x HB'); [reflexivity|]. rewrite <- Ex. f_equal. cbn [prod]. lia.
Qed.

Theorem visit_1d asserts e m : dense [e] -> N.of_nat (length m) = e -> visit_array asserts [e] m = Ok m.
Proof.
  intros HD HL. unfold visit_array. destruct (of_array_block [e] HD) as [v [E HB]]. rewrite E. cbn [bind].
  change 0%Z with (Z.of_nat 0). rewrite extent_nth by (cbn; lia). cbn [bind nth length minus move_ctor].
  unfold move_ctor. rewrite (visit_view_1 asserts v e m 0 HD HB) by lia.
  change (N.to_nat 0) with 0%nat. cbn [skipn]. f_equal. apply firstn_all2. lia.
Qed.

Lemma visit_view_exact asserts m : forall s v off, dense s -> block v s off -> (last s 0 <= N.of_nat (length m)) ->
  visit_view asserts (length s) v m
  = Ok (concat (repeat (firstn (N.to_nat (last s 0)) m) (N.to_nat (prod (removelast s))))).
Proof.
  induction s as [|e s IH]; intros v off HD HB HL; [destruct HD; congruence|].
  destruct s as [|e' s'].
  - cbn [length]. cbn [visit_view]. destruct HB as [B1 B]. rewrite B1. change 0%Z with (Z.of_nat 0).
    rewrite extent_nth by (cbn; lia). cbn [bind nth last removelast prod] in *.
    change (fun i : nat => do w <- index asserts (copy_ctor v) (Z.of_nat i);
       (do x <- view_get asserts w m; Ok [x])) with
      (fun i : nat => do w <- index asserts (copy_ctor v) (Z.of_nat i); visit_view asserts 0 w m).
    rewrite (visit_view_1 asserts (copy_ctor v) e m 0 HD); [|apply (copy_block v [e] off); split; auto|lia].
    cbn [repeat concat]. change (N.to_nat 1) with 1%nat. cbn [repeat concat]. rewrite app_nil_r. reflexivity.
  - assert (HD' : dense (e' :: s')) by (apply (dense_tail e); auto; discriminate).
    change (length (e :: e' :: s')) with (S (length (e' :: s'))). cbn [visit_view].
    pose proof HB as [B1 _]. rewrite B1. change 0%Z with (Z.of_nat 0).
    rewrite extent_nth by (cbn; lia). cbn [bind nth].
    set (row := concat (repeat (firstn (N.to_nat (last (e' :: s') 0)) m) (N.to_nat (prod (removelast (e' :: s')))))).
    rewrite (collect_ok _ (fun _ => row)).
    2:{ intros i Hi. destruct (index_block asserts (copy_ctor v) e (e' :: s') 0 (N.of_nat i) HD) as [w [E HB']].
        { apply (copy_block v _ off); auto. } { lia. }
        rewrite nat_N_Z in E. rewrite E. cbn [bind]. apply (IH w _ HD' HB'). exact HL. }
    change (removelast (e :: e' :: s')) with (e :: removelast (e' :: s')). cbn [prod].
    change (last (e :: e' :: s') 0) with (last (e' :: s') 0).
    f_equal. rewrite N2Nat.inj_mul. unfold row.
    generalize (N.to_nat (prod (removelast (e' :: s')))) (firstn (N.to_nat (last (e' :: s') 0)) m) (N.to_nat e) 0%nat.
    clear. intros k l n start. revert start. induction n as [|n IH]; intros start; auto.
    cbn [seq map concat Nat.mul]. rewrite IH. rewrite repeat_app, concat_app. reflexivity.
Qed.

(** Nested iteration over an array of two or more dimensions reads, at every step, the element at
    position (last index) of the flat storage. *)
Theorem visit_nested asserts e s m : dense (e :: s) -> s <> [] -> last s 0 <= N.of_nat (length m) ->
  visit_array asserts (e :: s) m
  = Ok (concat (repeat (firstn (N.to_nat (last s 0)) m) (N.to_nat (prod (removelast (e :: s)))))).
Proof.
  intros HD HS HL. unfold visit_array. destruct (of_array_block _ HD) as [v [E HB]]. rewrite E. cbn [bind].
  change 0%Z with (Z.of_nat 0). rewrite extent_nth by (cbn; lia). cbn [bind nth length].
  assert (HD' : dense s) by (apply (dense_tail e); auto).
  set (row := concat (repeat (firstn (N.to_nat (last s 0)) m) (N.to_nat (prod (removelast s))))).
  rewrite (collect_ok _ (fun _ => row)).
  2:{ intros i Hi. unfold move_ctor. destruct (index_block asserts v e s 0 (N.of_nat i) HD HB ltac:(lia)) as [w [E' HB']].
      rewrite nat_N_Z in E'. rewrite E'. cbn [bind]. rewrite Nat.sub_succ, Nat.sub_0_r.
      apply (visit_view_exact asserts m s w _ HD' HB' HL). }
  f_equal. destruct s as [|e' s']; [congruence|].
  change (removelast (e :: e' :: s')) with (e :: removelast (e' :: s')). cbn [prod].
  rewrite N2Nat.inj_mul. unfold row.
  generalize (N.to_nat (prod (removelast (e' :: s')))) (firstn (N.to_nat (last (e' :: s') 0)) m) (N.to_nat e) 0%nat.
  clear. intros k l n start. revert start. induction n as [|n IH]; intros start; auto.
  cbn [seq map concat Nat.mul]. rewrite IH. rewrite repeat_app, concat_app. reflexivity.
Qed.
End Mem.

Lemma empty_view_undefined :
  exists v, of_array [0%N] = Ok v /\ forall fuel, view_eval fuel v (@nil nat) [] = UB /\
    forall src, (forall m d, exists x, src m d = Ok x) -> view_assign true fuel v [0%N] src (@nil nat) = UB.
Proof.
  eexists. split; [reflexivity|]. intros [|fuel]; (split; [reflexivity|]); intros src H.
  - reflexivity.
  - unfold view_assign. cbn. destruct (H [] 0) as [x ->]. reflexivity.
Qed.
