From Verif Require Import Base BaseProofs ShapeModel ShapeSpec.
Ltac Zify.zify_post_hook ::= Z.div_mod_to_equations.
Local Open Scope N_scope.

Lemma u32_id x : x < 2 ^ 32 -> u32 x = x.
Proof. intros. apply N.mod_small. auto. Qed.
Lemma u64_id x : x < 2 ^ 64 -> u64 x = x.
Proof. intros. apply N.mod_small. auto. Qed.

Lemma map_u32 s : Forall (fun e => e < 2 ^ 32) s -> map u32 s = s.
Proof. induction 1; cbn; auto. rewrite u32_id, IHForall by auto. auto. Qed.

Lemma prod_pos s : Forall (fun e => 0 < e) s -> 0 < prod s.
Proof. induction 1; cbn [prod]; [lia|]. apply N.mul_pos_pos; auto. Qed.

(** ** size *)
Lemma size_acc s : forall r, fold_left (fun r e => u64 (r * e)) s (u64 r) = u64 (r * prod s).
Proof.
  induction s as [|e s IH]; intros r; cbn [fold_left prod].
  - rewrite N.mul_1_r. reflexivity.
  - assert (E : u64 (u64 r * e) = u64 (r * e)).
    { unfold u64. rewrite N.mul_mod_idemp_l by discriminate. reflexivity. }
    rewrite E, IH. f_equal. lia.
Qed.
Lemma size_spec s : size s = prod s mod 2 ^ 64.
Proof.
  unfold size. change 1 with (u64 1). rewrite size_acc. rewrite N.mul_1_l. reflexivity.
Qed.
Lemma size_exact s : prod s < 2 ^ 64 -> size s = prod s.
Proof. intros. rewrite size_spec. apply N.mod_small. auto. Qed.

(** ** stride *)
Lemma stride_tmp_cons e s : s <> [] -> stride_tmp (e :: s) = u32 (hd 0 (stride_tmp s) * hd 0 s) :: stride_tmp s.
Proof. destruct s; [congruence|]. reflexivity. Qed.

Lemma prod_suffix_le s e : 0 < e -> prod s <= prod (e :: s).
Proof. cbn [prod]. intros. nia. Qed.

Lemma stride_tmp_spec s : s <> [] -> Forall (fun e => 0 < e) s -> prod s < 2 ^ 32 ->
  length (stride_tmp s) = length s /\
  forall k, (k < length s)%nat -> nth k (stride_tmp s) 0 = prod (skipn (S k) s).
Proof.
  induction s as [|e s IH]; [congruence|]. intros _ HF HP. inversion HF as [|? ? He HF']; subst.
  destruct s as [|e' s'].
  - split; auto. intros [|k] Hk; [reflexivity|cbn in Hk; lia].
  - assert (HP' : prod (e' :: s') < 2 ^ 32).
    { pose proof (prod_suffix_le (e' :: s') e He). lia. }
    destruct (IH ltac:(discriminate) HF' HP') as [L N0].
    rewrite stride_tmp_cons by discriminate. cbn [hd].
    assert (H0 : hd 0 (stride_tmp (e' :: s')) = prod s').
    { specialize (N0 0%nat ltac:(cbn; lia)). destruct (stride_tmp (e' :: s')); exact N0. }
    rewrite H0. replace (prod s' * e') with (prod (e' :: s')) by (cbn [prod]; lia).
    rewrite u32_id by auto. split; [cbn [length]; rewrite L; reflexivity|].
    intros [|k] Hk; [reflexivity|]. cbn [nth]. rewrite N0 by (cbn in *; lia). reflexivity.
Qed.

Lemma stride_ok s : s <> [] -> Forall (fun e => 0 < e) s -> prod s < 2 ^ 32 -> stride s = Ok (stride_tmp s).
Proof.
  intros H1 H2 H3. unfold stride. rewrite size_exact by (eapply N.lt_trans; [exact H3|reflexivity]).
  pose proof (prod_pos s H2). destruct (N.eqb_spec (prod s) 0); [lia|]. destruct s; congruence.
Qed.

Lemma dot_stride_tmp s : Forall (fun e => 0 < e) s -> prod s < 2 ^ 32 ->
  forall idx, length idx = length s -> dot_stride idx (stride_tmp s) = position idx s.
Proof.
  induction s as [|e s IH]; intros HF HP idx HL.
  - destruct idx; [reflexivity|discriminate].
  - destruct idx as [|i idx]; [discriminate|]. injection HL as HL.
    inversion HF as [|? ? He HF']; subst.
    destruct s as [|e' s'].
    + destruct idx; [|discriminate]. reflexivity.
    + pose proof (stride_tmp_spec (e :: e' :: s') ltac:(discriminate) HF HP) as [L N0].
      rewrite stride_tmp_cons in * by discriminate. cbn [dot_stride position].
      specialize (N0 0%nat ltac:(cbn; lia)). cbn [nth skipn] in N0. rewrite N0.
      rewrite IH; auto. pose proof (prod_suffix_le (e' :: s') e He). lia.
Qed.

(** ** Bijection *)
Lemma position_lt idx s : in_range idx s -> position idx s < prod s.
Proof.
  unfold in_range. induction 1 as [|i e idx s Hi HR IH]; cbn [position prod]; [lia|]. nia.
Qed.
Lemma position_inj : forall s idx idx', in_range idx s -> in_range idx' s ->
  position idx s = position idx' s -> idx = idx'.
Proof.
  unfold in_range. induction s as [|e s IH]; intros idx idx' H1 H2 E;
    inversion H1 as [|i ? r ? Hi Hr]; inversion H2 as [|i' ? r' ? Hi' Hr']; subst; auto.
  cbn [position] in E. pose proof (position_lt _ _ Hr). pose proof (position_lt _ _ Hr').
  assert (i = i') by nia. subst i'. f_equal. apply IH; auto. nia.
Qed.
Fixpoint decode (p : N) (s : list N) : list N :=
  match s with [] => [] | _ :: s' => p / prod s' :: decode (p mod prod s') s' end.
Lemma decode_spec : forall s p, Forall (fun e => 0 < e) s -> p < prod s ->
  in_range (decode p s) s /\ position (decode p s) s = p.
Proof.
  unfold in_range. induction s as [|e s IH]; intros p HF Hp; cbn [decode position prod] in *.
  - split; [constructor|]. lia.
  - inversion HF as [|? ? He HF']; subst. pose proof (prod_pos s HF') as Hpos.
    destruct (IH (p mod prod s) HF') as [H1 H2]; [apply N.mod_lt; lia|].
    split.
    + constructor; auto. apply N.div_lt_upper_bound; [lia|]. nia.
    + rewrite H2. rewrite (N.div_mod p (prod s)) at 3 by lia. nia.
Qed.

Theorem rowmajor_bijection s : s <> [] -> Forall (fun e => 0 < e) s -> prod s < 2 ^ 32 ->
  exists st, stride s = Ok st /\ length st = length s /\
    (forall idx, in_range idx s -> dot_stride idx st = position idx s /\ dot_stride idx st < size s) /\
    (forall p, p < size s -> exists idx, in_range idx s /\ dot_stride idx st = p /\
        forall idx', in_range idx' s -> dot_stride idx' st = p -> idx' = idx).
Proof.
  intros H1 H2 H3. exists (stride_tmp s). split; [apply stride_ok; auto|].
  rewrite size_exact by (eapply N.lt_trans; [exact H3|reflexivity]).
  assert (HD : forall idx, in_range idx s -> dot_stride idx (stride_tmp s) = position idx s).
  { intros idx HR. apply dot_stride_tmp; auto. clear - HR. induction HR; cbn; congruence. }
  split; [apply stride_tmp_spec; auto|]. split.
  - intros idx HR. rewrite HD by auto. split; auto. apply position_lt; auto.
  - intros p Hp. destruct (decode_spec s p H2 Hp) as [HR HE].
    exists (decode p s). split; auto. split; [rewrite HD; auto|].
    intros idx' HR' E. rewrite HD in E by auto. apply (position_inj s); auto. congruence.
Qed.

Theorem strides_are_products s : s <> [] -> Forall (fun e => 0 < e) s -> prod s < 2 ^ 32 ->
  exists st, stride s = Ok st /\ length st = length s /\
    forall k, (k < length s)%nat -> nth k st 0 = prod (skipn (S k) s).
Proof.
  intros. exists (stride_tmp s). split; [apply stride_ok; auto|]. apply stride_tmp_spec; auto.
Qed.

Theorem position_lex : forall s a b, in_range a s -> in_range b s ->
  (lex_lt a b <-> position a s < position b s).
Proof.
  unfold in_range. induction s as [|e s IH]; intros a b H1 H2;
    inversion H1 as [|i ? r ? Hi Hr]; inversion H2 as [|i' ? r' ? Hi' Hr']; subst; cbn [lex_lt position].
  - split; [tauto|lia].
  - pose proof (position_lt _ _ Hr). pose proof (position_lt _ _ Hr'). rewrite (IH r r') by auto. split.
    + intros [Hl|[-> Hl]]; nia.
    + intros Hl. destruct (N.lt_trichotomy i i') as [|[->|]]; [left; auto|right; split; auto; nia|nia].
Qed.

Lemma stride_zero_dim : stride [] = UB.
Proof. reflexivity. Qed.

(** A shape with a zero extent keeps its extents as "strides", except the first, which becomes 1. *)
Theorem stride_zero_extent s : s <> [] -> prod s = 0 -> stride s = Ok (upd s 0 1).
Proof.
  intros H1 H2. unfold stride. rewrite size_spec, H2. cbn. destruct s; [congruence|]. reflexivity.
Qed.
Lemma stride_wrap_refuted : exists s st idx, Forall (fun e => 0 < e < 2 ^ 32) s /\ prod s < 2 ^ 64 /\
  stride s = Ok st /\ in_range idx s /\ dot_stride idx st <> position idx s.
Proof.
  exists [2; 65536; 65536], [0; 65536; 1], [1; 0; 0].
  split; [|split; [reflexivity|split; [reflexivity|split; [|vm_compute; congruence]]]].
  - apply Forall_cons; [split; reflexivity|]. apply Forall_cons; [split; reflexivity|].
    apply Forall_cons; [split; reflexivity|]. constructor.
  - unfold in_range. apply Forall2_cons; [reflexivity|]. apply Forall2_cons; [reflexivity|].
    apply Forall2_cons; [reflexivity|]. constructor.
Qed.

(** ** Conversions *)

Theorem of_values_spec vals : fits vals -> (length vals <= 16)%nat -> of_values vals = Ok vals.
Proof.
  intros HF HL. unfold of_values, MaxDimensions. rewrite map_u32 by auto.
  destruct (Nat.leb_spec (length vals) 16); auto. lia.
Qed.
Theorem of_values_overflow vals : (16 < length vals)%nat -> of_values vals = UB.
Proof.
  intros HL. unfold of_values, MaxDimensions. destruct (Nat.leb_spec (length vals) 16); auto. lia.
Qed.

Theorem matrix_round_trip asserts m : m_of_shape asserts (of_m m) = Ok m.
Proof. destruct m. destruct asserts; reflexivity. Qed.
Theorem matrix_of_shape asserts s : (length s <= 2)%nat -> s <> [] ->
  exists m, m_of_shape asserts s = Ok m /\ of_m m = s ++ repeat 1 (2 - length s) /\ prod (of_m m) = prod s.
Proof.
  intros HL HN. destruct s as [|r [|c [|? ?]]]; cbn in HL; try lia; try congruence;
    (eexists; split; [destruct asserts; reflexivity|]); split; auto; cbn; lia.
Qed.
Theorem matrix_too_many s : (2 < length s)%nat -> m_of_shape true s = Throw InvalidArgument.
Proof.
  intros. unfold m_of_shape, check. destruct (Nat.leb_spec (length s) 2); [lia|]. reflexivity.
Qed.
Theorem vector_round_trip asserts v : v_of_shape asserts (of_v v) = Ok v.
Proof. destruct asserts; reflexivity. Qed.
Theorem vector_of_shape asserts s : length s = 1%nat -> exists v, v_of_shape asserts s = Ok v /\ of_v v = s.
Proof. intros H. destruct s as [|v [|? ?]]; try discriminate. exists v. destruct asserts; auto. Qed.
Theorem vector_too_many s : length s <> 1%nat -> v_of_shape true s = Throw InvalidArgument.
Proof.
  intros. unfold v_of_shape, check. destruct (Nat.eqb_spec (length s) 1); [lia|]. reflexivity.
Qed.

Theorem matrix_size m : fst m * snd m < 2 ^ 32 -> m_size m = prod (of_m m) /\ m_size m = size (of_m m).
Proof.
  intros H. unfold m_size. rewrite u32_id by auto.
  assert (prod (of_m m) = fst m * snd m) by (destruct m; cbn; lia).
  split; auto. rewrite size_exact; auto. rewrite H0. eapply N.lt_trans; [exact H|reflexivity].
Qed.
Lemma matrix_size_refuted : exists m, fst m < 2 ^ 32 /\ snd m < 2 ^ 32 /\ size (of_m m) = 4294967296 /\ m_size m = 0.
Proof. exists (65536, 65536). repeat split; vm_compute; reflexivity. Qed.

Theorem vector_size v : v < 2 ^ 32 -> v_size v = prod (of_v v) /\ v_size v = size (of_v v).
Proof.
  intros H. assert (prod (of_v v) = v) by (cbn; lia). unfold v_size. split; auto.
  rewrite size_exact; auto. rewrite H0. eapply N.lt_trans; [exact H|reflexivity].
Qed.

(** ** Equality *)
Lemma entries_eqb_spec a : forall b, length a = length b -> (entries_eqb a b = true <-> a = b).
Proof.
  induction a as [|x a IH]; intros [|y b] H; cbn in *; try discriminate; [tauto|].
  rewrite andb_true_iff, N.eqb_eq, IH by auto. split; [intros [-> ->]; auto|].
  intros E; inversion E; auto.
Qed.
Lemma shape_eqb_spec a b : shape_eqb a b = true <-> a = b.
Proof.
  unfold shape_eqb. rewrite andb_true_iff, Nat.eqb_eq. split.
  - intros [H1 H2]. apply entries_eqb_spec; auto.
  - intros ->. split; auto. apply entries_eqb_spec; auto.
Qed.
Theorem any_eqb_spec a b : any_eqb a b = true <-> extents a = extents b.
Proof.
  destruct a as [s|[r c]|v], b as [t|[r' c']|v']; cbn [any_eqb extents fst snd].
  - apply shape_eqb_spec.
  - destruct s as [|x [|y [|? ?]]]; split; intros H; try discriminate; try (inversion H; fail).
    + apply andb_true_iff in H. rewrite !N.eqb_eq in H. destruct H as [-> ->]. auto.
    + inversion H. subst. rewrite !N.eqb_refl. auto.
  - destruct s as [|x [|? ?]]; split; intros H; try discriminate.
    + apply N.eqb_eq in H. subst. auto.
    + inversion H. subst. apply N.eqb_refl.
  - destruct t as [|x [|y [|? ?]]]; split; intros H; try discriminate; try (inversion H; fail).
    + apply andb_true_iff in H. rewrite !N.eqb_eq in H. destruct H as [-> ->]. auto.
    + inversion H. subst. rewrite !N.eqb_refl. auto.
  - rewrite andb_true_iff, !N.eqb_eq. split; [intros [-> ->]; auto|intros H; inversion H; auto].
  - split; discriminate.
  - destruct t as [|x [|? ?]]; split; intros H; try discriminate.
    + apply N.eqb_eq in H. subst. auto.
    + inversion H. subst. apply N.eqb_refl.
  - split; discriminate.
  - rewrite N.eqb_eq. split; [intros ->; auto|intros H; inversion H; auto].
Qed.

(** ** subshape *)
Lemma nth_error_firstn_lt {A} (l : list A) : forall n k, (k < n)%nat -> nth_error (firstn n l) k = nth_error l k.
Proof.
  induction l as [|x l IH]; intros [|n] k H; try lia; [reflexivity|].
  cbn [firstn]. destruct k; [reflexivity|]. cbn. apply IH. lia.
Qed.
Lemma nth_error_skipn_add {A} (l : list A) : forall n k, nth_error (skipn n l) k = nth_error l (n + k).
Proof.
  induction l as [|x l IH]; intros [|n] k; cbn [skipn plus]; try reflexivity.
  - destruct k; reflexivity.
  - cbn. apply IH.
Qed.

Theorem subshape_spec asserts s a b :
  let start := if (a <? 0)%Z then 0%nat else Z.to_nat a in
  let stop := if (b <? 0)%Z then length s else Z.to_nat b in
  (start <= stop <= length s)%nat ->
  exists t, subshape asserts s a b = Ok t /\ length t = (stop - start)%nat /\
    forall k, (k < stop - start)%nat -> nth_error t k = nth_error s (start + k).
Proof.
  intros start stop H. unfold subshape.
  set (st := if (a <? 0)%Z then 0%Z else a). set (en := if (b <? 0)%Z then Z.of_nat (length s) else b).
  assert (Hst : Z.to_nat st = start) by (unfold st, start; destruct (a <? 0)%Z; auto).
  assert (Hen : Z.to_nat en = stop) by (unfold en, stop; destruct (b <? 0)%Z; auto; lia).
  assert (H0 : (0 <= st)%Z) by (unfold st; destruct (Z.ltb_spec a 0); lia).
  assert (H0' : (0 <= en)%Z) by (unfold en; destruct (Z.ltb_spec b 0); lia).
  assert (E1 : (st <=? en)%Z = true) by lia. assert (E2 : (en <=? Z.of_nat (length s))%Z = true) by lia.
  assert (E3 : (0 <=? st)%Z = true) by lia.
  unfold check. rewrite E1, E2, E3. cbn [negb]. rewrite !andb_false_r. cbn [bind andb].
  eexists. split; [reflexivity|].
  replace (Z.to_nat (en - st)) with (stop - start)%nat by lia. rewrite Hst.
  split; [rewrite firstn_length, skipn_length; lia|].
  intros k Hk. rewrite nth_error_firstn_lt by auto. apply nth_error_skipn_add.
Qed.

Theorem subshape_rejects s a b :
  let start := if (a <? 0)%Z then 0%Z else a in
  let stop := if (b <? 0)%Z then Z.of_nat (length s) else b in
  ~ (start <= stop <= Z.of_nat (length s))%Z ->
  exists e, subshape true s a b = Throw e.
Proof.
  intros start stop H. unfold subshape. fold start stop. unfold check. cbn [andb].
  destruct (Z.leb_spec start stop); cbn [negb bind]; [|eauto].
  destruct (Z.leb_spec stop (Z.of_nat (length s))); cbn [negb bind]; [lia|eauto].
Qed.

Theorem m_subshape_spec asserts m a b : (0 <= a <= b)%Z -> (b <= 2)%Z ->
  exists t, m_subshape asserts m a b = Ok t /\ length t = Z.to_nat (b - a) /\
    forall k, (k < Z.to_nat (b - a))%nat -> nth_error t k = nth_error (of_m m) (Z.to_nat a + k).
Proof.
  intros H1 H2. unfold m_subshape.
  destruct (subshape_spec asserts (of_m m) a b) as [t [E [L N0]]].
  { destruct (Z.ltb_spec a 0), (Z.ltb_spec b 0); cbn [of_m length]; lia. }
  assert (E1 : (a <=? b)%Z = true) by lia. assert (E2 : (b <=? 2)%Z = true) by lia.
  assert (E3 : (0 <=? a)%Z = true) by lia.
  unfold check. rewrite E1, E2, E3. cbn [negb]. rewrite !andb_false_r. cbn [bind].
  destruct (Z.ltb_spec a 0), (Z.ltb_spec b 0); try lia.
  exists t. replace (Z.to_nat (b - a)) with (Z.to_nat b - Z.to_nat a)%nat by lia. auto.
Qed.
Theorem m_subshape_negative m a b : (a < 0 \/ b < a \/ 2 < b)%Z -> exists e, m_subshape true m a b = Throw e.
Proof.
  intros H. unfold m_subshape, check. cbn [andb].
  destruct (Z.leb_spec a b); cbn [negb bind]; [|eauto].
  destruct (Z.leb_spec b 2); cbn [negb bind]; [|eauto].
  destruct (Z.leb_spec 0 a); cbn [negb bind]; [lia|eauto].
Qed.
Theorem v_subshape_always asserts v a b t : v_subshape asserts v a b = Ok t -> t = [0].
Proof.
  unfold v_subshape. destruct (check _ _ (a <=? b)%Z); cbn [bind]; try discriminate.
  destruct (check _ _ (b <=? 1)%Z); cbn [bind]; try discriminate.
  destruct (check _ _ (0 <=? a)%Z); cbn [bind]; try discriminate. cbn. congruence.
Qed.

(** ** shapesMatch *)
Lemma shapesMatch_cons2 a b c l : shapesMatch (a :: b :: c :: l) = any_eqb a b && shapesMatch (c :: l).
Proof. reflexivity. Qed.
Lemma two_ind {A} (P : list A -> Prop) : P [] -> (forall a, P [a]) -> (forall a b l, P l -> P (a :: b :: l)) ->
  forall l, P l.
Proof.
  intros H0 H1 H2 l. enough (P l /\ forall a, P (a :: l)) by tauto.
  induction l as [|x l [I1 I2]]; split; auto.
Qed.
Theorem shapesMatch_complete l : all_equal l -> shapesMatch l = true.
Proof.
  induction l as [|a|a b l IH] using two_ind; intros H; auto.
  assert (E : any_eqb a b = true) by (apply any_eqb_spec, H; cbn; auto).
  destruct l as [|c l]; [cbn; auto|]. rewrite shapesMatch_cons2, E. cbn [andb].
  apply IH. intros x y Hx Hy. apply H; cbn; auto.
Qed.
Theorem shapesMatch_sound_partial l : (length l <= 2)%nat -> (shapesMatch l = true <-> all_equal l).
Proof.
  intros HL. split; [|apply shapesMatch_complete]. unfold all_equal.
  destruct l as [|a [|b [|? ?]]]; cbn in HL; try lia; intros H x y Hx Hy; cbn in *; try tauto.
  - destruct Hx as [<-|[]], Hy as [<-|[]]. auto.
  - apply any_eqb_spec in H. destruct Hx as [<-|[<-|[]]], Hy as [<-|[<-|[]]]; auto.
Qed.
(** What it decides for every length: the first with the second, the third with the fourth, … *)
Theorem shapesMatch_pairs l : shapesMatch l = true <->
  forall k a b, nth_error l (2 * k) = Some a -> nth_error l (2 * k + 1) = Some b -> extents a = extents b.
Proof.
  induction l as [|a|a b l IH] using two_ind.
  - split; auto. intros _ k a b H. destruct (2 * k)%nat; discriminate.
  - split; auto. intros _ k x y _ H2. rewrite (proj2 (nth_error_None [a] (2 * k + 1))) in H2; [discriminate|]. cbn [length]. lia.
  - assert (E : shapesMatch (a :: b :: l) = any_eqb a b && shapesMatch l).
    { destruct l; [|reflexivity]. cbn. rewrite andb_true_r. auto. }
    rewrite E, andb_true_iff, any_eqb_spec, IH. clear. split.
    + intros [H1 H2] [|k] x y Hx Hy; [cbn in Hx, Hy; congruence|].
      replace (2 * S k)%nat with (S (S (2 * k))) in * by lia. apply (H2 k); auto.
    + intros H. split.
      * apply (H 0%nat); reflexivity.
      * intros k x y Hx Hy. apply (H (S k)); replace (2 * S k)%nat with (S (S (2 * k))) by lia; auto.
Qed.
Lemma shapesMatch_unsound : exists l, shapesMatch l = true /\ ~ all_equal l.
Proof.
  exists [S_ [2]; S_ [2]; S_ [3]; S_ [3]]. split; [reflexivity|].
  intros H. specialize (H (S_ [2]) (S_ [3])). cbn in H. discriminate H; auto.
Qed.
