From Verif Require Import Base BaseProofs ShapeModel ShapeSpec ShapeProofs AssignModel AssignSpec.
Ltac Zify.zify_post_hook ::= idtac.

Section P.
Context {A : Type}.
Implicit Types st : store A.
Implicit Types e : expr A.

Lemma set_arr_same st id l : set_arr st id l id = l.
Proof. unfold set_arr. rewrite Nat.eqb_refl. auto. Qed.
Lemma set_arr_other st id l j : j <> id -> set_arr st id l j = st j.
Proof. unfold set_arr. intros. destruct (Nat.eqb_spec j id); congruence. Qed.

Lemma value_stable st st' e i :
  (forall id, In id (leaves e) -> nth_error (st' id) i = nth_error (st id) i) -> value st' e i = value st e i.
Proof.
  induction e as [id|x|f a IHa|f a IHa b IHb]; cbn [value leaves]; intros H; auto.
  - apply H. cbn; auto.
  - rewrite IHa; auto.
  - rewrite IHa, IHb; auto; intros; apply H; apply in_app_iff; auto.
Qed.
Lemma value_some st e n i : operands_have st e n -> i < n -> exists x, value st e i = Some x.
Proof.
  induction e as [id|x|f a IHa|f a IHa b IHb]; cbn [value operands_have]; intros H Hi.
  - destruct (nth_error (st id) i) eqn:E; eauto. apply nth_error_None in E. lia.
  - eauto.
  - destruct (IHa H Hi) as [x ->]. eauto.
  - destruct H. destruct IHa as [x ->]; auto. destruct IHb as [y ->]; eauto.
Qed.
Lemma scalar_value st e i x : value st e i = Some x -> scalar st e i = Ok x.
Proof.
  revert x. induction e as [id|x0|f a IHa|f a IHa b IHb]; cbn [value scalar]; intros x H.
  - unfold rd. rewrite H. auto.
  - congruence.
  - destruct (value st a i); try discriminate. rewrite (IHa _ eq_refl). cbn. congruence.
  - destruct (value st a i), (value st b i); try discriminate.
    rewrite (IHa _ eq_refl), (IHb _ eq_refl). cbn. congruence.
Qed.

Lemma map2_length f (l1 l2 : list A) : length l1 = length l2 -> length (map2 f l1 l2) = length l1.
Proof. revert l2; induction l1; intros [|y l2] H; try discriminate; cbn in *; auto. Qed.
Lemma map2_nth f (l1 l2 : list A) j : nth_error (map2 f l1 l2) j =
  match nth_error l1 j, nth_error l2 j with Some x, Some y => Some (f x y) | _, _ => None end.
Proof.
  revert l2 j; induction l1 as [|x l1 IH]; intros [|y l2] [|j]; cbn; auto.
  - destruct (nth_error l1 j); auto.
Qed.
Lemma packet_value st e n w i : operands_have st e n -> i + w <= n ->
  exists p, packet st e w i = Ok p /\ length p = w /\ forall j, j < w -> nth_error p j = value st e (i + j).
Proof.
  induction e as [id|x|f a IHa|f a IHa b IHb]; cbn [value packet operands_have]; intros H Hi.
  - unfold load. destruct (Nat.leb_spec (i + w) (length (st id))); [|lia]. eexists. split; [reflexivity|].
    split; [rewrite firstn_length, skipn_length; lia|].
    intros j Hj. rewrite nth_error_firstn_lt, nth_error_skipn_add by auto. auto.
  - eexists. split; [reflexivity|]. split; [apply repeat_length|]. intros j Hj. apply nth_error_repeat. auto.
  - destruct (IHa H Hi) as [p [-> [L N0]]]. cbn [bind]. eexists. split; [reflexivity|].
    split; [rewrite map_length; auto|]. intros j Hj. rewrite nth_error_map, N0 by auto.
    destruct (value st a (i + j)); auto.
  - destruct H as [H1 H2]. destruct (IHa H1 Hi) as [p [-> [L N0]]]. destruct (IHb H2 Hi) as [q [-> [L' N1]]].
    cbn [bind]. eexists. split; [reflexivity|]. split; [rewrite map2_length; lia|].
    intros j Hj. rewrite map2_nth, N0, N1 by auto. auto.
Qed.

Lemma write_lanes_length (p : list A) : forall l i, length (write_lanes l i p) = length l.
Proof. induction p; intros; cbn [write_lanes]; auto. rewrite IHp, upd_length. auto. Qed.
Lemma write_lanes_nth (p : list A) : forall l i q, i + length p <= length l ->
  nth_error (write_lanes l i p) q = if (i <=? q) && (q <? i + length p) then nth_error p (q - i) else nth_error l q.
Proof.
  induction p as [|x p IH]; intros l i q H; cbn [write_lanes length] in *.
  - destruct (Nat.leb_spec i q), (Nat.ltb_spec q (i + 0)); cbn [andb]; auto; lia.
  - rewrite IH by (rewrite upd_length; lia). rewrite nth_error_upd.
    destruct (Nat.leb_spec (i + 1) q), (Nat.ltb_spec q (i + 1 + length p)), (Nat.leb_spec i q),
      (Nat.ltb_spec q (i + S (length p))), (Nat.eqb_spec i q), (Nat.ltb_spec i (length l)); cbn [andb]; try lia; auto.
    + replace (q - i) with (S (q - (i + 1))) by lia. reflexivity.
    + subst. rewrite Nat.sub_diag. reflexivity.
Qed.

(** Cells of an iteration *)
Definition cells (w : nat) (it : iteration) (i : nat) : bool :=
  (it_start it <=? i) && (i <? it_start it + it_width w it).
Definition covered (w : nat) (its : list iteration) (i : nat) : bool := existsb (fun it => cells w it i) its.
Definition disjoint (w : nat) (its : list iteration) : Prop :=
  forall k1 k2 it1 it2 i, nth_error its k1 = Some it1 -> nth_error its k2 = Some it2 -> k1 <> k2 ->
    cells w it1 i = true -> cells w it2 i = false.
Definition within (w n : nat) (its : list iteration) : Prop :=
  forall it, In it its -> it_start it + it_width w it <= n.

Definition progress st lhs e n (D : nat -> bool) st' : Prop :=
  (forall id, id <> lhs -> st' id = st id) /\ length (st' lhs) = n /\
  (forall i, i < n -> nth_error (st' lhs) i = if D i then value st e i else nth_error (st lhs) i).

Lemma operands_length st e n id : operands_have st e n -> In id (leaves e) -> length (st id) = n.
Proof.
  induction e as [id'|x|f a IHa|f a IHa b IHb]; cbn [leaves operands_have]; intros H HI; try tauto.
  - destruct HI as [<-|[]]. auto.
  - destruct HI.
  - apply in_app_iff in HI. destruct H, HI; auto.
Qed.

Lemma progress_operands st lhs e n D st' : progress st lhs e n D st' -> length (st lhs) = n ->
  operands_have st e n -> operands_have st' e n.
Proof.
  intros [P1 [P2 P3]] HL. generalize dependent e. intros e _.
  induction e as [id|x|f a IHa|f a IHa b IHb]; cbn [operands_have]; try tauto.
  intros H. destruct (Nat.eq_dec id lhs) as [->|NE]; auto. rewrite P1; auto.
Qed.
Lemma progress_value st lhs e n D st' i : progress st lhs e n D st' -> i < n -> D i = false ->
  value st' e i = value st e i.
Proof.
  intros [P1 [P2 P3]] Hi HD. apply value_stable. intros id _. destruct (Nat.eq_dec id lhs) as [->|NE].
  - rewrite P3, HD by auto. auto.
  - rewrite P1; auto.
Qed.

Lemma iteration_progress st lhs e n w D st' it :
  length (st lhs) = n -> operands_have st e n -> progress st lhs e n D st' ->
  it_start it + it_width w it <= n -> (forall i, cells w it i = true -> D i = false) ->
  exists st'', run_iteration w lhs e it st' = Ok st'' /\ progress st lhs e n (fun i => cells w it i || D i) st''.
Proof.
  intros HL HO HP HW HD. pose proof (progress_operands _ _ _ _ _ _ HP HL HO) as HO'.
  pose proof HP as [P1 [P2 P3]].
  destruct it as [i|i]; cbn [it_start it_width run_iteration] in *.
  - destruct (packet_value st' e n w i HO' HW) as [p [-> [L N0]]]. cbn [bind]. unfold writePacket.
    rewrite L, P2. destruct (Nat.leb_spec (i + w) n); [|lia]. eexists. split; [reflexivity|].
    split; [intros id NE; rewrite set_arr_other; auto|]. rewrite set_arr_same.
    split; [rewrite write_lanes_length; auto|]. intros q Hq. rewrite write_lanes_nth by lia. rewrite L.
    unfold cells. cbn [it_start it_width]. destruct ((i <=? q) && (q <? i + w)) eqn:E; cbn [orb]; [|auto].
    rewrite N0 by lia. replace (i + (q - i)) with q by lia. apply (progress_value st lhs e n D); auto.
  - destruct (value_some st' e n i HO' ltac:(lia)) as [x E]. rewrite (scalar_value _ _ _ _ E). cbn [bind].
    unfold write. rewrite wr_Ok by lia. cbn [bind]. eexists. split; [reflexivity|].
    split; [intros id NE; rewrite set_arr_other; auto|]. rewrite set_arr_same.
    split; [rewrite upd_length; auto|]. intros q Hq. rewrite nth_error_upd.
    unfold cells. cbn [it_start it_width]. destruct (Nat.eqb_spec i q).
    + subst q. replace ((i <=? i) && (i <? i + 1)) with true by lia. cbn [orb].
      replace (i <? length (st' lhs)) with true by lia. cbn [andb]. rewrite <- E.
      apply (progress_value st lhs e n D); auto. apply HD. unfold cells. cbn [it_start it_width]. lia.
    + replace ((i <=? q) && (q <? i + 1)) with false by lia. cbn [andb orb]. auto.
Qed.

Lemma progress_ext st lhs e n D D' st' : (forall i, i < n -> D i = D' i) ->
  progress st lhs e n D st' -> progress st lhs e n D' st'.
Proof. intros H [P1 [P2 P3]]. split; [auto|split; auto]. intros. rewrite <- H; auto. Qed.

Lemma disjoint_cons w it its : disjoint w (it :: its) ->
  (forall it' i, In it' its -> cells w it i = true -> cells w it' i = false) /\ disjoint w its.
Proof.
  intros H. split.
  - intros it' i HI HC. apply In_nth_error in HI. destruct HI as [k Hk].
    apply (H 0 (S k) it it' i); auto.
  - intros k1 k2 it1 it2 i H1 H2 NE. apply (H (S k1) (S k2)); auto.
Qed.

Lemma serial_progress st lhs e n w : length (st lhs) = n -> operands_have st e n ->
  forall its D st', progress st lhs e n D st' -> within w n its -> disjoint w its ->
  (forall it i, In it its -> cells w it i = true -> D i = false) ->
  exists st'', for_list its (run_iteration w lhs e) st' = Ok st'' /\
    progress st lhs e n (fun i => covered w its i || D i) st''.
Proof.
  intros HL HO. induction its as [|it its IH]; intros D st' HP HW HD HN; cbn [for_list].
  - exists st'. split; auto.
  - destruct (iteration_progress st lhs e n w D st' it) as [st1 [E HP1]]; auto.
    { apply HW. cbn; auto. } { intros i HC. apply (HN it); cbn; auto. }
    rewrite E. cbn [bind]. destruct (disjoint_cons _ _ _ HD) as [HD1 HD2].
    destruct (IH _ st1 HP1) as [st2 [E2 HP2]]; auto.
    { intros it' HI. apply HW. cbn; auto. }
    { intros it' i HI HC. rewrite (HN it' i) by (cbn; auto). rewrite orb_false_r.
      destruct (cells w it i) eqn:E'; auto. rewrite (HD1 it' i HI E') in HC. discriminate. }
    exists st2. split; auto. eapply progress_ext; [|exact HP2]. intros i _. cbn [covered existsb].
    rewrite !orb_assoc. f_equal. apply orb_comm.
Qed.

Lemma progress_assigned st lhs e n D st' : operands_have st e n -> (forall i, i < n -> D i = true) ->
  progress st lhs e n D st' -> assigned st lhs e n st'.
Proof.
  intros HO HD [P1 [P2 P3]]. split; [auto|split; auto]. intros i Hi.
  destruct (value_some st e n i HO Hi) as [x E]. exists x. rewrite P3, HD by auto. auto.
Qed.

(** ** The loops *)
Lemma packets_nth w v k it : nth_error (packets w v) k = Some it -> it = Packet (k * w) /\ k < v / w.
Proof.
  unfold packets. intros H. 
  assert (k < v / w).
  { apply nth_error_Some_lt in H || idtac. destruct (Nat.lt_ge_cases k (v / w)); auto.
    rewrite (proj2 (nth_error_None _ _)) in H; [discriminate|]. rewrite map_length, seq_length. auto. }
  rewrite nth_error_map in H. destruct (nth_error (seq 0 (v / w)) k) eqn:E; [|discriminate].
  assert (n = k). { apply nth_error_nth with (d := 0) in E. rewrite seq_nth in E by auto. lia. }
  subst. cbn in H. inversion H. auto.
Qed.
Lemma singles_nth lo hi k it : nth_error (singles lo hi) k = Some it -> it = Single (lo + k) /\ lo + k < hi.
Proof.
  unfold singles. intros H.
  assert (k < hi - lo).
  { destruct (Nat.lt_ge_cases k (hi - lo)); auto.
    rewrite (proj2 (nth_error_None _ _)) in H; [discriminate|]. rewrite map_length, seq_length. auto. }
  rewrite nth_error_map in H. destruct (nth_error (seq lo (hi - lo)) k) eqn:E; [|discriminate].
  assert (n = lo + k). { apply nth_error_nth with (d := 0) in E. rewrite seq_nth in E by auto. lia. }
  subst. cbn in H. inversion H. split; auto. lia.
Qed.

Lemma packets_disjoint w v : disjoint w (packets w v).
Proof.
  intros k1 k2 it1 it2 i H1 H2 NE HC. apply packets_nth in H1, H2. destruct H1 as [-> _], H2 as [-> _].
  unfold cells in *. cbn [it_start it_width] in *.
  destruct (Nat.leb_spec (k2 * w) i), (Nat.ltb_spec i (k2 * w + w)); auto. exfalso.
  apply andb_true_iff in HC. destruct HC as [C1 C2]. apply Nat.leb_le in C1. apply Nat.ltb_lt in C2.
  destruct (Nat.lt_trichotomy k1 k2) as [|[|]]; try lia; nia.
Qed.
Lemma singles_disjoint w lo hi : disjoint w (singles lo hi).
Proof.
  intros k1 k2 it1 it2 i H1 H2 NE HC. apply singles_nth in H1, H2. destruct H1 as [-> _], H2 as [-> _].
  unfold cells in *. cbn [it_start it_width] in *. lia.
Qed.
Lemma packets_covered w v i : 0 < w -> v mod w = 0 -> covered w (packets w v) i = (i <? v).
Proof.
  intros Hw Hv. unfold covered. apply eq_true_iff_eq. rewrite existsb_exists, Nat.ltb_lt. split.
  - intros [it [HI HC]]. apply In_nth_error in HI. destruct HI as [k Hk]. apply packets_nth in Hk.
    destruct Hk as [-> Hk]. unfold cells in HC. cbn [it_start it_width] in HC.
    apply andb_true_iff in HC. destruct HC as [C1 C2]. apply Nat.ltb_lt in C2.
    pose proof (Nat.div_mod v w ltac:(lia)). nia.
  - intros Hi. exists (Packet (i / w * w)). split.
    + unfold packets. apply in_map_iff. exists (i / w). split; auto. apply in_seq.
      split; [apply Nat.le_0_l|]. cbn [plus]. apply Nat.div_lt_upper_bound; [lia|].
      pose proof (Nat.div_mod v w ltac:(lia)). rewrite Hv in *. lia.
    + unfold cells. cbn [it_start it_width]. pose proof (Nat.div_mod i w ltac:(lia)).
      pose proof (Nat.mod_upper_bound i w ltac:(lia)).
      apply andb_true_iff. rewrite Nat.leb_le, Nat.ltb_lt. set (a := i / w) in *. set (b := i mod w) in *.
      clearbody a b. nia.
Qed.
Lemma singles_covered w lo hi i : covered w (singles lo hi) i = (lo <=? i) && (i <? hi).
Proof.
  unfold covered. apply eq_true_iff_eq. rewrite existsb_exists, andb_true_iff, Nat.ltb_lt, Nat.leb_le. split.
  - intros [it [HI HC]]. apply In_nth_error in HI. destruct HI as [k Hk]. apply singles_nth in Hk.
    destruct Hk as [-> Hk]. unfold cells in HC. cbn [it_start it_width] in HC. lia.
  - intros Hi. exists (Single i). split.
    + unfold singles. apply in_map, in_seq. lia.
    + unfold cells. cbn [it_start it_width]. lia.
Qed.
Lemma packets_within w v n : 0 < w -> v <= n -> within w n (packets w v).
Proof.
  intros Hw Hv it HI. apply In_nth_error in HI. destruct HI as [k Hk]. apply packets_nth in Hk.
  destruct Hk as [-> Hk]. cbn [it_start it_width]. pose proof (Nat.div_mod v w ltac:(lia)). nia.
Qed.
Lemma singles_within w lo n : within w n (singles lo n).
Proof.
  intros it HI. apply In_nth_error in HI. destruct HI as [k Hk]. apply singles_nth in Hk.
  destruct Hk as [-> Hk]. cbn [it_start it_width]. lia.
Qed.

Lemma vec_size n w : 0 < w -> n - n mod w <= n /\ (n - n mod w) mod w = 0.
Proof.
  intros Hw. split; [lia|]. pose proof (Nat.div_mod n w ltac:(lia)) as H.
  revert H. generalize (n / w) (n mod w). intros a b ->. rewrite Nat.add_sub, Nat.mul_comm. apply Nat.mod_mul. lia.
Qed.
Lemma covered_app w a b i : covered w (a ++ b) i = covered w a i || covered w b i.
Proof. unfold covered. apply existsb_app. Qed.

Lemma initial st lhs e n : length (st lhs) = n -> progress st lhs e n (fun _ => false) st.
Proof. intros. split; [auto|split; auto]. Qed.

(** A pair of loops that covers every index once *)
Definition good_loops (w n : nat) (ls : list iteration * list iteration) : Prop :=
  within w n (fst ls) /\ within w n (snd ls) /\ disjoint w (fst ls) /\ disjoint w (snd ls) /\
  (forall i, covered w (fst ls) i = true -> covered w (snd ls) i = false) /\
  (forall i, i < n -> covered w (fst ls) i || covered w (snd ls) i = true).

Lemma loops_good vectorise n w : 0 < w -> good_loops w n (loops vectorise n w).
Proof.
  intros Hw. unfold loops, good_loops. destruct vectorise; cbn [fst snd].
  - destruct (vec_size n w Hw) as [V1 V2]. split; [apply packets_within; auto|].
    split; [apply singles_within|]. split; [apply packets_disjoint|]. split; [apply singles_disjoint|].
    split.
    + intros i. rewrite packets_covered, singles_covered by auto. lia.
    + intros i Hi. rewrite packets_covered, singles_covered by auto. lia.
  - split; [apply singles_within|]. split; [intros it []|]. split; [apply singles_disjoint|].
    split; [intros k1 k2 it1 it2 i H; destruct k1; discriminate|].
    split; [reflexivity|]. intros i Hi. rewrite singles_covered. change (covered w [] i) with false. lia.
Qed.
Lemma loops_fixed_parallel_vec n w : loops_fixed_parallel true n w = loops true n w.
Proof. reflexivity. Qed.

Lemma second_loop st lhs e n w ls st1 : length (st lhs) = n -> operands_have st e n -> good_loops w n ls ->
  progress st lhs e n (fun i => covered w (fst ls) i || false) st1 ->
  exists st', for_list (snd ls) (run_iteration w lhs e) st1 = Ok st' /\ assigned st lhs e n st'.
Proof.
  intros HL HO [G1 [G2 [G3 [G4 [G5 G6]]]]] HP.
  destruct (serial_progress st lhs e n w HL HO (snd ls) _ st1 HP G2 G4) as [st2 [E HP2]].
  - intros it i HI HC. rewrite orb_false_r. destruct (covered w (fst ls) i) eqn:E; auto.
    apply G5 in E. rewrite <- E. symmetry. apply existsb_exists. eauto.
  - exists st2. split; auto. eapply progress_assigned; [auto| |exact HP2].
    intros i Hi. cbn. rewrite orb_false_r, orb_comm. auto.
Qed.

Theorem serial_assigned st lhs e n w ls : good_loops w n ls -> length (st lhs) = n -> operands_have st e n ->
  exists st', run_serial w lhs e ls st = Ok st' /\ assigned st lhs e n st'.
Proof.
  intros HG HL HO. unfold run_serial. rewrite for_list_app. pose proof HG as [G1 [G2 [G3 _]]].
  destruct (serial_progress st lhs e n w HL HO (fst ls) (fun _ => false) st (initial _ _ _ _ HL) G1 G3)
    as [st1 [E HP]]; auto.
  rewrite E. cbn [bind]. apply second_loop; auto.
Qed.

(** ** Interleavings *)
Lemma apply_value st e i : forall vals,
  (forall l id, nth_error (leaves e) l = Some id -> nth_error vals l = nth_error (st id) i) ->
  apply e vals = value st e i.
Proof.
  induction e as [id|x|f a IHa|f a IHa b IHb]; cbn [apply value leaves]; intros vals H.
  - apply (H 0 id). reflexivity.
  - reflexivity.
  - rewrite IHa by auto. destruct (value st a i); auto.
  - rewrite IHa, IHb; auto.
    + intros l id Hl. rewrite nth_error_skipn_add. apply H. rewrite nth_error_app2 by lia.
      rewrite <- Hl. f_equal. lia.
    + intros l id Hl. apply H. rewrite nth_error_app1; auto. apply nth_error_Some. congruence.
Qed.

Lemma lane_values_nth (regs : list A) nl w j : length regs = nl * w -> j < w ->
  forall l, l < nl -> nth_error (lane_values regs nl w j) l = nth_error regs (l * w + j).
Proof.
  intros HL Hj. unfold lane_values.
  assert (E : flat_map (fun l => match nth_error regs (l * w + j) with Some x => [x] | None => [] end) (seq 0 nl)
    = match regs with [] => [] | d :: _ => map (fun l => nth (l * w + j) regs d) (seq 0 nl) end).
  { destruct regs as [|d regs'] eqn:ER.
    - assert (nl = 0) by (cbn in HL; nia). subst. reflexivity.
    - rewrite <- ER in *. rewrite flat_map_concat_map, <- (concat_map_singleton_id (map _ _)) || idtac.
      assert (HF : forall l, In l (seq 0 nl) -> match nth_error regs (l * w + j) with Some x => [x] | None => [] end = [nth (l * w + j) regs d]).
      { intros l Hl. apply in_seq in Hl. rewrite (nth_error_nth' regs d) by nia. reflexivity. }
      revert HF. generalize (seq 0 nl). induction l as [|a l IH]; intros HF; cbn [flat_map map]; auto.
      rewrite HF by (cbn; auto). cbn [app]. f_equal. apply IH. intros; apply HF; cbn; auto. }
  rewrite E. intros l Hl. destruct regs as [|d regs']; [cbn in HL; nia|].
  rewrite nth_error_map. rewrite (nth_error_nth' _ 0) by (rewrite seq_length; auto). rewrite seq_nth by auto.
  cbn [option_map plus]. symmetry. apply nth_error_nth'. nia.
Qed.

Section Machine.
Variables (st : store A) (lhs : nat) (e : expr A) (n w0 : nat) (its : list iteration).
Hypothesis HL : length (st lhs) = n.
Hypothesis HO : operands_have st e n.
Hypothesis HW : within w0 n its.
Hypothesis HD : disjoint w0 its.
Hypothesis Hw0 : 0 < w0.

Let nl := length (leaves e).
Definition written (c : nat -> nat) (k : nat) (it : iteration) (j : nat) : bool := j <? c k - nl * it_width w0 it.

Definition minv (c : nat -> nat) (mc : machine A) : Prop :=
  length (mc_threads mc) = length its /\
  (forall id, id <> lhs -> mc_store mc id = st id) /\ length (mc_store mc lhs) = n /\
  (forall k it t, nth_error its k = Some it -> nth_error (mc_threads mc) k = Some t ->
     t_pc t = c k /\ length (t_regs t) = Nat.min (c k) (nl * it_width w0 it) /\
     forall q id, q < length (t_regs t) -> nth_error (leaves e) (q / it_width w0 it) = Some id ->
       nth_error (t_regs t) q = nth_error (st id) (it_start it + q mod it_width w0 it)) /\
  (forall k it j, nth_error its k = Some it -> j < it_width w0 it ->
     nth_error (mc_store mc lhs) (it_start it + j)
     = if written c k it j then value st e (it_start it + j) else nth_error (st lhs) (it_start it + j)) /\
  (forall i, i < n -> covered w0 its i = false -> nth_error (mc_store mc lhs) i = nth_error (st lhs) i).

Lemma width_pos it : 0 < it_width w0 it.
Proof. destruct it; cbn; lia. Qed.

Lemma cells_lane k it j : nth_error its k = Some it -> j < it_width w0 it -> cells w0 it (it_start it + j) = true.
Proof. intros. unfold cells. lia. Qed.
Lemma covered_lane k it j : nth_error its k = Some it -> j < it_width w0 it -> covered w0 its (it_start it + j) = true.
Proof.
  intros. unfold covered. apply existsb_exists. exists it. split; [eapply nth_error_In; eauto|].
  eapply cells_lane; eauto.
Qed.

Lemma step_inv c mc k it : minv c mc -> nth_error its k = Some it -> c k < instructions w0 e it ->
  exists mc', step w0 lhs e its k mc = Ok mc' /\ minv (fun x => if x =? k then S (c x) else c x) mc'.
Proof.
  intros [I1 [I2 [I3 [I4 [I5 I6]]]]] Hit Hc. unfold step. unfold rd at 1. rewrite Hit. cbn [bind].
  assert (Hk : k < length its) by (apply nth_error_Some; congruence).
  destruct (nth_error (mc_threads mc) k) as [t|] eqn:Ht.
  2:{ apply nth_error_None in Ht. lia. }
  unfold rd at 1. rewrite Ht. cbn [bind]. destruct (I4 k it t Hit Ht) as [J1 [J2 J3]].
  pose proof (width_pos it) as Hw. fold nl. set (w := it_width w0 it) in *.
  assert (Hin : it_start it + w <= n) by (apply HW; eapply nth_error_In; eauto).
  unfold instructions in Hc. fold nl w in Hc. rewrite J1.
  assert (T : forall x t' k' it' t'', nth_error its k' = Some it' -> nth_error (upd (mc_threads mc) k t') k' = Some t'' ->
     x = tt -> (k' = k /\ t'' = t') \/ (k' <> k /\ nth_error (mc_threads mc) k' = Some t'')).
  { intros _ t' k' it' t'' H1 H2 _. rewrite nth_error_upd in H2. destruct (Nat.eqb_spec k k').
    - left. replace (k <? length (mc_threads mc)) with true in H2 by lia. cbn [andb] in H2. split; [auto|congruence].
    - right. split; [auto|]. exact H2. }
  destruct (Nat.ltb_spec (c k) (nl * w)) as [Hlt|Hge].
  - (* load *)
    assert (Hq : c k / w < nl) by (apply Nat.div_lt_upper_bound; lia).
    destruct (nth_error (leaves e) (c k / w)) as [id|] eqn:Eid.
    2:{ apply nth_error_None in Eid. fold nl in Eid. lia. }
    unfold rd at 1. rewrite Eid. cbn [bind].
    pose proof (Nat.mod_upper_bound (c k) w ltac:(lia)) as Hm.
    assert (Er : nth_error (mc_store mc id) (it_start it + c k mod w) = nth_error (st id) (it_start it + c k mod w)).
    { destruct (Nat.eq_dec id lhs) as [->|NE]; [|rewrite I2; auto].
      rewrite (I5 k it) by auto. unfold written. fold w.
      replace (c k - nl * w) with 0 by lia. replace (c k mod w <? 0) with false by lia. auto. }
    assert (Hlen : it_start it + c k mod w < length (st id)).
    { rewrite (operands_length st e n id HO (nth_error_In _ _ Eid)). lia. }
    unfold rd. rewrite Er. destruct (nth_error (st id) (it_start it + c k mod w)) as [x|] eqn:Ex.
    2:{ apply nth_error_None in Ex. lia. }
    cbn [bind]. eexists. split; [reflexivity|]. unfold minv. cbn [mc_store mc_threads].
    split; [rewrite upd_length; auto|]. split; [auto|]. split; [auto|]. split; [|split].
    + intros k' it' t'' H1 H2. destruct (T tt _ k' it' t'' H1 H2 eq_refl) as [[-> ->]|[NE H3]].
      * assert (it' = it) by congruence. subst it'. fold w. cbn [t_pc t_regs].
        rewrite Nat.eqb_refl, app_length. cbn [length]. split; [lia|]. split; [lia|].
        intros q id' Hq' Hid'. destruct (Nat.lt_ge_cases q (length (t_regs t))) as [Hl|Hg].
        -- rewrite nth_error_app1 by auto. apply J3; auto.
        -- assert (q = c k) by lia. subst q. rewrite nth_error_app2 by lia.
           replace (c k - length (t_regs t)) with 0 by lia. cbn. congruence.
      * destruct (Nat.eqb_spec k' k); [congruence|]. apply (I4 k' it' t'' H1 H3).
    + intros k' it' j H1 Hj. rewrite (I5 k' it' j H1 Hj). unfold written.
      destruct (Nat.eqb_spec k' k); auto. subst k'. assert (it' = it) by congruence. subst it'. fold w.
      replace (c k - nl * w) with 0 by lia. replace (S (c k) - nl * w) with 0 by lia. auto.
    + auto.
  - (* store *)
    destruct (Nat.ltb_spec (c k) (nl * w + w)) as [Hlt|]; [|nia].
    set (j := c k - nl * w). assert (Hj : j < w) by (unfold j; lia).
    assert (EA : apply e (lane_values (t_regs t) nl w j) = value st e (it_start it + j)).
    { apply apply_value. intros l id Hl.
      assert (l < nl) by (apply nth_error_Some; congruence).
      rewrite lane_values_nth by (auto; lia).
      assert (Ed : (l * w + j) / w = l) by (rewrite Nat.div_add_l by lia; rewrite Nat.div_small by auto; lia).
      assert (Em : (l * w + j) mod w = j) by (rewrite Nat.add_comm, Nat.mod_add by lia; apply Nat.mod_small; auto).
      rewrite (J3 (l * w + j) id); [rewrite Em; auto|nia|rewrite Ed; auto]. }
    rewrite EA. destruct (value_some st e n (it_start it + j) HO ltac:(lia)) as [x Ex]. rewrite Ex.
    unfold write. rewrite wr_Ok by lia. cbn [bind]. eexists. split; [reflexivity|].
    unfold minv. cbn [mc_store mc_threads]. split; [rewrite upd_length; auto|].
    split; [intros id NE; rewrite set_arr_other by auto; auto|].
    rewrite set_arr_same. split; [rewrite upd_length; auto|]. split; [|split].
    + intros k' it' t'' H1 H2. destruct (T tt _ k' it' t'' H1 H2 eq_refl) as [[-> ->]|[NE H3]].
      * assert (it' = it) by congruence. subst it'. fold w. cbn [t_pc t_regs].
        rewrite Nat.eqb_refl. split; [lia|]. split; [lia|]. intros q id' Hq' Hid'. apply J3; auto.
      * destruct (Nat.eqb_spec k' k); [congruence|]. apply (I4 k' it' t'' H1 H3).
    + intros k' it' j' H1 Hj'. rewrite nth_error_upd.
      destruct (Nat.eqb_spec k' k) as [->|NE].
      * assert (it' = it) by congruence. subst it'. fold w in Hj'. unfold written. fold w.
        destruct (Nat.eqb_spec (it_start it + j) (it_start it + j')) as [EQ|NEQ].
        -- replace (it_start it + j <? length (mc_store mc lhs)) with true by lia. cbn [andb].
           assert (j' = j) by lia. subst j'. rewrite Nat.eqb_refl.
           replace (j <? S (c k) - nl * w) with true by (unfold j; lia). auto.
        -- cbn [andb]. rewrite (I5 k it j' H1 Hj'). unfold written. fold w. rewrite Nat.eqb_refl.
           replace (j' <? S (c k) - nl * w) with (j' <? c k - nl * w) by (unfold j in *; lia). auto.
      * assert (DJ : cells w0 it' (it_start it + j) = false).
        { apply (HD k k' it it' (it_start it + j)); auto. eapply cells_lane; eauto. }
        destruct (Nat.eqb_spec (it_start it + j) (it_start it' + j')) as [EQ|NEQ].
        -- rewrite EQ in DJ. rewrite (cells_lane k' it' j' H1 Hj') in DJ. discriminate.
        -- cbn [andb]. rewrite (I5 k' it' j' H1 Hj'). unfold written.
           destruct (Nat.eqb_spec k' k); [congruence|]. auto.
    + intros i Hi HC. rewrite nth_error_upd. destruct (Nat.eqb_spec (it_start it + j) i) as [EQ|NEQ].
      * subst i. rewrite (covered_lane k it j Hit Hj) in HC. discriminate.
      * cbn [andb]. auto.
Qed.

Lemma schedule_inv : forall sched c mc, minv c mc ->
  (forall k, In k sched -> k < length its) ->
  (forall k it, nth_error its k = Some it -> c k + count_occ Nat.eq_dec sched k <= instructions w0 e it) ->
  exists mc', for_list sched (step w0 lhs e its) mc = Ok mc' /\
    minv (fun k => c k + count_occ Nat.eq_dec sched k) mc'.
Proof.
  induction sched as [|k sched IH]; intros c mc HI HB HC; cbn [for_list].
  - exists mc. split; auto. destruct HI as [I1 [I2 [I3 [I4 [I5 I6]]]]]. cbn [count_occ].
    split; [auto|split; [auto|split; [auto|split; [|split; [|auto]]]]].
    + intros k it t H1 H2. rewrite Nat.add_0_r. eauto.
    + intros k it j H1 H2. unfold written. rewrite Nat.add_0_r. apply (I5 k it j); auto.
  - assert (Hk : k < length its) by (apply HB; cbn; auto).
    destruct (nth_error its k) as [it|] eqn:Hit; [|apply nth_error_None in Hit; lia].
    pose proof (HC k it Hit) as HCk. cbn [count_occ] in HCk. destruct (Nat.eq_dec k k); [|congruence].
    destruct (step_inv c mc k it HI Hit ltac:(lia)) as [mc1 [E HI1]]. rewrite E. cbn [bind].
    destruct (IH _ mc1 HI1) as [mc2 [E2 HI2]].
    + intros k' H'. apply HB. cbn; auto.
    + intros k' it' Hit'. pose proof (HC k' it' Hit') as HCk'. cbn [count_occ] in HCk'.
      destruct (Nat.eq_dec k k'), (Nat.eqb_spec k' k); try congruence; lia.
    + exists mc2. split; auto.
      assert (EC : forall k', (if k' =? k then S (c k') else c k') + count_occ Nat.eq_dec sched k'
         = c k' + count_occ Nat.eq_dec (k :: sched) k').
      { intros k'. cbn [count_occ]. destruct (Nat.eq_dec k k'), (Nat.eqb_spec k' k); try congruence; lia. }
      clear - HI2 EC. destruct HI2 as [I1 [I2 [I3 [I4 [I5 I6]]]]].
      split; [auto|split; [auto|split; [auto|split; [|split; [|auto]]]]].
      * intros k' it t H1 H2. rewrite <- EC. eauto.
      * intros k' it j H1 H2. unfold written. rewrite <- EC. apply (I5 k' it j); auto.
Qed.

Lemma schedule_progress sched : complete w0 e its sched ->
  exists st', run_schedule w0 lhs e its sched st = Ok st' /\
    progress st lhs e n (fun i => covered w0 its i || false) st'.
Proof.
  intros [C1 C2]. unfold run_schedule.
  destruct (schedule_inv sched (fun _ => 0)
    {| mc_store := st; mc_threads := repeat {| t_pc := 0; t_regs := [] |} (length its) |}) as [mc [E HI]].
  - unfold minv. cbn [mc_store mc_threads]. split; [apply repeat_length|]. split; [auto|]. split; [auto|].
    split; [|split].
    + intros k it t H1 H2. apply nth_error_In, repeat_spec in H2. subst t. cbn. split; [auto|split; auto]. intros; lia.
    + intros k it j H1 H2. unfold written. replace (j <? 0 - nl * it_width w0 it) with false by lia. auto.
    + auto.
  - auto.
  - intros k it Hit. rewrite (C2 k it Hit). cbn. lia.
  - rewrite E. cbn [bind]. exists (mc_store mc). split; auto.
    destruct HI as [I1 [I2 [I3 [I4 [I5 I6]]]]]. split; [auto|split; [auto|]].
    intros i Hi. rewrite orb_false_r. destruct (covered w0 its i) eqn:EC; [|auto].
    unfold covered in EC. apply existsb_exists in EC. destruct EC as [it [HIn HCell]].
    apply In_nth_error in HIn. destruct HIn as [k Hk]. unfold cells in HCell.
    specialize (I5 k it (i - it_start it) Hk ltac:(lia)).
    replace (it_start it + (i - it_start it)) with i in I5 by lia. rewrite I5. unfold written.
    rewrite (C2 k it Hk). unfold instructions. fold nl.
    replace (i - it_start it <? 0 + (nl + 1) * it_width w0 it - nl * it_width w0 it) with true; auto.
    symmetry. apply Nat.ltb_lt. nia.
Qed.
End Machine.

Theorem parallel_assigned st lhs e n w ls sched : 0 < w -> good_loops w n ls -> length (st lhs) = n ->
  operands_have st e n -> complete w e (fst ls) sched ->
  exists st', run_parallel w lhs e ls sched st = Ok st' /\ assigned st lhs e n st'.
Proof.
  intros Hw HG HL HO HC. pose proof HG as [G1 [G2 [G3 _]]]. unfold run_parallel.
  destruct (schedule_progress st lhs e n w (fst ls) HL HO G1 G3 Hw sched HC) as [st1 [E HP]].
  rewrite E. cbn [bind]. apply second_loop; auto.
Qed.

(** Complete schedules exist: one iteration after the other. *)
Lemma sequential_complete w e its :
  complete w e its (concat (map (fun k => repeat k (match nth_error its k with Some it => instructions w e it | None => 0 end))
                               (seq 0 (length its)))).
Proof.
  set (cnt := fun k => match nth_error its k with Some it => instructions w e it | None => 0 end).
  split.
  - intros k H. apply in_concat in H. destruct H as [l [H1 H2]]. apply in_map_iff in H1.
    destruct H1 as [k' [<- H3]]. apply repeat_spec in H2. subst. apply in_seq in H3. lia.
  - intros k it Hk.
    assert (Hlt : k < length its) by (apply nth_error_Some; congruence).
    assert (G : forall len start, count_occ Nat.eq_dec (concat (map (fun k => repeat k (cnt k)) (seq start len))) k
      = if (start <=? k) && (k <? start + len) then cnt k else 0).
    { induction len as [|len IH]; intros start; cbn [seq map concat].
      - cbn [count_occ]. destruct ((start <=? k) && (k <? start + 0)) eqn:E; auto. lia.
      - rewrite count_occ_app, IH. destruct (Nat.eq_dec start k) as [->|NE].
        + rewrite count_occ_repeat_eq by auto. replace (S k <=? k) with false by lia. cbn [andb].
          replace ((k <=? k) && (k <? k + S len)) with true by lia. lia.
        + rewrite count_occ_repeat_neq by auto.
          replace ((S start <=? k) && (k <? S start + len)) with ((start <=? k) && (k <? start + S len)) by lia. auto. }
    rewrite G. replace ((0 <=? k) && (k <? 0 + length its)) with true by lia. unfold cnt. rewrite Hk. auto.
Qed.

(** The unvectorised parallel loop on fixed-size storage does nothing at all. *)
Theorem fixed_parallel_noop n w lhs e st sched :
  complete w e (fst (loops_fixed_parallel false n w)) sched ->
  run_parallel w lhs e (loops_fixed_parallel false n w) sched st = Ok st.
Proof.
  unfold loops_fixed_parallel. rewrite Nat.mod_1_r, Nat.sub_0_r. unfold singles. rewrite Nat.sub_diag.
  cbn [seq map fst snd]. intros [C1 _].
  destruct sched as [|k s]; [reflexivity|]. specialize (C1 k (or_introl eq_refl)). cbn in C1. lia.
Qed.

(** ** ArrayContainer::assign *)
Theorem assign_same_shape asserts (junk : nat -> A) dst fs fd :
  a_shape dst = fs -> size fs <> 0%N ->
  array_assign asserts junk dst fs fd = (Ok tt, {| a_shape := fs; a_size := a_size dst; a_data := fd |}).
Proof.
  intros <- HN. unfold array_assign, resize_discard, check.
  destruct (Nat.eqb_spec (N.to_nat (size (a_shape dst))) 0); [lia|]. cbn [negb]. rewrite !andb_false_r. cbn [bind].
  rewrite (proj2 (shape_eqb_spec (a_shape dst) (a_shape dst)) eq_refl). cbn [negb]. rewrite andb_false_r.
  destruct (length (a_data dst) =? N.to_nat (size (a_shape dst))); reflexivity.
Qed.
Theorem assign_same_size_rejected (junk : nat -> A) dst fs fd :
  a_shape dst <> fs -> length (a_data dst) = N.to_nat (size fs) ->
  exists x, array_assign true junk dst fs fd = (Throw x, dst).
Proof.
  intros HN HL. unfold array_assign, resize_discard, check. cbn [andb].
  destruct (Nat.eqb_spec (N.to_nat (size fs)) 0) as [E|E]; cbn [negb bind]; [eauto|].
  rewrite HL, Nat.eqb_refl. destruct (shape_eqb (a_shape dst) fs) eqn:ES.
  - apply shape_eqb_spec in ES. congruence.
  - cbn [negb]. exists RangeError. destruct dst; reflexivity.
Qed.
(** Any other mismatch destroys the contents, although it is reported … *)
Theorem assign_mismatch_destroys (junk : nat -> A) dst fs fd :
  size fs <> 0%N -> a_shape dst <> fs -> length (a_data dst) <> N.to_nat (size fs) ->
  array_assign true junk dst fs fd =
  (Throw RangeError, {| a_shape := a_shape dst; a_size := a_size dst; a_data := map junk (seq 0 (N.to_nat (size fs))) |}).
Proof.
  intros H0 HN HL. unfold array_assign, resize_discard, check. cbn [andb].
  destruct (Nat.eqb_spec (N.to_nat (size fs)) 0) as [E|E]; cbn [negb bind]; [lia|].
  destruct (Nat.eqb_spec (length (a_data dst)) (N.to_nat (size fs))); [congruence|].
  destruct (shape_eqb (a_shape dst) fs) eqn:ES; [apply shape_eqb_spec in ES; congruence|]. reflexivity.
Qed.
(** … and without assertions it "succeeds", keeping the old shape. *)
Theorem assign_mismatch_unchecked (junk : nat -> A) dst fs fd :
  array_assign false junk dst fs fd = (Ok tt, {| a_shape := a_shape dst; a_size := a_size dst; a_data := fd |}).
Proof.
  unfold array_assign, resize_discard, check. cbn [andb bind].
  destruct (length (a_data dst) =? N.to_nat (size fs)); reflexivity.
Qed.
Theorem construct_ok asserts (junk : nat -> A) fs fd : size fs <> 0%N ->
  array_construct asserts junk fs fd = (Ok tt, {| a_shape := fs; a_size := size fs; a_data := fd |}).
Proof. intros H. unfold array_construct. rewrite assign_same_shape by auto. reflexivity. Qed.
Theorem assign_view_ok asserts (junk : nat -> A) dst vs vd : size vs <> 0%N ->
  array_assign_view asserts junk dst vs vd = (Ok tt, {| a_shape := vs; a_size := size vs; a_data := vd |}).
Proof.
  intros H. unfold array_assign_view, resize_discard, check.
  destruct (Nat.eqb_spec (N.to_nat (size vs)) 0); [lia|]. cbn [negb]. rewrite andb_false_r. cbn [bind].
  destruct (length (a_data dst) =? N.to_nat (size vs)); reflexivity.
Qed.
(** An empty view is rejected, but only after the shape has been replaced. *)
Theorem assign_view_empty (junk : nat -> A) dst vs vd : size vs = 0%N ->
  array_assign_view true junk dst vs vd
  = (Throw RuntimeError, {| a_shape := vs; a_size := 0; a_data := a_data dst |}).
Proof. intros H. unfold array_assign_view. rewrite H. reflexivity. Qed.
End P.
