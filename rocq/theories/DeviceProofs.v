From Coq Require Import ZArith Lia Bool.
From Coq Require Import ZifyNat ZifyN ZifyBool.
From Verif Require Import Base BaseProofs CudaModel DeviceModel DeviceSpec.
Ltac Zify.zify_post_hook ::= idtac.

Lemma count_occ_snoc l q x : count_occ Nat.eq_dec (l ++ [q]) x = count_occ Nat.eq_dec l x + (if q =? x then 1 else 0).
Proof.
  rewrite count_occ_app. cbn [count_occ]. destruct (Nat.eq_dec q x) as [->|N].
  - now rewrite Nat.eqb_refl.
  - apply Nat.eqb_neq in N. now rewrite N.
Qed.

Section K.
Context {A T : Type}.
Variable ty_eqb : T -> T -> bool.
Hypothesis ty_eqb_spec : forall a b, ty_eqb a b = true <-> a = b.
Notation kstate := (@kstate A T).
Notation memory := (memory A T).

Lemma typed_true (k : kernel A T) b : (forall t', k_ty k = Some t' -> b_ty b = t') -> typed ty_eqb k b = true.
Proof.
  intros H. unfold typed. destruct (k_ty k) as [t|] eqn:E; auto. apply ty_eqb_spec. symmetry. now apply H.
Qed.

Lemma fetch_Ok (k : kernel A T) n m a i : usable (k_ty k) n m a -> i < n -> exists v, fetch ty_eqb k m a i = Ok v /\ value m a i = Some v.
Proof.
  destruct a as [p|x]; cbn [usable fetch value]; intros H Hi; [|eauto].
  destruct H as (b & Hb & Hl & Ht). destruct (nth_error (b_data b) i) as [v|] eqn:Ev.
  - exists v. unfold rd, val. rewrite Hb. cbn [bind]. rewrite (typed_true k b Ht). now rewrite Ev.
  - apply nth_error_None in Ev. lia.
Qed.

(** the state of the threads after some steps of each *)
Definition inv (k : kernel A T) (n : nat) (m0 : memory) (steps : list nat) (st : kstate) : Prop :=
  length (s_mem st) = length m0 /\
  (forall p, p <> k_dst k -> same_buffer m0 (s_mem st) p) /\
  (exists b0 b, nth_error m0 (k_dst k) = Some b0 /\ nth_error (s_mem st) (k_dst k) = Some b /\ b_ty b = b_ty b0 /\
     length (b_data b) = length (b_data b0)) /\
  (forall i, val (s_mem st) (k_dst k) i = if s_done st i then Some (k_fun k (s_loc st i)) else val m0 (k_dst k) i) /\
  (forall q, s_done st q = true -> q < n /\ length (s_loc st q) = length (k_args k)) /\
  (forall q, q < n -> length (s_loc st q) <= length (k_args k) /\
     Forall2 (fun a v => value m0 a q = Some v) (firstn (length (s_loc st q)) (k_args k)) (s_loc st q)) /\
  (forall q, q < n -> s_done st q = false -> count_occ Nat.eq_dec steps q = length (s_loc st q)).

Variable cf : config.
Variable n nt : nat.
Hypothesis Hindex : forall q, q < nt -> c_index cf q = Ok q.
Hypothesis Hguard : forall q, q < nt -> c_guard cf q = (q <? n).

Lemma firstn_snoc {X} (l : list X) a j : nth_error l j = Some a -> firstn (S j) l = firstn j l ++ [a].
Proof.
  revert j. induction l; intros [|j]; cbn; try discriminate.
  - now intros [= ->].
  - intros H. now rewrite <- (IHl j H).
Qed.

Lemma kstep_inv k m0 steps st q : holds (k_ty k) n m0 (k_dst k) -> Forall (usable (k_ty k) n m0) (k_args k) -> q < nt ->
  inv k n m0 steps st -> exists st', kstep ty_eqb cf k st q = Ok st' /\ inv k n m0 (steps ++ [q]) st'.
Proof.
  intros Hd Ha Hq (I1 & I2 & I3 & I4 & I5 & I6 & I7). unfold kstep. rewrite (Hindex q Hq). cbn [bind]. rewrite (Hguard q Hq).
  destruct (q <? n) eqn:Eg; cbn [negb orb].
  2: { exists st. split; auto. repeat (split; auto). intros x Hx Hn. rewrite count_occ_snoc. rewrite I7 by auto.
       destruct (q =? x) eqn:E; lia. }
  destruct (s_done st q) eqn:Ed.
  { exists st. split; auto. repeat (split; auto). intros x Hx Hn. rewrite count_occ_snoc. rewrite I7 by auto.
    destruct (q =? x) eqn:E; [|lia]. apply Nat.eqb_eq in E. subst. congruence. }
  assert (Hqn : q < n) by lia. destruct (I6 q Hqn) as (L6 & F6).
  destruct (nth_error (k_args k) (length (s_loc st q))) as [a|] eqn:Ea.
  - (* a read *)
    assert (Ua : usable (k_ty k) n (s_mem st) a).
    { assert (U0 : usable (k_ty k) n m0 a). { rewrite Forall_forall in Ha. apply Ha. eapply nth_error_In; eauto. }
      destruct a as [p|x]; [|exact I]. cbn in *. destruct (Nat.eq_dec p (k_dst k)) as [->|N].
      - destruct I3 as (b0 & b & E0 & E1 & E2 & E3). destruct U0 as (b0' & E0' & E4 & E5).
        rewrite E0 in E0'. injection E0' as <-. exists b. split; auto. split; [lia|]. intros t' Ht'. rewrite E2. auto.
      - destruct U0 as (b0 & E0 & E4). exists b0. split; auto. rewrite (I2 p N). auto. }
    destruct (fetch_Ok k n (s_mem st) a q Ua Hqn) as (v & Ef & Ev). rewrite Ef. cbn [bind]. eexists. split; [reflexivity|].
    assert (Ev0 : value m0 a q = Some v).
    { destruct a as [p|x]; auto. cbn in *. destruct (Nat.eq_dec p (k_dst k)) as [->|N].
      - rewrite I4, Ed in Ev. exact Ev.
      - unfold val in *. now rewrite (I2 p N) in Ev. }
    unfold inv. cbn [s_mem s_loc s_done]. repeat (split; [solve [auto]|]). split; [|split; [|split]].
    + intros i. rewrite I4. destruct (s_done st i) eqn:Ei; auto. destruct (i =? q) eqn:E; auto. apply Nat.eqb_eq in E. congruence.
    + intros x Hx. specialize (I5 x Hx). destruct (x =? q) eqn:E; auto. apply Nat.eqb_eq in E. congruence.
    + intros x Hx. destruct (x =? q) eqn:E; [|auto]. apply Nat.eqb_eq in E. subst x.
      rewrite app_length. cbn [length]. assert (length (s_loc st q) < length (k_args k)).
      { apply nth_error_Some. congruence. }
      split; [lia|]. replace (length (s_loc st q) + 1) with (S (length (s_loc st q))) by lia.
      rewrite (firstn_snoc _ a) by auto. apply Forall2_app; auto.
    + intros x Hx Hn. rewrite count_occ_snoc, (Nat.eqb_sym q x). rewrite I7 by auto. destruct (x =? q) eqn:E; [|lia].
      apply Nat.eqb_eq in E. subst x. rewrite app_length. cbn. lia.
  - (* the store *)
    apply nth_error_None in Ea. assert (El : length (s_loc st q) = length (k_args k)) by lia.
    destruct I3 as (b0 & b & E0 & E1 & E2 & E3). destruct Hd as (b0' & E0' & E4 & E5). rewrite E0 in E0'. injection E0' as <-.
    unfold put_elt. unfold rd at 1. rewrite E1. cbn [bind]. rewrite typed_true by (intros; rewrite E2; auto).
    rewrite wr_Ok by lia. cbn [bind]. assert (Hlt : k_dst k < length (s_mem st)) by (apply nth_error_Some; congruence).
    rewrite wr_Ok by exact Hlt. cbn [bind]. eexists. split; [reflexivity|].
    unfold inv. cbn [s_mem s_loc s_done]. split; [now rewrite upd_length|]. split; [|split; [|split; [|split; [|split]]]].
    + intros p N. unfold same_buffer. rewrite nth_error_upd. replace (p =? k_dst k) with false by (symmetry; now apply Nat.eqb_neq).
      cbn [andb]. destruct (k_dst k =? p) eqn:EE; [apply Nat.eqb_eq in EE; congruence|]. apply (I2 p N).
    + exists b0. eexists. split; [exact E0|]. rewrite nth_error_upd, Nat.eqb_refl.
      replace (k_dst k <? length (s_mem st)) with true by lia. cbn [andb]. split; [reflexivity|]. cbn. rewrite upd_length. auto.
    + intros i. unfold val at 1. rewrite nth_error_upd, Nat.eqb_refl. replace (k_dst k <? length (s_mem st)) with true by lia.
      cbn [andb b_data]. rewrite nth_error_upd. specialize (I4 i). unfold val at 1 in I4. rewrite E1 in I4.
      rewrite (Nat.eqb_sym i q). destruct (q =? i) eqn:Ei.
      * apply Nat.eqb_eq in Ei. subst i. replace (q <? length (b_data b)) with true by lia. cbn. reflexivity.
      * cbn [andb]. exact I4.
    + intros x. destruct (x =? q) eqn:E; [|apply I5]. apply Nat.eqb_eq in E. subst x. auto.
    + auto.
    + intros x Hx. rewrite count_occ_snoc, (Nat.eqb_sym q x). destruct (x =? q) eqn:E; [discriminate|]. intros Hn. rewrite I7 by auto. lia.
Qed.

Lemma kinit_inv k m : holds (k_ty k) n m (k_dst k) -> inv k n m [] (kinit m).
Proof.
  intros (b & Hb & _). unfold inv, kinit. cbn. repeat (split; [solve [auto]|]). split; [reflexivity|].
  split; [eauto 8|]. split; [auto|]. split; [discriminate|]. split; [|auto]. intros. split; [lia|constructor].
Qed.

Lemma krun_inv k m0 sched : holds (k_ty k) n m0 (k_dst k) -> Forall (usable (k_ty k) n m0) (k_args k) -> Forall (fun q => q < nt) sched ->
  forall steps st, inv k n m0 steps st -> exists st', for_list sched (fun q st => kstep ty_eqb cf k st q) st = Ok st' /\ inv k n m0 (steps ++ sched) st'.
Proof.
  intros Hd Ha. induction sched as [|q l IH]; intros Hs steps st I.
  - exists st. rewrite app_nil_r. auto.
  - inversion Hs; subst. cbn [for_list]. destruct (kstep_inv k m0 steps st q Hd Ha H1 I) as (st1 & E1 & I1). rewrite E1. cbn [bind].
    destruct (IH H2 _ _ I1) as (st' & E' & I'). exists st'. split; auto. rewrite <- app_assoc in I'. exact I'.
Qed.

Lemma krun_elementwise (k : kernel A T) m sched : holds (k_ty k) n m (k_dst k) -> Forall (usable (k_ty k) n m) (k_args k) -> length (k_args k) <= 2 ->
  n <= nt -> complete nt sched -> exists m', krun ty_eqb cf k m sched = Ok m' /\ elementwise n k m m' /\
    (forall p b, nth_error m p = Some b -> exists b', nth_error m' p = Some b' /\ b_ty b' = b_ty b /\ length (b_data b') = length (b_data b)).
Proof.
  intros Hd Ha Hargs Hn (Hs & Hc). destruct (krun_inv k m sched Hd Ha Hs [] _ (kinit_inv k m Hd)) as (st & E & I1 & I2 & I3 & I4 & I5 & I6 & I7).
  cbn [app] in I7. exists (s_mem st). unfold krun. rewrite E. cbn [omap bind]. split; [reflexivity|].
  assert (Dn : forall i, i < n -> s_done st i = true).
  { intros i Hi. destruct (s_done st i) eqn:Ei; auto. specialize (I7 i Hi Ei). specialize (Hc i). destruct (I6 i Hi). lia. }
  split.
  - split; auto. split; auto. split.
    + intros i Hi. exists (s_loc st i). rewrite I4, (Dn i Hi). split; auto. destruct (I6 i Hi) as (_ & F).
      destruct (I5 i (Dn i Hi)) as (_ & L). rewrite L, firstn_all in F. exact F.
    + intros i Hi. rewrite I4. destruct (s_done st i) eqn:Ei; auto. destruct (I5 i Ei). lia.
  - intros p b Hb. destruct (Nat.eq_dec p (k_dst k)) as [->|N].
    + destruct I3 as (b0 & b' & E0 & E1 & E2 & E3). rewrite E0 in Hb. injection Hb as <-. eauto.
    + exists b. rewrite (I2 p N). auto.
Qed.

(** elements that no thread has as its index are never written *)
Lemma kstep_untouched (k : kernel A T) st q st' i : (forall j, c_index cf q = Ok j -> j <> i) -> kstep ty_eqb cf k st q = Ok st' ->
  val (s_mem st') (k_dst k) i = val (s_mem st) (k_dst k) i.
Proof.
  unfold kstep. intros H. destruct (c_index cf q) as [j| |] eqn:Ej; cbn [bind]; try discriminate.
  destruct (negb _ || _); [now intros [= <-]|]. destruct (nth_error (k_args k) _).
  - destruct (fetch _ _ _ _ _); cbn [bind]; try discriminate. now intros [= <-].
  - unfold put_elt. destruct (rd (s_mem st) (k_dst k)) as [b| |] eqn:Eb; cbn [bind]; try discriminate.
    destruct (typed _ _ _); cbn [bind]; try discriminate. unfold wr at 1. destruct (j <? length (b_data b)) eqn:El; cbn [bind]; try discriminate.
    unfold wr. destruct (k_dst k <? length (s_mem st)) eqn:Ed; cbn [bind]; try discriminate. intros [= <-]. cbn [s_mem]. unfold val.
    rewrite nth_error_upd, Nat.eqb_refl, Ed. cbn [andb b_data]. unfold rd in Eb. destruct (nth_error (s_mem st) (k_dst k)); [|discriminate].
    injection Eb as ->. rewrite nth_error_upd. specialize (H j eq_refl). replace (j =? i) with false by (symmetry; now apply Nat.eqb_neq). reflexivity.
Qed.
Lemma krun_untouched (k : kernel A T) m sched m' i : (forall q j, c_index cf q = Ok j -> j <> i) -> krun ty_eqb cf k m sched = Ok m' ->
  val m' (k_dst k) i = val m (k_dst k) i.
Proof.
  intros H. unfold krun. change m with (s_mem (kinit m)) at 2. generalize (kinit m). induction sched as [|q l IH]; intros st.
  - cbn. now intros [= <-].
  - cbn [for_list]. destruct (kstep ty_eqb cf k st q) as [st1| |] eqn:E; cbn [bind]; try discriminate. intros E2.
    rewrite (IH _ E2). exact (kstep_untouched k st q st1 i (H q) E).
Qed.
End K.

(** ** The launch configurations *)
Local Open Scope nat_scope.
Lemma cuda_threads_bounds n : 1 <= n -> n <= cuda_threads n /\ (n < 512 -> cuda_threads n = n) /\ (512 <= n -> exists j, cuda_threads n = j * 512 /\ cuda_threads n < n + 512).
Proof.
  intros H. unfold cuda_threads, blocksPerGrid, threadsPerBlock. destruct (n <? 512) eqn:E.
  - split; [lia|]. split; lia.
  - pose proof (Nat.div_mod (n + 511) 512 ltac:(lia)). pose proof (Nat.mod_upper_bound (n + 511) 512 ltac:(lia)).
    split; [lia|]. split; [lia|]. intros _. exists ((n + 511) / 512). lia.
Qed.
Lemma cuda_threads_fit n : 1 <= n -> (Z.of_nat n <= 2 ^ 32)%Z -> (Z.of_nat (cuda_threads n) <= 2 ^ 32)%Z.
Proof.
  intros H Hn. destruct (cuda_threads_bounds n H) as (H1 & H2 & H3). destruct (Nat.lt_ge_cases n 512) as [L|L].
  - rewrite (H2 L). exact Hn.
  - destruct (H3 L) as (j & Ej & Hj). change (2 ^ 32)%Z with 4294967296%Z in *. lia.
Qed.
Lemma cuda_index_small q : (Z.of_nat q < 2 ^ 32)%Z -> cuda_index q = Ok q.
Proof. intros H. unfold cuda_index. rewrite Z.mod_small by lia. now rewrite Nat2Z.id. Qed.
Lemma cuda_index_bound q j : cuda_index q = Ok j -> (Z.of_nat j < 2 ^ 32)%Z.
Proof.
  unfold cuda_index. intros [= <-]. pose proof (Z.mod_pos_bound (Z.of_nat q) (2 ^ 32) ltac:(lia)). rewrite Z2Nat.id; lia.
Qed.

(** what the proofs use of a backend *)
Definition sound_backend (bk : backend) (n : nat) : Prop :=
  let n' := lanes bk n in
  n <= n' /\ 1 <= n' /\ n' <= threads bk n' /\
  (forall q, q < threads bk n' -> c_index (conf bk n') q = Ok q) /\
  (forall q, q < threads bk n' -> c_guard (conf bk n') q = (q <? n')).

Lemma lanes_cuda w n : 1 <= w -> n <= lanes (cuda w) n /\ lanes (cuda w) n < n + w.
Proof.
  intros H. cbn [lanes cuda]. pose proof (Nat.div_mod (n + (w - 1)) w ltac:(lia)). pose proof (Nat.mod_upper_bound (n + (w - 1)) w ltac:(lia)). lia.
Qed.
Lemma lanes_cuda_1 n : lanes (cuda 1) n = n.
Proof. cbn [lanes cuda]. rewrite Nat.div_1_r. lia. Qed.
Lemma cuda_sound w n : 1 <= w -> 1 <= n -> (Z.of_nat (lanes (cuda w) n) <= 2 ^ 32)%Z -> sound_backend (cuda w) n.
Proof.
  intros Hw Hn Hz. unfold sound_backend. destruct (lanes_cuda w n Hw) as (L1 & L2). revert Hz L1 L2. generalize (lanes (cuda w) n).
  intros n' Hz L1 L2. cbn [threads conf cuda c_index c_guard cuda_conf]. destruct (cuda_threads_bounds n' ltac:(lia)) as (B & _).
  pose proof (cuda_threads_fit n' ltac:(lia) Hz). repeat (split; [lia|]). split.
  - intros q Hq. apply cuda_index_small. lia.
  - intros q Hq. reflexivity.
Qed.
Lemma opencl_sound n : 1 <= n -> (Z.of_nat n <= 2 ^ 31)%Z -> sound_backend opencl n.
Proof.
  intros Hn Hz. unfold sound_backend. cbn [threads conf opencl lanes c_index c_guard opencl_conf]. unfold opencl_threads.
  repeat (split; [lia|]). split.
  - intros q Hq. unfold opencl_index. replace (Z.of_nat q <? 2 ^ 31)%Z with true; auto. symmetry. apply Z.ltb_lt. lia.
  - intros q Hq. unfold opencl_guard. symmetry. now apply Nat.ltb_lt.
Qed.
Lemma lanes_in_padding w n : (exists j, 1 <= j /\ w * j = 32) -> lanes (cuda w) n <= pad n.
Proof.
  intros (j & Hj1 & Hj). assert (1 <= w) by (destruct w; lia). cbn [lanes cuda]. unfold pad.
  assert (n <= 32 * ((n + 31) / 32)).
  { pose proof (Nat.div_mod (n + 31) 32 ltac:(lia)). pose proof (Nat.mod_upper_bound (n + 31) 32 ltac:(lia)). lia. }
  revert H0. generalize ((n + 31) / 32). intros c Hc. replace (32 * c) with (w * (j * c)) by (rewrite Nat.mul_assoc; now rewrite Hj).
  apply Nat.mul_le_mono_l. apply Nat.lt_succ_r. apply Nat.div_lt_upper_bound; [lia|]. nia.
Qed.

Section E.
Context {A T : Type}.
Variable ty_eqb : T -> T -> bool.
Hypothesis ty_eqb_spec : forall a b, ty_eqb a b = true <-> a = b.
Notation memory := (memory A T).

Lemma launch_elementwise asserts bk n k (m : memory) sched : sound_backend bk n ->
  holds (k_ty k) (lanes bk n) m (k_dst k) -> Forall (usable (k_ty k) (lanes bk n) m) (k_args k) -> length (k_args k) <= 2 ->
  complete (threads bk (lanes bk n)) sched ->
  exists m', launch ty_eqb asserts bk n k m sched = Ok m' /\ elementwise (lanes bk n) k m m' /\
    (forall p b, nth_error m p = Some b -> exists b', nth_error m' p = Some b' /\ b_ty b' = b_ty b /\ length (b_data b') = length (b_data b)).
Proof.
  intros (S1 & S2 & S3 & S4 & S5) Hd Ha Hl Hc. unfold launch.
  replace (threads bk (lanes bk n) =? 0) with false by (symmetry; apply Nat.eqb_neq; lia).
  eapply krun_elementwise; eauto.
Qed.

Variable junk : nat -> nat -> A.
Variable promote : T -> T -> T.
Variable dflt : T.
Variable bk : backend.
Variable n : nat.
Hypothesis Hsound : sound_backend bk n.
Hypothesis Hcap : lanes bk n <= capacity bk n.
Variable t : T.
Variable asserts : bool.
Variable sched : nat -> list nat.
Hypothesis Hsched : forall d, complete (threads bk (lanes bk n)) (sched d).
Notation N := (lanes bk n).

(** [m'] has the buffers of [m] unchanged, and maybe more *)
Definition extends (m m' : memory) : Prop := length m <= length m' /\ forall p, p < length m -> nth_error m' p = nth_error m p.
Lemma extends_refl m : extends m m. Proof. split; auto. Qed.
Lemma extends_trans a b c : extends a b -> extends b c -> extends a c.
Proof. intros (H1 & H2) (H3 & H4). split; [lia|]. intros p Hp. rewrite H4 by lia. auto. Qed.
Lemma holds_lt (o : option T) k (m : memory) p : holds o k m p -> p < length m.
Proof. intros (b & Hb & _). apply nth_error_Some. congruence. Qed.
Lemma extends_holds o k m m' p : extends m m' -> holds o k m p -> holds o k m' p.
Proof.
  intros (H1 & H2) H. pose proof (holds_lt _ _ _ _ H). destruct H as (b & Hb & R). exists b. split; auto. now rewrite H2.
Qed.
Lemma extends_usable o k m m' a : extends m m' -> usable o k m a -> usable o k m' a.
Proof. destruct a; cbn; auto. intros. now apply (extends_holds o k m). Qed.
Lemma extends_value o k m m' a i : extends m m' -> usable o k m a -> value m' a i = value m a i.
Proof.
  destruct a as [p|x]; cbn; auto. intros (H1 & H2) U. unfold val. rewrite H2; auto. now apply (holds_lt o k).
Qed.
Lemma extends_arrays k m m' e : extends m m' -> arrays_in k m e -> arrays_in k m' e.
Proof.
  intros H. induction e; cbn; auto; intuition. now apply (extends_holds None k m).
Qed.
Lemma extends_denote k m m' e i : extends m m' -> arrays_in k m e -> denote m' e i = denote m e i.
Proof.
  intros H. induction e as [a| |f e IH|f e1 IH1 e2 IH2]; cbn [denote arrays_in]; intros Ha; auto.
  - exact (extends_value None k m m' (AArr a) i H Ha).
  - now rewrite (IH Ha).
  - destruct Ha as (Ha1 & Ha2). now rewrite (IH1 Ha1), (IH2 Ha2).
Qed.
Lemma extends_ty k m m' e : extends m m' -> arrays_in k m e -> ty_of promote dflt m' e = ty_of promote dflt m e.
Proof.
  intros H. induction e as [a| |f e IH|f e1 IH1 e2 IH2]; cbn [ty_of arrays_in]; intros Ha; auto.
  - destruct H as (_ & H). rewrite H; auto. now apply (holds_lt None k).
  - destruct Ha as (Ha1 & Ha2). now rewrite (IH1 Ha1), (IH2 Ha2).
Qed.
Lemma extends_typed k m m' e : extends m m' -> arrays_in k m e -> one_typed promote dflt t m e -> one_typed promote dflt t m' e.
Proof.
  intros H. induction e as [a| |f e IH|f e1 IH1 e2 IH2]; cbn [one_typed arrays_in]; intros Ha Ho; auto.
  - now rewrite (extends_ty k m m').
  - destruct Ho as (Ho1 & Ho2). split; [now rewrite (extends_ty k m m')|auto].
  - destruct Ho as (Ho1 & Ho2 & Ho3). destruct Ha as (Ha1 & Ha2). split; [|auto]. rewrite (extends_ty k m m'); cbn; auto.
Qed.

(** the type a kernel is compiled for *)
Definition tys (m : memory) (e : expr A T) : Prop := one_type bk = true -> one_typed promote dflt t m e.
Notation otype := (if one_type bk then Some t else None).

Lemma temporary_extends ty m : extends m (fst (temporary junk bk n ty m)).
Proof.
  unfold temporary. cbn [fst]. split; [rewrite app_length; lia|]. intros p Hp. now rewrite nth_error_app1.
Qed.
Lemma temporary_holds ty m : (one_type bk = true -> ty = t) -> holds otype N (fst (temporary junk bk n ty m)) (length m).
Proof.
  intros H. unfold temporary. cbn [fst]. eexists. rewrite nth_error_app2 by lia. rewrite Nat.sub_diag. split; [reflexivity|]. cbn [b_data b_ty].
  rewrite map_length, seq_length. split; [exact Hcap|]. destruct (one_type bk); intros t' [= <-]. auto.
Qed.

Lemma array_usable k m a : holds None k m a -> tys m (EArr a) -> usable otype k m (AArr a).
Proof.
  intros (b & Hb & Hl & _) H. exists b. split; auto. split; auto. unfold tys in H. cbn in H. rewrite Hb in H.
  destruct (one_type bk); intros t' [= <-]. auto.
Qed.

(** a kernel applied to fresh or foreign arguments *)
Lemma launch_extends m m1 k : extends m m1 -> length m <= k_dst k -> holds (k_ty k) N m1 (k_dst k) -> Forall (usable (k_ty k) N m1) (k_args k) ->
  length (k_args k) <= 2 ->
  exists m2, launch ty_eqb asserts bk n k m1 (sched (k_dst k)) = Ok m2 /\ extends m m2 /\ elementwise N k m1 m2 /\ holds (k_ty k) N m2 (k_dst k).
Proof.
  intros (X1 & X2) Hd H Ha Hl. destruct (launch_elementwise asserts bk n k m1 (sched (k_dst k)) Hsound H Ha Hl (Hsched _)) as (m2 & E & W & P).
  exists m2. split; auto. pose proof W as (W1 & W2 & W3). split; [|split; auto].
  - split; [lia|]. intros p Hp. rewrite W2 by lia. auto.
  - destruct H as (b & Hb & Hn & Ht). destruct (P _ _ Hb) as (b' & Hb' & Et & El). exists b'. split; auto. split; [lia|]. intros. rewrite Et. auto.
Qed.

Definition source_ok (e : expr A T) : Prop := forall m, arrays_in N m e -> tys m e ->
  exists m' a, source ty_eqb junk promote dflt asserts bk n sched e m = Ok (m', a) /\ extends m m' /\ usable otype N m' a /\
    forall i, i < N -> value m' a i = denote m e i /\ denote m e i <> None.

Lemma kernel_otype m e : tys m e -> is_function e = true -> kty bk (ty_of promote dflt m e) = otype.
Proof.
  unfold tys, kty. destruct (one_type bk); auto. intros H Hf. specialize (H eq_refl). f_equal.
  destruct e; try discriminate; apply H.
Qed.
Lemma tys_un m f e : tys m (EUn f e) -> tys m e.
Proof. unfold tys. cbn. intuition. Qed.
Lemma tys_bin m f e1 e2 : tys m (EBin f e1 e2) -> tys m e1 /\ tys m e2.
Proof. unfold tys. cbn. intuition. Qed.
Lemma tys_fun m e : tys m e -> is_function e = true -> one_type bk = true -> ty_of promote dflt m e = t.
Proof. intros H Hf Ho. specialize (H Ho). destruct e; try discriminate; apply H. Qed.
Lemma extends_tys m m' e : extends m m' -> arrays_in N m e -> tys m e -> tys m' e.
Proof. unfold tys. intros. apply (extends_typed N m); auto. Qed.

Lemma un_result (m m1 m2 : memory) f e1 a d ty : usable otype N m1 a -> (forall i, i < N -> value m1 a i = denote m e1 i /\ denote m e1 i <> None) ->
  elementwise N {| k_args := [a]; k_dst := d; k_fun := fun1 junk f; k_ty := ty |} m1 m2 ->
  forall i, i < N -> val m2 d i = denote m (EUn f e1) i /\ denote m (EUn f e1) i <> None.
Proof.
  intros U V (_ & _ & W & _) i Hi. destruct (W i Hi) as (vs & F & Ev). cbn in F, Ev. inversion F as [|? v ? ? Hv F2]; subst. inversion F2; subst.
  destruct (V i Hi) as (V1 & V2). cbn [denote]. rewrite Ev, <- V1, Hv. cbn. split; congruence.
Qed.
Lemma bin_result (m m1 m2 : memory) f e1 e2 a1 a2 d ty : (forall i, i < N -> value m1 a1 i = denote m e1 i /\ denote m e1 i <> None) ->
  (forall i, i < N -> value m1 a2 i = denote m e2 i /\ denote m e2 i <> None) ->
  elementwise N {| k_args := [a1; a2]; k_dst := d; k_fun := fun2 junk f; k_ty := ty |} m1 m2 ->
  forall i, i < N -> val m2 d i = denote m (EBin f e1 e2) i /\ denote m (EBin f e1 e2) i <> None.
Proof.
  intros V1 V2 (_ & _ & W & _) i Hi. destruct (W i Hi) as (vs & F & Ev). cbn in F, Ev. inversion F as [|? v1 ? ? Hv1 F2]; subst.
  inversion F2 as [|? v2 ? ? Hv2 F3]; subst. inversion F3; subst.
  destruct (V1 i Hi) as (E1 & _), (V2 i Hi) as (E2 & _). cbn [denote]. rewrite Ev, <- E1, <- E2, Hv1, Hv2. cbn. split; congruence.
Qed.

Lemma source_correct e : source_ok e.
Proof.
  induction e as [a|ts x|f e IH|f e1 IH1 e2 IH2]; intros m Ha Ht.
  - exists m, (AArr a). split; [reflexivity|]. split; [apply extends_refl|]. split; [now apply array_usable|]. intros i Hi. split; auto.
    cbn in *. destruct Ha as (b & Hb & Hl & _). unfold val. rewrite Hb. apply nth_error_Some. lia.
  - exists m, (AScal x). split; [reflexivity|]. split; [apply extends_refl|]. split; [exact I|]. intros i Hi. split; auto. cbn. discriminate.
  - cbn [source]. set (ty := ty_of promote dflt m (EUn f e)).
    assert (Hty : kty bk ty = otype) by (apply kernel_otype; auto).
    pose proof (temporary_extends ty m) as X0. pose proof (temporary_holds ty m (tys_fun _ _ Ht eq_refl)) as H0.
    destruct (temporary junk bk n ty m) as [m0 d] eqn:Em. assert (d = length m) as -> by (unfold temporary in Em; congruence). cbn [fst] in *.
    cbn [arrays_in] in Ha. destruct (IH m0) as (m1 & a & E1 & X1 & U1 & V1); [now apply (extends_arrays N m)|apply (extends_tys m); auto; now apply (tys_un _ f)|].
    rewrite E1. cbn [bind snd fst]. rewrite Hty.
    destruct (launch_extends m m1 {| k_args := [a]; k_dst := length m; k_fun := fun1 junk f; k_ty := otype |}) as (m2 & E2 & X2 & W2 & H2);
      [now apply (extends_trans m m0)|cbn; lia|cbn [k_ty k_dst]; now apply (extends_holds _ _ m0)|repeat constructor; auto|cbn; lia|].
    cbn [k_dst] in E2. rewrite E2. cbn [bind]. exists m2, (AArr (length m)). split; [reflexivity|]. split; auto. split; [exact H2|].
    intros i Hi. cbn [value]. refine (un_result m m1 m2 f e a (length m) _ U1 _ W2 i Hi).
    intros j Hj. rewrite <- (extends_denote N m m0 e j); auto.
  - cbn [source]. set (ty := ty_of promote dflt m (EBin f e1 e2)).
    assert (Hty : kty bk ty = otype) by (apply kernel_otype; auto).
    pose proof (temporary_extends ty m) as X0. pose proof (temporary_holds ty m (tys_fun _ _ Ht eq_refl)) as H0.
    destruct (temporary junk bk n ty m) as [m0 d] eqn:Em. assert (d = length m) as -> by (unfold temporary in Em; congruence). cbn [fst] in *.
    destruct Ha as (Ha1 & Ha2). destruct (tys_bin _ _ _ _ Ht) as (Ht1 & Ht2).
    destruct (IH1 m0) as (m1 & a1 & E1 & X1 & U1 & V1); [now apply (extends_arrays N m)|now apply (extends_tys m)|].
    rewrite E1. cbn [bind snd fst]. assert (X01 : extends m m1) by now apply (extends_trans m m0).
    destruct (IH2 m1) as (m2 & a2 & E2 & X2 & U2 & V2); [now apply (extends_arrays N m)|now apply (extends_tys m)|].
    rewrite E2. cbn [bind snd fst]. rewrite Hty.
    destruct (launch_extends m m2 {| k_args := [a1; a2]; k_dst := length m; k_fun := fun2 junk f; k_ty := otype |}) as (m3 & E3 & X3 & W3 & H3).
    + now apply (extends_trans m m1).
    + cbn. lia.
    + cbn [k_ty k_dst]. apply (extends_holds _ _ m0); auto. now apply (extends_trans m0 m1).
    + cbn [k_args k_ty]. repeat constructor; auto. now apply (extends_usable _ _ m1).
    + cbn. lia.
    + cbn [k_dst] in E3. rewrite E3. cbn [bind]. exists m3, (AArr (length m)). split; [reflexivity|]. split; auto. split; [exact H3|].
      intros i Hi. cbn [value]. refine (bin_result m m2 m3 f e1 e2 a1 a2 (length m) _ _ _ W3 i Hi); intros j Hj.
      * rewrite (extends_value otype N m1 m2 a1 j X2 U1). rewrite <- (extends_denote N m m0 e1 j); auto.
      * rewrite <- (extends_denote N m m1 e2 j); auto.
Qed.

Theorem assign_correct e d m : is_function e = true -> arrays_in N m e -> tys m e -> holds otype N m d ->
  exists m', assign ty_eqb junk promote dflt asserts bk n sched d e m = Ok m' /\ assigned n d e m m'.
Proof.
  intros Hf Ha Ht Hd. pose proof (kernel_otype m e Ht Hf) as Hty. destruct Hsound as (SN & _).
  destruct e as [|?|f e|f e1 e2]; try discriminate Hf; cbn [assign]; rewrite Hty; clear Hty Hf.
  - destruct (source_correct e m Ha (tys_un _ _ _ Ht)) as (m1 & a & E1 & X1 & U1 & V1). rewrite E1. cbn [bind fst snd].
    set (k := {| k_args := [a]; k_dst := d; k_fun := fun1 junk f; k_ty := otype |}).
    destruct (launch_elementwise asserts bk n k m1 (sched d) Hsound) as (m2 & E2 & W2 & P2).
    + cbn. now apply (extends_holds _ _ m).
    + cbn. repeat constructor; auto.
    + cbn. lia.
    + apply Hsched.
    + exists m2. split; auto. split.
      * intros i Hi. refine (un_result m m1 m2 f e a d _ U1 V1 W2 i _). lia.
      * intros p Hp Np. destruct W2 as (_ & W2 & _). unfold same_buffer in *. rewrite W2 by auto. now apply X1.
  - destruct Ha as (Ha1 & Ha2). destruct (tys_bin _ _ _ _ Ht) as (Ht1 & Ht2).
    destruct (source_correct e1 m Ha1 Ht1) as (m1 & a1 & E1 & X1 & U1 & V1). rewrite E1. cbn [bind fst snd].
    destruct (source_correct e2 m1) as (m2 & a2 & E2 & X2 & U2 & V2); [now apply (extends_arrays N m)|now apply (extends_tys m)|].
    rewrite E2. cbn [bind fst snd].
    set (k := {| k_args := [a1; a2]; k_dst := d; k_fun := fun2 junk f; k_ty := otype |}).
    destruct (launch_elementwise asserts bk n k m2 (sched d) Hsound) as (m3 & E3 & W3 & P3).
    + cbn. apply (extends_holds _ _ m); auto. now apply (extends_trans m m1).
    + cbn. repeat constructor; auto. now apply (extends_usable _ _ m1).
    + cbn. lia.
    + apply Hsched.
    + exists m3. split; auto. split.
      * intros i Hi. refine (bin_result m m2 m3 f e1 e2 a1 a2 d _ _ _ W3 i _); try lia; intros j Hj.
        -- rewrite (extends_value otype N m1 m2 a1 j X2 U1). auto.
        -- rewrite <- (extends_denote N m m1 e2 j); auto.
      * intros p Hp Np. destruct W3 as (_ & W3 & _). unfold same_buffer in *. rewrite W3 by auto. now apply (extends_trans m m1 m2 X1 X2).
Qed.
End E.
