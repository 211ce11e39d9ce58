From Coq Require Import Sorted.
From Verif Require Import Base BaseProofs SetModel SetSpec.
Ltac Zify.zify_post_hook ::= Z.div_mod_to_equations.

Section SetProofs.
Context {T : Type} (ltb : T -> T -> bool) (TO : total_order ltb).

Local Notation lt := (lt ltb).
Local Notation asc := (ascending ltb).

Lemma irr x : ltb x x = false. Proof. apply TO. Qed.
Lemma tr x y z : ltb x y = true -> ltb y z = true -> ltb x z = true. Proof. apply TO. Qed.
Lemma tot x y : ltb x y = false -> ltb y x = false -> x = y. Proof. apply TO. Qed.
Lemma asym x y : ltb x y = true -> ltb y x = false.
Proof.
  intros H. destruct (ltb y x) eqn:E; auto. pose proof (tr _ _ _ H E) as F. rewrite irr in F. discriminate.
Qed.
Lemma lt_neq x y : ltb x y = true -> x <> y.
Proof. intros H ->. rewrite irr in H. discriminate. Qed.

Lemma neqb_iff x y : neqb ltb x y = true <-> x <> y.
Proof.
  unfold neqb. rewrite orb_true_iff. split.
  - intros [H|H] ->; rewrite irr in H; discriminate.
  - intros H. destruct (ltb x y) eqn:E; auto. destruct (ltb y x) eqn:F; auto.
    exfalso. apply H, tot; auto.
Qed.

(** ** Construction *)
Definition le (x y : T) : Prop := ltb y x = false.
Lemma le_trans' x y z : le x y -> le y z -> le x z.
Proof.
  unfold le. intros H1 H2. destruct (ltb z x) eqn:E; auto.
  destruct (ltb z y) eqn:F; auto. 
  destruct (ltb y z) eqn:G.
  - rewrite (tr y z x) in H1; auto; discriminate.
  - assert (z = y) by (apply tot; auto). subst. congruence.
Qed.
Lemma le_lt_eq x y : le x y -> x = y \/ lt x y.
Proof. unfold le, SetSpec.lt. intros H. destruct (ltb x y) eqn:E; auto. left. apply tot; auto. Qed.

Lemma sort_insert_In v d x : In x (sort_insert ltb v d) <-> x = v \/ In x d.
Proof.
  induction d as [|y d IH]; cbn; [firstorder|].
  destruct (ltb y v); cbn; rewrite ?IH; firstorder.
Qed.
Lemma sort_In d x : In x (sort ltb d) <-> In x d.
Proof. induction d as [|y d IH]; cbn; [tauto|]. rewrite sort_insert_In, IH. firstorder. Qed.
Lemma sort_insert_sorted v d : StronglySorted le d -> StronglySorted le (sort_insert ltb v d).
Proof.
  induction d as [|y d IH]; intros H; cbn; [repeat constructor|].
  inversion H as [|? ? Hs Hf]; subst. destruct (ltb y v) eqn:E.
  - constructor; auto. apply Forall_forall. intros z Hz. apply sort_insert_In in Hz.
    destruct Hz as [->|Hz]; [unfold le; apply asym; auto|].
    exact (proj1 (Forall_forall _ _) Hf _ Hz).
  - constructor; auto. constructor; [exact E|].
    apply Forall_forall. intros z Hz. apply (le_trans' v y z); [exact E|].
    exact (proj1 (Forall_forall _ _) Hf _ Hz).
Qed.
Lemma sort_sorted d : StronglySorted le (sort ltb d).
Proof. induction d; cbn; [constructor|apply sort_insert_sorted; auto]. Qed.

Lemma prune_after_spec prev d : StronglySorted le (prev :: d) ->
  asc (prune_after ltb prev d) /\
  (forall x, In x (prune_after ltb prev d) -> lt prev x) /\
  (forall x, x = prev \/ In x (prune_after ltb prev d) <-> x = prev \/ In x d).
Proof.
  revert prev; induction d as [|y d IH]; intros prev H; cbn.
  - repeat split; try constructor; firstorder.
  - inversion H as [|? ? Hs Hf]; subst. destruct (IH y Hs) as (A & B & C).
    inversion Hf as [|? ? Hy Hf']; subst.
    destruct (neqb ltb y prev) eqn:E.
    + apply neqb_iff in E. assert (Hlt : lt prev y).
      { destruct (le_lt_eq prev y Hy); auto. congruence. }
      split; [|split].
      * constructor; auto. apply Forall_forall. exact B.
      * cbn. intros x [->|Hx]; auto. eapply tr; [exact Hlt|]. exact (B x Hx).
      * intros x. cbn. specialize (C x). intuition; subst; auto.
    + assert (y = prev).
      { destruct (le_lt_eq prev y Hy) as [|G]; auto. exfalso. assert (neqb ltb y prev = true).
        { unfold neqb. rewrite G. apply orb_true_r. } congruence. }
      subst y. split; [|split]; auto. intros x. specialize (C x). intuition; subst; auto.
Qed.

Lemma of_list_spec l : represents ltb (of_list ltb l) (fun x => In x l).
Proof.
  unfold of_list, represents. pose proof (sort_sorted l) as HS.
  assert (HI : forall x, In x (sort ltb l) <-> In x l) by (intros; apply sort_In).
  destruct (sort ltb l) as [|y d]; cbn in *.
  - split; [constructor|]. exact HI.
  - destruct (prune_after_spec y d HS) as (A & B & C). split.
    + constructor; auto. apply Forall_forall. auto.
    + intros x. rewrite <- HI. specialize (C x). intuition; subst; auto.
Qed.

(** ** Ascending lists *)
Lemma asc_cons x d : asc (x :: d) <-> asc d /\ forall y, In y d -> lt x y.
Proof.
  split.
  - intros H. inversion H; subst. split; auto. apply Forall_forall. auto.
  - intros [H1 H2]. constructor; auto. apply Forall_forall. auto.
Qed.
Lemma asc_NoDup d : asc d -> NoDup d.
Proof.
  induction d as [|x d IH]; intros H; [constructor|]. apply asc_cons in H. destruct H as [H1 H2].
  constructor; auto. intros Hx. apply H2 in Hx. unfold SetSpec.lt in Hx. rewrite irr in Hx. discriminate.
Qed.
Lemma asc_nth d i j x y : asc d -> i < j -> nth_error d i = Some x -> nth_error d j = Some y -> ltb x y = true.
Proof.
  revert i j; induction d as [|a d IH]; intros [|i] [|j] H Hij Hi Hj; cbn in *; try discriminate; try lia;
    apply asc_cons in H; destruct H as [H1 H2].
  - injection Hi as ->. apply H2. eapply nth_error_In; eauto.
  - apply (IH i j); auto; lia.
Qed.
Lemma asc_unique a b : asc a -> asc b -> (forall x, In x a <-> In x b) -> a = b.
Proof.
  revert b; induction a as [|x a IH]; intros [|y b] Ha Hb H; auto.
  - exfalso. apply (H y). left; auto.
  - exfalso. apply (H x). left; auto.
  - apply asc_cons in Ha, Hb. destruct Ha as [Ha Hxa], Hb as [Hb Hyb].
    assert (E : x = y).
    { destruct (proj1 (H x) (or_introl eq_refl)) as [|Hx]; auto.
      destruct (proj2 (H y) (or_introl eq_refl)) as [|Hy]; auto.
      apply Hyb in Hx. apply Hxa in Hy. unfold SetSpec.lt in *. rewrite (asym x y) in Hx; auto. discriminate. }
    subst y. f_equal. apply IH; auto. intros z. split; intros Hz.
    + destruct (proj1 (H z) (or_intror Hz)) as [->|]; auto. apply Hxa in Hz. unfold SetSpec.lt in Hz.
      rewrite irr in Hz. discriminate.
    + destruct (proj2 (H z) (or_intror Hz)) as [->|]; auto. apply Hyb in Hz. unfold SetSpec.lt in Hz.
      rewrite irr in Hz. discriminate.
Qed.

(** ** Binary search *)
Lemma bsearch_spec d val fuel : asc d -> forall head tail,
  (0 <= head)%Z -> (tail < Z.of_nat (length d))%Z -> (head <= Z.of_nat (length d))%Z ->
  (-1 <= tail)%Z -> (tail - head + 1 < Z.of_nat fuel)%Z -> (0 < fuel) ->
  (forall i x, nth_error d i = Some x -> (Z.of_nat i < head)%Z -> ltb x val = true) ->
  (forall i x, nth_error d i = Some x -> (tail < Z.of_nat i)%Z -> ltb val x = true) ->
  exists r, bsearch ltb fuel d val head tail = Ok r /\
    match r with Some i => nth_error d i = Some val | None => ~ In val d end.
Proof.
  intros Hd. induction fuel as [|fuel IH]; intros head tail Hh Ht Hh' Ht' Hf Hf0 Hlow Hhigh; [lia|].
  - cbn [bsearch]. destruct (Z.leb_spec head tail) as [Hle|Hgt].
    + set (mid := ((head + tail) / 2)%Z). assert (Hmid : (head <= mid <= tail)%Z) by (unfold mid; lia).
      destruct (nth_error d (Z.to_nat mid)) as [x|] eqn:Ex.
      2:{ apply nth_error_None in Ex. lia. }
      unfold rd. rewrite Ex. cbn [bind].
      destruct (ltb val x) eqn:E1.
      * apply IH; auto; try lia. intros i y Hy Hi.
        destruct (Nat.eq_dec i (Z.to_nat mid)) as [->|Hne].
        -- rewrite Ex in Hy. injection Hy as <-. exact E1.
        -- apply (tr val x y); auto. eapply (asc_nth d (Z.to_nat mid) i); eauto. lia.
      * destruct (ltb x val) eqn:E2.
        -- apply IH; auto; try lia. intros i y Hy Hi.
           destruct (Nat.eq_dec i (Z.to_nat mid)) as [->|Hne].
           ++ rewrite Ex in Hy. injection Hy as <-. exact E2.
           ++ apply (tr y x val); auto. eapply (asc_nth d i (Z.to_nat mid)); eauto. lia.
        -- exists (Some (Z.to_nat mid)). split; auto. rewrite Ex. f_equal. apply tot; auto.
    + exists None. split; auto. intros Hin. apply In_nth_error in Hin. destruct Hin as [i Hi].
      destruct (Z.lt_ge_cases (Z.of_nat i) head) as [H|H].
      * specialize (Hlow i val Hi H). rewrite irr in Hlow. discriminate.
      * specialize (Hhigh i val Hi ltac:(lia)). rewrite irr in Hhigh. discriminate.
Qed.

Lemma search_spec d val : asc d ->
  exists r, search ltb d val = Ok r /\
    match r with Some i => nth_error d i = Some val | None => ~ In val d end.
Proof.
  intros Hd. unfold search. apply bsearch_spec; auto; try lia.
  intros i x Hi Hlt. assert (i < length d) by (apply nth_error_Some; congruence). lia.
Qed.

Lemma contains_spec d val : asc d ->
  exists b, contains ltb d val = Ok b /\ (b = true <-> In val d).
Proof.
  intros Hd. destruct (search_spec d val Hd) as (r & E & H). unfold contains. rewrite E. cbn.
  destruct r as [i|]; eexists; (split; [reflexivity|]); split; intros; try discriminate; try tauto.
  eapply nth_error_In; eauto.
Qed.

(** ** Insertion *)
Lemma insert_loop_In d v x : In x (insert_loop ltb d v) <-> x = v \/ In x d.
Proof.
  induction d as [|y d IH]; cbn; [firstorder|]. destruct (ltb v y); cbn; rewrite ?IH; firstorder.
Qed.
Lemma insert_loop_asc d v : asc d -> ~ In v d -> asc (insert_loop ltb d v).
Proof.
  induction d as [|y d IH]; intros H Hn; cbn; [repeat constructor|].
  pose proof H as H'. apply asc_cons in H. destruct H as [H1 H2].
  destruct (ltb v y) eqn:E.
  - apply asc_cons. split; auto. intros z [->|Hz]; [exact E|]. apply (tr v y z); [exact E|]. apply H2; auto.
  - apply asc_cons. split; [apply IH; auto; firstorder|]. intros z Hz. apply insert_loop_In in Hz.
    destruct Hz as [->|Hz]; auto. unfold SetSpec.lt. destruct (ltb y v) eqn:F; auto.
    exfalso. apply Hn. left. apply tot; auto.
Qed.
Lemma insert_spec d v S : represents ltb d S ->
  exists d', insert ltb d v = Ok d' /\ represents ltb d' (fun x => S x \/ x = v).
Proof.
  intros [Ha Hi]. unfold insert. destruct (contains_spec d v Ha) as (b & E & Hb). rewrite E. cbn [bind].
  destruct b.
  - exists d. split; auto. split; auto. intros x. rewrite Hi. intuition. subst. apply Hi. tauto.
  - exists (insert_loop ltb d v). split; auto. split.
    + apply insert_loop_asc; auto. intros H. apply Hb in H. discriminate.
    + intros x. rewrite insert_loop_In, Hi. tauto.
Qed.
Lemma represents_ext d S S' : (forall x, S x <-> S' x) -> represents ltb d S -> represents ltb d S'.
Proof. intros H [Ha Hi]. split; auto. intros x. rewrite Hi. auto. Qed.
Lemma insert_many_spec vs : forall d S, represents ltb d S ->
  exists d', insert_many ltb d vs = Ok d' /\ represents ltb d' (fun x => S x \/ In x vs).
Proof.
  unfold insert_many. induction vs as [|v vs IH]; intros d S H; cbn [for_list].
  - exists d. split; auto. revert H. apply represents_ext. cbn; tauto.
  - destruct (insert_spec d v S H) as (d1 & E1 & R1). rewrite E1. cbn [bind].
    destruct (IH d1 _ R1) as (d2 & E2 & R2). exists d2. split; auto.
    revert R2. apply represents_ext. intros x. cbn. intuition.
Qed.

(** ** Removal *)
Lemma erase_In (d : list T) i v x : NoDup d -> nth_error d i = Some v -> (In x (erase d i) <-> In x d /\ x <> v).
Proof.
  unfold erase. revert i; induction d as [|y d IH]; intros [|i] HN Hi; cbn in *; try discriminate;
    inversion HN as [|? ? Hy HN']; subst.
  - injection Hi as ->. split.
    + intros H. split; auto. intros ->. auto.
    + intros [[->|H] Hne]; [congruence|auto].
  - specialize (IH i HN' Hi). cbn in IH. split.
    + intros [->|H]; [split; auto|].
      * intros ->. apply Hy. eapply nth_error_In; eauto.
      * apply IH in H. tauto.
    + intros [[->|H] Hne]; auto. right. apply IH. auto.
Qed.
Lemma erase_asc d i : asc d -> asc (erase d i).
Proof.
  unfold erase. revert i; induction d as [|y d IH]; intros [|i] H; cbn; auto;
    apply asc_cons in H; destruct H as [H1 H2]; auto.
  apply asc_cons. split; [apply IH; auto|]. intros z Hz. apply H2.
  apply in_app_or in Hz. destruct Hz as [Hz|Hz].
  - rewrite <- (firstn_skipn i d). apply in_or_app. auto.
  - rewrite <- (firstn_skipn (Datatypes.S i) d). apply in_or_app. auto.
Qed.
Lemma discard_spec d v S : represents ltb d S ->
  exists d', discard ltb d v = Ok d' /\ represents ltb d' (fun x => S x /\ x <> v).
Proof.
  intros [Ha Hi]. unfold discard. destruct (search_spec d v Ha) as (r & E & Hr). rewrite E. cbn [bind].
  destruct r as [i|].
  - exists (erase d i). split; auto. split; [apply erase_asc; auto|].
    intros x. rewrite (erase_In d i v) by (auto using asc_NoDup). rewrite Hi. tauto.
  - exists d. split; auto. split; auto. intros x. rewrite Hi. split; [|tauto].
    intros Hx. split; auto. intros ->. apply Hr, Hi; auto.
Qed.
Lemma discard_many_spec vs : forall d S, represents ltb d S ->
  exists d', discard_many ltb d vs = Ok d' /\ represents ltb d' (fun x => S x /\ ~ In x vs).
Proof.
  unfold discard_many. induction vs as [|v vs IH]; intros d S H; cbn [for_list].
  - exists d. split; auto. revert H. apply represents_ext. cbn; tauto.
  - destruct (discard_spec d v S H) as (d1 & E1 & R1). rewrite E1. cbn [bind].
    destruct (IH d1 _ R1) as (d2 & E2 & R2). exists d2. split; auto.
    revert R2. apply represents_ext. intros x. cbn. intuition.
Qed.

Definition agrees (o : outcome (list T)) (r : result T) : Prop :=
  match r with
  | Final A => exists d, o = Ok d /\ represents ltb d A
  | Reported => o = Throw RuntimeError
  end.

Lemma remove_present asserts d v S : represents ltb d S -> S v \/ asserts = false ->
  exists d', remove ltb asserts d v = Ok d' /\ represents ltb d' (fun x => S x /\ x <> v).
Proof.
  intros H Hv. pose proof H as [Ha Hi]. unfold remove.
  destruct (contains_spec d v Ha) as (b & E & Hb). rewrite E. cbn [bind].
  replace (asserts && negb b) with false; [apply discard_spec; auto|].
  destruct Hv as [Hv| ->]; auto. apply Hi in Hv. apply Hb in Hv. subst. rewrite andb_false_r. reflexivity.
Qed.
Lemma remove_absent d v S : represents ltb d S -> ~ S v -> remove ltb true d v = Throw RuntimeError.
Proof.
  intros [Ha Hi] Hv. unfold remove.
  destruct (contains_spec d v Ha) as (b & E & Hb). rewrite E. cbn [bind].
  destruct b; auto. exfalso. apply Hv, Hi, Hb. reflexivity.
Qed.
Lemma removes_spec asserts vs : forall d S r, represents ltb d S -> removes asserts vs S r ->
  agrees (remove_many ltb asserts d vs) r.
Proof.
  unfold remove_many. induction vs as [|v vs IH]; intros d S r H HR; inversion HR; subst; cbn [for_list].
  - exists d. auto.
  - destruct (remove_present asserts d v S H) as (d1 & E1 & R1); auto. rewrite E1. cbn [bind].
    eapply IH; eauto.
  - rewrite (remove_absent d v S) by auto. reflexivity.
Qed.
Lemma step_spec asserts o d S r : represents ltb d S -> spec_step asserts o S r ->
  agrees (step ltb asserts o d) r.
Proof.
  intros H HS. inversion HS; subst; cbn [step agrees].
  - apply insert_spec; auto.
  - apply insert_many_spec; auto.
  - apply discard_spec; auto.
  - apply discard_many_spec; auto.
  - pose proof (removes_spec asserts [v] d S r H H0) as G. unfold remove_many in G. cbn [for_list] in G.
    destruct (remove ltb asserts d v); exact G.
  - eapply removes_spec; eauto.
Qed.
Lemma run_spec asserts ops : forall d S r, represents ltb d S -> spec_run asserts ops S r ->
  agrees (run ltb asserts ops d) r.
Proof.
  unfold run. induction ops as [|o ops IH]; intros d S r H HR; inversion HR; subst; cbn [for_list].
  - exists d; auto.
  - pose proof (step_spec asserts o d S _ H ltac:(eassumption)) as (d1 & E & R1). rewrite E. cbn [bind]. eapply IH; eauto.
  - pose proof (step_spec asserts o d S _ H ltac:(eassumption)) as G. cbn in G. rewrite G. reflexivity.
Qed.

(** Every history has a specified outcome (the specification is total). *)
Lemma removes_total asserts vs : forall d S, represents ltb d S -> exists r, removes asserts vs S r.
Proof.
  induction vs as [|v vs IH]; intros d S H.
  - eexists. constructor.
  - destruct (discard_spec d v S H) as (d1 & _ & R1). destruct (IH d1 _ R1) as [r Hr].
    pose proof H as [Ha Hi]. destruct (contains_spec d v Ha) as (b & _ & Hb).
    destruct b, asserts.
    + exists r. constructor; auto. left. apply Hi, Hb. reflexivity.
    + exists r. constructor; auto.
    + exists Reported. apply rm_bad; auto. intros Hv. apply Hi, Hb in Hv. discriminate.
    + exists r. constructor; auto.
Qed.
Lemma run_total asserts ops : forall d S, represents ltb d S -> exists r, spec_run asserts ops S r.
Proof.
  induction ops as [|o ops IH]; intros d S H.
  - eexists; constructor.
  - assert (Hs : exists r, spec_step asserts o S r).
    { destruct o.
      - eexists; constructor. - eexists; constructor. - eexists; constructor. - eexists; constructor.
      - destruct (removes_total asserts [v] d S H) as [r Hr]. exists r. constructor; auto.
      - destruct (removes_total asserts vs d S H) as [r Hr]. exists r. constructor; auto. }
    destruct Hs as [[S'|] Hs].
    + destruct (step_spec asserts o d S _ H Hs) as (d1 & E & R1). destruct (IH d1 S' R1) as [r Hr].
      exists r. econstructor; eauto.
    + exists Reported. apply sr_stop; auto.
Qed.

Theorem set_history asserts init ops :
  exists r, spec_run asserts ops (fun x => In x init) r /\
    match r with
    | Reported => run ltb asserts ops (of_list ltb init) = Throw RuntimeError
    | Final A => exists d, run ltb asserts ops (of_list ltb init) = Ok d /\ ascending ltb d /\
        (forall x, In x d <-> A x) /\ NoDup d /\
        (forall v, exists b, contains ltb d v = Ok b /\ (b = true <-> A v))
    end.
Proof.
  pose proof (of_list_spec init) as H.
  destruct (run_total asserts ops _ _ H) as [r Hr]. exists r. split; auto.
  pose proof (run_spec asserts ops _ _ r H Hr) as G. destruct r as [A|]; auto.
  destruct G as (d & E & Ha & Hi). exists d. repeat (split; [assumption|]).
  split; [apply asc_NoDup; auto|]. intros v. destruct (contains_spec d v Ha) as (b & Eb & Hb).
  exists b. split; auto. rewrite Hb. apply Hi.
Qed.
(** The specified outcome of a history is unique as a set. *)
Theorem set_history_spec asserts init ops r :
  spec_run asserts ops (fun x => In x init) r ->
    match r with
    | Reported => run ltb asserts ops (of_list ltb init) = Throw RuntimeError
    | Final A => exists d, run ltb asserts ops (of_list ltb init) = Ok d /\ ascending ltb d /\
        (forall x, In x d <-> A x) /\ NoDup d /\
        (forall v, exists b, contains ltb d v = Ok b /\ (b = true <-> A v))
    end.
Proof.
  intros Hr. pose proof (of_list_spec init) as H.
  pose proof (run_spec asserts ops _ _ r H Hr) as G. destruct r as [A|]; auto.
  destruct G as (d & E & Ha & Hi). exists d. repeat (split; [assumption|]).
  split; [apply asc_NoDup; auto|]. intros v. destruct (contains_spec d v Ha) as (b & Eb & Hb).
  exists b. split; auto. rewrite Hb. apply Hi.
Qed.

(** ** Merges *)
Definition flag (b : bool) (P : Prop) : Prop := b = true /\ P.

Lemma merge_spec pA pB pAB tA tB fuel : forall a b, asc a -> asc b -> length a + length b <= fuel ->
  exists r, merge ltb pA pB pAB tA tB fuel a b = Ok r /\ asc r /\
    forall x, In x r <->
      (In x a /\ ~ In x b /\ ((pA = true /\ exists y, In y b /\ lt x y) \/
                              (tA = true /\ forall y, In y b -> lt y x))) \/
      (In x b /\ ~ In x a /\ ((pB = true /\ exists y, In y a /\ lt x y) \/
                              (tB = true /\ forall y, In y a -> lt y x))) \/
      (In x a /\ In x b /\ pAB = true).
Proof.
  induction fuel as [|f IH]; intros a b Ha Hb Hf.
  - destruct a; [|cbn in Hf; lia]. destruct b; [|cbn in Hf; lia]. cbn.
    exists []. split; [destruct tA, tB; reflexivity|]. split; [constructor|]. cbn. firstorder.
  - destruct a as [|x a].
    + cbn [merge]. exists ((if tA then [] else []) ++ (if tB then b else [])). split; [reflexivity|].
      destruct tA, tB; cbn [app]; (split; [auto; constructor|]); intros z; cbn; firstorder; discriminate.
    + destruct b as [|y b].
      * cbn [merge]. exists ((if tA then x :: a else []) ++ (if tB then [] else [])). split; [reflexivity|].
        destruct tA, tB; rewrite ?app_nil_r; cbn [app]; (split; [auto; constructor|]); intros z; cbn; firstorder; discriminate.
      * cbn [merge]. pose proof Ha as Ha0. pose proof Hb as Hb0.
        apply asc_cons in Ha, Hb. destruct Ha as [Ha Hxa], Hb as [Hb Hyb].
        destruct (ltb x y) eqn:E1.
        -- destruct (IH a (y :: b) Ha Hb0) as (r & E & Hr & HI); [cbn in *; lia|].
           rewrite E. cbn [bind]. eexists. split; [reflexivity|].
           assert (Hxb : ~ In x (y :: b)).
           { intros [->|H]; [rewrite irr in E1; discriminate|]. apply Hyb in H. unfold SetSpec.lt in H.
             rewrite (asym x y) in H; auto. discriminate. }
           assert (Hgt : forall z, In z r -> lt x z).
           { intros z Hz. apply HI in Hz.
             destruct Hz as [(H&_)|[(H&_)|(H&_)]]; auto.
             destruct H as [->|H]; [exact E1|]. apply (tr x y z); [exact E1|]. apply Hyb; auto. }
           split.
           { destruct pA; auto. apply asc_cons. split; auto. }
           intros z. assert (Hz : In z (if pA then x :: r else r) <-> (pA = true /\ z = x) \/ In z r).
           { destruct pA; cbn; intuition congruence. }
           rewrite Hz, HI. clear Hz.
           assert (Hxlt : forall w, In w (y :: b) -> lt x w).
           { intros w [->|Hw]; [exact E1|]. apply (tr x y w); [exact E1|]. apply Hyb; auto. }
           split.
           { intros [(Hp & ->)|[(H1 & H2 & H3)|[(H1 & H2 & H3)|(H1 & H2 & H3)]]].
             - left. split; [left; auto|]. split; auto. left. split; auto. exists y. split; [left; auto|exact E1].
             - left. split; [right; auto|]. auto.
             - right. left. split; auto. split.
               + intros [->|H]; auto.
               + destruct H3 as [(Hp & w & Hw & Hlt)|(Ht & Hall)]; [left; split; auto; exists w; split; [right|]; auto|].
                 right. split; auto. intros w [->|Hw]; auto.
             - right. right. split; [right; auto|]. auto. }
           { intros [(H1 & H2 & H3)|[(H1 & H2 & H3)|(H1 & H2 & H3)]].
             - destruct H1 as [<-|H1].
               + left. destruct H3 as [(Hp & _)|(Ht & Hall)]; auto. exfalso.
                 specialize (Hall y (or_introl eq_refl)). unfold SetSpec.lt in Hall. rewrite (asym x y) in Hall; auto. discriminate.
               + right. left. auto.
             - right. right. left. split; auto. split; [intros H; apply H2; right; auto|].
               destruct H3 as [(Hp & w & Hw & Hlt)|(Ht & Hall)].
               + destruct Hw as [<-|Hw].
                 * exfalso. specialize (Hxlt z H1). unfold SetSpec.lt in *. rewrite (asym x z) in Hlt; auto. discriminate.
                 * left. split; auto. exists w; auto.
               + right. split; auto. intros w Hw. apply Hall. right; auto.
             - destruct H1 as [<-|H1]; [contradiction|]. right. right. right. auto. }
        -- destruct (ltb y x) eqn:E2.
           ++ destruct (IH (x :: a) b Ha0 Hb) as (r & E & Hr & HI); [cbn in *; lia|].
              rewrite E. cbn [bind]. eexists. split; [reflexivity|].
              assert (Hya : ~ In y (x :: a)).
              { intros [->|H]; [rewrite irr in E2; discriminate|]. apply Hxa in H. unfold SetSpec.lt in H.
                rewrite (asym y x) in H; auto. discriminate. }
              assert (Hylt : forall w, In w (x :: a) -> lt y w).
              { intros w [->|Hw]; [exact E2|]. apply (tr y x w); [exact E2|]. apply Hxa; auto. }
              assert (Hgt : forall z, In z r -> lt y z).
              { intros z Hz. apply HI in Hz. destruct Hz as [(H&_)|[(H&_)|(_&H&_)]]; auto. }
              split.
              { destruct pB; auto. apply asc_cons. split; auto. }
              intros z. assert (Hz : In z (if pB then y :: r else r) <-> (pB = true /\ z = y) \/ In z r).
              { destruct pB; cbn; intuition congruence. }
              rewrite Hz, HI. clear Hz. split.
              { intros [(Hp & ->)|[(H1 & H2 & H3)|[(H1 & H2 & H3)|(H1 & H2 & H3)]]].
                - right. left. split; [left; auto|]. split; auto. left. split; auto. exists x. split; [left; auto|exact E2].
                - left. split; auto. split.
                  + intros [->|H]; auto.
                  + destruct H3 as [(Hp & w & Hw & Hlt)|(Ht & Hall)]; [left; split; auto; exists w; split; [right|]; auto|].
                    right. split; auto. intros w [->|Hw]; auto.
                - right. left. split; [right; auto|]. auto.
                - right. right. split; auto. split; [right; auto|]. auto. }
              { intros [(H1 & H2 & H3)|[(H1 & H2 & H3)|(H1 & H2 & H3)]].
                - right. left. split; auto. split; [intros H; apply H2; right; auto|].
                  destruct H3 as [(Hp & w & Hw & Hlt)|(Ht & Hall)].
                  + destruct Hw as [<-|Hw].
                    * exfalso. specialize (Hylt z H1). unfold SetSpec.lt in *. rewrite (asym y z) in Hlt; auto. discriminate.
                    * left. split; auto. exists w; auto.
                  + right. split; auto. intros w Hw. apply Hall. right; auto.
                - destruct H1 as [<-|H1].
                  + left. destruct H3 as [(Hp & _)|(Ht & Hall)]; auto. exfalso.
                    specialize (Hall x (or_introl eq_refl)). unfold SetSpec.lt in Hall. rewrite (asym y x) in Hall; auto. discriminate.
                  + right. right. left. auto.
                - destruct H2 as [<-|H2]; [contradiction|]. right. right. right. auto. }
           ++ assert (x = y) by (apply tot; auto). subst y. clear E1 E2.
              destruct (IH a b Ha Hb) as (r & E & Hr & HI); [cbn in *; lia|].
              rewrite E. cbn [bind]. eexists. split; [reflexivity|].
              assert (Hna : ~ In x a) by (intros H; apply Hxa in H; unfold SetSpec.lt in H; rewrite irr in H; discriminate).
              assert (Hnb : ~ In x b) by (intros H; apply Hyb in H; unfold SetSpec.lt in H; rewrite irr in H; discriminate).
              split.
              { destruct pAB; auto. apply asc_cons. split; auto. intros z Hz. apply HI in Hz.
                destruct Hz as [(H&_)|[(H&_)|(H&_)]]; auto. }
              intros z. assert (Hz : In z (if pAB then x :: r else r) <-> (pAB = true /\ z = x) \/ In z r).
              { destruct pAB; cbn; intuition congruence. }
              rewrite Hz, HI. clear Hz. split.
              { intros [(Hp & ->)|[(H1 & H2 & H3)|[(H1 & H2 & H3)|(H1 & H2 & H3)]]].
                - right. right. split; [left; auto|]. split; [left; auto|]. auto.
                - left. split; [right; auto|]. split.
                  + intros [->|H]; auto.
                  + destruct H3 as [(Hp & w & Hw & Hlt)|(Ht & Hall)]; [left; split; auto; exists w; split; [right|]; auto|].
                    right. split; auto. intros w [<-|Hw]; auto.
                - right. left. split; [right; auto|]. split.
                  + intros [->|H]; auto.
                  + destruct H3 as [(Hp & w & Hw & Hlt)|(Ht & Hall)]; [left; split; auto; exists w; split; [right|]; auto|].
                    right. split; auto. intros w [<-|Hw]; auto.
                - right. right. split; [right; auto|]. split; [right; auto|]. auto. }
              { intros [(H1 & H2 & H3)|[(H1 & H2 & H3)|(H1 & H2 & H3)]].
                - destruct H1 as [<-|H1]; [exfalso; apply H2; left; auto|]. right. left. split; auto.
                  split; [intros H; apply H2; right; auto|].
                  destruct H3 as [(Hp & w & Hw & Hlt)|(Ht & Hall)].
                  + destruct Hw as [<-|Hw].
                    * exfalso. apply Hxa in H1. unfold SetSpec.lt in *. rewrite (asym x z) in Hlt; auto. discriminate.
                    * left. split; auto. exists w; auto.
                  + right. split; auto. intros w Hw. apply Hall. right; auto.
                - destruct H1 as [<-|H1]; [exfalso; apply H2; left; auto|]. right. right. left. split; auto.
                  split; [intros H; apply H2; right; auto|].
                  destruct H3 as [(Hp & w & Hw & Hlt)|(Ht & Hall)].
                  + destruct Hw as [<-|Hw].
                    * exfalso. apply Hyb in H1. unfold SetSpec.lt in *. rewrite (asym x z) in Hlt; auto. discriminate.
                    * left. split; auto. exists w; auto.
                  + right. split; auto. intros w Hw. apply Hall. right; auto.
                - destruct H1 as [<-|H1]; [left; auto|]. destruct H2 as [<-|H2]; [contradiction|].
                  right. right. right. auto. }
Qed.

Lemma above_or_below z b : asc b -> ~ In z b -> (exists y, In y b /\ lt z y) \/ (forall y, In y b -> lt y z).
Proof.
  induction b as [|y b IH]; intros Hb Hn; [right; intros ? []|].
  apply asc_cons in Hb. destruct Hb as [Hb Hy].
  destruct (ltb z y) eqn:E; [left; exists y; split; [left; auto|exact E]|].
  destruct (IH Hb) as [(w & Hw & Hlt)|H]; [firstorder|left; exists w; split; [right|]; auto|].
  right. intros w [<-|Hw]; auto. unfold SetSpec.lt. destruct (ltb y z) eqn:F; auto.
  exfalso. apply Hn. left. symmetry. apply tot; auto.
Qed.

Theorem set_ops a b A B : represents ltb a A -> represents ltb b B ->
  (exists r, union ltb a b = Ok r /\ represents ltb r (fun x => A x \/ B x)) /\
  (exists r, intersection ltb a b = Ok r /\ represents ltb r (fun x => A x /\ B x)) /\
  (exists r, difference ltb a b = Ok r /\ represents ltb r (fun x => A x /\ ~ B x)).
Proof.
  intros [Ha HA] [Hb HB].
  assert (Hdec : forall x l, asc l -> In x l \/ ~ In x l).
  { intros x l Hl. destruct (contains_spec l x Hl) as ([|] & _ & H); [left; apply H; auto|right].
    intros Hx. apply H in Hx. discriminate. }
  split; [|split].
  - destruct (merge_spec true true true true true (length a + length b) a b Ha Hb (le_n _)) as (r & E & Hr & HI).
    exists r. split; auto. split; auto. intros x. rewrite HI, <- HA, <- HB.
    split; [tauto|]. intros H.
    destruct (Hdec x a Ha), (Hdec x b Hb); try tauto.
    + left. split; auto. split; auto. destruct (above_or_below x b); auto.
    + right. left. split; auto. split; auto. destruct (above_or_below x a); auto.
  - destruct (merge_spec false false true false false (length a + length b) a b Ha Hb (le_n _)) as (r & E & Hr & HI).
    exists r. split; auto. split; auto. intros x. rewrite HI, <- HA, <- HB.
    split; [|tauto]. intros [(_&_&[(?&_)|(?&_)])|[(_&_&[(?&_)|(?&_)])|H]]; try discriminate. tauto.
  - destruct (merge_spec true false false true false (length a + length b) a b Ha Hb (le_n _)) as (r & E & Hr & HI).
    exists r. split; auto. split; auto. intros x. rewrite HI, <- HA, <- HB. split.
    + intros [(?&?&_)|[(_&_&[(?&_)|(?&_)])|(_&_&?)]]; try discriminate. tauto.
    + intros [H1 H2]. left. split; auto. split; auto. destruct (above_or_below x b); auto.
Qed.

(** What ^ really computes: an element of one set only is kept exactly when the other set has a larger
    element. *)
Theorem symdiff_exact a b A B : represents ltb a A -> represents ltb b B ->
  exists r, symdiff ltb a b = Ok r /\
    represents ltb r (fun x => (A x /\ ~ B x /\ exists y, B y /\ lt x y) \/
                              (B x /\ ~ A x /\ exists y, A y /\ lt x y)).
Proof.
  intros [Ha HA] [Hb HB].
  destruct (merge_spec true true false false false (length a + length b) a b Ha Hb (le_n _)) as (r & E & Hr & HI).
  exists r. split; auto. split; auto. intros x. rewrite HI. clear HI E.
  rewrite <- HA, <- HB. split.
  - intros [(H1&H2&[(_&y&Hy&Hl)|(?&_)])|[(H1&H2&[(_&y&Hy&Hl)|(?&_)])|(_&_&?)]]; try discriminate.
    + left. split; auto. split; auto. exists y. rewrite <- HB. auto.
    + right. split; auto. split; auto. exists y. rewrite <- HA. auto.
  - intros [(H1&H2&y&Hy&Hl)|(H1&H2&y&Hy&Hl)].
    + left. split; auto. split; auto. left. split; auto. exists y. rewrite HB. auto.
    + right. left. split; auto. split; auto. left. split; auto. exists y. rewrite HA. auto.
Qed.
Theorem symdiff_same_max a b A B m : represents ltb a A -> represents ltb b B ->
  A m -> B m -> (forall x, A x \/ B x -> x = m \/ lt x m) ->
  exists r, symdiff ltb a b = Ok r /\
    represents ltb r (fun x => (A x /\ ~ B x) \/ (B x /\ ~ A x)).
Proof.
  intros HA HB Am Bm Hm. destruct (symdiff_exact a b A B HA HB) as (r & E & Hr).
  exists r. split; auto. revert Hr. apply represents_ext. intros x. split.
  - intros [(?&?&_)|(?&?&_)]; auto.
  - intros [(H1&H2)|(H1&H2)].
    + left. split; auto. split; auto. exists m. split; auto. destruct (Hm x) as [->|]; auto. contradiction.
    + right. split; auto. split; auto. exists m. split; auto. destruct (Hm x) as [->|]; auto. contradiction.
Qed.

Theorem set_equality a b : asc a -> asc b -> (a = b <-> forall x, In x a <-> In x b).
Proof. intros Ha Hb. split; [intros ->; tauto|]. apply asc_unique; auto. Qed.

Theorem index_ascending d i j x y : asc d -> i < j ->
  at_index true d (Z.of_nat i) = Ok x -> at_index true d (Z.of_nat j) = Ok y -> lt x y.
Proof.
  intros Hd Hij. unfold at_index.
  destruct (_ && _); [discriminate|]. destruct (_ <? _)%Z; [discriminate|].
  destruct (_ && _); [discriminate|]. destruct (_ <? _)%Z; [discriminate|].
  rewrite !Nat2Z.id. unfold rd.
  destruct (nth_error d i) eqn:Ei; [|discriminate]. destruct (nth_error d j) eqn:Ej; [|discriminate].
  intros [= <-] [= <-]. eapply asc_nth; eauto.
Qed.
Theorem index_total (d : list T) i :
  ((0 <= i < Z.of_nat (length d))%Z -> exists x, at_index true d i = Ok x /\ In x d) /\
  (~ (0 <= i < Z.of_nat (length d))%Z -> at_index true d i = Throw RuntimeError).
Proof.
  unfold at_index. split; intros H.
  - replace ((0 <=? i) && (i <? Z.of_nat (length d)))%Z with true by lia. cbn [negb andb].
    replace (i <? 0)%Z with false by lia. unfold rd.
    destruct (nth_error d (Z.to_nat i)) eqn:E.
    + eexists. split; auto. eapply nth_error_In; eauto.
    + apply nth_error_None in E. lia.
  - replace ((0 <=? i) && (i <? Z.of_nat (length d)))%Z with false by lia. reflexivity.
Qed.
End SetProofs.

Lemma Zltb_total : total_order Z.ltb.
Proof. constructor; intros; lia. Qed.
Lemma symdiff_refuted : exists a b x, ascending Z.ltb a /\ ascending Z.ltb b /\ In x a /\ ~ In x b /\
  symdiff Z.ltb a b = Ok [].
Proof.
  exists [1; 2; 3]%Z, [], 1%Z. repeat split; repeat constructor; auto.
Qed.
