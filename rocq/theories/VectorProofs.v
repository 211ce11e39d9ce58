(** Proofs about the Vector model. *)
From Coq Require Import Ring Reals Lra.
From Verif Require Import Base BaseProofs VectorModel VectorSpec.
From Coq Require Import ZifyNat ZifyN ZifyBool.
Ltac Zify.zify_post_hook ::= idtac.
Local Open Scope nat_scope.

Lemma for_from_partial {S} (P : nat -> S -> Prop) body n : forall lo s s',
  (forall i s s', lo <= i < lo + n -> P i s -> body i s = Ok s' -> P (Datatypes.S i) s') ->
  P lo s -> for_from n lo body s = Ok s' -> P (lo + n) s'.
Proof.
  induction n as [|n IH]; intros lo s s' Hb HP E; cbn in E.
  - injection E as <-. now rewrite Nat.add_0_r.
  - destruct (body lo s) as [s1| |] eqn:E1; try discriminate. cbn in E.
    replace (lo + Datatypes.S n) with (Datatypes.S lo + n) by lia.
    apply (IH (Datatypes.S lo) s1); auto.
    + intros i t t' Hi. apply Hb. lia.
    + apply (Hb lo s); auto. lia.
Qed.
Lemma for_range_partial {S} (P : nat -> S -> Prop) body lo hi s s' :
  lo <= hi ->
  (forall i s s', lo <= i < hi -> P i s -> body i s = Ok s' -> P (Datatypes.S i) s') ->
  P lo s -> for_range lo hi body s = Ok s' -> P hi s'.
Proof.
  intros Hle Hb HP E. unfold for_range in E.
  replace hi with (lo + (hi - lo)) by lia.
  apply (for_from_partial P body (hi - lo) lo s); auto.
  intros i t t' Hi. apply Hb. lia.
Qed.

Section Elementwise.
Context {A : Type}.
Variable w : nat.
Variable asserts : bool.
Hypothesis Hw : 0 < w.
Local Notation packets := (packets w).

Lemma packets_le d : packets d <= d.
Proof.
  unfold VectorModel.packets.
  apply Nat.lt_succ_r, Nat.div_lt_upper_bound; [lia|]. nia.
Qed.
Lemma packets_cover d : d <= packets d * w.
Proof.
  unfold VectorModel.packets. pose proof (Nat.div_mod (d + w - 1) w) as H.
  pose proof (Nat.mod_upper_bound (d + w - 1) w) as H'.
  rewrite (Nat.mul_comm _ w). lia.
Qed.
Lemma packets_tight d : packets d * w < d + w.
Proof.
  unfold VectorModel.packets. pose proof (Nat.div_mod (d + w - 1) w) as H.
  rewrite (Nat.mul_comm _ w). lia.
Qed.
Lemma packets_exact d : Nat.divide w d -> packets d * w = d.
Proof.
  intros [k ->]. pose proof (packets_cover (k * w)). pose proof (packets_tight (k * w)).
  assert (k <= packets (k * w)) by nia. assert (packets (k * w) < k + 1) by nia. nia.
Qed.
Lemma packets_mono d d' : d <= d' -> packets d <= packets d'.
Proof. intros H. unfold VectorModel.packets. apply Nat.div_le_mono; lia. Qed.

(** A lane of an expression: like [value] but including the padding. *)
Fixpoint lane (e : expr A) (j : nat) : option A :=
  match e with
  | V v => nth_error (cells v) j
  | K a => Some a
  | Bin f l r => match lane l j, lane r j with
                 | Some x, Some y => match f x y with Ok z => Some z | _ => None end
                 | _, _ => None
                 end
  | Un f e => match lane e j with
              | Some x => match f x with Ok z => Some z | _ => None end
              | None => None
              end
  end.

Lemma nth_error_firstn (l : list A) n i : nth_error (firstn n l) i = if i <? n then nth_error l i else None.
Proof.
  revert l i. induction n as [|n IH]; intros l i.
  - cbn. now destruct i.
  - destruct l as [|x l]; [destruct i; now destruct (_ <? _)|]. destruct i as [|i]; [reflexivity|].
    cbn [firstn nth_error]. rewrite IH. reflexivity.
Qed.
Lemma nth_error_skipn (l : list A) n i : nth_error (skipn n l) i = nth_error l (n + i).
Proof.
  revert l. induction n as [|n IH]; intros l; [reflexivity|].
  destruct l as [|x l]; [cbn; now destruct i|]. apply IH.
Qed.

Lemma lane_value N e j :
  all_vectors (fun v => dims v = N /\ storage w v) e -> j < N -> lane e j = value e j.
Proof.
  intros H Hj. induction e as [v|a|f l IHl r IHr|f e IH]; cbn in *; auto.
  - destruct H as [<- _]. unfold elements. rewrite nth_error_firstn.
    now destruct (Nat.ltb_spec j (dims v)); [|lia].
  - destruct H as [H1 H2]. now rewrite IHl, IHr.
  - now rewrite IH.
Qed.

Lemma lanes1_Ok (f : A -> outcome A) (p r : list A) :
  lanes1 f p = Ok r <->
  length r = length p /\
  forall l, l < length p -> match nth_error p l with
                            | Some x => match f x with Ok z => Some z | _ => None end
                            | None => None end = nth_error r l /\ nth_error r l <> None.
Proof.
  revert r. induction p as [|x p IH]; intros r; cbn [lanes1 length].
  - split.
    + intros [= <-]. split; [reflexivity|lia].
    + intros [H _]. now destruct r.
  - split.
    + destruct (f x) as [z| |] eqn:Ef; try discriminate. cbn.
      destruct (lanes1 f p) as [r'| |] eqn:Er; try discriminate. cbn. intros [= <-].
      destruct (proj1 (IH r') eq_refl) as [Hl H]. split; [cbn; lia|].
      intros [|l] Hl'; cbn; [now rewrite Ef|]. apply H. lia.
    + intros [Hl H]. destruct r as [|z r]; [discriminate|]. cbn in Hl.
      destruct (H 0) as [E _]; [lia|]. cbn in E. destruct (f x) as [z'| |]; try discriminate.
      injection E as ->. cbn. rewrite (proj2 (IH r)); [reflexivity|].
      split; [lia|]. intros l Hl'. apply (H (Datatypes.S l)). lia.
Qed.
Lemma lanes2_Ok (f : A -> A -> outcome A) (p q r : list A) : length p = length q ->
  lanes2 f p q = Ok r <->
  length r = length p /\
  forall l, l < length p -> match nth_error p l, nth_error q l with
                            | Some x, Some y => match f x y with Ok z => Some z | _ => None end
                            | _, _ => None end = nth_error r l /\ nth_error r l <> None.
Proof.
  revert q r. induction p as [|x p IH]; intros [|y q] r Hpq; try discriminate; cbn [lanes2 length].
  - split.
    + intros [= <-]. split; [reflexivity|lia].
    + intros [H _]. now destruct r.
  - cbn in Hpq. injection Hpq as Hpq. split.
    + destruct (f x y) as [z| |] eqn:Ef; try discriminate. cbn.
      destruct (lanes2 f p q) as [r'| |] eqn:Er; try discriminate. cbn. intros [= <-].
      destruct (proj1 (IH q r' Hpq) Er) as [Hl H]. split; [cbn; lia|].
      intros [|l] Hl'; cbn; [now rewrite Ef|]. apply H. lia.
    + intros [Hl H]. destruct r as [|z r]; [discriminate|]. cbn in Hl.
      destruct (H 0) as [E _]; [lia|]. cbn in E. destruct (f x y) as [z'| |]; try discriminate.
      injection E as ->. cbn. rewrite (proj2 (IH q r Hpq)); [reflexivity|].
      split; [lia|]. intros l Hl'. apply (H (Datatypes.S l)). lia.
Qed.

Lemma packet_length (v : vec A) i : storage w v -> i < packets (dims v) ->
  length (firstn w (skipn (i * w) (cells v))) = w.
Proof.
  intros H Hi. rewrite firstn_length, skipn_length, H.
  assert (i * w + w <= packets (dims v) * w) by nia. lia.
Qed.

Lemma get_Ok (v : vec A) i : storage w v -> i < packets (dims v) ->
  get w asserts v i = Ok (firstn w (skipn (i * w) (cells v))).
Proof.
  intros H Hi. unfold get. pose proof (packets_le (dims v)).
  destruct (Nat.ltb_spec i (dims v)); [|lia]. rewrite andb_false_r.
  destruct (Nat.ltb_spec i (packets (dims v))); [reflexivity|lia].
Qed.

Lemma nth_error_some (l : list A) i : i < length l -> nth_error l i <> None.
Proof. apply nth_error_Some. Qed.

Lemma list_ext (l1 l2 : list A) : length l1 = length l2 ->
  (forall i, i < length l1 -> nth_error l1 i = nth_error l2 i) -> l1 = l2.
Proof.
  revert l2. induction l1 as [|x l1 IH]; intros [|y l2] HL H; try discriminate; [reflexivity|].
  cbn in HL. f_equal.
  - specialize (H 0 ltac:(cbn; lia)). cbn in H. congruence.
  - apply IH; [lia|]. intros i Hi. apply (H (Datatypes.S i)). cbn. lia.
Qed.
Lemma collect n (g : nat -> option A) : (forall l, l < n -> g l <> None) ->
  exists p, length p = n /\ forall l, l < n -> nth_error p l = g l.
Proof.
  revert g. induction n as [|n IH]; intros g H; [exists []; split; [reflexivity|lia]|].
  destruct (IH (fun l => g (Datatypes.S l))) as (p & HL & Hp); [intros l Hl; apply H; lia|].
  destruct (g 0) as [x|] eqn:E; [|exfalso; apply (H 0); [lia|exact E]].
  exists (x :: p). split; [cbn; lia|]. intros [|l] Hl; [now rewrite E|]. apply Hp. lia.
Qed.

Definition good N e := all_vectors (fun v : vec A => dims v = N /\ storage w v) e.

Lemma eget_lanes N e i p : good N e -> i < packets N ->
  eget w asserts e i = Ok p ->
  length p = w /\ forall l, l < w -> nth_error p l = lane e (i * w + l) /\ nth_error p l <> None.
Proof.
  intros Hall Hi. unfold good in Hall.
  revert p. induction e as [v|a|f l IHl r IHr|f e IH]; intros p; cbn [eget lane].
  - cbn in Hall. destruct Hall as [<- Hs]. rewrite get_Ok by assumption.
    intros [= <-]. split; [now apply packet_length|].
    intros l Hl. rewrite nth_error_firstn, nth_error_skipn.
    destruct (Nat.ltb_spec l w); [|lia]. split; [reflexivity|].
    apply nth_error_some. rewrite Hs. nia.
  - intros [= <-]. split; [apply repeat_length|]. intros l Hl.
    rewrite (nth_error_nth' _ a) by (rewrite repeat_length; lia). rewrite nth_repeat. split; congruence.
  - cbn in Hall. destruct Hall as [H1 H2]. specialize (IHl H1). specialize (IHr H2).
    destruct (eget w asserts l i) as [x| |]; try discriminate.
    destruct (eget w asserts r i) as [y| |]; try discriminate. cbn [bind].
    destruct (IHl x eq_refl) as [Lx Hx]. destruct (IHr y eq_refl) as [Ly Hy].
    intros E. apply lanes2_Ok in E; [|lia]. destruct E as [HL H]. split; [lia|].
    intros j Hj. destruct (H j ltac:(lia)) as [Hj1 Hj2]. split; [|exact Hj2]. rewrite <- Hj1.
    rewrite (proj1 (Hx j Hj)), (proj1 (Hy j Hj)). reflexivity.
  - cbn in Hall. specialize (IH Hall).
    destruct (eget w asserts e i) as [x| |]; try discriminate. cbn [bind].
    destruct (IH x eq_refl) as [Lx Hx].
    intros E. apply lanes1_Ok in E. destruct E as [HL H]. split; [lia|].
    intros j Hj. destruct (H j ltac:(lia)) as [Hj1 Hj2]. split; [|exact Hj2]. rewrite <- Hj1.
    rewrite (proj1 (Hx j Hj)). reflexivity.
Qed.
Lemma eget_total N e i : good N e -> i < packets N ->
  (forall l, l < w -> lane e (i * w + l) <> None) -> exists p, eget w asserts e i = Ok p.
Proof.
  intros Hall Hi. induction e as [v|a|f l IHl r IHr|f e IH]; intros Hd; cbn [eget lane] in *.
  - destruct Hall as [<- Hs]. rewrite get_Ok by assumption. eauto.
  - eauto.
  - destruct Hall as [H1 H2].
    destruct (IHl H1) as [x Ex].
    { intros j Hj E. specialize (Hd j Hj). now rewrite E in Hd. }
    destruct (IHr H2) as [y Ey].
    { intros j Hj E. specialize (Hd j Hj). rewrite E in Hd. now destruct (lane l (i * w + j)). }
    rewrite Ex, Ey. cbn [bind].
    destruct (eget_lanes N l i x H1 Hi Ex) as [Lx Hx]. destruct (eget_lanes N r i y H2 Hi Ey) as [Ly Hy].
    destruct (collect w (fun j => match nth_error x j, nth_error y j with
      | Some a, Some b => match f a b with Ok z => Some z | _ => None end | _, _ => None end)) as (p & Lp & Hp).
    { intros j Hj. rewrite (proj1 (Hx j Hj)), (proj1 (Hy j Hj)). now apply Hd. }
    exists p. apply lanes2_Ok; [lia|]. split; [lia|].
    intros j Hj. rewrite Hp by lia. split; [reflexivity|].
    rewrite (proj1 (Hx j ltac:(lia))), (proj1 (Hy j ltac:(lia))). apply Hd. lia.
  - destruct (IH Hall) as [x Ex].
    { intros j Hj E. specialize (Hd j Hj). now rewrite E in Hd. }
    rewrite Ex. cbn [bind]. destruct (eget_lanes N e i x Hall Hi Ex) as [Lx Hx].
    destruct (collect w (fun j => match nth_error x j with
      | Some a => match f a with Ok z => Some z | _ => None end | _ => None end)) as (p & Lp & Hp).
    { intros j Hj. rewrite (proj1 (Hx j Hj)). now apply Hd. }
    exists p. apply lanes1_Ok. split; [lia|].
    intros j Hj. rewrite Hp by lia. split; [reflexivity|].
    rewrite (proj1 (Hx j ltac:(lia))). apply Hd. lia.
Qed.

(** Writing a packet. *)
Lemma splice_lane (c p : list A) i j : length p = w -> i * w + w <= length c ->
  nth_error (firstn (i * w) c ++ p ++ skipn (i * w + w) c) j =
  if (i * w <=? j) && (j <? i * w + w) then nth_error p (j - i * w) else nth_error c j.
Proof.
  intros Lp Hc.
  assert (L1 : length (firstn (i * w) c) = i * w) by (rewrite firstn_length; lia).
  destruct (Nat.leb_spec (i * w) j); cbn [andb].
  - rewrite nth_error_app2, L1 by lia.
    destruct (Nat.ltb_spec j (i * w + w)).
    + rewrite nth_error_app1 by lia. reflexivity.
    + rewrite nth_error_app2, nth_error_skipn by lia. f_equal. lia.
  - rewrite nth_error_app1, nth_error_firstn by lia. now destruct (Nat.ltb_spec j (i * w)); [|lia].
Qed.
Lemma splice_length (c p : list A) i : length p = w -> i * w + w <= length c ->
  length (firstn (i * w) c ++ p ++ skipn (i * w + w) c) = length c.
Proof. intros Lp Hc. rewrite !app_length, firstn_length, skipn_length. lia. Qed.

Lemma set_Ok (v : vec A) i p : i < packets (dims v) ->
  set w asserts v i p = Ok (mkv (dims v) (firstn (i * w) (cells v) ++ p ++ skipn (i * w + w) (cells v))).
Proof.
  intros Hi. unfold set. pose proof (packets_le (dims v)).
  destruct (Nat.ltb_spec i (dims v)); [|lia]. rewrite andb_false_r.
  destruct (Nat.ltb_spec i (packets (dims v))); [reflexivity|lia].
Qed.

Lemma good_edims N e : good N e -> edims e <> None -> edims e = Some N.
Proof.
  intros H. induction e as [v|a|f l IHl r IHr|f e IH]; cbn in *; intros Hn.
  - now destruct H as [-> _].
  - congruence.
  - destruct H as [H1 H2]. destruct (edims l); [now apply IHl|now apply IHr].
  - auto.
Qed.

(** A store of the packets: lanes below [k] packets are those of the expression. *)
Definition stored N (c0 : list A) e k (v : vec A) :=
  dims v = N /\ length (cells v) = packets N * w /\
  forall j, (j < k * w -> nth_error (cells v) j = lane e j /\ lane e j <> None)
            /\ (k * w <= j -> nth_error (cells v) j = nth_error c0 j).

Lemma stored_step N c0 e k v p : good N e -> k < packets N -> stored N c0 e k v ->
  eget w asserts e k = Ok p ->
  exists v', set w asserts v k p = Ok v' /\ stored N c0 e (Datatypes.S k) v'.
Proof.
  intros He Hk (Hd & HL & Hj) Ep.
  destruct (eget_lanes N e k p He Hk Ep) as [Lp Hp].
  rewrite set_Ok by (rewrite Hd; exact Hk). eexists. split; [reflexivity|].
  assert (Hc : k * w + w <= length (cells v)) by (rewrite HL; nia).
  split; [exact Hd|]. split; [cbn [cells]; rewrite splice_length; assumption|].
  intros j. cbn [cells]. rewrite splice_lane by assumption.
  destruct (Nat.leb_spec (k * w) j); cbn [andb].
  - destruct (Nat.ltb_spec j (k * w + w)).
    + split; [|lia]. intros _. destruct (Hp (j - k * w)) as [H1 H2]; [lia|].
      replace (k * w + (j - k * w)) with j in H1 by lia. rewrite <- H1. auto.
    + split; [lia|]. intros _. apply Hj. lia.
  - split; [|lia]. intros _. apply Hj. lia.
Qed.

Lemma assign_lanes N dst e v : dims dst = N -> storage w dst -> good N e -> edims e <> None ->
  assign w asserts dst e = Ok v ->
  dims v = N /\ storage w v /\ forall j, j < packets N * w -> nth_error (cells v) j = lane e j /\ lane e j <> None.
Proof.
  intros Hd Hs He Hn E. unfold assign in E. rewrite (good_edims N e He Hn), Hd, Nat.min_id in E.
  unfold storage in *. rewrite Hd in Hs.
  apply (for_range_partial (stored N (cells dst) e)) in E.
  - destruct E as (H1 & H2 & H3). rewrite H1. repeat split; auto; now apply H3.
  - lia.
  - intros i s s' Hi Hst Eb. destruct (eget w asserts e i) as [p| |] eqn:Ep; try discriminate.
    cbn [bind] in Eb. destruct (stored_step N (cells dst) e i s p He ltac:(lia) Hst Ep) as (v' & Ev & Hv).
    rewrite Ev in Eb. injection Eb as <-. exact Hv.
  - split; [exact Hd|]. split; [exact Hs|]. intros j. split; [lia|reflexivity].
Qed.
Lemma assign_total N dst e : dims dst = N -> storage w dst -> good N e -> edims e <> None ->
  (forall j, j < packets N * w -> lane e j <> None) -> exists v, assign w asserts dst e = Ok v.
Proof.
  intros Hd Hs He Hn Hl. unfold assign. rewrite (good_edims N e He Hn), Hd, Nat.min_id.
  unfold storage in *. rewrite Hd in Hs.
  edestruct (for_range_inv (stored N (cells dst) e)) as (v & E & _); [| | |exists v; exact E].
  - lia.
  - intros i s Hi Hst. destruct (eget_total N e i He) as [p Ep]; [lia| |].
    { intros l Hl'. apply Hl. nia. }
    rewrite Ep. cbn [bind]. apply (stored_step N (cells dst) e i s p); auto. lia.
  - split; [exact Hd|]. split; [exact Hs|]. intros j. split; [lia|reflexivity].
Qed.

Lemma total_lane N e j : good N e -> total e -> j < packets N * w -> lane e j <> None.
Proof.
  intros He Ht Hj. induction e as [v|a|f l IHl r IHr|f e IH]; cbn in *.
  - destruct He as [<- Hs]. apply nth_error_some. rewrite Hs. exact Hj.
  - congruence.
  - destruct He as [H1 H2]. destruct Ht as (Hf & T1 & T2).
    specialize (IHl H1 T1). specialize (IHr H2 T2).
    destruct (lane l j) as [x|]; [|congruence]. destruct (lane r j) as [y|]; [|congruence].
    destruct (Hf x y) as [z ->]. congruence.
  - destruct Ht as [Hf T]. specialize (IH He T). destruct (lane e j) as [x|]; [|congruence].
    destruct (Hf x) as [z ->]. congruence.
Qed.

(** operator[] on an expression *)
Lemma eat_value N e i : good N e -> i < N ->
  match eat asserts e i with Ok a => Some a | _ => None end = value e i.
Proof.
  intros He Hi. induction e as [v|a|f l IHl r IHr|f e IH]; cbn in *.
  - destruct He as [<- Hs]. unfold at_. destruct (Nat.ltb_spec i (dims v)); [|lia].
    rewrite andb_false_r. unfold elements, rd. rewrite nth_error_firstn.
    destruct (Nat.ltb_spec i (dims v)); [|lia]. now destruct (nth_error (cells v) i).
  - reflexivity.
  - destruct He as [H1 H2]. rewrite <- IHl, <- IHr by assumption.
    destruct (eat asserts l i); cbn; auto. now destruct (eat asserts r i); cbn.
  - rewrite <- IH by assumption. now destruct (eat asserts e i); cbn.
Qed.

Lemma elements_length (v : vec A) : storage w v -> length (elements v) = dims v.
Proof.
  intros H. unfold elements. rewrite firstn_length, H. pose proof (packets_cover (dims v)). lia.
Qed.

Lemma assign_elements N (dst : vec A) (e : expr A) v : dims dst = N -> storage w dst -> conforming w N e ->
  assign w asserts dst e = Ok v ->
  dims v = N /\ storage w v /\ forall i, i < N ->
    nth_error (elements v) i = value e i /\ exists a, value e i = Some a /\ eat asserts e i = Ok a.
Proof.
  intros Hd Hs [He Hn] E. destruct (assign_lanes N dst e v Hd Hs He Hn E) as (H1 & H2 & H3).
  split; [exact H1|]. split; [exact H2|]. intros i Hi.
  pose proof (packets_cover N). destruct (H3 i ltac:(lia)) as [H4 H5].
  rewrite (lane_value N) in H4, H5 by assumption. unfold elements. rewrite nth_error_firstn, H1.
  destruct (Nat.ltb_spec i N); [|lia]. split; [exact H4|].
  pose proof (eat_value N e i He Hi) as Hv. destruct (value e i) as [a|]; [|congruence].
  exists a. split; [reflexivity|]. destruct (eat asserts e i); congruence.
Qed.

Lemma assign_Ok_total N (dst : vec A) (e : expr A) : dims dst = N -> storage w dst -> conforming w N e -> total e ->
  exists v, assign w asserts dst e = Ok v.
Proof.
  intros Hd Hs [He Hn] Ht. apply (assign_total N); auto.
  intros j Hj. now apply (total_lane N).
Qed.

(** Without padding an assignment is defined exactly when every element is. *)
Lemma assign_Ok_aligned N (dst : vec A) (e : expr A) : dims dst = N -> storage w dst -> conforming w N e ->
  Nat.divide w N ->
  ((exists v, assign w asserts dst e = Ok v) <-> forall i, i < N -> exists a, value e i = Some a).
Proof.
  intros Hd Hs He Hw'. split.
  - intros [v E] i Hi. destruct (assign_elements N dst e v Hd Hs He E) as (_ & _ & H).
    destruct (H i Hi) as (_ & a & Ha & _). eauto.
  - intros H. destruct He as [He Hn]. apply (assign_total N); auto.
    rewrite (packets_exact N Hw'). intros j Hj. rewrite (lane_value N) by assumption.
    destruct (H j Hj) as [a ->]. congruence.
Qed.

(** Construction from values. *)
Lemma put_Ok (v : vec A) i a : i < dims v -> storage w v ->
  put asserts v i a = Ok (mkv (dims v) (upd (cells v) i a)).
Proof.
  intros Hi Hs. unfold put. destruct (Nat.ltb_spec i (dims v)); [|lia]. rewrite andb_false_r.
  rewrite wr_Ok; [reflexivity|]. rewrite Hs. pose proof (packets_cover (dims v)). lia.
Qed.

Lemma of_list_spec d (junk args : list A) : length junk = packets d * w -> length args <= d ->
  exists v, of_list asserts d junk args = Ok v /\ dims v = d /\ storage w v /\
    forall i, nth_error (cells v) i = if i <? length args then nth_error args i else nth_error junk i.
Proof.
  intros Hj Ha. unfold of_list. destruct (Nat.ltb_spec d (length args)); [lia|].
  rewrite andb_false_r, Nat.min_l by assumption.
  edestruct (for_range_inv (fun k (v : vec A) => dims v = d /\ storage w v /\
    forall i, nth_error (cells v) i = if i <? k then nth_error args i else nth_error junk i))
    as (v & E & H1 & H2 & H3); [| | |exists v; split; [exact E|auto]].
  - lia.
  - intros i s Hi (H1 & H2 & H3). unfold rd. destruct (nth_error args i) as [a|] eqn:Ea.
    2: { exfalso. apply nth_error_None in Ea. lia. }
    cbn [bind]. rewrite put_Ok by (rewrite ?H1; auto; lia).
    eexists. split; [reflexivity|]. split; [exact H1|]. split.
    { unfold storage in *. cbn [cells dims]. now rewrite upd_length. }
    intros j. cbn [cells]. rewrite nth_error_upd, H3.
    assert (Hl : length (cells s) = packets d * w) by (rewrite <- H1; exact H2).
    pose proof (packets_cover d).
    destruct (Nat.eqb_spec i j) as [<-|Hne].
    + destruct (Nat.ltb_spec i (length (cells s))); [|lia].
      destruct (Nat.ltb_spec i (Datatypes.S i)); [|lia]. now rewrite Ea.
    + destruct (Nat.ltb_spec j i), (Nat.ltb_spec j (Datatypes.S i)); try lia; reflexivity.
  - split; [reflexivity|]. split; [exact Hj|]. intros i. reflexivity.
Qed.

Lemma of_list_elements d (junk args : list A) v : length junk = packets d * w -> length args = d ->
  of_list asserts d junk args = Ok v -> dims v = d /\ storage w v /\ elements v = args.
Proof.
  intros Hj Ha E. destruct (of_list_spec d junk args Hj ltac:(lia)) as (v' & E' & H1 & H2 & H3).
  rewrite E' in E. injection E as <-. split; [exact H1|]. split; [exact H2|].
  apply list_ext; [rewrite elements_length by assumption; lia|].
  intros i Hi. rewrite elements_length in Hi by assumption.
  unfold elements. rewrite nth_error_firstn, H3, H1.
  destruct (Nat.ltb_spec i d); [|lia]. now destruct (Nat.ltb_spec i (length args)); [|lia].
Qed.

Lemma fill_spec (v : vec A) a : storage w v ->
  exists v', fill asserts v a = Ok v' /\ dims v' = dims v /\ storage w v' /\
    elements v' = repeat a (dims v) /\ padding v' = padding v.
Proof.
  intros Hs. unfold fill.
  pose proof (packets_cover (dims v)) as Hc.
  edestruct (for_range_inv (fun k (u : vec A) => dims u = dims v /\ storage w u /\
    cells u = repeat a k ++ skipn k (cells v)))
    as (u & E & H1 & H2 & H3); [| | |exists u; split; [exact E|]].
  - lia.
  - intros i s Hi (H1 & H2 & H3). rewrite put_Ok by (rewrite ?H1; auto; lia).
    eexists. split; [reflexivity|]. split; [exact H1|]. split.
    { unfold storage in *. cbn [cells dims]. now rewrite upd_length. }
    cbn [cells]. rewrite H3.
    apply list_ext.
    { rewrite upd_length, !app_length, !repeat_length, !skipn_length. unfold storage in Hs. lia. }
    intros j _. rewrite nth_error_upd.
    assert (Hl : i < length (repeat a i ++ skipn i (cells v))).
    { rewrite app_length, repeat_length, skipn_length. unfold storage in Hs. lia. }
    destruct (Nat.ltb_spec i (length (repeat a i ++ skipn i (cells v)))); [|lia].
    destruct (Nat.eqb_spec i j) as [<-|Hne]; cbn [andb].
    + rewrite nth_error_app1 by (rewrite repeat_length; lia).
      rewrite (nth_error_nth' _ a) by (rewrite repeat_length; lia). now rewrite nth_repeat.
    + destruct (Nat.lt_ge_cases j i).
      * rewrite !nth_error_app1 by (rewrite repeat_length; lia).
        rewrite !(nth_error_nth' _ a) by (rewrite repeat_length; lia). now rewrite !nth_repeat.
      * rewrite !nth_error_app2 by (rewrite repeat_length; lia).
        rewrite !repeat_length, !nth_error_skipn. f_equal. lia.
  - split; [reflexivity|]. split; [exact Hs|]. reflexivity.
  - split; [exact H1|]. split; [exact H2|]. unfold elements, padding. rewrite H1, H3.
    rewrite firstn_app, skipn_app, repeat_length, Nat.sub_diag, firstn_O, app_nil_r. cbn [skipn].
    rewrite firstn_all2 by (rewrite repeat_length; lia).
    now rewrite skipn_all2 by (rewrite repeat_length; lia).
Qed.

(** cast *)
Lemma cast_generic_spec (v : vec A) d junk : storage w v -> length junk = packets d * w ->
  exists v', cast_generic asserts v d junk = Ok v' /\ dims v' = d /\ storage w v' /\
    forall i, nth_error (cells v') i =
              if i <? Nat.min d (dims v) then nth_error (elements v) i else nth_error junk i.
Proof.
  intros Hs Hj. unfold cast_generic.
  edestruct (for_range_inv (fun k (u : vec A) => dims u = d /\ storage w u /\
    forall i, nth_error (cells u) i = if i <? k then nth_error (elements v) i else nth_error junk i))
    as (u & E & H1 & H2 & H3); [| | |exists u; split; [exact E|auto]].
  - lia.
  - intros i s Hi (H1 & H2 & H3). unfold at_. destruct (Nat.ltb_spec i (dims v)); [|lia].
    rewrite andb_false_r.
    assert (Hn : nth_error (elements v) i = nth_error (cells v) i).
    { unfold elements. rewrite nth_error_firstn. now destruct (Nat.ltb_spec i (dims v)); [|lia]. }
    pose proof (packets_cover (dims v)) as Hc. unfold rd.
    destruct (nth_error (cells v) i) as [a|] eqn:Ea.
    2: { exfalso. apply nth_error_None in Ea. unfold storage in Hs. lia. }
    cbn [bind]. rewrite put_Ok by (rewrite ?H1; auto; lia).
    eexists. split; [reflexivity|]. split; [exact H1|]. split.
    { unfold storage in *. cbn [cells dims]. now rewrite upd_length. }
    intros j. cbn [cells]. rewrite nth_error_upd, H3.
    assert (Hl : length (cells s) = packets d * w) by (rewrite <- H1; exact H2).
    pose proof (packets_cover d).
    destruct (Nat.eqb_spec i j) as [<-|Hne].
    + destruct (Nat.ltb_spec i (length (cells s))); [|lia].
      destruct (Nat.ltb_spec i (Datatypes.S i)); [|lia]. now rewrite Hn.
    + destruct (Nat.ltb_spec j i), (Nat.ltb_spec j (Datatypes.S i)); try lia; reflexivity.
  - split; [reflexivity|]. split; [exact Hj|]. intros i. reflexivity.
Qed.

Lemma cast_simd_spec (v : vec A) d junk : storage w v -> length junk = packets d * w ->
  packets d <= packets (dims v) ->
  exists v', cast_simd w v d junk = Ok v' /\ dims v' = d /\ storage w v' /\
    forall i, i < packets d * w -> nth_error (cells v') i = nth_error (cells v) i.
Proof.
  intros Hs Hj Hp. unfold cast_simd.
  edestruct (for_range_inv (fun k (u : vec A) => dims u = d /\ storage w u /\
    forall i, i < k * w -> nth_error (cells u) i = nth_error (cells v) i))
    as (u & E & H1 & H2 & H3); [| | |exists u; split; [exact E|auto]].
  - lia.
  - intros i s Hi (H1 & H2 & H3). destruct (Nat.ltb_spec i (packets (dims v))); [|lia].
    eexists. split; [reflexivity|].
    assert (Lp : length (firstn w (skipn (i * w) (cells v))) = w) by (now apply packet_length).
    assert (Hc : i * w + w <= length (cells s)) by (rewrite H2, H1; nia).
    split; [exact H1|]. split.
    { unfold storage in *. cbn [cells dims]. now rewrite splice_length. }
    intros j Hj'. cbn [cells]. rewrite splice_lane by assumption.
    destruct (Nat.leb_spec (i * w) j); cbn [andb].
    + destruct (Nat.ltb_spec j (i * w + w)); [|cbn [Nat.mul] in Hj'; lia].
      rewrite nth_error_firstn, nth_error_skipn.
      destruct (Nat.ltb_spec (j - i * w) w); [|lia]. f_equal. lia.
    + apply H3. lia.
  - split; [reflexivity|]. split; [exact Hj|]. intros i Hi. lia.
Qed.
Lemma cast_simd_UB (v : vec A) d junk : packets (dims v) < packets d -> cast_simd w v d junk = UB.
Proof.
  intros Hp. unfold cast_simd, for_range. rewrite Nat.sub_0_r.
  assert (H : forall n k s, packets (dims v) < k + n -> k <= packets (dims v) -> for_from n k (fun i (r : vec A) =>
     if i <? packets (dims v)
     then Ok (mkv (dims r) (firstn (i * w) (cells r) ++ firstn w (skipn (i * w) (cells v))
                           ++ skipn (i * w + w) (cells r)))
     else UB) s = UB).
  { induction n as [|n IH]; intros k s H1 H2; [lia|]. cbn [for_from].
    destruct (Nat.ltb_spec k (packets (dims v))); [|reflexivity]. cbn [bind]. apply IH; lia. }
  apply H; lia.
Qed.
End Elementwise.

(** Reductions over a commutative semiring. *)
Section Sums.
Context {A : Type} (w : nat) (zero one : A) (add mul : A -> A -> A).
Hypothesis Hw : 0 < w.
Hypothesis SR : semi_ring_theory zero one add mul eq.
Add Ring Ar : SR.
Local Notation packets := (packets w).
Local Notation tot := (total_of zero add).

Lemma tot_app l r : tot (l ++ r) = add (tot l) (tot r).
Proof. unfold total_of. induction l as [|x l IH]; cbn; [ring|]. rewrite IH. ring. Qed.
Lemma reduce_tot p : reduce_add zero add p = tot p.
Proof.
  unfold reduce_add, total_of.
  assert (H : forall s, fold_left add p s = add s (fold_right add zero p)).
  { induction p as [|x p IH]; intros s; cbn; [ring|]. rewrite IH. ring. }
  rewrite H. ring.
Qed.
Lemma plus2_length p q : length p = length q -> length (plus2 add p q) = length p.
Proof. intros H. unfold plus2. rewrite map_length, combine_length. lia. Qed.
Lemma plus2_tot p q : length p = length q -> tot (plus2 add p q) = add (tot p) (tot q).
Proof.
  revert q. induction p as [|x p IH]; intros [|y q] H; try discriminate; cbn; [ring|].
  injection H as H. specialize (IH q H). unfold plus2, total_of in *. rewrite IH. ring.
Qed.
Lemma tot_zeros n : tot (repeat zero n) = zero.
Proof. unfold total_of. induction n as [|n IH]; cbn; [reflexivity|]. rewrite IH. ring. Qed.
Lemma times2_squares p : times2 mul p p = squares mul p.
Proof. unfold times2, squares. induction p as [|x p IH]; cbn; [reflexivity|]. now rewrite IH. Qed.
Lemma firstn_more (l : list A) i n : firstn (i + n) l = firstn i l ++ firstn n (skipn i l).
Proof.
  revert l. induction i as [|i IH]; intros l; [reflexivity|].
  destruct l as [|x l]; [cbn; now rewrite firstn_nil|]. cbn. now rewrite IH.
Qed.

Lemma sum_cells (g : list A -> list A) (v : vec A) :
  (forall p, length (g p) = length p) -> (forall p q, g (p ++ q) = g p ++ g q) -> storage w v ->
  exists s, for_range 0 (packets (dims v)) (fun i s => do p <- packet w v i; Ok (plus2 add s (g p))) (repeat zero w) = Ok s
            /\ reduce_add zero add s = tot (g (cells v)).
Proof.
  intros Hg Hg' Hs.
  assert (Hg0 : g [] = []) by (specialize (Hg []); now destruct (g [])).
  edestruct (for_range_inv (fun k s => length s = w /\ tot s = tot (g (firstn (k * w) (cells v)))))
    as (s & E & L & T); [| | |exists s; split; [exact E|]].
  - lia.
  - intros i s Hi [L T]. unfold packet. destruct (Nat.ltb_spec i (packets (dims v))); [|lia]. cbn [bind].
    pose proof (packet_length w Hw v i Hs ltac:(lia)) as Lp.
    eexists. split; [reflexivity|]. split; [rewrite plus2_length; rewrite ?Hg; lia|].
    rewrite plus2_tot by (rewrite Hg; lia). rewrite T, <- tot_app, <- Hg'. do 2 f_equal.
    rewrite <- firstn_more. f_equal. lia.
  - split; [apply repeat_length|]. cbn [Nat.mul firstn]. rewrite Hg0. apply tot_zeros.
  - rewrite reduce_tot, T. do 2 f_equal. apply firstn_all2. rewrite Hs. lia.
Qed.

Lemma cells_split (v : vec A) : cells v = elements v ++ padding v.
Proof. unfold elements, padding. now rewrite firstn_skipn. Qed.

Lemma ssum_spec (v : vec A) : storage w v ->
  ssum w zero add v = Ok (add (tot (elements v)) (tot (padding v))).
Proof.
  intros Hs. unfold ssum. destruct (sum_cells (fun p => p) v) as (s & E & T); auto.
  rewrite E. cbn [bind]. now rewrite T, (cells_split v), tot_app.
Qed.
Lemma ssum2_spec (v : vec A) : storage w v ->
  ssum2 w zero add mul v = Ok (add (tot (squares mul (elements v))) (tot (squares mul (padding v)))).
Proof.
  intros Hs. unfold ssum2.
  destruct (sum_cells (squares mul) v) as (s & E & T); auto.
  { intros p. apply map_length. } { intros p q. apply map_app. }
  assert (X : for_range 0 (packets (dims v))
     (fun i s => do p <- packet w v i; Ok (plus2 add s (times2 mul p p))) (repeat zero w) = Ok s).
  { rewrite <- E. unfold for_range. generalize (repeat zero w). generalize 0 at 2 4. generalize (packets (dims v) - 0).
    induction n as [|n IH]; intros k t; [reflexivity|]. cbn [for_from].
    destruct (packet w v k); cbn [bind]; [|reflexivity|reflexivity]. rewrite times2_squares. apply IH. }
  rewrite X. cbn [bind]. rewrite T, (cells_split v). unfold squares. now rewrite map_app, tot_app.
Qed.
Lemma padding_nil (v : vec A) : storage w v -> Nat.divide w (dims v) -> padding v = [].
Proof.
  intros Hs Hd. unfold padding. apply skipn_all2. rewrite Hs, (packets_exact w Hw) by assumption. lia.
Qed.
Lemma tot_zero_list l : Forall (eq zero) l -> tot l = zero.
Proof. unfold total_of. induction 1 as [|x l <- H IH]; cbn; [reflexivity|]. rewrite IH. ring. Qed.
Lemma squares_zero l : Forall (eq zero) l -> Forall (eq zero) (squares mul l).
Proof. unfold squares. induction 1 as [|x l <- H IH]; cbn; constructor; auto. ring. Qed.

(** Zero padding is preserved by zero-preserving expressions. *)
Lemma lane_zero N e j : good w N e -> keeps_zero zero e -> N <= j < packets N * w -> lane e j = Some zero.
Proof.
  intros He Hz Hj. induction e as [v|a|f l IHl r IHr|f e IH]; cbn in *.
  - destruct He as [<- Hs]. assert (Hlt : j < length (cells v)) by (rewrite Hs; lia).
    destruct (nth_error (cells v) j) as [x|] eqn:E.
    2: { apply nth_error_None in E. lia. }
    f_equal. symmetry. rewrite Forall_forall in Hz. apply Hz. unfold padding.
    apply (nth_error_In _ (j - dims v)). rewrite nth_error_skipn. rewrite <- E. f_equal. lia.
  - now subst.
  - destruct He as [H1 H2], Hz as (Hf & Z1 & Z2). rewrite IHl, IHr by assumption. now rewrite Hf.
  - destruct Hz as (Hf & Z). rewrite IH by assumption. now rewrite Hf.
Qed.

Lemma assign_zero_padding asserts N dst e v : dims dst = N -> storage w dst -> conforming w N e ->
  keeps_zero zero e -> assign w asserts dst e = Ok v -> Forall (eq zero) (padding v).
Proof.
  intros Hd Hs [He Hn] Hz E.
  destruct (assign_lanes w asserts Hw N dst e v Hd Hs He Hn E) as (H1 & H2 & H3).
  apply Forall_forall. intros x Hx. apply In_nth_error in Hx. destruct Hx as [i Hi].
  unfold padding in Hi. rewrite nth_error_skipn, H1 in Hi.
  assert (Hlt : N + i < length (cells v)) by (apply nth_error_Some; congruence).
  rewrite H2, H1 in Hlt. rewrite (proj1 (H3 _ Hlt)) in Hi.
  rewrite (lane_zero N) in Hi by (auto; lia). congruence.
Qed.

Lemma elements_map (v : vec A) N f : dims v = N -> storage w v ->
  (forall i, i < N -> nth_error (elements v) i = Some (f i)) -> elements v = map f (seq 0 N).
Proof.
  intros Hd Hs H. apply (list_ext w Hw).
  - rewrite (elements_length w) by assumption. rewrite map_length, seq_length. exact Hd.
  - intros i Hi. rewrite (elements_length w) in Hi by assumption. rewrite H by lia.
    rewrite nth_error_map, (nth_error_nth' _ 0) by (rewrite seq_length; lia).
    cbn. now rewrite seq_nth by lia.
Qed.
End Sums.

Section Reductions.
Context {A : Type} (w : nat) (asserts : bool) (zero one : A) (add mul : A -> A -> A).
Hypothesis Hw : 0 < w.
Hypothesis SR : semi_ring_theory zero one add mul eq.
Add Ring Ar2 : SR.
Local Notation tot := (total_of zero add).

Lemma eval_assign (junk : list A) N e : conforming w N e ->
  eval w asserts junk e = assign w asserts (fresh N junk) e.
Proof. intros [He Hn]. unfold eval. now rewrite (good_edims w N e He Hn). Qed.
Lemma fresh_storage N (junk : list A) : length junk = packets w N * w -> storage w (fresh N junk).
Proof. intros H. exact H. Qed.

Lemma value_some_ext N (e : expr A) (f : nat -> A) : conforming w N e -> values e N f -> forall v : vec A, dims v = N -> storage w v ->
  (forall i, i < N -> nth_error (elements v) i = value e i /\ exists a, value e i = Some a /\ eat asserts e i = Ok a) ->
  elements v = map f (seq 0 N).
Proof.
  intros He Hv v Hd Hs H. apply (elements_map w Hw v N f Hd Hs).
  intros i Hi. rewrite (proj1 (H i Hi)). now apply Hv.
Qed.

(** sum, mag2 of an expression without padding *)
Lemma vsum_aligned (junk : list A) N (e : expr A) f : conforming w N e -> Nat.divide w N ->
  length junk = packets w N * w -> values e N f ->
  vsum w asserts zero add junk e = Ok (tot (map f (seq 0 N))).
Proof.
  intros He Hd Hj Hv. unfold vsum. rewrite (eval_assign junk N e He).
  destruct (proj2 (assign_Ok_aligned w asserts Hw N (fresh N junk) e eq_refl Hj He Hd)) as [v E].
  { intros i Hi. eauto. }
  rewrite E. cbn [bind].
  destruct (assign_elements w asserts Hw N (fresh N junk) e v eq_refl Hj He E) as (H1 & H2 & H3).
  rewrite (ssum_spec w zero one add mul Hw SR) by assumption.
  rewrite (padding_nil w Hw) by (rewrite ?H1; assumption).
  rewrite (value_some_ext N e f He Hv v H1 H2 H3). cbn. f_equal. ring.
Qed.
Lemma mag2_aligned (junk : list A) N (e : expr A) f : conforming w N e -> Nat.divide w N ->
  length junk = packets w N * w -> values e N f ->
  mag2 w asserts zero add mul junk e = Ok (tot (map (fun i => mul (f i) (f i)) (seq 0 N))).
Proof.
  intros He Hd Hj Hv. unfold mag2. rewrite (eval_assign junk N e He).
  destruct (proj2 (assign_Ok_aligned w asserts Hw N (fresh N junk) e eq_refl Hj He Hd)) as [v E].
  { intros i Hi. eauto. }
  rewrite E. cbn [bind].
  destruct (assign_elements w asserts Hw N (fresh N junk) e v eq_refl Hj He E) as (H1 & H2 & H3).
  rewrite (ssum2_spec w zero one add mul Hw SR) by assumption.
  rewrite (padding_nil w Hw) by (rewrite ?H1; assumption).
  rewrite (value_some_ext N e f He Hv v H1 H2 H3). unfold squares at 1. rewrite map_map.
  cbn [map squares total_of fold_right]. f_equal. ring.
Qed.
Lemma dot_aligned (junk : list A) N (l r : expr A) f g : conforming w N l -> conforming w N r -> Nat.divide w N ->
  length junk = packets w N * w -> values l N f -> values r N g ->
  dot w asserts zero add mul junk l r = Ok (tot (map (fun i => mul (f i) (g i)) (seq 0 N))).
Proof.
  intros [Hl Nl] [Hr Nr] Hd Hj Vl Vr. unfold dot. apply vsum_aligned; auto.
  - split; [split; assumption|]. cbn. now destruct (edims l).
  - intros i Hi. cbn. now rewrite (Vl i Hi), (Vr i Hi).
Qed.
(** … and of an expression that keeps the padding zero *)
Lemma sums_zero_padding (junk : list A) N (e : expr A) v : conforming w N e -> keeps_zero zero e ->
  length junk = packets w N * w -> eval w asserts junk e = Ok v ->
  ssum w zero add v = Ok (tot (elements v)) /\ ssum2 w zero add mul v = Ok (tot (squares mul (elements v))).
Proof.
  intros He Hz Hj E. rewrite (eval_assign junk N e He) in E.
  pose proof (assign_zero_padding w zero Hw asserts N (fresh N junk) e v eq_refl Hj He Hz E) as HZ.
  destruct (assign_elements w asserts Hw N (fresh N junk) e v eq_refl Hj He E) as (H1 & H2 & _).
  split.
  - rewrite (ssum_spec w zero one add mul Hw SR) by assumption.
    rewrite (tot_zero_list zero one add mul SR _ HZ). f_equal. ring.
  - rewrite (ssum2_spec w zero one add mul Hw SR) by assumption.
    rewrite (tot_zero_list zero one add mul SR _ (squares_zero zero one add mul SR _ HZ)). f_equal. ring.
Qed.
End Reductions.

Section Cross.
Context {A : Type} (w : nat) (asserts : bool) (zero one : A) (add mul sub : A -> A -> A) (opp : A -> A).
Hypothesis Hw : 0 < w.
Hypothesis RT : ring_theory zero one add mul sub opp eq.
Add Ring Ar3 : RT.

Lemma value_eat N (e : expr A) i a : good w N e -> i < N -> value e i = Some a -> eat asserts e i = Ok a.
Proof.
  intros He Hi Hv. pose proof (eat_value w asserts Hw N e i He Hi) as H. rewrite Hv in H.
  destruct (eat asserts e i); congruence.
Qed.

Lemma cross_spec (junk : list A) a b x1 y1 z1 x2 y2 z2 :
  conforming w 3 a -> conforming w 3 b -> length junk = packets w 3 * w ->
  value a 0 = Some x1 -> value a 1 = Some y1 -> value a 2 = Some z1 ->
  value b 0 = Some x2 -> value b 1 = Some y2 -> value b 2 = Some z2 ->
  exists v, cross asserts mul sub junk a b = Ok v /\ dims v = 3 /\ storage w v /\
    elements v = [sub (mul y1 z2) (mul z1 y2); sub (mul z1 x2) (mul x1 z2); sub (mul x1 y2) (mul y1 x2)].
Proof.
  intros [Ha Na] [Hb Nb] Hj X1 Y1 Z1 X2 Y2 Z2. unfold cross.
  rewrite (good_edims w 3 a Ha Na), (good_edims w 3 b Hb Nb).
  replace (asserts && negb _)%bool with false by (cbn; now rewrite andb_false_r).
  rewrite (value_eat 3 a 0 x1), (value_eat 3 a 1 y1), (value_eat 3 a 2 z1) by (auto; lia).
  rewrite (value_eat 3 b 0 x2), (value_eat 3 b 1 y2), (value_eat 3 b 2 z2) by (auto; lia).
  cbn [bind].
  set (args := [_; _; _]).
  destruct (of_list_spec w asserts Hw 3 junk args Hj) as (v & E & _); [cbn; lia|].
  exists v. split; [exact E|]. now apply (of_list_elements w asserts Hw 3 junk args v Hj).
Qed.

Lemma cross_orthogonal x1 y1 z1 x2 y2 z2 :
  let c := [sub (mul y1 z2) (mul z1 y2); sub (mul z1 x2) (mul x1 z2); sub (mul x1 y2) (mul y1 x2)] in
  total_of zero add (products mul c [x1; y1; z1]) = zero
  /\ total_of zero add (products mul c [x2; y2; z2]) = zero.
Proof. cbn. split; ring. Qed.
Lemma cross_identities f0 f1 f2 g0 g1 g2 :
  let c := [sub (mul f1 g2) (mul f2 g1); sub (mul f2 g0) (mul f0 g2); sub (mul f0 g1) (mul f1 g0)] in
  let c' := [sub (mul g1 f2) (mul g2 f1); sub (mul g2 f0) (mul g0 f2); sub (mul g0 f1) (mul g1 f0)] in
  let product l h := total_of zero add (products mul l h) in
  product c [f0; f1; f2] = zero /\ product c [g0; g1; g2] = zero /\ c' = map opp c /\
  add (total_of zero add (squares mul c))
      (mul (product [f0; f1; f2] [g0; g1; g2]) (product [f0; f1; f2] [g0; g1; g2])) =
  mul (product [f0; f1; f2] [f0; f1; f2]) (product [g0; g1; g2] [g0; g1; g2]).
Proof. cbn. repeat split; try ring. repeat (f_equal; try ring). Qed.
End Cross.

Section Normal.
Local Open Scope R_scope.

Lemma tot_div (l : list R) m : m <> 0 ->
  total_of 0 Rplus (map (fun x => x / m * (x / m)) l) = total_of 0 Rplus (squares Rmult l) / (m * m).
Proof.
  intros Hm. unfold total_of, squares. induction l as [|x l IH]; cbn; [field; exact Hm|].
  rewrite IH. field. exact Hm.
Qed.
Lemma tot_squares_nonneg (l : list R) : 0 <= total_of 0 Rplus (squares Rmult l).
Proof.
  unfold total_of, squares. induction l as [|x l IH]; cbn; [lra|].
  pose proof (Rle_0_sqr x) as H. unfold Rsqr in H. lra.
Qed.
Lemma tot_squares_pos (l : list R) x : In x l -> x <> 0 -> 0 < total_of 0 Rplus (squares Rmult l).
Proof.
  unfold total_of, squares. induction l as [|y l IH]; cbn; [easy|]. intros [->|Hin] Hx.
  - pose proof (tot_squares_nonneg l) as H. unfold total_of, squares in H.
    assert (0 < x * x) by (apply Rsqr_pos_lt in Hx; exact Hx). lra.
  - pose proof (Rle_0_sqr y) as H. unfold Rsqr in H. specialize (IH Hin Hx). lra.
Qed.


Lemma R_semiring : semi_ring_theory 0 1 Rplus Rmult eq.
Proof. constructor; intros; ring. Qed.
Lemma norm_unit (w : nat) asserts N (junk junk' : list R) e f :
  (0 < w)%nat -> conforming w N e -> Nat.divide w N -> length junk = (packets w N * w)%nat ->
  length junk' = (packets w N * w)%nat -> values e N f -> (exists i, (i < N)%nat /\ f i <> 0) ->
  exists v, norm w asserts 0 Rplus Rmult Rdiv sqrt junk junk' e = Ok v /\ dims v = N /\
    storage w v /\
    total_of 0 Rplus (squares Rmult (elements v)) = 1 /\
    exists m, 0 < m /\ forall i, (i < N)%nat -> nth_error (elements v) i = Some (f i / m).
Proof.
  intros Hw He Hd Hj Hj' Hv (i0 & Hi0 & Hf0). pose proof R_semiring as SR. unfold norm.
  rewrite (mag2_aligned w asserts 0 1 Rplus Rmult Hw SR junk N e f He Hd Hj Hv). cbn [bind].
  set (s := total_of 0 Rplus (map (fun i => f i * f i) (seq 0 N))).
  assert (Hs : 0 < s).
  { unfold s. rewrite <- (map_map f (fun x => x * x)). apply (tot_squares_pos _ (f i0)); [|exact Hf0].
    apply in_map, in_seq. lia. }
  set (e' := Bin _ e (K (sqrt s))).
  assert (He' : conforming w N e').
  { destruct He as [H1 H2]. split; [split; [exact H1|exact I]|]. cbn. now destruct (edims e). }
  assert (Hv' : values e' N (fun i => f i / sqrt s)).
  { intros i Hi. cbn. now rewrite (Hv i Hi). }
  rewrite (eval_assign w asserts junk' N e' He').
  destruct (proj2 (assign_Ok_aligned w asserts Hw N (fresh N junk') e' eq_refl Hj' He' Hd)) as [v E].
  { intros i Hi. eauto. }
  exists v. split; [exact E|].
  destruct (assign_elements w asserts Hw N (fresh N junk') e' v eq_refl Hj' He' E) as (H1 & H2 & H3).
  split; [exact H1|]. split; [exact H2|]. split.
  - rewrite (value_some_ext w asserts Hw N e' _ He' Hv' v H1 H2 H3). unfold squares at 1. rewrite map_map.
    rewrite <- (map_map f (fun x => x / sqrt s * (x / sqrt s))).
    assert (Hq : sqrt s <> 0) by (apply Rgt_not_eq, sqrt_lt_R0, Hs).
    rewrite tot_div by exact Hq.
    rewrite sqrt_sqrt by lra. unfold squares. rewrite map_map. fold s. field. lra.
  - exists (sqrt s). split; [now apply sqrt_lt_R0|]. intros i Hi. rewrite (proj1 (H3 i Hi)). now apply Hv'.
Qed.
Lemma polar_length (w : nat) (asserts : bool) (junk2 junk3 : list R) (r theta phi : R) :
  (0 < w)%nat -> length junk2 = (packets w 2 * w)%nat -> length junk3 = (packets w 3 * w)%nat ->
  (exists v, fromPolar2 asserts Rmult cos sin junk2 r theta = Ok v /\ dims v = 2%nat /\ storage w v /\
     total_of 0 Rplus (squares Rmult (elements v)) = r * r) /\
  (exists v, fromPolar3 asserts Rmult cos sin junk3 r theta phi = Ok v /\ dims v = 3%nat /\ storage w v /\
     total_of 0 Rplus (squares Rmult (elements v)) = r * r).
Proof.
  intros Hw H2 H3.
  pose proof (sin2_cos2 theta) as T. pose proof (sin2_cos2 phi) as P. unfold Rsqr in T, P. split.
  - unfold fromPolar2. set (args := [_; _]).
    destruct (of_list_spec w asserts Hw 2 junk2 args H2) as (v & E & _); [cbn; lia|].
    destruct (of_list_elements w asserts Hw 2 junk2 args v H2 eq_refl E) as (D & St & El).
    exists v. split; [exact E|]. split; [exact D|]. split; [exact St|].
    rewrite El. unfold args. cbn.
    transitivity (r * r * (sin theta * sin theta + cos theta * cos theta)); [ring|]. rewrite T. ring.
  - unfold fromPolar3. set (args := [_; _; _]).
    destruct (of_list_spec w asserts Hw 3 junk3 args H3) as (v & E & _); [cbn; lia|].
    destruct (of_list_elements w asserts Hw 3 junk3 args v H3 eq_refl E) as (D & St & El).
    exists v. split; [exact E|]. split; [exact D|]. split; [exact St|].
    rewrite El. unfold args. cbn.
    transitivity (r * r * ((sin theta * sin theta + cos theta * cos theta) * (cos phi * cos phi) + sin phi * sin phi)); [ring|].
    rewrite T. transitivity (r * r * (sin phi * sin phi + cos phi * cos phi)); [ring|]. rewrite P. ring.
Qed.
End Normal.

Section Str.
Context {A : Type} (w : nat) (asserts : bool).
Hypothesis Hw : 0 < w.
Lemma str_spec (v : vec A) : storage w v -> forall x l, elements v = x :: l ->
  str asserts v = Ok (Open :: Elem x :: flat_map (fun y => [Comma; Elem y]) l ++ [Close]).
Proof.
  intros Hs x l Hx. unfold str.
  pose proof (elements_length w Hw v Hs) as HL. rewrite Hx in HL. cbn in HL.
  pose proof (packets_cover w Hw (dims v)) as Hc.
  edestruct (for_range_inv (fun k out => out = match k with O => [Open] | Datatypes.S k' =>
     Open :: Elem x :: flat_map (fun y => [Comma; Elem y]) (firstn k' l) ++ (if k =? dims v then [] else [Comma]) end))
    as (out & E & Ho).
  4: { rewrite E. cbn [bind]. rewrite Ho. rewrite <- HL. rewrite Nat.eqb_refl, firstn_all, app_nil_r. reflexivity. }
  - lia.
  - intros i out Hi ->. unfold at_. destruct (Nat.ltb_spec i (dims v)); [|lia]. rewrite andb_false_r.
    assert (Hn : nth_error (cells v) i = nth_error (x :: l) i).
    { rewrite <- Hx. unfold elements. rewrite nth_error_firstn. now destruct (Nat.ltb_spec i (dims v)); [|lia]. }
    unfold rd. rewrite Hn. destruct i as [|i]; cbn [nth_error bind].
    + eexists. split; [reflexivity|]. cbn [firstn flat_map app].
      destruct (Nat.eqb_spec 0 (dims v - 1)), (Nat.eqb_spec 1 (dims v)); try lia; reflexivity.
    + destruct (nth_error l i) as [y|] eqn:Ey.
      2: { apply nth_error_None in Ey. lia. }
      cbn [bind]. eexists. split; [reflexivity|].
      destruct (Nat.eqb_spec (Datatypes.S i) (dims v)); [lia|].
      assert (Hf : firstn (Datatypes.S i) l = firstn i l ++ [y]).
      { clear - Ey. revert i Ey. induction l as [|z l IH]; intros [|i] Ey; cbn in *; try discriminate.
        - congruence.
        - rewrite <- IH by assumption. reflexivity. }
      rewrite Hf, flat_map_app. cbn [flat_map]. rewrite app_nil_r. cbn [app]. rewrite <- !app_assoc. cbn [app].
      destruct (Nat.eqb_spec (Datatypes.S i) (dims v - 1)), (Nat.eqb_spec (Datatypes.S (Datatypes.S i)) (dims v)); try lia; reflexivity.
  - reflexivity.
Qed.
End Str.
