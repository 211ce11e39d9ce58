(** Lemmas about the shared vocabulary. *)
From Verif Require Import Base.

Lemma upd_length {A} (m : list A) i a : length (upd m i a) = length m.
Proof. revert i; induction m as [|h t IH]; intros [|i]; cbn; auto. Qed.

Lemma nth_error_upd {A} (m : list A) i j a :
  nth_error (upd m i a) j = if (i =? j) && (i <? length m) then Some a else nth_error m j.
Proof.
  revert i j; induction m as [|h t IH]; intros i j.
  - cbn [upd length]. replace (i <? 0) with false by lia. rewrite andb_false_r. reflexivity.
  - destruct i as [|i], j as [|j]; cbn [upd nth_error length]; auto.
    rewrite IH. reflexivity.
Qed.

Lemma nth_upd {A} (m : list A) i j a d :
  nth j (upd m i a) d = if (i =? j) && (i <? length m) then a else nth j m d.
Proof.
  pose proof (nth_error_upd m i j a) as H.
  destruct (nth_error (upd m i a) j) eqn:E1.
  - erewrite (nth_error_nth (upd m i a)); [|exact E1].
    destruct ((i =? j) && (i <? length m)); [congruence|].
    symmetry. apply nth_error_nth. congruence.
  - rewrite (nth_overflow (upd m i a)) by (apply nth_error_None; auto).
    destruct ((i =? j) && (i <? length m)); [discriminate|].
    rewrite nth_overflow; auto. apply nth_error_None. congruence.
Qed.

Lemma rd_Ok {A} (m : list A) i d : i < length m -> rd m i = Ok (nth i m d).
Proof. intros H. unfold rd. rewrite (nth_error_nth' m d H). reflexivity. Qed.

Lemma rd_UB {A} (m : list A) i : length m <= i -> rd m i = UB.
Proof. intros H. unfold rd. rewrite (proj2 (nth_error_None m i) H). reflexivity. Qed.

Lemma wr_Ok {A} (m : list A) i a : i < length m -> wr m i a = Ok (upd m i a).
Proof. intros H. unfold wr. destruct (Nat.ltb_spec i (length m)); [reflexivity|lia]. Qed.

Lemma wr_UB {A} (m : list A) i a : length m <= i -> wr m i a = UB.
Proof. intros H. unfold wr. destruct (Nat.ltb_spec i (length m)); [lia|reflexivity]. Qed.

Lemma for_from_inv {S} (P : nat -> S -> Prop) body n : forall lo s,
  (forall i s, lo <= i < lo + n -> P i s -> exists s', body i s = Ok s' /\ P (Datatypes.S i) s') ->
  P lo s -> exists s', for_from n lo body s = Ok s' /\ P (lo + n) s'.
Proof.
  induction n as [|n IH]; intros lo s Hb HP; cbn.
  - exists s. rewrite Nat.add_0_r. auto.
  - destruct (Hb lo s ltac:(lia) HP) as (s1 & E1 & H1). rewrite E1; cbn.
    destruct (IH (Datatypes.S lo) s1) as (s2 & E2 & H2); auto.
    + intros; apply Hb; auto; lia.
    + exists s2. replace (lo + Datatypes.S n) with (Datatypes.S lo + n) by lia. auto.
Qed.

Lemma for_range_inv {S} (P : nat -> S -> Prop) body lo hi s :
  lo <= hi ->
  (forall i s, lo <= i < hi -> P i s -> exists s', body i s = Ok s' /\ P (Datatypes.S i) s') ->
  P lo s -> exists s', for_range lo hi body s = Ok s' /\ P hi s'.
Proof.
  intros Hle Hb HP. unfold for_range.
  destruct (for_from_inv P body (hi - lo) lo s) as (s' & E & H); auto.
  - intros; apply Hb; auto; lia.
  - exists s'. replace (lo + (hi - lo)) with hi in H by lia. auto.
Qed.

Lemma for_range_empty {S} lo hi body (s : S) : hi <= lo -> for_range lo hi body s = Ok s.
Proof. intros. unfold for_range. replace (hi - lo) with 0 by lia. reflexivity. Qed.

Lemma for_down_n_inv {S} (P : nat -> S -> Prop) lo body n : forall s,
  (forall i s, lo <= i < lo + n -> P (Datatypes.S i) s -> exists s', body i s = Ok s' /\ P i s') ->
  P (lo + n) s -> exists s', for_down_n n lo body s = Ok s' /\ P lo s'.
Proof.
  induction n as [|n IH]; intros s Hb HP; cbn.
  - exists s. rewrite Nat.add_0_r in HP. auto.
  - destruct (Hb (lo + n) s ltac:(lia)) as (s1 & E1 & H1).
    { replace (Datatypes.S (lo + n)) with (lo + Datatypes.S n) by lia. exact HP. }
    rewrite E1; cbn. apply IH; auto. intros; apply Hb; auto; lia.
Qed.

Lemma for_down_inv {S} (P : nat -> S -> Prop) body hi lo s :
  lo <= hi ->
  (forall i s, lo <= i < hi -> P (Datatypes.S i) s -> exists s', body i s = Ok s' /\ P i s') ->
  P hi s -> exists s', for_down hi lo body s = Ok s' /\ P lo s'.
Proof.
  intros Hle Hb HP. unfold for_down. apply for_down_n_inv.
  - intros; apply Hb; auto; lia.
  - replace (lo + (hi - lo)) with hi by lia. exact HP.
Qed.

Lemma for_down_empty {S} lo hi body (s : S) : hi <= lo -> for_down hi lo body s = Ok s.
Proof. intros. unfold for_down. replace (hi - lo) with 0 by lia. reflexivity. Qed.

Lemma for_list_app {I S} (l1 l2 : list I) body (s : S) :
  for_list (l1 ++ l2) body s = bind (for_list l1 body s) (for_list l2 body).
Proof.
  revert s; induction l1 as [|a l1 IH]; intros s; cbn; auto.
  destruct (body a s); cbn; auto.
Qed.

Lemma for_from_list {S} n i body (s : S) : for_from n i body s = for_list (seq i n) body s.
Proof.
  revert i s; induction n as [|n IH]; intros i s; cbn; auto.
  destruct (body i s); cbn; auto.
Qed.

Lemma for_range_list {S} lo hi body (s : S) :
  for_range lo hi body s = for_list (seq lo (hi - lo)) body s.
Proof. apply for_from_list. Qed.

Lemma list_eq_nth {A} (d : A) (l1 l2 : list A) :
  length l1 = length l2 -> (forall i, i < length l1 -> nth i l1 d = nth i l2 d) -> l1 = l2.
Proof. intros H1 H2. exact (nth_ext l1 l2 d d H1 H2). Qed.
