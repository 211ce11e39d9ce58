From Coq Require Import ZArith Lia.
From Verif Require Import Base SelectModel SelectSpec.

Notation scan := (fold_left (fun (s : option device * Z) d => if (snd s <? score d)%Z then (Some d, score d) else s)).
Lemma scan_spec ds : forall o z, let r := scan ds (o, z) in
  (r = (o, z) /\ forall x, In x ds -> (score x <= z)%Z) \/
  (exists d, r = (Some d, score d) /\ (z < score d)%Z /\ first_best ds d).
Proof.
  induction ds as [|d ds IH]; intros o z; cbn [fold_left snd].
  - left. split; auto. intros x [].
  - destruct (z <? score d)%Z eqn:E.
    + apply Z.ltb_lt in E. destruct (IH (Some d) (score d)) as [(-> & H)|(x & -> & Hx & before & after & -> & Hb & Ha)].
      * right. exists d. split; auto. split; auto. exists [], ds. split; auto. split; [intros x []|auto].
      * right. exists x. split; auto. split; [lia|]. exists (d :: before), after. split; auto. split; auto. intros y [<-|Hy]; auto.
    + apply Z.ltb_ge in E. destruct (IH o z) as [(-> & H)|(x & -> & Hx & before & after & -> & Hb & Ha)].
      * left. split; auto. intros x [<-|Hx]; auto.
      * right. exists x. split; auto. split; [lia|]. exists (d :: before), after. split; auto. split; auto. intros y [<-|Hy]; [lia|auto].
Qed.
Lemma update_filter platforms : forall known, update_devices known platforms = known ++ filter works (concat platforms).
Proof.
  unfold update_devices.
  assert (I : forall ds acc, fold_left (fun acc d => if works d then acc ++ [d] else acc) ds acc = acc ++ filter works ds).
  { induction ds as [|d ds IH]; intros acc; cbn [fold_left filter]; [now rewrite app_nil_r|]. rewrite IH. destruct (works d); auto.
    now rewrite <- app_assoc. }
  induction platforms as [|p ps IH]; intros known; cbn [fold_left concat]; [cbn; now rewrite app_nil_r|].
  rewrite IH, I, filter_app, app_assoc. reflexivity.
Qed.
Lemma prompt_spec ds input d : prompt ds input = Some d ->
  exists i, In i input /\ (0 <= i)%Z /\ nth_error ds (Z.to_nat i) = Some d.
Proof.
  induction input as [|i r IH]; cbn [prompt]; [discriminate|]. destruct ((i <? 0)%Z || _) eqn:E.
  - intros H. destruct (IH H) as (j & Hj & R). exists j. split; [now right|auto].
  - intros H. apply Bool.orb_false_iff in E. destruct E as (E & _). apply Z.ltb_ge in E. exists i. split; [now left|auto].
Qed.
Lemma prompt_first ds bad i rest d : (forall x, In x bad -> (x < 0 \/ Z.of_nat (length ds) <= x)%Z) -> (0 <= i)%Z -> nth_error ds (Z.to_nat i) = Some d ->
  prompt ds (bad ++ i :: rest) = Some d.
Proof.
  intros Hb Hi Hd. induction bad as [|x bad IH]; cbn [app prompt].
  - assert (Z.to_nat i < length ds) by (apply nth_error_Some; congruence).
    replace (i <? 0)%Z with false by (symmetry; apply Z.ltb_ge; lia). replace (Z.of_nat (length ds) <=? i)%Z with false by (symmetry; apply Z.leb_gt; lia).
    exact Hd.
  - destruct (Hb x (or_introl eq_refl)) as [H|H].
    + replace (x <? 0)%Z with true by (symmetry; now apply Z.ltb_lt). cbn. apply IH. intros; apply Hb; now right.
    + replace (Z.of_nat (length ds) <=? x)%Z with true by (symmetry; now apply Z.leb_le). rewrite Bool.orb_true_r. apply IH. intros; apply Hb; now right.
Qed.
Lemma score_nonneg d : reported d -> (0 <= score d)%Z.
Proof.
  intros (Hu & Hc & Hm). unfold score. pose proof (Z.mod_pos_bound (units d * clock d) (2 ^ 32) ltac:(lia)).
  pose proof (Z.div_pos (memory d) (1024 * 1024) ltac:(lia) ltac:(lia)). destruct (is_gpu d), (is_nvidia d); lia.
Qed.
