(** Proofs about formatTime and Timer. *)
From Coq Require Import Reals Lra List Sorted Lia.
From Verif Require Import Base TimeModel TimeSpec.
Import ListNotations.
Local Open Scope R_scope.

(** formatTime *)
Fixpoint product (ds : list R) : R := match ds with [] => 1 | d :: ds' => d * product ds' end.

Section Format.
Variable rnd : R -> R.
Variable eps : R.
Hypothesis Heps : 0 <= eps <= 1.
Hypothesis Hr : rounds_within eps rnd.

Lemma rnd_pos y : 0 <= y -> (1 - eps) * y <= rnd y <= (1 + eps) * y.
Proof.
  intros Hy. pose proof (Hr y) as H. rewrite (Rabs_pos_eq y Hy) in H.
  unfold Rabs in H. destruct (Rcase_abs _) in H; lra.
Qed.

Lemma product_pos ds : Forall (fun d => 0 < d) ds -> 0 < product ds.
Proof. induction 1; cbn; [lra|]. now apply Rmult_lt_0_compat. Qed.
Lemma pow_pos1 k : 1 <= (1 + eps) ^ k.
Proof. apply pow_R1_Rle. lra. Qed.
Lemma pow_small k : 0 <= (1 - eps) ^ k.
Proof. apply pow_le. lra. Qed.

Lemma units_spec ds : forall ps ns, length ps = length ds -> Forall (fun d => 0 < d) ds -> ds <> [] ->
  ns * (1 + eps) ^ length ds < product ds ->
  exists k x p, units rnd ps ds ns = (x, p) /\ nth_error ps k = Some p /\ (k < length ds)%nat
    /\ x < nth k ds 0
    /\ (k = 0%nat -> x = ns)
    /\ (k <> 0%nat -> 0 < ns /\ 1 - eps <= x
        /\ (1 - eps) ^ k * ns <= x * product (firstn k ds) <= (1 + eps) ^ k * ns).
Proof.
  induction ds as [|d ds IH]; intros [|p ps] ns HL HF Hne HB; try discriminate; [congruence|].
  cbn [units]. inversion HF as [|d' ds' Hd HF']; subst. cbn in HL. injection HL as HL.
  destruct (Rlt_dec ns d) as [Hlt|Hge].
  - exists 0%nat, ns, p. repeat split; auto; try (cbn; lia); congruence.
  - apply Rnot_lt_le in Hge.
    assert (Hns : 0 < ns) by lra.
    assert (Hq : 1 <= ns / d).
    { apply (Rmult_le_reg_r d); [exact Hd|]. unfold Rdiv. rewrite Rmult_assoc, Rinv_l; lra. }
    pose proof (rnd_pos (ns / d) ltac:(lra)) as [R1 R2].
    assert (Hx1 : 1 - eps <= rnd (ns / d)).
    { apply Rle_trans with ((1 - eps) * (ns / d)); [|exact R1].
      rewrite <- (Rmult_1_r (1 - eps)) at 1. apply Rmult_le_compat_l; lra. }
    cbn [length pow product] in HB.
    assert (Hds : ds <> []).
    { intros ->. cbn in HB. assert (ns <= ns * ((1 + eps) * 1)); [|lra].
      rewrite <- (Rmult_1_r ns) at 1. apply Rmult_le_compat_l; lra. }
    pose proof (pow_pos1 (length ds)) as Hp1.
    assert (HB' : rnd (ns / d) * (1 + eps) ^ length ds < product ds).
    { apply Rle_lt_trans with ((1 + eps) * (ns / d) * (1 + eps) ^ length ds).
      - apply Rmult_le_compat_r; lra.
      - apply (Rmult_lt_reg_l d); [exact Hd|].
        apply Rle_lt_trans with (ns * ((1 + eps) * (1 + eps) ^ length ds)); [|exact HB].
        right. field. lra. }
    destruct (IH ps (rnd (ns / d)) HL HF' Hds HB') as (k & x & q & E & Hp & Hk & Hx & H0 & H1).
    exists (S k), x, q. split; [exact E|]. split; [exact Hp|]. split; [cbn; lia|]. split; [exact Hx|].
    split; [discriminate|]. intros _. split; [exact Hns|].
    destruct k as [|k].
    + rewrite (H0 eq_refl). split; [exact Hx1|]. cbn [firstn product pow]. rewrite !Rmult_1_r.
      split; (apply (Rmult_le_reg_r (/ d)); [now apply Rinv_0_lt_compat|]);
        rewrite (Rmult_assoc (rnd (ns / d))), Rinv_r, Rmult_1_r, Rmult_assoc by lra; assumption.
    + destruct (H1 ltac:(discriminate)) as (Hpos & Hx' & HL' & HU'). split; [exact Hx'|].
      change (firstn (S (S k)) (d :: ds)) with (d :: firstn (S k) ds). cbn [product].
      set (P := product (firstn (S k) ds)) in *.
      pose proof (pow_small (S k)) as Hs. pose proof (pow_pos1 (S k)) as Hb.
      split.
      * change ((1 - eps) ^ S (S k)) with ((1 - eps) * (1 - eps) ^ S k).
        replace (x * (d * P)) with (d * (x * P)) by ring.
        apply Rle_trans with (d * ((1 - eps) ^ S k * rnd (ns / d))); [|apply Rmult_le_compat_l; lra].
        apply Rle_trans with (d * ((1 - eps) ^ S k * ((1 - eps) * (ns / d)))).
        -- right. field. lra.
        -- apply Rmult_le_compat_l; [lra|]. apply Rmult_le_compat_l; [exact Hs|exact R1].
      * change ((1 + eps) ^ S (S k)) with ((1 + eps) * (1 + eps) ^ S k).
        replace (x * (d * P)) with (d * (x * P)) by ring.
        apply Rle_trans with (d * ((1 + eps) ^ S k * rnd (ns / d))); [apply Rmult_le_compat_l; lra|].
        apply Rle_trans with (d * ((1 + eps) ^ S k * ((1 + eps) * (ns / d)))).
        -- apply Rmult_le_compat_l; [lra|]. apply Rmult_le_compat_l; [lra|exact R2].
        -- right. field. lra.
Qed.

Lemma max_double : 2 ^ 1024 * 256 < product divisor.
Proof.
  unfold product, divisor. rewrite !pow_IZR, Rmult_1_r.
  repeat rewrite <- mult_IZR. apply IZR_lt. reflexivity.
Qed.

Lemma pow8 k : (k <= 7)%nat -> (1 + eps) ^ k <= (1 + eps) ^ 7 /\ (1 - eps) ^ 7 <= (1 - eps) ^ k.
Proof.
  intros Hk. split.
  - apply Rle_pow; [lra|exact Hk].
  - replace 7%nat with (k + (7 - k))%nat by lia. rewrite pow_add.
    rewrite <- (Rmult_1_r ((1 - eps) ^ k)) at 2. apply Rmult_le_compat_l; [apply pow_small|].
    apply Rle_trans with (1 ^ (7 - k)); [apply pow_incr; lra|rewrite pow1; lra].
Qed.

Lemma format_spec scale time x u :
  rnd (time * IZR scale) <= 2 ^ 1024 ->
  formatTime rnd scale time = (x, u) ->
  below_next u x /\ (u <> Ns -> 1 - eps <= x)
  /\ (u = Ns -> x = rnd (time * IZR scale))
  /\ (u <> Ns -> (1 - eps) ^ 7 * rnd (time * IZR scale) <= x * unit_size u <= (1 + eps) ^ 7 * rnd (time * IZR scale)).
Proof.
  intros Hb E. unfold formatTime in E. set (ns := rnd (time * IZR scale)) in *.
  destruct (units_spec divisor prefix ns) as (k & x' & p & E' & Hp & Hk & Hx & H0 & H1).
  - reflexivity.
  - unfold divisor. repeat constructor; try lra.
  - discriminate.
  - apply Rle_lt_trans with (2 ^ 1024 * 256); [|apply max_double].
    assert (Hp : 1 <= (1 + eps) ^ 8 <= 256).
    { split; [apply pow_pos1|]. apply Rle_trans with (2 ^ 8); [apply pow_incr; lra|simpl; lra]. }
    change (length divisor) with 8%nat.
    assert (H2 : 0 < 2 ^ 1024) by (apply pow_lt; lra).
    generalize dependent (2 ^ 1024). intros M HM HM0.
    destruct (Rle_dec 0 ns).
    + apply Rmult_le_compat; lra.
    + apply Rle_trans with 0; [|lra].
      assert (0 <= - ns * (1 + eps) ^ 8) by (apply Rmult_le_pos; lra). lra.
  - rewrite E in E'. injection E' as <- <-. change (length divisor) with 8%nat in Hk.
    unfold prefix in Hp. unfold divisor in Hx, H1.
    destruct k as [|k].
    + cbn in Hp. injection Hp as <-. cbn [nth] in Hx. rewrite (H0 eq_refl) in *.
      repeat split; auto; congruence.
    + destruct (H1 ltac:(discriminate)) as (Hpos & Hx1 & HL & HU).
      destruct (pow8 (S k) ltac:(lia)) as [B1 B2].
      assert (HL' : (1 - eps) ^ 7 * ns <= (1 - eps) ^ S k * ns) by (apply Rmult_le_compat_r; lra).
      assert (HU' : (1 + eps) ^ S k * ns <= (1 + eps) ^ 7 * ns) by (apply Rmult_le_compat_r; lra).
      generalize dependent ((1 - eps) ^ S k * ns). generalize dependent ((1 + eps) ^ S k * ns).
      intros U HU HU' L HL HL'.
      assert (G : u <> Ns /\ product (firstn (S k) [1000; 1000; 1000; 60; 60; 24; 365; 10 ^ 300]) = unit_size u /\ below_next u x).
      { clear - Hp Hx Hk. do 7 (destruct k as [|k]; [cbn in Hp; injection Hp as <-; cbn in Hx; cbn [firstn product unit_size below_next]; repeat split; auto; try discriminate; lra|]). lia. }
      destruct G as (G1 & G2 & G3). rewrite G2 in *.
      split; [exact G3|]. split; [auto|]. split; [congruence|]. intros _. lra.
Qed.
End Format.

(** Timer histories *)
Lemma began_snoc c h k now s :
  began c (h ++ [(k, now)]) s <-> if begins k then s = now else began c h s.
Proof.
  unfold began. destruct (begins k) eqn:Ek.
  - split.
    + intros [(h1 & k' & h2 & E & Hk & Hn)|[_ Hn]].
      * destruct h2 as [|x h2] using rev_ind.
        -- apply app_inj_tail in E. destruct E as [_ E]. congruence.
        -- change (h1 ++ (k', s) :: h2 ++ [x]) with (h1 ++ ((k', s) :: h2) ++ [x]) in E. rewrite app_assoc in E.
           apply app_inj_tail in E. destruct E as [_ <-].
           specialize (Hn (k, now)). cbn in Hn. rewrite Hn in Ek; [discriminate|]. apply in_or_app. cbn. auto.
      * specialize (Hn (k, now)). cbn in Hn. rewrite Hn in Ek; [discriminate|]. apply in_or_app. cbn. auto.
    + intros ->. left. exists h, k, []. repeat split; auto. intros x [].
  - split.
    + intros [(h1 & k' & h2 & E & Hk & Hn)|[Hs Hn]].
      * destruct h2 as [|x h2] using rev_ind.
        -- apply app_inj_tail in E. destruct E as [_ E]. congruence.
        -- change (h1 ++ (k', s) :: h2 ++ [x]) with (h1 ++ ((k', s) :: h2) ++ [x]) in E. rewrite app_assoc in E.
           apply app_inj_tail in E. destruct E as [-> _]. left. exists h1, k', h2. repeat split; auto.
           intros y Hy. apply Hn, in_or_app. auto.
      * right. split; [exact Hs|]. intros x Hx. apply Hn, in_or_app. auto.
    + intros [(h1 & k' & h2 & -> & Hk & Hn)|[Hs Hn]].
      * left. exists h1, k', (h2 ++ [(k, now)]). rewrite <- app_assoc. repeat split; auto.
        intros x Hx. apply in_app_or in Hx. destruct Hx as [Hx|[<-|[]]]; auto.
      * right. split; [exact Hs|]. intros x Hx. apply in_app_or in Hx. destruct Hx as [Hx|[<-|[]]]; auto.
Qed.
Lemma stopped_snoc h k now e :
  stopped (h ++ [(k, now)]) e <->
  if begins k then False else if is_stop k then e = now else stopped h e.
Proof.
  unfold stopped. split.
  - intros (h1 & h2 & E & Hn). destruct h2 as [|x h2] using rev_ind.
    + apply app_inj_tail in E. destruct E as [_ E]. injection E as -> ->. reflexivity.
    + change (h1 ++ (Stop, e) :: h2 ++ [x]) with (h1 ++ ((Stop, e) :: h2) ++ [x]) in E. rewrite app_assoc in E.
      apply app_inj_tail in E. destruct E as [-> <-].
      destruct (Hn (k, now)) as [H1 H2]; [apply in_or_app; cbn; auto|]. cbn in H1, H2. rewrite H1, H2.
      exists h1, h2. split; [reflexivity|]. intros y Hy. apply Hn, in_or_app. auto.
  - destruct (begins k) eqn:E1; [easy|]. destruct (is_stop k) eqn:E2.
    + intros ->. destruct k; try discriminate. exists h, []. split; [reflexivity|]. intros x [].
    + intros (h1 & h2 & -> & Hn). exists h1, (h2 ++ [(k, now)]). rewrite <- app_assoc. split; [reflexivity|].
      intros x Hx. apply in_app_or in Hx. destruct Hx as [Hx|[<-|[]]]; auto.
Qed.

Lemma targets_snoc h k now : targets_while_running (h ++ [(k, now)]) ->
  targets_while_running h /\ forall target, k = SetTarget target -> unstopped h.
Proof.
  intros H. split.
  - intros h1 tg n h2 ->. apply (H h1 tg n (h2 ++ [(k, now)])). now rewrite <- app_assoc.
  - intros tg ->. apply (H h tg now []). reflexivity.
Qed.

Lemma run_snoc t h x : run t (h ++ [x]) = step (run t h) x.
Proof. unfold run. now rewrite fold_left_app. Qed.

Lemma began_exists c h : exists s, began c h s.
Proof.
  induction h as [|[k now] h IH] using rev_ind.
  - exists c. right. split; [reflexivity|]. intros x [].
  - destruct (begins k) eqn:E.
    + exists now. apply began_snoc. now rewrite E.
    + destruct IH as [s Hs]. exists s. apply began_snoc. now rewrite E.
Qed.

Lemma fields c h :
  (forall s, began c h s -> m_start (run (construct c) h) = s) /\
  (forall e, stopped h e -> m_end (run (construct c) h) = e) /\
  (targets_while_running h -> unstopped h -> m_end (run (construct c) h) = -1).
Proof.
  induction h as [|[k now] h IH] using rev_ind.
  - split; [|split].
    + intros s [(h1 & k & h2 & E & _)|[-> _]]; [destruct h1; discriminate|reflexivity].
    + intros e (h1 & h2 & E & _). destruct h1; discriminate.
    + reflexivity.
  - rewrite run_snoc. destruct IH as (H1 & H2 & H3). split; [|split].
    + intros s Hs. apply began_snoc in Hs. destruct k; cbn in *; auto.
    + intros e He. apply stopped_snoc in He. destruct k; cbn in *; auto; easy.
    + intros Ht Hu. apply targets_snoc in Ht. destruct Ht as [Ht Hk].
      destruct k; cbn; auto.
      * exfalso. apply (Hu now). apply stopped_snoc. reflexivity.
      * apply H3; [exact Ht|]. now apply (Hk target).
      * apply H3; [exact Ht|]. intros e He. apply (Hu e). apply stopped_snoc. exact He.
Qed.

Lemma sorted_snoc (l : list R) x : Sorted Rle (l ++ [x]) -> Sorted Rle l /\ forall y, In y l -> y <= x.
Proof.
  intros H. apply Sorted_StronglySorted in H; [|intros a b d; apply Rle_trans].
  assert (G : StronglySorted Rle l /\ forall y, In y l -> y <= x).
  { induction l as [|a l IH]; cbn in *; [split; [constructor|easy]|].
    inversion H as [|a' l' Hs Hf]; subst. destruct (IH Hs) as [G1 G2].
    rewrite Forall_forall in Hf. split.
    - constructor; [exact G1|]. apply Forall_forall. intros y Hy. apply Hf, in_or_app. auto.
    - intros y [->|Hy]; auto. apply Hf, in_or_app. cbn. auto. }
  destruct G as [G1 G2]. split; [now apply StronglySorted_Sorted|exact G2].
Qed.

Lemma bounds c h now : 0 <= c -> Sorted Rle (c :: map snd h ++ [now]) -> targets_while_running h ->
  let t := run (construct c) h in
  c <= m_start t <= now /\ (m_end t = -1 \/ m_start t <= m_end t <= now).
Proof.
  intros Hc. revert now. induction h as [|[k r] h IH] using rev_ind; intros now Hs Ht.
  - cbn in *. inversion Hs as [|a l H1 H2]; subst. inversion H2; subst. split; [lra|now left].
  - rewrite map_app in Hs. cbn [map snd] in Hs. rewrite app_comm_cons in Hs.
    apply sorted_snoc in Hs. destruct Hs as [Hs Hle].
    assert (Hr : r <= now) by (apply Hle; right; apply in_or_app; cbn; auto).
    destruct (targets_snoc h k r Ht) as [Ht' Hk].
    destruct (IH r Hs Ht') as [B1 B2]. rewrite run_snoc.
    destruct (fields c h) as (_ & _ & F3).
    destruct k; cbn [step start stop reset setTargetTime isRunning snd m_start m_end] in *.
    + split; [lra|now left].
    + split; [lra|]. right. lra.
    + split; [lra|now left].
    + split; [lra|]. left. apply F3; [exact Ht'|now apply (Hk target)].
    + split; [lra|]. destruct B2 as [->|B2]; [now left|right; lra].
Qed.

Lemma elapsed_spec c h now s : 0 <= c -> Sorted Rle (c :: map snd h ++ [now]) -> targets_while_running h ->
  began c h s ->
  let t := run (construct c) h in
  (forall e, stopped h e -> elapsed now t = e - s) /\ (unstopped h -> elapsed now t = now - s)
  /\ 0 <= elapsed now t <= now - c.
Proof.
  intros Hc Hs Ht Hb t. destruct (fields c h) as (F1 & F2 & F3). fold t in F1, F2, F3.
  destruct (bounds c h now Hc Hs Ht) as [B1 B2]. fold t in B1, B2.
  unfold elapsed. rewrite (F1 s Hb) in *. split; [|split].
  - intros e He. specialize (F2 e He). destruct (Req_EM_T (m_end t) (-1)) as [E|]; [|congruence].
    exfalso. assert (0 <= e); [|lra].
    destruct He as (h1 & h2 & E' & _).
    assert (He : In e (map snd h)) by (rewrite E', map_app; apply in_or_app; right; now left).
    apply Sorted_extends in Hs; [|intros a b d; apply Rle_trans]. rewrite Forall_forall in Hs.
    assert (c <= e) by (apply Hs, in_or_app; auto). lra.
  - intros Hu. rewrite (F3 Ht Hu). destruct (Req_EM_T (-1) (-1)); [reflexivity|congruence].
  - destruct (Req_EM_T (m_end t) (-1)); [lra|]. destruct B2 as [E|B2]; [congruence|lra].
Qed.

(** The benchmark loop *)
Lemma isRunning_start now t : m_start (snd (isRunning now t)) = m_start t.
Proof. reflexivity. Qed.
Lemma loop_spec pre now post t :
  (forall r, In r pre -> r - m_start t < m_targetTime t) -> m_targetTime t <= now - m_start t ->
  loop (pre ++ now :: post) t =
  Some (length pre, mk (m_start t) (m_end t) (m_iters t + length pre + 1) (m_targetTime t)).
Proof.
  revert t. induction pre as [|r pre IH]; intros t Hpre Hnow; cbn [app loop isRunning].
  - destruct (Rlt_dec _ _); [lra|]. do 3 f_equal. cbn. lia.
  - destruct (Rlt_dec _ _) as [_|Hn]; [|exfalso; apply Hn, Hpre; now left].
    rewrite IH; cbn [m_start m_targetTime m_end m_iters].
    + do 3 f_equal. cbn. lia.
    + intros r' Hr'. apply Hpre. now right.
    + exact Hnow.
Qed.
Lemma loop_forever clock t :
  (forall r, In r clock -> r - m_start t < m_targetTime t) -> loop clock t = None.
Proof.
  revert t. induction clock as [|r clock IH]; intros t H; [reflexivity|]. cbn.
  destruct (Rlt_dec _ _) as [_|Hn]; [|exfalso; apply Hn, H; now left].
  rewrite IH; [reflexivity|]. intros r' Hr'. cbn. apply H. now right.
Qed.
Lemma sleep_spec time start clock r : sleep time start clock = Some r ->
  time <= r - start /\ exists pre post, clock = pre ++ r :: post /\ forall x, In x pre -> x - start < time.
Proof.
  induction clock as [|c clock IH]; cbn; [discriminate|]. destruct (Rlt_dec _ _) as [Hlt|Hge].
  - intros E. destruct (IH E) as (H1 & pre & post & -> & H2). split; [exact H1|].
    exists (c :: pre), post. split; [reflexivity|]. intros x [<-|Hx]; auto.
  - intros [= <-]. split; [lra|]. exists [], clock. split; [reflexivity|]. intros x [].
Qed.
