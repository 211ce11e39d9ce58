(** Proofs about random fills. *)
From Coq Require Import ZArith QArith Qround Lqa Lia.
From Verif Require Import Base BaseProofs RoundModel RoundProofs RandomModel RandomSpec RandomProofs FillModel FillSpec.
From Coq Require Import ZifyNat ZifyN ZifyBool.
Ltac Zify.zify_post_hook ::= idtac.
Local Open Scope nat_scope.

Lemma for_list_inv {I S} (P : S -> Prop) (body : I -> S -> outcome S) : forall l s, P s ->
  (forall i s, In i l -> P s -> exists s', body i s = Ok s' /\ P s') -> exists s', for_list l body s = Ok s' /\ P s'.
Proof.
  induction l as [|i l IH]; intros s Hs Hb; cbn [for_list]. eauto.
  destruct (Hb i s (or_introl eq_refl) Hs) as (s1 & E & P1). rewrite E. cbn [bind].
  apply IH; auto. intros j t Hj. apply Hb. now right.
Qed.
Lemma for_list_cons {I S} (body : I -> S -> outcome S) i l s : for_list (i :: l) body s = do s' <- body i s; for_list l body s'.
Proof. reflexivity. Qed.
Lemma flat_map_seq_S {B} (f : nat -> list B) a n : flat_map f (seq a (S n)) = flat_map f (seq a n) ++ f (a + n).
Proof. rewrite seq_S, flat_map_app. cbn. now rewrite app_nil_r. Qed.

Lemma slot_count_same q m : 0 < m -> (q + m - 1 - q mod m) / m = q / m.
Proof.
  intro H. pose proof (Nat.div_mod q m ltac:(lia)). pose proof (Nat.mod_upper_bound q m ltac:(lia)).
  symmetry. apply (Nat.div_unique _ m (q / m) (m - 1)); lia.
Qed.
Lemma slot_count_next q m : 0 < m -> (S (q + m) - 1 - q mod m) / m = S (q / m).
Proof.
  intro H. pose proof (Nat.div_mod q m ltac:(lia)). pose proof (Nat.mod_upper_bound q m ltac:(lia)).
  symmetry. apply (Nat.div_unique _ m (S (q / m)) 0); nia.
Qed.
Lemma slot_count_other q m r : 0 < m -> r < m -> r <> q mod m -> (S (q + m) - 1 - r) / m = (q + m - 1 - r) / m.
Proof.
  intros H Hr N. set (x := q + m - 1 - r). replace (S (q + m) - 1 - r) with (S x) by lia.
  pose proof (Nat.div_mod x m ltac:(lia)) as D. pose proof (Nat.mod_upper_bound x m ltac:(lia)) as B.
  assert (x mod m <> m - 1).
  { intro E. apply N. replace q with (r + m * (x / m)) by lia.
    rewrite (Nat.mul_comm m (x / m)), Nat.mod_add by lia. now rewrite Nat.mod_small. }
  symmetry. apply (Nat.div_unique _ m (x / m) (S (x mod m))); lia.
Qed.

Lemma of_threads_seq threads : of_threads threads (seq 0 threads).
Proof. apply Forall_forall. intros q Hq. apply in_seq in Hq. lia. Qed.
Lemma of_threads_flat threads f : (forall q, Forall (fun p => p = q) (f q)) -> of_threads threads (flat_map f (seq 0 threads)).
Proof.
  intro H. apply Forall_forall. intros q Hq. apply in_flat_map in Hq. destruct Hq as (p & Hp & Hf).
  apply in_seq in Hp. specialize (H p). rewrite Forall_forall in H. rewrite (H _ Hf). lia.
Qed.
Section Kernel.
Context {Sd G U V : Type}.
Variable start : Sd -> G.
Variable draw : G -> U * G.
Variable next_seed : G -> Sd.
Variable val : U -> V.
Variables (numSeeds elements threads : nat).
Local Notation kst := (kstate Sd G V).
Local Notation kstep := (kstep start draw next_seed val numSeeds elements threads).
Local Notation krun := (krun start draw next_seed val numSeeds elements threads).
Local Notation first := (first_number start draw).
Local Notation one := (seed_after_one start draw next_seed).
Local Notation none := (seed_after_none start next_seed).
Variables (d0 : V) (s0 : Sd).

(** where a number comes from: the k-th draw of some seed *)
Fixpoint after (k : nat) (g : G) : G := match k with O => g | S k => snd (draw (after k g)) end.
Definition number_of (u : U) : Prop := exists s k, u = fst (draw (after k (start s))).
Definition gen_of (g : G) : Prop := exists s k, g = after k (start s).

(** invariant of arbitrary schedules; element i belongs to thread i mod threads *)
Definition inv (data0 : list V) (st : kst) : Prop :=
  length (k_data st) = length data0 /\ length (k_seeds st) = numSeeds /\
  (forall i, elements <= i -> nth i (k_data st) d0 = nth i data0 d0) /\
  (forall q, q < threads ->
     match k_phase st q with
     | Waiting => True
     | Running g i => gen_of g /\ (exists c, i = q + c * threads) /\
                      forall c, q + c * threads < i -> q + c * threads < elements ->
                                exists u, number_of u /\ nth (q + c * threads) (k_data st) d0 = val u
     | Ended => forall c, q + c * threads < elements ->
                          exists u, number_of u /\ nth (q + c * threads) (k_data st) d0 = val u
     end).

Lemma kstep_inv data0 q st : 0 < numSeeds -> elements <= length data0 -> q < threads -> inv data0 st ->
  exists st', kstep q st = Ok st' /\ inv data0 st'.
Proof.
  intros Hm He Hq (Ld & Ls & Out & Ph). unfold FillModel.kstep.
  assert (Hs : q mod numSeeds < length (k_seeds st)) by (rewrite Ls; apply Nat.mod_upper_bound; lia).
  pose proof (Ph q Hq) as Pq. destruct (k_phase st q) as [|g i|] eqn:Eq.
  - rewrite (rd_Ok _ _ s0) by exact Hs. cbn [bind]. eexists. split. reflexivity.
    repeat split; cbn [k_data k_seeds k_phase]; auto.
    intros p Hp. unfold set_phase. destruct (Nat.eqb_spec p q) as [->|Npq]; [|now apply Ph].
    split. now exists (nth (q mod numSeeds) (k_seeds st) s0), 0. split. exists 0; lia. intros c Hc. nia.
  - destruct Pq as (Gq & (c0 & Ei) & Wq). destruct (Nat.ltb_spec i elements) as [Hi|Hi].
    + destruct (draw g) as [u g'] eqn:Eg. rewrite wr_Ok by lia. cbn [bind]. eexists. split. reflexivity.
      split; [|split; [|split]]; cbn [k_data k_seeds k_phase].
      * now rewrite upd_length.
      * exact Ls.
      * intros j Hj. rewrite nth_upd. replace (i =? j) with false by lia. now apply Out.
      * assert (Nu : number_of u). { destruct Gq as (s & k & ->). exists s, k. now rewrite Eg. }
        intros p Hp. unfold set_phase. destruct (Nat.eqb_spec p q) as [->|Npq].
        -- split. { destruct Gq as (s & k & E). exists s, (S k). cbn. now rewrite <- E, Eg. }
           split. { exists (S c0). lia. }
           intros c Hc Hce. destruct (Nat.eq_dec (q + c * threads) i) as [E|E].
           ++ exists u. split; auto. rewrite nth_upd. replace (i =? q + c * threads) with true by lia.
              now replace (i <? length (k_data st)) with true by lia.
           ++ assert (c <> c0) by congruence. assert (q + c * threads < i) by nia.
              rewrite nth_upd. replace (i =? q + c * threads) with false by lia. cbn [andb]. now apply Wq.
        -- pose proof (Ph p Hp) as Pp.
           assert (K : forall c, nth (p + c * threads) (upd (k_data st) i (val u)) d0 = nth (p + c * threads) (k_data st) d0 \/
                                 nth (p + c * threads) (upd (k_data st) i (val u)) d0 = val u).
           { intro c. rewrite nth_upd. destruct ((i =? p + c * threads) && (i <? length (k_data st))); auto. }
           assert (K2 : forall c, (exists v, number_of v /\ nth (p + c * threads) (k_data st) d0 = val v) ->
                                  exists v, number_of v /\ nth (p + c * threads) (upd (k_data st) i (val u)) d0 = val v).
           { intros c (v & Nv & Ev). destruct (K c) as [->| ->]; eauto. }
           destruct (k_phase st p); auto.
           ** destruct Pp as (A & B & C). split; [|split]; auto.
    + rewrite wr_Ok by exact Hs. cbn [bind]. eexists. split. reflexivity.
      split; [|split; [|split]]; cbn [k_data k_seeds k_phase]; auto.
      * now rewrite upd_length.
      * intros p Hp. unfold set_phase. destruct (Nat.eqb_spec p q) as [->|Npq]; [|now apply Ph].
        intros c Hc. apply Wq; lia.
  - eexists. split. reflexivity. split; [|split; [|split]]; auto.
Qed.

Lemma krun_ok data seeds sched : 0 < threads -> 0 < numSeeds -> length seeds = numSeeds -> elements <= length data ->
  of_threads threads sched ->
  exists st, krun data seeds sched = Ok st /\ length (k_data st) = length data /\ length (k_seeds st) = numSeeds /\
    (forall i, elements <= i -> nth i (k_data st) d0 = nth i data d0) /\
    (all_ended threads st -> forall i, i < elements -> exists u, number_of u /\ nth i (k_data st) d0 = val u).
Proof.
  intros Ht Hm Ls He Hsch.
  destruct (for_list_inv (inv data) kstep sched {| k_data := data; k_seeds := seeds; k_phase := fun _ => Waiting |})
    as (st & E & I).
  - split; [|split; [|split]]; cbn; auto.
  - intros q s Hq Is. apply kstep_inv; auto. exact (proj1 (Forall_forall _ _) Hsch _ Hq).
  - exists st. split. exact E. destruct I as (A & B & C & D). repeat split; auto.
    intros End i Hi. pose proof (Nat.mod_upper_bound i threads ltac:(lia)) as Hq.
    specialize (D _ Hq). rewrite (End _ Hq) in D. specialize (D (i / threads)).
    replace (i mod threads + i / threads * threads) with i in D by (pose proof (Nat.div_mod i threads); lia). auto.
Qed.

(** ** at least one thread per element *)
Definition inv2 (seeds0 : list Sd) (st : kst) : Prop :=
  length (k_seeds st) = numSeeds /\ elements <= length (k_data st) /\
  (forall r, r < numSeeds -> descends start draw next_seed (nth r seeds0 s0) (nth r (k_seeds st) s0)) /\
  (forall q, q < threads ->
     match k_phase st q with
     | Waiting => True
     | Running g i => exists s, descends start draw next_seed (nth (q mod numSeeds) seeds0 s0) s /\
         (i = q /\ g = start s \/
          i = q + threads /\ q < elements /\ g = snd (draw (start s)) /\ nth q (k_data st) d0 = val (first s))
     | Ended => q < elements -> exists s, descends start draw next_seed (nth (q mod numSeeds) seeds0 s0) s /\
                                          nth q (k_data st) d0 = val (first s)
     end).
Lemma kstep_inv2 seeds0 q st : 0 < numSeeds -> elements <= threads -> q < threads -> inv2 seeds0 st ->
  exists st', kstep q st = Ok st' /\ inv2 seeds0 st'.
Proof.
  intros Hm He Hq (Ls & Ld & Sd2 & Ph). unfold FillModel.kstep.
  assert (Hs : q mod numSeeds < numSeeds) by (apply Nat.mod_upper_bound; lia).
  pose proof (Ph q Hq) as Pq. destruct (k_phase st q) as [|g i|] eqn:Eq.
  - rewrite (rd_Ok _ _ s0) by lia. cbn [bind]. eexists. split. reflexivity.
    split; [|split; [|split]]; cbn [k_data k_seeds k_phase]; auto.
    intros p Hp. unfold set_phase. destruct (Nat.eqb_spec p q) as [->|Npq]; [|now apply Ph].
    exists (nth (q mod numSeeds) (k_seeds st) s0). split; auto.
  - destruct Pq as (s & Ds & Pq). destruct (Nat.ltb_spec i elements) as [Hi|Hi].
    + destruct Pq as [(-> & ->)|(-> & ? & ? & ?)]; [|lia].
      destruct (draw (start s)) as [u g'] eqn:Eg. rewrite wr_Ok by lia. cbn [bind]. eexists. split. reflexivity.
      split; [|split; [|split]]; cbn [k_data k_seeds k_phase]; auto.
      * now rewrite upd_length.
      * intros p Hp. unfold set_phase. destruct (Nat.eqb_spec p q) as [->|Npq].
        -- exists s. split; auto. right. rewrite Eg. repeat split; auto.
           rewrite nth_upd. rewrite Nat.eqb_refl. replace (q <? length (k_data st)) with true by lia. cbn.
           unfold first_number. now rewrite Eg.
        -- pose proof (Ph p Hp) as Pp. destruct (k_phase st p); auto; rewrite nth_upd; replace (q =? p) with false by lia; exact Pp.
    + rewrite wr_Ok by lia. cbn [bind]. eexists. split. reflexivity.
      split; [|split; [|split]]; cbn [k_data k_seeds k_phase]; auto.
      * now rewrite upd_length.
      * intros r Hr. rewrite nth_upd. destruct (Nat.eqb_spec (q mod numSeeds) r) as [<-|Nr].
        -- replace (q mod numSeeds <? length (k_seeds st)) with true by lia. cbn [andb].
           destruct Pq as [(-> & ->)|(-> & ? & -> & ?)].
           ++ exact (d_none _ _ _ _ _ Ds).
           ++ exact (d_one _ _ _ _ _ Ds).
        -- cbn [andb]. now apply Sd2.
      * intros p Hp. unfold set_phase. destruct (Nat.eqb_spec p q) as [->|Npq]; [|now apply Ph].
        intro Hqe. destruct Pq as [(-> & ->)|(-> & ? & ? & ?)]; [lia|]. eauto.
  - eexists. split. reflexivity. split; [|split; [|split]]; auto.
Qed.
Lemma krun_descends data seeds sched : 0 < numSeeds -> elements <= threads -> length seeds = numSeeds -> elements <= length data ->
  of_threads threads sched ->
  exists st, krun data seeds sched = Ok st /\
    (all_ended threads st -> forall i, i < elements ->
       exists s, descends start draw next_seed (nth (i mod numSeeds) seeds s0) s /\ nth i (k_data st) d0 = val (first s)).
Proof.
  intros Hm Ht Ls He Hsch.
  destruct (for_list_inv (inv2 seeds) kstep sched {| k_data := data; k_seeds := seeds; k_phase := fun _ => Waiting |})
    as (st & E & I).
  - split; [|split; [|split]]; cbn; auto. intros r Hr. apply d_self.
  - intros q s Hq Is. apply kstep_inv2; auto. exact (proj1 (Forall_forall _ _) Hsch _ Hq).
  - exists st. split. exact E. destruct I as (A & B & C & D).
    intros End i Hi. specialize (D i ltac:(lia)). rewrite (End i) in D by lia. auto.
Qed.

(** ** no two threads share a seed *)
Definition inv3 (seeds0 : list Sd) (st : kst) : Prop :=
  length (k_seeds st) = numSeeds /\ elements <= length (k_data st) /\
  (forall q, q < threads ->
     let s := nth q seeds0 s0 in
     match k_phase st q with
     | Waiting => nth q (k_seeds st) s0 = s
     | Running g i => i = q /\ g = start s \/
          i = q + threads /\ q < elements /\ g = snd (draw (start s)) /\ nth q (k_data st) d0 = val (first s)
     | Ended => (q < elements -> nth q (k_data st) d0 = val (first s)) /\
                nth q (k_seeds st) s0 = if q <? elements then one s else none s
     end).
Lemma kstep_inv3 seeds0 q st : threads <= numSeeds -> elements <= threads -> q < threads -> inv3 seeds0 st ->
  exists st', kstep q st = Ok st' /\ inv3 seeds0 st'.
Proof.
  intros Hm He Hq (Ls & Ld & Ph). unfold FillModel.kstep. rewrite Nat.mod_small by lia.
  pose proof (Ph q Hq) as Pq. cbv zeta in Pq. destruct (k_phase st q) as [|g i|] eqn:Eq.
  - rewrite (rd_Ok _ _ s0) by lia. cbn [bind]. eexists. split. reflexivity.
    split; [|split]; cbn [k_data k_seeds k_phase]; auto.
    intros p Hp. unfold set_phase. destruct (Nat.eqb_spec p q) as [->|Npq]; [|now apply Ph].
    left. now rewrite Pq.
  - destruct (Nat.ltb_spec i elements) as [Hi|Hi].
    + destruct Pq as [(-> & ->)|(-> & ? & ? & ?)]; [|lia].
      destruct (draw (start (nth q seeds0 s0))) as [u g'] eqn:Eg. rewrite wr_Ok by lia. cbn [bind]. eexists. split. reflexivity.
      split; [|split]; cbn [k_data k_seeds k_phase]; auto.
      * now rewrite upd_length.
      * intros p Hp. unfold set_phase. destruct (Nat.eqb_spec p q) as [->|Npq].
        -- right. rewrite Eg. repeat split; auto.
           rewrite nth_upd. rewrite Nat.eqb_refl. replace (q <? length (k_data st)) with true by lia. cbn.
           unfold first_number. now rewrite Eg.
        -- pose proof (Ph p Hp) as Pp. destruct (k_phase st p); auto; rewrite nth_upd; replace (q =? p) with false by lia; exact Pp.
    + rewrite wr_Ok by lia. cbn [bind]. eexists. split. reflexivity.
      split; [|split]; cbn [k_data k_seeds k_phase]; auto.
      * now rewrite upd_length.
      * intros p Hp. unfold set_phase. destruct (Nat.eqb_spec p q) as [->|Npq].
        -- rewrite nth_upd, Nat.eqb_refl. replace (q <? length (k_seeds st)) with true by lia. cbn [andb].
           destruct Pq as [(-> & ->)|(-> & Hqe & -> & Dq)].
           ++ split; [lia|]. now replace (q <? elements) with false by lia.
           ++ split; auto. now replace (q <? elements) with true by lia.
        -- pose proof (Ph p Hp) as Pp. destruct (k_phase st p); auto; rewrite nth_upd; replace (q =? p) with false by lia; exact Pp.
  - eexists. split. reflexivity. split; [|split]; auto.
Qed.
Lemma krun_small data seeds sched : threads <= numSeeds -> elements <= threads -> length seeds = numSeeds -> elements <= length data ->
  of_threads threads sched ->
  exists st, krun data seeds sched = Ok st /\
    (all_ended threads st ->
       (forall i, i < elements -> nth i (k_data st) d0 = val (first (nth i seeds s0))) /\
       (forall q, q < elements -> nth q (k_seeds st) s0 = one (nth q seeds s0))).
Proof.
  intros Hm Ht Ls He Hsch.
  destruct (for_list_inv (inv3 seeds) kstep sched {| k_data := data; k_seeds := seeds; k_phase := fun _ => Waiting |})
    as (st & E & I).
  - split; [|split]; cbn; auto.
  - intros q s Hq Is. apply kstep_inv3; auto. exact (proj1 (Forall_forall _ _) Hsch _ Hq).
  - exists st. split. exact E. destruct I as (A & B & D).
    intros End. split.
    + intros i Hi. specialize (D i ltac:(lia)). cbv zeta in D. rewrite (End i) in D by lia. now apply D.
    + intros i Hi. specialize (D i ltac:(lia)). cbv zeta in D. rewrite (End i) in D by lia. destruct D as [_ ->].
      now replace (i <? elements) with true by lia.
Qed.

(** ** all threads read their seed before any ends *)
Definition lockstep : list nat := seq 0 threads ++ flat_map (fun q => [q; q]) (seq 0 threads).
Lemma lockstep_read data seeds n : 0 < numSeeds -> length seeds = numSeeds -> n <= threads ->
  for_list (seq 0 n) kstep {| k_data := data; k_seeds := seeds; k_phase := fun _ => Waiting |} <> UB /\
  exists st, for_list (seq 0 n) kstep {| k_data := data; k_seeds := seeds; k_phase := fun _ => Waiting |} = Ok st /\
    k_data st = data /\ k_seeds st = seeds /\
    forall q, k_phase st q = if q <? n then Running (start (nth (q mod numSeeds) seeds s0)) q else Waiting.
Proof.
  intros Hm Ls. induction n as [|n IH]; intro Hn.
  - split; [discriminate|]. eexists. split. reflexivity. cbn. auto.
  - destruct IH as (_ & st & E & D & S & P); [lia|].
    assert (X : exists st, for_list (seq 0 (Datatypes.S n)) kstep {| k_data := data; k_seeds := seeds; k_phase := fun _ => Waiting |} = Ok st /\
      k_data st = data /\ k_seeds st = seeds /\
      forall q, k_phase st q = if q <? Datatypes.S n then Running (start (nth (q mod numSeeds) seeds s0)) q else Waiting).
    { rewrite seq_S, for_list_app, E. cbn [bind Nat.add]. rewrite for_list_cons. unfold FillModel.kstep at 1.
      rewrite P. replace (n <? n) with false by lia. rewrite S.
      rewrite (rd_Ok _ _ s0) by (rewrite Ls; apply Nat.mod_upper_bound; lia). cbn [bind for_list].
      eexists. split. reflexivity. cbn [k_data k_seeds k_phase]. split; [|split]; auto.
      intro q. unfold set_phase. destruct (Nat.eqb_spec q n) as [->|Nq]; [now replace (n <? Datatypes.S n) with true by lia|].
      rewrite P. destruct (Nat.ltb_spec q n), (Nat.ltb_spec q (Datatypes.S n)); auto; lia. }
    split; auto. destruct X as (s & -> & _). discriminate.
Qed.
Lemma lockstep_finish data seeds n : 0 < numSeeds -> length seeds = numSeeds -> elements <= threads -> elements <= length data -> n <= threads ->
  exists st, for_list (seq 0 threads ++ flat_map (fun q => [q; q]) (seq 0 n)) kstep
      {| k_data := data; k_seeds := seeds; k_phase := fun _ => Waiting |} = Ok st /\
    length (k_data st) = length data /\ length (k_seeds st) = numSeeds /\
    (forall i, i < elements -> i < n -> nth i (k_data st) d0 = val (first (nth (i mod numSeeds) seeds s0))) /\
    forall q, q < threads -> k_phase st q = if q <? n then Ended else Running (start (nth (q mod numSeeds) seeds s0)) q.
Proof.
  intros Hm Ls He Hd. induction n as [|n IH]; intro Hn.
  - destruct (lockstep_read data seeds threads Hm Ls (le_n _)) as (_ & st & E & D & S & P).
    exists st. cbn [seq flat_map]. rewrite app_nil_r. split; auto. rewrite D, S. split; [|split; [|split]]; auto. lia.
    intros q Hq. rewrite P. now replace (q <? threads) with true by lia.
  - destruct IH as (st & E & Ld & Lsd & D & P); [lia|].
    rewrite flat_map_seq_S, app_assoc, for_list_app, E. cbn [bind Nat.add].
    assert (Hs : n mod numSeeds < numSeeds) by (apply Nat.mod_upper_bound; lia).
    rewrite for_list_cons. unfold FillModel.kstep at 1. rewrite P by lia. replace (n <? n) with false by lia.
    destruct (Nat.ltb_spec n elements) as [Hne|Hne].
    + destruct (draw (start (nth (n mod numSeeds) seeds s0))) as [u g] eqn:Eg. rewrite wr_Ok by lia. cbn [bind].
      rewrite for_list_cons. unfold FillModel.kstep at 1. cbn [k_data k_seeds k_phase].
      unfold set_phase at 1. rewrite Nat.eqb_refl. replace (n + threads <? elements) with false by lia.
      rewrite wr_Ok by lia. cbn [bind for_list]. eexists. split. reflexivity. cbn [k_data k_seeds k_phase].
      split; [|split; [|split]]; rewrite ?upd_length; auto.
      * intros i Hi Hin. rewrite nth_upd. destruct (Nat.eqb_spec n i) as [<-|Ni].
        -- replace (n <? length (k_data st)) with true by lia. cbn [andb]. unfold first_number. now rewrite Eg.
        -- cbn [andb]. apply D; lia.
      * intros q Hq. unfold set_phase. destruct (Nat.eqb_spec q n) as [->|Nq]; [now replace (n <? S n) with true by lia|].
        rewrite P by auto. destruct (Nat.ltb_spec q n), (Nat.ltb_spec q (S n)); auto; lia.
    + rewrite wr_Ok by lia. cbn [bind].
      rewrite for_list_cons. unfold FillModel.kstep at 1. cbn [k_data k_seeds k_phase].
      unfold set_phase at 1. rewrite Nat.eqb_refl. cbn [bind for_list]. eexists. split. reflexivity. cbn [k_data k_seeds k_phase].
      split; [|split; [|split]]; rewrite ?upd_length; auto.
      * intros i Hi Hin. apply D; lia.
      * intros q Hq. unfold set_phase. destruct (Nat.eqb_spec q n) as [->|Nq]; [now replace (n <? S n) with true by lia|].
        rewrite P by auto. destruct (Nat.ltb_spec q n), (Nat.ltb_spec q (S n)); auto; lia.
Qed.
Lemma lockstep_run data seeds : 0 < numSeeds -> length seeds = numSeeds -> elements <= threads -> elements <= length data ->
  exists sched st, of_threads threads sched /\ krun data seeds sched = Ok st /\ all_ended threads st /\
    forall i, i < elements -> nth i (k_data st) d0 = val (first (nth (i mod numSeeds) seeds s0)).
Proof.
  intros Hm Ls He Hd. destruct (lockstep_finish data seeds threads Hm Ls He Hd (le_n _)) as (st & E & Ld & Lsd & D & P).
  exists lockstep, st. split; [|split; [|split]].
  - unfold lockstep. apply Forall_app. split. apply of_threads_seq. apply of_threads_flat. intro q. repeat constructor.
  - exact E.
  - intros q Hq. rewrite P by auto. now replace (q <? threads) with true by lia.
  - intros i Hi. apply D; lia.
Qed.

(** ** one thread after the other *)
Lemma turns data seeds n : 0 < numSeeds -> length seeds = numSeeds -> elements <= threads -> elements <= length data -> n <= elements ->
  exists st, for_list (flat_map (fun q => [q; q; q]) (seq 0 n)) kstep
      {| k_data := data; k_seeds := seeds; k_phase := fun _ => Waiting |} = Ok st /\
    length (k_data st) = length data /\ length (k_seeds st) = numSeeds /\
    (forall i, i < n -> nth i (k_data st) d0 = val (first (Nat.iter (i / numSeeds) one (nth (i mod numSeeds) seeds s0)))) /\
    (forall r, r < numSeeds -> nth r (k_seeds st) s0 = Nat.iter ((n + numSeeds - 1 - r) / numSeeds) one (nth r seeds s0)) /\
    forall q, q < threads -> k_phase st q = if q <? n then Ended else Waiting.
Proof.
  intros Hm Ls He Hd. induction n as [|n IH]; intro Hn.
  - eexists. split. reflexivity. cbn [k_data k_seeds k_phase]. split; [|split; [|split; [|split]]]; auto. lia.
    intros r Hr. rewrite Nat.div_small by lia. reflexivity.
  - destruct IH as (st & E & Ld & Lsd & D & SS & P); [lia|].
    rewrite flat_map_seq_S, for_list_app, E. cbn [bind Nat.add].
    assert (Hs : n mod numSeeds < numSeeds) by (apply Nat.mod_upper_bound; lia).
    rewrite for_list_cons. unfold FillModel.kstep at 1. rewrite P by lia. replace (n <? n) with false by lia.
    rewrite (rd_Ok _ _ s0) by lia. cbn [bind].
    rewrite for_list_cons. unfold FillModel.kstep at 1. cbn [k_data k_seeds k_phase].
    unfold set_phase at 1. rewrite Nat.eqb_refl. replace (n <? elements) with true by lia.
    rewrite SS by auto. rewrite slot_count_same by auto.
    set (s := Nat.iter (n / numSeeds) one (nth (n mod numSeeds) seeds s0)).
    destruct (draw (start s)) as [u g] eqn:Eg. rewrite wr_Ok by lia. cbn [bind].
    rewrite for_list_cons. unfold FillModel.kstep at 1. cbn [k_data k_seeds k_phase].
    unfold set_phase at 1. rewrite Nat.eqb_refl. replace (n + threads <? elements) with false by lia.
    rewrite wr_Ok by lia. cbn [bind for_list]. eexists. split. reflexivity. cbn [k_data k_seeds k_phase].
    split; [|split; [|split; [|split]]]; rewrite ?upd_length; auto.
    + intros i Hi. rewrite nth_upd. destruct (Nat.eqb_spec n i) as [<-|Ni].
      * replace (n <? length (k_data st)) with true by lia. cbn [andb]. unfold first_number. fold s. now rewrite Eg.
      * cbn [andb]. apply D; lia.
    + intros r Hr. rewrite nth_upd. destruct (Nat.eqb_spec (n mod numSeeds) r) as [<-|Nr].
      * replace (n mod numSeeds <? length (k_seeds st)) with true by lia. cbn [andb].
        rewrite slot_count_next by auto. change (next_seed g = next_seed (snd (draw (start s)))). now rewrite Eg.
      * cbn [andb]. rewrite slot_count_other by auto. now apply SS.
    + intros q Hq. unfold set_phase. destruct (Nat.eqb_spec q n) as [->|Nq]; [now replace (n <? S n) with true by lia|].
      rewrite P by auto. destruct (Nat.ltb_spec q n), (Nat.ltb_spec q (S n)); auto; lia.
Qed.
(** the remaining threads only replace their seeds *)
Lemma turns_rest data seeds n : 0 < numSeeds -> length seeds = numSeeds -> elements <= threads -> elements <= length data -> n <= threads ->
  exists st, for_list (flat_map (fun q => [q; q; q]) (seq 0 n)) kstep
      {| k_data := data; k_seeds := seeds; k_phase := fun _ => Waiting |} = Ok st /\
    length (k_seeds st) = numSeeds /\
    (forall i, i < n -> i < elements -> nth i (k_data st) d0 = val (first (Nat.iter (i / numSeeds) one (nth (i mod numSeeds) seeds s0)))) /\
    forall q, q < threads -> k_phase st q = if q <? n then Ended else Waiting.
Proof.
  intros Hm Ls He Hd. induction n as [|n IH]; intro Hn.
  - destruct (turns data seeds 0 Hm Ls He Hd) as (st & E & Ld & Lsd & D & _ & P); [lia|]. exists st. repeat split; auto.
  - destruct (Nat.le_gt_cases (S n) elements) as [Hne|Hne].
    + destruct (turns data seeds (S n) Hm Ls He Hd Hne) as (st & E & Ld & Lsd & D & _ & P). exists st. repeat split; auto.
    + destruct IH as (st & E & Lsd & D & P); [lia|].
      rewrite flat_map_seq_S, for_list_app, E. cbn [bind Nat.add].
      assert (Hs : n mod numSeeds < numSeeds) by (apply Nat.mod_upper_bound; lia).
      rewrite for_list_cons. unfold FillModel.kstep at 1. rewrite P by lia. replace (n <? n) with false by lia.
      rewrite (rd_Ok _ _ s0) by lia. cbn [bind].
      rewrite for_list_cons. unfold FillModel.kstep at 1. cbn [k_data k_seeds k_phase].
      unfold set_phase at 1. rewrite Nat.eqb_refl. replace (n <? elements) with false by lia.
      rewrite wr_Ok by lia. cbn [bind].
      rewrite for_list_cons. unfold FillModel.kstep at 1. cbn [k_data k_seeds k_phase].
      unfold set_phase at 1. rewrite Nat.eqb_refl. cbn [bind for_list]. eexists. split. reflexivity. cbn [k_data k_seeds k_phase].
      split; [|split]; rewrite ?upd_length; auto.
      * intros i Hi Hie. apply D; lia.
      * intros q Hq. unfold set_phase. destruct (Nat.eqb_spec q n) as [->|Nq]; [now replace (n <? S n) with true by lia|].
        rewrite P by auto. destruct (Nat.ltb_spec q n), (Nat.ltb_spec q (S n)); auto; lia.
Qed.
Lemma turns_run data seeds : 0 < numSeeds -> length seeds = numSeeds -> elements <= threads -> elements <= length data ->
  exists sched st, of_threads threads sched /\ krun data seeds sched = Ok st /\ all_ended threads st /\
    forall i, i < elements -> nth i (k_data st) d0 = val (first (Nat.iter (i / numSeeds) one (nth (i mod numSeeds) seeds s0))).
Proof.
  intros Hm Ls He Hd. destruct (turns_rest data seeds threads Hm Ls He Hd (le_n _)) as (st & E & Lsd & D & P).
  exists (flat_map (fun q => [q; q; q]) (seq 0 threads)), st. split; [|split; [|split]].
  - apply of_threads_flat. intro q. repeat constructor.
  - exact E.
  - intros q Hq. rewrite P by auto. now replace (q <? threads) with true by lia.
  - intros i Hi. apply D; lia.
Qed.
End Kernel.

(** ** The elements *)
Section Values.
Local Open Scope Q_scope.
Lemma fill_unit u : (u < 2 ^ 64)%N -> 0 <= inject_Z (Z.of_N u) * (1 # 2 ^ 64) /\ inject_Z (Z.of_N u) * (1 # 2 ^ 64) < 1.
Proof.
  intro H. assert (A : (0 <= Z.of_N u < 2 ^ 64)%Z) by lia. revert A. generalize (Z.of_N u). intros z [A B].
  unfold Qle, Qlt, Qmult, inject_Z. cbn [Qnum Qden]. lia.
Qed.
Lemma fill_real_ok lo hi u : lo < hi -> (u < 2 ^ 64)%N -> lo <= fill_real lo hi u /\ fill_real lo hi u < hi.
Proof.
  intros L H. destruct (fill_unit u H) as [A B]. unfold fill_real. revert A B.
  generalize (inject_Z (Z.of_N u) * (1 # 2 ^ 64)). intros x A B. split; nra.
Qed.
Lemma qtrunc_between (a b : Z) q : inject_Z a <= q -> q <= inject_Z b -> (a <= qtrunc q <= b)%Z.
Proof.
  intros A B. destruct (Qlt_le_dec q 0) as [N|P].
  - rewrite qtrunc_neg by auto. pose proof (floor_bounds (- q)) as [F1 F2].
    split.
    + assert (E : inject_Z (Qfloor (- q)) <= inject_Z (- a)) by (rewrite inject_Z_opp; lra). rewrite <- Zle_Qle in E. lia.
    + assert (E : inject_Z (- b) < inject_Z (Qfloor (- q) + 1)) by (rewrite inject_Z_opp, inj_1; lra). rewrite <- Zlt_Qlt in E. lia.
  - rewrite qtrunc_nonneg by auto. pose proof (floor_bounds q) as [F1 F2]. split.
    + apply inj_lt_le. lra.
    + rewrite Zle_Qle. lra.
Qed.
Lemma fill_integral_ok lo hi u : (lo < hi)%Z -> (u < 2 ^ 64)%N -> (lo <= fill_integral lo hi u <= hi)%Z.
Proof.
  intros L H. unfold fill_integral. destruct (fill_real_ok (inject_Z lo) (inject_Z hi) u) as [A B]; auto.
  - now rewrite <- Zlt_Qlt.
  - apply qtrunc_between; lra.
Qed.
Lemma fill_integral_below lo hi u : (0 <= lo < hi)%Z -> (u < 2 ^ 64)%N -> (fill_integral lo hi u < hi)%Z.
Proof.
  intros [L0 L] H. unfold fill_integral. destruct (fill_real_ok (inject_Z lo) (inject_Z hi) u) as [A B]; auto.
  - now rewrite <- Zlt_Qlt.
  - assert (0 <= inject_Z lo) by (change 0 with (inject_Z 0); now rewrite <- Zle_Qle).
    rewrite qtrunc_nonneg by lra. pose proof (floor_bounds (fill_real (inject_Z lo) (inject_Z hi) u)) as [F1 F2].
    rewrite Zlt_Qlt. lra.
Qed.
End Values.

(** ** The generator of the kernels *)
Lemma lt_pow2_bits (x n : N) : (forall k, (n <= k)%N -> N.testbit x k = false) -> (x < 2 ^ n)%N.
Proof.
  intro H. destruct (N.eq_dec x 0) as [->|Nz]. { pose proof (N.pow_nonzero 2 n). lia. }
  apply N.log2_lt_pow2; [lia|]. destruct (N.lt_ge_cases (N.log2 x) n); auto.
  specialize (H (N.log2 x) H0). rewrite N.bit_log2 in H; auto. discriminate.
Qed.
Lemma bits_above (x n k : N) : (x < 2 ^ n)%N -> (n <= k)%N -> N.testbit x k = false.
Proof.
  intros H K. destruct (N.eq_dec x 0) as [->|Nz]. apply N.bits_0.
  apply N.bits_above_log2. apply N.log2_lt_pow2 in H; lia.
Qed.
Lemma lxor_lt n a b : (a < 2 ^ n -> b < 2 ^ n -> N.lxor a b < 2 ^ n)%N.
Proof. intros A B. apply lt_pow2_bits. intros k K. rewrite N.lxor_spec, (bits_above a n k), (bits_above b n k); auto. Qed.
Lemma lor_lt n a b : (a < 2 ^ n -> b < 2 ^ n -> N.lor a b < 2 ^ n)%N.
Proof. intros A B. apply lt_pow2_bits. intros k K. rewrite N.lor_spec, (bits_above a n k), (bits_above b n k); auto. Qed.
Lemma land_lt n a b : (a < 2 ^ n -> N.land a b < 2 ^ n)%N.
Proof. intros A. apply lt_pow2_bits. intros k K. now rewrite N.land_spec, (bits_above a n k). Qed.
Lemma shiftr_lt n a k : (a < 2 ^ n -> N.shiftr a k < 2 ^ n)%N.
Proof. intro A. apply lt_pow2_bits. intros j K. rewrite N.shiftr_spec by lia. apply (bits_above a n); auto. lia. Qed.
Lemma w32_lt x : (w32 x < 2 ^ 32)%N.
Proof. unfold w32. apply N.mod_lt. discriminate. Qed.
Lemma temper_lt y : (y < 2 ^ 32 -> temper y < 2 ^ 32)%N.
Proof.
  intro H. unfold temper. cbv zeta.
  repeat match goal with
  | |- (N.lxor _ _ < _)%N => apply lxor_lt
  | |- (N.shiftr _ _ < _)%N => apply shiftr_lt
  | |- (N.land _ _ < _)%N => apply land_lt
  | |- (w32 _ < _)%N => apply w32_lt
  end; exact H.
Qed.
Lemma twist_word_lt a b m : (a < 2 ^ 32 -> b < 2 ^ 32 -> m < 2 ^ 32 -> twist_word a b m < 2 ^ 32)%N.
Proof.
  intros A B M. unfold twist_word. cbv zeta.
  apply lxor_lt. apply lxor_lt. exact M. apply shiftr_lt. apply lor_lt; now apply land_lt.
  destruct (N.odd _); reflexivity.
Qed.

(** states between draws *)
Definition mt_good (st : mt_state) : Prop :=
  length (mt st) = 624 /\ 1 <= mti st <= 624 /\ forall i, (nth i (mt st) 0 < 2 ^ 32)%N.
Lemma nth_upd_lt m k v : (forall i, (nth i m 0 < 2 ^ 32)%N) -> (v < 2 ^ 32)%N -> forall i, (nth i (upd m k v) 0 < 2 ^ 32)%N.
Proof. intros A B i. rewrite nth_upd. destruct ((k =? i) && (k <? length m)); auto. Qed.
Lemma mt_uint_good st : mt_good st -> exists y st', mt_uint st = Ok (y, st') /\ mt_good st' /\ (y < 2 ^ 32)%N.
Proof.
  intros (L & B & W). unfold mt_uint. change MT_N with 624. change MT_M with 397.
  change (624 - 397) with 227. change (624 - 1) with 623. change (397 - 1) with 396.
  destruct (Nat.ltb_spec (mti st) 227); [|destruct (Nat.ltb_spec (mti st) 623)];
  rewrite twist_at_ok by lia; cbn [bind mt mti]; rewrite (rd_Ok _ _ 0%N) by (rewrite upd_length; lia); cbn [bind];
  (eexists; eexists; split; [reflexivity|]; split; [split; [|split]; cbn [mt mti]|]; rewrite ?upd_length; auto; try lia;
   [apply nth_upd_lt; auto; apply twist_word_lt; auto|apply temper_lt; apply nth_upd_lt; auto; apply twist_word_lt; auto]).
Qed.
Lemma mt_start_good junk s : length junk = 624 ->
  mt_seed junk (Z.to_N (s mod 2 ^ 32)) = Ok (mt_start junk s) /\ mt_good (mt_start junk s) /\ mti (mt_start junk s) = 624 /\
  nth 0 (mt (mt_start junk s)) 0%N = Z.to_N (s mod 2 ^ 32).
Proof.
  intro L. unfold mt_start. set (w := Z.to_N (s mod 2 ^ 32)).
  assert (Hw : (w < 2 ^ 32)%N) by (unfold w; pose proof (Z.mod_pos_bound s (2 ^ 32)); lia).
  destruct (seed_ok (mtx w) w junk (mtx_initial w) L) as (st & E & T & Lm & W). rewrite E. cbn [ok_or].
  split; auto. split; [|split].
  - split; [|split]; auto; [lia|]. intro i. destruct (Nat.lt_ge_cases i 624).
    + rewrite W by auto. rewrite mtx_iw by auto. destruct i; apply w32_lt.
    + rewrite nth_overflow by lia. reflexivity.
  - exact T.
  - rewrite W by lia. rewrite mtx_iw by lia. cbn [iw]. unfold w32. now apply N.mod_small.
Qed.
Lemma mt_ulong_good swap st : mt_good st -> mt_good (snd (mt_ulong swap st)) /\ (fst (mt_ulong swap st) < 2 ^ 64)%N.
Proof.
  intro H. unfold mt_ulong. destruct (mt_uint_good st H) as (a & st1 & E1 & H1 & A). rewrite E1. cbn [ok_or].
  destruct (mt_uint_good st1 H1) as (b & st2 & E2 & H2 & B). rewrite E2. cbn [ok_or fst snd]. split; auto.
  destruct swap; lia.
Qed.
Lemma mt_first_high junk s : length junk = 624 ->
  (fst (mt_ulong false (mt_start junk s)) / 2 ^ 32)%N = temper (Z.to_N (s mod 2 ^ 32)).
Proof.
  intro L. destruct (mt_start_good junk s L) as (_ & Hg & T & Z0). unfold mt_ulong.
  destruct (inc_step (Z.to_N (s mod 2 ^ 32)) 0 (mt_start junk s)) as (y & st1 & E1 & _ & Y).
  { destruct Hg as (A & B & _). split; [|split; [|split]]; auto. exists (-1)%Z. rewrite T. reflexivity. }
  destruct (mt_uint_good _ Hg) as (a & st1' & E1' & H1 & A). rewrite E1 in E1'. inversion E1'; subst a st1'.
  rewrite E1. cbn [ok_or]. destruct (mt_uint_good st1 H1) as (b & st2 & E2 & H2 & B). rewrite E2. cbn [ok_or fst].
  rewrite N.div_add_l by discriminate. rewrite N.div_small by exact B. rewrite N.add_0_r. apply Y. reflexivity.
Qed.

(** ** The host *)
Section Host.
Context {G : Type}.
Variable mkgen : N -> G.
Variable draw : G -> Q * G.

Lemma next_fresh i s (r : rstate G) : exists r',
  next mkgen draw i (setSeed s r) = (fst (draw (mkgen (seed32 s))), r') /\
  reseed r' = false /\ gens r' i = Some (snd (draw (mkgen (seed32 s)))).
Proof.
  unfold next, setSeed. cbn. destruct (draw (mkgen (seed32 s))) as [u g]. eexists. split. reflexivity.
  cbn. split; auto. now rewrite put_same.
Qed.
Lemma next_going i g (r : rstate G) : reseed r = false -> gens r i = Some g -> exists r',
  next mkgen draw i r = (fst (draw g), r') /\ reseed r' = false /\ gens r' i = Some (snd (draw g)).
Proof.
  intros E Eg. unfold next. rewrite E, Eg. destruct (draw g) as [u g']. eexists. split. reflexivity. cbn.
  split; auto. now rewrite put_same.
Qed.
Lemma host_fill_going i lo hi : forall n g (r : rstate G), reseed r = false -> gens r i = Some g ->
  fst (host_fill mkgen draw i n lo hi r) = map (random_real lo hi) (stream draw g n).
Proof.
  induction n; intros g r E Eg; cbn [host_fill stream map]. reflexivity.
  destruct (next_going i g r E Eg) as (r' & -> & E' & Eg').
  pose proof (IHn _ _ E' Eg') as H. destruct (host_fill mkgen draw i n lo hi r') as [l r'']. cbn in *. now rewrite H.
Qed.
Lemma host_fill_seeded i n lo hi s (r : rstate G) :
  fst (host_fill mkgen draw i n lo hi (setSeed s r)) = map (random_real lo hi) (stream draw (mkgen (seed32 s)) n).
Proof.
  destruct n; cbn [host_fill stream map]. reflexivity.
  destruct (next_fresh i s r) as (r' & -> & E' & Eg').
  pose proof (host_fill_going i lo hi n _ _ E' Eg') as H. destruct (host_fill mkgen draw i n lo hi r') as [l r'']. cbn in *. now rewrite H.
Qed.
Lemma draw_seeds_going : forall n g (r : rstate G), reseed r = false -> gens r inst_double_double = Some g ->
  fst (draw_seeds mkgen draw n r) = map (randint 0 (2 ^ 63 - 1)) (stream draw g n).
Proof.
  induction n; intros g r E Eg; cbn [draw_seeds stream map]. reflexivity.
  destruct (next_going inst_double_double g r E Eg) as (r' & -> & E' & Eg').
  pose proof (IHn _ _ E' Eg') as H. destruct (draw_seeds mkgen draw n r') as [l r'']. cbn [fst] in *. now rewrite H.
Qed.
Lemma draw_seeds_seeded n s (r : rstate G) :
  fst (draw_seeds mkgen draw n (setSeed s r)) = map (randint 0 (2 ^ 63 - 1)) (stream draw (mkgen (seed32 s)) n).
Proof.
  destruct n; cbn [draw_seeds stream map]. reflexivity.
  destruct (next_fresh inst_double_double s r) as (r' & -> & E' & Eg').
  pose proof (draw_seeds_going n _ _ E' Eg') as H. destruct (draw_seeds mkgen draw n r') as [l r'']. cbn [fst] in *. now rewrite H.
Qed.
Lemma prepare_seeded sd s (r : rstate G) :
  fst (prepare mkgen draw sd (setSeed s r)) = map (randint 0 (2 ^ 63 - 1)) (stream draw (mkgen (seed32 s)) NUM_SEEDS).
Proof. unfold prepare. destruct sd; apply draw_seeds_seeded. Qed.
Lemma stream_length : forall n g, length (stream draw g n) = n.
Proof. induction n; intro g; cbn; auto. Qed.
Lemma draw_seeds_length : forall n (r : rstate G), length (fst (draw_seeds mkgen draw n r)) = n.
Proof.
  induction n; intro r; cbn [draw_seeds]; auto. destruct (next mkgen draw inst_double_double r) as [u r1].
  specialize (IHn r1). destruct (draw_seeds mkgen draw n r1) as [l r2]. cbn in *. lia.
Qed.

(** *** in parallel *)
Local Notation hrun := (hrun mkgen draw).
Local Notation hstep := (hstep mkgen draw).
Definition hinv (lo hi : Q) (n : nat) (st : hstate G) : Prop :=
  length (h_data st) = n /\ forall k, k < n -> h_phase st k = HEnded ->
    exists g, nth k (h_data st) 0%Q = random_real lo hi (fst (draw g)).
Lemma hstep_inv i lo hi n k st : k < n -> hinv lo hi n st -> exists st', hstep i lo hi k st = Ok st' /\ hinv lo hi n st'.
Proof.
  intros Hk (L & P). unfold FillModel.hstep. destruct (h_phase st k) as [|g|] eqn:E.
  - eexists. split. reflexivity. split; cbn [h_data h_phase]; auto. intros j Hj. destruct (Nat.eqb_spec j k); [discriminate|]. auto.
  - destruct (draw g) as [u g'] eqn:Eg. rewrite wr_Ok by lia. cbn [bind]. eexists. split. reflexivity.
    split; cbn [h_data h_phase]. now rewrite upd_length. intros j Hj. rewrite nth_upd. destruct (Nat.eqb_spec j k) as [->|N].
    + intros _. rewrite Nat.eqb_refl. replace (k <? length (h_data st)) with true by lia. exists g. now rewrite Eg.
    + intro H. replace (k =? j) with false by lia. cbn [andb]. auto.
  - eexists. split. reflexivity. split; auto.
Qed.
Lemma hrun_ok i lo hi data r sched : of_threads (length data) sched ->
  exists st, hrun i lo hi data r sched = Ok st /\ length (h_data st) = length data /\
    forall k, k < length data -> h_phase st k = HEnded -> exists g, nth k (h_data st) 0%Q = random_real lo hi (fst (draw g)).
Proof.
  intro H. destruct (for_list_inv (hinv lo hi (length data)) (hstep i lo hi) sched
    {| h_data := data; h_rand := r; h_phase := fun _ => HWaiting |}) as (st & E & L & P).
  - split; auto. cbn. discriminate.
  - intros k s Hk. apply hstep_inv. exact (proj1 (Forall_forall _ _) H _ Hk).
  - eauto.
Qed.
(** all iterations load the generator before one stores it *)
Lemma hload i lo hi data s (r : rstate G) n :
  exists st, for_list (seq 0 n) (hstep i lo hi) {| h_data := data; h_rand := setSeed s r; h_phase := fun _ => HWaiting |} = Ok st /\
    h_data st = data /\ h_rand st = setSeed s r /\
    forall k, h_phase st k = if k <? n then HLoaded (mkgen (seed32 s)) else HWaiting.
Proof.
  induction n as [|n IH]. { eexists. split. reflexivity. auto. }
  destruct IH as (st & E & D & R & P). rewrite seq_S, for_list_app, E. cbn [bind Nat.add]. rewrite for_list_cons.
  unfold FillModel.hstep at 1. rewrite P. replace (n <? n) with false by lia. rewrite R. cbn [setSeed reseed randomSeed bind for_list].
  eexists. split. reflexivity. cbn [h_data h_rand h_phase]. split; [|split]; auto. intro k.
  destruct (Nat.eqb_spec k n) as [->|N]; [now replace (n <? S n) with true by lia|].
  rewrite P. destruct (Nat.ltb_spec k n), (Nat.ltb_spec k (S n)); auto; lia.
Qed.
Lemma hstore i lo hi data s (r : rstate G) n : n <= length data ->
  exists st, for_list (seq 0 (length data) ++ seq 0 n) (hstep i lo hi)
      {| h_data := data; h_rand := setSeed s r; h_phase := fun _ => HWaiting |} = Ok st /\
    length (h_data st) = length data /\
    (forall k, k < n -> nth k (h_data st) 0%Q = random_real lo hi (fst (draw (mkgen (seed32 s))))) /\
    forall k, k < length data -> h_phase st k = if k <? n then HEnded else HLoaded (mkgen (seed32 s)).
Proof.
  induction n as [|n IH]; intro Hn.
  - destruct (hload i lo hi data s r (length data)) as (st & E & D & R & P). exists st. cbn [seq]. rewrite app_nil_r.
    split; auto. rewrite D. split; [|split]; auto. lia. intros k Hk. rewrite P. now replace (k <? length data) with true by lia.
  - destruct IH as (st & E & L & D & P); [lia|]. rewrite (seq_S n 0), app_assoc, for_list_app, E. cbn [bind Nat.add]. rewrite for_list_cons.
    unfold FillModel.hstep at 1. rewrite P by lia. replace (n <? n) with false by lia.
    destruct (draw (mkgen (seed32 s))) as [u g] eqn:Eg. rewrite wr_Ok by lia. cbn [bind for_list].
    eexists. split. reflexivity. cbn [h_data h_phase]. split; [|split].
    + now rewrite upd_length.
    + intros k Hk. rewrite nth_upd. destruct (Nat.eqb_spec n k) as [<-|N].
      * replace (n <? length (h_data st)) with true by lia. reflexivity.
      * cbn [andb]. cbn [fst] in D. apply D. lia.
    + intros k Hk. destruct (Nat.eqb_spec k n) as [->|N]; [now replace (n <? S n) with true by lia|].
      rewrite P by auto. destruct (Nat.ltb_spec k n), (Nat.ltb_spec k (S n)); auto; lia.
Qed.
Lemma hrun_repeats i lo hi data s (r : rstate G) :
  exists sched st, of_threads (length data) sched /\ hrun i lo hi data (setSeed s r) sched = Ok st /\
    forall k, k < length data -> h_phase st k = HEnded /\
      nth k (h_data st) 0%Q = random_real lo hi (fst (draw (mkgen (seed32 s)))).
Proof.
  destruct (hstore i lo hi data s r (length data) (le_n _)) as (st & E & L & D & P).
  eexists. exists st. split; [|split; [exact E|]].
  - apply Forall_app. split; apply of_threads_seq.
  - intros k Hk. split; auto. rewrite P by auto. now replace (k <? length data) with true by lia.
Qed.
End Host.
