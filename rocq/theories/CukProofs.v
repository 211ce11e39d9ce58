(** Proofs for C112. *)
From Coq Require Import String Permutation.
From Coq Require Import ZifyNat ZifyN ZifyBool.
From Verif Require Import Base BaseProofs CudaModel KnlModel KnlSpec CukModel CukSpec.
Ltac Zify.zify_post_hook ::= idtac.

Lemma each_ok {X Y} (f : X -> outcome Y) (P : X -> Y -> Prop) l :
  (forall x, In x l -> exists y, f x = Ok y /\ P x y) -> exists ys, each f l = Ok ys /\ Forall2 P l ys.
Proof.
  induction l as [|x l IH]; intros H; cbn [each]; [eauto|].
  destruct (H x (or_introl eq_refl)) as (y & Ey & Py). destruct IH as (ys & Es & Ps); [intros z Hz; apply H; now right|].
  rewrite Ey. cbn [bind]. rewrite Es. cbn [bind]. eauto.
Qed.
Lemma f2_length {X Y} (P : X -> Y -> Prop) l k : Forall2 P l k -> length l = length k.
Proof. induction 1; cbn; congruence. Qed.
Lemma f2_nth {X Y} (P : X -> Y -> Prop) l k : Forall2 P l k ->
  forall i x, nth_error l i = Some x -> exists y, nth_error k i = Some y /\ P x y.
Proof. induction 1; intros [|i] z; cbn; try discriminate; [intros [= <-]; eauto|apply IHForall2]. Qed.
Lemma nth_seq s n i : i < n -> nth_error (seq s n) i = Some (s + i).
Proof.
  revert s i. induction n as [|n IH]; intros s [|i] H; cbn; try lia; [f_equal; lia|]. rewrite IH by lia. f_equal. lia.
Qed.
Lemma nth_upd {X} (l : list X) i j x : i < length l -> nth_error (upd l i x) j = if Nat.eq_dec i j then Some x else nth_error l j.
Proof.
  revert i j. induction l as [|a l IH]; intros [|i] [|j] H; cbn [upd nth_error length] in *; try lia; auto.
  rewrite IH by lia. destruct (Nat.eq_dec i j), (Nat.eq_dec (S i) (S j)); auto; lia.
Qed.
Lemma len_upd {X} (l : list X) i x : length (upd l i x) = length l.
Proof. revert i. induction l as [|a l IH]; intros [|i]; cbn; auto. Qed.

Lemma write_run {X} (off : nat) : forall (vs : list X) s (l : list X), off + s + length vs <= length l ->
  exists l', for_list (combine (seq s (length vs)) vs) (fun p l => wr l (off + fst p) (snd p)) l = Ok l' /\
    length l' = length l /\
    forall i, nth_error l' i = if (off + s <=? i) && (i <? off + s + length vs) then nth_error vs (i - (off + s)) else nth_error l i.
Proof.
  induction vs as [|v vs IH]; intros s l H; cbn [length seq combine for_list].
  - exists l. split; [reflexivity|]. split; [reflexivity|]. intros i.
    destruct (off + s <=? i) eqn:A, (i <? off + s + 0) eqn:B; cbn [andb]; auto. lia.
  - cbn [length] in H. cbn [fst snd]. unfold wr at 1. replace (off + s <? length l) with true by lia. cbn [bind].
    destruct (IH (S s) (upd l (off + s) v)) as (l' & E & L & N); [rewrite len_upd; lia|].
    exists l'. split; [exact E|]. split; [now rewrite L, len_upd|]. intros i. rewrite N, nth_upd by lia.
    destruct (Nat.eq_dec (off + s) i) as [<-|Hi].
    + replace (off + S s <=? off + s) with false by lia. replace (off + s <=? off + s) with true by lia.
      replace (off + s <? off + s + S (length vs)) with true by lia. cbn [andb].
      replace (off + s - (off + s)) with 0 by lia. reflexivity.
    + destruct (off + S s <=? i) eqn:A, (i <? off + S s + length vs) eqn:B, (off + s <=? i) eqn:C, (i <? off + s + S (length vs)) eqn:D;
        cbn [andb]; try lia; auto.
      replace (i - (off + s)) with (S (i - (off + S s))) by lia. reflexivity.
Qed.

Lemma ety_eqb_refl t : ety_eqb t t = true.
Proof. induction t; cbn; auto. Qed.
Lemma ety_eqb_eq a : forall b, ety_eqb a b = true -> a = b.
Proof. induction a; intros [] E; cbn in E; try discriminate; auto; f_equal; auto. Qed.

Section Run.
Context {V : Type}.
Variable vop : string -> ety -> ety -> ety -> V -> V -> V.
Variable vcall : string -> ety -> ety -> V -> V.

(** the value of an argument at index [i] *)
Definition argval (m : memory V) (i : nat) (p : dty * bool * arg) : option V :=
  match snd p with AArr q => element m q i | AScal _ x => Some x end.
Definition fits_run (m : memory V) (W N : nat) (p : dty * bool * @arg V) : Prop :=
  match p with
  | (d, true, AArr q) => lanes_of d = W /\ exists r, nth_error m q = Some r /\ a_ty r = scal d /\ W * N <= length (a_data r)
  | (d, false, AScal t _) => d = DS t
  | _ => False
  end.
Definition ptys (ps : list (dty * bool * @arg V)) : list ety := map (fun p => scal (fst (fst p))) ps.

Variable kn : ckernel.
Variable d : dty.
Variable dst : nat.
Variable ps : list (dty * bool * @arg V).
Variable m : memory V.
Variable N : nat.
Local Notation W := (lanes_of d).
Hypothesis HW : 1 <= W.
Variable r0 : array V.
Hypothesis Hd : nth_error m dst = Some r0.
Hypothesis Ht : a_ty r0 = scal d.
Hypothesis Hl : W * N <= length (a_data r0).
Hypothesis Hps : forall p, In p ps -> fits_run m W N p.
Hypothesis Hb : forall vs, length vs = length ps -> exists v, body_value vop vcall (c_body kn) (scal d) (ptys ps) vs = Ok v.

(** the value that belongs in element [i] *)
Definition result_at (i : nat) (v : V) : Prop :=
  exists cs, Forall2 (fun p c => argval m i p = Some c) ps cs /\ body_value vop vcall (c_body kn) (scal d) (ptys ps) cs = Ok v.
(** the packets in [dn] have been treated *)
Definition inv (dn : list nat) (m1 : memory V) : Prop :=
  length m1 = length m /\ (forall p, p <> dst -> nth_error m1 p = nth_error m p) /\
  exists r1, nth_error m1 dst = Some r1 /\ a_ty r1 = a_ty r0 /\ length (a_data r1) = length (a_data r0) /\
    (forall i, W * N <= i -> nth_error (a_data r1) i = nth_error (a_data r0) i) /\
    (forall k j, k < N -> j < W ->
      (In k dn -> exists v, nth_error (a_data r1) (W * k + j) = Some v /\ result_at (W * k + j) v) /\
      (~ In k dn -> nth_error (a_data r1) (W * k + j) = nth_error (a_data r0) (W * k + j))).

Lemma index_bound k j : k < N -> j < W -> W * k + j < W * N.
Proof. intros A B. assert (W * (k + 1) <= W * N) by (apply Nat.mul_le_mono_l; lia). lia. Qed.
Lemma index_inj k j k' j' : j < W -> j' < W -> W * k + j = W * k' + j' -> k = k' /\ j = j'.
Proof.
  intros A B E. assert (k = k').
  { destruct (Nat.lt_trichotomy k k') as [L|[->|L]]; auto; exfalso.
    - assert (W * (k + 1) <= W * k') by (apply Nat.mul_le_mono_l; lia). lia.
    - assert (W * (k' + 1) <= W * k) by (apply Nat.mul_le_mono_l; lia). lia. }
  subst. lia.
Qed.

Lemma load_ok dn m1 k p : inv dn m1 -> k < N -> ~ In k dn -> In p ps ->
  exists x, load m1 k p = Ok x /\ fst x = fst (fst p) /\
    forall j, j < W -> exists v, component j x = Ok v /\ argval m (W * k + j) p = Some v.
Proof.
  intros (L1 & Ho & r1 & Hr & T1 & Ln & _ & Hv) Hk Hn Hp. specialize (Hps p Hp).
  destruct p as [[dd ptr] [q|t x]]; destruct ptr; cbn [fits_run] in Hps; try contradiction.
  - destruct Hps as (Hw & r & Hq & Htr & Hlr). cbn [load fst snd argval].
    assert (X : exists r', nth_error m1 q = Some r' /\ a_ty r' = scal dd /\
      forall j, j < W -> exists v, nth_error (a_data r') (W * k + j) = Some v /\ nth_error (a_data r) (W * k + j) = Some v).
    { assert (Y : forall j, j < W -> exists v, nth_error (a_data r) (W * k + j) = Some v).
      { intros j Hj. destruct (nth_error (a_data r) (W * k + j)) eqn:E; eauto. apply nth_error_None in E.
        pose proof (index_bound k j Hk Hj). lia. }
      destruct (Nat.eq_dec q dst) as [->|Hqd].
      - rewrite Hd in Hq. injection Hq as <-. exists r1. split; auto. split; [congruence|]. intros j Hj.
        destruct (Hv k j Hk Hj) as (_ & Hs). rewrite (Hs Hn). destruct (Y j Hj) as (v & ->). eauto.
      - exists r. rewrite Ho by auto. split; auto. split; auto. intros j Hj. destruct (Y j Hj) as (v & ->). eauto. }
    destruct X as (r' & Hq' & Ht' & Hval). unfold rd at 1. rewrite Hq'. cbn [bind]. rewrite Ht', ety_eqb_refl, Hw.
    destruct (each_ok (fun j => rd (a_data r') (W * k + j)) (fun j v => nth_error (a_data r) (W * k + j) = Some v) (seq 0 W)) as (xs & Ex & Fx).
    { intros j Hj. apply in_seq in Hj. destruct (Hval j ltac:(lia)) as (v & E1 & E2). exists v. unfold rd. now rewrite E1. }
    rewrite Ex. cbn [bind]. exists (dd, xs). split; [reflexivity|]. split; [reflexivity|]. intros j Hj.
    destruct (f2_nth _ _ _ Fx j (0 + j) (nth_seq 0 W j Hj)) as (v & E1 & E2). cbn [Nat.add] in E2.
    exists v. unfold argval, element. cbn [snd]. rewrite Hq. split; auto. unfold component, rd. cbn [fst snd].
    destruct dd as [t|t w]; [|now rewrite E1]. cbn [lanes_of] in Hw. replace j with 0 in * by lia. now rewrite E1.
  - subst dd. cbn [load]. unfold dty_eqb. rewrite ety_eqb_refl. exists (DS t, [x]). split; [reflexivity|].
    split; [reflexivity|]. intros j _. exists x. split; reflexivity.
Qed.

Lemma step_ok dn m1 k : inv dn m1 -> k < N -> ~ In k dn ->
  exists m2, thread vop vcall kn d dst ps k m1 = Ok m2 /\ inv (k :: dn) m2.
Proof.
  intros I Hk Hn. unfold thread.
  destruct (each_ok (load m1 k) (fun p x => fst x = fst (fst p) /\
      forall j, j < W -> exists v, component j x = Ok v /\ argval m (W * k + j) p = Some v) ps) as (xs & Ex & Fx).
  { intros p Hp. destruct (load_ok dn m1 k p I Hk Hn Hp) as (x & E & A & B). eauto. }
  rewrite Ex. cbn [bind].
  assert (Tx : map (fun x => scal (fst x)) xs = ptys ps).
  { unfold ptys. clear - Fx. induction Fx as [|p x l l' (A & _) _ IH]; cbn; auto. now rewrite A, IH. }
  rewrite Tx.
  destruct (each_ok (fun j => do cs <- each (component j) xs; body_value vop vcall (c_body kn) (scal d) (ptys ps) cs)
     (fun j v => result_at (W * k + j) v) (seq 0 W)) as (vs & Ev & Fv).
  { intros j Hj. apply in_seq in Hj.
    assert (C : exists cs, each (component j) xs = Ok cs /\ Forall2 (fun p c => argval m (W * k + j) p = Some c) ps cs).
    { clear - Fx Hj. induction Fx as [|p x l l' (A & B) _ (cs & E & F)]; cbn [each]; [eauto|].
      destruct (B j ltac:(lia)) as (v & E1 & E2). rewrite E1. cbn [bind]. rewrite E. cbn [bind]. exists (v :: cs). auto. }
    destruct C as (cs & E & F). rewrite E. cbn [bind].
    destruct (Hb cs) as (v & Eb); [symmetry; eapply f2_length; eauto|]. exists v. split; auto. exists cs. auto. }
  rewrite Ev. cbn [bind].
  destruct I as (L1 & Ho & r1 & Hr & T1 & Ln & Hhi & Hv). unfold put, rd. rewrite Hr. cbn [bind].
  rewrite T1, Ht, ety_eqb_refl.
  assert (Lv : length vs = W) by (rewrite <- (f2_length _ _ _ Fv); apply seq_length).
  pose proof (index_bound k (W - 1) Hk ltac:(lia)) as Hmax.
  destruct (write_run (W * k) vs 0 (a_data r1)) as (l' & E' & L' & N'); [lia|]. rewrite Lv in E'. rewrite E'. cbn [bind].
  assert (D1 : dst < length m1) by (apply nth_error_Some; congruence).
  unfold wr. replace (dst <? length m1) with true by lia. eexists. split; [reflexivity|].
  split; [now rewrite len_upd|]. split.
  { intros p Hp. rewrite nth_upd by auto. destruct (Nat.eq_dec dst p); [congruence|auto]. }
  eexists. split; [rewrite nth_upd by auto; destruct (Nat.eq_dec dst dst); [reflexivity|congruence]|]. cbn [a_ty a_data].
  split; [congruence|]. split; [congruence|]. split.
  { intros i Hi. rewrite N'. replace ((W * k + 0 <=? i) && (i <? W * k + 0 + length vs)) with false by lia. auto. }
  intros k' j Hk' Hj. rewrite N'. destruct (Nat.eq_dec k' k) as [->|Hkk].
  - replace ((W * k + 0 <=? W * k + j) && (W * k + j <? W * k + 0 + length vs)) with true by lia.
    replace (W * k + j - (W * k + 0)) with j by lia. split; [|intros X; exfalso; apply X; now left]. intros _.
    destruct (f2_nth _ _ _ Fv j (0 + j) (nth_seq 0 W j Hj)) as (v & E1 & E2). eauto.
  - replace ((W * k + 0 <=? W * k' + j) && (W * k' + j <? W * k + 0 + length vs)) with false.
    2:{ symmetry. apply Bool.not_true_is_false. intros X. apply Hkk.
        destruct (index_inj k' j k (W * k' + j - W * k) Hj ltac:(lia) ltac:(lia)). auto. }
    destruct (Hv k' j Hk' Hj) as (A & B). split.
    + intros [X|X]; [congruence|auto].
    + intros X. apply B. intros Y. apply X. now right.
Qed.

Lemma run_ok order : NoDup order -> (forall k, In k order -> k < N) -> forall dn m1, inv dn m1 -> (forall k, In k order -> ~ In k dn) ->
  exists m2, for_list order (thread vop vcall kn d dst ps) m1 = Ok m2 /\ exists dn2, inv dn2 m2 /\ forall k, In k order \/ In k dn -> In k dn2.
Proof.
  induction order as [|k order IH]; intros Hnd Hk dn m1 I Hdn; cbn [for_list].
  - exists m1. split; auto. exists dn. split; auto. intros k [[]|X]; auto.
  - inversion_clear Hnd. destruct (step_ok dn m1 k I) as (m2 & E & I2); [apply Hk; now left|apply Hdn; now left|].
    rewrite E. cbn [bind]. destruct (IH H0 (fun x Hx => Hk x (or_intror Hx)) (k :: dn) m2 I2) as (m3 & E3 & dn3 & I3 & S3).
    { intros x Hx [->|Y]; [auto|]. exact (Hdn x (or_intror Hx) Y). }
    exists m3. split; auto. exists dn3. split; auto. intros x [[->|X]|X]; apply S3; cbn; auto.
Qed.

Lemma run_all order : Permutation order (seq 0 N) ->
  exists m2, for_list order (thread vop vcall kn d dst ps) m = Ok m2 /\ length m2 = length m /\
    (forall p, p <> dst -> nth_error m2 p = nth_error m p) /\
    exists r2, nth_error m2 dst = Some r2 /\ a_ty r2 = a_ty r0 /\ length (a_data r2) = length (a_data r0) /\
      (forall i, i < W * N -> exists v, nth_error (a_data r2) i = Some v /\ result_at i v).
Proof.
  intros P. destruct (run_ok order) with (dn := @nil nat) (m1 := m) as (m2 & E & dn & (L & Ho & r2 & Hr & T2 & L2 & _ & Hv) & S).
  - eapply Permutation_NoDup; [apply Permutation_sym; exact P|apply seq_NoDup].
  - intros k Hk. eapply Permutation_in in Hk; [|exact P]. apply in_seq in Hk. lia.
  - split; auto. split; auto. exists r0. split; auto. split; auto. split; auto. split; auto. intros k j Hk Hj. split; [intros []|auto].
  - intros k _ [].
  - exists m2. split; auto. split; auto. split; auto. exists r2. split; auto. split; auto. split; auto.
    intros i Hi. pose proof (Nat.div_mod i W ltac:(lia)) as Ei. pose proof (Nat.mod_upper_bound i W ltac:(lia)) as Em.
    assert (Hk : i / W < N) by (apply Nat.div_lt_upper_bound; lia).
    destruct (Hv (i / W) (i mod W) Hk Em) as (A & _). rewrite <- Ei in A. apply A. apply S. left.
    eapply Permutation_in; [apply Permutation_sym; exact P|]. apply in_seq. split; [apply Nat.le_0_l|exact Hk].
Qed.
End Run.
