(** Proofs for C112: which types a kernel is instantiated with, and the evaluation of expressions. *)
From Coq Require Import String Permutation.
From Coq Require Import ZifyNat ZifyN ZifyBool.
From Verif Require Import Base BaseProofs CudaModel KnlModel KnlSpec CukModel CukSpec CukProofs.
Ltac Zify.zify_post_hook ::= idtac.

Ltac num H := cbn in H; repeat destruct H as [<-|H]; try destruct H.
Lemma numeric_builtin t : numeric t -> builtin t = true.
Proof. intros H. num H; reflexivity. Qed.
Lemma product_numeric s t : numeric s -> numeric t -> exists r, product_type s t = Some r /\ numeric r.
Proof. intros Hs Ht. num Hs; num Ht; eexists; (split; [reflexivity|cbn; tauto]). Qed.
Lemma functor_numeric b s t : numeric s -> numeric t -> exists r, functor_type b s t = Some r /\ numeric r.
Proof.
  intros Hs Ht. pose proof (product_numeric s t Hs Ht) as P.
  destruct b; cbn [functor_type]; auto; unfold common_type; destruct (ety_eqb s t) eqn:E; eauto.
Qed.
Lemma functor_same b s t : numeric s -> functor_type b s s = Some t -> floating t -> s = t.
Proof.
  intros Hs E Ht. destruct b; cbn [functor_type] in E; unfold common_type in E; rewrite ?ety_eqb_refl in E; try congruence;
    num Hs; cbn in E; destruct Ht as [-> | ->]; congruence.
Qed.
Lemma pad_ge n : n <= pad n.
Proof.
  unfold pad. pose proof (Nat.div_mod (n + 31) 32 ltac:(lia)). pose proof (Nat.mod_upper_bound (n + 31) 32 ltac:(lia)). lia.
Qed.
Lemma packets_fit n w : even_width w -> n <= w * packets_of n w <= pad n.
Proof.
  intros Hw. unfold packets_of. assert (W1 : 1 <= w) by (destruct Hw as [->|[->| ->]]; lia).
  pose proof (Nat.div_mod (n + (w - 1)) w ltac:(lia)). pose proof (Nat.mod_upper_bound (n + (w - 1)) w ltac:(lia)). split; [lia|].
  pose proof (pad_ge n) as P. unfold pad in *. revert P. generalize ((n + 31) / 32). intros c Hc.
  assert (X : exists j, 32 = w * j) by (destruct Hw as [->|[->| ->]]; [exists 32|exists 16|exists 8]; reflexivity).
  destruct X as (j & Hj). rewrite Hj in *. replace (w * j * c) with (w * (j * c)) in * by lia.
  apply Nat.mul_le_mono_l. apply Nat.lt_succ_r. apply Nat.div_lt_upper_bound; [lia|]. lia.
Qed.

Section Plan.
Context {V : Type}.
Variables wf wd : nat.
Hypothesis Hwf : even_width wf.
Hypothesis Hwd : even_width wd.
Implicit Types e : expr V.

Lemma supported_type e : supported e -> exists t, ty_of e = Some t /\ numeric t.
Proof.
  induction e as [t a|t x|u e1 IH|b e1 IH1 e2 IH2]; cbn [supported ty_of]; intros S; eauto.
  - apply IH. tauto.
  - destruct S as (S1 & S2 & _). destruct (IH1 S1) as (s & -> & Ns), (IH2 S2) as (t & -> & Nt).
    now apply functor_numeric.
Qed.
(** the packet type of float or double, when there is one of more than one element *)
Lemma vec_shape t : floating t -> vec_type wf wd t = DS t \/ exists w, vec_type wf wd t = DV t w /\ (w = 2 \/ w = 4).
Proof.
  intros [-> | ->]; cbn [vec_type].
  - destruct Hwf as [->|[->| ->]]; cbn; eauto.
  - destruct Hwd as [->|[->| ->]]; cbn; eauto.
Qed.
Lemma width_numeric t : numeric t -> exists w, packet_width (vec_type wf wd t) = Some w /\
  (1 < w -> floating t /\ vec_type wf wd t = DV t w /\ (w = 2 \/ w = 4)).
Proof.
  intros H. assert (D : (exists s, t = s /\ ~ floating s /\ vec_type wf wd t = DS t /\ packet_width (DS t) = Some 1) \/ floating t).
  { num H; try (right; unfold floating; tauto); left; eexists; (split; [reflexivity|]); (split; [intros [X|X]; discriminate X|]); split; reflexivity. }
  destruct D as [(s & -> & _ & -> & ->)|F].
  - exists 1. split; [reflexivity|lia].
  - destruct (vec_shape t F) as [E|(w & E & Hw)]; rewrite E.
    + exists 1. split; [destruct F as [-> | ->]; reflexivity|lia].
    + destruct F as [-> | ->]; destruct Hw as [-> | ->]; cbn [packet_width]; eexists; (split; [reflexivity|]); intros L;
        try lia; (split; [unfold floating; tauto|auto]).
Qed.
Lemma can_spec ok s e t : ty_of e = Some t -> numeric s -> numeric t -> (s = t \/ ~ (floating s /\ floating t)) ->
  exists c, can_vectorise wf wd ok s e = Some c /\
    (c = true -> ok = true /\ allow e = true /\ s = t /\ floating t /\ exists w, vec_type wf wd t = DV t w /\ (w = 2 \/ w = 4) /\ packet_width (DV t w) = Some w) /\
    (ok = true -> forall w, s = t -> allow e = true -> vec_type wf wd t = DV t w -> packet_width (DV t w) = Some w -> 1 < w -> c = true).
Proof.
  intros He Ns Nt Hst. unfold can_vectorise. rewrite He.
  destruct (width_numeric s Ns) as (v & Ev & Fv), (width_numeric t Nt) as (w & Ew & Fw). rewrite Ev, Ew.
  eexists. split; [reflexivity|]. split.
  - intros H. repeat (apply andb_prop in H; destruct H as [H ?]). apply andb_prop in H1. destruct H1.
    destruct (Fv ltac:(lia)) as (Fs & Vs & _), (Fw ltac:(lia)) as (Ft & Vt & W2).
    split; auto. split; auto. split; [destruct Hst as [X|X]; [exact X|exfalso; apply X; auto]|]. split; auto.
    exists w. rewrite Vt in *. auto.
  - intros -> w' -> -> E1 E2 L. rewrite E1, E2 in *. assert (w' = v) by congruence. assert (w' = w) by congruence. subst v w.
    unfold dtypes_are_same. rewrite !ety_eqb_refl. cbn [andb]. lia.
Qed.

(** every template argument: packets of the same width throughout, or single elements throughout *)
Definition same_width (c : bool) (d : ety) (e : expr V) : Prop :=
  c = true -> allow e = true /\ ty_of e = Some d /\ floating d /\ exists w, vec_type wf wd d = DV d w /\ (w = 2 \/ w = 4).
Lemma plan_spec d e t args : ty_of e = Some t -> numeric d -> numeric t -> (d = t \/ ~ (floating d /\ floating t)) ->
  exists c, make_plan wf wd d e args =
      Some {| p_dst := extract wf wd c d; p_args := map (extract_arg wf wd c) args; p_width := lanes_of (extract wf wd c d) |} /\
    same_width c d e.
Proof.
  intros He Nd Nt H. unfold make_plan. destruct (can_spec (allow_vec d) d e t He Nd Nt H) as (c & E & C & C').
  rewrite E. exists c. destruct c.
  - destruct (C eq_refl) as (A & B & Hdt & F & w & Vw & W2 & Pw). subst t. cbn [extract]. rewrite Vw. cbn [scal allow_d].
    destruct (can_spec true d e d He Nd Nd (or_introl eq_refl)) as (c2 & E2 & _ & C2). rewrite E2.
    rewrite (C2 eq_refl w eq_refl B Vw Pw ltac:(lia)). rewrite E, He. cbn [extract]. rewrite Vw, Pw. cbn [lanes_of].
    split; [reflexivity|]. intros _. split; auto. split; auto. split; auto. eauto.
  - cbn [extract scal allow_d]. rewrite E, He. cbn [extract lanes_of].
    destruct (width_numeric t Nt) as (w & _ & _). assert (P1 : packet_width (DS t) = Some 1) by (num Nt; reflexivity). rewrite P1.
    split; [reflexivity|]. intros X. discriminate X.
Qed.

Definition arg_dty (c : bool) (e : expr V) (t : ety) : dty := if is_scalar e then DS t else extract wf wd c t.
Lemma extract_arg_spec c e t : ty_of e = Some t -> extract_arg wf wd c e = Some (arg_dty c e t).
Proof. destruct e; cbn [extract_arg is_scalar arg_dty]; unfold arg_dty; cbn [is_scalar]; intros E; rewrite ?E; try reflexivity.
  now injection E as ->. Qed.
Lemma arg_scal c e t : scal (arg_dty c e t) = t.
Proof.
  unfold arg_dty. destruct (is_scalar e); [reflexivity|]. destruct c; [|reflexivity]. cbn [extract].
  destruct t; cbn [vec_type]; try reflexivity; [destruct (1 <? wf)|destruct (1 <? wd)]; reflexivity.
Qed.

Variable n : nat.

(** the argument handed over for [e] *)
Definition stands (m : memory V) (e : expr V) (t : ety) (a : @arg V) (f : nat -> option V) : Prop :=
  match a with
  | AScal s x => is_scalar e = true /\ s = t /\ forall i, f i = Some x
  | AArr q => is_scalar e = false /\ exists r, nth_error m q = Some r /\ a_ty r = t /\ pad n <= length (a_data r) /\
      forall i, i < n -> exists v, nth_error (a_data r) i = Some v /\ f i = Some v
  end.
(** what a node does to the memory *)
Definition written (m m' : memory V) (dst : nat) (f : nat -> option V) : Prop :=
  length m' = length m /\ (forall p, p <> dst -> nth_error m' p = nth_error m p) /\
  exists r r', nth_error m dst = Some r /\ nth_error m' dst = Some r' /\ a_ty r' = a_ty r /\ length (a_data r') = length (a_data r) /\
    forall i, i < n -> exists v, nth_error (a_data r') i = Some v /\ f i = Some v.

Lemma even_lanes c d e : same_width c d e -> even_width (lanes_of (extract wf wd c d)).
Proof.
  intros H. destruct c; cbn [extract]; [|left; reflexivity]. destruct (H eq_refl) as (_ & _ & _ & w & -> & W2). cbn [lanes_of].
  right. tauto.
Qed.
Lemma packets_pos w : 1 <= n -> even_width w -> 1 <= packets_of n w.
Proof.
  intros Hn H. destruct (packets_fit n w H) as (A & _). destruct (packets_of n w); [|lia]. rewrite Nat.mul_0_r in A. lia.
Qed.
Lemma fits_arg c d e0 e t m a f ptr : same_width c d e0 -> (c = true -> t = d) -> stands m e t a f -> ptr = negb (is_scalar e) ->
  fits_run m (lanes_of (extract wf wd c d)) (packets_of n (lanes_of (extract wf wd c d))) (arg_dty c e t, ptr, a).
Proof.
  intros Hc Ht S ->. pose proof (even_lanes c d e0 Hc) as Ev. destruct (packets_fit n _ Ev) as (_ & P). unfold arg_dty.
  destruct a as [q|s x]; cbn [stands] in S.
  - destruct S as (-> & r & Hq & Tq & Lq & _). cbn [negb fits_run]. split.
    + destruct c; cbn [extract]; [now rewrite (Ht eq_refl)|reflexivity].
    + exists r. split; auto. split; [|lia]. rewrite Tq. symmetry. pose proof (arg_scal c e t) as X. unfold arg_dty in X.
      destruct c; cbn [extract] in *; [|reflexivity].
      destruct (is_scalar e); auto. clear X. destruct t; cbn [vec_type]; try reflexivity; [destruct (1 <? wf)|destruct (1 <? wd)]; reflexivity.
  - destruct S as (-> & -> & _). reflexivity.
Qed.
Lemma dst_lanes c d : scal (extract wf wd c d) = d.
Proof.
  destruct c; cbn [extract]; [|reflexivity]. destruct d; cbn [vec_type]; try reflexivity; [destruct (1 <? wf)|destruct (1 <? wd)]; reflexivity.
Qed.
Lemma argval_stands m e t a f dd ptr i v : stands m e t a f -> i < n -> argval m i (dd, ptr, a) = Some v -> f i = Some v.
Proof.
  unfold argval. cbn [snd]. destruct a as [q|s x]; cbn [stands]; intros S Hi E.
  - destruct S as (_ & r & Hq & _ & _ & H). unfold element in E. rewrite Hq in E. destruct (H i Hi) as (w & E1 & E2). congruence.
  - destruct S as (_ & _ & H). rewrite H. congruence.
Qed.
End Plan.
