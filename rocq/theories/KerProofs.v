(** Proofs about loading kernels. *)
From Coq Require Import ZArith String Ascii Lia.
From Coq Require Import ZifyNat ZifyN ZifyBool.
From Verif Require Import Base KerModel KerSpec.
Ltac Zify.zify_post_hook ::= idtac.
Local Open Scope string_scope.

Lemma app_assoc : forall a b c : string, (a ++ b) ++ c = a ++ (b ++ c).
Proof. induction a as [|x a IH]; intros b c; cbn; [reflexivity|]. now rewrite IH. Qed.

Lemma fopen_reads : forall fs p t, fopen fs p = Some t <-> reads fs p t.
Proof.
  intros fs p t. unfold fopen, reads. destruct (fs p) as [f|].
  - destruct (writable f) eqn:W; split.
    + intros [= <-]. now exists f.
    + intros (g & [= <-] & _ & <-). reflexivity.
    + discriminate.
    + intros (g & [= <-] & W' & _). congruence.
  - split; [discriminate|]. intros (g & [=] & _).
Qed.
Lemma fopen_unreadable : forall fs p, fopen fs p = None <-> unreadable fs p.
Proof.
  intros fs p. split.
  - intros E t R. apply fopen_reads in R. congruence.
  - intros U. destruct (fopen fs p) as [t|] eqn:E; [|reflexivity]. apply fopen_reads in E. now elim (U t).
Qed.

Lemma missing_or_source : forall root fs p r, missing root fs p r \/ exists t, source root fs p r t.
Proof.
  intros root fs p r. unfold missing, source. rewrite <- !fopen_unreadable.
  destruct (fopen fs (helperPath root)) as [h|] eqn:E1; [|auto].
  destruct (fopen fs (vectorOpsPath root)) as [v|] eqn:E2; [|auto].
  destruct (fopen fs (dualPath root)) as [d|] eqn:E3; [|auto].
  destruct (fopen fs (kernelPath root r p)) as [k|] eqn:E4; [|auto 6].
  right. exists (program p h v d k), h, v, d, k. rewrite <- !fopen_reads. auto.
Qed.
Lemma source_unique : forall root fs p r t u, source root fs p r t -> source root fs p r u -> t = u.
Proof.
  intros root fs p r t u (h & v & d & k & H1 & H2 & H3 & H4 & ->) (h' & v' & d' & k' & G1 & G2 & G3 & G4 & ->).
  apply fopen_reads in H1, H2, H3, H4, G1, G2, G3, G4. congruence.
Qed.
Lemma source_not_missing : forall root fs p r t, source root fs p r t -> missing root fs p r -> False.
Proof.
  intros root fs p r t (h & v & d & k & H1 & H2 & H3 & H4 & _) [U|[U|[U|U]]]; [elim (U h)|elim (U v)|elim (U d)|elim (U k)]; auto.
Qed.

Lemma load_hit : forall a root fs c p r t, c p = Some t -> loadKernel a root fs c p r = (c, Ok t).
Proof. intros a root fs c p r t E. unfold loadKernel. now rewrite E. Qed.

Lemma load_missing : forall root fs c p r, c p = None -> missing root fs p r -> loadKernel true root fs c p r = (c, Throw RuntimeError).
Proof.
  intros root fs c p r E M. unfold loadKernel. rewrite E. unfold missing in M. rewrite <- !fopen_unreadable in M.
  destruct (fopen fs (helperPath root)) as [h|]; [|reflexivity].
  destruct (fopen fs (vectorOpsPath root)) as [v|]; [|reflexivity].
  destruct (fopen fs (dualPath root)) as [d|]; [|reflexivity].
  destruct (fopen fs (kernelPath root r p)) as [k|]; [|reflexivity].
  exfalso. intuition discriminate.
Qed.

Lemma put_file_some : forall b t, t <> "" -> put_file {| buf := b; fail := false |} (Some t) = {| buf := b ++ t; fail := false |}.
Proof. intros b [|x t] H; [congruence|reflexivity]. Qed.
Lemma put_file_buf : forall b t, buf (put_file {| buf := b; fail := false |} (Some t)) = b ++ t.
Proof.
  intros b [|x t]; [|reflexivity]. cbn. induction b as [|y b IH]; cbn; [reflexivity|]. now rewrite <- IH.
Qed.

Lemma load_found : forall a root fs c p r t, c p = None -> sound_files root fs -> source root fs p r t ->
  loadKernel a root fs c p r = (remember c p t, Ok t).
Proof.
  intros a root fs c p r t E (N1 & N2 & N3) (h & v & d & k & H1 & H2 & H3 & H4 & ->).
  assert (L1 : h <> "") by (intros ->; auto). assert (L2 : v <> "") by (intros ->; auto). assert (L3 : d <> "") by (intros ->; auto).
  apply fopen_reads in H1, H2, H3, H4. unfold loadKernel. rewrite E, H1, H2, H3, H4. cbn [is_open negb]. rewrite andb_false_r.
  cbv zeta. unfold fresh. rewrite put_file_some by exact L1. unfold put. cbn [fail buf].
  rewrite put_file_some by exact L2. cbn [fail buf]. rewrite put_file_some by exact L3. cbn [fail buf]. rewrite put_file_buf.
  replace (p ++ nl ++ _) with (program p h v d k); [reflexivity|].
  unfold program. rewrite !app_assoc. reflexivity.
Qed.

Lemma remember_same : forall c p t, remember c p t p = Some t.
Proof. intros c p t. unfold remember. now rewrite String.eqb_refl. Qed.
Lemma remember_other : forall c p t q, q <> p -> remember c p t q = c q.
Proof. intros c p t q N. unfold remember. destruct (String.eqb_spec q p); [contradiction|reflexivity]. Qed.

(** A load never changes an entry *)
Lemma load_keeps : forall a root fs c p r q t, c q = Some t -> fst (loadKernel a root fs c p r) q = Some t.
Proof.
  intros a root fs c p r q t E. unfold loadKernel. destruct (c p) as [u|] eqn:P; [exact E|].
  repeat match goal with |- context [if ?b then _ else _] => destruct b; [exact E|] end.
  cbn [fst]. rewrite remember_other; [exact E|]. intros ->. congruence.
Qed.
(** What a load answers is in the cache from then on *)
Lemma load_answer : forall a root fs c p r t, snd (loadKernel a root fs c p r) = Ok t -> fst (loadKernel a root fs c p r) p = Some t.
Proof.
  intros a root fs c p r t. unfold loadKernel. destruct (c p) as [u|] eqn:P; [cbn; congruence|].
  repeat match goal with |- context [if ?b then _ else _] => destruct b; [discriminate|] end.
  cbn [fst snd]. intros [= <-]. apply remember_same.
Qed.

Lemma loads_kept : forall a root h c p t j l, c p = Some t -> nth_error h j = Some l -> path l = p ->
  nth_error (loads a root c h) j = Some (Ok t).
Proof.
  intros a root. induction h as [|x h IH]; intros c p t j l C N P; [destruct j; discriminate|]. cbn [loads].
  destruct (loadKernel a root (files x) c (path x) (relative x)) as [c' b] eqn:E. destruct j as [|j].
  - cbn in N. injection N as ->. rewrite P, (load_hit _ _ _ _ _ _ _ C) in E. injection E as <- <-. reflexivity.
  - cbn in N. cbn. apply (IH c' p t j l); auto. pose proof (load_keeps a root (files x) c (path x) (relative x) p t C) as K.
    rewrite E in K. exact K.
Qed.
Lemma loads_stable : forall a root h c i j l m t, (i <= j)%nat -> nth_error h i = Some l -> nth_error h j = Some m -> path l = path m ->
  nth_error (loads a root c h) i = Some (Ok t) -> nth_error (loads a root c h) j = Some (Ok t).
Proof.
  intros a root. induction h as [|x h IH]; intros c i j l m t L NI NJ P A; [destruct i; discriminate|]. cbn [loads] in *.
  destruct (loadKernel a root (files x) c (path x) (relative x)) as [c' b] eqn:E. destruct i as [|i].
  - destruct j as [|j]; [exact A|]. cbn in *. injection NI as ->. injection A as ->.
    apply (loads_kept a root h c' (path l) t j m); auto.
    pose proof (load_answer a root (files l) c (path l) (relative l) t) as K. rewrite E in K. now apply K.
  - destruct j as [|j]; [lia|]. cbn in *. now apply (IH c' i j l m t); try lia.
Qed.

(** The whole history, with assertions *)
Lemma loads_history : forall root h c n l, nth_error h n = Some l -> c (path l) = None -> Forall (fun x => sound_files root (files x)) h ->
  (forall t, first_text root (path l) (firstn (S n) h) t -> nth_error (loads true root c h) n = Some (Ok t)) /\
  ((forall t, ~ first_text root (path l) (firstn (S n) h) t) -> nth_error (loads true root c h) n = Some (Throw RuntimeError)).
Proof.
  intros root. induction h as [|x h IH]; intros c n l N C F; [destruct n; discriminate|].
  inversion F as [|? ? Fx Fh]; subst. cbn [loads firstn].
  destruct (missing_or_source root (files x) (path x) (relative x)) as [M|[u Su]].
  - (* this load fails, or was cached *)
    destruct (string_dec (path x) (path l)) as [P|P].
    + rewrite <- P in C. rewrite (load_missing _ _ _ _ _ C M). rewrite P in M, C. destruct n as [|n].
      * cbn in N. injection N as ->. cbn. split; [|reflexivity]. intros t T. exfalso. inversion T as [? ? ? ? S|? ? ? ? T']; subst.
        -- now apply (source_not_missing _ _ _ _ _ S).
        -- inversion T'.
      * cbn in N. cbn. destruct (IH c n l N C Fh) as [I1 I2]. split.
        -- intros t T. apply I1. inversion T as [? ? ? ? S|? ? ? ? T']; subst; [|exact T'].
           exfalso. now apply (source_not_missing _ _ _ _ _ S).
        -- intros T. apply I2. intros t T'. apply (T t). apply first_later; auto.
    + destruct n as [|n]; [cbn in N; congruence|]. cbn in N.
      destruct (loadKernel true root (files x) c (path x) (relative x)) as [c' b] eqn:E. cbn.
      assert (C' : c' (path l) = None).
      { destruct (c (path x)) as [w|] eqn:W.
        - rewrite (load_hit _ _ _ _ _ _ _ W) in E. congruence.
        - rewrite (load_missing _ _ _ _ _ W M) in E. congruence. }
      destruct (IH c' n l N C' Fh) as [I1 I2]. split.
      * intros t T. apply I1. inversion T as [? ? ? Q S|? ? ? ? T']; subst; [congruence|exact T'].
      * intros T. apply I2. intros t T'. apply (T t). apply first_later; [congruence|exact T'].
  - destruct (string_dec (path x) (path l)) as [P|P].
    + assert (C1 : c (path x) = None) by congruence. rewrite (load_found _ _ _ _ _ _ _ C1 Fx Su). split.
      * intros t T. assert (t = u) as ->.
        { inversion T as [? ? ? Q S|? ? ? Q T']; subst.
          - rewrite <- P in S. now apply (source_unique _ _ _ _ _ _ S).
          - exfalso. rewrite <- P in Q. now apply (source_not_missing _ _ _ _ _ Su), Q. }
        destruct n as [|n]; [reflexivity|]. cbn in N. cbn. apply (loads_kept true root h _ (path l) u n l); auto.
        rewrite <- P. apply remember_same.
      * intros T. exfalso. apply (T u). apply first_here; [exact P|]. now rewrite <- P.
    + destruct n as [|n]; [cbn in N; congruence|]. cbn in N.
      destruct (loadKernel true root (files x) c (path x) (relative x)) as [c' b] eqn:E. cbn.
      assert (C' : c' (path l) = None).
      { destruct (c (path x)) as [w|] eqn:W.
        - rewrite (load_hit _ _ _ _ _ _ _ W) in E. congruence.
        - rewrite (load_found _ _ _ _ _ _ _ W Fx Su) in E. injection E as <- <-. rewrite remember_other by congruence. exact C. }
      destruct (IH c' n l N C' Fh) as [I1 I2]. split.
      * intros t T. apply I1. inversion T as [? ? ? Q S|? ? ? ? T']; subst; [congruence|exact T'].
      * intros T. apply I2. intros t T'. apply (T t). apply first_later; [congruence|exact T'].
Qed.

(** Every text starts with a line that is the path *)
Lemma load_line : forall a root fs c p r t, c p = None -> snd (loadKernel a root fs c p r) = Ok t -> exists b, t = p ++ nl ++ b.
Proof.
  intros a root fs c p r t C. unfold loadKernel. rewrite C.
  repeat match goal with |- context [if ?b then _ else _] => destruct b; [discriminate|] end.
  cbn [snd]. intros [= <-]. eexists. reflexivity.
Qed.
Lemma line_inj : forall p q a b, one_line p -> one_line q -> p ++ nl ++ a = q ++ nl ++ b -> p = q /\ a = b.
Proof.
  induction p as [|x p IH]; intros [|y q] a b Hp Hq E; cbn in *.
  - injection E as E. auto.
  - injection E as E1 E2. destruct Hq as [Hq _]. congruence.
  - injection E as E1 E2. destruct Hp as [Hp _]. congruence.
  - injection E as -> E. destruct (IH q a b) as [-> ->]; tauto.
Qed.
Lemma loads_line : forall a root h c n l t, (forall q u, c q = Some u -> exists b, u = q ++ nl ++ b) ->
  nth_error h n = Some l -> nth_error (loads a root c h) n = Some (Ok t) -> exists b, t = path l ++ nl ++ b.
Proof.
  intros a root. induction h as [|x h IH]; intros c n l t I N A; [destruct n; discriminate|]. cbn [loads] in A.
  pose proof (load_answer a root (files x) c (path x) (relative x)) as LA.
  pose proof (load_line a root (files x) c (path x) (relative x)) as LL.
  destruct (loadKernel a root (files x) c (path x) (relative x)) as [c' b] eqn:E. cbn [fst snd] in LA, LL. destruct n as [|n].
  - cbn in N, A. injection N as ->. injection A as ->. destruct (c (path l)) as [w|] eqn:W; [|now apply LL].
    rewrite (load_hit _ _ _ _ _ _ _ W) in E. injection E as <- <-. now apply I.
  - cbn in N, A. apply (IH c' n l t); auto. intros q u Q. destruct (string_dec q (path x)) as [->|D].
    + destruct (c (path x)) as [w|] eqn:W.
      * rewrite (load_hit _ _ _ _ _ _ _ W) in E. injection E as <- <-. now apply I.
      * apply LL; auto. unfold loadKernel in E. rewrite W in E.
        repeat match type of E with context [if ?b then _ else _] => destruct b; [injection E as <- <-; congruence|] end.
        injection E as <- <-. rewrite remember_same in Q. congruence.
    + apply I. unfold loadKernel in E. destruct (c (path x)) as [w|]; [injection E as <- <-; exact Q|].
      repeat match type of E with context [if ?b then _ else _] => destruct b; [injection E as <- <-; exact Q|] end.
      injection E as <- <-. rewrite remember_other in Q by exact D. exact Q.
Qed.

(** The error table *)
Lemma error_small : forall e, (-63 <= e <= 0)%Z -> exists k, (k < 64)%nat /\ e = (- Z.of_nat k)%Z.
Proof. intros e H. exists (Z.to_nat (- e)). lia. Qed.
