(** Proofs about the map wrappers. *)
From Coq Require Import Permutation.
From Verif Require Import Base BaseProofs MapModel MapSpec.

Section Proofs.
Context {K V : Type}.
Variable keq : forall a b : K, {a = b} + {a <> b}.
Variable lt : K -> K -> bool.
Hypothesis Hlt : total_order lt.

Lemma same_eq a b : same lt a b = if keq a b then true else false.
Proof.
  destruct Hlt as (Hi & _ & Ht). unfold same. destruct (keq a b) as [->|Hne].
  - now rewrite Hi.
  - destruct (Ht a b Hne) as [-> | ->]; cbn; [reflexivity|now rewrite andb_false_r].
Qed.
Lemma same_refl a : same lt a a = true.
Proof. rewrite same_eq. now destruct (keq a a). Qed.

Definition lookup (k : K) (m : list (K * V)) : option V := option_map snd (find lt k m).
Lemma find_Some k (m : list (K * V)) p : find lt k m = Some p -> In p m /\ fst p = k.
Proof.
  induction m as [|[a v] m IH]; cbn; [discriminate|]. rewrite same_eq. destruct (keq a k) as [->|].
  - intros [= <-]. auto.
  - intros E. destruct (IH E). auto.
Qed.
Lemma find_None k (m : list (K * V)) : find lt k m = None <-> ~ In k (map fst m).
Proof.
  induction m as [|[a v] m IH]; cbn; [tauto|]. rewrite same_eq. destruct (keq a k) as [->|Hne].
  - split; [discriminate|]. intros H. exfalso. auto.
  - rewrite IH. tauto.
Qed.
Lemma find_In k v (m : list (K * V)) : NoDup (map fst m) -> In (k, v) m -> find lt k m = Some (k, v).
Proof.
  induction m as [|[a w] m IH]; cbn; [easy|]. intros Hn H. inversion Hn as [|x l H1 H2]; subst.
  rewrite same_eq. destruct (keq a k) as [->|Hne].
  - destruct H as [H|H]; [congruence|]. exfalso. apply H1. now apply (in_map fst) in H.
  - apply IH; auto. destruct H as [H|H]; [congruence|exact H].
Qed.
Lemma lookup_In k v (m : list (K * V)) : NoDup (map fst m) -> lookup k m = Some v <-> In (k, v) m.
Proof.
  intros Hn. unfold lookup. split.
  - destruct (find lt k m) as [[a w]|] eqn:E; [|discriminate]. cbn. intros [= <-].
    destruct (find_Some _ _ _ E) as [H1 H2]. cbn in H2. now subst.
  - intros H. now rewrite (find_In k v).
Qed.
Lemma find_lookup k (m : list (K * V)) : find lt k m = match lookup k m with Some v => Some (k, v) | None => None end.
Proof.
  unfold lookup. destruct (find lt k m) as [[a v]|] eqn:E; [|reflexivity].
  destruct (find_Some _ _ _ E) as [_ H]. cbn in H. now subst.
Qed.

Lemma place_perm k v (m : list (K * V)) : Permutation (place lt k v m) ((k, v) :: m).
Proof.
  induction m as [|[a w] m IH]; cbn; [reflexivity|]. destruct (lt k a); [reflexivity|].
  rewrite IH. apply perm_swap.
Qed.
Lemma overwrite_keys k v (m : list (K * V)) : map fst (overwrite lt k v m) = map fst m.
Proof. induction m as [|[a w] m IH]; cbn; [reflexivity|]. destruct (same lt a k); cbn; congruence. Qed.
Lemma erase_keys k (m : list (K * V)) x : In x (map fst (erase lt k m)) -> In x (map fst m).
Proof.
  induction m as [|[a w] m IH]; cbn; [easy|]. destruct (same lt a k); cbn; [auto|]. intros [->|H]; auto.
Qed.

Lemma nodup_perm (m m' : list (K * V)) : Permutation m m' -> NoDup (map fst m) -> NoDup (map fst m').
Proof. intros H. apply Permutation_NoDup. now apply Permutation_map. Qed.
Lemma lookup_perm k (m m' : list (K * V)) : Permutation m m' -> NoDup (map fst m) -> lookup k m = lookup k m'.
Proof.
  intros H Hn. pose proof (nodup_perm _ _ H Hn) as Hn'.
  destruct (lookup k m) as [v|] eqn:E.
  - apply lookup_In in E; auto. symmetry. apply lookup_In; auto. now apply (Permutation_in _ H).
  - destruct (lookup k m') as [v|] eqn:E'; [|reflexivity]. apply lookup_In in E'; auto.
    apply (Permutation_in _ (Permutation_sym H)) in E'. apply (lookup_In k v m Hn) in E'. congruence.
Qed.

Lemma lookup_cons a v (m : list (K * V)) k : lookup k ((a, v) :: m) = if keq k a then Some v else lookup k m.
Proof.
  unfold lookup. cbn. rewrite same_eq. destruct (keq a k) as [->|Hne].
  - destruct (keq k k); [reflexivity|congruence].
  - destruct (keq k a); [congruence|reflexivity].
Qed.
Lemma lookup_none k (m : list (K * V)) : lookup k m = None <-> ~ In k (map fst m).
Proof. unfold lookup. rewrite <- find_None. destruct (find lt k m); cbn; split; congruence. Qed.
Lemma lookup_overwrite k v (m : list (K * V)) x : In k (map fst m) ->
  lookup x (overwrite lt k v m) = if keq x k then Some v else lookup x m.
Proof.
  induction m as [|[a w] m IH]; cbn [map fst In overwrite]; [easy|]. intros H. rewrite same_eq.
  destruct (keq a k) as [->|Hne].
  - rewrite !lookup_cons. destruct (keq x k); reflexivity.
  - rewrite !lookup_cons. rewrite IH by (destruct H; [congruence|assumption]).
    destruct (keq x a) as [->|]; [|reflexivity]. destruct (keq a k); [congruence|reflexivity].
Qed.
Lemma lookup_erase k (m : list (K * V)) x : NoDup (map fst m) ->
  lookup x (erase lt k m) = if keq x k then None else lookup x m.
Proof.
  induction m as [|[a w] m IH]; cbn [map fst erase]; intros Hn.
  - destruct (keq x k); reflexivity.
  - inversion Hn as [|y l H1 H2]; subst. rewrite same_eq. destruct (keq a k) as [->|Hne].
    + rewrite lookup_cons. destruct (keq x k) as [->|]; [|reflexivity]. now apply lookup_none.
    + rewrite !lookup_cons, IH by assumption. destruct (keq x a) as [->|]; [|reflexivity].
      destruct (keq a k); [congruence|reflexivity].
Qed.
Lemma lookup_place k v (m : list (K * V)) x : ~ In k (map fst m) -> NoDup (map fst m) ->
  lookup x (place lt k v m) = if keq x k then Some v else lookup x m.
Proof.
  intros H Hn. rewrite <- lookup_cons. symmetry. apply lookup_perm.
  - apply Permutation_sym, place_perm.
  - cbn. now constructor.
Qed.
Lemma nodup_place k v (m : list (K * V)) : ~ In k (map fst m) -> NoDup (map fst m) -> NoDup (map fst (place lt k v m)).
Proof.
  intros H Hn. apply (nodup_perm ((k, v) :: m)); [apply Permutation_sym, place_perm|]. cbn. now constructor.
Qed.
Lemma nodup_erase k (m : list (K * V)) : NoDup (map fst m) -> NoDup (map fst (erase lt k m)).
Proof.
  induction m as [|[a w] m IH]; cbn; intros Hn; [constructor|]. inversion Hn as [|y l H1 H2]; subst.
  destruct (same lt a k); [exact H2|]. cbn. constructor; [|auto]. intros H. apply H1. now apply erase_keys in H.
Qed.

Definition agrees (m : list (K * V)) (f : K -> option V) := NoDup (map fst m) /\ forall k, lookup k m = f k.

Lemma step_agrees (m : list (K * V)) f c : agrees m f -> agrees (step lt m c) (effect keq f c).
Proof.
  intros [Hn Hf]. destruct c as [k v|k v|k|d k|]; cbn [step effect].
  - unfold insert. rewrite find_lookup, Hf. destruct (f k) as [u|] eqn:E; [now split|].
    rewrite <- Hf in E. apply lookup_none in E. split; [now apply nodup_place|].
    intros x. rewrite lookup_place by assumption. unfold update. now rewrite Hf.
  - unfold put. rewrite find_lookup. destruct (lookup k m) as [u|] eqn:E.
    + split; [now rewrite overwrite_keys|]. intros x.
      rewrite lookup_overwrite by (destruct (in_dec keq k (map fst m)) as [H|H]; [exact H|apply lookup_none in H; congruence]).
      unfold update. now rewrite Hf.
    + apply lookup_none in E. split; [now apply nodup_place|].
      intros x. rewrite lookup_place by assumption. unfold update. now rewrite Hf.
  - split; [now apply nodup_erase|]. intros x. rewrite lookup_erase by assumption. unfold update. now rewrite Hf.
  - unfold subscript. rewrite find_lookup, Hf. destruct (f k) as [u|] eqn:E; [now split|]. cbn [snd].
    rewrite <- Hf in E. apply lookup_none in E. split; [now apply nodup_place|].
    intros x. rewrite lookup_place by assumption. unfold update. now rewrite Hf.
  - split; [constructor|]. reflexivity.
Qed.

Lemma agrees_nil : agrees [] (fun _ => None).
Proof. split; [constructor|reflexivity]. Qed.
Lemma run_agrees cs : agrees (run lt cs) (meaning keq cs).
Proof.
  induction cs as [|c cs IH] using rev_ind; [apply agrees_nil|].
  unfold run, meaning in *. rewrite !fold_left_app. cbn. now apply step_agrees.
Qed.
Lemma urun_agrees cs (m : list (K * V)) : urun lt cs m -> agrees m (meaning keq cs).
Proof.
  induction 1 as [|cs c m m' H IH Hp]; [apply agrees_nil|].
  unfold meaning. rewrite fold_left_app. cbn. fold (meaning keq cs).
  destruct (step_agrees m _ c IH) as [Hn Hf]. apply Permutation_sym in Hp.
  split; [now apply (nodup_perm _ _ Hp)|]. intros k. rewrite <- Hf. symmetry. now apply lookup_perm.
Qed.

Lemma queries (m : list (K * V)) f k d : agrees m f ->
  (contains lt k m = true <-> f k <> None) /\
  contains_value lt k d m = (match f k with Some v => (true, v) | None => (false, d) end) /\
  get lt k d m = (match f k with Some v => v | None => d end) /\
  fst (subscript lt d k m) = (match f k with Some v => v | None => d end).
Proof.
  intros [Hn Hf]. unfold contains, contains_value, get, subscript. rewrite find_lookup, Hf.
  destruct (f k); repeat split; congruence.
Qed.

(** Iteration order of the ordered map. *)
Lemma increasing_place k v (m : list (K * V)) : ~ In k (map fst m) -> increasing lt m -> increasing lt (place lt k v m).
Proof.
  destruct Hlt as (Hi & Htr & Hto).
  induction m as [|[a w] m IH]; cbn [place increasing map fst In]; intros Hk Hm.
  - split; [easy|exact I].
  - destruct Hm as [H1 H2]. destruct (lt k a) eqn:E.
    + cbn. split; [|now split]. intros b [<-|Hb]; [exact E|]. eapply Htr; [exact E|]. now apply H1.
    + cbn. split.
      * intros b Hb. apply (Permutation_in b (Permutation_map fst (place_perm k v m))) in Hb. cbn in Hb.
        destruct Hb as [<-|Hb]; [|auto]. destruct (Hto a k) as [H|H]; auto. congruence.
      * apply IH; auto.
Qed.
Lemma increasing_overwrite k v (m : list (K * V)) : increasing lt m -> increasing lt (overwrite lt k v m).
Proof.
  induction m as [|[a w] m IH]; cbn; [easy|]. intros [H1 H2]. destruct (same lt a k); cbn; [now split|].
  rewrite overwrite_keys. split; auto.
Qed.
Lemma increasing_erase k (m : list (K * V)) : increasing lt m -> increasing lt (erase lt k m).
Proof.
  induction m as [|[a w] m IH]; cbn; [easy|]. intros [H1 H2]. destruct (same lt a k); [exact H2|].
  cbn. split; [|auto]. intros b Hb. apply H1. now apply erase_keys in Hb.
Qed.
Lemma run_increasing (cs : list (call K V)) : increasing lt (run lt cs).
Proof.
  induction cs as [|c cs IH] using rev_ind; [exact I|].
  unfold run in *. rewrite fold_left_app. cbn.
  set (m := fold_left (step lt) cs []) in *.
  assert (P : forall k v, find lt k m = None -> increasing lt (place lt k v m)).
  { intros k v H. apply increasing_place; [now apply find_None|exact IH]. }
  destruct c as [k v|k v|k|d k|]; cbn [step].
  - unfold insert. destruct (find lt k m) eqn:E; auto.
  - unfold put. destruct (find lt k m) eqn:E; auto. now apply increasing_overwrite.
  - now apply increasing_erase.
  - unfold subscript. destruct (find lt k m) as [[a w]|] eqn:E; cbn; auto.
  - exact I.
Qed.

Lemma str_eq (m : list (K * V)) : str m = [Open] ++ flat_map (fun p => [Indent; Key (fst p); Colon; Value (snd p); Newline]) m ++ [Close].
Proof.
  unfold str. rewrite app_assoc. f_equal.
  assert (H : forall s, fold_left (fun (s : list (piece K V)) p => s ++ [Indent; Key (fst p)] ++ [Colon] ++ [Value (snd p)] ++ [Newline]) m s
     = s ++ flat_map (fun p => [Indent; Key (fst p); Colon; Value (snd p); Newline]) m).
  { induction m as [|p m IH]; intros s; cbn [fold_left flat_map]; [now rewrite app_nil_r|].
    rewrite IH. now rewrite <- app_assoc. }
  apply H.
Qed.
End Proofs.
