From Coq Require Import List Arith Lia.
From Verif Require Import Base BaseProofs LazyModel LazySpec.
Import ListNotations.
From Coq Require Import ZifyNat ZifyN ZifyBool.
Ltac Zify.zify_post_hook ::= idtac.

Section Proofs.
Context {A : Type}.
Implicit Types (st : state A) (t u o : thing A) (e : sexp A) (c : cmd A).

Lemma deref_ok st a t : deref st a = Ok t <-> live st a t.
Proof.
  unfold deref, live. destruct (nth_error st a) as [[u|]|]; split; intros H; inversion H; reflexivity.
Qed.
Lemma deref_dead st a : (forall t, ~ live st a t) -> deref st a = UB.
Proof.
  unfold deref, live. intros H. destruct (nth_error st a) as [[u|]|]; try reflexivity.
  exfalso. apply (H u). reflexivity.
Qed.
Lemma deref_cases st a : (exists t, live st a t /\ deref st a = Ok t) \/ deref st a = UB.
Proof. unfold deref, live. destruct (nth_error st a) as [[u|]|]; eauto. Qed.
Lemma live_lt st a t : live st a t -> a < length st.
Proof. unfold live. intros H. apply nth_error_Some. congruence. Qed.
Lemma live_fun st a t u : live st a t -> live st a u -> t = u.
Proof. unfold live. congruence. Qed.

(** * Reading *)
Lemma read_ref n st a i : read (S n) st (TRef a) i = bind (deref st a) (fun o => read n st o i).
Proof. reflexivity. Qed.
Lemma read_view n st a off s i :
  read (S n) st (TView a off s) i = bind (deref st a) (fun o => read n st o (off + i)).
Proof. reflexivity. Qed.
Lemma read_map n st f s u i :
  read (S n) st (TMap f s u) i = bind (read (S n) st u i) (fun x => Ok (f x)).
Proof. reflexivity. Qed.
Lemma read_fun n st f s l r i :
  read (S n) st (TFun f s l r) i
  = bind (read (S n) st l i) (fun x => bind (read (S n) st r i) (fun y => Ok (f x y))).
Proof. reflexivity. Qed.

Lemma read_elem n st : forall t i x, read n st t i = Ok x -> elem st t i x.
Proof.
  induction n as [|n IHn]; [intros ? ? ? H; discriminate H|].
  induction t as [s d|y|a|a off s|f s u IH|f s l IHl r IHr]; intros i x H.
  - cbn in H. unfold rd in H. destruct (nth_error d i) eqn:E; inversion H; subst. constructor. exact E.
  - cbn in H. inversion H. constructor.
  - rewrite read_ref in H. destruct (deref st a) eqn:E; try discriminate H. apply deref_ok in E.
    cbn [bind] in H. econstructor; [exact E|]. apply IHn. exact H.
  - rewrite read_view in H. destruct (deref st a) eqn:E; try discriminate H. apply deref_ok in E.
    cbn [bind] in H. econstructor; [exact E|]. apply IHn. exact H.
  - rewrite read_map in H. destruct (read (S n) st u i) eqn:E; try discriminate H. cbn [bind] in H.
    inversion H. constructor. apply IH. exact E.
  - rewrite read_fun in H. destruct (read (S n) st l i) eqn:E; try discriminate H.
    destruct (read (S n) st r i) eqn:E2; try discriminate H. cbn [bind] in H.
    inversion H. constructor; [apply IHl|apply IHr]; assumption.
Qed.

Lemma elem_fun st t i x : elem st t i x -> forall y, elem st t i y -> x = y.
Proof.
  induction 1 as [s d i x H|x i|a t i x H H1 IH|a t off s i x H H1 IH|f s t i x H IH|f s l r i x y H1 IH1 H2 IH2];
    intros z Hz; inversion Hz; subst.
  - congruence.
  - reflexivity.
  - apply IH. match goal with L : live st a ?q |- _ => rewrite (live_fun _ _ _ _ H L) end. assumption.
  - apply IH. match goal with L : live st a ?q |- _ => rewrite (live_fun _ _ _ _ H L) end. assumption.
  - f_equal. apply IH. assumption.
  - f_equal; [apply IH1|apply IH2]; assumption.
Qed.

Lemma read_never_throws n st : forall t i ex, read n st t i <> Throw ex.
Proof.
  induction n as [|n IHn]; [intros ? ? ? H; discriminate H|].
  induction t as [s d|y|a|a off s|f s u IH|f s l IHl r IHr]; intros i ex H.
  - cbn in H. unfold rd in H. destruct (nth_error d i); discriminate H.
  - discriminate H.
  - rewrite read_ref in H. destruct (deref_cases st a) as [(o & _ & E)|E]; rewrite E in H; cbn [bind] in H;
      [exact (IHn _ _ _ H)|discriminate H].
  - rewrite read_view in H. destruct (deref_cases st a) as [(o & _ & E)|E]; rewrite E in H; cbn [bind] in H;
      [exact (IHn _ _ _ H)|discriminate H].
  - rewrite read_map in H. destruct (read (S n) st u i) eqn:E; try discriminate H.
    exact (IH _ _ E).
  - rewrite read_fun in H. destruct (read (S n) st l i) eqn:E; try discriminate H.
    + cbn [bind] in H. destruct (read (S n) st r i) eqn:E2; try discriminate H. exact (IHr _ _ E2).
    + exact (IHl _ _ E).
Qed.

(** An element that depends on an object whose life has ended cannot be read. *)
Lemma dead_ref n st : forall t a i, In a (refs t) -> (forall u, ~ live st a u) -> read n st t i = UB.
Proof.
  destruct n as [|n]; [reflexivity|].
  induction t as [s d|y|a|a off s|f s u IH|f s l IHl r IHr]; intros b i Hin Hd; cbn [refs] in Hin.
  - contradiction.
  - contradiction.
  - destruct Hin as [<-|[]]. rewrite read_ref, (deref_dead _ _ Hd). reflexivity.
  - destruct Hin as [<-|[]]. rewrite read_view, (deref_dead _ _ Hd). reflexivity.
  - rewrite read_map, (IH b i Hin Hd). reflexivity.
  - rewrite read_fun. apply in_app_or in Hin as [Hin|Hin].
    + rewrite (IHl b i Hin Hd). reflexivity.
    + rewrite (IHr b i Hin Hd). destruct (read (S n) st l i) eqn:E; try reflexivity.
      exfalso. exact (read_never_throws _ _ _ _ _ E).
Qed.

(** * The frame *)
Lemma elem_frame st st' t i x :
  (forall a, reaches st t a -> nth_error st' a = nth_error st a) -> elem st t i x -> elem st' t i x.
Proof.
  intros Hf He. revert Hf.
  induction He as [s d i x H|x i|a t i x H H1 IH|a t off s i x H H1 IH|f s t i x H IH|f s l r i x y H1 IH1 H2 IH2];
    intros Hf.
  - constructor. exact H.
  - constructor.
  - apply el_ref with (t := t).
    + unfold live. rewrite (Hf a); [exact H|]. apply re_here. left. reflexivity.
    + apply IH. intros b Hb. apply Hf. apply re_there with (a := a) (u := t); [left; reflexivity|exact H|exact Hb].
  - apply el_view with (t := t).
    + unfold live. rewrite (Hf a); [exact H|]. apply re_here. left. reflexivity.
    + apply IH. intros b Hb. apply Hf. apply re_there with (a := a) (u := t); [left; reflexivity|exact H|exact Hb].
  - constructor. apply IH. intros b Hb. apply Hf.
    inversion Hb; subst; [apply re_here|eapply re_there]; eassumption.
  - constructor.
    + apply IH1. intros b Hb. apply Hf. inversion Hb; subst;
        [apply re_here|eapply re_there; [|eassumption|eassumption]]; cbn [refs]; apply in_or_app; left; assumption.
    + apply IH2. intros b Hb. apply Hf. inversion Hb; subst;
        [apply re_here|eapply re_there; [|eassumption|eassumption]]; cbn [refs]; apply in_or_app; right; assumption.
Qed.

(** * The invariant of sound programs *)
Definition idims st t : option (list nat) :=
  match t with
  | TRef a => match nth_error st a with Some (Some o) => own_dims o | _ => None end
  | _ => own_dims t
  end.
Definition dims_fit st t (s : list nat) : Prop := idims st t = None \/ idims st t = Some s.
Definition within st t (i : nat) : Prop := match idims st t with Some s => i < prodn s | None => True end.

Fixpoint fits st t : Prop :=
  match t with
  | TArr s d => length d = prodn s
  | TNum _ => True
  | TRef a => exists o, live st a o
  | TView a off s => exists o so, live st a o /\ own_dims o = Some so /\ off + prodn s <= prodn so
  | TMap _ s u => fits st u /\ dims_fit st u s
  | TFun _ s l r => fits st l /\ dims_fit st l s /\ fits st r /\ dims_fit st r s
  end.
Definition not_ref t : Prop := match t with TRef _ => False | _ => True end.
Definition object st (a : nat) t : Prop := not_ref t /\ (forall b, In b (refs t) -> b < a) /\ fits st t.
Definition sound st : Prop := forall a t, live st a t -> object st a t.

Lemma idims_live st a o : live st a o -> idims st (TRef a) = own_dims o.
Proof. unfold live. cbn. intros ->. reflexivity. Qed.

Lemma own_within st t i : not_ref t -> within st t i = match own_dims t with Some s => i < prodn s | None => True end.
Proof. intros H. unfold within, idims. destruct t; try reflexivity. destruct H. Qed.

Lemma sound_read st (Hs : sound st) :
  forall n t, (forall b, In b (refs t) -> b < n) -> fits st t -> forall i, within st t i ->
  forall fuel, n < fuel -> exists x, read fuel st t i = Ok x.
Proof.
  induction n as [n IHn] using lt_wf_ind.
  induction t as [s d|y|a|a off s|f s u IH|f s l IHl r IHr]; intros Hr Hf i Hi fuel Hfuel;
    (destruct fuel as [|fuel]; [lia|]).
  - cbn in *. unfold rd. destruct (nth_error d i) as [x|] eqn:E; [eauto|].
    apply nth_error_None in E. unfold within in Hi. cbn in Hi. lia.
  - exists y. reflexivity.
  - destruct Hf as (o & Ho). rewrite read_ref, (proj2 (deref_ok st a o) Ho). cbn [bind].
    destruct (Hs a o Ho) as (Hn & Hr' & Hf').
    assert (Ha : a < n) by (apply Hr; left; reflexivity).
    apply (IHn a Ha o Hr' Hf'); [|lia].
    unfold within in Hi. rewrite (idims_live _ _ _ Ho) in Hi. rewrite own_within by exact Hn. exact Hi.
  - destruct Hf as (o & so & Ho & Hd & Hle). rewrite read_view, (proj2 (deref_ok st a o) Ho). cbn [bind].
    destruct (Hs a o Ho) as (Hn & Hr' & Hf').
    assert (Ha : a < n) by (apply Hr; left; reflexivity).
    apply (IHn a Ha o Hr' Hf'); [|lia].
    rewrite own_within by exact Hn. rewrite Hd. unfold within in Hi. cbn in Hi. lia.
  - rewrite read_map. destruct Hf as (Hf & Hd).
    destruct (IH Hr Hf i) with (fuel := S fuel) as (x & ->); [|exact Hfuel|eexists; reflexivity].
    unfold within in *. cbn in Hi. destruct Hd as [->| ->]; [exact I|exact Hi].
  - rewrite read_fun. destruct Hf as (Hf1 & Hd1 & Hf2 & Hd2).
    assert (W : forall u, dims_fit st u s -> within st u i).
    { intros u Hu. unfold within in *. cbn in Hi. destruct Hu as [->| ->]; [exact I|exact Hi]. }
    destruct (IHl (fun b Hb => Hr b (in_or_app _ _ _ (or_introl Hb))) Hf1 i (W _ Hd1) (S fuel) Hfuel) as (x & ->).
    destruct (IHr (fun b Hb => Hr b (in_or_app _ _ _ (or_intror Hb))) Hf2 i (W _ Hd2) (S fuel) Hfuel) as (y & ->).
    eexists. reflexivity.
Qed.

Lemma fits_refs st t : fits st t -> forall b, In b (refs t) -> exists o, live st b o.
Proof.
  induction t as [s d|y|a|a off s|f s u IH|f s l IHl r IHr]; cbn; intros Hf b Hb.
  - destruct Hb.
  - destruct Hb.
  - destruct Hb as [<-|[]]. exact Hf.
  - destruct Hb as [<-|[]]. destruct Hf as (o & so & Ho & _). eauto.
  - apply IH; tauto.
  - apply in_app_or in Hb as [Hb|Hb]; [apply IHl|apply IHr]; tauto.
Qed.

Lemma sound_read_obj st t i : sound st -> fits st t -> within st t i ->
  exists x, read_obj st t i = Ok x /\ elem st t i x.
Proof.
  intros Hs Hf Hi. destruct (sound_read st Hs (length st) t) with (i := i) (fuel := S (length st)) as (x & Hx).
  - intros b Hb. destruct (fits_refs st t Hf b Hb) as (o & Ho). exact (live_lt _ _ _ Ho).
  - exact Hf.
  - exact Hi.
  - lia.
  - exists x. split; [exact Hx|]. exact (read_elem _ _ _ _ _ Hx).
Qed.

(** * How states grow and change *)
Lemma live_app st st2 a t : live st a t -> live (st ++ st2) a t.
Proof. intros H. unfold live. rewrite nth_error_app1; [exact H|exact (live_lt _ _ _ H)]. Qed.
Lemma live_snoc st x a t : live (st ++ [x]) a t -> live st a t \/ (a = length st /\ x = Some t).
Proof.
  unfold live. intros H. destruct (Nat.lt_ge_cases a (length st)) as [L|L].
  - left. rewrite nth_error_app1 in H by exact L. exact H.
  - right. rewrite nth_error_app2 in H by exact L.
    destruct (a - length st) as [|k] eqn:E; cbn in H.
    + split; [lia|]. congruence.
    + destruct k; discriminate H.
Qed.

(** Two objects of the same kind: an array may hold other elements, a number another number. *)
Definition same_form t u : Prop :=
  match t, u with
  | TArr s d, TArr s' d' => s = s' /\ length d = length d'
  | TNum _, TNum _ => True
  | _, _ => t = u
  end.
Lemma same_form_refl t : same_form t t.
Proof. destruct t; cbn; auto. Qed.
Lemma same_form_dims t u : same_form t u -> own_dims t = own_dims u.
Proof. destruct t, u; cbn; try discriminate; try (intros [= ]; subst; reflexivity); intros H; try reflexivity; destruct H; subst; reflexivity. Qed.
Lemma same_form_trans t u o : same_form t u -> same_form u o -> same_form t o.
Proof.
  destruct t, u; cbn; try discriminate; try (intros [= ]; subst; auto; fail); destruct o; cbn; try discriminate; auto.
  intros [-> ->] [-> ->]. auto.
Qed.
Lemma same_form_refs t u : same_form t u -> refs t = refs u.
Proof. destruct t, u; cbn; try discriminate; try (intros [= ]; subst; reflexivity); reflexivity. Qed.

(** [keeps t]: the objects [t] refers to are still there, in the same form. *)
Definition keeps st st' t : Prop :=
  forall a o, In a (refs t) -> live st a o -> exists o', live st' a o' /\ same_form o o'.

Lemma keeps_idims st st' t : fits st t -> keeps st st' t -> idims st' t = idims st t.
Proof.
  intros Hf Hk. destruct t; try reflexivity.
  destruct Hf as (o & Ho). destruct (Hk a o (or_introl eq_refl) Ho) as (o' & Ho' & E).
  rewrite (idims_live _ _ _ Ho), (idims_live _ _ _ Ho'). symmetry. apply same_form_dims. exact E.
Qed.
Lemma keeps_fits st st' t : keeps st st' t -> fits st t -> fits st' t.
Proof.
  induction t as [s d|y|a|a off s|f s u IH|f s l IHl r IHr]; intros Hk Hf.
  - exact Hf.
  - exact I.
  - destruct Hf as (o & Ho). destruct (Hk a o (or_introl eq_refl) Ho) as (o' & Ho' & _). exists o'. exact Ho'.
  - destruct Hf as (o & so & Ho & Hd & Hle). destruct (Hk a o (or_introl eq_refl) Ho) as (o' & Ho' & E).
    exists o', so. rewrite <- (same_form_dims _ _ E). auto.
  - destruct Hf as (Hf & Hd). split; [exact (IH Hk Hf)|].
    unfold dims_fit. rewrite (keeps_idims st st' u Hf Hk). exact Hd.
  - destruct Hf as (Hf1 & Hd1 & Hf2 & Hd2).
    assert (K1 : keeps st st' l) by (intros a o H; apply Hk; apply in_or_app; left; exact H).
    assert (K2 : keeps st st' r) by (intros a o H; apply Hk; apply in_or_app; right; exact H).
    unfold dims_fit in *. cbn [fits]. unfold dims_fit.
    rewrite (keeps_idims st st' l Hf1 K1), (keeps_idims st st' r Hf2 K2). auto.
Qed.

Lemma keeps_app st st2 t : keeps st (st ++ st2) t.
Proof. intros a o _ Ho. exists o. split; [exact (live_app _ _ _ _ Ho)|apply same_form_refl]. Qed.

Lemma sound_snoc st t : sound st -> not_ref t -> fits st t -> sound (st ++ [Some t]).
Proof.
  intros Hs Hn Hf a o Ho. apply live_snoc in Ho as [Ho|[-> [= <-]]].
  - destruct (Hs a o Ho) as (H1 & H2 & H3). split; [exact H1|split; [exact H2|]].
    exact (keeps_fits _ _ _ (keeps_app _ _ _) H3).
  - split; [exact Hn|split].
    + intros b Hb. destruct (fits_refs st t Hf b Hb) as (o & Ho). exact (live_lt _ _ _ Ho).
    + exact (keeps_fits _ _ _ (keeps_app _ _ _) Hf).
Qed.
Lemma sound_snoc_dead st : sound st -> sound (st ++ [None]).
Proof.
  intros Hs a o Ho. apply live_snoc in Ho as [Ho|[_ E]]; [|discriminate E].
  destruct (Hs a o Ho) as (H1 & H2 & H3). split; [exact H1|split; [exact H2|]].
  exact (keeps_fits _ _ _ (keeps_app _ _ _) H3).
Qed.
Lemma sound_repeat_dead n : forall st, sound st -> sound (st ++ repeat None n).
Proof.
  induction n as [|n IH]; intros st Hs; cbn [repeat]; [rewrite app_nil_r; exact Hs|].
  change (None :: repeat None n) with ([None] ++ repeat (@None (thing A)) n). rewrite app_assoc.
  apply IH. apply sound_snoc_dead. exact Hs.
Qed.

(** * Building expressions *)
Lemma dims_idims st t : fits st t -> dims st t = Ok (idims st t).
Proof.
  destruct t; try reflexivity. intros (o & Ho). unfold dims. rewrite (proj2 (deref_ok _ _ _) Ho).
  cbn [bind]. rewrite (idims_live _ _ _ Ho). reflexivity.
Qed.

Lemma prodn_cons n w : prodn (n :: w) = n * prodn w.
Proof. reflexivity. Qed.

(** Temporaries: [st'] extends [st] by objects only. *)
Definition ext st st' : Prop := exists tmp, st' = st ++ tmp.
Lemma ext_refl st : ext st st.
Proof. exists []. symmetry. apply app_nil_r. Qed.
Lemma ext_trans st1 st2 st3 : ext st1 st2 -> ext st2 st3 -> ext st1 st3.
Proof. intros (a & ->) (b & ->). exists (a ++ b). rewrite app_assoc. reflexivity. Qed.
Lemma ext_live st st' a t : ext st st' -> live st a t -> live st' a t.
Proof. intros (b & ->). apply live_app. Qed.
Lemma ext_keeps st st' t : ext st st' -> keeps st st' t.
Proof. intros (b & ->). apply keeps_app. Qed.

Lemma sdims_ext st st' e : ext st st' -> typed st e -> sdims st' e = sdims st e.
Proof.
  intros Hx. induction e as [a|x|s d|f e IH|f e1 IH1 e2 IH2|e IH k]; cbn; intros Ht; try reflexivity.
  - destruct Ht as (t & Ht). rewrite (ext_live _ _ _ _ Hx Ht). rewrite Ht. reflexivity.
  - exact (IH Ht).
  - destruct Ht as (T1 & T2). rewrite (IH1 T1), (IH2 T2). reflexivity.
  - destruct Ht as (T1 & _). rewrite (IH T1). reflexivity.
Qed.
Lemma typed_ext st st' e : ext st st' -> typed st e -> typed st' e.
Proof.
  intros Hx. induction e as [a|x|s d|f e IH|f e1 IH1 e2 IH2|e IH k]; cbn; intros Ht; auto.
  - destruct Ht as (t & Ht). exists t. exact (ext_live _ _ _ _ Hx Ht).
  - destruct Ht. split; auto.
  - destruct Ht as (T1 & n & w & E). split; [auto|]. exists n, w. rewrite (sdims_ext _ _ _ Hx T1). exact E.
Qed.

Lemma row_of_true a off n w k :
  row_of true a off (n :: w) k = (if k <? n then Ok (TView a (off + k * prodn w) w) else Throw OutOfRange : outcome (thing A)).
Proof. unfold row_of. destruct (k <? n); reflexivity. Qed.

Lemma join_true d1 d2 :
  (exists ex, join true d1 d2 = Throw ex)
  \/ (join true d1 d2 = Ok (match d1 with Some s => Some s | None => d2 end)
      /\ (forall s, match d1 with Some s => Some s | None => d2 end = Some s ->
                    (d1 = None \/ d1 = Some s) /\ (d2 = None \/ d2 = Some s))).
Proof.
  unfold join. destruct d1 as [s|], d2 as [s'|].
  - destruct (list_eq_dec Nat.eq_dec s s') as [->|N]; cbn; [right|left; eauto].
    split; [reflexivity|]. intros s [= <-]. auto.
  - right. split; [reflexivity|]. intros s' [= <-]. auto.
  - right. split; [reflexivity|]. intros s [= <-]. auto.
  - right. split; [reflexivity|]. intros s E. discriminate E.
Qed.

Lemma build_ok e : forall st, sound st -> typed st e ->
  (exists ex, build true st e = Throw ex)
  \/ exists t st', build true st e = Ok (t, st') /\ ext st st' /\ sound st' /\ fits st' t
     /\ idims st' t = sdims st e.
Proof.
  induction e as [a|x|s d|f e IH|f e1 IH1 e2 IH2|e IH k]; intros st Hs Ht; cbn [build].
  - right. destruct Ht as (t & Ht). rewrite (proj2 (deref_ok _ _ _) Ht). cbn [bind].
    exists (TRef a), st. split; [reflexivity|]. split; [apply ext_refl|]. split; [exact Hs|].
    split; [exists t; exact Ht|reflexivity].
  - right. exists (TNum x), st. split; [reflexivity|]. split; [apply ext_refl|]. split; [exact Hs|]. split; [exact I|reflexivity].
  - right. exists (TArr s d), st. split; [reflexivity|]. split; [apply ext_refl|]. split; [exact Hs|]. split; [exact Ht|reflexivity].
  - destruct (IH st Hs Ht) as [(ex & ->)|(t & st' & -> & Hx & Hs' & Hf & Hd)]; [left; exists ex; reflexivity|].
    right. cbn [bind]. rewrite (dims_idims _ _ Hf). cbn [bind sdims]. rewrite <- Hd.
    destruct (idims st' t) as [s|] eqn:E.
    + exists (TMap f s t), st'. split; [reflexivity|]. split; [exact Hx|]. split; [exact Hs'|].
      split; [split; [exact Hf|right; exact E]|reflexivity].
    + destruct (sound_read_obj st' t 0 Hs' Hf) as (x & -> & _); [unfold within; rewrite E; exact I|].
      exists (TNum (f x)), st'. split; [reflexivity|]. split; [exact Hx|]. split; [exact Hs'|]. split; [exact I|reflexivity].
  - destruct Ht as (T1 & T2).
    destruct (IH1 st Hs T1) as [(ex & ->)|(t1 & st1 & -> & Hx1 & Hs1 & Hf1 & Hd1)]; [left; exists ex; reflexivity|].
    cbn [bind].
    destruct (IH2 st1 Hs1 (typed_ext _ _ _ Hx1 T2)) as [(ex & ->)|(t2 & st2 & -> & Hx2 & Hs2 & Hf2 & Hd2)];
      [left; exists ex; reflexivity|].
    cbn [bind].
    assert (Hf1' : fits st2 t1) by exact (keeps_fits _ _ _ (ext_keeps _ _ _ Hx2) Hf1).
    assert (Hd1' : idims st2 t1 = sdims st e1)
      by (rewrite (keeps_idims st1 st2 t1 Hf1 (ext_keeps _ _ _ Hx2)); exact Hd1).
    rewrite (sdims_ext _ _ _ Hx1 T2) in Hd2.
    rewrite (dims_idims _ _ Hf1'), (dims_idims _ _ Hf2). cbn [bind].
    destruct (join_true (idims st2 t1) (idims st2 t2)) as [(ex & ->)|(-> & HJ)]; [left; exists ex; reflexivity|].
    right. cbn [bind sdims]. rewrite <- Hd1', <- Hd2.
    assert (X : ext st st2) by exact (ext_trans _ _ _ Hx1 Hx2).
    destruct (match idims st2 t1 with Some s => Some s | None => idims st2 t2 end) as [s|] eqn:E.
    + exists (TFun f s t1 t2), st2. split; [reflexivity|]. split; [exact X|]. split; [exact Hs2|].
      destruct (HJ s eq_refl) as (J1 & J2).
      split; [|reflexivity]. cbn [fits]. unfold dims_fit. auto.
    + destruct (idims st2 t1) eqn:E1; [discriminate E|].
      destruct (sound_read_obj st2 t1 0 Hs2 Hf1') as (x & -> & _); [unfold within; rewrite E1; exact I|].
      destruct (sound_read_obj st2 t2 0 Hs2 Hf2) as (y & -> & _); [unfold within; rewrite E; exact I|].
      exists (TNum (f x y)), st2. split; [reflexivity|]. split; [exact X|]. split; [exact Hs2|]. split; [exact I|reflexivity].
  - destruct Ht as (T1 & n & w & Esd).
    destruct (IH st Hs T1) as [(ex & ->)|(t & st1 & -> & Hx & Hs1 & Hf & Hd)]; [left; exists ex; reflexivity|].
    cbn [bind sdims]. rewrite Esd in Hd |- *.
    assert (P : forall a off s u st', idims st' (TView a off s) = Some s) by reflexivity.
    assert (V : forall off, k < n -> off + k * prodn w + prodn w <= off + prodn (n :: w)).
    { intros off Hk. rewrite prodn_cons. nia. }
    assert (New : forall o, not_ref o -> fits st1 o -> own_dims o = Some (n :: w) -> k < n ->
              ext st (st1 ++ [Some o]) /\ sound (st1 ++ [Some o])
              /\ fits (st1 ++ [Some o]) (TView (length st1) (0 + k * prodn w) w)).
    { intros o Hn Ho Hdo Hk. split; [|split].
      - apply (ext_trans _ _ _ Hx). exists [Some o]. reflexivity.
      - apply sound_snoc; assumption.
      - exists o, (n :: w). split; [|split].
        + unfold live. rewrite nth_error_app2, Nat.sub_diag by lia. reflexivity.
        + exact Hdo.
        + specialize (V 0 Hk). lia. }
    destruct t as [s d|y|a|a off s|g s u|g s l r]; cbn in Hd.
    + injection Hd as ->. rewrite row_of_true. destruct (k <? n) eqn:Ek; [|left; eexists; reflexivity].
      right. cbn [bind]. apply Nat.ltb_lt in Ek.
      destruct (New (TArr (n :: w) d) I Hf eq_refl Ek) as (N1 & N2 & N3).
      eexists _, _. split; [reflexivity|]. auto.
    + discriminate Hd.
    + destruct Hf as (o & Ho). rewrite Ho in Hd. rewrite (proj2 (deref_ok _ _ _) Ho). cbn [bind].
      destruct (Hs1 a o Ho) as (Hn & Hrefs & Hfo).
      assert (Base : forall v, own_dims o = Some (n :: w) -> v = TView a (0 + k * prodn w) w -> k < n ->
                fits st1 v).
      { intros v _ -> Hk. exists o, (n :: w). split; [exact Ho|]. split; [exact Hd|]. specialize (V 0 Hk). lia. }
      destruct o as [s d|y|b|b off s|g s u|g s l r]; cbn in Hd.
      * injection Hd as ->. rewrite row_of_true. destruct (k <? n) eqn:Ek; [|left; eexists; reflexivity].
        right. cbn [bind]. apply Nat.ltb_lt in Ek. eexists _, _. split; [reflexivity|].
        split; [exact Hx|]. split; [exact Hs1|]. split; [exact (Base _ eq_refl eq_refl Ek)|reflexivity].
      * discriminate Hd.
      * destruct Hn.
      * injection Hd as ->. rewrite row_of_true. destruct (k <? n) eqn:Ek; [|left; eexists; reflexivity].
        right. cbn [bind]. apply Nat.ltb_lt in Ek. eexists _, _. split; [reflexivity|].
        split; [exact Hx|]. split; [exact Hs1|]. split; [|reflexivity].
        destruct Hfo as (p & sp & Hp & Hdp & Hle). exists p, sp. split; [exact Hp|]. split; [exact Hdp|].
        specialize (V off Ek). lia.
      * injection Hd as ->. rewrite row_of_true. destruct (k <? n) eqn:Ek; [|left; eexists; reflexivity].
        right. cbn [bind]. apply Nat.ltb_lt in Ek. eexists _, _. split; [reflexivity|].
        split; [exact Hx|]. split; [exact Hs1|]. split; [exact (Base _ eq_refl eq_refl Ek)|reflexivity].
      * injection Hd as ->. rewrite row_of_true. destruct (k <? n) eqn:Ek; [|left; eexists; reflexivity].
        right. cbn [bind]. apply Nat.ltb_lt in Ek. eexists _, _. split; [reflexivity|].
        split; [exact Hx|]. split; [exact Hs1|]. split; [exact (Base _ eq_refl eq_refl Ek)|reflexivity].
    + injection Hd as ->. rewrite row_of_true. destruct (k <? n) eqn:Ek; [|left; eexists; reflexivity].
      right. cbn [bind]. apply Nat.ltb_lt in Ek. eexists _, _. split; [reflexivity|].
      split; [exact Hx|]. split; [exact Hs1|]. split; [|reflexivity].
      destruct Hf as (p & sp & Hp & Hdp & Hle). exists p, sp. split; [exact Hp|]. split; [exact Hdp|].
      specialize (V off Ek). lia.
    + injection Hd as ->. rewrite row_of_true. destruct (k <? n) eqn:Ek; [|left; eexists; reflexivity].
      right. cbn [bind]. apply Nat.ltb_lt in Ek.
      destruct (New (TMap g (n :: w) u) I Hf eq_refl Ek) as (N1 & N2 & N3).
      eexists _, _. split; [reflexivity|]. auto.
    + injection Hd as ->. rewrite row_of_true. destruct (k <? n) eqn:Ek; [|left; eexists; reflexivity].
      right. cbn [bind]. apply Nat.ltb_lt in Ek.
      destruct (New (TFun g (n :: w) l r) I Hf eq_refl Ek) as (N1 & N2 & N3).
      eexists _, _. split; [reflexivity|]. auto.
Qed.

(** An expression that takes rows of named things only makes no temporaries that its object refers to. *)
Lemma build_named e : forall asserts st t st', named_base e -> build asserts st e = Ok (t, st') ->
  st' = st /\ match t with TRef _ | TView _ _ _ => True | _ => False end.
Proof.
  induction e as [a|x|s d|f e IH|f e1 IH1 e2 IH2|e IH k]; intros asserts st t st' Hn Hb; cbn in Hn; try contradiction.
  - cbn in Hb. destruct (deref st a); try discriminate Hb. cbn in Hb. inversion Hb. auto.
  - cbn [build] in Hb. destruct (build asserts st e) as [[u st1]| |] eqn:E; try discriminate Hb.
    destruct (IH _ _ _ _ Hn E) as (-> & Hu). cbn [bind] in Hb.
    assert (R : forall a off s (v : thing A), row_of asserts a off s k = Ok v -> match v with TRef _ | TView _ _ _ => True | _ => False end).
    { intros a off s v H. unfold row_of in H. destruct s; [discriminate H|].
      destruct (asserts && negb (k <? n)); inversion H. exact I. }
    destruct u; try contradiction.
    + destruct (deref st a) as [o| |]; try discriminate Hb. cbn [bind] in Hb.
      destruct o; try discriminate Hb;
        match type of Hb with bind ?r _ = _ => destruct r as [v| |] eqn:Er; try discriminate Hb end;
        cbn in Hb; inversion Hb; subst; (split; [reflexivity|exact (R _ _ _ _ Er)]).
    + match type of Hb with bind ?r _ = _ => destruct r as [v| |] eqn:Er; try discriminate Hb end.
      cbn in Hb. inversion Hb. subst. split; [reflexivity|exact (R _ _ _ _ Er)].
Qed.
Lemma build_lasting e : forall asserts st t st', lasting e -> build asserts st e = Ok (t, st') -> st' = st.
Proof.
  induction e as [a|x|s d|f e IH|f e1 IH1 e2 IH2|e IH k]; intros asserts st t st' Hl Hb; cbn in Hl.
  - cbn in Hb. destruct (deref st a); try discriminate Hb. cbn in Hb. congruence.
  - cbn in Hb. congruence.
  - cbn in Hb. congruence.
  - cbn [build] in Hb. destruct (build asserts st e) as [[u st1]| |] eqn:E; try discriminate Hb.
    cbn [bind] in Hb. apply (IH asserts st u st1) in E; [subst|exact Hl].
    destruct (dims st u) as [[s|]| |]; try discriminate Hb; cbn [bind] in Hb; [congruence|].
    destruct (read_obj st u 0); try discriminate Hb. cbn in Hb. congruence.
  - destruct Hl as (L1 & L2). cbn [build] in Hb.
    destruct (build asserts st e1) as [[u1 st1]| |] eqn:E1; try discriminate Hb. cbn [bind] in Hb.
    apply (IH1 asserts st u1 st1) in E1; [subst|exact L1].
    destruct (build asserts st e2) as [[u2 st2]| |] eqn:E2; try discriminate Hb. cbn [bind] in Hb.
    apply (IH2 asserts st u2 st2) in E2; [subst|exact L2].
    destruct (dims st u1); try discriminate Hb. cbn [bind] in Hb.
    destruct (dims st u2); try discriminate Hb. cbn [bind] in Hb.
    destruct (join asserts a a0) as [[s|]| |]; try discriminate Hb; cbn [bind] in Hb; [congruence|].
    destruct (read_obj st u1 0); try discriminate Hb. cbn [bind] in Hb.
    destruct (read_obj st u2 0); try discriminate Hb. cbn in Hb. congruence.
  - exact (proj1 (build_named (Row e k) asserts st t st' Hl Hb)).
Qed.

Lemma drop_from_ext st st' : ext st st' -> drop_from (length st) st' = st ++ repeat None (length st' - length st).
Proof.
  intros (tmp & ->). unfold drop_from. rewrite firstn_app, Nat.sub_diag, firstn_all, firstn_O, app_nil_r. reflexivity.
Qed.
Lemma drop_from_self st : drop_from (length st) st = st.
Proof. rewrite (drop_from_ext st st (ext_refl st)), Nat.sub_diag. apply app_nil_r. Qed.

Lemma collect_ok (f : nat -> outcome A) l :
  (forall i, In i l -> exists x, f i = Ok x) ->
  exists xs, collect f l = Ok xs /\ Forall2 (fun i x => f i = Ok x) l xs.
Proof.
  induction l as [|i l IH]; intros H; [exists []; split; [reflexivity|constructor]|].
  destruct (H i (or_introl eq_refl)) as (x & Hx). cbn. rewrite Hx. cbn [bind].
  destruct IH as (xs & -> & F); [intros j Hj; apply H; right; exact Hj|].
  exists (x :: xs). split; [reflexivity|]. constructor; assumption.
Qed.
Lemma forall2_seq_nth (P : nat -> A -> Prop) n : forall k xs, Forall2 P (seq k n) xs ->
  length xs = n /\ forall i, i < n -> exists x, nth_error xs i = Some x /\ P (k + i) x.
Proof.
  induction n as [|n IH]; intros k xs H; inversion H; subst.
  - split; [reflexivity|]. intros i Hi. lia.
  - match goal with F : Forall2 _ (seq (S k) n) ?l |- _ => destruct (IH (S k) l F) as (L & N) end.
    split; [cbn; lia|]. intros [|i] Hi.
    + exists y. rewrite Nat.add_0_r. auto.
    + destruct (N i ltac:(lia)) as (x & E & Hx). exists x. split; [exact E|].
      replace (k + S i) with (S k + i) by lia. exact Hx.
Qed.

Lemma evaluate_ok st t : sound st -> fits st t ->
  exists s xs, evaluate st t = Ok (s, xs) /\ s = match idims st t with Some s => s | None => [] end
    /\ length xs = prodn s
    /\ forall i, i < prodn s -> exists x, nth_error xs i = Some x /\ elem st t i x.
Proof.
  intros Hs Hf. unfold evaluate. rewrite (dims_idims _ _ Hf). cbn [bind].
  set (s := match idims st t with Some s => s | None => [] end).
  destruct (collect_ok (read_obj st t) (seq 0 (prodn s))) as (xs & E & F).
  { intros i Hi. apply in_seq in Hi. destruct (sound_read_obj st t i Hs Hf) as (x & Hx & _); [|eauto].
    unfold within. subst s. destruct (idims st t); [lia|exact I]. }
  rewrite E. cbn [bind]. destruct (forall2_seq_nth _ _ _ _ F) as (L & N).
  exists s, xs. split; [reflexivity|]. split; [reflexivity|]. split; [exact L|].
  intros i Hi. destruct (N i Hi) as (x & Ex & Hx). exists x. split; [exact Ex|].
  exact (read_elem _ _ _ _ _ Hx).
Qed.

(** * Histories *)
Lemma live_upd st a b v t : live (upd st a v) b t -> (b = a /\ v = Some t) \/ (b <> a /\ live st b t).
Proof.
  unfold live. intros H. rewrite nth_error_upd in H. destruct (Nat.eq_dec b a) as [->|N].
  - left. split; [reflexivity|]. rewrite Nat.eqb_refl in H. cbn [andb] in H.
    destruct (Nat.ltb_spec a (length st)) as [L|L]; [congruence|].
    rewrite (proj2 (nth_error_None st a) L) in H. discriminate H.
  - right. split; [exact N|]. destruct (Nat.eqb_spec a b); [lia|exact H].
Qed.
Lemma live_upd_other st a b v t : b <> a -> live st b t -> live (upd st a v) b t.
Proof. unfold live. intros N H. rewrite nth_error_upd. destruct (Nat.eqb_spec a b); [lia|exact H]. Qed.
Lemma live_upd_same st a t : a < length st -> live (upd st a (Some t)) a t.
Proof.
  unfold live. intros H. rewrite nth_error_upd. rewrite Nat.eqb_refl.
  destruct (Nat.ltb_spec a (length st)); [reflexivity|lia].
Qed.

Lemma keeps_upd st a o o' t : live st a o -> same_form o o' -> keeps st (upd st a (Some o')) t.
Proof.
  intros Ho Hf b p _ Hp. destruct (Nat.eq_dec b a) as [->|N].
  - exists o'. split; [apply live_upd_same; exact (live_lt _ _ _ Ho)|].
    rewrite (live_fun _ _ _ _ Hp Ho). exact Hf.
  - exists p. split; [exact (live_upd_other _ _ _ _ _ N Hp)|apply same_form_refl].
Qed.
Lemma sound_update st a o o' : sound st -> live st a o -> same_form o o' -> fits st o' -> sound (upd st a (Some o')).
Proof.
  intros Hs Ho Hf Hfit b t Ht. pose proof (keeps_upd st a o o' t Ho Hf) as K.
  apply live_upd in Ht as [[-> [= <-]]|[N Ht]].
  - destruct (Hs a o Ho) as (H1 & H2 & _). split; [|split].
    + destruct o, o'; cbn in *; auto; discriminate Hf.
    + rewrite <- (same_form_refs _ _ Hf). exact H2.
    + exact (keeps_fits _ _ _ K Hfit).
  - destruct (Hs b t Ht) as (H1 & H2 & H3). split; [exact H1|]. split; [exact H2|].
    exact (keeps_fits _ _ _ K H3).
Qed.
Lemma sound_kill st a : sound st -> unused st a -> sound (upd st a None).
Proof.
  intros Hs Hu b t Ht. apply live_upd in Ht as [[_ E]|[N Ht]]; [discriminate E|].
  destruct (Hs b t Ht) as (H1 & H2 & H3). split; [exact H1|]. split; [exact H2|].
  apply (keeps_fits st); [|exact H3].
  intros c o Hc Ho. exists o. split; [|apply same_form_refl]. apply live_upd_other; [|exact Ho].
  intros ->. exact (Hu b t Ht Hc).
Qed.
Lemma sound_nil : sound ([] : state A).
Proof. intros a t H. unfold live in H. destruct a; discriminate H. Qed.

Lemma block_unused st a : sound st -> block st a -> unused st a.
Proof.
  intros Hs Hb b t Ht Hin. destruct (Hs b t Ht) as (_ & H2 & _).
  exact (Hb b t (H2 a Hin) Ht).
Qed.

Lemma fits_copied st t : fits st t -> fits st (copied t) /\ idims st (copied t) = idims st t.
Proof.
  induction t as [s d|y|a|a off s|f s u IH|f s l IHl r IHr]; cbn [copied]; intros Hf; try (split; [exact Hf|reflexivity]).
  - split; [|reflexivity]. destruct Hf as (o & so & Ho & Hd & Hle). exists o, so. split; [exact Ho|]. split; [exact Hd|lia].
  - destruct Hf as (Hf & Hd). destruct (IH Hf) as (F & E). split; [|reflexivity].
    split; [exact F|]. unfold dims_fit. rewrite E. exact Hd.
  - destruct Hf as (Hf1 & Hd1 & Hf2 & Hd2). destruct (IHl Hf1) as (F1 & E1). destruct (IHr Hf2) as (F2 & E2).
    split; [|reflexivity]. cbn [fits]. unfold dims_fit. rewrite E1, E2. auto.
Qed.
Lemma not_ref_copied t : not_ref t -> not_ref (copied t).
Proof. destruct t; auto. Qed.

Lemma build_not_ref asserts st e t st' :
  match e with Name _ => False | _ => True end -> build asserts st e = Ok (t, st') -> not_ref t.
Proof.
  destruct e as [a|x|s d|f e|f e1 e2|e k]; intros Hn Hb; cbn [build] in Hb.
  - contradiction.
  - inversion Hb. exact I.
  - inversion Hb. exact I.
  - destruct (build asserts st e) as [[u st1]| |]; try discriminate Hb. cbn [bind] in Hb.
    destruct (dims st1 u) as [[s|]| |]; try discriminate Hb; cbn [bind] in Hb; [inversion Hb; exact I|].
    destruct (read_obj st1 u 0); try discriminate Hb. inversion Hb. exact I.
  - destruct (build asserts st e1) as [[u1 st1]| |]; try discriminate Hb. cbn [bind] in Hb.
    destruct (build asserts st1 e2) as [[u2 st2]| |]; try discriminate Hb. cbn [bind] in Hb.
    destruct (dims st2 u1); try discriminate Hb. cbn [bind] in Hb.
    destruct (dims st2 u2); try discriminate Hb. cbn [bind] in Hb.
    destruct (join asserts a a0) as [[s|]| |]; try discriminate Hb; cbn [bind] in Hb; [inversion Hb; exact I|].
    destruct (read_obj st2 u1 0); try discriminate Hb. cbn [bind] in Hb.
    destruct (read_obj st2 u2 0); try discriminate Hb. inversion Hb. exact I.
  - destruct (build asserts st e) as [[u st1]| |]; try discriminate Hb. cbn [bind] in Hb.
    assert (R : forall a off s (v : thing A), row_of asserts a off s k = Ok v -> not_ref v).
    { intros a off s v H. unfold row_of in H. destruct s; [discriminate H|].
      destruct (asserts && negb (k <? n)); inversion H. exact I. }
    destruct u; try discriminate Hb;
      try (match type of Hb with bind ?r _ = _ => destruct r as [v| |] eqn:Er; try discriminate Hb end;
           cbn in Hb; inversion Hb; subst; eapply R; exact Er).
    destruct (deref st1 a) as [o| |]; try discriminate Hb. cbn [bind] in Hb.
    destruct o; try discriminate Hb;
      (match type of Hb with bind ?r _ = _ => destruct r as [v| |] eqn:Er; try discriminate Hb end;
       cbn in Hb; inversion Hb; subst; eapply R; exact Er).
Qed.

(** [later]: what a sound program leaves of the objects there were: gone, or in the same form. *)
Definition later st st' : Prop :=
  length st <= length st'
  /\ forall a t, live st' a t -> a < length st -> exists o, live st a o /\ same_form o t.
Lemma later_refl st : later st st.
Proof. split; [lia|]. intros a t H _. exists t. split; [exact H|apply same_form_refl]. Qed.
Lemma later_trans st1 st2 st3 : later st1 st2 -> later st2 st3 -> later st1 st3.
Proof.
  intros (L1 & H1) (L2 & H2). split; [lia|]. intros a t Ht Ha.
  destruct (H2 a t Ht ltac:(lia)) as (o & Ho & F). destruct (H1 a o Ho Ha) as (p & Hp & F2).
  exists p. split; [exact Hp|exact (same_form_trans _ _ _ F2 F)].
Qed.
Lemma later_app st st2 : later st (st ++ st2).
Proof.
  split; [rewrite app_length; lia|]. intros a t Ht Ha. exists t. split; [|apply same_form_refl].
  unfold live in *. rewrite nth_error_app1 in Ht by exact Ha. exact Ht.
Qed.
Lemma later_upd st a o o' : live st a o -> same_form o o' -> later st (upd st a (Some o')).
Proof.
  intros Ho F. split; [rewrite upd_length; lia|]. intros b t Ht _.
  apply live_upd in Ht as [[-> [= <-]]|[N Ht]]; [eauto|]. exists t. split; [exact Ht|apply same_form_refl].
Qed.
Lemma later_kill st a : later st (upd st a None).
Proof.
  split; [rewrite upd_length; lia|]. intros b t Ht _.
  apply live_upd in Ht as [[_ E]|[N Ht]]; [discriminate E|]. exists t. split; [exact Ht|apply same_form_refl].
Qed.

Lemma decl_auto st e : sound st -> typed st e -> lasting e ->
  (exists ex, step true (DeclAuto e) st = Throw ex)
  \/ exists t, step true (DeclAuto e) st = Ok (st ++ [Some t]) /\ not_ref t /\ fits st t
     /\ own_dims t = sdims st e
     /\ (match e with Name _ => False | _ => True end -> build true st e = Ok (t, st)).
Proof.
  intros Hs Ht Hl.
  assert (G : match e with Name _ => False | _ => True end ->
     (exists ex, (do (t, st1) <- build true st e; Ok (drop_from (length st) st1 ++ [Some t])) = Throw ex)
  \/ exists t, (do (t, st1) <- build true st e; Ok (drop_from (length st) st1 ++ [Some t])) = Ok (st ++ [Some t]) /\ not_ref t /\ fits st t
     /\ own_dims t = sdims st e /\ (match e with Name _ => False | _ => True end -> build true st e = Ok (t, st))).
  { intros Hn. destruct (build_ok e st Hs Ht) as [(ex & E)|(t & st' & E & Hx & Hs' & Hf & Hd)].
    - left. rewrite E. eexists. reflexivity.
    - right. pose proof (build_lasting e _ _ _ _ Hl E) as ->. rewrite E. cbn [bind]. exists t.
      rewrite drop_from_self. pose proof (build_not_ref _ _ _ _ _ Hn E) as Hr.
      split; [reflexivity|]. split; [exact Hr|]. split; [exact Hf|]. split; [|reflexivity].
      rewrite <- Hd. destruct t; try reflexivity. destruct Hr. }
  destruct e as [a|x|s d|f e|f e1 e2|e k]; try exact (G I).
  right. destruct Ht as (o & Ho). cbn [step]. rewrite (proj2 (deref_ok _ _ _) Ho). cbn [bind].
  exists (copied o). destruct (Hs a o Ho) as (Hn & _ & Hf). destruct (fits_copied st o Hf) as (F & E).
  split; [reflexivity|]. split; [exact (not_ref_copied _ Hn)|]. split; [exact F|]. split; [|contradiction].
  cbn. rewrite Ho. destruct o; reflexivity.
Qed.

Lemma step_sound st c : sound st -> admissible unused st c ->
  (exists ex, step true c st = Throw ex) \/ exists st', step true c st = Ok st' /\ sound st' /\ later st st'.
Proof.
  intros Hs Ha. destruct c as [s d|x|e|e|a i x|a s d|a].
  - right. eexists. split; [reflexivity|]. split; [|apply later_app]. apply sound_snoc; [exact Hs|exact I|exact Ha].
  - right. eexists. split; [reflexivity|]. split; [|apply later_app]. apply sound_snoc; [exact Hs|exact I|exact I].
  - destruct Ha as (Ht & Hl). destruct (decl_auto st e Hs Ht Hl) as [E|(t & E & Hn & Hf & _)]; [left; exact E|].
    right. exists (st ++ [Some t]). split; [exact E|]. split; [|apply later_app]. apply sound_snoc; assumption.
  - cbn [step]. destruct (build_ok e st Hs Ha) as [(ex & ->)|(t & st' & -> & Hx & Hs' & Hf & Hd)]; [left; eexists; reflexivity|].
    right. cbn [bind]. destruct (evaluate_ok st' t Hs' Hf) as (s & xs & -> & _ & Hlen & _). cbn [bind].
    rewrite (drop_from_ext _ _ Hx). eexists. split; [reflexivity|]. split.
    + apply sound_snoc; [apply sound_repeat_dead; exact Hs|exact I|exact Hlen].
    + rewrite <- app_assoc. apply later_app.
  - right. cbn [step]. destruct Ha as [(s & d & Ho & Hi)|(y & Ho)]; rewrite (proj2 (deref_ok _ _ _) Ho); cbn [bind].
    + unfold wr. destruct (Nat.ltb_spec i (length d)); [|lia]. cbn [bind].
      assert (F : same_form (TArr s d) (TArr s (upd d i x))) by (split; [reflexivity|rewrite upd_length; reflexivity]).
      eexists. split; [reflexivity|]. split; [|exact (later_upd _ _ _ _ Ho F)].
      apply (sound_update st a _ _ Hs Ho F). destruct (Hs _ _ Ho) as (_ & _ & Hfit). cbn in *. rewrite upd_length. exact Hfit.
    + eexists. split; [reflexivity|]. split; [|exact (later_upd _ _ _ (TNum x) Ho I)].
      apply (sound_update st a _ (TNum x) Hs Ho I). exact I.
  - right. destruct Ha as (Hlen & d0 & Ho). cbn [step]. rewrite (proj2 (deref_ok _ _ _) Ho). cbn [bind].
    destruct (Hs _ _ Ho) as (_ & _ & Hfit). cbn in Hfit.
    assert (F : same_form (TArr s d0) (TArr s d)) by (split; [reflexivity|lia]).
    eexists. split; [reflexivity|]. split; [|exact (later_upd _ _ _ _ Ho F)].
    apply (sound_update st a _ _ Hs Ho F). exact Hlen.
  - right. destruct Ha as ((t & Ho) & Hu). cbn [step]. rewrite (proj2 (deref_ok _ _ _) Ho). cbn [bind].
    eexists. split; [reflexivity|]. split; [exact (sound_kill _ _ Hs Hu)|apply later_kill].
Qed.

Lemma run_sound l : forall st, sound st -> scoped unused st l ->
  (exists ex, run true l st = Throw ex) \/ exists st', run true l st = Ok st' /\ sound st' /\ later st st'.
Proof.
  induction l as [|c l IH]; intros st Hs Hl; cbn [run].
  - right. exists st. split; [reflexivity|]. split; [exact Hs|apply later_refl].
  - destruct Hl as (Ha & Hl). destruct (step_sound st c Hs Ha) as [(ex & ->)|(st' & E & Hs' & L)]; [left; eexists; reflexivity|].
    rewrite E. cbn [bind]. destruct (IH st' Hs' (Hl st' E)) as [T|(st2 & E2 & S2 & L2)]; [left; exact T|].
    right. exists st2. split; [exact E2|]. split; [exact S2|exact (later_trans _ _ _ L L2)].
Qed.

Lemma block_scoped l : forall st, sound st -> scoped block st l -> scoped unused st l.
Proof.
  induction l as [|c l IH]; intros st Hs Hl; [exact I|]. destruct Hl as (Ha & Hl).
  assert (Ha' : admissible unused st c).
  { destruct c; try exact Ha. destruct Ha as (He & Hb). split; [exact He|exact (block_unused _ _ Hs Hb)]. }
  split; [exact Ha'|]. intros st' E. apply IH; [|exact (Hl st' E)].
  destruct (step_sound st c Hs Ha') as [(ex & E')|(st2 & E2 & S2 & _)]; [congruence|].
  assert (E3 : st' = st2) by congruence. rewrite E3. exact S2.
Qed.

Lemma scoped_run l : scoped unused [] l ->
  run true l [] <> UB
  /\ forall st, run true l [] = Ok st -> sound st.
Proof.
  intros Hl. destruct (run_sound l [] sound_nil Hl) as [(ex & E)|(st' & E & Hs & _)].
  - split; [congruence|]. intros st H. congruence.
  - split; [congruence|]. intros st H. assert (E3 : st = st') by congruence. rewrite E3. exact Hs.
Qed.

Lemma sound_object st a t i : sound st -> live st a t -> i < count t ->
  exists x, read_obj st t i = Ok x /\ elem st t i x.
Proof.
  intros Hs Ht Hi. destruct (Hs a t Ht) as (Hn & _ & Hf). apply sound_read_obj; [exact Hs|exact Hf|].
  rewrite own_within by exact Hn. unfold count in Hi. destruct (own_dims t); [exact Hi|exact I].
Qed.

(** * What a kept expression denotes *)
Lemma later_sdims st st' e : later st st' -> typed st e ->
  (forall a, In a (names e) -> exists t, live st' a t) -> sdims st' e = sdims st e.
Proof.
  intros (Hlen & HL). induction e as [a|x|s d|f e IH|f e1 IH1 e2 IH2|e IH k]; cbn [typed names sdims]; intros Ht Hn; try reflexivity.
  - destruct Ht as (o & Ho). destruct (Hn a (or_introl eq_refl)) as (t & Hl).
    destruct (HL a t Hl (live_lt _ _ _ Ho)) as (p & Hp & F). rewrite Hl, Hp. symmetry. exact (same_form_dims _ _ F).
  - exact (IH Ht Hn).
  - destruct Ht as (T1 & T2). rewrite IH1, IH2; [reflexivity|exact T2| |exact T1|];
      intros a Ha; apply Hn; apply in_or_app; auto.
  - destruct Ht as (T1 & _). rewrite (IH T1 Hn). reflexivity.
Qed.

(** The elements of a view of [u] in slot [a] of [st'] when [st'] came later. *)
Lemma named_denotes st st' : sound st -> sound st' -> later st st' ->
  forall e, named_base e -> typed st e -> (forall a, In a (names e) -> exists t, live st' a t) ->
  forall t, build true st e = Ok (t, st) ->
  forall i x, (match idims st t with Some s => i < prodn s | None => True end) ->
  (elem st' t i x <-> sval st' e i x).
Proof.
  intros Hs Hs' HL. induction e as [a|x0|s d|f e IH|f e1 IH1 e2 IH2|e IH k]; intros Hb Ht Hn t Hbuild i x Hi; cbn in Hb; try contradiction.
  - cbn in Hbuild. destruct (deref st a) as [o| |] eqn:E; try discriminate Hbuild. cbn in Hbuild. injection Hbuild as <-.
    split; intros H.
    + inversion H; subst. econstructor; eassumption.
    + inversion H; subst. econstructor; eassumption.
  - destruct Ht as (T1 & n & w & Esd). cbn [build] in Hbuild.
    destruct (build_ok e st Hs T1) as [(ex & E)|(u & st1 & E & Hx & Hs1 & Hf & Hd)]; [rewrite E in Hbuild; discriminate Hbuild|].
    destruct (build_named e true st u st1 Hb E) as (-> & Hu). rewrite E in Hbuild. cbn [bind] in Hbuild.
    specialize (IH Hb T1 Hn u E).
    pose proof (later_sdims st st' e HL T1 Hn) as Esd'.
    assert (Key : forall a off, (forall j y, j < prodn (n :: w) -> (elem st' (TView a off (n :: w)) j y <-> sval st' e j y)) ->
              k < n -> idims st t = Some w -> t = TView a (off + k * prodn w) w -> (elem st' t i x <-> sval st' (Row e k) i x)).
    { intros a off Hv Hk Hidt ->. rewrite Hidt in Hi.
      assert (Hj : k * prodn w + i < prodn (n :: w)) by (rewrite prodn_cons; nia).
      split; intros H.
      - inversion H; subst. apply sv_row with (n := n) (w := w); [congruence|exact Hk|exact Hi|].
        apply (Hv _ _ Hj). econstructor; [eassumption|]. rewrite Nat.add_assoc. assumption.
      - inversion H; subst.
        assert (Ew : w0 = w) by congruence. subst w0.
        match goal with V : sval st' e _ x |- _ => apply (Hv _ _ Hj) in V; inversion V; subst end.
        econstructor; [eassumption|]. rewrite <- Nat.add_assoc. assumption. }
    rewrite Esd in Hd.
    destruct u as [s d|y|a|a off s|g s v|g s l r]; try contradiction.
    + (* a name *)
      destruct Hf as (o & Ho). cbn in Hd. rewrite Ho in Hd. rewrite (proj2 (deref_ok _ _ _) Ho) in Hbuild. cbn [bind] in Hbuild.
      assert (Ein : In a (names e)).
      { clear - E Hb Ho Hs. revert E. destruct e; cbn in Hb; try contradiction.
        - cbn. destruct (deref st a0); [|intros H; discriminate H..]. cbn. intros [= ->]. left. reflexivity.
        - intros E. pose proof (build_not_ref true st (Row e k) (TRef a) st I E) as N. destruct N. }
      destruct (Hn a Ein) as (o' & Ho').
      destruct (proj2 HL a o' Ho' (live_lt _ _ _ Ho)) as (p & Hp & F).
      rewrite (live_fun _ _ _ _ Hp Ho) in F. clear p Hp.
      assert (Dir : forall j y, j < prodn (n :: w) -> (elem st' (TView a 0 (n :: w)) j y <-> sval st' e j y)).
      { intros j y Hj. rewrite <- (IH j y).
        - split; intros H; inversion H; subst; econstructor; eassumption.
        - cbn. rewrite Ho, Hd. exact Hj. }
      destruct (Hs a o Ho) as (Hno & _ & _).
      destruct o as [s d|y|b|b off s|g s v|g s l r]; cbn in Hd; try discriminate Hd; try contradiction; injection Hd as ->;
        rewrite row_of_true in Hbuild; (destruct (k <? n) eqn:Ek; [|discriminate Hbuild]); apply Nat.ltb_lt in Ek;
        cbn [bind] in Hbuild; injection Hbuild as <-; try exact (Key a 0 Dir Ek eq_refl eq_refl).
      apply (Key b off); [|exact Ek|reflexivity|reflexivity].
      assert (Eo : o' = TView b off (n :: w)).
      { destruct o'; cbn in F; try discriminate F; congruence. }
      subst o'. intros j y Hj. rewrite <- (IH j y).
      * split; intros H.
        -- econstructor; [exact Ho'|exact H].
        -- inversion H; subst. match goal with L : live st' a ?q |- _ => rewrite (live_fun _ _ _ _ L Ho') in * end. assumption.
      * cbn. rewrite Ho. cbn. exact Hj.
    + cbn in Hd. injection Hd as ->.
      rewrite row_of_true in Hbuild; (destruct (k <? n) eqn:Ek; [|discriminate Hbuild]); apply Nat.ltb_lt in Ek;
        cbn [bind] in Hbuild; injection Hbuild as <-.
      apply (Key a off); [|exact Ek|reflexivity|reflexivity].
      intros j y Hj. apply IH. exact Hj.
Qed.

Lemma elem_num st y i x : elem st (TNum y) i x <-> x = y.
Proof. split; intros H; [inversion H; reflexivity|subst; constructor]. Qed.

Lemma denotes st st' : sound st -> sound st' -> later st st' ->
  forall e, lasting e -> all_lazy st e -> typed st e -> (forall a, In a (names e) -> exists t, live st' a t) ->
  forall t, build true st e = Ok (t, st) ->
  forall i x, (match idims st t with Some s => i < prodn s | None => True end) ->
  (elem st' t i x <-> sval st' e i x).
Proof.
  intros Hs Hs' HL. induction e as [a|x0|s d|f e IH|f e1 IH1 e2 IH2|e IH k]; intros Hl Hz Ht Hn t Hbuild i x Hi.
  - apply (named_denotes st st' Hs Hs' HL (Name a)); assumption.
  - cbn in Hbuild. injection Hbuild as <-. rewrite elem_num. split; intros H; [subst; constructor|inversion H; reflexivity].
  - cbn in Hbuild. injection Hbuild as <-. split; intros H; inversion H; subst; constructor; assumption.
  - cbn in Hz, Hn, Hl, Ht. destruct Hz as (Hz & Hd0). cbn [build] in Hbuild.
    destruct (build_ok e st Hs Ht) as [(ex & E)|(u & st1 & E & Hx & Hs1 & Hf & Hd)]; [rewrite E in Hbuild; discriminate Hbuild|].
    pose proof (build_lasting e _ _ _ _ Hl E) as ->. rewrite E in Hbuild. cbn [bind] in Hbuild.
    rewrite (dims_idims _ _ Hf) in Hbuild. cbn [bind] in Hbuild. rewrite Hd in Hbuild.
    destruct (sdims st e) as [s|] eqn:Es; [|contradiction].
    injection Hbuild as <-. cbn in Hi.
    assert (W : match idims st u with Some s => i < prodn s | None => True end) by (rewrite Hd; exact Hi).
    split; intros H; inversion H; subst; constructor; apply (IH Hl Hz Ht Hn u E); assumption.
  - cbn in Hz, Hn, Hl, Ht. destruct Hz as (Hz1 & Hz2 & Hd0). destruct Hl as (L1 & L2). destruct Ht as (T1 & T2). cbn [build] in Hbuild.
    assert (N1 : forall a, In a (names e1) -> exists t, live st' a t) by (intros a Ha; apply Hn, in_or_app; auto).
    assert (N2 : forall a, In a (names e2) -> exists t, live st' a t) by (intros a Ha; apply Hn, in_or_app; auto).
    destruct (build_ok e1 st Hs T1) as [(ex & E)|(u1 & st1 & E1 & Hx1 & Hs1 & Hf1 & Hd1)]; [rewrite E in Hbuild; discriminate Hbuild|].
    pose proof (build_lasting e1 _ _ _ _ L1 E1) as ->. rewrite E1 in Hbuild. cbn [bind] in Hbuild.
    destruct (build_ok e2 st Hs T2) as [(ex & E)|(u2 & st2 & E2 & Hx2 & Hs2 & Hf2 & Hd2)]; [rewrite E in Hbuild; discriminate Hbuild|].
    pose proof (build_lasting e2 _ _ _ _ L2 E2) as ->. rewrite E2 in Hbuild. cbn [bind] in Hbuild.
    rewrite (dims_idims _ _ Hf1), (dims_idims _ _ Hf2) in Hbuild. cbn [bind] in Hbuild.
    destruct (join_true (idims st u1) (idims st u2)) as [(ex & J)|(J & HJ)]; [rewrite J in Hbuild; discriminate Hbuild|].
    rewrite J in Hbuild. cbn [bind] in Hbuild.
    destruct (match idims st u1 with Some s => Some s | None => idims st u2 end) as [s|] eqn:Es.
    2:{ exfalso. apply Hd0. rewrite <- Hd1, <- Hd2. exact Es. }
    injection Hbuild as <-. cbn in Hi. destruct (HJ s eq_refl) as (J1 & J2).
    assert (W1 : match idims st u1 with Some s => i < prodn s | None => True end) by (destruct J1 as [->| ->]; [exact I|exact Hi]).
    assert (W2 : match idims st u2 with Some s => i < prodn s | None => True end) by (destruct J2 as [->| ->]; [exact I|exact Hi]).
    split; intros H; inversion H; subst; constructor;
      try (apply (IH1 L1 Hz1 T1 N1 u1 E1); assumption); apply (IH2 L2 Hz2 T2 N2 u2 E2); assumption.
  - apply (named_denotes st st' Hs Hs' HL (Row e k)); assumption.
Qed.

(** * Evaluation at once: temporaries are still there *)
Lemma elem_ext st st' t i x : ext st st' -> elem st t i x -> elem st' t i x.
Proof.
  intros Hx. induction 1; econstructor; eauto using ext_live.
Qed.
Lemma elem_back st st' t i x : sound st -> fits st t -> within st t i -> ext st st' -> elem st' t i x -> elem st t i x.
Proof.
  intros Hs Hf Hi Hx H. destruct (sound_read_obj st t i Hs Hf Hi) as (y & _ & Hy).
  rewrite (elem_fun _ _ _ _ H y (elem_ext _ _ _ _ _ Hx Hy)). exact Hy.
Qed.
Lemma elem_num_any st t i j x : sound st -> fits st t -> idims st t = None -> elem st t i x -> elem st t j x.
Proof.
  intros Hs Hf Hd H. destruct t as [s d|y|a|a off s|g s v|g s l r]; cbn in Hd; try discriminate Hd.
  - apply elem_num. apply elem_num in H. exact H.
  - destruct Hf as (o & Ho). rewrite Ho in Hd. destruct (Hs a o Ho) as (Hn & _).
    inversion H; subst. match goal with L : live st a ?q |- _ => rewrite (live_fun _ _ _ _ L Ho) in * end.
    econstructor; [exact Ho|]. destruct o; try discriminate Hd; [|destruct Hn].
    apply elem_num. match goal with V : elem st (TNum _) _ _ |- _ => apply elem_num in V; exact V end.
Qed.

Lemma build_value e : forall st0 st t st', sound st0 -> ext st0 st -> sound st -> typed st0 e ->
  build true st e = Ok (t, st') ->
  forall i x, within st' t i -> elem st' t i x -> sval st0 e i x.
Proof.
  induction e as [a|x0|s d|f e IH|f e1 IH1 e2 IH2|e IH k]; intros st0 st t st' Hs0 Hx0 Hs Ht0 Hbuild i x Hi H;
    pose proof (typed_ext _ _ _ Hx0 Ht0) as Ht.
  - cbn in Hbuild. destruct (deref st a) as [o| |] eqn:E; try discriminate Hbuild. cbn in Hbuild.
    injection Hbuild as <- <-. destruct Ht0 as (p & Hp).
    assert (H0 : elem st0 (TRef a) i x).
    { apply (elem_back st0 st); try assumption; [exists p; exact Hp|].
      unfold within in *. rewrite (idims_live _ _ _ Hp). rewrite (idims_live _ _ _ (ext_live _ _ _ _ Hx0 Hp)) in Hi. exact Hi. }
    inversion H0; subst. econstructor; eassumption.
  - cbn in Hbuild. injection Hbuild as <- <-. apply elem_num in H. subst. constructor.
  - cbn in Hbuild. injection Hbuild as <- <-. inversion H; subst. constructor. assumption.
  - cbn [typed] in Ht, Ht0. cbn [build] in Hbuild.
    destruct (build_ok e st Hs Ht) as [(ex & E)|(u & st1 & E & Hx & Hs1 & Hf & Hd)]; [rewrite E in Hbuild; discriminate Hbuild|].
    rewrite E in Hbuild. cbn [bind] in Hbuild. rewrite (dims_idims _ _ Hf) in Hbuild. cbn [bind] in Hbuild.
    destruct (idims st1 u) as [s|] eqn:Es.
    + injection Hbuild as <- <-. unfold within in Hi. cbn in Hi.
      inversion H; subst. constructor. apply (IH st0 st u st1 Hs0 Hx0 Hs Ht0 E); [unfold within; rewrite Es; exact Hi|assumption].
    + destruct (read_obj st1 u 0) as [y| |] eqn:Ey; try discriminate Hbuild. cbn in Hbuild. injection Hbuild as <- <-.
      apply elem_num in H. subst. constructor. apply (IH st0 st u st1 Hs0 Hx0 Hs Ht0 E); [unfold within; rewrite Es; exact I|].
      apply (elem_num_any st1 u 0); try assumption. exact (read_elem _ _ _ _ _ Ey).
  - destruct Ht as (T1 & T2). destruct Ht0 as (T01 & T02). cbn [build] in Hbuild.
    destruct (build_ok e1 st Hs T1) as [(ex & E)|(u1 & st1 & E1 & Hx1 & Hs1 & Hf1 & Hd1)]; [rewrite E in Hbuild; discriminate Hbuild|].
    rewrite E1 in Hbuild. cbn [bind] in Hbuild.
    assert (T2' : typed st1 e2) by exact (typed_ext _ _ _ Hx1 T2).
    destruct (build_ok e2 st1 Hs1 T2') as [(ex & E)|(u2 & st2 & E2 & Hx2 & Hs2 & Hf2 & Hd2)]; [rewrite E in Hbuild; discriminate Hbuild|].
    rewrite E2 in Hbuild. cbn [bind] in Hbuild.
    assert (Hf1' : fits st2 u1) by exact (keeps_fits _ _ _ (ext_keeps _ _ _ Hx2) Hf1).
    assert (Ei : idims st2 u1 = idims st1 u1) by exact (keeps_idims st1 st2 u1 Hf1 (ext_keeps _ _ _ Hx2)).
    rewrite (dims_idims _ _ Hf1'), (dims_idims _ _ Hf2) in Hbuild. cbn [bind] in Hbuild.
    assert (V1 : forall j y, within st2 u1 j -> elem st2 u1 j y -> sval st0 e1 j y).
    { intros j y Hj Hy. unfold within in Hj. rewrite Ei in Hj. apply (IH1 st0 st u1 st1 Hs0 Hx0 Hs T01 E1); [exact Hj|].
      apply (elem_back st1 st2); assumption. }
    pose proof (IH2 st0 st1 u2 st2 Hs0 (ext_trans _ _ _ Hx0 Hx1) Hs1 T02 E2) as V2.
    destruct (join_true (idims st2 u1) (idims st2 u2)) as [(ex & J)|(J & HJ)]; [rewrite J in Hbuild; discriminate Hbuild|].
    rewrite J in Hbuild. cbn [bind] in Hbuild.
    destruct (match idims st2 u1 with Some s => Some s | None => idims st2 u2 end) as [s|] eqn:Es.
    + injection Hbuild as <- <-. unfold within in Hi. cbn in Hi. destruct (HJ s eq_refl) as (J1 & J2).
      inversion H; subst. constructor.
      * apply V1; [|assumption]. unfold within. destruct J1 as [->| ->]; [exact I|exact Hi].
      * apply V2; [|assumption]. unfold within. destruct J2 as [->| ->]; [exact I|exact Hi].
    + destruct (idims st2 u1) eqn:D1; [discriminate Es|].
      destruct (read_obj st2 u1 0) as [y1| |] eqn:Ey1; try discriminate Hbuild. cbn [bind] in Hbuild.
      destruct (read_obj st2 u2 0) as [y2| |] eqn:Ey2; try discriminate Hbuild. cbn [bind] in Hbuild.
      injection Hbuild as <- <-. apply elem_num in H. subst. constructor.
      * apply V1; [unfold within; rewrite D1; exact I|].
        apply (elem_num_any st2 u1 0); try assumption. exact (read_elem _ _ _ _ _ Ey1).
      * apply V2; [unfold within; rewrite Es; exact I|].
        apply (elem_num_any st2 u2 0); try assumption. exact (read_elem _ _ _ _ _ Ey2).
  - destruct Ht0 as (T0 & n & w & Esd). destruct Ht as (T1 & _). cbn [build] in Hbuild.
    destruct (build_ok e st Hs T1) as [(ex & E)|(u & st1 & E & Hx & Hs1 & Hf & Hd)]; [rewrite E in Hbuild; discriminate Hbuild|].
    rewrite E in Hbuild. cbn [bind] in Hbuild.
    rewrite (sdims_ext _ _ _ Hx0 T0), Esd in Hd.
    pose proof (IH st0 st u st1 Hs0 Hx0 Hs T0 E) as V.
    assert (Key : k < n -> i < prodn w -> elem st1 u (k * prodn w + i) x -> sval st0 (Row e k) i x).
    { intros Hk Hiw He. apply sv_row with (n := n) (w := w); try assumption. apply V; [|exact He].
      unfold within. rewrite Hd, prodn_cons. nia. }
    assert (New : forall s, idims st1 u = Some s -> not_ref u -> (do v <- row_of true (length st1) 0 s k; Ok (v, st1 ++ [Some u])) = Ok (t, st') ->
              sval st0 (Row e k) i x).
    { intros s Es Hn Hb. rewrite Hd in Es. injection Es as <-. rewrite row_of_true in Hb. destruct (k <? n) eqn:Ek; [|discriminate Hb].
      apply Nat.ltb_lt in Ek. cbn [bind] in Hb. injection Hb as <- <-. unfold within in Hi. cbn in Hi.
      apply Key; [exact Ek|exact Hi|].
      inversion H; subst.
      assert (L : live (st1 ++ [Some u]) (length st1) u) by (unfold live; rewrite nth_error_app2, Nat.sub_diag by lia; reflexivity).
      match goal with L' : live _ (length st1) ?q |- _ => rewrite (live_fun _ _ _ _ L' L) in * end.
      apply (elem_back st1 (st1 ++ [Some u])); try assumption.
      - unfold within. rewrite Hd, prodn_cons. nia.
      - exists [Some u]. reflexivity. }
    destruct u as [s d|y|a|a off s|g s v|g s l r]; try (exact (New _ eq_refl I Hbuild)); cbn in Hd.
    + discriminate Hd.
    + destruct Hf as (o & Ho). rewrite Ho in Hd. rewrite (proj2 (deref_ok _ _ _) Ho) in Hbuild. cbn [bind] in Hbuild.
      destruct (Hs1 a o Ho) as (Hno & _ & _).
      destruct o as [s d|y|b|b off s|g s v|g s l r]; cbn in Hd; try discriminate Hd; try contradiction; injection Hd as ->;
        rewrite row_of_true in Hbuild; (destruct (k <? n) eqn:Ek; [|discriminate Hbuild]); apply Nat.ltb_lt in Ek;
        cbn [bind] in Hbuild; injection Hbuild as <- <-; unfold within in Hi; cbn in Hi;
        (apply Key; [exact Ek|exact Hi|]); inversion H; subst; try (econstructor; eassumption).
      econstructor; [exact Ho|]. econstructor; [eassumption|]. rewrite Nat.add_assoc. assumption.
    + injection Hd as ->. rewrite row_of_true in Hbuild; (destruct (k <? n) eqn:Ek; [|discriminate Hbuild]); apply Nat.ltb_lt in Ek;
        cbn [bind] in Hbuild; injection Hbuild as <- <-; unfold within in Hi; cbn in Hi;
        (apply Key; [exact Ek|exact Hi|]); inversion H; subst.
      econstructor; [eassumption|]. rewrite Nat.add_assoc. assumption.
Qed.

(** Rows of temporaries, kept. *)
Definition temporary e : Prop := match e with Temp _ _ | Un _ _ | Bin _ _ _ => True | _ => False end.
Lemma build_temporary asserts st e t st' : temporary e -> build asserts st e = Ok (t, st') ->
  match t with TRef _ | TView _ _ _ => False | _ => True end.
Proof.
  destruct e as [a|x|s d|f e|f e1 e2|e k]; intros Ht Hb; cbn in Ht; try contradiction; cbn [build] in Hb.
  - inversion Hb. exact I.
  - destruct (build asserts st e) as [[u st1]| |]; try discriminate Hb. cbn [bind] in Hb.
    destruct (dims st1 u) as [[s|]| |]; try discriminate Hb; cbn [bind] in Hb; [inversion Hb; exact I|].
    destruct (read_obj st1 u 0); try discriminate Hb. inversion Hb. exact I.
  - destruct (build asserts st e1) as [[u1 st1]| |]; try discriminate Hb. cbn [bind] in Hb.
    destruct (build asserts st1 e2) as [[u2 st2]| |]; try discriminate Hb. cbn [bind] in Hb.
    destruct (dims st2 u1); try discriminate Hb. cbn [bind] in Hb.
    destruct (dims st2 u2); try discriminate Hb. cbn [bind] in Hb.
    destruct (join asserts a a0) as [[s|]| |]; try discriminate Hb; cbn [bind] in Hb; [inversion Hb; exact I|].
    destruct (read_obj st2 u1 0); try discriminate Hb. cbn [bind] in Hb.
    destruct (read_obj st2 u2 0); try discriminate Hb. inversion Hb. exact I.
Qed.
Lemma build_length asserts e : forall st t st', build asserts st e = Ok (t, st') -> length st <= length st'.
Proof.
  induction e as [a|x|s d|f e IH|f e1 IH1 e2 IH2|e IH k]; intros st t st' Hb; cbn [build] in Hb.
  - destruct (deref st a); try discriminate Hb. inversion Hb. lia.
  - inversion Hb. lia.
  - inversion Hb. lia.
  - destruct (build asserts st e) as [[u st1]| |] eqn:E; try discriminate Hb. cbn [bind] in Hb. apply IH in E.
    destruct (dims st1 u) as [[s|]| |]; try discriminate Hb; cbn [bind] in Hb; [inversion Hb; subst; lia|].
    destruct (read_obj st1 u 0); try discriminate Hb. inversion Hb. subst. lia.
  - destruct (build asserts st e1) as [[u1 st1]| |] eqn:E1; try discriminate Hb. cbn [bind] in Hb. apply IH1 in E1.
    destruct (build asserts st1 e2) as [[u2 st2]| |] eqn:E2; try discriminate Hb. cbn [bind] in Hb. apply IH2 in E2.
    destruct (dims st2 u1); try discriminate Hb. cbn [bind] in Hb.
    destruct (dims st2 u2); try discriminate Hb. cbn [bind] in Hb.
    destruct (join asserts a a0) as [[s|]| |]; try discriminate Hb; cbn [bind] in Hb; [inversion Hb; subst; lia|].
    destruct (read_obj st2 u1 0); try discriminate Hb. cbn [bind] in Hb.
    destruct (read_obj st2 u2 0); try discriminate Hb. inversion Hb. subst. lia.
  - destruct (build asserts st e) as [[u st1]| |] eqn:E; try discriminate Hb. cbn [bind] in Hb. apply IH in E.
    destruct u; try discriminate Hb;
      try (match type of Hb with bind ?r _ = _ => destruct r as [v| |] eqn:Er; try discriminate Hb end;
           cbn in Hb; inversion Hb; subst; rewrite ?app_length; lia).
    destruct (deref st1 a) as [o| |]; try discriminate Hb. cbn [bind] in Hb.
    destruct o; try discriminate Hb;
      (match type of Hb with bind ?r _ = _ => destruct r as [v| |] eqn:Er; try discriminate Hb end;
       cbn in Hb; inversion Hb; subst; lia).
Qed.
Lemma drop_from_dead n st a t : n <= a -> ~ live (drop_from n st) a t.
Proof.
  intros Ha H. unfold live, drop_from in H.
  destruct (Nat.lt_ge_cases a (length (firstn n st))) as [L|L]; [rewrite firstn_length in L; lia|].
  rewrite nth_error_app2 in H by exact L. apply nth_error_In, repeat_spec in H. discriminate H.
Qed.
Lemma drop_from_length n st : n <= length st -> length (drop_from n st) = length st.
Proof. intros H. unfold drop_from. rewrite app_length, firstn_length, repeat_length. lia. Qed.

Lemma row_of_temporary asserts st e k st' : temporary e -> step asserts (DeclAuto (Row e k)) st = Ok st' ->
  exists st1 a off s, st' = st1 ++ [Some (TView a off s)] /\ forall i, read_obj st' (TView a off s) i = UB.
Proof.
  intros Ht H. cbn [step build] in H.
  destruct (build asserts st e) as [[u st1]| |] eqn:E; try discriminate H. cbn [bind] in H.
  pose proof (build_temporary _ _ _ _ _ Ht E) as Hu. pose proof (build_length _ _ _ _ _ E) as Hlen.
  assert (G : forall s, (do (t, st2) <- (do v <- row_of asserts (length st1) 0 s k; Ok (v, st1 ++ [Some u]));
                Ok (drop_from (length st) st2 ++ [Some t])) = Ok st' ->
          exists st1 a off s, st' = st1 ++ [Some (TView a off s)] /\ forall i, read_obj st' (TView a off s) i = UB).
  { intros s H'. unfold row_of in H'. destruct s as [|n w]; [discriminate H'|].
    destruct (asserts && negb (k <? n)); [discriminate H'|]. cbn [bind] in H'. injection H' as <-.
    eexists _, _, _, _. split; [reflexivity|]. intros i.
    apply (dead_ref _ _ (TView _ _ _) (length st1)); [left; reflexivity|].
    intros t Hl. apply live_snoc in Hl as [Hl|[El _]].
    - exact (drop_from_dead _ _ _ _ Hlen Hl).
    - rewrite drop_from_length in El by (rewrite app_length; lia). rewrite app_length in El. cbn in El. lia. }
  destruct u; try contradiction; try discriminate H; exact (G _ H).
Qed.

(** The object of an operation is an expression or a view, which nothing modifies. *)
Lemma operation_object st e u : operation e -> lasting e -> all_lazy st e -> sound st -> typed st e ->
  build true st e = Ok (u, st) -> match u with TArr _ _ | TNum _ | TRef _ => False | _ => True end.
Proof.
  intros Ho Hla Hz Hs Ht Eb. destruct e as [a|y|s d|f e|f e1 e2|e k]; try contradiction.
  - destruct Hz as (_ & Hz). cbn [sdims] in Hz.
    destruct (build_ok (Un f e) st Hs Ht) as [(ex & E)|(u' & st' & E & _ & _ & _ & Hd)]; [congruence|].
    assert (u' = u /\ st' = st) as (-> & ->) by (split; congruence). clear E.
    pose proof (build_temporary true st (Un f e) u st I Eb) as Hsh.
    destruct u; try contradiction; try exact I.
    + cbn [build] in Eb. destruct (build true st e) as [[w stw]| |]; try discriminate Eb. cbn [bind] in Eb.
      destruct (dims stw w) as [[q|]| |]; try discriminate Eb. cbn [bind] in Eb.
      destruct (read_obj stw w 0); discriminate Eb.
    + cbn in Hd. congruence.
  - destruct Hz as (_ & _ & Hz). cbn [sdims] in Hz.
    destruct (build_ok (Bin f e1 e2) st Hs Ht) as [(ex & E)|(u' & st' & E & _ & _ & _ & Hd)]; [congruence|].
    assert (u' = u /\ st' = st) as (-> & ->) by (split; congruence). clear E.
    pose proof (build_temporary true st (Bin f e1 e2) u st I Eb) as Hsh.
    destruct u; try contradiction; try exact I.
    + cbn [build] in Eb. destruct (build true st e1) as [[w stw]| |]; try discriminate Eb. cbn [bind] in Eb.
      destruct (build true stw e2) as [[w2 stw2]| |]; try discriminate Eb. cbn [bind] in Eb.
      destruct (dims stw2 w) as [q| |]; try discriminate Eb. cbn [bind] in Eb.
      destruct (dims stw2 w2) as [q2| |]; try discriminate Eb. cbn [bind] in Eb.
      destruct (join true q q2) as [[q3|]| |]; try discriminate Eb. cbn [bind] in Eb.
      destruct (read_obj stw2 w 0); try discriminate Eb. cbn [bind] in Eb.
      destruct (read_obj stw2 w2 0); discriminate Eb.
    + cbn in Hd. congruence.
  - pose proof (build_named (Row e k) true st u st Hla Eb) as (_ & Hsh).
    destruct u; try contradiction; try exact I.
    pose proof (build_not_ref true st (Row e k) (TRef a) st I Eb) as N. destruct N.
Qed.
Lemma same_form_expr u t : match u with TArr _ _ | TNum _ | TRef _ => False | _ => True end -> same_form u t -> t = u.
Proof. destruct u, t; cbn; intros H F; try contradiction; congruence. Qed.

(** * Copies and assignment *)
Lemma copied_offset_free t : offset_free t -> copied t = t.
Proof.
  induction t as [s d|y|a|a off s|f s u IH|f s l IHl r IHr]; cbn; intros H; try reflexivity.
  - rewrite H. reflexivity.
  - rewrite (IH H). reflexivity.
  - destruct H as (H1 & H2). rewrite (IHl H1), (IHr H2). reflexivity.
Qed.

End Proofs.
