(** Proofs for C112: the evaluation of whole expressions. *)
From Coq Require Import String Permutation.
From Coq Require Import ZifyNat ZifyN ZifyBool.
From Verif Require Import Base BaseProofs CudaModel KnlModel KnlSpec CukModel CukSpec CukProofs CukPlan.
Ltac Zify.zify_post_hook ::= idtac.

Lemma find_unary u : u = Neg \/ ~ absent u -> exists kn, find_cuda (unary_file u) (unary_kernel u) = Some kn /\ c_ptr kn = [true] /\
  c_body kn = match u with Neg => CNeg 0 | _ => CCall (cuda_math u) 0 end.
Proof.
  intros H. assert (X : ~ absent u) by (destruct H as [-> |H]; [intros X; cbn in X; intuition discriminate|exact H]). clear H.
  destruct u; try (exfalso; apply X; cbn; tauto); eexists; (split; [reflexivity|split; reflexivity]).
Qed.
Lemma find_binary b s : exists kn, find_cuda (binary_file b) (binary_kernel b s) = Some kn /\
  c_ptr kn = match s with Arrays => [true; true] | ScalarRhs => [true; false] | ScalarLhs => [false; true] end /\
  c_body kn = COp (symbol b) 0 1.
Proof. destruct b, s; eexists; (split; [reflexivity|split; reflexivity]). Qed.
Lemma find_absent u : absent u -> find_cuda (unary_file u) (unary_kernel u) = None.
Proof. intros H. num H; reflexivity. Qed.
Lemma vec_is t w : floating t -> w = 2 \/ w = 4 -> is_vec t w = true.
Proof. intros [-> | ->] [-> | ->]; reflexivity. Qed.
Lemma symbol_vec b : has vector_ops (symbol b) = true.
Proof. destruct b; reflexivity. Qed.
Lemma call_vec u : ~ absent u -> u <> Neg -> has vector_calls (cuda_math u) = true.
Proof. intros H N. destruct u; try congruence; try reflexivity; exfalso; apply H; cbn; tauto. Qed.
Lemma dty_refl d : dty_eqb d d = true.
Proof. destruct d; cbn; rewrite ?ety_eqb_refl, ?Nat.eqb_refl; reflexivity. Qed.

Section Final.
Context {V : Type}.
Variables wf wd : nat.
Hypothesis Hwf : even_width wf.
Hypothesis Hwd : even_width wd.
Variable vop : string -> ety -> ety -> ety -> V -> V -> V.
Variable vcall : string -> ety -> ety -> V -> V.
Variable junk : nat -> nat -> V.
Variable asserts : bool.
Variable n : nat.
Hypothesis Hn : 1 <= n.
Variable order : nat -> nat -> list nat.
Hypothesis Hord : schedule order.
Implicit Types e : expr V.
Implicit Types m : memory V.
Local Notation stands := (stands n).
Local Notation written := (written n).
Local Notation lanes c d := (lanes_of (extract wf wd c d)).

Lemma run_args (c : bool) (d : ety) e0 kn file name (ts : list dty) (args : list (@arg V)) dst m :
  same_width wf wd c d e0 -> numeric d -> holds n m d dst ->
  find_cuda file name = Some kn -> instantiates kn (extract wf wd c d) ts = true ->
  (forall p, In p (combine (combine ts (c_ptr kn)) args) -> fits_run m (lanes c d) (packets_of n (lanes c d)) p) ->
  (forall vs, length vs = length (combine (combine ts (c_ptr kn)) args) ->
     exists v, body_value vop vcall (c_body kn) d (ptys (combine (combine ts (c_ptr kn)) args)) vs = Ok v) ->
  exists m', run_plan vop vcall asserts file name n
      {| p_dst := extract wf wd c d; p_args := map Some ts; p_width := lanes c d |} dst args (order dst) m = Ok m' /\
    length m' = length m /\ (forall p, p <> dst -> nth_error m' p = nth_error m p) /\
    exists r r', nth_error m dst = Some r /\ nth_error m' dst = Some r' /\ a_ty r' = a_ty r /\ length (a_data r') = length (a_data r) /\
      forall i, i < n -> exists v cs, nth_error (a_data r') i = Some v /\
        Forall2 (fun p x => argval m i p = Some x) (combine (combine ts (c_ptr kn)) args) cs /\
        body_value vop vcall (c_body kn) d (ptys (combine (combine ts (c_ptr kn)) args)) cs = Ok v.
Proof.
  intros Hc Nd (r & Hr & Tr & Lr) Hf Hi Hp Hb. unfold run_plan. cbn [p_args p_dst p_width].
  assert (A : all_some (map Some ts) = Some ts) by (clear; induction ts as [|x l IH]; cbn; [reflexivity|now rewrite IH]).
  rewrite A. unfold run_kernel. rewrite Hf, Hi. pose proof (even_lanes wf wd c d e0 Hc) as Ev.
  pose proof (packets_pos n _ Hn Ev) as Pp. destruct (packets_fit n _ Ev) as (P1 & P2).
  replace (packets_of n (lanes c d) =? 0) with false by lia.
  assert (L1 : 1 <= lanes c d) by (destruct Ev as [E|[E|E]]; rewrite E; lia).
  destruct (run_all vop vcall kn (extract wf wd c d) dst (combine (combine ts (c_ptr kn)) args) m (packets_of n (lanes c d)) L1 r Hr) with
    (order := order dst (packets_of n (lanes c d))) as (m2 & E & Lm & Ho & r2 & H2 & T2 & L2 & Hv).
  - rewrite dst_lanes. exact Tr.
  - lia.
  - exact Hp.
  - rewrite dst_lanes. exact Hb.
  - apply Hord.
  - exists m2. split; [exact E|]. split; [exact Lm|]. split; [exact Ho|]. exists r, r2. split; auto. split; auto. split; auto. split; auto.
    intros i Hi'. destruct (Hv i ltac:(lia)) as (v & Ev' & cs & F & B). rewrite dst_lanes in B. eauto.
Qed.

Definition compat (d t : ety) : Prop := d = t \/ ~ (floating d /\ floating t).

Lemma unary_node u e1 d dst t m a f :
  supported (EUn u e1) -> ty_of e1 = Some t -> numeric d -> compat d t -> holds n m d dst -> stands m e1 t a f ->
  exists p m', make_plan wf wd d (EUn u e1) [e1] = Some p /\
    run_plan vop vcall asserts (unary_file u) (unary_kernel u) n p dst [a] (order dst) m = Ok m' /\
    written m m' dst (fun i => option_map (vcall (cuda_math u) d t) (f i)).
Proof.
  intros (S1 & Sc & Su) Et Nd Hc Hd Ha.
  destruct (supported_type e1 S1) as (t' & Et' & Nt). rewrite Et in Et'. injection Et' as <-.
  destruct (plan_spec wf wd Hwf Hwd d (EUn u e1) t [e1] Et Nd Nt Hc) as (c & Ep & Sw). rewrite Ep.
  cbn [map]. rewrite (extract_arg_spec wf wd c e1 t Et).
  assert (Hu : u = Neg \/ ~ absent u) by tauto.
  destruct (find_unary u Hu) as (kn & Ef & Cp & Cb).
  assert (At : arg_dty wf wd c e1 t = extract wf wd c t) by (unfold arg_dty; now rewrite Sc).
  assert (Tc : c = true -> t = d) by (intros X; destruct (Sw X) as (_ & Y & _); cbn [ty_of] in Y; congruence).
  destruct (run_args c d (EUn u e1) kn (unary_file u) (unary_kernel u) [arg_dty wf wd c e1 t] [a] dst m Sw Nd Hd Ef) as
    (m' & E & L & Ho & r & r' & H1 & H2 & H3 & H4 & Hv).
  - rewrite At. unfold instantiates. rewrite Cb. destruct c; cbn [extract].
    + rewrite (Tc eq_refl). destruct (Sw eq_refl) as (_ & _ & Fd & w & -> & W2). pose proof (vec_is d w Fd W2) as Iv.
      destruct Su as [-> |(Nu & Ft)]; cbn [nth_error].
      * rewrite Iv. apply dty_refl.
      * assert (X : u = Neg \/ u <> Neg) by (destruct u; (now left) || (right; discriminate)). destruct X as [-> |X].
        -- cbn [nth_error]. rewrite Iv. apply dty_refl.
        -- pose proof (call_vec u Nu X) as Hc'. destruct u; try congruence; cbn [nth_error call_type]; rewrite Iv, Hc'; apply dty_refl.
    + destruct Su as [-> |(Nu & Ft)]; cbn [nth_error].
      * now rewrite (numeric_builtin d Nd), (numeric_builtin t Nt).
      * assert (F : floating t) by (destruct Ft as [X|X]; rewrite Et in X; injection X as ->; unfold floating; tauto).
        pose proof (numeric_builtin d Nd) as Bd.
        destruct F as [-> | ->]; destruct u; cbn [nth_error call_type stores]; rewrite Bd; reflexivity.
  - rewrite Cp. cbn [combine]. intros p [<-|[]]. eapply fits_arg; eauto. now rewrite Sc.
  - rewrite Cp, Cb. cbn [combine]. intros [|x [|]] Hl; try discriminate Hl. destruct u; cbn; eauto.
  - exists {| p_dst := extract wf wd c d; p_args := [Some (arg_dty wf wd c e1 t)]; p_width := lanes c d |}, m'.
    split; [reflexivity|]. split; [exact E|]. split; [exact L|]. split; [exact Ho|]. exists r, r'. split; auto. split; auto. split; auto. split; auto.
    intros i Hi. destruct (Hv i Hi) as (v & cs & E1 & F & B). exists v. split; [exact E1|]. rewrite Cp in F, B. cbn [combine] in F, B.
    inversion F as [|? x ? ? Fx F']; subst. inversion F'; subst. rewrite Cb in B.
    rewrite (argval_stands n m e1 t a f _ _ i x Ha Hi Fx). cbn [option_map].
    unfold ptys in B. cbn [map fst] in B. rewrite arg_scal in B. destruct u; cbn in B |- *; congruence.
Qed.

Lemma allow_same b e1 e2 s t d : allow (EBin b e1 e2) = true -> ty_of e1 = Some s -> ty_of e2 = Some t -> numeric s ->
  ty_of (EBin b e1 e2) = Some d -> floating d -> s = d /\ t = d.
Proof.
  cbn [allow ty_of]. intros A E1 E2 Ns Ed Fd. rewrite E1, E2 in *. apply andb_prop in A. destruct A as (_ & A). cbn [opt_eqb] in A.
  apply ety_eqb_eq in A. subst t. rewrite (functor_same b s d Ns Ed Fd). auto.
Qed.

Lemma binary_node b e1 e2 d dst s1 s2 t m a1 a2 f1 f2 :
  supported (EBin b e1 e2) -> ty_of e1 = Some s1 -> ty_of e2 = Some s2 -> ty_of (EBin b e1 e2) = Some t ->
  numeric d -> compat d t -> holds n m d dst -> stands m e1 s1 a1 f1 -> stands m e2 s2 a2 f2 ->
  exists p m', make_plan wf wd d (EBin b e1 e2) [e1; e2] = Some p /\
    run_plan vop vcall asserts (binary_file b) (binary_name b e1 e2) n p dst [a1; a2] (order dst) m = Ok m' /\
    written m m' dst (fun i => match f1 i, f2 i with Some x, Some y => Some (vop (symbol b) d s1 s2 x y) | _, _ => None end).
Proof.
  intros (S1 & S2 & Sc) E1 E2 Et Nd Hc Hd H1 H2.
  destruct (supported_type e1 S1) as (s1' & E1' & N1). rewrite E1 in E1'. injection E1' as <-.
  destruct (supported_type e2 S2) as (s2' & E2' & N2). rewrite E2 in E2'. injection E2' as <-.
  assert (Nt : numeric t).
  { destruct (functor_numeric b s1 s2 N1 N2) as (t' & E & N). cbn [ty_of] in Et. rewrite E1, E2 in Et. congruence. }
  destruct (plan_spec wf wd Hwf Hwd d (EBin b e1 e2) t [e1; e2] Et Nd Nt Hc) as (c & Ep & Sw). rewrite Ep.
  cbn [map]. rewrite (extract_arg_spec wf wd c e1 s1 E1), (extract_arg_spec wf wd c e2 s2 E2).
  set (sh := if is_scalar e1 then ScalarLhs else if is_scalar e2 then ScalarRhs else Arrays).
  destruct (find_binary b sh) as (kn & Ef & Cp & Cb).
  assert (Cp' : c_ptr kn = [negb (is_scalar e1); negb (is_scalar e2)]).
  { rewrite Cp. unfold sh. destruct (is_scalar e1), (is_scalar e2); try reflexivity. destruct Sc; discriminate. }
  assert (Tc : c = true -> s1 = d /\ s2 = d).
  { intros X. destruct (Sw X) as (A & Y & F & _). eapply allow_same; eauto. }
  destruct (run_args c d (EBin b e1 e2) kn (binary_file b) (binary_name b e1 e2) [arg_dty wf wd c e1 s1; arg_dty wf wd c e2 s2] [a1; a2] dst m Sw Nd Hd Ef) as
    (m' & E & L & Ho & r & r' & K1 & K2 & K3 & K4 & Hv).
  - unfold instantiates. rewrite Cb. cbn [nth_error]. unfold arg_dty. destruct c; cbn [extract].
    + destruct (Tc eq_refl) as (-> & ->). destruct (Sw eq_refl) as (_ & _ & Fd & w & Vw & W2). rewrite Vw.
      pose proof (vec_is d w Fd W2) as Iv. pose proof (symbol_vec b) as Sb.
      destruct (is_scalar e1), (is_scalar e2); [destruct Sc; discriminate| | |];
        cbn [op_type]; rewrite ety_eqb_refl, ?Nat.eqb_refl, Iv, Sb; cbn [andb]; apply dty_refl.
    + destruct (product_numeric s1 s2 N1 N2) as (q & Eq & Nq).
      destruct (is_scalar e1), (is_scalar e2); cbn [op_type]; rewrite (numeric_builtin _ N1), (numeric_builtin _ N2), Eq;
        cbn [andb option_map stores]; now rewrite (numeric_builtin _ Nd), (numeric_builtin _ Nq).
  - rewrite Cp'. cbn [combine]. intros p [<-|[<-|[]]]; (eapply fits_arg; [exact Sw| |eassumption|reflexivity]); intros X; apply (Tc X).
  - rewrite Cp', Cb. cbn [combine]. intros [|x [|y [|]]] Hl; try discriminate Hl. cbn. eauto.
  - exists {| p_dst := extract wf wd c d; p_args := [Some (arg_dty wf wd c e1 s1); Some (arg_dty wf wd c e2 s2)]; p_width := lanes c d |}, m'.
    split; [reflexivity|]. split; [exact E|]. split; [exact L|]. split; [exact Ho|]. exists r, r'. split; auto. split; auto. split; auto. split; auto.
    intros i Hi. destruct (Hv i Hi) as (v & cs & X1 & F & B). exists v. split; [exact X1|]. rewrite Cp' in F, B. cbn [combine] in F, B.
    inversion F as [|? x ? ? Fx F']; subst. inversion F' as [|? y ? ? Fy F'']; subst. inversion F''; subst. rewrite Cb in B.
    rewrite (argval_stands n m e1 s1 a1 f1 _ _ i x H1 Hi Fx), (argval_stands n m e2 s2 a2 f2 _ _ i y H2 Hi Fy).
    unfold ptys in B. cbn [map fst] in B. rewrite !arg_scal in B. cbn in B. congruence.
Qed.

(** ** Whole expressions *)
Definition extends (m m' : memory V) : Prop := length m <= length m' /\ forall p, p < length m -> nth_error m' p = nth_error m p.
Lemma ext_refl m : extends m m. Proof. split; auto. Qed.
Lemma ext_trans m m' m'' : extends m m' -> extends m' m'' -> extends m m''.
Proof. intros (A & B) (C & D). split; [lia|]. intros p Hp. rewrite D by lia. auto. Qed.
Lemma ext_temp t m : extends m (temporary junk n t m).
Proof. unfold temporary. split; [rewrite app_length; cbn; lia|]. intros p Hp. now rewrite nth_error_app1. Qed.
Lemma holds_lt m t p : holds n m t p -> p < length m.
Proof. intros (r & E & _). apply nth_error_Some. congruence. Qed.
Lemma ext_holds m m' t p : extends m m' -> holds n m t p -> holds n m' t p.
Proof. intros (_ & X) H. pose proof (holds_lt m t p H). destruct H as (r & E & H). exists r. now rewrite X. Qed.
Lemma ext_arrays m m' e : extends m m' -> arrays_in n m e -> arrays_in n m' e.
Proof. intros X. induction e; cbn [arrays_in]; auto; [now apply ext_holds|tauto]. Qed.
Lemma ext_value m m' d e i : extends m m' -> arrays_in n m e -> value vop vcall m' d e i = value vop vcall m d e i.
Proof.
  intros X. revert d. induction e as [t a|t x|u e1 IH|b e1 IH1 e2 IH2]; cbn [arrays_in value]; intros d A; auto.
  - unfold element. pose proof (holds_lt m t a A). destruct X as (_ & X). now rewrite X.
  - destruct (ty_of e1); auto. now rewrite IH.
  - destruct A, (ty_of e1), (ty_of e2); auto. now rewrite IH1, IH2.
Qed.
Lemma ext_stands m m' e t a f : extends m m' -> stands m e t a f -> stands m' e t a f.
Proof.
  intros (_ & X). destruct a as [q|s x]; cbn [CukPlan.stands]; auto. intros (A & r & E & B). split; auto. exists r. split; auto.
  rewrite X; auto. apply nth_error_Some. congruence.
Qed.
Lemma stands_ext m e t a f g : (forall i, f i = g i) -> stands m e t a f -> stands m e t a g.
Proof.
  intros H. destruct a as [q|s x]; cbn [CukPlan.stands].
  - intros (A & r & E & T & L & B). split; auto. exists r. split; auto. split; auto. split; auto. intros i Hi. rewrite <- H. auto.
  - intros (A & B & C). split; auto. split; auto. intros i. rewrite <- H. auto.
Qed.
Lemma temp_holds t m m' : extends (temporary junk n t m) m' -> holds n m' t (length m).
Proof.
  intros X. apply (ext_holds _ _ _ _ X). unfold temporary, holds. eexists. split; [rewrite nth_error_app2, Nat.sub_diag by lia; reflexivity|].
  cbn [a_ty a_data]. split; auto. now rewrite map_length, seq_length.
Qed.
Lemma written_stands m m' t dst f e : written m m' dst f -> holds n m t dst -> is_scalar e = false -> stands m' e t (AArr dst) f.
Proof.
  intros (_ & _ & r & r' & E & E' & T & L & H) (r2 & E2 & T2 & L2) S. cbn [CukPlan.stands]. split; auto. exists r'. split; auto.
  rewrite E in E2. injection E2 as <-. split; [congruence|]. split; [lia|]. auto.
Qed.
Lemma written_ext m0 m m' f : extends (m0) m -> written m m' (length m0) f -> extends m0 m'.
Proof. intros (A & B) (L & O & _). split; [lia|]. intros p Hp. rewrite O by lia. auto. Qed.

Lemma source_ok e : forall m t, supported e -> arrays_in n m e -> ty_of e = Some t ->
  sub_compiles wf wd e = true /\
  exists m' a, source wf wd vop vcall junk asserts n order e m = Ok (m', a) /\ extends m m' /\ stands m' e t a (value vop vcall m t e).
Proof.
  induction e as [s q|s x|u e1 IH|b e1 IH1 e2 IH2]; intros m t S A Et.
  - split; [reflexivity|]. exists m, (AArr q). split; [reflexivity|]. split; [apply ext_refl|]. cbn [ty_of] in Et. injection Et as <-.
    cbn [arrays_in] in A. destruct A as (r & Er & Tr & Lr). cbn [CukPlan.stands is_scalar value]. split; auto. exists r. split; auto. split; auto. split; auto.
    intros i Hi. unfold element. rewrite Er. destruct (nth_error (a_data r) i) eqn:E; eauto. apply nth_error_None in E. pose proof (pad_ge n). lia.
  - split; [reflexivity|]. exists m, (AScal s x). split; [reflexivity|]. split; [apply ext_refl|]. cbn [ty_of] in Et. injection Et as <-.
    cbn. auto.
  - pose proof S as (S1 & Sc & Su). cbn [ty_of] in Et. cbn [arrays_in] in A.
    pose proof (ext_temp t m) as X0. destruct (IH (temporary junk n t m) t S1 (ext_arrays _ _ _ X0 A) Et) as (Cs & m2 & a & E2 & X2 & St).
    pose proof (temp_holds t m m2 X2) as Hh.
    destruct (supported_type e1 S1) as (t' & Et' & Nt). rewrite Et in Et'. injection Et' as <-.
    destruct (unary_node u e1 t (length m) t m2 a _ S Et Nt (or_introl eq_refl) Hh St) as (p & m3 & Ep & Er & Wr).
    split; [cbn [sub_compiles ty_of]; rewrite Cs, Et, Ep; reflexivity|]. exists m3, (AArr (length m)).
    split. { cbn [source ty_of]. rewrite Et, Ep, E2. cbn [bind fst snd]. rewrite Er. reflexivity. }
    split; [eapply written_ext; [eapply ext_trans; eauto|eauto]|]. eapply stands_ext; [|eapply written_stands; eauto].
    intros i. cbn [value]. rewrite Et. now rewrite (ext_value _ _ t e1 i X0 A).
  - pose proof S as (S1 & S2 & Sc). cbn [arrays_in] in A. destruct A as (A1 & A2).
    destruct (supported_type e1 S1) as (s1 & E1 & N1), (supported_type e2 S2) as (s2 & E2 & N2).
    pose proof (ext_temp t m) as X0.
    destruct (IH1 (temporary junk n t m) s1 S1 (ext_arrays _ _ _ X0 A1) E1) as (C1 & m2 & a1 & R1 & X1 & St1).
    pose proof (ext_trans _ _ _ X0 X1) as X01.
    destruct (IH2 m2 s2 S2 (ext_arrays _ _ _ X01 A2) E2) as (C2 & m3 & a2 & R2 & X2 & St2).
    pose proof (temp_holds t m m3 (ext_trans _ _ _ X1 X2)) as Hh.
    assert (Nt : numeric t).
    { destruct (functor_numeric b s1 s2 N1 N2) as (t' & E & N). cbn [ty_of] in Et. rewrite E1, E2 in Et. congruence. }
    destruct (binary_node b e1 e2 t (length m) s1 s2 t m3 a1 a2 _ _ S E1 E2 Et Nt (or_introl eq_refl) Hh (ext_stands _ _ _ _ _ _ X2 St1) St2) as (p & m4 & Ep & Er & Wr).
    split; [cbn [sub_compiles]; rewrite C1, C2, Et, Ep; reflexivity|]. exists m4, (AArr (length m)).
    split. { cbn [source]. rewrite Et, Ep, R1. cbn [bind fst snd]. rewrite R2. cbn [bind fst snd]. rewrite Er. reflexivity. }
    split; [eapply written_ext; [eapply ext_trans; eauto|eauto]|]. eapply stands_ext; [|eapply written_stands; eauto].
    intros i. cbn [value]. rewrite E1, E2, (ext_value _ _ s1 e1 i X0 A1), (ext_value _ _ s2 e2 i X01 A2). reflexivity.
Qed.

Lemma written_assigned m m2 m' d dst e f : extends m m2 -> holds n m d dst -> written m2 m' dst f ->
  (forall i, f i = value vop vcall m d e i) -> assigned vop vcall n d dst e m m'.
Proof.
  intros (Xl & X) Hd (L & O & r & r' & E & E' & T & Ln & H) Hf. pose proof (holds_lt _ _ _ Hd) as Lt. split; [|split].
  - intros i Hi. destruct (H i Hi) as (v & A & B). exists v. rewrite <- Hf. split; auto. unfold element. now rewrite E'.
  - exists r, r'. rewrite <- (X dst Lt). auto.
  - intros p Hp Hq. rewrite O by auto. auto.
Qed.

Lemma assign_ok e d dst m t : supported e -> is_function e = true -> ty_of e = Some t -> numeric d -> compat d t ->
  arrays_in n m e -> holds n m d dst ->
  exists m', assign wf wd vop vcall junk asserts n order d dst e m = Some (Ok m') /\ assigned vop vcall n d dst e m m'.
Proof.
  intros S Fn Et Nd Hc A Hd. destruct e as [s q|s x|u e1|b e1 e2]; try discriminate Fn.
  - pose proof S as (S1 & Sc & Su). cbn [ty_of] in Et. cbn [arrays_in] in A.
    destruct (source_ok e1 m t S1 A Et) as (Cs & m2 & a & E2 & X2 & St).
    destruct (unary_node u e1 d dst t m2 a _ S Et Nd Hc (ext_holds _ _ _ _ X2 Hd) St) as (p & m3 & Ep & Er & Wr).
    exists m3. unfold assign. cbn [compiles]. rewrite Cs, Ep. cbn [andb negb]. rewrite E2. cbn [bind fst snd]. rewrite Er. split; [reflexivity|].
    eapply written_assigned; eauto. intros i. cbn [value]. now rewrite Et.
  - pose proof S as (S1 & S2 & Sc). cbn [arrays_in] in A. destruct A as (A1 & A2).
    destruct (supported_type e1 S1) as (s1 & E1 & N1), (supported_type e2 S2) as (s2 & E2 & N2).
    destruct (source_ok e1 m s1 S1 A1 E1) as (C1 & m2 & a1 & R1 & X1 & St1).
    destruct (source_ok e2 m2 s2 S2 (ext_arrays _ _ _ X1 A2) E2) as (C2 & m3 & a2 & R2 & X2 & St2).
    destruct (binary_node b e1 e2 d dst s1 s2 t m3 a1 a2 _ _ S E1 E2 Et Nd Hc (ext_holds _ _ _ _ (ext_trans _ _ _ X1 X2) Hd)
      (ext_stands _ _ _ _ _ _ X2 St1) St2) as (p & m4 & Ep & Er & Wr).
    exists m4. unfold assign. cbn [compiles]. rewrite C1, C2, Ep. cbn [andb negb]. rewrite R1. cbn [bind fst snd]. rewrite R2.
    cbn [bind fst snd]. rewrite Er. split; [reflexivity|].
    eapply written_assigned; [eapply ext_trans; eauto|exact Hd|exact Wr|]. intros i. cbn [value].
    rewrite E1, E2, (ext_value _ _ s2 e2 i X1 A2). reflexivity.
Qed.
End Final.

(** ** Where it fails *)
Lemma mixed_vec wf wd d t : 3 <= wf <= 4 -> 2 <= wd <= 4 -> floating d -> floating t -> d <> t ->
  exists v w, vec_type wf wd d = DV d v /\ vec_type wf wd t = DV t w /\ packet_width (DV d v) = Some v /\
    packet_width (DV t w) = Some w /\ 1 < v /\ 1 < w /\ is_vec t w = true /\ dty_eqb (DV d v) (DV t w) = false.
Proof.
  intros H3 H2 Fd Ft N.
  assert (X : wf = 3 \/ wf = 4) by lia. assert (Y : wd = 2 \/ wd = 3 \/ wd = 4) by lia. clear H3 H2.
  destruct Fd as [-> | ->], Ft as [-> | ->]; try congruence; destruct X as [-> | ->], Y as [-> |[-> | ->]];
    eexists; eexists; repeat (split; [reflexivity|]); (split; [lia|]); (split; [lia|]); split; reflexivity.
Qed.
Lemma mixed_throws {V} wf wd vop vcall (junk : nat -> nat -> V) asserts n order d t dst b a1 a2 m :
  3 <= wf <= 4 -> 2 <= wd <= 4 -> floating d -> floating t -> d <> t ->
  assign wf wd vop vcall junk asserts n order d dst (EBin b (EArr t a1) (EArr t a2)) m = Some (Throw RuntimeError).
Proof.
  intros H3 H2 Fd Ft N. destruct (mixed_vec wf wd d t H3 H2 Fd Ft N) as (v & w & Vd & Vt & Pv & Pw & Lv & Lw & Iv & Ne).
  set (e := EBin b (EArr t a1) (EArr t a2)).
  assert (Et : ty_of e = Some t) by (destruct b, Ft as [-> | ->]; reflexivity).
  assert (Al : allow e = true) by (destruct Ft as [-> | ->]; reflexivity).
  assert (Ad : allow_vec d = true) by (destruct Fd as [-> | ->]; reflexivity).
  assert (Cv : can_vectorise wf wd true d e = Some true).
  { unfold can_vectorise. rewrite Et, Vd, Vt, Pv, Pw, Al. unfold dtypes_are_same. rewrite !ety_eqb_refl.
    replace (1 <? v) with true by lia. replace (1 <? w) with true by lia. reflexivity. }
  assert (Mp : make_plan wf wd d e [EArr t a1; EArr t a2] = Some {| p_dst := DV d v; p_args := [Some (DV t w); Some (DV t w)]; p_width := w |}).
  { unfold make_plan. rewrite Ad, Cv. cbn [extract]. rewrite Vd. cbn [scal allow_d]. rewrite Ad, Cv, Et. cbn [extract]. rewrite Vt, Pw.
    cbn [map extract_arg ty_of option_map extract]. rewrite Vt. reflexivity. }
  unfold assign, e. fold e. cbn [compiles e]. unfold e. cbn [compiles sub_compiles andb]. fold e. rewrite Mp. cbn [negb andb].
  cbn [source bind fst snd]. unfold run_plan. cbn [p_args all_some option_map p_dst p_width]. unfold run_kernel.
  change (binary_name b (EArr t a1) (EArr t a2)) with (binary_kernel b Arrays).
  destruct (find_binary b Arrays) as (kn & -> & _ & Cb). unfold instantiates. rewrite Cb. cbn [nth_error op_type].
  rewrite ety_eqb_refl, Nat.eqb_refl, Iv, symbol_vec. cbn [andb stores]. rewrite Ne. reflexivity.
Qed.
Lemma missing_throws {V} wf wd vop vcall (junk : nat -> nat -> V) asserts n order t u dst a m :
  floating t -> absent u -> even_width wf -> even_width wd ->
  assign wf wd vop vcall junk asserts n order t dst (EUn u (EArr t a)) m = Some (Throw RuntimeError).
Proof.
  intros Ft Hu Hwf Hwd. assert (Nt : numeric t) by (destruct Ft as [-> | ->]; cbn; tauto).
  destruct (plan_spec wf wd Hwf Hwd t (@EUn V u (EArr t a)) t [EArr t a] eq_refl Nt Nt (or_introl eq_refl)) as (c & E & _).
  unfold assign. cbn [compiles sub_compiles]. rewrite E. cbn [andb negb source bind fst snd]. unfold run_plan, run_kernel.
  cbn [p_args map extract_arg ty_of option_map all_some]. now rewrite (find_absent u Hu).
Qed.
(** element types without a packet width *)
Definition widthless (t : ety) : Prop := t = TBool \/ exists s, t = Cplx s.
Lemma widthless_none {V} wf wd ok s (e : expr V) t : ty_of e = Some t -> widthless s \/ widthless t -> can_vectorise wf wd ok s e = None.
Proof.
  intros Et [[-> |(x & ->)]|[-> |(x & ->)]]; unfold can_vectorise; rewrite Et; cbn [vec_type packet_width]; auto.
  all: destruct (packet_width (vec_type wf wd s)); reflexivity.
Qed.
Lemma rejected {V} wf wd vop vcall (junk : nat -> nat -> V) asserts n order d dst e t m :
  is_function e = true -> ty_of e = Some t -> widthless d \/ widthless t ->
  assign wf wd vop vcall junk asserts n order d dst e m = None.
Proof.
  intros Fn Et H.
  assert (X : forall args, make_plan wf wd d e args = None) by (intros args; unfold make_plan; now rewrite (widthless_none wf wd _ d e t Et H)).
  unfold assign. destruct e; try discriminate Fn; cbn [compiles]; rewrite X, Bool.andb_false_r; reflexivity.
Qed.

(** ** Float packets of two *)
Lemma can_false {V} wf wd ok s (e : expr V) t : (wf = 1 \/ wf = 2) -> ty_of e = Some t -> s = F32 \/ t = F32 ->
  can_vectorise wf wd ok s e = match packet_width (vec_type 1 wd s), packet_width (vec_type 1 wd t) with Some _, Some _ => Some false | _, _ => None end.
Proof.
  intros Hw Et H. unfold can_vectorise. rewrite Et.
  assert (E1 : packet_width (vec_type wf wd F32) = Some 1) by (destruct Hw as [-> | ->]; reflexivity).
  assert (E2 : forall t, t <> F32 -> vec_type wf wd t = vec_type 1 wd t) by (intros []; try reflexivity; congruence).
  destruct H as [-> | ->].
  - rewrite E1. change (packet_width (vec_type 1 wd F32)) with (Some 1). assert (D : t = F32 \/ t <> F32) by (destruct t; (now left) || (right; discriminate)).
    destruct D as [-> |D]; [rewrite E1; cbn [vec_type Nat.ltb Nat.leb packet_width]; now rewrite !Bool.andb_false_r|].
    rewrite (E2 t D). destruct (packet_width (vec_type 1 wd t)); auto. cbn [Nat.ltb Nat.leb andb]. now rewrite !Bool.andb_false_r.
  - rewrite E1. change (packet_width (vec_type 1 wd F32)) with (Some 1). assert (D : s = F32 \/ s <> F32) by (destruct s; (now left) || (right; discriminate)).
    destruct D as [-> |D]; [rewrite E1; cbn [vec_type Nat.ltb Nat.leb packet_width]; now rewrite !Bool.andb_false_r|].
    rewrite (E2 s D). destruct (packet_width (vec_type 1 wd s)) as [w|]; auto. change (1 <? 1) with false. now rewrite !Bool.andb_false_r.
Qed.
Lemma vec_other wf wd t : t <> F32 -> vec_type wf wd t = vec_type 1 wd t.
Proof. intros H. destruct t; try reflexivity. congruence. Qed.
Lemma can_same {V} wd ok s (e : expr V) : can_vectorise 2 wd ok s e = can_vectorise 1 wd ok s e.
Proof.
  destruct (ty_of e) as [t|] eqn:Et; [|unfold can_vectorise; now rewrite Et].
  assert (D : (s = F32 \/ t = F32) \/ (s <> F32 /\ t <> F32)).
  { destruct s; try (left; left; reflexivity); destruct t; try (left; right; reflexivity); right; split; discriminate. }
  destruct D as [D|(D1 & D2)].
  - rewrite (can_false 2 wd ok s e t (or_intror eq_refl) Et D), (can_false 1 wd ok s e t (or_introl eq_refl) Et D). reflexivity.
  - unfold can_vectorise. rewrite Et, (vec_other 2 wd s D1), (vec_other 2 wd t D2). reflexivity.
Qed.
(** the operands of a vectorised operation have its type *)
Definition uniform {V} (e : expr V) (args : list (expr V)) : Prop :=
  forall a, In a args -> allow e = true -> ty_of a = Some F32 -> ty_of e = Some F32.
Lemma uniform_un {V} u (e1 : expr V) : uniform (EUn u e1) [e1].
Proof. intros a [<-|[]] _ E. exact E. Qed.
Lemma uniform_bin {V} b (e1 e2 : expr V) : uniform (EBin b e1 e2) [e1; e2].
Proof.
  intros a H A E. cbn [allow] in A. apply andb_prop in A. destruct A as (_ & A).
  destruct (ty_of e1) as [s|] eqn:E1, (ty_of e2) as [t|] eqn:E2; cbn [opt_eqb] in A; try discriminate A. apply ety_eqb_eq in A. subst t.
  assert (s = F32) by (destruct H as [<-|[<-|[]]]; congruence). subst s. cbn [ty_of]. rewrite E1, E2. destruct b; reflexivity.
Qed.
Lemma can_true_not {V} wd ok s (e : expr V) : can_vectorise 1 wd ok s e = Some true -> s <> F32 /\ ty_of e <> Some F32 /\ allow e = true.
Proof.
  intros H. destruct (ty_of e) as [t|] eqn:Et; [|unfold can_vectorise in H; rewrite Et in H; discriminate H].
  assert (X : forall P, (s = F32 \/ t = F32 -> False) -> P = true -> s <> F32 /\ Some t <> Some F32 /\ P = true).
  { intros P Q HP. split; [intros Y; apply Q; now left|]. split; [intros [= Y]; apply Q; now right|exact HP]. }
  apply X.
  - intros D. rewrite (can_false 1 wd ok s e t (or_introl eq_refl) Et D) in H.
    destruct (packet_width (vec_type 1 wd s)), (packet_width (vec_type 1 wd t)); discriminate H.
  - unfold can_vectorise in H. rewrite Et in H. destruct (packet_width (vec_type 1 wd s)), (packet_width (vec_type 1 wd t)); try discriminate H.
    injection H as H. repeat (apply andb_prop in H; destruct H as [H ?]). assumption.
Qed.
Lemma extract_same wd c t : (c = true -> t <> F32) -> extract 2 wd c t = extract 1 wd c t.
Proof. intros H. destruct c; [|reflexivity]. cbn [extract]. apply vec_other. auto. Qed.
Lemma plan_same {V} wd d (e : expr V) args : uniform e args -> make_plan 2 wd d e args = make_plan 1 wd d e args.
Proof.
  intros U. unfold make_plan. rewrite can_same. destruct (can_vectorise 1 wd (allow_vec d) d e) as [c1|] eqn:E1; [|reflexivity].
  assert (X1 : extract 2 wd c1 d = extract 1 wd c1 d) by (apply extract_same; intros ->; apply (can_true_not _ _ _ _ E1)).
  rewrite X1. set (p := extract 1 wd c1 d). rewrite !can_same.
  destruct (can_vectorise 1 wd (allow_d p) (scal p) e) as [c2|] eqn:E2; [|reflexivity].
  destruct (can_vectorise 1 wd (allow_vec (scal p)) (scal p) e) as [c3|] eqn:E3; [|reflexivity].
  destruct (ty_of e) as [t|] eqn:Et; [|reflexivity].
  rewrite (extract_same wd c2 t) by (intros ->; destruct (can_true_not _ _ _ _ E2) as (_ & Y & _); congruence).
  assert (X3 : map (extract_arg 2 wd c3) args = map (extract_arg 1 wd c3) args).
  { apply map_ext_in. intros a Ha. assert (Y : option_map (extract 2 wd c3) (ty_of a) = option_map (extract 1 wd c3) (ty_of a)).
    { destruct (ty_of a) as [s|] eqn:Es; [|reflexivity]. cbn [option_map]. f_equal. apply extract_same. intros -> ->.
      destruct (can_true_not _ _ _ _ E3) as (_ & Y & Al). apply Y. apply (U a Ha Al Es). }
    destruct a; exact Y || reflexivity. }
  rewrite X3. reflexivity.
Qed.
Lemma sub_same {V} wd (e : expr V) : sub_compiles 2 wd e = sub_compiles 1 wd e.
Proof.
  induction e as [t a|t x|u e1 IH|b e1 IH1 e2 IH2]; cbn [sub_compiles]; auto.
  - rewrite IH. destruct (ty_of (EUn u e1)); [|reflexivity]. rewrite plan_same by apply uniform_un. reflexivity.
  - rewrite IH1, IH2. destruct (ty_of (EBin b e1 e2)); [|reflexivity]. rewrite plan_same by apply uniform_bin. reflexivity.
Qed.
Lemma source_same {V} wd vop vcall (junk : nat -> nat -> V) asserts n order e : forall m,
  source 2 wd vop vcall junk asserts n order e m = source 1 wd vop vcall junk asserts n order e m.
Proof.
  induction e as [t a|t x|u e1 IH|b e1 IH1 e2 IH2]; intros m; cbn [source]; auto.
  - destruct (ty_of (EUn u e1)); [|reflexivity]. rewrite plan_same by apply uniform_un. destruct (make_plan 1 wd e (EUn u e1) [e1]); [|reflexivity]. now rewrite IH.
  - destruct (ty_of (EBin b e1 e2)); [|reflexivity]. rewrite plan_same by apply uniform_bin. destruct (make_plan 1 wd e (EBin b e1 e2) [e1; e2]); [|reflexivity].
    rewrite IH1. destruct (source 1 wd vop vcall junk asserts n order e1 _); cbn [bind]; auto. now rewrite IH2.
Qed.
Lemma assign_same {V} wd vop vcall (junk : nat -> nat -> V) asserts n order d dst e m :
  assign 2 wd vop vcall junk asserts n order d dst e m = assign 1 wd vop vcall junk asserts n order d dst e m.
Proof.
  unfold assign. destruct e as [t a|t x|u e1|b e1 e2]; cbn [compiles]; auto.
  - rewrite sub_same, plan_same by apply uniform_un. destruct (negb _); auto. destruct (make_plan 1 wd d (EUn u e1) [e1]); auto. now rewrite source_same.
  - rewrite !sub_same, plan_same by apply uniform_bin. destruct (negb _); auto. destruct (make_plan 1 wd d (EBin b e1 e2) [e1; e2]); auto.
    rewrite source_same. destruct (source 1 wd vop vcall junk asserts n order e1 m); cbn [bind]; auto. now rewrite source_same.
Qed.
