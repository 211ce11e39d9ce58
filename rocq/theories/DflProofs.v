(** Proofs for C108. *)
From Coq Require Import ZArith Reals Bool List Lia Lra.
From Flocq Require Import Core BinarySingleNaN Relative Mult_error.
From Coq Require Import ZifyNat ZifyN ZifyBool.
From Verif Require Import DualModel DualSpec DualProofs AccModel AccSpec AccProofs NumModel NumSpec NumBasics NrmModel NrmFloat DflModel DflSpec.
Ltac Zify.zify_post_hook ::= idtac.
Local Open Scope R_scope.

(** ** The value component *)
Lemma geval_value {A} (zero : A) int logInt add sub mul div opp lib power e x :
  gval (geval zero int logInt add sub mul div opp lib power e x) = plain add sub mul div opp lib power e (gval x).
Proof.
  induction e; cbn [geval plain gneg gpos gpow_r gpow_l gpow_d gval]; try congruence; try destruct o; cbn [gbin gbin_r gbin_l gval apply]; try congruence.
  destruct f; cbn [gfun gval]; congruence.
Qed.

(** ** Rounding one operation at a time *)
Definition near (x x0 M B : R) : Prop := Rabs x0 <= M /\ Rabs (x - x0) <= B - M.
Lemma near_size x x0 M B : near x x0 M B -> 0 <= M <= B /\ Rabs x <= B.
Proof.
  intros (H1 & H2). pose proof (Rabs_pos x0). pose proof (Rabs_pos (x - x0)). split; [lra|].
  replace x with (x0 + (x - x0)) by ring. eapply Rle_trans; [apply Rabs_triang|lra].
Qed.
Lemma near_refl x : near x x (Rabs x) (Rabs x).
Proof. split; [lra|]. replace (x - x) with 0 by ring. rewrite Rabs_R0. lra. Qed.
Lemma near_le x x0 M B B' : near x x0 M B -> B <= B' -> near x x0 M B'.
Proof. intros (H1 & H2) H. split; lra. Qed.
Lemma near_opp x x0 M B : near x x0 M B -> near (- x) (- x0) M B.
Proof. intros (H1 & H2). split; [rewrite Rabs_Ropp; auto|]. replace (- x - - x0) with (- (x - x0)) by ring. rewrite Rabs_Ropp. auto. Qed.
Lemma near_plus x x0 M B y y0 N C : near x x0 M B -> near y y0 N C -> near (x + y) (x0 + y0) (M + N) (B + C).
Proof.
  intros (H1 & H2) (H3 & H4). split; [eapply Rle_trans; [apply Rabs_triang|lra]|].
  replace (x + y - (x0 + y0)) with ((x - x0) + (y - y0)) by ring. eapply Rle_trans; [apply Rabs_triang|lra].
Qed.
Lemma near_minus x x0 M B y y0 N C : near x x0 M B -> near y y0 N C -> near (x - y) (x0 - y0) (M + N) (B + C).
Proof. intros H1 H2. unfold Rminus at 1 2. apply near_plus; [exact H1|]. apply near_opp, H2. Qed.
Lemma near_mult x x0 M B y y0 N C : near x x0 M B -> near y y0 N C -> near (x * y) (x0 * y0) (M * N) (B * C).
Proof.
  intros H H'. destruct (near_size _ _ _ _ H) as ((M0 & MB) & XB), (near_size _ _ _ _ H') as ((N0 & NC) & YC).
  destruct H as (H1 & H2), H' as (H3 & H4). split.
  - rewrite Rabs_mult. apply Rmult_le_compat; auto using Rabs_pos.
  - replace (x * y - x0 * y0) with (x * (y - y0) + (x - x0) * y0) by ring. eapply Rle_trans; [apply Rabs_triang|]. rewrite !Rabs_mult.
    apply Rle_trans with (B * (C - N) + (B - M) * N); [|lra].
    apply Rplus_le_compat; apply Rmult_le_compat; auto using Rabs_pos.
Qed.
Lemma near_scale x x0 M B c : near x x0 M B -> near (x * c) (x0 * c) (M * Rabs c) (B * Rabs c).
Proof. intros H. apply near_mult; auto using near_refl. Qed.
Lemma near_round x x0 M B r a t : 0 <= a -> near x x0 M B -> Rabs (r - x) <= a * Rabs x + t -> near r x0 M ((1 + a) * B + t).
Proof.
  intros A H Hr. destruct (near_size _ _ _ _ H) as (_ & XB). destruct H as (H1 & H2). split; [exact H1|].
  replace (r - x0) with ((r - x) + (x - x0)) by ring. eapply Rle_trans; [apply Rabs_triang|].
  pose proof (Rmult_le_compat_l a _ _ A XB). lra.
Qed.

Section Sizes.
Variables prec emax : Z.
Local Notation num := (binary_float prec emax).
Lemma sizes_pos t (e : gexpr num) x s : 0 <= t -> 0 <= fst (sizes t e x s) /\ 0 <= snd (sizes t e x s).
Proof.
  intros T. induction e as [|c|e IH|e IH|o l IHl r IHr|o l IHl c|o c r IHr|f e IH|e IH y|c e IH|l IHl r IHr]; cbn [sizes].
  - cbn. split; apply Rabs_pos.
  - cbn. split; [apply Rabs_pos|lra].
  - exact IH.
  - exact IH.
  - destruct (sizes t l x s) as (v, d), (sizes t r x s) as (v', d'). cbn [fst snd] in *.
    destruct o; cbn [fst snd]; try (split; lra). assert (0 <= v * v' /\ 0 <= d * v' /\ 0 <= v * d') as (? & ? & ?) by (repeat split; apply Rmult_le_pos; lra). lra.
  - destruct (sizes t l x s) as (v, d). cbn [fst snd] in *. pose proof (Rabs_pos (B2R c)) as C0.
    destruct o; cbn [fst snd]; try (split; lra).
    + assert (0 <= v * Rabs (B2R c) /\ 0 <= d * Rabs (B2R c)) as (? & ?) by (split; apply Rmult_le_pos; lra). lra.
    + assert (I : 0 <= / Rabs (B2R c)).
      { destruct (Req_dec (Rabs (B2R c)) 0) as [->|N]; [rewrite Rinv_0; lra|]. left. apply Rinv_0_lt_compat. lra. }
      unfold Rdiv. assert (0 <= v * / Rabs (B2R c) /\ 0 <= d * / Rabs (B2R c)) as (? & ?) by (split; apply Rmult_le_pos; lra). lra.
  - destruct (sizes t r x s) as (v, d). cbn [fst snd] in *. pose proof (Rabs_pos (B2R c)) as C0.
    destruct o; cbn [fst snd]; try (split; lra).
    assert (0 <= Rabs (B2R c) * v /\ 0 <= Rabs (B2R c) * d) as (? & ?) by (split; apply Rmult_le_pos; lra). lra.
  - cbn; lra.
  - cbn; lra.
  - cbn; lra.
  - cbn; lra.
Qed.
Lemma sizes_mono (e : gexpr num) x s t : 0 <= t ->
  (0 <= fst (sizes 0 e x s) <= fst (sizes t e x s)) /\ (0 <= snd (sizes 0 e x s) <= snd (sizes t e x s)).
Proof.
  intros T. destruct (sizes_pos 0 e x s ltac:(lra)) as (P1 & P2). split; (split; [assumption|]); clear P1 P2.
  all: revert T; intros T.
  all: enough (fst (sizes 0 e x s) <= fst (sizes t e x s) /\ snd (sizes 0 e x s) <= snd (sizes t e x s)) by tauto.
  all: induction e as [|c|e IH|e IH|o l IHl r IHr|o l IHl c|o c r IHr|f e IH|e IH y|c e IH|l IHl r IHr]; cbn [sizes]; try (cbn; lra); try exact IH.
  all: try (destruct (sizes_pos 0 l x s ltac:(lra)) as (l1 & l2); destruct (sizes 0 l x s) as (a, a'), (sizes t l x s) as (b, b')).
  all: try (destruct (sizes_pos 0 r x s ltac:(lra)) as (r1 & r2); destruct (sizes 0 r x s) as (d, d'), (sizes t r x s) as (h, h')).
  all: cbn [fst snd] in *; try (pose proof (Rabs_pos (B2R c)) as C0; assert (I : 0 <= / Rabs (B2R c)) by (destruct (Req_dec (Rabs (B2R c)) 0) as [->|N]; [rewrite Rinv_0; lra|left; apply Rinv_0_lt_compat; lra])).
  all: destruct o; cbn [fst snd]; unfold Rdiv; try lra.
  all: repeat split; repeat (apply Rplus_le_compat; try lra); apply Rmult_le_compat; lra.
Qed.
Lemma small_smooth (e : gexpr num) x s b y : small_integers e x s b -> smooth (exact B2R e) y.
Proof.
  induction e as [|c|e IH|e IH|o l IHl r IHr|o l IHl c|o c r IHr|f e IH|e IH z|c e IH|l IHl r IHr]; cbn [small_integers exact smooth]; intros (_ & P); try contradiction; auto.
  - destruct P as (No & Pl & Pr). destruct o; cbn [divisor_ok]; [tauto|tauto|tauto|congruence].
  - destruct P as (No & Pl & _). destruct o; cbn [divisor_ok]; [tauto|tauto|tauto|congruence].
  - destruct P as (No & _ & _ & Pr). destruct o; cbn [divisor_ok]; [tauto|tauto|tauto|congruence].
Qed.
End Sizes.

Section Float.
Variables prec emax : Z.
Context (Hp : Prec_gt_0 prec) (Hm : Prec_lt_emax prec emax).
Local Notation num := (binary_float prec emax).
Local Notation fzero := (fzero prec emax).
Local Notation fadd := (fadd prec emax Hp Hm).
Local Notation fsub := (fsub prec emax Hp Hm).
Local Notation fmul := (fmul prec emax Hp Hm).
Local Notation fdiv := (fdiv prec emax Hp Hm).
Local Notation fneg := (fneg prec emax).
Local Notation rn := (nearest prec emax).
Local Notation u := (unit_roundoff prec).
Local Notation eta := (underflow_unit prec emax).
Local Notation big := (bpow radix2 emax).
Local Notation feval := (feval prec emax Hp Hm).

Lemma rel_u x : Rabs (rn x - x) <= u * Rabs x + eta.
Proof. eapply Rle_trans; [apply rn_err; auto|]. pose proof (Rmult_le_compat_r (Rabs x) _ _ (Rabs_pos x) (v_le prec)). lra. Qed.
Lemma add_u (x y : num) : Rabs (rn (B2R x + B2R y) - (B2R x + B2R y)) <= u * Rabs (B2R x + B2R y) + 0.
Proof.
  pose proof (add_rel prec emax Hp _ _ (num_format prec emax x) (num_format prec emax y)).
  pose proof (Rmult_le_compat_r (Rabs (B2R x + B2R y)) _ _ (Rabs_pos _) (v_le prec)). lra.
Qed.
Lemma sub_u (x y : num) : Rabs (rn (B2R x - B2R y) - (B2R x - B2R y)) <= u * Rabs (B2R x - B2R y) + 0.
Proof. replace (B2R x - B2R y) with (B2R x + B2R (fneg y)) by (unfold NumModel.fneg; rewrite B2R_Bopp; ring). apply add_u. Qed.

Lemma near_fadd (x y : num) x0 y0 M N B C : is_finite (fadd x y) = true -> near (B2R x) x0 M B -> near (B2R y) y0 N C ->
  near (B2R (fadd x y)) (x0 + y0) (M + N) ((1 + u) * (B + C)).
Proof.
  intros F H1 H2. destruct (fadd_finite prec emax Hp Hm x y F) as (_ & _ & ->).
  eapply near_le; [eapply near_round; [left; apply u_pos|apply near_plus; eassumption|apply add_u]|lra].
Qed.
Lemma near_fsub (x y : num) x0 y0 M N B C : is_finite (fsub x y) = true -> near (B2R x) x0 M B -> near (B2R y) y0 N C ->
  near (B2R (fsub x y)) (x0 - y0) (M + N) ((1 + u) * (B + C)).
Proof.
  intros F H1 H2. destruct (fsub_finite prec emax Hp Hm x y F) as (_ & _ & -> & _).
  eapply near_le; [eapply near_round; [left; apply u_pos|apply near_minus; eassumption|apply sub_u]|lra].
Qed.
Lemma near_fmul (x y : num) x0 y0 M N B C : is_finite (fmul x y) = true -> near (B2R x) x0 M B -> near (B2R y) y0 N C ->
  near (B2R (fmul x y)) (x0 * y0) (M * N) ((1 + u) * (B * C) + eta).
Proof.
  intros F H1 H2. destruct (fmul_finite prec emax Hp Hm x y F) as (_ & _ & ->).
  eapply near_round; [left; apply u_pos|apply near_mult; eassumption|apply rel_u].
Qed.
Lemma near_fdiv (x c : num) x0 M B : is_finite (fdiv x c) = true -> is_finite c = true -> near (B2R x) x0 M B ->
  B2R c <> 0 /\ near (B2R (fdiv x c)) (x0 / B2R c) (M / Rabs (B2R c)) ((1 + u) * (B / Rabs (B2R c)) + eta).
Proof.
  intros F Fc H1. destruct (fdiv_finite prec emax Hp Hm x c F Fc) as (_ & N & ->). split; [exact N|].
  unfold Rdiv. rewrite <- Rabs_inv. eapply near_round; [left; apply u_pos|apply near_scale; eassumption|apply rel_u].
Qed.

(** ** Polynomials *)
Variables (logInt : Z -> num) (lib : fn -> num -> num) (power : num -> num -> num).
Local Notation ev := (feval logInt lib power).
Local Notation g k := ((1 + u) ^ k).

Lemma g_pos k : 1 <= (1 + u) ^ k.
Proof. apply pow_R1_Rle. pose proof (u_pos prec). lra. Qed.
Lemma g_mono j k : (j <= k)%nat -> (1 + u) ^ j <= (1 + u) ^ k.
Proof. intros H. apply Rle_pow; auto. pose proof (u_pos prec). lra. Qed.

Definition fine (r : gdual num) : Prop := is_finite (gval r) = true /\ is_finite (gder r) = true.
Definition close (k : nat) (r : gdual num) (r0 : dual) (m n : R * R) : Prop :=
  near (B2R (gval r)) (value r0) (fst m) ((g k) * fst n) /\ near (B2R (gder r)) (derivative r0) (snd m) (g k * snd n).

(** the bounds of one step *)
Lemma step_add k j K a b : 0 <= a -> 0 <= b -> (S (Nat.max k j) <= K)%nat -> (1 + u) * ((g k) * a + g j * b) <= g K * (a + b).
Proof.
  intros A B H. pose proof (u_pos prec) as U. pose proof (g_mono k (Nat.max k j) ltac:(lia)). pose proof (g_mono j (Nat.max k j) ltac:(lia)).
  apply Rle_trans with (g (S (Nat.max k j)) * (a + b)).
  - cbn [pow]. rewrite Rmult_assoc. apply Rmult_le_compat_l; [lra|].
    pose proof (Rmult_le_compat_r a _ _ A H0). pose proof (Rmult_le_compat_r b _ _ B H1). lra.
  - apply Rmult_le_compat_r; [lra|]. apply g_mono, H.
Qed.
Lemma step_one k K a t : 0 <= a -> 0 <= t -> (S k <= K)%nat -> (1 + u) * ((g k) * a) + t <= g K * (a + t).
Proof.
  intros A T H. pose proof (g_pos K) as GK. pose proof (Rmult_le_compat_r a _ _ A (g_mono (S k) K H)) as Q. cbn [pow] in Q.
  pose proof (Rmult_le_compat_r t _ _ T GK). lra.
Qed.
Lemma step_mul k j K a b t : 0 <= a -> 0 <= b -> 0 <= t -> (S (k + j) <= K)%nat -> (1 + u) * ((g k) * a * (g j * b)) + t <= g K * (a * b + t).
Proof.
  intros A B T H. replace ((g k) * a * (g j * b)) with (g (k + j)%nat * (a * b)) by (rewrite pow_add; ring).
  apply step_one; auto. apply Rmult_le_pos; auto.
Qed.

Lemma eval_close x e : polynomial e -> fine (ev e x) ->
  let m := sizes 0 e (B2R (gval x)) (B2R (gder x)) in let n := sizes eta e (B2R (gval x)) (B2R (gder x)) in
  smooth (exact B2R e) (B2R (gval x)) /\
  close (roundings e) (ev e x) (deval (exact B2R e) (mk (B2R (gval x)) (B2R (gder x)))) m n.
Proof.
  pose proof (u_pos prec) as U. pose proof (eta_pos prec emax) as E0.
  induction e as [|c|e IH|e IH|o l IHl r IHr|o l IHl c|o c r IHr|f e IH|e IH y|c e IH|l IHl r IHr]; intros P (F1 & F2); cbn [polynomial] in P; try contradiction.
  - cbn. split; [exact I|]. split; cbn; rewrite Rmult_1_l; apply near_refl.
  - cbn. split; [exact I|]. split; cbn; rewrite Rmult_1_l; [apply near_refl|]. split; [rewrite Rabs_R0; lra|]. replace (0 - 0) with 0 by ring. rewrite Rabs_R0. lra.
  - change (ev (GNeg e) x) with (gneg fneg (ev e x)) in *. cbn [gneg gval gder] in F1, F2. unfold NumModel.fneg in F1, F2. rewrite is_finite_Bopp in F1, F2.
    destruct (IH P (conj F1 F2)) as (Sm & C1 & C2). split; [exact Sm|]. split; cbn [exact deval neg value derivative gneg gval gder sizes roundings];
      unfold NumModel.fneg; rewrite B2R_Bopp; apply near_opp; auto.
  - change (ev (GPos e) x) with (gpos (ev e x)) in *. cbn [gpos gval gder] in F1, F2. destruct (IH P (conj F1 F2)) as (Sm & C1 & C2). split; [exact Sm|]. split; auto.
  - change (ev (GBin o l r) x) with (fbin prec emax Hp Hm o (ev l x) (ev r x)) in *. destruct P as (No & Pl & Pr).
    destruct (sizes_pos prec emax 0 l (B2R (gval x)) (B2R (gder x)) ltac:(lra)) as (ml1 & ml2), (sizes_pos prec emax 0 r (B2R (gval x)) (B2R (gder x)) ltac:(lra)) as (mr1 & mr2).
    destruct (sizes_pos prec emax eta l (B2R (gval x)) (B2R (gder x)) ltac:(lra)) as (nl1 & nl2), (sizes_pos prec emax eta r (B2R (gval x)) (B2R (gder x)) ltac:(lra)) as (nr1 & nr2).
    set (a := ev l x) in *. set (b := ev r x) in *.
    assert (Q : fine a /\ fine b).
    { destruct o; cbn [fbin gbin gval gder] in F1, F2; unfold fine; [| | |congruence].
      - destruct (fadd_finite prec emax Hp Hm _ _ F1) as (? & ? & _), (fadd_finite prec emax Hp Hm _ _ F2) as (? & ? & _). auto.
      - destruct (fsub_finite prec emax Hp Hm _ _ F1) as (? & ? & _), (fsub_finite prec emax Hp Hm _ _ F2) as (? & ? & _). auto.
      - destruct (fadd_finite prec emax Hp Hm _ _ F2) as (G1 & G2 & _). destruct (fmul_finite prec emax Hp Hm _ _ G1) as (? & ? & _), (fmul_finite prec emax Hp Hm _ _ G2) as (? & ? & _). auto. }
    destruct (IHl Pl (proj1 Q)) as (Sl & L1 & L2), (IHr Pr (proj2 Q)) as (Sr & R1 & R2).
    cbn [exact deval sizes roundings smooth]. set (da := deval (exact B2R l) _) in *. set (db := deval (exact B2R r) _) in *.
    destruct (sizes 0 l _ _) as (ml, ml'), (sizes 0 r _ _) as (mr, mr'), (sizes eta l _ _) as (nl, nl'), (sizes eta r _ _) as (nr, nr'). cbn [fst snd] in *.
    unfold close. destruct o; cbn [fbin gbin gval gder bin value derivative fst snd divisor_ok] in *; [| | |congruence].
    + split; [tauto|]. split; (eapply near_le; [apply near_fadd; eassumption|apply step_add; auto]).
    + split; [tauto|]. split; (eapply near_le; [apply near_fsub; eassumption|apply step_add; auto]).
    + split; [tauto|]. destruct (fadd_finite prec emax Hp Hm _ _ F2) as (G1 & G2 & _). split.
      * rewrite Rplus_0_r. eapply near_le; [apply near_fmul; eassumption|apply step_mul; auto; lra || lia].
      * rewrite !Rplus_0_r. eapply near_le; [eapply near_fadd; [exact F2|apply near_fmul; eassumption|apply near_fmul; eassumption]|].
        set (k := roundings l) in *. set (j := roundings r) in *.
        apply Rle_trans with ((1 + u) * (g (S (k + j)) * (nl' * nr + eta) + g (S (k + j)) * (nl * nr' + eta))).
        { apply Rmult_le_compat_l; [lra|]. apply Rplus_le_compat; apply step_mul; auto; lra. }
        apply step_add; [| |lia]; (apply Rplus_le_le_0_compat; [apply Rmult_le_pos; lra|lra]).
  - change (ev (GBinR o l c) x) with (fbin_r prec emax Hp Hm o (ev l x) c) in *. destruct P as (Pl & Fc).
    destruct (sizes_pos prec emax 0 l (B2R (gval x)) (B2R (gder x)) ltac:(lra)) as (ml1 & ml2).
    destruct (sizes_pos prec emax eta l (B2R (gval x)) (B2R (gder x)) ltac:(lra)) as (nl1 & nl2).
    set (a := ev l x) in *. pose proof (Rabs_pos (B2R c)) as C0.
    assert (Q : fine a).
    { destruct o; cbn [fbin_r gbin_r gval gder] in F1, F2; unfold fine.
      - destruct (fadd_finite prec emax Hp Hm _ _ F1) as (? & ? & _). auto.
      - destruct (fsub_finite prec emax Hp Hm _ _ F1) as (? & ? & _). auto.
      - destruct (fmul_finite prec emax Hp Hm _ _ F1) as (? & ? & _), (fmul_finite prec emax Hp Hm _ _ F2) as (? & ? & _). auto.
      - destruct (fdiv_finite prec emax Hp Hm _ _ F1 Fc) as (? & ? & _), (fdiv_finite prec emax Hp Hm _ _ F2 Fc) as (? & ? & _). auto. }
    destruct (IHl Pl Q) as (Sl & L1 & L2).
    cbn [exact deval sizes roundings smooth]. set (da := deval (exact B2R l) _) in *.
    destruct (sizes 0 l _ _) as (ml, ml'), (sizes eta l _ _) as (nl, nl'). cbn [fst snd] in *. pose proof (near_refl (B2R c)) as NC.
    assert (NC' : near (B2R c) (B2R c) (Rabs (B2R c)) (g 0%nat * Rabs (B2R c))) by (cbn; rewrite Rmult_1_l; exact NC).
    unfold close. destruct o; cbn [fbin_r gbin_r gval gder bin_r value derivative fst snd divisor_ok] in *.
    + split; [tauto|]. split; [eapply near_le; [apply near_fadd; eassumption|apply step_add; auto; lia]|].
      eapply near_le; [exact L2|]. apply Rmult_le_compat_r; [auto|]. apply (g_mono (roundings l)). lia.
    + split; [tauto|]. split; [eapply near_le; [apply near_fsub; eassumption|apply step_add; auto; lia]|].
      eapply near_le; [exact L2|]. apply Rmult_le_compat_r; [auto|]. apply (g_mono (roundings l)). lia.
    + split; [tauto|]. rewrite !Rplus_0_r. split; (eapply near_le; [apply near_fmul; eassumption|apply step_mul; auto; lra || lia]).
    + destruct (near_fdiv _ _ _ _ _ F1 Fc L1) as (Nc & D1), (near_fdiv _ _ _ _ _ F2 Fc L2) as (_ & D2). split; [tauto|]. rewrite !Rplus_0_r.
      assert (I : 0 <= / Rabs (B2R c)) by (left; apply Rinv_0_lt_compat, Rabs_pos_lt, Nc).
      split; (eapply near_le; [eassumption|]); unfold Rdiv; rewrite Rmult_assoc; (apply step_one; [apply Rmult_le_pos; auto|lra|lia]).
  - change (ev (GBinL o c r) x) with (fbin_l prec emax Hp Hm o c (ev r x)) in *. destruct P as (No & Fc & Pr).
    destruct (sizes_pos prec emax 0 r (B2R (gval x)) (B2R (gder x)) ltac:(lra)) as (mr1 & mr2).
    destruct (sizes_pos prec emax eta r (B2R (gval x)) (B2R (gder x)) ltac:(lra)) as (nr1 & nr2).
    set (b := ev r x) in *. pose proof (Rabs_pos (B2R c)) as C0.
    assert (Q : fine b).
    { destruct o; cbn [fbin_l gbin_l gval gder] in F1, F2; unfold fine; [| | |congruence].
      - destruct (fadd_finite prec emax Hp Hm _ _ F1) as (? & ? & _). auto.
      - destruct (fsub_finite prec emax Hp Hm _ _ F1) as (? & ? & _). unfold NumModel.fneg in F2. rewrite is_finite_Bopp in F2. auto.
      - destruct (fmul_finite prec emax Hp Hm _ _ F1) as (? & ? & _), (fmul_finite prec emax Hp Hm _ _ F2) as (? & ? & _). auto. }
    destruct (IHr Pr Q) as (Sr & R1 & R2).
    cbn [exact deval sizes roundings smooth]. set (db := deval (exact B2R r) _) in *.
    destruct (sizes 0 r _ _) as (mr, mr'), (sizes eta r _ _) as (nr, nr'). cbn [fst snd] in *. pose proof (near_refl (B2R c)) as NC.
    assert (NC' : near (B2R c) (B2R c) (Rabs (B2R c)) (g 0%nat * Rabs (B2R c))) by (cbn; rewrite Rmult_1_l; exact NC).
    unfold close. destruct o; cbn [fbin_l gbin_l gval gder bin_l value derivative fst snd divisor_ok] in *; [| | |congruence].
    + split; [tauto|]. split; [eapply near_le; [apply near_fadd; eassumption|apply step_add; auto; lia]|].
      eapply near_le; [exact R2|]. apply Rmult_le_compat_r; [auto|]. apply (g_mono (roundings r)). lia.
    + split; [tauto|]. split; [eapply near_le; [apply near_fsub; eassumption|apply step_add; auto; lia]|].
      unfold NumModel.fneg. rewrite B2R_Bopp. apply near_opp. eapply near_le; [exact R2|]. apply Rmult_le_compat_r; [auto|]. apply (g_mono (roundings r)). lia.
    + split; [tauto|]. rewrite !Rplus_0_r. split; (eapply near_le; [apply near_fmul; eassumption|apply step_mul; auto; lra || lia]).
Qed.

(** ** Integers *)
Local Notation top := (bpow radix2 prec).
Lemma integral_plus x y : integral x -> integral y -> integral (x + y).
Proof. intros (a & ->) (b & ->). exists (a + b)%Z. now rewrite plus_IZR. Qed.
Lemma integral_minus x y : integral x -> integral y -> integral (x - y).
Proof. intros (a & ->) (b & ->). exists (a - b)%Z. now rewrite minus_IZR. Qed.
Lemma integral_mult x y : integral x -> integral y -> integral (x * y).
Proof. intros (a & ->) (b & ->). exists (a * b)%Z. now rewrite mult_IZR. Qed.
Lemma integral_opp x : integral x -> integral (- x).
Proof. intros (a & ->). exists (- a)%Z. now rewrite opp_IZR. Qed.
Lemma exact_rn x : integral x -> Rabs x <= top -> rn x = x /\ Rabs (rn x) < big.
Proof.
  intros I H. assert (Q : rn x = x) by (apply rn_id; apply integral_format; auto). split; [exact Q|]. rewrite Q.
  eapply Rle_lt_trans; [exact H|]. apply bpow_lt, Hm.
Qed.
(** [v] is the integer [z], of modulus at most [m] *)
Definition holds (v : num) (z m : R) : Prop := is_finite v = true /\ B2R v = z /\ integral z /\ Rabs z <= m.
Lemma holds_add x y a b m n : holds x a m -> holds y b n -> m + n <= top -> holds (fadd x y) (a + b) (m + n).
Proof.
  intros (F & V & I & L) (F' & V' & I' & L') H. assert (B : Rabs (a + b) <= m + n) by (eapply Rle_trans; [apply Rabs_triang|lra]).
  destruct (exact_rn (a + b)) as (Q1 & Q2); [apply integral_plus; auto|lra|].
  destruct (fadd_small prec emax Hp Hm x y F F') as (F3 & V3); [rewrite V, V'; exact Q2|]. repeat split; auto; [|apply integral_plus; auto].
  rewrite V3, V, V'. exact Q1.
Qed.
Lemma holds_sub x y a b m n : holds x a m -> holds y b n -> m + n <= top -> holds (fsub x y) (a - b) (m + n).
Proof.
  intros (F & V & I & L) (F' & V' & I' & L') H.
  assert (B : Rabs (a - b) <= m + n) by (unfold Rminus; eapply Rle_trans; [apply Rabs_triang|rewrite Rabs_Ropp; lra]).
  destruct (exact_rn (a - b)) as (Q1 & Q2); [apply integral_minus; auto|lra|].
  destruct (fsub_small prec emax Hp Hm x y F F') as (F3 & V3); [rewrite V, V'; exact Q2|]. repeat split; auto; [|apply integral_minus; auto].
  rewrite V3, V, V'. exact Q1.
Qed.
Lemma holds_mul x y a b m n : holds x a m -> holds y b n -> m * n <= top -> holds (fmul x y) (a * b) (m * n).
Proof.
  intros (F & V & I & L) (F' & V' & I' & L') H.
  assert (B : Rabs (a * b) <= m * n) by (rewrite Rabs_mult; apply Rmult_le_compat; auto using Rabs_pos).
  destruct (exact_rn (a * b)) as (Q1 & Q2); [apply integral_mult; auto|lra|].
  destruct (fmul_small prec emax Hp Hm x y F F') as (F3 & V3); [rewrite V, V'; exact Q2|]. repeat split; auto; [|apply integral_mult; auto].
  rewrite V3, V, V'. exact Q1.
Qed.
Lemma holds_neg x a m : holds x a m -> holds (fneg x) (- a) m.
Proof.
  intros (F & V & I & L). unfold NumModel.fneg. split; [now rewrite is_finite_Bopp|]. split; [now rewrite B2R_Bopp, V|]. split; [now apply integral_opp|]. now rewrite Rabs_Ropp.
Qed.
Lemma holds_const (c : num) : is_finite c = true -> integral (B2R c) -> holds c (B2R c) (Rabs (B2R c)).
Proof. intros F I. repeat split; auto. lra. Qed.
Lemma holds_le x a m n : holds x a m -> m <= n -> holds x a n.
Proof. intros (F & V & I & L) H. repeat split; auto. lra. Qed.

Lemma small_both (e : gexpr num) x s b : small_integers e x s b -> both_le (sizes 0 e x s) b.
Proof. destruct e; cbn [small_integers]; tauto. Qed.

Lemma eval_integers x e : is_finite (gval x) = true -> is_finite (gder x) = true -> integral (B2R (gval x)) -> integral (B2R (gder x)) ->
  small_integers e (B2R (gval x)) (B2R (gder x)) top ->
  let r := ev e x in let r0 := deval (exact B2R e) (mk (B2R (gval x)) (B2R (gder x))) in let m := sizes 0 e (B2R (gval x)) (B2R (gder x)) in
  holds (gval r) (value r0) (fst m) /\ holds (gder r) (derivative r0) (snd m).
Proof.
  intros Fx Fs Ix Is. induction e as [|c|e IH|e IH|o l IHl r IHr|o l IHl c|o c r IHr|f e IH|e IH y|c e IH|l IHl r IHr]; intros P;
    pose proof (small_both _ _ _ _ P) as (B1 & B2); cbn [small_integers] in P; destruct P as (_ & P); try contradiction.
  - split; apply holds_const; auto.
  - destruct P as (Fc & Ic). split; [apply holds_const; auto|]. cbn. repeat split; [exists 0%Z; reflexivity|rewrite Rabs_R0; lra].
  - specialize (IH P). destruct IH as (H1 & H2). split; apply holds_neg; auto.
  - exact (IH P).
  - destruct P as (No & Pl & Pr). specialize (IHl Pl). specialize (IHr Pr). change (ev (GBin o l r) x) with (fbin prec emax Hp Hm o (ev l x) (ev r x)).
    destruct (sizes_pos prec emax 0 l (B2R (gval x)) (B2R (gder x)) ltac:(lra)) as (ml1 & ml2), (sizes_pos prec emax 0 r (B2R (gval x)) (B2R (gder x)) ltac:(lra)) as (mr1 & mr2).
    cbn [exact deval sizes] in *. cbv zeta in *. destruct (sizes 0 l _ _) as (ml, ml'), (sizes 0 r _ _) as (mr, mr').
    destruct IHl as (L1 & L2), IHr as (R1 & R2). cbn [fst snd] in *.
    destruct o; cbn [fbin gbin gval gder bin value derivative fst snd] in *; [| | |congruence].
    + split; apply holds_add; auto.
    + split; apply holds_sub; auto.
    + rewrite !Rplus_0_r in *. assert (0 <= ml' * mr /\ 0 <= ml * mr') as (Q1 & Q2) by (split; apply Rmult_le_pos; auto).
      split; [apply holds_mul; auto|]. apply holds_add; [apply holds_mul; auto; lra|apply holds_mul; auto; lra|lra].
  - destruct P as (No & Pl & Fc & Ic). specialize (IHl Pl). change (ev (GBinR o l c) x) with (fbin_r prec emax Hp Hm o (ev l x) c).
    cbn [exact deval sizes] in *. cbv zeta in *. destruct (sizes 0 l _ _) as (ml, ml'). destruct IHl as (L1 & L2). cbn [fst snd] in *.
    pose proof (holds_const c Fc Ic) as HC. pose proof (Rabs_pos (B2R c)).
    destruct o; cbn [fbin_r gbin_r gval gder bin_r value derivative fst snd] in *; [| | |congruence].
    + split; [apply holds_add; auto|auto].
    + split; [apply holds_sub; auto|auto].
    + rewrite !Rplus_0_r in *. split; apply holds_mul; auto.
  - destruct P as (No & Fc & Ic & Pr). specialize (IHr Pr). change (ev (GBinL o c r) x) with (fbin_l prec emax Hp Hm o c (ev r x)).
    cbn [exact deval sizes] in *. cbv zeta in *. destruct (sizes 0 r _ _) as (mr, mr'). destruct IHr as (R1 & R2). cbn [fst snd] in *.
    pose proof (holds_const c Fc Ic) as HC.
    destruct o; cbn [fbin_l gbin_l gval gder bin_l value derivative fst snd] in *; [| | |congruence].
    + split; [apply holds_add; auto|auto].
    + split; [apply holds_sub; auto|apply holds_neg; auto].
    + rewrite !Rplus_0_r in *. split; apply holds_mul; auto.
Qed.


(** ** Constants *)
Definition nil (x : num) : Prop := is_finite x = true /\ B2R x = 0.
Lemma rn_nil : Rabs (rn 0) < big.
Proof. rewrite rn_0, Rabs_R0. apply bpow_gt_0. Qed.
Lemma nil_add x y : nil x -> nil y -> nil (fadd x y).
Proof.
  intros (F & V) (F' & V'). destruct (fadd_small prec emax Hp Hm x y F F') as (G1 & G2); rewrite V, V', Rplus_0_r in *; [apply rn_nil|]. split; auto. rewrite G2. apply rn_0.
Qed.
Lemma nil_sub x y : nil x -> nil y -> nil (fsub x y).
Proof.
  intros (F & V) (F' & V'). destruct (fsub_small prec emax Hp Hm x y F F') as (G1 & G2); rewrite V, V', Rminus_0_r in *; [apply rn_nil|]. split; auto. rewrite G2. apply rn_0.
Qed.
Lemma nil_mul_l x y : nil x -> is_finite y = true -> nil (fmul x y).
Proof.
  intros (F & V) F'. destruct (fmul_small prec emax Hp Hm x y F F') as (G1 & G2); rewrite V, Rmult_0_l in *; [apply rn_nil|]. split; auto. rewrite G2. apply rn_0.
Qed.
Lemma nil_mul_r x y : is_finite x = true -> nil y -> nil (fmul x y).
Proof.
  intros F (F' & V'). destruct (fmul_small prec emax Hp Hm x y F F') as (G1 & G2); rewrite V', Rmult_0_r in *; [apply rn_nil|]. split; auto. rewrite G2. apply rn_0.
Qed.
Lemma nil_div x y : nil x -> B2R y <> 0 -> nil (fdiv x y).
Proof.
  intros (F & V) N. destruct (fdiv_small prec emax Hp Hm x y F N) as (G1 & G2); rewrite V in *; unfold Rdiv in *; rewrite Rmult_0_l in *; [apply rn_nil|]. split; auto. rewrite G2. apply rn_0.
Qed.
Lemma nil_neg x : nil x -> nil (fneg x).
Proof. intros (F & V). unfold nil, NumModel.fneg. rewrite is_finite_Bopp, B2R_Bopp, V, Ropp_0. auto. Qed.

Lemma eval_constant x e : polynomial e -> nil (gder x) -> is_finite (gval (ev e x)) = true -> nil (gder (ev e x)).
Proof.
  intros P N. revert P. induction e as [|c|e IH|e IH|o l IHl r IHr|o l IHl c|o c r IHr|f e IH|e IH y|c e IH|l IHl r IHr]; intros P F; cbn [polynomial] in P; try contradiction.
  - exact N.
  - split; reflexivity.
  - change (ev (GNeg e) x) with (gneg fneg (ev e x)) in *. cbn [gneg gval gder] in *. unfold NumModel.fneg in F. rewrite is_finite_Bopp in F. apply nil_neg; auto.
  - exact (IH P F).
  - destruct P as (No & Pl & Pr). change (ev (GBin o l r) x) with (fbin prec emax Hp Hm o (ev l x) (ev r x)) in *.
    destruct o; cbn [fbin gbin gval gder] in *; [| | |congruence].
    + destruct (fadd_finite prec emax Hp Hm _ _ F) as (? & ? & _). apply nil_add; auto.
    + destruct (fsub_finite prec emax Hp Hm _ _ F) as (? & ? & _). apply nil_sub; auto.
    + destruct (fmul_finite prec emax Hp Hm _ _ F) as (? & ? & _). apply nil_add; [apply nil_mul_l; auto|apply nil_mul_r; auto].
  - destruct P as (Pl & Fc). change (ev (GBinR o l c) x) with (fbin_r prec emax Hp Hm o (ev l x) c) in *.
    destruct o; cbn [fbin_r gbin_r gval gder] in *.
    + destruct (fadd_finite prec emax Hp Hm _ _ F) as (? & ? & _). auto.
    + destruct (fsub_finite prec emax Hp Hm _ _ F) as (? & ? & _). auto.
    + destruct (fmul_finite prec emax Hp Hm _ _ F) as (? & ? & _). apply nil_mul_l; auto.
    + destruct (fdiv_finite prec emax Hp Hm _ _ F Fc) as (? & ? & _). apply nil_div; auto.
  - destruct P as (No & Fc & Pr). change (ev (GBinL o c r) x) with (fbin_l prec emax Hp Hm o c (ev r x)) in *.
    destruct o; cbn [fbin_l gbin_l gval gder] in *; [| | |congruence].
    + destruct (fadd_finite prec emax Hp Hm _ _ F) as (? & ? & _). auto.
    + destruct (fsub_finite prec emax Hp Hm _ _ F) as (? & ? & _). apply nil_neg; auto.
    + destruct (fmul_finite prec emax Hp Hm _ _ F) as (? & ? & _). apply nil_mul_r; auto.
Qed.
End Float.

(** ** Quotients *)
Lemma div_le a b c d : 0 <= a -> a <= b -> 0 < d -> d <= c -> a / c <= b / d.
Proof.
  intros A AB D DC. unfold Rdiv. apply Rmult_le_compat; auto; [left; apply Rinv_0_lt_compat; lra|]. apply Rinv_le_contravar; auto.
Qed.
Lemma quotient_error u alpha t eta N N' D D' S q : 0 <= u < 1 -> 0 <= alpha -> 0 <= t -> 0 < D -> Rabs N <= S -> Rabs (N' - N) <= alpha * S + t ->
  Rabs (D' - D) <= u * D -> Rabs (q - N' / D') <= u * Rabs (N' / D') + eta ->
  Rabs (q - N / D) <= ((alpha + u + u * (1 + alpha)) * S + (1 + u) * t) / ((1 - u) * D) + eta.
Proof.
  intros U A T HD HN HN' HD' Hq. apply Rabs_le_inv in HD'. assert (D1 : (1 - u) * D <= D') by lra.
  assert (D2 : 0 < (1 - u) * D) by (apply Rmult_lt_0_compat; lra). assert (D3 : 0 < D') by lra.
  pose proof (Rabs_pos N) as N0. assert (S0 : 0 <= S) by lra. assert (AS : 0 <= alpha * S) by (apply Rmult_le_pos; lra). assert (US : 0 <= u * S) by (apply Rmult_le_pos; lra).
  assert (C1 : Rabs (N' / D' - N / D) <= (alpha * S + t + u * S) / ((1 - u) * D)).
  { replace (N' / D' - N / D) with (((N' - N) + - (N * ((D' - D) / D))) / D') by (field; lra).
    unfold Rdiv at 1. rewrite Rabs_mult, (Rabs_pos_eq (/ D')) by (left; apply Rinv_0_lt_compat; lra). apply div_le; auto; [apply Rabs_pos|].
    eapply Rle_trans; [apply Rabs_triang|]. rewrite Rabs_Ropp, Rabs_mult. apply Rplus_le_compat; [exact HN'|]. rewrite Rmult_comm.
    apply Rmult_le_compat; auto using Rabs_pos. unfold Rdiv. rewrite Rabs_mult, (Rabs_pos_eq (/ D)) by (left; apply Rinv_0_lt_compat; lra).
    apply Rmult_le_reg_r with D; [auto|]. rewrite Rmult_assoc, Rinv_l, Rmult_1_r by lra. apply Rabs_le. lra. }
  assert (C2 : Rabs (N' / D') <= ((1 + alpha) * S + t) / ((1 - u) * D)).
  { unfold Rdiv at 1. rewrite Rabs_mult, (Rabs_pos_eq (/ D')) by (left; apply Rinv_0_lt_compat; lra). apply div_le; auto; [apply Rabs_pos|].
    replace N' with (N + (N' - N)) by ring. eapply Rle_trans; [apply Rabs_triang|]. lra. }
  replace (q - N / D) with ((q - N' / D') + (N' / D' - N / D)) by ring. eapply Rle_trans; [apply Rabs_triang|].
  pose proof (Rmult_le_compat_l u _ _ (proj1 U) C2) as C3.
  replace (((alpha + u + u * (1 + alpha)) * S + (1 + u) * t) / ((1 - u) * D)) with
    ((alpha * S + t + u * S) / ((1 - u) * D) + u * (((1 + alpha) * S + t) / ((1 - u) * D))) by (unfold Rdiv; ring). lra.
Qed.

Section Quotients.
Variables prec emax : Z.
Context (Hp : Prec_gt_0 prec) (Hm : Prec_lt_emax prec emax) (H3 : (3 <= prec)%Z).
Local Notation num := (binary_float prec emax).
Local Notation fadd := (fadd prec emax Hp Hm).
Local Notation fsub := (fsub prec emax Hp Hm).
Local Notation fmul := (fmul prec emax Hp Hm).
Local Notation fdiv := (fdiv prec emax Hp Hm).
Local Notation fneg := (fneg prec emax).
Local Notation fint := (fint prec emax Hp Hm).
Local Notation fsqrt := (fsqrt prec emax Hp Hm).
Local Notation rn := (nearest prec emax).
Local Notation u := (unit_roundoff prec).
Local Notation eta := (underflow_unit prec emax).
Local Notation big := (bpow radix2 emax).

Lemma u_eighth : u <= / 8.
Proof. unfold unit_roundoff. change (/ 8) with (bpow radix2 (-3)). apply bpow_le. lia. Qed.
Lemma normal_rel x : bpow radix2 (2 - emax) <= Rabs x -> Rabs (rn x - x) <= u * Rabs x.
Proof.
  intros H. pose proof (relative_error_N_FLT radix2 (3 - emax - prec) prec Hp (fun z => negb (Z.even z)) x) as E.
  unfold nearest. eapply Rle_trans; [apply E; eapply Rle_trans; [|exact H]; apply bpow_le; lia|]. right. f_equal.
  unfold unit_roundoff. rewrite bpow_plus. change (bpow radix2 1) with 2. field.
Qed.
Lemma quot_final A T D u0 : 0 < D -> 0 <= A -> 0 <= T -> 0 <= u0 <= / 8 ->
  ((2 * u0 + u0 * u0 + u0 + u0 * (1 + (2 * u0 + u0 * u0))) * A + (1 + u0) * (2 * (1 + u0) * T)) / ((1 - u0) * D) <= 6 * u0 * (A / D) + 3 * (T / D).
Proof.
  intros HD HA HT HU. replace (6 * u0 * (A / D) + 3 * (T / D)) with ((6 * u0 * A + 3 * T) / D) by (field; lra).
  replace (((2 * u0 + u0 * u0 + u0 + u0 * (1 + (2 * u0 + u0 * u0))) * A + (1 + u0) * (2 * (1 + u0) * T)) / ((1 - u0) * D))
    with ((((2 * u0 + u0 * u0 + u0 + u0 * (1 + (2 * u0 + u0 * u0))) * A + (1 + u0) * (2 * (1 + u0) * T)) / (1 - u0)) / D) by (field; lra).
  unfold Rdiv. apply Rmult_le_compat_r; [left; apply Rinv_0_lt_compat; auto|].
  apply Rmult_le_reg_r with (1 - u0); [lra|]. rewrite Rmult_assoc, Rinv_l, Rmult_1_r by lra.
  assert (UA : 0 <= u0 * A) by (apply Rmult_le_pos; lra). assert (UUA : u0 * A * u0 <= u0 * A * / 8) by (apply Rmult_le_compat_l; lra).
  assert (UU0 : 0 <= u0 * A * u0) by (apply Rmult_le_pos; lra). assert (U3 : u0 * A * u0 * u0 <= u0 * A * u0 * / 8) by (apply Rmult_le_compat_l; lra).
  assert (UT : 0 <= u0 * T) by (apply Rmult_le_pos; lra). assert (UT1 : u0 * T <= / 8 * T) by (apply Rmult_le_compat_r; lra). assert (UT2 : u0 * T * u0 <= u0 * T * / 8) by (apply Rmult_le_compat_l; lra). lra.
Qed.

Lemma divide_ok (a b : gdual num) : let r := fbin prec emax Hp Hm Div a b in
  is_finite (gder r) = true -> is_finite (fmul (gval b) (gval b)) = true -> bpow radix2 (2 - emax) <= B2R (gval b) * B2R (gval b) ->
  let x := B2R (gval a) in let x' := B2R (gder a) in let y := B2R (gval b) in let y' := B2R (gder b) in
  Rabs (B2R (gder r) - (x' * y - x * y') / (y * y)) <=
    6 * u * ((Rabs (x' * y) + Rabs (x * y')) / (y * y)) + 3 * (eta / (y * y)) + eta.
Proof.
  intros r F Fd L x x' y y'. unfold r in *. cbn [fbin gbin gder] in *. destruct (fdiv_finite prec emax Hp Hm _ _ F Fd) as (FN & ND & V).
  destruct (fsub_finite prec emax Hp Hm _ _ FN) as (F1 & F2 & VN & _). destruct (fmul_finite prec emax Hp Hm _ _ Fd) as (_ & _ & VD).
  destruct (fmul_finite prec emax Hp Hm _ _ F1) as (_ & _ & V1), (fmul_finite prec emax Hp Hm _ _ F2) as (_ & _ & V2).
  fold x' y in V1. fold x y' in V2. fold y in VD, L. rewrite V, VN. pose proof (u_pos prec) as U. pose proof u_eighth as U8. pose proof (eta_pos prec emax) as E0.
  assert (D0 : 0 < y * y) by (eapply Rlt_le_trans; [apply bpow_gt_0|exact L]).
  set (S := Rabs (x' * y) + Rabs (x * y')). set (N := x' * y - x * y').
  assert (HS : 0 <= S) by (unfold S; pose proof (Rabs_pos (x' * y)); pose proof (Rabs_pos (x * y')); lra).
  assert (HN : Rabs N <= S) by (unfold N, S, Rminus; eapply Rle_trans; [apply Rabs_triang|rewrite Rabs_Ropp; lra]).
  pose proof (rel_u prec emax Hp (x' * y)) as R1. pose proof (rel_u prec emax Hp (x * y')) as R2. rewrite <- V1 in R1. rewrite <- V2 in R2.
  set (p := fmul (gder a) (gval b)) in *. set (q := fmul (gval a) (gder b)) in *. pose proof (sub_u prec emax Hp p q) as R3.
  assert (HN' : Rabs (rn (B2R p - B2R q) - N) <= (2 * u + u * u) * S + 2 * (1 + u) * eta).
  { assert (G : Rabs ((B2R p - B2R q) - N) <= u * S + 2 * eta).
    { unfold N, S. replace (B2R p - B2R q - (x' * y - x * y')) with ((B2R p - x' * y) + - (B2R q - x * y')) by ring. eapply Rle_trans; [apply Rabs_triang|]. rewrite Rabs_Ropp. lra. }
    assert (G2 : Rabs (B2R p - B2R q) <= S + u * S + 2 * eta) by (replace (B2R p - B2R q) with (N + (B2R p - B2R q - N)) by ring; eapply Rle_trans; [apply Rabs_triang|lra]).
    pose proof (Rmult_le_compat_l u _ _ (Rlt_le _ _ U) G2) as G3.
    replace (rn (B2R p - B2R q) - N) with ((rn (B2R p - B2R q) - (B2R p - B2R q)) + ((B2R p - B2R q) - N)) by ring. eapply Rle_trans; [apply Rabs_triang|]. lra. }
  assert (HD' : Rabs (B2R (fmul (gval b) (gval b)) - y * y) <= u * (y * y)).
  { rewrite VD. rewrite <- (Rabs_pos_eq (y * y)) at 3 by lra. apply normal_rel. rewrite Rabs_pos_eq; lra. }
  eapply Rle_trans; [apply (quotient_error u (2 * u + u * u) (2 * (1 + u) * eta) eta N (rn (B2R p - B2R q)) (y * y) (B2R (fmul (gval b) (gval b))) S); auto; try lra|].
  - apply Rplus_le_le_0_compat; [lra|apply Rmult_le_pos; lra].
  - apply Rmult_le_pos; lra.
  - apply rel_u; auto.
  - apply Rplus_le_compat_r. apply quot_final; auto; lra.
Qed.

Lemma divide_l_ok (c : num) (b : gdual num) : let r := fbin_l prec emax Hp Hm Div c b in
  is_finite (gder r) = true -> is_finite (fmul (gval b) (gval b)) = true -> bpow radix2 (2 - emax) <= B2R (gval b) * B2R (gval b) ->
  let y := B2R (gval b) in let y' := B2R (gder b) in
  Rabs (B2R (gder r) - - (B2R c * y') / (y * y)) <= 6 * u * (Rabs (B2R c * y') / (y * y)) + 3 * (eta / (y * y)) + eta.
Proof.
  intros r F Fd L y y'. unfold r in *. cbn [fbin_l gbin_l gder] in *. destruct (fdiv_finite prec emax Hp Hm _ _ F Fd) as (FN & ND & V).
  destruct (fmul_finite prec emax Hp Hm _ _ Fd) as (_ & _ & VD). destruct (fmul_finite prec emax Hp Hm _ _ FN) as (_ & _ & V1).
  fold y' in V1. fold y in VD, L. rewrite V, V1. unfold NumModel.fneg. rewrite B2R_Bopp. pose proof (u_pos prec) as U. pose proof u_eighth as U8. pose proof (eta_pos prec emax) as E0.
  assert (D0 : 0 < y * y) by (eapply Rlt_le_trans; [apply bpow_gt_0|exact L]).
  replace (- B2R c * y') with (- (B2R c * y')) by ring. set (N := - (B2R c * y')). set (S := Rabs (B2R c * y')). pose proof (Rabs_pos (B2R c * y')) as HS. fold S in HS.
  assert (HN : Rabs N = S) by (unfold N, S; apply Rabs_Ropp). pose proof (rel_u prec emax Hp N) as R1. rewrite HN in R1.
  assert (UU : 0 <= u * u) by (apply Rmult_le_pos; lra). assert (US : 0 <= u * S) by (apply Rmult_le_pos; lra). assert (UUS : 0 <= u * u * S) by (apply Rmult_le_pos; lra). assert (UE : 0 <= u * eta) by (apply Rmult_le_pos; lra).
  assert (HD' : Rabs (B2R (fmul (gval b) (gval b)) - y * y) <= u * (y * y)).
  { rewrite VD. rewrite <- (Rabs_pos_eq (y * y)) at 3 by lra. apply normal_rel. rewrite Rabs_pos_eq; lra. }
  eapply Rle_trans; [apply (quotient_error u (2 * u + u * u) (2 * (1 + u) * eta) eta N (rn N) (y * y) (B2R (fmul (gval b) (gval b))) S); auto; try lra|].
  - apply rel_u; auto.
  - apply Rplus_le_compat_r. apply quot_final; auto; lra.
Qed.

Lemma sqrt_ok logInt lib (a : gdual num) : let r := ffun prec emax Hp Hm logInt lib Sqrt a in
  is_finite (gval a) = true -> 0 < B2R (gval a) -> is_finite (gder r) = true ->
  let d := B2R (gder a) / (2 * sqrt (B2R (gval a))) in Rabs (B2R (gder r) - d) <= 3 * u * Rabs d + eta.
Proof.
  intros r Fa Pa F d. unfold r in *. cbn [ffun gfun flib gder] in *. set (x := B2R (gval a)) in *. set (w := sqrt x).
  destruct (fsqrt_ok prec emax Hp Hm (gval a) Fa Pa) as (Fs & Vs). fold x in Vs. fold w in Vs.
  pose proof (u_pos prec) as U. pose proof u_eighth as U8. pose proof (eta_pos prec emax) as E0. pose proof (prec_emax prec emax Hm) as PE.
  assert (W1 : bpow radix2 (2 - emax) <= w).
  { rewrite <- (sqrt_square (bpow radix2 (2 - emax))) by apply bpow_ge_0. unfold w. apply sqrt_le_1_alt. rewrite <- bpow_plus.
    apply Rle_trans with (bpow radix2 (3 - emax - prec)); [apply bpow_le; lia|]. rewrite <- (Rabs_pos_eq x) by lra.
    apply abs_B2R_ge_emin. clear - Pa Fa. unfold x in *. destruct (gval a); try discriminate; [cbn in Pa; lra|reflexivity]. }
  assert (W2 : w <= bpow radix2 (emax - 2)).
  { rewrite <- (sqrt_square (bpow radix2 (emax - 2))) by apply bpow_ge_0. unfold w. apply sqrt_le_1_alt. rewrite <- bpow_plus.
    apply Rle_trans with (bpow radix2 emax); [|apply bpow_le; lia]. left. rewrite <- (Rabs_pos_eq x) by lra. apply finite_lt. }
  assert (W0 : 0 < w) by (eapply Rlt_le_trans; [apply bpow_gt_0|exact W1]).
  assert (V2 : is_finite (fmul (fint 2) (fsqrt (gval a))) = true /\ B2R (fmul (fint 2) (fsqrt (gval a))) = 2 * rn w).
  { destruct (fint_exact prec emax Hp Hm 2) as (Fi & Vi). { change (2 ^ 1 <= 2 ^ prec)%Z. apply Z.pow_le_mono_r; lia. }
    assert (G : rn (2 * rn w) = 2 * rn w).
    { apply rn_id. rewrite Rmult_comm. change 2 with (bpow radix2 1). apply mult_bpow_pos_exact_FLT; [apply rn_format; auto|lia]. }
    destruct (fmul_small prec emax Hp Hm (fint 2) (fsqrt (gval a)) Fi Fs) as (G1 & G2).
    { rewrite Vi, Vs, G. assert (0 <= rn w) by (apply rn_pos; auto; lra). rewrite Rabs_pos_eq by lra.
      apply Rle_lt_trans with (2 * bpow radix2 (emax - 2)). { apply Rmult_le_compat_l; [lra|]. apply rn_le_format; auto. apply big_format; auto. lia. }
      change 2 with (bpow radix2 1) at 1. rewrite <- bpow_plus. apply bpow_lt. lia. }
    split; [exact G1|]. rewrite G2, Vi, Vs. exact G. }
  destruct V2 as (FD & VD). destruct (fdiv_finite prec emax Hp Hm _ _ F FD) as (_ & _ & V). rewrite V, VD.
  pose proof (normal_rel w ltac:(rewrite Rabs_pos_eq; lra)) as RW. rewrite (Rabs_pos_eq w) in RW by lra.
  set (N := B2R (gder a)) in *.
  assert (DN : d = N / (2 * w)) by reflexivity. rewrite DN.
  eapply Rle_trans; [apply (quotient_error u 0 0 eta N N (2 * w) (2 * rn w) (Rabs N)); try lra|].
  - replace (N - N) with 0 by ring. rewrite Rabs_R0. lra.
  - replace (2 * rn w - 2 * w) with (2 * (rn w - w)) by ring. rewrite Rabs_mult, (Rabs_pos_eq 2) by lra. lra.
  - apply rel_u; auto.
  - apply Rplus_le_compat_r. unfold Rdiv at 2. rewrite Rabs_mult, (Rabs_pos_eq (/ (2 * w))) by (left; apply Rinv_0_lt_compat; lra).
    pose proof (Rabs_pos N) as N0. assert (UN : 0 <= u * Rabs N) by (apply Rmult_le_pos; lra). assert (UUN : u * Rabs N * u <= u * Rabs N * / 8) by (apply Rmult_le_compat_l; lra).
    replace (((0 + u + u * (1 + 0)) * Rabs N + (1 + u) * 0) / ((1 - u) * (2 * w))) with ((2 * (u * Rabs N) / (1 - u)) * / (2 * w)) by (field; lra).
    replace (3 * u * (Rabs N * / (2 * w))) with ((3 * (u * Rabs N)) * / (2 * w)) by ring.
    apply Rmult_le_compat_r; [left; apply Rinv_0_lt_compat; lra|]. apply Rmult_le_reg_r with (1 - u); [lra|]. unfold Rdiv. rewrite Rmult_assoc, Rinv_l, Rmult_1_r by lra. lra.
Qed.
End Quotients.

(** With real scalars the code is that of [DualModel]. *)
Lemma geval_reals e x : let r := geval 0 IZR (fun k => std Log (IZR k)) Rplus Rminus Rmult Rdiv Ropp std cpow e (gmk (value x) (derivative x)) in
  mk (gval r) (gder r) = deval (exact (fun c => c) e) x.
Proof.
  cbv zeta. destruct x as [v d]. cbn [value derivative]. induction e as [|c|e IH|e IH|o l IHl r IHr|o l IHl c|o c r IHr|f e IH|e IH y|c e IH|l IHl r IHr]; cbn [geval exact deval]; try reflexivity;
    try (rewrite <- IH; clear IH); try (rewrite <- IHl; clear IHl); try (rewrite <- IHr; clear IHr);
    try (destruct o); try (destruct f); reflexivity.
Qed.
