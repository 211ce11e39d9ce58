From Coq Require Import QArith Qround Lqa Lia.
From Verif Require Import Base BaseProofs RoundModel RoundSpec RoundProofs RandomModel RandomSpec.
From Coq Require Import ZifyNat ZifyN ZifyBool.
Ltac Zify.zify_post_hook ::= idtac.

(** * random, randint *)
Section Q.
Local Open Scope Q_scope.
Lemma random_real_ok : forall lo hi u, lo < hi -> 0 <= u -> u < 1 ->
  lo <= random_real lo hi u /\ random_real lo hi u < hi.
Proof. intros. unfold random_real. split; nra. Qed.
Lemma random_real_onto : forall lo hi x, lo < hi -> lo <= x -> x < hi ->
  exists u, 0 <= u /\ u < 1 /\ random_real lo hi u == x.
Proof.
  intros. exists ((x - lo) / (hi - lo)).
  assert (D : (x - lo) / (hi - lo) * (hi - lo) == x - lo) by (field; lra).
  split; [|split].
  - nra.
  - nra.
  - unfold random_real. rewrite Qmult_comm, D. ring.
Qed.

Lemma qtrunc_nonneg : forall q, 0 <= q -> qtrunc q = Qfloor q.
Proof. intros. unfold qtrunc. destruct (qltP q 0) as [[-> K]|[-> K]]; [lra|reflexivity]. Qed.
Lemma qtrunc_neg : forall q, q < 0 -> qtrunc q = (- Qfloor (- q))%Z.
Proof. intros. unfold qtrunc. destruct (qltP q 0) as [[-> K]|[-> K]]; [reflexivity|lra]. Qed.
Lemma inj_lt_le : forall a b : Z, inject_Z a < inject_Z b + 1 -> (a <= b)%Z.
Proof.
  intros. destruct (inj_split a b) as [L|L]; [now rewrite <- Zle_Qle in L|lra].
Qed.
Lemma inj_1 : forall a, inject_Z (a + 1) == inject_Z a + 1.
Proof. intros. rewrite inject_Z_plus. reflexivity. Qed.

Lemma randint_nonneg_ok : forall lo hi u, (0 <= lo <= hi)%Z -> 0 <= u -> u < 1 -> (lo <= randint lo hi u <= hi)%Z.
Proof.
  intros lo hi u [L H] U0 U1. unfold randint. replace (lo <? 0)%Z with false by lia. rewrite Z.sub_0_r.
  assert (LH : inject_Z lo <= inject_Z hi) by (now apply inj_le).
  assert (L0 : 0 <= inject_Z lo) by (change 0 with (inject_Z 0); now apply inj_le).
  destruct (random_real_ok (inject_Z lo) (inject_Z hi + 1) u) as [A B]; try lra.
  set (r := random_real _ _ _) in *. rewrite qtrunc_nonneg by lra.
  pose proof (floor_bounds r) as [F1 F2]. split; apply inj_lt_le; lra.
Qed.
Lemma randint_nonneg_onto : forall lo hi n, (0 <= lo <= hi)%Z -> (lo <= n <= hi)%Z ->
  exists u, 0 <= u /\ u < 1 /\ randint lo hi u = n.
Proof.
  intros lo hi n [L H] [N1 N2].
  assert (inject_Z lo <= inject_Z n) by (now apply inj_le). assert (inject_Z n <= inject_Z hi) by (now apply inj_le).
  destruct (random_real_onto (inject_Z lo) (inject_Z hi + 1) (inject_Z n)) as (u & U0 & U1 & E); try lra.
  exists u. repeat split; auto. unfold randint. replace (lo <? 0)%Z with false by lia. rewrite Z.sub_0_r.
  now apply qtrunc_int.
Qed.

(** lower < 0 <= upper: right unless the generator returns exactly 0 *)
Lemma randint_mixed_ok : forall lo hi u, (lo < 0 <= hi)%Z -> 0 < u -> u < 1 -> (lo <= randint lo hi u <= hi)%Z.
Proof.
  intros lo hi u [L H] U0 U1. unfold randint. replace (lo <? 0)%Z with true by lia.
  assert (H0 : 0 <= inject_Z hi) by (change 0 with (inject_Z 0); now apply inj_le).
  assert (L0 : inject_Z (lo - 1) < 0) by (change 0 with (inject_Z 0); rewrite <- Zlt_Qlt; lia).
  assert (A : inject_Z (lo - 1) < random_real (inject_Z (lo - 1)) (inject_Z hi + 1) u) by (unfold random_real; nra).
  assert (B : random_real (inject_Z (lo - 1)) (inject_Z hi + 1) u < inject_Z hi + 1) by (unfold random_real; nra).
  set (r := random_real _ _ _) in *. clearbody r.
  assert (LE : inject_Z lo == inject_Z (lo - 1) + 1) by (rewrite <- inj_1; replace (lo - 1 + 1)%Z with lo by lia; reflexivity).
  destruct (Qlt_le_dec r 0).
  - rewrite qtrunc_neg by auto. pose proof (floor_bounds (- r)) as [F1 F2].
    assert (P : (0 <= Qfloor (- r))%Z) by (apply floor_nonneg; lra).
    split; [|lia].
    assert ((Qfloor (- r) <= - lo)%Z); [|lia]. apply inj_lt_le. rewrite inject_Z_opp. lra.
  - rewrite qtrunc_nonneg by lra. pose proof (floor_bounds r) as [F1 F2].
    assert (P : (0 <= Qfloor r)%Z) by (apply floor_nonneg; lra). split; [lia|]. apply inj_lt_le. lra.
Qed.
Lemma randint_mixed_onto : forall lo hi n, (lo < 0 <= hi)%Z -> (lo <= n <= hi)%Z ->
  exists u, 0 < u /\ u < 1 /\ randint lo hi u = n.
Proof.
  intros lo hi n [L H] [N1 N2].
  assert (inject_Z (lo - 1) < inject_Z n) by (rewrite <- Zlt_Qlt; lia).
  assert (inject_Z n <= inject_Z hi) by (now apply inj_le).
  destruct (random_real_onto (inject_Z (lo - 1)) (inject_Z hi + 1) (inject_Z n)) as (u & U0 & U1 & E); try lra.
  exists u. repeat split; auto.
  - destruct (Qlt_le_dec 0 u); auto. assert (U : u == 0) by lra. exfalso.
    assert (random_real (inject_Z (lo - 1)) (inject_Z hi + 1) u == inject_Z (lo - 1)) by (unfold random_real; rewrite U; ring).
    lra.
  - unfold randint. replace (lo <? 0)%Z with true by lia. now apply qtrunc_int.
Qed.
Lemma randint_zero : forall lo hi, (lo < 0)%Z -> randint lo hi 0 = (lo - 1)%Z.
Proof.
  intros. unfold randint. replace (lo <? 0)%Z with true by lia. apply qtrunc_int. unfold random_real. ring.
Qed.
(** upper < 0: the last unit interval truncates to upper + 1 *)
Lemma randint_negative_escapes : forall lo hi, (lo <= hi < 0)%Z ->
  exists u, 0 < u /\ u < 1 /\ randint lo hi u = (hi + 1)%Z.
Proof.
  intros lo hi [L H].
  assert (inject_Z (lo - 1) < inject_Z hi) by (rewrite <- Zlt_Qlt; lia).
  assert (HB : inject_Z hi + 1 <= 0).
  { rewrite <- inj_1. change 0 with (inject_Z 0). apply inj_le. lia. }
  destruct (random_real_onto (inject_Z (lo - 1)) (inject_Z hi + 1) (inject_Z hi + (1 # 2))) as (u & U0 & U1 & E); try lra.
  exists u. split; [|split]; auto.
  - destruct (Qlt_le_dec 0 u); auto. assert (U : u == 0) by lra. exfalso.
    assert (random_real (inject_Z (lo - 1)) (inject_Z hi + 1) u == inject_Z (lo - 1)) by (unfold random_real; rewrite U; ring).
    lra.
  - unfold randint. replace (lo <? 0)%Z with true by lia.
    set (r := random_real _ _ _) in *. clearbody r. rewrite qtrunc_neg by lra.
    assert (F : Qfloor (- r) = (- hi - 1)%Z).
    { apply floor_unique; unfold Z.sub; rewrite inject_Z_plus, inject_Z_opp; change (inject_Z (- (1))) with (- (1)); lra. }
    rewrite F. lia.
Qed.
Lemma random_integral_ok : forall lo hi u, (0 <= lo < hi)%Z -> 0 <= u -> u < 1 -> (lo <= random_integral lo hi u < hi)%Z.
Proof.
  intros lo hi u [L H] U0 U1. unfold random_integral.
  assert (LH : inject_Z lo < inject_Z hi) by (now rewrite <- Zlt_Qlt).
  assert (L0 : 0 <= inject_Z lo) by (change 0 with (inject_Z 0); now apply inj_le).
  destruct (random_real_ok (inject_Z lo) (inject_Z hi) u) as [A B]; try lra.
  set (r := random_real _ _ _) in *. rewrite qtrunc_nonneg by lra.
  pose proof (floor_bounds r) as [F1 F2]. split.
  - apply inj_lt_le; lra.
  - rewrite Zlt_Qlt. lra.
Qed.
End Q.

(** * Seeding *)
Local Open Scope nat_scope.
Section Stream.
  Context {G : Type} (mkgen : N -> G) (draw : G -> Q * G) (gauss1 gauss2 : Q -> Q -> Q).
  Local Notation nxt := (next mkgen draw).
  Local Notation stp := (step mkgen draw gauss1 gauss2).
  Local Notation rn := (run mkgen draw gauss1 gauss2).

  Definition agree (i : nat) (a b : rstate G) : Prop :=
    randomSeed a = randomSeed b /\ reseed a = reseed b /\ (reseed a = true \/ gens a i = gens b i) /\
    (forall t, pending a t = pending b t).

  Lemma put_same {A} (f : nat -> option A) i a : put f i a i = a.
  Proof. unfold put. now rewrite Nat.eqb_refl. Qed.

  Lemma next_agree : forall i a b, agree i a b ->
    fst (nxt i a) = fst (nxt i b) /\ agree i (snd (nxt i a)) (snd (nxt i b)).
  Proof.
    intros i a b (S & R & K & P). unfold next. rewrite <- S, <- R.
    destruct (reseed a) eqn:E.
    - destruct (draw (mkgen (seed32 (randomSeed a)))) as [u g]. cbn [fst snd].
      split; auto. split; [|split; [|split]]; auto; cbn; auto. right. now rewrite !put_same.
    - destruct K as [K|K]; [discriminate|]. rewrite <- K.
      destruct (draw _) as [u g]. cbn [fst snd].
      split; auto. split; [|split; [|split]]; auto; cbn; auto. right. now rewrite !put_same.
  Qed.
  Lemma gauss_loop_agree : forall fuel a b, agree inst_double_int a b ->
    match gauss_loop mkgen draw fuel a, gauss_loop mkgen draw fuel b with
    | Some (x, y, a'), Some (x', y', b') => x = x' /\ y = y' /\ agree inst_double_int a' b'
    | None, None => True
    | _, _ => False
    end.
  Proof.
    induction fuel; intros a b A; cbn [gauss_loop]; auto.
    destruct (next_agree _ _ _ A) as [E1 A1]. destruct (nxt inst_double_int a) as [u a1]. destruct (nxt inst_double_int b) as [u' b1].
    cbn [fst snd] in *. subst u'.
    destruct (next_agree _ _ _ A1) as [E2 A2]. destruct (nxt inst_double_int a1) as [w a2]. destruct (nxt inst_double_int b1) as [w' b2].
    cbn [fst snd] in *. subst w'.
    destruct (_ || _); [apply IHfuel; auto | auto].
  Qed.
  Lemma step_agree : forall fuel i c a b, uses i c -> agree i a b ->
    match stp fuel c a, stp fuel c b with
    | Some (r, a'), Some (r', b') => r = r' /\ agree i a' b'
    | None, None => True
    | _, _ => False
    end.
  Proof.
    intros fuel i c a b U A. destruct c as [s|j lo hi|lo hi|t]; cbn in U; cbn [step].
    - destruct A as (S & R & K & P). split; auto. split; [|split; [|split]]; auto.
    - subst j. destruct (next_agree _ _ _ A) as [E A']. destruct (nxt i a), (nxt i b). cbn in *. subst. auto.
    - subst i. destruct (next_agree _ _ _ A) as [E A']. destruct (nxt _ a), (nxt _ b). cbn in *. subst. auto.
    - subst i. unfold randomGaussian. pose proof A as (S & R & K & P). rewrite <- (P t).
      destruct (pending a t).
      + cbn. split; auto. split; [|split; [|split]]; auto. intro t'. cbn. unfold put. destruct (t' =? t); auto.
      + pose proof (gauss_loop_agree fuel a b A) as L.
        destruct (gauss_loop _ _ _ a) as [[[x y] a']|]; destruct (gauss_loop _ _ _ b) as [[[x' y'] b']|]; try easy.
        destruct L as (-> & -> & (S' & R' & K' & P')). cbn. split; auto. split; [|split; [|split]]; auto.
        intro t'. cbn. unfold put. destruct (t' =? t); auto.
  Qed.
  Lemma run_agree : forall fuel i cs a b, Forall (uses i) cs -> agree i a b ->
    option_map fst (rn fuel cs a) = option_map fst (rn fuel cs b).
  Proof.
    intros fuel i cs. induction cs as [|c cs IH]; intros a b U A; cbn [run]; auto.
    inversion U; subst. pose proof (step_agree fuel i c a b H1 A) as S.
    destruct (stp fuel c a) as [[r a']|]; destruct (stp fuel c b) as [[r' b']|]; try easy.
    destruct S as [-> A']. specialize (IH a' b' H2 A').
    destruct (rn fuel cs a') as [[rs a'']|]; destruct (rn fuel cs b') as [[rs' b'']|]; cbn in *; congruence.
  Qed.
  Lemma seed_agree : forall i s a b, (forall t, pending a t = pending b t) -> agree i (setSeed s a) (setSeed s b).
  Proof. intros. split; [|split; [|split]]; auto. Qed.

  (** after a gaussian pair, the second one survives any reseeding *)
  Lemma gaussian_leftover : forall fuel t st q st', randomGaussian mkgen draw gauss1 gauss2 fuel t st = Some (q, st') ->
    pending st t = None -> exists q2, forall s,
      exists st'', randomGaussian mkgen draw gauss1 gauss2 fuel t (setSeed s st') = Some (q2, st'').
  Proof.
    intros fuel t st q st' H P. unfold randomGaussian in H. rewrite P in H.
    destruct (gauss_loop _ _ _ _) as [[[v1 v2] st1]|]; [|discriminate]. injection H as <- <-.
    exists (gauss2 v1 v2). intro s. eexists. unfold randomGaussian. cbn [setSeed pending set_pending].
    now rewrite put_same.
  Qed.

  Definition fresh (s : N) : rstate G := RState s false (fun _ => None) (fun _ => None).
  Definition first (s : N) : Q := fst (draw (mkgen (seed32 s))).
  Definition second (s : N) : Q := fst (draw (snd (draw (mkgen (seed32 s))))).
  Lemma mixing : forall fuel s_init s0 s i j, i <> j ->
    let after := [SetSeed s; Random i 0 1; Random j 0 1] in
    let before := [SetSeed s0; Random j 0 1] in
    exists st1 st2 r1 r2,
      rn fuel after (fresh s_init) = Some ([None; Some r1; Some (random_real 0 1 (first s))], st1) /\
      rn fuel (before ++ after) (fresh s_init) =
        Some ([None; Some r2; None; Some r1; Some (random_real 0 1 (second s0))], st2).
  Proof.
    intros fuel s_init s0 s i j N after before. subst after before. unfold first, second.
    cbn [app run step]. unfold next. cbn [setSeed fresh gens reseed randomSeed pending option_map].
    destruct (draw (mkgen (seed32 s))) as [u g] eqn:D1. cbn [gens reseed randomSeed pending option_map].
    destruct (draw (mkgen (seed32 s0))) as [u0 g0] eqn:D0. cbn [gens reseed randomSeed pending option_map setSeed].
    unfold put. rewrite !Nat.eqb_refl. replace (j =? i) with false by lia.
    cbn [gens reseed randomSeed pending option_map fst snd].
    rewrite ?D1. destruct (draw g0) as [u1 g1] eqn:D2. cbn [gens reseed randomSeed pending option_map fst snd].
    do 4 eexists. split; reflexivity.
  Qed.
End Stream.

(** * MT19937 *)
Local Open Scope nat_scope.
Section Mt.
  Variable x : nat -> N.
  Hypothesis rec : mt_recurrence x.

  Lemma rec_twist : forall n, x (n + 624) = twist_word (x n) (x (n + 1)) (x (n + 397)).
  Proof. intro n. rewrite (rec n). reflexivity. Qed.

  (** the window while word k of batch b is being replaced *)
  Definition win (b k : nat) (m : list N) : Prop :=
    length m = 624 /\ forall i, i < 624 -> nth i m 0%N = x (b + i + (if i <? k then 624 else 0)).

  Lemma twist_at_ok : forall m d a b f, length m = 624 -> d < 624 -> a < 624 -> b < 624 -> f < 624 ->
    twist_at m d a b f = Ok (upd m d (twist_word (nth a m 0%N) (nth b m 0%N) (nth f m 0%N))).
  Proof.
    intros m d a b f L Hd Ha Hb Hf. unfold twist_at.
    rewrite (rd_Ok m a 0%N), (rd_Ok m b 0%N), (rd_Ok m f 0%N) by lia. cbn [bind]. apply wr_Ok. lia.
  Qed.

  Lemma win_step : forall b k m w, win b k m -> k < 624 -> w = x (b + k + 624) -> win b (k + 1) (upd m k w).
  Proof.
    intros b k m w [L W] Hk ->. split. now rewrite upd_length.
    intros i Hi. rewrite nth_upd. destruct (Nat.eqb_spec k i).
    - subst. replace (i <? length m) with true by lia. replace (i <? i + 1) with true by lia. reflexivity.
    - cbn [andb]. rewrite W by auto. f_equal. f_equal. destruct (i <? k) eqn:E1; destruct (i <? k + 1) eqn:E2; lia.
  Qed.

  Lemma win_nth : forall b k m i, win b k m -> i < 624 -> nth i m 0%N = x (b + i + (if i <? k then 624 else 0)).
  Proof. intros b k m i [_ W]. auto. Qed.

  Lemma batch_ok : forall b m, win b 0 m -> exists m',
    (do m <- for_range 0 (MT_N - MT_M) (fun kk m => twist_at m kk kk (kk + 1) (kk + MT_M)) m;
     do m <- for_range (MT_N - MT_M) (MT_N - 1) (fun kk m => twist_at m kk kk (kk + 1) (kk + MT_M - MT_N)) m;
     twist_at m (MT_N - 1) (MT_N - 1) 0 (MT_M - 1)) = Ok m' /\ win (b + 624) 0 m'.
  Proof.
    intros b m W.
    change MT_N with 624. change MT_M with 397. change (624 - 397) with 227. change (624 - 1) with 623. change (397 - 1) with 396.
    destruct (for_range_inv (win b) (fun kk m => twist_at m kk kk (kk + 1) (kk + 397)) 0 227 m) as (m1 & E1 & W1); auto; [lia| |].
    { intros k m1 K W1. eexists. split. apply twist_at_ok; try lia. apply W1.
      replace (S k) with (k + 1) by lia. apply win_step; auto; [lia|].
      rewrite !(win_nth b k m1) by (auto; lia). rewrite rec_twist.
      replace (k <? k) with false by lia. replace (k + 1 <? k) with false by lia. replace (k + 397 <? k) with false by lia.
      f_equal; f_equal; lia. }
    rewrite E1. cbn [bind].
    destruct (for_range_inv (win b) (fun kk m => twist_at m kk kk (kk + 1) (kk + 397 - 624)) 227 623 m1) as (m2 & E2 & W2); auto; [lia| |].
    { intros k m2 K W2. eexists. split. apply twist_at_ok; try lia. apply W2.
      replace (S k) with (k + 1) by lia. apply win_step; auto; [lia|].
      rewrite !(win_nth b k m2) by (auto; lia). rewrite rec_twist.
      replace (k <? k) with false by lia. replace (k + 1 <? k) with false by lia. replace (k + 397 - 624 <? k) with true by lia.
      f_equal; f_equal; lia. }
    rewrite E2. cbn [bind].
    eexists. split. apply twist_at_ok; try lia. apply W2.
    assert (W3 : win b 624 (upd m2 623 (twist_word (nth 623 m2 0%N) (nth 0 m2 0%N) (nth 396 m2 0%N)))).
    { change 624 with (623 + 1). apply win_step; [exact W2|lia|].
      rewrite (rec_twist (b + 623)). rewrite !(win_nth b 623 m2) by (auto; lia).
      replace (623 <? 623) with false by lia. replace (0 <? 623) with true by lia. replace (396 <? 623) with true by lia.
      f_equal; f_equal; lia. }
    destruct W3 as [L W3]. split; auto. intros i Hi. rewrite W3 by auto. replace (i <? 624) with true by lia.
    cbn [Nat.ltb Nat.leb]. replace (i <? 0) with false by lia. f_equal. lia.
  Qed.

  Definition loop_inv (k : nat) (st : mt_state) : Prop :=
    exists b, win b 0 (mt st) /\ mti st <= 624 /\ k + 624 = b + mti st.

  Lemma loop_uint_ok : forall k st, loop_inv k st ->
    exists st', mt_loop_uint st = Ok (temper (x (624 + k)), st') /\ loop_inv (S k) st'.
  Proof.
    intros k st (b & W & I & K). unfold mt_loop_uint. change MT_N with 624 at 1.
    destruct (Nat.leb_spec 624 (mti st)).
    - destruct (batch_ok b (mt st) W) as (m' & E & W').
      destruct (for_range 0 (MT_N - MT_M) _ (mt st)) as [m1| |]; cbn [bind] in E |- *; try discriminate.
      destruct (for_range (MT_N - MT_M) (MT_N - 1) _ m1) as [m2| |]; cbn [bind] in E |- *; try discriminate.
      rewrite E. cbn [bind mt mti]. rewrite (rd_Ok m' 0 0%N) by (destruct W'; lia). cbn [bind].
      eexists. split. rewrite (win_nth _ _ _ 0 W') by lia. replace (0 <? 0) with false by lia.
      replace (624 + k) with (b + 624 + 0 + 0) by lia. reflexivity.
      exists (b + 624). cbn [mt mti]. repeat split; try apply W'; lia.
    - cbn [bind]. rewrite (rd_Ok (mt st) (mti st) 0%N) by (destruct W; lia). cbn [bind].
      eexists. split. rewrite (win_nth _ _ _ (mti st) W) by lia. replace (mti st <? 0) with false by lia.
      replace (624 + k) with (b + mti st + 0) by lia. reflexivity.
      exists b. cbn [mt mti]. repeat split; try apply W; lia.
  Qed.

  Lemma loop_draws_ok : forall n k st, loop_inv k st ->
    exists st', draws mt_loop_uint n st = Ok (map (fun j => temper (x (624 + j))) (seq k n), st').
  Proof.
    induction n; intros k st I; cbn [draws]. now exists st.
    destruct (loop_uint_ok k st I) as (st1 & E & I1). rewrite E. cbn [bind].
    destruct (IHn (S k) st1 I1) as (st2 & E2). rewrite E2. cbn [bind]. eexists. reflexivity.
  Qed.

  Lemma seed_ok : forall s junk, mt_initial s x -> length junk = 624 ->
    exists st, mt_seed junk s = Ok st /\ mti st = 624 /\ length (mt st) = 624 /\ forall i, i < 624 -> nth i (mt st) 0%N = x i.
  Proof.
    intros s junk [I0 I1] L. unfold mt_seed. rewrite wr_Ok by lia. cbn [bind].
    change MT_N with 624.
    destruct (for_range_inv (fun k m => length m = 624 /\ forall i, i < k -> nth i m 0%N = x i)
      (fun i m => do p <- rd m (i - 1); wr m i (w32 (1812433253 * N.lxor p (N.shiftr p 30) + N.of_nat i))) 1 624
      (upd junk 0 (w32 s))) as (m & E & (Lm & Wm)); auto; [lia| | |].
    - intros i m Hi [Lm Wm]. rewrite (rd_Ok m (i - 1) 0%N) by lia. cbn [bind]. rewrite wr_Ok by lia.
      eexists. split. reflexivity. split. now rewrite upd_length.
      intros j Hj. rewrite nth_upd. destruct (Nat.eqb_spec i j).
      + subst j. replace (i <? length m) with true by lia. cbn [andb]. rewrite Wm by lia. symmetry. apply I1. lia.
      + cbn [andb]. apply Wm. lia.
    - split. now rewrite upd_length. intros i Hi. replace i with 0 by lia. rewrite nth_upd. cbn [Nat.eqb].
      replace (0 <? length junk) with true by lia. cbn [andb]. now rewrite I0.
    - rewrite E. cbn [bind]. eexists. split. reflexivity. cbn [mti mt]. auto.
  Qed.

  Lemma mt_stream_ok : forall s junk n, mt_initial s x -> length junk = 624 ->
    exists st st', mt_seed junk s = Ok st /\
      draws mt_loop_uint n st = Ok (map (fun k => temper (x (624 + k))) (seq 0 n), st').
  Proof.
    intros s junk n I L. destruct (seed_ok s junk I L) as (st & E & T & Lm & W).
    destruct (loop_draws_ok n 0 st) as (st' & D).
    { exists 0. split; [|lia]. split; auto. intros i Hi. rewrite W by auto. replace (i <? 0) with false by lia. f_equal. lia. }
    exists st, st'. auto.
  Qed.
End Mt.

(** the recurrence has a solution for every seed *)
Fixpoint iw (s : N) (i : nat) : N :=
  match i with
  | O => w32 s
  | S i => let p := iw s i in w32 (1812433253 * N.lxor p (N.shiftr p 30) + N.of_nat (S i))
  end.
Fixpoint window (s : N) (n : nat) : list N :=
  match n with
  | O => map (iw s) (seq 0 624)
  | S n => let w := window s n in tl w ++ [twist_word (nth 0 w 0%N) (nth 1 w 0%N) (nth 397 w 0%N)]
  end.
Definition mtx (s : N) (n : nat) : N := nth 0 (window s n) 0%N.

Lemma window_length : forall s n, length (window s n) = 624.
Proof.
  induction n; cbn [window]. now rewrite map_length, seq_length.
  rewrite app_length. cbn [length]. destruct (window s n); cbn in *; lia.
Qed.
Lemma tl_nth {A} : forall (l : list A) i d, nth i (tl l) d = nth (S i) l d.
Proof. destruct l; intros; cbn; auto. now destruct i. Qed.
Lemma tl_length {A} : forall (l : list A), length (tl l) = length l - 1.
Proof. destruct l; cbn; lia. Qed.
Lemma window_shift : forall s n i, i < 623 -> nth i (window s (S n)) 0%N = nth (S i) (window s n) 0%N.
Proof.
  intros. cbn [window]. rewrite app_nth1. apply tl_nth. rewrite tl_length, window_length. lia.
Qed.
Lemma mtx_window : forall s i n, i < 624 -> mtx s (n + i) = nth i (window s n) 0%N.
Proof.
  induction i; intros n Hi. now rewrite Nat.add_0_r.
  replace (n + S i) with (S n + i) by lia. rewrite IHi by lia. apply window_shift. lia.
Qed.
Lemma mtx_recurrence : forall s, mt_recurrence (mtx s).
Proof.
  intros s n. change (mtx s (n + 624) = twist_word (mtx s n) (mtx s (n + 1)) (mtx s (n + 397))).
  replace (n + 624) with (S n + 623) by lia. rewrite (mtx_window s 623 (S n)) by lia. cbn [window].
  rewrite app_nth2 by (rewrite tl_length, window_length; lia). rewrite tl_length, window_length.
  change (623 - (624 - 1)) with 0. cbn [nth].
  replace (mtx s n) with (mtx s (n + 0)) by (f_equal; lia).
  rewrite (mtx_window s 0 n), (mtx_window s 1 n), (mtx_window s 397 n) by lia. reflexivity.
Qed.
Lemma mtx_iw : forall s i, i < 624 -> mtx s i = iw s i.
Proof.
  intros. change (mtx s (0 + i) = iw s i). rewrite (mtx_window s i 0 H). cbn [window]. rewrite (nth_indep _ 0%N (iw s 0)) by (rewrite map_length, seq_length; lia).
  rewrite map_nth. rewrite seq_nth by lia. reflexivity.
Qed.
Lemma mtx_initial : forall s, mt_initial s (mtx s).
Proof.
  intro s. split. rewrite mtx_iw by lia. reflexivity.
  intros i Hi. rewrite (mtx_iw s i), (mtx_iw s (i - 1)) by lia. destruct i; [lia|].
  replace (S i - 1) with i by lia. reflexivity.
Qed.

(** the incremental function never replaces word 0 and returns it every 623 draws *)
Definition inc_inv (w : N) (k : nat) (st : mt_state) : Prop :=
  length (mt st) = 624 /\ nth 0 (mt st) 0%N = w /\ 1 <= mti st <= 624 /\
  exists q : Z, (Z.of_nat k = 623 * q + Z.of_nat (Nat.min (mti st) 623))%Z.

Lemma inc_step : forall w k st, inc_inv w k st ->
  exists y st', mt_uint st = Ok (y, st') /\ inc_inv w (S k) st' /\ (Nat.modulo k 623 = 0 -> y = temper w).
Proof.
  intros w k st (L & Z0 & B & q & K). unfold mt_uint. change MT_N with 624. change MT_M with 397.
  change (624 - 397) with 227. change (624 - 1) with 623. change (397 - 1) with 396.
  assert (G : forall m i, length m = 624 -> nth 0 m 0%N = w -> 0 < i < 624 -> forall v, nth 0 (upd m i v) 0%N = w).
  { intros m i Lm Zm Hi v. rewrite nth_upd. replace (i =? 0) with false by lia. exact Zm. }
  destruct (Nat.ltb_spec (mti st) 227); [|destruct (Nat.ltb_spec (mti st) 623)].
  - rewrite twist_at_ok by lia. cbn [bind mt mti]. rewrite (rd_Ok _ _ 0%N) by (rewrite upd_length; lia). cbn [bind].
    eexists. eexists. split. reflexivity. split.
    + split; [|split; [|split]]; cbn [mt mti]; try (rewrite upd_length; auto). apply G; auto; lia. lia. exists q. lia.
    + intro M. exfalso. pose proof (Nat.div_mod k 623). rewrite M in H0. lia.
  - rewrite twist_at_ok by lia. cbn [bind mt mti]. rewrite (rd_Ok _ _ 0%N) by (rewrite upd_length; lia). cbn [bind].
    eexists. eexists. split. reflexivity. split.
    + split; [|split; [|split]]; cbn [mt mti]; try (rewrite upd_length; auto). apply G; auto; lia. lia. exists q. lia.
    + intro M. exfalso. pose proof (Nat.div_mod k 623). rewrite M in H1. lia.
  - rewrite twist_at_ok by lia. cbn [bind mt mti]. rewrite (rd_Ok _ _ 0%N) by (rewrite upd_length; lia). cbn [bind].
    eexists. eexists. split. reflexivity. split.
    + split; [|split; [|split]]; cbn [mt mti]; try (rewrite upd_length; auto). apply G; auto; lia. lia.
      exists (q + 1)%Z. lia.
    + intros _. f_equal. apply G; auto; lia.
Qed.
Lemma inc_draws : forall n w k st, inc_inv w k st ->
  exists out st', draws mt_uint n st = Ok (out, st') /\ length out = n /\
    forall j, j < n -> Nat.modulo (k + j) 623 = 0 -> nth j out 0%N = temper w.
Proof.
  induction n; intros w k st I; cbn [draws].
  - exists [], st. repeat split; auto. lia.
  - destruct (inc_step w k st I) as (y & st1 & E & I1 & Y). rewrite E. cbn [bind].
    destruct (IHn w (S k) st1 I1) as (out & st2 & D & Ln & J). rewrite D. cbn [bind].
    exists (y :: out), st2. split; auto. split; [cbn; lia|]. intros [|j] Hj M.
    + cbn. apply Y. now rewrite Nat.add_0_r in M.
    + cbn. apply J. lia. now replace (S k + j) with (k + S j) by lia.
Qed.
Lemma inc_stream : forall s junk n, length junk = 624 ->
  exists st out st', mt_seed junk s = Ok st /\ draws mt_uint n st = Ok (out, st') /\ length out = n /\
    forall q, 623 * q < n -> nth (623 * q) out 0%N = temper (w32 s).
Proof.
  intros s junk n L. destruct (seed_ok (mtx s) s junk (mtx_initial s) L) as (st & E & T & Lm & W).
  destruct (inc_draws n (w32 s) 0 st) as (out & st' & D & Lo & J).
  { split; [|split; [|split]]; auto; try lia.
    - rewrite W by lia. now rewrite mtx_iw by lia.
    - exists (-1)%Z. rewrite T. reflexivity. }
  exists st, out, st'. repeat split; auto. intros q Hq. apply J; auto.
  cbn [Nat.add]. rewrite Nat.mul_comm. apply Nat.mod_mul. lia.
Qed.
