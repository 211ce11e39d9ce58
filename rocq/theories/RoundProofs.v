From Coq Require Import QArith Qabs Qround Qpower Lqa Lia.
From Verif Require Import Base BaseProofs RoundModel RoundSpec.
From Coq Require Import ZifyNat ZifyN ZifyBool.
Ltac Zify.zify_post_hook ::= idtac.
Local Open Scope Q_scope.

Lemma qlt_true : forall a b, qlt a b = true <-> a < b.
Proof.
  intros. unfold qlt. rewrite Bool.negb_true_iff. split; intro H.
  - apply Qnot_le_lt. intro L. apply Qle_bool_iff in L. congruence.
  - destruct (Qle_bool b a) eqn:E; auto. apply Qle_bool_iff in E. lra.
Qed.
Lemma qlt_false : forall a b, qlt a b = false <-> b <= a.
Proof.
  intros. unfold qlt. rewrite Bool.negb_false_iff. apply Qle_bool_iff.
Qed.
Lemma qltP : forall a b, (qlt a b = true /\ a < b) \/ (qlt a b = false /\ b <= a).
Proof.
  intros. destruct (qlt a b) eqn:E; [left|right]; split; auto. now apply qlt_true. now apply qlt_false.
Qed.
Lemma qleP : forall a b, (Qle_bool a b = true /\ a <= b) \/ (Qle_bool a b = false /\ b < a).
Proof.
  intros. destruct (Qle_bool a b) eqn:E; [left|right]; split; auto. now apply Qle_bool_iff.
  apply Qnot_le_lt. intro L. apply Qle_bool_iff in L. congruence.
Qed.
Lemma qeqP : forall a b, (Qeq_bool a b = true /\ a == b) \/ (Qeq_bool a b = false /\ ~ a == b).
Proof.
  intros. destruct (Qeq_bool a b) eqn:E; [left|right]; split; auto. now apply Qeq_bool_iff.
  now apply Qeq_bool_neq.
Qed.
Lemma qabs_eq : forall x, qabs x == Qabs x.
Proof.
  intros. unfold qabs. destruct (qltP x 0) as [[-> H]|[-> H]].
  - rewrite Qabs_neg; lra.
  - rewrite Qabs_pos; lra.
Qed.
Definition sg (x : Q) : Q := if qlt x 0 then - 1 else 1.
Lemma sg_cases : forall x, (sg x == 1 /\ 0 <= x) \/ (sg x == -1 /\ x < 0).
Proof.
  intros. unfold sg. destruct (qltP x 0) as [[-> H]|[-> H]]; [right|left]; split; lra.
Qed.
Lemma copySign_eq : forall m s, copySign m s == sg s * Qabs m.
Proof.
  intros. unfold copySign, sg. destruct (qlt s 0); rewrite qabs_eq; lra.
Qed.
Lemma sg_abs : forall x, sg x * Qabs x == x.
Proof.
  intros. destruct (sg_cases x) as [[E H]|[E H]]; rewrite E.
  - rewrite Qabs_pos; lra.
  - rewrite Qabs_neg; lra.
Qed.

(** * pow10 *)
Lemma ten_pos : forall e, 0 < ten_to e.
Proof. intros. apply Qpower_0_lt. reflexivity. Qed.
Lemma ten_plus : forall a b, ten_to (a + b) == ten_to a * ten_to b.
Proof. intros. apply Qpower_plus. discriminate. Qed.
Lemma ten_opp : forall a, ten_to (- a) * ten_to a == 1.
Proof. intros. rewrite <- ten_plus. replace (- a + a)%Z with 0%Z by lia. reflexivity. Qed.

Lemma iter_ten : forall n, Nat.iter n (fun res => res * (10 # 1)) 1 == ten_to (Z.of_nat n).
Proof.
  induction n. reflexivity.
  change (Nat.iter n (fun res => res * (10 # 1)) 1 * (10 # 1) == ten_to (Z.of_nat (S n))).
  rewrite IHn. replace (Z.of_nat (S n)) with (Z.of_nat n + 1)%Z by lia. rewrite ten_plus. reflexivity.
Qed.
Lemma iter_tenth : forall n, Nat.iter n (fun res => res * (1 # 10)) 1 == ten_to (- Z.of_nat n).
Proof.
  induction n. reflexivity.
  change (Nat.iter n (fun res => res * (1 # 10)) 1 * (1 # 10) == ten_to (- Z.of_nat (S n))).
  rewrite IHn. replace (- Z.of_nat (S n))%Z with (- Z.of_nat n + -1)%Z by lia. rewrite ten_plus. reflexivity.
Qed.

Lemma pow10_ok : forall e, e <> 7%Z -> pow10 e == ten_to e.
Proof.
  intros e H. unfold pow10. destruct ((-7 <=? e)%Z && (e <=? 7)%Z) eqn:E.
  - assert (C : (e = -7 \/ e = -6 \/ e = -5 \/ e = -4 \/ e = -3 \/ e = -2 \/ e = -1 \/ e = 0 \/ e = 1 \/ e = 2 \/
                e = 3 \/ e = 4 \/ e = 5 \/ e = 6)%Z) by lia.
    repeat (destruct C as [-> | C]; [reflexivity|]). subst. reflexivity.
  - destruct (0 <? e)%Z eqn:P.
    + rewrite iter_ten. rewrite Z2Nat.id by lia. reflexivity.
    + rewrite iter_tenth. rewrite Z2Nat.id by lia. replace (- - e)%Z with e by lia. reflexivity.
Qed.
Lemma pow10_seven : pow10 7 == ten_to 6.
Proof. reflexivity. Qed.

(** * Integer-level rounding *)
Lemma floor_bounds : forall a, inject_Z (Qfloor a) <= a < inject_Z (Qfloor a) + 1.
Proof.
  intros. split. apply Qfloor_le. pose proof (Qlt_floor a) as H. rewrite inject_Z_plus in H. exact H.
Qed.
Lemma inj_le : forall a b : Z, (a <= b)%Z -> inject_Z a <= inject_Z b.
Proof. intros. now rewrite <- Zle_Qle. Qed.
Lemma inj_split : forall k F : Z, inject_Z k <= inject_Z F \/ inject_Z F + 1 <= inject_Z k.
Proof.
  intros. destruct (Z_le_gt_dec k F). left; now apply inj_le.
  right. change 1 with (inject_Z 1). rewrite <- inject_Z_plus. apply inj_le. lia.
Qed.
Lemma floor_unique : forall (a : Q) (F : Z), inject_Z F <= a -> a < inject_Z F + 1 -> Qfloor a = F.
Proof.
  intros. pose proof (floor_bounds a).
  destruct (inj_split (Qfloor a) F) as [L|L]; [|lra].
  destruct (inj_split F (Qfloor a)) as [L'|L']; [|lra].
  rewrite <- Zle_Qle in L, L'. lia.
Qed.
Lemma floor_nonneg : forall a, 0 <= a -> (0 <= Qfloor a)%Z.
Proof. intros. change 0%Z with (Qfloor 0). now apply Qfloor_resp_le. Qed.

Ltac qabs_all := repeat match goal with
  | |- context [Qabs ?a] => apply (Qabs_case a); intros
  | H : context [Qabs ?a] |- _ => revert H; apply (Qabs_case a); intros
  end.

(** scaling an integer statement |y - A| by v and a sign *)
Lemma scaled_dist : forall s A v (y : Z) x r, 0 < v -> (s == 1 \/ s == -1) -> x == s * (A * v) ->
  r == s * (inject_Z y * v) -> Qabs (r - x) == v * Qabs (inject_Z y - A).
Proof.
  intros s A v y x r Hv Hs Hx Hr. rewrite Hx, Hr.
  setoid_replace (s * (inject_Z y * v) - s * (A * v)) with (s * (v * (inject_Z y - A))) by ring.
  rewrite Qabs_Qmult, Qabs_Qmult. rewrite (Qabs_pos v) by lra.
  assert (Qabs s == 1) as -> by (destruct Hs as [-> | ->]; reflexivity). ring.
Qed.
Lemma scaled_k : forall s A v (k : Z) x, 0 < v -> (s == 1 \/ s == -1) -> x == s * (A * v) ->
  exists k' : Z, (s == 1 -> k' = k) /\ (s == -1 -> k' = (- k)%Z) /\
    Qabs (inject_Z k * v - x) == v * Qabs (inject_Z k' - A).
Proof.
  intros s A v k x Hv Hs Hx. destruct Hs as [Hs|Hs].
  - exists k. repeat split; auto. intro E; rewrite E in Hs; discriminate.
    apply (scaled_dist 1 A v k x); auto; try reflexivity. now left. rewrite Hx, Hs. reflexivity. ring.
  - exists (- k)%Z. repeat split; auto. intro E; rewrite E in Hs; discriminate.
    apply (scaled_dist (-1) A v (- k) x); auto; try reflexivity. now right. rewrite Hx, Hs. reflexivity.
    rewrite inject_Z_opp. ring.
Qed.

Definition near_int (A : Q) (y : Z) : Prop := forall k : Z, Qabs (inject_Z y - A) <= Qabs (inject_Z k - A).

Lemma multiple_scaled : forall s v (y : Z) r, (s == 1 \/ s == -1) -> r == s * (inject_Z y * v) -> multiple_of v r.
Proof.
  intros s v y r Hs Hr. destruct Hs as [Hs|Hs]; rewrite Hs in Hr.
  - exists y. rewrite Hr. ring.
  - exists (- y)%Z. rewrite Hr, inject_Z_opp. ring.
Qed.

Lemma nearest_scaled : forall s A v (y : Z) x r, 0 < v -> (s == 1 \/ s == -1) -> x == s * (A * v) ->
  r == s * (inject_Z y * v) -> near_int A y -> nearest_multiple v x r.
Proof.
  intros s A v y x r Hv Hs Hx Hr Hn. split. eapply multiple_scaled; eauto.
  intro k. destruct (scaled_k s A v k x Hv Hs Hx) as (k' & _ & _ & ->).
  rewrite (scaled_dist s A v y x r Hv Hs Hx Hr).
  apply Qmult_le_l. exact Hv. apply Hn.
Qed.

Lemma tie_away_scaled : forall s A v (y : Z) x r, 0 < v -> (s == 1 \/ s == -1) -> x == s * (A * v) ->
  r == s * (inject_Z y * v) -> (0 <= y)%Z ->
  (forall k : Z, Qabs (inject_Z y - A) == Qabs (inject_Z k - A) -> (Z.abs k <= y)%Z) -> tie_away v x r.
Proof.
  intros s A v y x r Hv Hs Hx Hr Hy Hn k E.
  destruct (scaled_k s A v k x Hv Hs Hx) as (k' & K1 & K2 & Ek). rewrite Ek in E.
  rewrite (scaled_dist s A v y x r Hv Hs Hx Hr) in E.
  apply Qmult_inj_l in E; [|lra]. apply Hn in E.
  rewrite Hr. rewrite !Qabs_Qmult. rewrite (Qabs_pos v) by lra.
  assert (Qabs s == 1) as -> by (destruct Hs as [-> | ->]; reflexivity).
  rewrite Qmult_1_l. apply Qmult_le_compat_r; [|lra].
  change (Qabs (inject_Z k)) with (inject_Z (Z.abs k)). change (Qabs (inject_Z y)) with (inject_Z (Z.abs y)).
  apply inj_le. destruct Hs as [Hs|Hs]; [specialize (K1 Hs) | specialize (K2 Hs)]; subst; lia.
Qed.

Lemma tie_even_scaled : forall s A v (y : Z) x r, 0 < v -> (s == 1 \/ s == -1) -> x == s * (A * v) ->
  r == s * (inject_Z y * v) -> Z.even y = true -> tie_even v x r.
Proof.
  intros s A v y x r Hv Hs Hx Hr Hy k k' Hk _ _.
  rewrite Hr in Hk. assert (E : s * inject_Z y == inject_Z k).
  { apply (Qmult_inj_r _ _ v); [lra|]. rewrite <- Hk. ring. }
  destruct Hs as [Hs|Hs]; rewrite Hs in E.
  - rewrite Qmult_1_l in E. apply (proj1 (inject_Z_injective _ _)) in E. now subst.
  - assert (E' : inject_Z (- y) == inject_Z k) by (rewrite inject_Z_opp; lra).
    apply (proj1 (inject_Z_injective _ _)) in E'. rewrite <- E'. now rewrite Z.even_opp.
Qed.

Lemma math_near : forall A, near_int A (if Qle_bool (1 # 2) (A - inject_Z (Qfloor A)) then Qfloor A + 1 else Qfloor A).
Proof.
  intros A k. pose proof (floor_bounds A). destruct (inj_split k (Qfloor A)) as [L|L];
  destruct (qleP (1 # 2) (A - inject_Z (Qfloor A))) as [[-> H1]|[-> H1]];
  rewrite ?inject_Z_plus; change (inject_Z 1) with 1; qabs_all; lra.
Qed.
Lemma math_away : forall A k, 0 <= A ->
  let y := (if Qle_bool (1 # 2) (A - inject_Z (Qfloor A)) then Qfloor A + 1 else Qfloor A)%Z in
  Qabs (inject_Z y - A) == Qabs (inject_Z k - A) -> (Z.abs k <= y)%Z.
Proof.
  intros A k HA. cbv zeta. intro E. pose proof (floor_bounds A) as B. pose proof (floor_nonneg A HA) as P.
  assert (P' : 0 <= inject_Z (Qfloor A)) by (change 0 with (inject_Z 0); now apply inj_le).
  assert (G : forall y : Z, inject_Z k <= inject_Z y -> - inject_Z k <= inject_Z y -> (Z.abs k <= y)%Z).
  { intros y G1 G2. rewrite <- inject_Z_opp in G2. rewrite <- Zle_Qle in G1, G2. lia. }
  apply G; clear G; revert E;
  destruct (inj_split k (Qfloor A)) as [L|L];
  destruct (qleP (1 # 2) (A - inject_Z (Qfloor A))) as [[-> H1]|[-> H1]];
  rewrite ?inject_Z_plus; change (inject_Z 1) with 1; intros; qabs_all; lra.
Qed.

(** * round *)
Definition scaled (x : Q) (dp : Z) : Q := Qabs x * ten_to dp.

Lemma scaled_eq : forall x dp, dp <> 7%Z -> qabs (x * pow10 dp) == scaled x dp.
Proof.
  intros. rewrite qabs_eq, Qabs_Qmult, (pow10_ok dp) by auto. unfold scaled.
  rewrite (Qabs_pos (ten_to dp)); [reflexivity|]. pose proof (ten_pos dp); lra.
Qed.
Lemma scaled_pos : forall x dp, 0 <= scaled x dp.
Proof.
  intros. unfold scaled. apply Qmult_le_0_compat. apply Qabs_nonneg. pose proof (ten_pos dp); lra.
Qed.
Lemma unscale : forall x dp, x == sg x * (scaled x dp * ten_to (- dp)).
Proof.
  intros. unfold scaled. rewrite <- Qmult_assoc, (Qmult_comm (ten_to dp)), ten_opp, Qmult_1_r. now rewrite sg_abs.
Qed.
Lemma sg_pm : forall x, sg x == 1 \/ sg x == -1.
Proof. intros. unfold sg. destruct (qlt x 0); [right|left]; reflexivity. Qed.

Global Instance Qle_bool_m : Proper (Qeq ==> Qeq ==> eq) Qle_bool.
Proof.
  intros a b E c d F. apply Bool.eq_iff_eq_true. rewrite !Qle_bool_iff. now rewrite E, F.
Qed.
Global Instance Qeq_bool_m : Proper (Qeq ==> Qeq ==> eq) Qeq_bool.
Proof.
  intros a b E c d F. apply Bool.eq_iff_eq_true. rewrite !Qeq_bool_iff. now rewrite E, F.
Qed.
Global Instance qlt_m : Proper (Qeq ==> Qeq ==> eq) qlt.
Proof. intros a b E c d F. unfold qlt. now rewrite E, F. Qed.

Lemma round_result : forall x dp (y : Z) r, dp <> (-7)%Z -> (0 <= y)%Z ->
  r == copySign (inject_Z y * pow10 (- dp)) x -> r == sg x * (inject_Z y * ten_to (- dp)).
Proof.
  intros x dp y r Hd Hy ->. rewrite copySign_eq, (pow10_ok (- dp)) by lia.
  rewrite (Qabs_pos (_ * _)). reflexivity.
  apply Qmult_le_0_compat. change 0 with (inject_Z 0). now apply inj_le. pose proof (ten_pos (- dp)); lra.
Qed.

Lemma copySign_comp : forall a b s, a == b -> copySign a s == copySign b s.
Proof. intros. rewrite !copySign_eq. now rewrite H. Qed.

Lemma round_math_form : forall x dp, dp <> 7%Z -> dp <> (-7)%Z ->
  exists r, round x dp MATH = Ok r /\
    r == sg x * (inject_Z (if Qle_bool (1 # 2) (scaled x dp - inject_Z (Qfloor (scaled x dp)))
                           then Qfloor (scaled x dp) + 1 else Qfloor (scaled x dp)) * ten_to (- dp)).
Proof.
  intros x dp H7 Hm. unfold round. change (Z.testbit MATH 0) with true. change (Z.testbit MATH 2) with false.
  cbn [andb bind]. eexists. split. reflexivity.
  pose proof (scaled_eq x dp H7) as E. rewrite !(Qfloor_comp _ _ E). rewrite E.
  pose proof (floor_nonneg _ (scaled_pos x dp)).
  apply round_result; auto. { destruct (Qle_bool _ _); lia. }
  apply copySign_comp. destruct (Qle_bool _ _); [|reflexivity]. now rewrite inject_Z_plus.
Qed.

Lemma round_math_ok : forall x dp, dp <> 7%Z -> dp <> (-7)%Z ->
  exists r, round x dp MATH = Ok r /\ nearest_multiple (ten_to (- dp)) x r /\ tie_away (ten_to (- dp)) x r.
Proof.
  intros x dp H7 Hm. destruct (round_math_form x dp H7 Hm) as (r & E & R). exists r. split; auto.
  pose proof (floor_nonneg _ (scaled_pos x dp)).
  split.
  - eapply nearest_scaled. apply ten_pos. apply sg_pm. apply unscale. exact R. apply math_near.
  - eapply tie_away_scaled. apply ten_pos. apply (sg_pm x). apply unscale. exact R.
    destruct (Qle_bool _ _); lia.
    intros k. apply math_away. apply scaled_pos.
Qed.

Lemma towards_scaled : forall A v (y : Z) x r, 0 < v -> x == sg x * (A * v) ->
  r == sg x * (inject_Z y * v) -> 0 <= A -> (0 <= y)%Z -> inject_Z y <= A -> A < inject_Z y + 1 -> towards_zero v x r.
Proof.
  intros A v y x r Hv Hx Hr HA Hy L U.
  assert (Y0 : 0 <= inject_Z y) by (change 0 with (inject_Z 0); now apply inj_le).
  assert (S1 : Qabs (sg x) == 1) by (destruct (sg_pm x) as [E|E]; rewrite E; reflexivity).
  assert (S2 : sg x * sg x == 1) by (destruct (sg_pm x) as [E|E]; rewrite E; reflexivity).
  assert (Xa : Qabs x == A * v).
  { rewrite Hx. rewrite Qabs_Qmult, S1, Qmult_1_l. apply Qabs_pos. nra. }
  assert (Ra : Qabs r == inject_Z y * v).
  { rewrite Hr. rewrite Qabs_Qmult, S1, Qmult_1_l. apply Qabs_pos. nra. }
  split; [|split; [|split]].
  - eapply multiple_scaled. apply (sg_pm x). exact Hr.
  - rewrite Xa, Ra. nra.
  - rewrite Xa, Ra. nra.
  - rewrite Hr. rewrite Hx at 2.
    setoid_replace (sg x * (inject_Z y * v) * (sg x * (A * v))) with ((sg x * sg x) * ((inject_Z y * v) * (A * v))) by ring.
    rewrite S2, Qmult_1_l. apply Qmult_le_0_compat; nra.
Qed.

Lemma round_trunc_ok : forall x dp, dp <> 7%Z -> dp <> (-7)%Z ->
  exists r, round x dp TRUNC = Ok r /\ towards_zero (ten_to (- dp)) x r.
Proof.
  intros x dp H7 Hm. unfold round. change (Z.testbit TRUNC 0) with false. change (Z.testbit TRUNC 2) with false.
  cbn [andb bind]. eexists. split. reflexivity.
  pose proof (scaled_eq x dp H7) as E. rewrite !(Qfloor_comp _ _ E).
  pose proof (floor_nonneg _ (scaled_pos x dp)). pose proof (floor_bounds (scaled x dp)).
  apply (towards_scaled (scaled x dp) (ten_to (- dp)) (Qfloor (scaled x dp))); try tauto.
  apply ten_pos. apply (unscale x dp). apply round_result; auto. reflexivity. apply scaled_pos.
Qed.

Lemma round_up_is_math : forall x dp, round x dp UP = round x dp MATH.
Proof. reflexivity. Qed.

Lemma round_even_ok : forall x dp, dp <> 7%Z -> dp <> (-7)%Z -> Qabs x < ten_to (- dp) * inject_Z (2 ^ 64) ->
  exists r, round x dp HALF_EVEN = Ok r /\
    (tie (ten_to (- dp)) x -> nearest_multiple (ten_to (- dp)) x r /\ tie_even (ten_to (- dp)) x r) /\
    (~ tie (ten_to (- dp)) x -> towards_zero (ten_to (- dp)) x r).
Proof.
  intros x dp H7 Hm HB. unfold round. change (Z.testbit HALF_EVEN 0) with false.
  change (Z.testbit HALF_EVEN 2) with true. change (Z.testbit HALF_EVEN 4) with true. cbn [andb].
  pose proof (scaled_eq x dp H7) as E. rewrite !(Qfloor_comp _ _ E).
  assert (EQ : Qeq_bool (qabs (x * pow10 dp) - inject_Z (Qfloor (scaled x dp))) (1 # 2) =
               Qeq_bool (scaled x dp - inject_Z (Qfloor (scaled x dp))) (1 # 2)) by (now rewrite E).
  rewrite EQ. clear EQ.
  pose proof (scaled_pos x dp) as P. pose proof (floor_nonneg _ P) as FP. pose proof (floor_bounds (scaled x dp)) as FB.
  assert (SB : scaled x dp < inject_Z (2 ^ 64)).
  { unfold scaled. pose proof (ten_pos dp). pose proof (ten_opp dp) as O.
    setoid_replace (inject_Z (2 ^ 64)) with (ten_to (- dp) * inject_Z (2 ^ 64) * ten_to dp).
    apply Qmult_lt_r; auto.
    setoid_replace (ten_to (- dp) * inject_Z (2 ^ 64) * ten_to dp) with ((ten_to (- dp) * ten_to dp) * inject_Z (2 ^ 64)) by ring.
    rewrite O. ring. }
  destruct (qleP (inject_Z (2 ^ 64)) (inject_Z (Qfloor (scaled x dp)))) as [[-> H1]|[-> H1]]; [lra|].
  set (A := scaled x dp) in *. rewrite Qfloor_Z. set (F := Qfloor A) in *.
  assert (T : tie (ten_to (- dp)) x <-> A - inject_Z F == 1 # 2).
  { pose proof (ten_pos (- dp)) as TP. pose proof (unscale x dp) as U. fold A in U.
    split.
    - intros [k Hk]. rewrite Hk in U at 1.
      destruct (sg_pm x) as [Sg|Sg]; rewrite Sg in U.
      + assert (A == inject_Z k + (1 # 2)).
        { apply (Qmult_inj_r _ _ (ten_to (- dp))); [lra|]. rewrite U. ring. }
        assert (F = k) by (apply floor_unique; lra). subst F. rewrite H0. lra.
      + assert (A == inject_Z (- k - 1) + (1 # 2)).
        { apply (Qmult_inj_r _ _ (ten_to (- dp))); [lra|]. unfold Z.sub. rewrite inject_Z_plus, inject_Z_opp.
          change (inject_Z (- (1))) with (- (1)). lra. }
        assert (F = (- k - 1)%Z) by (apply floor_unique; lra). rewrite H0. lra.
    - intro D. assert (A == inject_Z F + (1 # 2)) by lra. rewrite H in U.
      destruct (sg_pm x) as [Sg|Sg]; rewrite Sg in U.
      + exists F. rewrite U at 1. ring.
      + exists (- F - 1)%Z. unfold Z.sub. rewrite inject_Z_plus, inject_Z_opp.
        change (inject_Z (- (1))) with (- (1)). rewrite U at 1. ring. }
  cbn [bind]. destruct (qeqP (A - inject_Z F) (1 # 2)) as [[-> D]|[-> D]].
  - eexists. split. reflexivity. split; [intros _ | intro N; exfalso; apply N; apply T; exact D].
    set (y := if Z.odd F then (F + 1)%Z else F).
    assert (RR : copySign ((if Z.odd F then inject_Z F + 1 else inject_Z F) * pow10 (- dp)) x ==
                 sg x * (inject_Z y * ten_to (- dp))).
    { apply round_result; auto. unfold y; destruct (Z.odd F); lia.
      apply copySign_comp. unfold y. destruct (Z.odd F); [|reflexivity]. now rewrite inject_Z_plus. }
    split.
    + eapply nearest_scaled. apply ten_pos. apply (sg_pm x). apply (unscale x dp). exact RR.
      fold A. intro k. unfold y. destruct (inj_split k F) as [L|L]; destruct (Z.odd F);
      rewrite ?inject_Z_plus; change (inject_Z 1) with 1; qabs_all; lra.
    + eapply tie_even_scaled. apply ten_pos. apply (sg_pm x). apply (unscale x dp). exact RR.
      unfold y. destruct (Z.odd F) eqn:O.
      * rewrite Z.even_add. rewrite <- Z.negb_odd, O. reflexivity.
      * rewrite <- Z.negb_odd, O. reflexivity.
  - eexists. split. reflexivity. split; [intro N; exfalso; apply D; apply T; exact N | intros _].
    apply (towards_scaled A (ten_to (- dp)) F); try tauto.
    apply ten_pos. apply (unscale x dp). apply round_result; auto. reflexivity.
Qed.

(** * roundTo, roundUpTo *)
Lemma div_pos : forall x v, 0 <= x -> 0 < v -> 0 <= x / v.
Proof. intros. apply Qle_shift_div_l; lra. Qed.
Lemma div_mul : forall x v, 0 < v -> x / v * v == x.
Proof. intros. field. lra. Qed.
Lemma fmod_pos : forall x v, 0 <= x -> 0 < v ->
  fmod x v == x - v * inject_Z (Qfloor (x / v)) /\ 0 <= fmod x v < v.
Proof.
  intros x v Hx Hv. unfold fmod, qtrunc. pose proof (div_pos x v Hx Hv).
  destruct (qltP (x / v) 0) as [[-> H1]|[-> H1]]; [lra|].
  pose proof (floor_bounds (x / v)) as [L U]. pose proof (div_mul x v Hv) as M.
  split. reflexivity. split; nra.
Qed.

Lemma fmod_comp : forall a b v, a == b -> fmod a v == fmod b v.
Proof.
  intros a b v E. assert (ED : a / v == b / v) by now rewrite E.
  assert (ED' : - (a / v) == - (b / v)) by now rewrite ED.
  assert (T : qtrunc (a / v) = qtrunc (b / v)).
  { unfold qtrunc. rewrite (Qfloor_comp _ _ ED), (Qfloor_comp _ _ ED'). now rewrite (qlt_m _ _ ED 0 0 (Qeq_refl 0)). }
  unfold fmod. rewrite T. apply Qplus_comp; [exact E|reflexivity].
Qed.

Lemma roundTo_ok : forall x v, 0 < v ->
  0 <= x \/ fmod (Qabs x) v == 0 \/ v / (2 # 1) <= fmod (Qabs x) v ->
  nearest_multiple v x (roundTo x v) /\ tie_away v x (roundTo x v).
Proof.
  intros x v Hv Hx. unfold roundTo.
  destruct (qeqP x 0) as [[-> E]|[-> E]].
  - split.
    + split. exists 0%Z. ring. intro k. rewrite E. change (Qabs (0 - 0)) with 0. apply Qabs_nonneg.
    + intros k. rewrite E. change (Qabs (0 - 0)) with 0. intro K. rewrite <- (Qabs_opp (_ * _ - _)) in K.
      setoid_replace (- (inject_Z k * v - 0)) with (- (inject_Z k * v)) in K by ring.
      rewrite Qabs_opp in K. rewrite <- K. apply Qle_refl.
  - assert (A0 : 0 <= Qabs x) by apply Qabs_nonneg.
    destruct (fmod_pos (Qabs x) v A0 Hv) as [F [L U]].
    assert (FE : fmod (qabs x) v == fmod (Qabs x) v).
    { apply fmod_comp. apply qabs_eq. }
    set (A := Qabs x / v) in *. set (FF := Qfloor A) in *.
    assert (AP : 0 <= A) by (apply div_pos; auto).
    pose proof (floor_nonneg A AP) as FP. fold FF in FP.
    assert (F0 : 0 <= inject_Z FF) by (change 0 with (inject_Z 0); now apply inj_le).
    assert (UX : x == sg x * (A * v)) by (unfold A; rewrite (div_mul _ _ Hv); now rewrite sg_abs).
    assert (AV : Qabs x == A * v) by (unfold A; now rewrite (div_mul _ _ Hv)).
    set (y := (if Qle_bool (1 # 2) (A - inject_Z FF) then FF + 1 else FF)%Z).
    assert (HF : v / (2 # 1) == v * (1 # 2)) by field.
    assert (R : (if Qle_bool (v / (2 # 1)) (fmod (qabs x) v)
                 then copySign (qabs x + v - fmod (qabs x) v) x
                 else copySign (x - fmod (qabs x) v) x) == sg x * (inject_Z y * v)).
    { assert (D : fmod (Qabs x) v == (A - inject_Z FF) * v) by (rewrite F, AV; ring).
      rewrite FE. unfold y.
      destruct (qleP (v / (2 # 1)) (fmod (Qabs x) v)) as [[-> H1]|[-> H1]];
      destruct (qleP (1 # 2) (A - inject_Z FF)) as [[-> H2]|[-> H2]]; try (exfalso; nra).
      - rewrite copySign_eq.
        assert (G : qabs x + v - fmod (qabs x) v == inject_Z (FF + 1) * v).
        { rewrite FE, qabs_eq, inject_Z_plus. change (inject_Z 1) with 1. rewrite D, AV. ring. }
        rewrite G. rewrite Qabs_pos; [reflexivity|]. rewrite inject_Z_plus. change (inject_Z 1) with 1. nra.
      - rewrite copySign_eq, FE. apply Qmult_comp; [reflexivity|].
        destruct Hx as [Hx|[Hx|Hx]].
        + assert (G : x - fmod (Qabs x) v == inject_Z FF * v).
          { rewrite (Qabs_pos x) in AV by auto. rewrite D, AV. ring. }
          rewrite G. apply Qabs_pos. nra.
        + setoid_replace (x - fmod (Qabs x) v) with x by (rewrite Hx; ring).
          rewrite AV. rewrite Hx in D. nra.
        + lra. }
    split.
    + eapply nearest_scaled. exact Hv. apply (sg_pm x). exact UX. exact R. apply math_near.
    + eapply tie_away_scaled. exact Hv. apply (sg_pm x). exact UX. exact R.
      unfold y; destruct (Qle_bool _ _); lia. intro k. apply math_away. exact AP.
Qed.

Lemma roundUpTo_ok : forall x v, 0 <= x -> 0 < v -> ceil_multiple v x (roundUpTo x v).
Proof.
  intros x v Hx Hv. unfold roundUpTo. destruct (fmod_pos x v Hx Hv) as [F [L U]].
  destruct (qeqP (fmod x v) 0) as [[-> E]|[-> E]].
  - split; [|split]; try lra. 2: auto. exists (Qfloor (x / v)). rewrite E in F. rewrite (Qmult_comm _ v). lra.
  - split; [|split]; try lra.
    + exists (Qfloor (x / v) + 1)%Z. rewrite inject_Z_plus. change (inject_Z 1) with 1. rewrite F. ring.
    + intros k Hk. assert (RP : 0 < fmod x v) by (destruct (Qlt_le_dec 0 (fmod x v)); auto; exfalso; apply E; lra).
      rewrite F in RP. rewrite F. clear F L U E.
      destruct (inj_split k (Qfloor (x / v))) as [J|J]; nra.
Qed.

(** * roundSigFig *)
Lemma ten_mono : forall a b, (a <= b)%Z -> ten_to a <= ten_to b.
Proof.
  intros. replace b with (a + (b - a))%Z by lia. rewrite ten_plus. pose proof (ten_pos a).
  assert (1 <= ten_to (b - a)).
  { unfold ten_to. change (10 # 1) with (inject_Z 10). rewrite <- Zpower_Qpower by lia.
    change 1 with (inject_Z 1). apply inj_le. pose proof (Z.pow_pos_nonneg 10 (b - a)). lia. }
  nra.
Qed.
Lemma ten_step : forall a, ten_to (a + 1) == ten_to a * (10 # 1).
Proof. intros. rewrite ten_plus. reflexivity. Qed.
Lemma ten_smono : forall a b, (a < b)%Z -> ten_to a < ten_to b.
Proof.
  intros. pose proof (ten_mono (a + 1) b). rewrite ten_step in H0. pose proof (ten_pos a).
  assert (ten_to a * (10 # 1) <= ten_to b) by (apply H0; lia). lra.
Qed.
Lemma ten_reflect : forall a b, ten_to a < ten_to b -> (a < b)%Z.
Proof.
  intros. destruct (Z_lt_le_dec a b); auto. pose proof (ten_mono b a l). lra.
Qed.
Lemma ten_above : forall x, exists m, x <= ten_to (Z.of_nat m).
Proof.
  intro x. exists (Z.to_nat (Qceiling x)).
  destruct (Z_le_gt_dec (Qceiling x) 0).
  - replace (Z.to_nat (Qceiling x)) with 0%nat by lia. pose proof (Qle_ceiling x).
    assert (inject_Z (Qceiling x) <= inject_Z 0) by (apply inj_le; lia). change (ten_to (Z.of_nat 0)) with 1.
    change (inject_Z 0) with 0 in H0. lra.
  - rewrite Z2Nat.id by lia. unfold ten_to. change (10 # 1) with (inject_Z 10). rewrite <- Zpower_Qpower by lia.
    eapply Qle_trans. apply Qle_ceiling. apply inj_le. pose proof (Z.pow_gt_lin_r 10 (Qceiling x)). lia.
Qed.

Lemma scale_down_ok : forall m tmp n, 0 < tmp -> tmp <= ten_to (Z.of_nat m + 1) ->
  exists tmp' n', (forall fuel, (m < fuel)%nat -> scale_down fuel tmp n = Some (tmp', n')) /\
    tmp' * ten_to n' == tmp * ten_to n /\ 0 < tmp' /\ tmp' <= (10 # 1) /\
    ((n' = n /\ tmp' == tmp) \/ 1 < tmp').
Proof.
  induction m; intros tmp n P H.
  - exists tmp, n. change (ten_to (Z.of_nat 0 + 1)) with (10 # 1) in H. split.
    + intros [|fuel] F; [lia|]. cbn [scale_down]. destruct (qltP (10 # 1) tmp) as [[-> K]|[-> K]]; [lra|reflexivity].
    + repeat split; auto; try reflexivity. left. split; reflexivity.
  - destruct (qltP (10 # 1) tmp) as [[E K]|[E K]].
    + replace (Z.of_nat (S m) + 1)%Z with ((Z.of_nat m + 1) + 1)%Z in H by lia. rewrite ten_step in H.
      assert (D : tmp / (10 # 1) == tmp * (1 # 10)) by field.
      destruct (IHm (tmp / (10 # 1)) (n + 1)%Z) as (t & n' & F & V & P' & B & C).
      rewrite D; lra. rewrite D; lra.
      exists t, n'. split; [|split; [|split; [|split]]]; auto.
      * intros [|fuel] G; [lia|]. cbn [scale_down]. rewrite E. apply F. lia.
      * rewrite V, D, ten_step. ring.
      * right. destruct C as [[_ C]|C]; auto. rewrite C, D. lra.
    + exists tmp, n. split; [|split; [|split; [|split]]]; auto; try reflexivity.
      * intros [|fuel] G; [lia|]. cbn [scale_down]. now rewrite E.
      * left. split; reflexivity.
Qed.
Lemma scale_up_ok : forall m tmp n, 0 < tmp -> ten_to (- Z.of_nat m) <= tmp -> tmp <= (10 # 1) ->
  exists tmp' n', (forall fuel, (m < fuel)%nat -> scale_up fuel tmp n = Some (tmp', n')) /\
    tmp' * ten_to n' == tmp * ten_to n /\ 1 <= tmp' /\ tmp' <= (10 # 1).
Proof.
  induction m; intros tmp n P H B.
  - exists tmp, n. change (ten_to (- Z.of_nat 0)) with 1 in H. split; [|repeat split; auto; reflexivity].
    intros [|fuel] F; [lia|]. cbn [scale_up]. destruct (qltP tmp 1) as [[-> K]|[-> K]]; [lra|reflexivity].
  - destruct (qltP tmp 1) as [[E K]|[E K]].
    + replace (- Z.of_nat m)%Z with ((- Z.of_nat (S m)) + 1)%Z in IHm by lia.
      destruct (IHm (tmp * (10 # 1)) (n - 1)%Z) as (t & n' & F & V & L & U); try lra.
      rewrite ten_step. lra.
      exists t, n'. split; [|repeat split; auto].
      * intros [|fuel] G; [lia|]. cbn [scale_up]. rewrite E. apply F. lia.
      * rewrite V. replace n with (n - 1 + 1)%Z at 2 by lia. rewrite ten_step. ring.
    + exists tmp, n. split; [|repeat split; auto; reflexivity].
      intros [|fuel] G; [lia|]. cbn [scale_up]. now rewrite E.
Qed.

Lemma scaling_ok : forall x, 0 < x ->
  exists N t n t1 n1, (forall fuel, (N <= fuel)%nat -> scale_down fuel x 0 = Some (t1, n1) /\
                                     scale_up fuel t1 n1 = Some (t, n)) /\
    t * ten_to n == x /\ 1 <= t /\ t <= (10 # 1).
Proof.
  intros x P. destruct (ten_above x) as [m M].
  destruct (scale_down_ok m x 0 P) as (t1 & n1 & F & V & P1 & B & _).
  { pose proof (ten_mono (Z.of_nat m) (Z.of_nat m + 1) ltac:(lia)). lra. }
  destruct (ten_above (/ t1)) as [m' M'].
  destruct (scale_up_ok m' t1 n1 P1) as (t & n & F' & V' & L & U); auto.
  { pose proof (ten_opp (Z.of_nat m')). pose proof (ten_pos (Z.of_nat m')) as T. pose proof (ten_pos (- Z.of_nat m')) as T'.
    assert (I : / t1 * t1 == 1) by (field; lra).
    assert (1 <= t1 * ten_to (Z.of_nat m')) by nra.
    apply Qmult_lt_0_le_reg_r with (ten_to (Z.of_nat m')); auto. rewrite H. lra. }
  exists (S (m + m')), t, n, t1, n1. split; [|repeat split; auto].
  - intros fuel G. split. apply F. lia. apply F'. lia.
  - rewrite V', V. change (ten_to 0) with 1. ring.
Qed.

Lemma leading_exists : forall x, ~ x == 0 -> exists e, leading_digit x e.
Proof.
  intros x H. assert (P : 0 < Qabs x).
  { apply (Qabs_case x); intros; destruct (Qeq_dec x 0); try tauto; lra. }
  destruct (scaling_ok (Qabs x) P) as (N & t & n & t1 & n1 & _ & V & L & U).
  pose proof (ten_pos n). destruct (Qlt_le_dec t (10 # 1)).
  - exists n. unfold leading_digit. rewrite ten_step. rewrite <- V. split; nra.
  - exists (n + 1)%Z. unfold leading_digit. rewrite !ten_step. rewrite <- V. split; nra.
Qed.

Lemma nearest_map : forall s c v x r, 0 < c -> (s == 1 \/ s == -1) -> nearest_multiple v x r ->
  nearest_multiple (v * c) (s * (x * c)) (s * (r * c)).
Proof.
  intros s c v x r Hc Hs [[k K] N]. split.
  - destruct Hs as [Hs|Hs].
    + exists k. rewrite Hs, K. ring.
    + exists (- k)%Z. rewrite Hs, K, inject_Z_opp. ring.
  - intro j. setoid_replace (s * (r * c) - s * (x * c)) with (s * (c * (r - x))) by ring.
    rewrite !Qabs_Qmult. rewrite (Qabs_pos c) by lra.
    assert (S1 : Qabs s == 1) by (destruct Hs as [-> | ->]; reflexivity). rewrite S1, Qmult_1_l.
    destruct Hs as [Hs|Hs].
    + setoid_replace (inject_Z j * (v * c) - s * (x * c)) with (c * (inject_Z j * v - x)) by (rewrite Hs; ring).
      rewrite Qabs_Qmult, (Qabs_pos c) by lra. apply Qmult_le_l; auto.
    + setoid_replace (inject_Z j * (v * c) - s * (x * c)) with (- (c * (inject_Z (- j) * v - x)))
        by (rewrite Hs, inject_Z_opp; ring).
      rewrite Qabs_opp, Qabs_Qmult, (Qabs_pos c) by lra. apply Qmult_le_l; auto.
Qed.
Lemma tie_away_map : forall s c v x r, 0 < c -> (s == 1 \/ s == -1) -> tie_away v x r ->
  tie_away (v * c) (s * (x * c)) (s * (r * c)).
Proof.
  intros s c v x r Hc Hs T j.
  setoid_replace (s * (r * c) - s * (x * c)) with (s * (c * (r - x))) by ring.
  rewrite !Qabs_Qmult. rewrite (Qabs_pos c) by lra.
  assert (S1 : Qabs s == 1) by (destruct Hs as [-> | ->]; reflexivity). rewrite S1, !Qmult_1_l.
  intro E. rewrite (Qmult_assoc (Qabs (inject_Z j))). apply Qmult_le_compat_r; [|lra]. rewrite <- Qabs_Qmult.
  destruct Hs as [Hs|Hs].
  - setoid_replace (inject_Z j * (v * c) - s * (x * c)) with (c * (inject_Z j * v - x)) in E by (rewrite Hs; ring).
    rewrite Qabs_Qmult, (Qabs_pos c) in E by lra. apply Qmult_inj_l in E; [|lra]. now apply T.
  - setoid_replace (inject_Z j * (v * c) - s * (x * c)) with (- (c * (inject_Z (- j) * v - x))) in E
      by (rewrite Hs, inject_Z_opp; ring).
    rewrite Qabs_opp, Qabs_Qmult, (Qabs_pos c) in E by lra. apply Qmult_inj_l in E; [|lra]. apply T in E.
    rewrite inject_Z_opp in E. setoid_replace (- inject_Z j * v) with (- (inject_Z j * v)) in E by ring.
    now rewrite Qabs_opp in E.
Qed.
Lemma nearest_nonneg : forall v x r, 0 < x -> nearest_multiple v x r -> 0 <= r.
Proof.
  intros v x r P [_ N]. specialize (N 0%Z). setoid_replace (inject_Z 0 * v - x) with (- x) in N by (change (inject_Z 0) with 0; ring).
  rewrite Qabs_opp, (Qabs_pos x) in N by lra. revert N. apply (Qabs_case (r - x)); intros; lra.
Qed.

Global Instance nearest_m : Proper (Qeq ==> Qeq ==> Qeq ==> iff) nearest_multiple.
Proof.
  assert (G : forall a b c d e f, a == b -> c == d -> e == f -> nearest_multiple a c e -> nearest_multiple b d f).
  { intros a b c d e f E1 E2 E3 [[k K] N]. split. exists k. now rewrite <- E1, <- E3. intro j. rewrite <- E1, <- E2, <- E3. apply N. }
  intros a b E1 c d E2 e f E3. split; apply G; auto; now symmetry.
Qed.
Global Instance tie_away_m : Proper (Qeq ==> Qeq ==> Qeq ==> iff) tie_away.
Proof.
  assert (G : forall a b c d e f, a == b -> c == d -> e == f -> tie_away a c e -> tie_away b d f).
  { intros a b c d e f E1 E2 E3 T j. rewrite <- E1, <- E2, <- E3. apply T. }
  intros a b E1 c d E2 e f E3. split; apply G; auto; now symmetry.
Qed.

Lemma nearest_self : forall v x, multiple_of v x -> nearest_multiple v x x /\ tie_away v x x.
Proof.
  intros v x M. split.
  - split; auto. intro k. setoid_replace (x - x) with 0 by ring. apply Qabs_nonneg.
  - intros k E. setoid_replace (x - x) with 0 in E by ring. change (Qabs 0) with 0 in E.
    assert (inject_Z k * v - x == 0).
    { revert E. apply (Qabs_case (inject_Z k * v - x)); intros; lra. }
    setoid_replace (inject_Z k * v) with x by lra. apply Qle_refl.
Qed.

Lemma ten_Z : forall k, (0 <= k)%Z -> ten_to k == inject_Z (10 ^ k).
Proof. intros. unfold ten_to. change (10 # 1) with (inject_Z 10). now rewrite <- Zpower_Qpower. Qed.

Lemma roundSigFig_ok : forall asserts x figs e, leading_digit x e -> (0 < figs)%Z -> figs <> 8%Z -> e <> 7%Z ->
  ~ Qabs x == ten_to 8 ->
  exists N r, (forall fuel, (N <= fuel)%nat -> roundSigFig asserts fuel x figs = Some (Ok r)) /\
    nearest_multiple (ten_to (e - figs + 1)) x r /\ tie_away (ten_to (e - figs + 1)) x r.
Proof.
  intros asserts x figs e [L U] Hf H8 He H10. pose proof (ten_pos e) as TE.
  assert (XZ : ~ x == 0). { intro Z. rewrite Z in L. change (Qabs 0) with 0 in L. lra. }
  assert (QP : 0 < qabs x) by (rewrite qabs_eq; lra).
  destruct (scaling_ok (qabs x) QP) as (N & t & n & t1 & n1 & F & V & T1 & T10).
  rewrite qabs_eq in V. pose proof (ten_pos n) as TN.
  assert (C : (e = n \/ (e = n + 1 /\ t == 10 # 1))%Z).
  { rewrite ten_step in U.
    assert (n < e + 1)%Z by (apply ten_reflect; rewrite ten_step; nra).
    assert (e < n + 1 + 1)%Z by (apply ten_reflect; rewrite !ten_step; nra).
    destruct (Z.eq_dec e n); [now left|]. right. assert (e = (n + 1)%Z) by lia. split; auto.
    subst e. rewrite ten_step in L. nra. }
  assert (Hn : n <> 7%Z).
  { intro. subst n. destruct C as [C|[C C']]. lia. apply H10. rewrite <- V, C'. change (ten_to 8) with (ten_to (7 + 1)).
    rewrite ten_step. ring. }
  destruct (round_math_ok t (figs - 1)) as (r & R & NR & TR); try lia.
  exists N, (copySign (r * pow10 n) x). split.
  - intros fuel G. unfold roundSigFig. destruct (F fuel G) as [F1 F2].
    replace (asserts && (figs <=? 0)%Z) with false by (destruct asserts; lia).
    destruct (qeqP x 0) as [[-> K]|[-> K]]; [tauto|]. rewrite F1, F2, R. reflexivity.
  - assert (TP : 0 < t) by lra. pose proof (nearest_nonneg _ _ _ TP NR) as R0.
    assert (RE : copySign (r * pow10 n) x == sg x * (r * ten_to n)).
    { rewrite copySign_eq, (pow10_ok n) by auto. rewrite Qabs_pos. reflexivity. nra. }
    assert (XE : x == sg x * (t * ten_to n)) by (rewrite V; now rewrite sg_abs).
    destruct C as [C|[C C']].
    + subst e. assert (VE : ten_to (n - figs + 1) == ten_to (- (figs - 1)) * ten_to n).
      { rewrite <- ten_plus. replace (- (figs - 1) + n)%Z with (n - figs + 1)%Z by lia. reflexivity. }
      rewrite VE, RE. split.
      * rewrite XE at 1. apply nearest_map; auto. apply sg_pm.
      * rewrite XE at 1. apply tie_away_map; auto. apply sg_pm.
    + assert (RT : r == t).
      { destruct NR as [_ NR]. specialize (NR (10 * 10 ^ (figs - 1))%Z).
        rewrite inject_Z_mult in NR. rewrite <- (ten_Z (figs - 1)) in NR by lia.
        setoid_replace (inject_Z 10 * ten_to (figs - 1) * ten_to (- (figs - 1)) - t)
          with (inject_Z 10 * (ten_to (- (figs - 1)) * ten_to (figs - 1)) - t) in NR by ring.
        rewrite ten_opp, C' in NR. change (Qabs (inject_Z 10 * 1 - (10 # 1))) with 0 in NR.
        rewrite C'. revert NR. apply (Qabs_case (r - (10 # 1))); intros; lra. }
      assert (RX : copySign (r * pow10 n) x == x) by (rewrite RE, RT; now rewrite <- XE).
      rewrite RX. apply nearest_self.
      assert (M : ten_to e == inject_Z (10 ^ (figs - 1)) * ten_to (e - figs + 1)).
      { rewrite <- ten_Z by lia. rewrite <- ten_plus. replace (figs - 1 + (e - figs + 1))%Z with e by lia. reflexivity. }
      assert (XE' : x == sg x * ten_to e) by (rewrite XE at 1; rewrite C, ten_step, C'; ring).
      destruct (sg_pm x) as [Sg|Sg]; rewrite Sg in XE'.
      * exists (10 ^ (figs - 1))%Z. rewrite XE', M. ring.
      * exists (- 10 ^ (figs - 1))%Z. rewrite XE', M, inject_Z_opp. ring.
Qed.

(** * min, max, clamp, lerp, smoothStep, map, isClose *)
Lemma vmin_ok : forall vs v, In (vmin v vs) (v :: vs) /\ forall w, In w (v :: vs) -> vmin v vs <= w.
Proof.
  induction vs as [|w ws IH]; intro v; cbn [vmin].
  - split. now left. intros u [<-|[]]. apply Qle_refl.
  - destruct (qltP v w) as [[-> H]|[-> H]].
    + destruct (IH v) as [I L]. split. destruct I; [left|right; right]; auto.
      intros u [E|[E|E]]; [apply L; now left | subst | apply L; now right].
      apply Qle_trans with v; [apply L; now left | lra].
    + destruct (IH w) as [I L]. split. right; auto.
      intros u [E|E]; [subst | now apply L].
      apply Qle_trans with w; [apply L; now left | lra].
Qed.
Lemma vmax_ok : forall vs v, In (vmax v vs) (v :: vs) /\ forall w, In w (v :: vs) -> w <= vmax v vs.
Proof.
  induction vs as [|w ws IH]; intro v; cbn [vmax].
  - split. now left. intros u [<-|[]]. apply Qle_refl.
  - destruct (qltP w v) as [[-> H]|[-> H]].
    + destruct (IH v) as [I L]. split. destruct I; [left|right; right]; auto.
      intros u [E|[E|E]]; [apply L; now left | subst | apply L; now right].
      apply Qle_trans with v; [lra | apply L; now left].
    + destruct (IH w) as [I L]. split. right; auto.
      intros u [E|E]; [subst | now apply L].
      apply Qle_trans with w; [lra | apply L; now left].
Qed.

Lemma clamp_ok : forall asserts x lo hi, lo < hi ->
  exists r, clamp asserts x lo hi = Ok r /\ lo <= r <= hi /\ (lo <= x <= hi -> r == x) /\ (x < lo -> r == lo) /\ (hi < x -> r == hi).
Proof.
  intros a x lo hi H. unfold clamp. destruct (qltP lo hi) as [[-> K]|[-> K]]; [|lra].
  rewrite Bool.andb_false_r.
  destruct (qltP x lo) as [[-> K1]|[-> K1]]; [|destruct (qltP hi x) as [[-> K2]|[-> K2]]];
    eexists; (split; [reflexivity|]); repeat split; intros; try reflexivity; lra.
Qed.

Lemma lerp_ok : forall t a b, lerp t a b == a + t * (b - a).
Proof.
  intros. unfold lerp. destruct (_ || _). ring.
  destruct (qeqP t 1) as [[-> E]|[-> E]]. rewrite E; ring.
  cbn [vmax vmin].
  destruct (qltP 1 t) as [[-> K1]|[-> K1]]; destruct (qltP a b) as [[-> K2]|[-> K2]]; cbn [Bool.eqb];
  match goal with |- context [qlt ?x ?y] => destruct (qltP x y) as [[-> K3]|[-> K3]] end; try reflexivity;
  assert (~ t - 1 == 0) by (intro; apply E; lra); nra.
Qed.
Lemma lerp_mixed_ok : forall t a b, lerp_mixed t a b == a + t * (b - a).
Proof. intros. unfold lerp_mixed. ring. Qed.

Definition poly (u : Q) : Q := u * u * u * (u * (u * (6 # 1) - (15 # 1)) + (10 # 1)).
Lemma poly_mono : forall x y, x <= y -> poly x <= poly y.
Proof.
  intros x y H.
  set (A := x * (1 - x)). set (B := (y - x) * (1 - (2 # 1) * x)). set (C := - ((y - x) * (y - x))).
  set (W := (A + B * (1 # 2) + C * (1 # 3)) * (A + B * (1 # 2) + C * (1 # 3)) + (B + C) * (B + C) * (1 # 12) + C * C * (1 # 180)).
  assert (E : poly y - poly x == (y - x) * ((30 # 1) * W)).
  { unfold poly, W, A, B, C. ring. }
  assert (SQ : forall z : Q, 0 <= z * z) by (intro z; nra).
  assert (0 <= W).
  { unfold W. pose proof (SQ (A + B * (1 # 2) + C * (1 # 3))). pose proof (SQ (B + C)). pose proof (SQ C). lra. }
  assert (0 <= (y - x) * ((30 # 1) * W)) by (apply Qmult_le_0_compat; lra). lra.
Qed.
Global Instance poly_m : Proper (Qeq ==> Qeq) poly.
Proof. intros a b E. unfold poly. now rewrite E. Qed.

Lemma smoothStep_ok : forall asserts lo hi, lo < hi ->
  exists f, (forall t, smoothStep asserts t lo hi = Ok (f t)) /\
    (forall t, t <= lo -> f t == 0) /\ (forall t, hi <= t -> f t == 1) /\
    (forall t, lo <= t <= hi ->
       let x := (t - lo) / (hi - lo) in f t == (6 # 1) * x ^ 5 - (15 # 1) * x ^ 4 + (10 # 1) * x ^ 3) /\
    (forall t1 t2, t1 <= t2 -> f t1 <= f t2).
Proof.
  intros a lo hi H.
  set (c := fun x : Q => if qlt x 0 then 0 else if qlt 1 x then 1 else x).
  assert (D : forall t, (t - lo) / (hi - lo) * (hi - lo) == t - lo) by (intro; field; lra).
  exists (fun t => poly (c ((t - lo) / (hi - lo)))).
  assert (C : forall x, clamp a x 0 1 = Ok (c x)).
  { intro x. unfold clamp, c. change (qlt 0 1) with true. rewrite Bool.andb_false_r.
    destruct (qlt x 0); auto. now destruct (qlt 1 x). }
  assert (Cm : forall x y, x <= y -> c x <= c y).
  { intros x y L. unfold c.
    destruct (qlt x 0) eqn:K1; destruct (qlt y 0) eqn:K2; destruct (qlt 1 x) eqn:K3; destruct (qlt 1 y) eqn:K4;
    rewrite ?qlt_true, ?qlt_false in *; lra. }
  split; [|split; [|split; [|split]]].
  - intro t. unfold smoothStep. rewrite C. reflexivity.
  - intros t L. specialize (D t). unfold c.
    destruct (qltP ((t - lo) / (hi - lo)) 0) as [[-> K1]|[-> K1]]; [reflexivity|].
    assert (Z : (t - lo) / (hi - lo) == 0) by nra.
    destruct (qltP 1 ((t - lo) / (hi - lo))) as [[-> K2]|[-> K2]]; [lra|]. rewrite Z. reflexivity.
  - intros t L. specialize (D t). unfold c.
    destruct (qltP ((t - lo) / (hi - lo)) 0) as [[-> K1]|[-> K1]]; [nra|].
    destruct (qltP 1 ((t - lo) / (hi - lo))) as [[-> K2]|[-> K2]]; [reflexivity|].
    assert (Z : (t - lo) / (hi - lo) == 1) by nra. rewrite Z. reflexivity.
  - intros t [L U]. specialize (D t). unfold c. cbv zeta.
    destruct (qltP ((t - lo) / (hi - lo)) 0) as [[-> K1]|[-> K1]]; [nra|].
    destruct (qltP 1 ((t - lo) / (hi - lo))) as [[-> K2]|[-> K2]]; [nra|].
    set (x := (t - lo) / (hi - lo)). change (x ^ 5) with (x * x * x * x * x)%Q || idtac. unfold poly.
    cbn [Qpower Qpower_positive pow_pos Pos.iter_op]. unfold Qpower_positive, pow_pos. ring.
  - intros t1 t2 L. apply poly_mono, Cm. pose proof (D t1). pose proof (D t2). nra.
Qed.

Lemma qmap_ok : forall s1 e1 s2 e2, ~ s1 == e1 ->
  qmap s1 s1 e1 s2 e2 == s2 /\ qmap e1 s1 e1 s2 e2 == e2 /\
  (forall x, (s1 < e1 -> s1 <= x <= e1) -> (e1 < s1 -> e1 <= x <= s1) -> 
     (s2 <= e2 -> s2 <= qmap x s1 e1 s2 e2 <= e2) /\ (e2 <= s2 -> e2 <= qmap x s1 e1 s2 e2 <= s2)) /\
  (forall x, qmap x s1 e1 s2 e2 == s2 + (x - s1) * ((e2 - s2) / (e1 - s1))).
Proof.
  intros s1 e1 s2 e2 H. assert (N : ~ e1 - s1 == 0) by (intro; apply H; lra). unfold qmap.
  split; [|split; [|split]]; try (field; auto).
  - intros x L1 L2.
    assert (K : exists u, 0 <= u <= 1 /\ (x - s1) * (e2 - s2) / (e1 - s1) == u * (e2 - s2)).
    { exists ((x - s1) / (e1 - s1)). split; [|field; auto].
      assert (D : (x - s1) / (e1 - s1) * (e1 - s1) == x - s1) by (field; auto).
      destruct (Q_dec s1 e1) as [[C|C]|C]; [| |contradiction].
      - specialize (L1 C). split; nra.
      - specialize (L2 C). split; nra. }
    destruct K as (u & U & ->). split; intro; split; nra.
  - intro x. field; auto.
Qed.

Lemma isClose_sym : forall a b at_ rt, isClose a b at_ rt = isClose b a at_ rt.
Proof.
  intros. unfold isClose. cbn [vmax].
  assert (E1 : qabs (b - a) == qabs (a - b)).
  { rewrite !qabs_eq. rewrite <- (Qabs_opp (b - a)). setoid_replace (- (b - a)) with (a - b) by ring. reflexivity. }
  assert (E2 : (if qlt (qabs b) (qabs a) then qabs a else qabs b) == (if qlt (qabs a) (qabs b) then qabs b else qabs a)).
  { destruct (qltP (qabs b) (qabs a)) as [[-> K1]|[-> K1]]; destruct (qltP (qabs a) (qabs b)) as [[-> K2]|[-> K2]]; lra. }
  apply Qle_bool_m; auto.
  set (m := if qlt (qabs b) (qabs a) then qabs a else qabs b) in *.
  set (m' := if qlt (qabs a) (qabs b) then qabs b else qabs a) in *.
  assert (E3 : rt * m == rt * m') by now rewrite E2.
  rewrite (qlt_m _ _ (Qeq_refl at_) _ _ E3). destruct (qlt at_ (rt * m')); [exact E3|reflexivity].
Qed.
Lemma isClose_spec : forall a b at_ rt, 0 <= rt -> (isClose a b at_ rt = true <->
  (Qabs (a - b) <= at_ \/ Qabs (a - b) <= rt * Qabs a \/ Qabs (a - b) <= rt * Qabs b)).
Proof.
  intros a b at_ rt Hr. unfold isClose. cbn [vmax]. rewrite Qle_bool_iff.
  assert (E1 : qabs (b - a) == Qabs (a - b)).
  { rewrite qabs_eq. rewrite <- (Qabs_opp (b - a)). setoid_replace (- (b - a)) with (a - b) by ring. reflexivity. }
  rewrite E1. pose proof (qabs_eq a). pose proof (qabs_eq b). set (d := Qabs (a - b)). clearbody d. clear E1.
  set (u := qabs a) in *. set (v := qabs b) in *. set (u' := Qabs a) in *. set (v' := Qabs b) in *. clearbody u v u' v'.
  assert (E2 : rt * u == rt * u') by now rewrite H.
  assert (E3 : rt * v == rt * v') by now rewrite H0.
  destruct (qltP v u) as [[-> K1]|[-> K1]]; match goal with |- context [qlt ?x ?y] => destruct (qltP x y) as [[-> K2]|[-> K2]] end;
  (split; [intro L | intros [L|[L|L]]]); try lra; try nra.
Qed.
Lemma isClose_refl : forall a at_ rt, 0 <= at_ -> isClose a a at_ rt = true.
Proof.
  intros. unfold isClose. apply Qle_bool_iff. rewrite qabs_eq. setoid_replace (a - a) with 0 by ring.
  change (Qabs 0) with 0. cbn [vmax]. match goal with |- context [qlt ?x ?y] => destruct (qltP x y) as [[-> K2]|[-> K2]] end; lra.
Qed.

(** * Integer instantiations *)
Lemma qtrunc_int : forall q z, q == inject_Z z -> qtrunc q = z.
Proof.
  intros q z E. unfold qtrunc. destruct (qlt q 0).
  - assert (E' : - q == inject_Z (- z)) by (rewrite E, inject_Z_opp; reflexivity).
    rewrite (Qfloor_comp _ _ E'), Qfloor_Z. lia.
  - rewrite (Qfloor_comp _ _ E), Qfloor_Z. reflexivity.
Qed.

Lemma round_int_ok : forall x dp, dp <> 7%Z -> dp <> (-7)%Z ->
  exists r, round_int x dp MATH = Ok r /\ nearest_multiple (ten_to (- dp)) (inject_Z x) (inject_Z r) /\
    tie_away (ten_to (- dp)) (inject_Z x) (inject_Z r) /\ ((0 <= dp)%Z -> r = x).
Proof.
  intros x dp H7 Hm. destruct (round_math_ok (inject_Z x) dp H7 Hm) as (q & E & N & T).
  assert (K : exists z, q == inject_Z z /\ ((0 <= dp)%Z -> z = x)).
  { destruct (Z_le_gt_dec 0 dp) as [D|D].
    - exists x. split; auto. destruct N as [_ N]. specialize (N (x * 10 ^ dp)%Z).
      rewrite inject_Z_mult, <- (ten_Z dp) in N by lia.
      setoid_replace (inject_Z x * ten_to dp * ten_to (- dp) - inject_Z x)
        with (inject_Z x * (ten_to (- dp) * ten_to dp) - inject_Z x) in N by ring.
      rewrite ten_opp in N. setoid_replace (inject_Z x * 1 - inject_Z x) with 0 in N by ring.
      change (Qabs 0) with 0 in N. revert N. apply (Qabs_case (q - inject_Z x)); intros; lra.
    - destruct N as [[k K] _]. rewrite ten_Z in K by lia. rewrite <- inject_Z_mult in K.
      exists (k * 10 ^ (- dp))%Z. split; [exact K|lia]. }
  destruct K as (z & Z & ZE). exists z. unfold round_int. rewrite E. cbn [omap].
  split; [|split; [|split]]; auto.
  - change (omap qtrunc (Ok q)) with (Ok (qtrunc q)). now rewrite (qtrunc_int q z).
  - now rewrite <- Z.
  - now rewrite <- Z.
Qed.

Lemma roundTo_int_ok : forall x v, (0 <= x)%Z -> (0 < v)%Z -> Z.even v = true ->
  (exists k, roundTo_int x v = k * v)%Z /\ forall k, (Z.abs (roundTo_int x v - x) <= Z.abs (k * v - x))%Z.
Proof.
  intros x v Hx Hv Ev. unfold roundTo_int. destruct (Z.eqb_spec x 0) as [->|N].
  - split. exists 0%Z. lia. lia.
  - rewrite (Z.abs_eq x) by auto. pose proof (Z.rem_le x v Hx Hv) as RL. pose proof (Z.rem_bound_pos x v Hx Hv). pose proof (Z.quot_rem' x v) as D.
    set (q := Z.quot x v) in *. set (r := Z.rem x v) in *. clearbody q r.
    apply Z.even_spec in Ev. destruct Ev as [h Eh].
    assert (Z.quot v 2 = h) as -> by (subst v; rewrite Z.mul_comm; apply Z.quot_mul; lia).
    assert (G : forall k, (k * v <= q * v \/ (q + 1) * v <= k * v)%Z).
    { intro k. destruct (Z_le_gt_dec k q); [left|right]; apply Z.mul_le_mono_nonneg_r; lia. }
    destruct (Z.leb_spec h r).
    + assert (E : (zcopySign (x + v - r) x = (q + 1) * v)%Z).
      { unfold zcopySign. destruct (Z.ltb_spec x 0); lia. }
      rewrite E. split. eauto. intro k. specialize (G k). lia.
    + assert (E : (zcopySign (x - r) x = q * v)%Z).
      { unfold zcopySign. destruct (Z.ltb_spec x 0); [lia|]. rewrite Z.abs_eq; lia. }
      rewrite E. split. eauto. intro k. specialize (G k). lia.
Qed.

Lemma roundUpTo_int_ok : forall x v, (0 <= x)%Z -> (0 < v)%Z ->
  (exists k, roundUpTo_int x v = k * v)%Z /\ (x <= roundUpTo_int x v)%Z /\
  forall k, (x <= k * v -> roundUpTo_int x v <= k * v)%Z.
Proof.
  intros x v Hx Hv. unfold roundUpTo_int. pose proof (Z.rem_bound_pos x v Hx Hv). pose proof (Z.quot_rem' x v) as D.
  set (q := Z.quot x v) in *. set (r := Z.rem x v) in *. clearbody q r.
  assert (G : forall k, (k * v <= q * v \/ (q + 1) * v <= k * v)%Z).
  { intro k. destruct (Z_le_gt_dec k q); [left|right]; apply Z.mul_le_mono_nonneg_r; lia. }
  destruct (Z.eqb_spec r 0).
  - split; [exists q; lia|split; [lia|]]. auto.
  - split; [exists (q + 1)%Z; lia|split; [lia|]]. intros k K. specialize (G k). lia.
Qed.

Lemma zmap_ok : forall s1 e1 s2 e2, (s1 <> e1)%Z ->
  zmap s1 s1 e1 s2 e2 = s2 /\ zmap e1 s1 e1 s2 e2 = e2.
Proof.
  intros. unfold zmap. split.
  - rewrite Z.sub_diag, Z.mul_0_l, Z.quot_0_l by lia. lia.
  - rewrite Z.mul_comm, Z.quot_mul by lia. lia.
Qed.
Lemma zmap_interval : forall x s1 e1 s2 e2, (s1 < e1)%Z -> (s1 <= x <= e1)%Z -> (s2 <= e2)%Z ->
  (s2 <= zmap x s1 e1 s2 e2 <= e2)%Z.
Proof.
  intros. unfold zmap. split.
  - enough (0 <= Z.quot ((x - s1) * (e2 - s2)) (e1 - s1))%Z by lia. apply Z.quot_pos; nia.
  - enough (Z.quot ((x - s1) * (e2 - s2)) (e1 - s1) <= e2 - s2)%Z by lia.
    apply Z.quot_le_upper_bound; nia.
Qed.
