(** Bit-level lemmas used by HalfProofs. *)
From Verif Require Import Base BaseProofs HalfModel HalfSpec.
From Coq Require Import ZifyNat ZifyN ZifyBool.
Ltac Zify.zify_post_hook ::= idtac.
Local Open Scope Z_scope.

Lemma land_low x k : 0 <= k -> Z.land x (2 ^ k - 1) = x mod 2 ^ k.
Proof. intros. rewrite <- Z.land_ones by lia. f_equal. rewrite Z.ones_equiv. lia. Qed.

Lemma land_field x p k : 0 <= p -> 0 <= k -> Z.land x ((2 ^ k - 1) * 2 ^ p) = (x / 2 ^ p mod 2 ^ k) * 2 ^ p.
Proof.
  intros Hp Hk. apply Z.bits_inj'; intros i Hi.
  rewrite Z.land_spec, !Z.mul_pow2_bits by lia.
  destruct (Z.lt_ge_cases i p).
  - rewrite !(Z.testbit_neg_r _ (i - p)) by lia. apply andb_false_r.
  - rewrite <- land_low, Z.land_spec by lia. rewrite Z.div_pow2_bits by lia.
    replace (i - p + p) with i by lia. reflexivity.
Qed.

Lemma land_bit x k : 0 <= k -> Z.land x (2 ^ k) = if Z.testbit x k then 2 ^ k else 0.
Proof.
  intros Hk. apply Z.bits_inj'; intros i Hi. rewrite Z.land_spec, Z.pow2_bits_eqb by lia.
  destruct (k =? i) eqn:E.
  - apply Z.eqb_eq in E; subst. rewrite andb_true_r. destruct (Z.testbit x i); [rewrite Z.pow2_bits_true by lia|rewrite Z.testbit_0_l]; reflexivity.
  - rewrite andb_false_r. destruct (Z.testbit x k); [rewrite Z.pow2_bits_eqb, E by lia|rewrite Z.testbit_0_l]; reflexivity.
Qed.

Lemma lor_add a b k : 0 <= k -> 0 <= b < 2 ^ k -> Z.lor (a * 2 ^ k) b = a * 2 ^ k + b.
Proof.
  intros Hk Hb. assert (Hd : Z.land (a * 2 ^ k) b = 0).
  { apply Z.bits_inj'; intros i Hi. rewrite Z.land_spec, Z.testbit_0_l, Z.mul_pow2_bits by lia.
    destruct (Z.lt_ge_cases i k).
    - rewrite (Z.testbit_neg_r _ (i - k)) by lia. reflexivity.
    - replace b with (b mod 2 ^ k) by (apply Z.mod_small; lia). rewrite Z.mod_pow2_bits_high by lia. apply andb_false_r. }
  rewrite <- Z.lxor_lor by exact Hd. symmetry. apply Z.add_nocarry_lxor. exact Hd.
Qed.
Lemma lor_add' a b k : 0 <= k -> 0 <= b < 2 ^ k -> Z.lor b (a * 2 ^ k) = a * 2 ^ k + b.
Proof. intros. rewrite Z.lor_comm. apply lor_add; auto. Qed.

Lemma testbit_high x k : 0 <= k -> 0 <= x < 2 ^ (k + 1) -> Z.testbit x k = (2 ^ k <=? x).
Proof.
  intros Hk Hx. rewrite Z.testbit_eqb by lia. rewrite Z.pow_add_r in Hx by lia. change (2 ^ 1) with 2 in Hx.
  assert (0 < 2 ^ k) by (apply Z.pow_pos_nonneg; lia).
  destruct (2 ^ k <=? x) eqn:E.
  - replace (x / 2 ^ k) with 1. { reflexivity. } apply Z.div_unique with (x - 2 ^ k); lia.
  - rewrite Z.div_small by lia. reflexivity.
Qed.

Lemma w16_id x : 0 <= x < 2 ^ 16 -> w16 x = x.
Proof. apply Z.mod_small. Qed.
Lemma w32_id x : 0 <= x < 2 ^ 32 -> w32 x = x.
Proof. apply Z.mod_small. Qed.
Lemma w16_range x : 0 <= w16 x < 2 ^ 16.
Proof. apply Z.mod_pos_bound. reflexivity. Qed.
Lemma w32_range x : 0 <= w32 x < 2 ^ 32.
Proof. apply Z.mod_pos_bound. reflexivity. Qed.
Lemma w16_bit x i : 0 <= i < 16 -> Z.testbit (w16 x) i = Z.testbit x i.
Proof. intros. apply Z.mod_pow2_bits_low. lia. Qed.
Lemma w32_bit x i : 0 <= i < 32 -> Z.testbit (w32 x) i = Z.testbit x i.
Proof. intros. apply Z.mod_pow2_bits_low. lia. Qed.
Lemma w16_neg x : - 2 ^ 15 <= x < 0 -> w16 x = x + 2 ^ 16.
Proof. intros. unfold w16. symmetry. apply Z.mod_unique with (-1); lia. Qed.
Lemma w32_neg x : - 2 ^ 31 <= x < 0 -> w32 x = x + 2 ^ 32.
Proof. intros. unfold w32. symmetry. apply Z.mod_unique with (-1); lia. Qed.

(** The sign bit of a word. *)
Definition msb16 (x : Z) (b : bool) : Prop := 0 <= x < 2 ^ 16 /\ Z.testbit x 15 = b.
Definition msb32 (x : Z) (b : bool) : Prop := 0 <= x < 2 ^ 32 /\ Z.testbit x 31 = b.

Lemma msb16_small x : - 2 ^ 15 <= x < 2 ^ 15 -> msb16 (w16 x) (x <? 0).
Proof.
  intros. split. { apply w16_range. }
  rewrite testbit_high by (try lia; apply w16_range).
  destruct (x <? 0) eqn:E; [rewrite w16_neg by lia|rewrite w16_id by lia]; lia.
Qed.
Lemma msb32_small x : - 2 ^ 31 <= x < 2 ^ 31 -> msb32 (w32 x) (x <? 0).
Proof.
  intros. split. { apply w32_range. }
  rewrite testbit_high by (try lia; apply w32_range).
  destruct (x <? 0) eqn:E; [rewrite w32_neg by lia|rewrite w32_id by lia]; lia.
Qed.
Lemma msb16_land x y a b : msb16 x a -> msb16 y b -> msb16 (w16 (Z.land x y)) (a && b).
Proof. intros [_ H] [_ K]. split. { apply w16_range. } rewrite w16_bit, Z.land_spec, H, K by lia. reflexivity. Qed.
Lemma msb16_lor x y a b : msb16 x a -> msb16 y b -> msb16 (w16 (Z.lor x y)) (a || b).
Proof. intros [_ H] [_ K]. split. { apply w16_range. } rewrite w16_bit, Z.lor_spec, H, K by lia. reflexivity. Qed.
Lemma msb16_lxor x y a b : msb16 x a -> msb16 y b -> msb16 (w16 (Z.lxor x y)) (xorb a b).
Proof. intros [_ H] [_ K]. split. { apply w16_range. } rewrite w16_bit, Z.lxor_spec, H, K by lia. reflexivity. Qed.
Lemma msb16_landn x y a b : msb16 x a -> msb16 y b -> msb16 (w16 (Z.land x (Z.lnot y))) (a && negb b).
Proof. intros [_ H] [_ K]. split. { apply w16_range. } rewrite w16_bit, Z.land_spec, Z.lnot_spec, H, K by lia. reflexivity. Qed.
Lemma msb32_land x y a b : msb32 x a -> msb32 y b -> msb32 (w32 (Z.land x y)) (a && b).
Proof. intros [_ H] [_ K]. split. { apply w32_range. } rewrite w32_bit, Z.land_spec, H, K by lia. reflexivity. Qed.
Lemma msb32_lor x y a b : msb32 x a -> msb32 y b -> msb32 (w32 (Z.lor x y)) (a || b).
Proof. intros [_ H] [_ K]. split. { apply w32_range. } rewrite w32_bit, Z.lor_spec, H, K by lia. reflexivity. Qed.
Lemma msb32_landn x y a b : msb32 x a -> msb32 y b -> msb32 (w32 (Z.land x (Z.lnot y))) (a && negb b).
Proof. intros [_ H] [_ K]. split. { apply w32_range. } rewrite w32_bit, Z.land_spec, Z.lnot_spec, H, K by lia. reflexivity. Qed.
Lemma msb32_lnot x a : msb32 x a -> msb32 (w32 (Z.lnot x)) (negb a).
Proof. intros [_ H]. split. { apply w32_range. } rewrite w32_bit, Z.lnot_spec, H by lia. reflexivity. Qed.

Lemma asr31_eq x b : msb32 x b -> asr31 x = if b then 2 ^ 32 - 1 else 0.
Proof.
  intros [R H]. rewrite testbit_high in H by (cbn [Z.add] in *; lia). subst b. unfold asr31. rewrite Z.shiftr_div_pow2 by lia.
  destruct (2 ^ 31 <=? x) eqn:E.
  - replace (x <? 2 ^ 31) with false by lia.
    replace ((x - 2 ^ 32) / 2 ^ 31) with (-1). { reflexivity. } apply Z.div_unique with (x - 2 ^ 31); lia.
  - replace (x <? 2 ^ 31) with true by lia. rewrite Z.div_small by lia. reflexivity.
Qed.
Lemma asr15_eq x b : msb16 x b -> asr15 x = if b then 2 ^ 16 - 1 else 0.
Proof.
  intros [R H]. rewrite testbit_high in H by (cbn [Z.add] in *; lia). subst b. unfold asr15. rewrite Z.shiftr_div_pow2 by lia.
  destruct (2 ^ 15 <=? x) eqn:E.
  - replace (x <? 2 ^ 15) with false by lia.
    replace ((x - 2 ^ 16) / 2 ^ 15) with (-1). { reflexivity. } apply Z.div_unique with (x - 2 ^ 15); lia.
  - replace (x <? 2 ^ 15) with true by lia. rewrite Z.div_small by lia. reflexivity.
Qed.

Lemma w32_land_ones x : w32 (Z.land x (2 ^ 32 - 1)) = w32 x.
Proof. rewrite land_low by lia. unfold w32. apply Z.mod_mod. discriminate. Qed.
Lemma w16_land_ones x : w16 (Z.land x (2 ^ 16 - 1)) = w16 x.
Proof. rewrite land_low by lia. unfold w16. apply Z.mod_mod. discriminate. Qed.
Lemma w32_land_nones x : w32 (Z.land x (Z.lnot (2 ^ 32 - 1))) = 0.
Proof.
  apply Z.bits_inj'; intros i Hi. rewrite Z.testbit_0_l. unfold w32. destruct (Z.lt_ge_cases i 32).
  - rewrite Z.mod_pow2_bits_low, Z.land_spec, Z.lnot_spec by lia. change (2 ^ 32 - 1) with (Z.ones 32).
    rewrite Z.ones_spec_low by lia. apply andb_false_r.
  - apply Z.mod_pow2_bits_high; lia.
Qed.
Lemma w16_land_nones x : w16 (Z.land x (Z.lnot (2 ^ 16 - 1))) = 0.
Proof.
  apply Z.bits_inj'; intros i Hi. rewrite Z.testbit_0_l. unfold w16. destruct (Z.lt_ge_cases i 16).
  - rewrite Z.mod_pow2_bits_low, Z.land_spec, Z.lnot_spec by lia. change (2 ^ 16 - 1) with (Z.ones 16).
    rewrite Z.ones_spec_low by lia. apply andb_false_r.
  - apply Z.mod_pow2_bits_high; lia.
Qed.

Lemma selb32_eq m (b : bool) x y : m = (if b then 2 ^ 32 - 1 else 0) -> 0 <= x < 2 ^ 32 -> 0 <= y < 2 ^ 32 ->
  selb32 m x y = if b then x else y.
Proof.
  intros -> Hx Hy. unfold selb32. destruct b.
  - rewrite w32_land_ones, w32_land_nones, Z.lor_0_r, !w32_id by (auto using w32_range). reflexivity.
  - rewrite Z.land_0_r. change (w32 0) with 0. rewrite Z.lor_0_l. change (Z.lnot 0) with (-1).
    rewrite Z.land_m1_r, !w32_id by (auto using w32_range). reflexivity.
Qed.
Lemma sels32_eq t b x y : msb32 t b -> 0 <= x < 2 ^ 32 -> 0 <= y < 2 ^ 32 -> sels32 t x y = if b then x else y.
Proof. intros H Hx Hy. apply (selb32_eq (asr31 t)); auto. apply asr31_eq; auto. Qed.
Lemma sels16_eq t b x y : msb16 t b -> 0 <= x < 2 ^ 16 -> 0 <= y < 2 ^ 16 -> sels16 t x y = if b then x else y.
Proof.
  intros H Hx Hy. unfold sels16. rewrite (asr15_eq _ _ H). destruct b.
  - rewrite w16_land_ones, w16_land_nones, Z.lor_0_r, !w16_id by (auto using w16_range). reflexivity.
  - rewrite Z.land_0_r. change (w16 0) with 0. rewrite Z.lor_0_l. change (Z.lnot 0) with (-1).
    rewrite Z.land_m1_r, !w16_id by (auto using w16_range). reflexivity.
Qed.

(** Count of leading zeros: after smearing, the word is one of 2^k - 1. *)
Definition smear (x n : Z) : Z := Z.lor x (Z.shiftr x n).

Lemma smear_bit x n i : 0 <= i -> 0 <= n -> Z.testbit (smear x n) i = Z.testbit x i || Z.testbit x (i + n).
Proof. intros. unfold smear. rewrite Z.lor_spec, Z.shiftr_spec by lia. reflexivity. Qed.

(** [near x w]: bit i of the result is set iff one of the bits i .. i+w-1 of x is. *)
Definition near (x w y : Z) : Prop := forall i, 0 <= i -> Z.testbit y i = true <-> exists j, 0 <= j < w /\ Z.testbit x (i + j) = true.

Lemma near_step x w y : 0 < w -> near x w y -> near x (2 * w) (smear y w).
Proof.
  intros Hw H i Hi. rewrite smear_bit, orb_true_iff, (H i Hi), (H (i + w)) by lia. split.
  - intros [(j & Hj & B)|(j & Hj & B)]; [exists j|exists (w + j)]; (split; [lia|]); auto. rewrite Z.add_assoc; auto.
  - intros (j & Hj & B). destruct (Z.lt_ge_cases j w); [left; exists j|right; exists (j - w)]; (split; [lia|]); auto.
    replace (i + w + (j - w)) with (i + j) by lia; auto.
Qed.
Lemma near_one x : near x 1 x.
Proof. intros i Hi. split. { intros. exists 0. split; [lia|]. rewrite Z.add_0_r; auto. } intros (j & Hj & B). replace j with 0 in B by lia. rewrite Z.add_0_r in B; auto. Qed.

Lemma near_log x w y k : 0 <= y -> near x w y -> 0 <= k < w -> 2 ^ k <= x < 2 ^ (k + 1) -> y = 2 ^ (k + 1) - 1.
Proof.
  intros Hy H Hk Hx. apply Z.bits_inj'; intros i Hi.
  replace (2 ^ (k + 1) - 1) with (Z.ones (k + 1)) by (rewrite Z.ones_equiv; lia).
  assert (L : Z.log2 x = k). { apply Z.log2_unique; [lia|]. replace (Z.succ k) with (k + 1) by lia. lia. }
  assert (P : 0 < 2 ^ k) by (apply Z.pow_pos_nonneg; lia).
  destruct (Z.lt_ge_cases i (k + 1)) as [Q|Q].
  - rewrite Z.ones_spec_low by lia. apply H; auto. exists (k - i). split; [lia|].
    replace (i + (k - i)) with k by lia. rewrite <- L. apply Z.bit_log2. lia.
  - rewrite Z.ones_spec_high by lia. apply not_true_iff_false. intros B. apply H in B; auto. destruct B as (j & Hj & B).
    rewrite Z.bits_above_log2 in B by lia. discriminate.
Qed.

Lemma smear_range n x m : 0 <= x < 2 ^ m -> 0 <= n -> 0 <= m -> 0 <= smear x n < 2 ^ m.
Proof.
  intros Hx Hn Hm. unfold smear. split. { apply Z.lor_nonneg. split; [lia|]. apply Z.shiftr_nonneg. lia. }
  destruct (Z.eq_dec x 0) as [->|N]. { rewrite Z.shiftr_0_l. cbn. lia. }
  assert (S : 0 <= Z.shiftr x n). { apply Z.shiftr_nonneg; lia. }
  destruct (Z.eq_dec (Z.lor x (Z.shiftr x n)) 0) as [E|E]. { rewrite E. lia. }
  assert (0 <= Z.lor x (Z.shiftr x n)) by (apply Z.lor_nonneg; lia).
  apply Z.log2_lt_pow2; [lia|]. rewrite Z.log2_lor by lia.
  assert (Z.log2 (Z.shiftr x n) <= Z.log2 x). { apply Z.log2_le_mono. rewrite Z.shiftr_div_pow2 by lia.
    apply Z.div_le_upper_bound. { apply Z.pow_pos_nonneg; lia. }
    assert (1 <= 2 ^ n). { change 1 with (2 ^ 0). apply Z.pow_le_mono_r; lia. } nia. }
  rewrite Z.max_l by lia. apply Z.log2_lt_pow2; lia.
Qed.

Lemma smear16 x n : 0 <= x < 2 ^ 16 -> 0 <= n -> w16 (Z.lor x (w16 (Z.shiftr x n))) = smear x n.
Proof.
  intros. rewrite (w16_id (Z.shiftr x n)). { apply w16_id. apply smear_range; lia. }
  split. { apply Z.shiftr_nonneg; lia. } rewrite Z.shiftr_div_pow2 by lia.
  assert (1 <= 2 ^ n). { change 1 with (2 ^ 0). apply Z.pow_le_mono_r; lia. }
  apply Z.div_lt_upper_bound; nia.
Qed.
Lemma smear32 x n : 0 <= x < 2 ^ 32 -> 0 <= n -> w32 (Z.lor x (w32 (Z.shiftr x n))) = smear x n.
Proof.
  intros. rewrite (w32_id (Z.shiftr x n)). { apply w32_id. apply smear_range; lia. }
  split. { apply Z.shiftr_nonneg; lia. } rewrite Z.shiftr_div_pow2 by lia.
  assert (1 <= 2 ^ n). { change 1 with (2 ^ 0). apply Z.pow_le_mono_r; lia. }
  apply Z.div_lt_upper_bound; nia.
Qed.

Lemma cntlz16_smear x : 0 <= x < 2 ^ 16 -> cntlz16 x = pop16 (smear (smear (smear (smear x 1) 2) 4) 8).
Proof.
  intros H. unfold cntlz16. cbv zeta.
  rewrite (smear16 x 1) by lia. assert (H1 : 0 <= (smear x 1) < 2 ^ 16) by (apply (smear_range 1 _ 16); [assumption|lia|lia]).
  rewrite (smear16 (smear x 1) 2) by lia. assert (H2 : 0 <= (smear (smear x 1) 2) < 2 ^ 16) by (apply (smear_range 2 _ 16); [assumption|lia|lia]).
  rewrite (smear16 (smear (smear x 1) 2) 4) by lia. assert (H3 : 0 <= (smear (smear (smear x 1) 2) 4) < 2 ^ 16) by (apply (smear_range 4 _ 16); [assumption|lia|lia]).
  rewrite (smear16 (smear (smear (smear x 1) 2) 4) 8) by lia. assert (H4 : 0 <= (smear (smear (smear (smear x 1) 2) 4) 8) < 2 ^ 16) by (apply (smear_range 8 _ 16); [assumption|lia|lia]).
  reflexivity.
Qed.
Lemma cntlz32_smear x : 0 <= x < 2 ^ 32 -> cntlz32 x = pop32 (smear (smear (smear (smear (smear x 1) 2) 4) 8) 16).
Proof.
  intros H. unfold cntlz32. cbv zeta.
  rewrite (smear32 x 1) by lia. assert (H1 : 0 <= (smear x 1) < 2 ^ 32) by (apply (smear_range 1 _ 32); [assumption|lia|lia]).
  rewrite (smear32 (smear x 1) 2) by lia. assert (H2 : 0 <= (smear (smear x 1) 2) < 2 ^ 32) by (apply (smear_range 2 _ 32); [assumption|lia|lia]).
  rewrite (smear32 (smear (smear x 1) 2) 4) by lia. assert (H3 : 0 <= (smear (smear (smear x 1) 2) 4) < 2 ^ 32) by (apply (smear_range 4 _ 32); [assumption|lia|lia]).
  rewrite (smear32 (smear (smear (smear x 1) 2) 4) 8) by lia. assert (H4 : 0 <= (smear (smear (smear (smear x 1) 2) 4) 8) < 2 ^ 32) by (apply (smear_range 8 _ 32); [assumption|lia|lia]).
  rewrite (smear32 (smear (smear (smear (smear x 1) 2) 4) 8) 16) by lia. assert (H5 : 0 <= (smear (smear (smear (smear (smear x 1) 2) 4) 8) 16) < 2 ^ 32) by (apply (smear_range 16 _ 32); [assumption|lia|lia]).
  reflexivity.
Qed.

Lemma pop16_ok : forallb (fun k => pop16 (2 ^ Z.of_nat k - 1) =? 16 - Z.of_nat k) (seq 0 17) = true.
Proof. vm_compute. reflexivity. Qed.
Lemma pop32_ok : forallb (fun k => pop32 (2 ^ Z.of_nat k - 1) =? 32 - Z.of_nat k) (seq 0 33) = true.
Proof. vm_compute. reflexivity. Qed.

Lemma log2_ex x : 0 < x -> exists k, 0 <= k /\ 2 ^ k <= x < 2 ^ (k + 1).
Proof. intros. exists (Z.log2 x). split; [apply Z.log2_nonneg|]. apply Z.log2_spec. lia. Qed.

Lemma cntlz16_pos x k : 0 <= k < 16 -> 2 ^ k <= x < 2 ^ (k + 1) -> cntlz16 x = 15 - k.
Proof.
  intros Hk Hx. assert (0 < 2 ^ k) by (apply Z.pow_pos_nonneg; lia).
  assert (2 ^ (k + 1) <= 2 ^ 16) by (apply Z.pow_le_mono_r; lia).
  assert (R : 0 <= x < 2 ^ 16) by lia.
  rewrite cntlz16_smear by auto.
  match goal with |- pop16 ?y = _ => rewrite (near_log x 16 y k) end.
  - pose proof (proj1 (forallb_forall _ _) pop16_ok (Z.to_nat (k + 1))) as P. cbv beta in P.
    rewrite Z2Nat.id in P by lia. rewrite Z.eqb_eq in P. rewrite P; [lia|]. apply in_seq. lia.
  - repeat (apply smear_range with (m := 16); [|lia|lia]). auto.
  - apply (near_step x 8 _); [lia|]. apply (near_step x 4 _); [lia|]. apply (near_step x 2 _); [lia|]. apply (near_step x 1 _); [lia|]. apply near_one.
  - lia.
  - lia.
Qed.
Lemma cntlz16_zero : cntlz16 0 = 16.
Proof. reflexivity. Qed.
Lemma cntlz32_pos x k : 0 <= k < 32 -> 2 ^ k <= x < 2 ^ (k + 1) -> cntlz32 x = 31 - k.
Proof.
  intros Hk Hx. assert (0 < 2 ^ k) by (apply Z.pow_pos_nonneg; lia).
  assert (2 ^ (k + 1) <= 2 ^ 32) by (apply Z.pow_le_mono_r; lia).
  assert (R : 0 <= x < 2 ^ 32) by lia.
  rewrite cntlz32_smear by auto.
  match goal with |- pop32 ?y = _ => rewrite (near_log x 32 y k) end.
  - pose proof (proj1 (forallb_forall _ _) pop32_ok (Z.to_nat (k + 1))) as P. cbv beta in P.
    rewrite Z2Nat.id in P by lia. rewrite Z.eqb_eq in P. rewrite P; [lia|]. apply in_seq. lia.
  - repeat (apply smear_range with (m := 32); [|lia|lia]). auto.
  - apply (near_step x 16 _); [lia|]. apply (near_step x 8 _); [lia|]. apply (near_step x 4 _); [lia|]. apply (near_step x 2 _); [lia|]. apply (near_step x 1 _); [lia|]. apply near_one.
  - lia.
  - lia.
Qed.
Lemma cntlz32_zero : cntlz32 0 = 32.
Proof. reflexivity. Qed.

(** Stepping through a chain of lets. *)
Lemma let_to {A B} (c v : A) (b : A -> B) r : v = c -> b c = r -> (let x := v in b x) = r.
Proof. intros -> H. exact H. Qed.
Lemma let_sp {A B} (P : A -> Prop) (v : A) (b : A -> B) r : P v -> (forall y, P y -> b y = r) -> (let x := v in b x) = r.
Proof. intros H K. apply K, H. Qed.
Lemma do_to {A B} (c : A) v (b : A -> outcome B) r : v = Ok c -> b c = r -> bind v b = r.
Proof. intros -> H. exact H. Qed.
