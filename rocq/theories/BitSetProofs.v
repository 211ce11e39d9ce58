From Verif Require Import Base BaseProofs BitSetModel BitSetSpec.
From Coq Require Import Ascii Permutation.
Ltac Zify.zify_post_hook ::= Z.div_mod_to_equations.


Lemma wf_nth d k : wf d -> (nth k d 0 < 2 ^ 64)%N.
Proof.
  intros H. destruct (Nat.lt_ge_cases k (length d)) as [Hk|Hk].
  - exact (proj1 (Forall_forall _ _) H _ (nth_In d 0%N Hk)).
  - rewrite nth_overflow by lia. reflexivity.
Qed.

Lemma wf_upd d k w : wf d -> (w < 2 ^ 64)%N -> wf (upd d k w).
Proof.
  intros H Hw. apply Forall_forall. intros x Hx.
  destruct (In_nth _ _ 0%N Hx) as (i & Hi & <-).
  rewrite nth_upd. destruct (_ && _); auto. apply wf_nth; auto.
Qed.

Lemma testbit_high w k : (w < 2 ^ 64)%N -> (64 <= k)%N -> N.testbit w k = false.
Proof.
  intros Hw Hk. rewrite <- (N.mod_small w (2 ^ 64)) by auto.
  apply N.mod_pow2_bits_high; auto.
Qed.

Lemma word_lt w : (forall k, (64 <= k)%N -> N.testbit w k = false) -> (w < 2 ^ 64)%N.
Proof.
  intros H. assert (E : w = (w mod 2 ^ 64)%N).
  { apply N.bits_inj. intros k. destruct (N.lt_ge_cases k 64).
    - rewrite N.mod_pow2_bits_low; auto.
    - rewrite N.mod_pow2_bits_high; auto. }
  rewrite E. apply N.mod_lt. discriminate.
Qed.

Lemma word_ext x y : (x < 2 ^ 64)%N -> (y < 2 ^ 64)%N ->
  (forall b, b < 64 -> N.testbit x (N.of_nat b) = N.testbit y (N.of_nat b)) -> x = y.
Proof.
  intros Hx Hy H. apply N.bits_inj. intros k. destruct (N.lt_ge_cases k 64).
  - rewrite <- (N2Nat.id k). apply H. lia.
  - rewrite !testbit_high; auto.
Qed.

Lemma shl64_Ok x s : s < 64 -> shl64 x s = Ok (N.shiftl x (N.of_nat s) mod 2 ^ 64)%N.
Proof. intros. unfold shl64. destruct (Nat.ltb_spec s 64); [reflexivity|lia]. Qed.
Lemma shr64_Ok x s : s < 64 -> shr64 x s = Ok (N.shiftr x (N.of_nat s)).
Proof. intros. unfold shr64. destruct (Nat.ltb_spec s 64); [reflexivity|lia]. Qed.

Lemma one_shift b : b < 64 -> (N.shiftl 1 (N.of_nat b) mod 2 ^ 64 = 2 ^ N.of_nat b)%N.
Proof.
  intros Hb. rewrite N.shiftl_1_l, N.mod_small; auto. apply N.pow_lt_mono_r; lia.
Qed.

Lemma land_pow2 w b : negb (N.land w (2 ^ b) =? 0)%N = N.testbit w b.
Proof.
  destruct (N.testbit w b) eqn:E.
  - destruct (N.eqb_spec (N.land w (2 ^ b)) 0) as [H|H]; auto.
    exfalso. assert (F : N.testbit (N.land w (2 ^ b)) b = true).
    { rewrite N.land_spec, E, N.pow2_bits_true. reflexivity. }
    rewrite H in F. discriminate.
  - replace (N.land w (2 ^ b)) with 0%N; auto. symmetry.
    apply N.bits_inj_0. intros k. rewrite N.land_spec, N.pow2_bits_eqb.
    destruct (N.eqb_spec b k); subst; rewrite ?E; auto using andb_false_r.
Qed.

(** ** get / set *)
Lemma get_spec d i : i < 64 * length d -> get d i = Ok (bit d i).
Proof.
  intros H. unfold get, bit. rewrite (rd_Ok d (i / 64) 0%N) by lia. cbn [bind].
  rewrite shl64_Ok by lia. cbn [bind]. rewrite one_shift by lia. rewrite land_pow2. reflexivity.
Qed.
Lemma get_oob d i : 64 * length d <= i -> get d i = UB.
Proof. intros H. unfold get. rewrite rd_UB by lia. reflexivity. Qed.

Lemma not64_bit x b : b < 64 -> N.testbit (not64 x) (N.of_nat b) = negb (N.testbit x (N.of_nat b)).
Proof. intros. unfold not64. apply N.lnot_spec_low. lia. Qed.
Lemma not64_lt x : (x < 2 ^ 64)%N -> (not64 x < 2 ^ 64)%N.
Proof.
  intros. apply word_lt. intros k Hk. unfold not64. rewrite N.lnot_spec_high by auto.
  apply testbit_high; auto.
Qed.

Lemma set1_spec d i v : i < 64 * length d -> wf d ->
  exists d', set1 d i v = Ok d' /\ length d' = length d /\ wf d' /\
    forall j, bit d' j = if j =? i then v else bit d j.
Proof.
  intros H Hwf. unfold set1. rewrite (rd_Ok d (i / 64) 0%N) by lia. cbn [bind].
  rewrite shl64_Ok by lia. cbn [bind]. rewrite one_shift by lia.
  set (w := nth (i / 64) d 0%N). assert (Hw : (w < 2 ^ 64)%N) by (apply wf_nth; auto).
  assert (Hp : (2 ^ N.of_nat (i mod 64) < 2 ^ 64)%N) by (apply N.pow_lt_mono_r; lia).
  assert (G : forall x, (forall b, b < 64 -> N.testbit x (N.of_nat b) =
                            if b =? i mod 64 then v else N.testbit w (N.of_nat b)) ->
               (x < 2 ^ 64)%N ->
               exists d', wr d (i / 64) x = Ok d' /\ length d' = length d /\ wf d' /\
                 forall j, bit d' j = if j =? i then v else bit d j).
  { intros x Hx Hlt. rewrite wr_Ok by lia. eexists. split; [reflexivity|].
    split; [apply upd_length|]. split; [apply wf_upd; auto|].
    intros j. unfold bit. rewrite nth_upd.
    destruct (Nat.eqb_spec (i / 64) (j / 64)) as [E|E].
    - replace (i / 64 <? length d) with true by lia. cbn [andb].
      rewrite Hx by lia. unfold w. rewrite <- E.
      destruct (Nat.eqb_spec (j mod 64) (i mod 64)), (Nat.eqb_spec j i); auto; lia.
    - cbn [andb]. destruct (Nat.eqb_spec j i); auto. subst; lia. }
  destruct v; apply G.
  - intros b Hb. rewrite N.lor_spec, N.pow2_bits_eqb.
    destruct (Nat.eqb_spec b (i mod 64)), (N.eqb_spec (N.of_nat (i mod 64)) (N.of_nat b));
      try lia; auto using orb_true_r, orb_false_r.
  - apply word_lt. intros k Hk. rewrite N.lor_spec, !testbit_high; auto.
  - intros b Hb. rewrite N.land_spec, not64_bit, N.pow2_bits_eqb by lia.
    destruct (Nat.eqb_spec b (i mod 64)), (N.eqb_spec (N.of_nat (i mod 64)) (N.of_nat b));
      try lia; cbn [negb]; auto using andb_false_r, andb_true_r.
  - apply word_lt. intros k Hk. rewrite N.land_spec, testbit_high; auto.
Qed.

(** ** Histories *)

Lemma run_sets_spec ops : forall d, wf d ->
  Forall (fun '(i, _) => i < 64 * length d) ops ->
  exists d', run_sets ops d = Ok d' /\ length d' = length d /\ wf d' /\
    forall j, bit d' j = last_write ops (bit d) j.
Proof.
  induction ops as [|[i v] ops IH]; intros d Hwf HF; cbn [run_sets].
  - exists d; repeat split; auto.
  - inversion HF as [|? ? Hi HF']; subst.
    destruct (set1_spec d i v Hi Hwf) as (d1 & E1 & L1 & W1 & B1). rewrite E1; cbn [bind].
    destruct (IH d1 W1) as (d2 & E2 & L2 & W2 & B2).
    { rewrite L1. exact HF'. }
    exists d2. rewrite E2. repeat split; auto; [congruence|].
    intros j. rewrite B2. unfold last_write. cbn [fold_left].
    f_equal. rewrite B1. rewrite (Nat.eqb_sym j i). reflexivity.
Qed.

Lemma empty_length n : length (empty n) = numElements n.
Proof. apply repeat_length. Qed.
Lemma empty_wf n : wf (empty n).
Proof. apply Forall_forall. intros x Hx. apply repeat_spec in Hx. subst. reflexivity. Qed.
Lemma nth_empty n k : nth k (empty n) 0%N = 0%N.
Proof.
  destruct (Nat.lt_ge_cases k (length (empty n))) as [H|H].
  - exact (repeat_spec _ _ _ (nth_In (empty n) 0%N H)).
  - apply nth_overflow; auto.
Qed.
Lemma empty_bit n j : bit (empty n) j = false.
Proof. unfold bit. rewrite nth_empty. apply N.bits_0. Qed.
Lemma numElements_bound n : n <= 64 * numElements n < n + 64.
Proof. unfold numElements. lia. Qed.

(** ** popCount, any, none *)

Lemma seq_app_len a b c : seq a (b + c) = seq a b ++ seq (a + b) c.
Proof. apply seq_app. Qed.

Lemma sum_acc (f : N -> nat) d : forall acc, fold_left (fun res w => res + f w) d acc
  = acc + fold_left (fun res w => res + f w) d 0.
Proof.
  induction d as [|w d IH]; intros acc; cbn [fold_left]; [lia|].
  rewrite IH, (IH (0 + _)). lia.
Qed.
Lemma popCount_cons w d : popCount (w :: d) = popcount64 w + popCount d.
Proof.
  unfold popCount. generalize popcount64 as f. intros f. cbn [fold_left].
  rewrite sum_acc. reflexivity.
Qed.

Lemma filter_map_len {A B} (f : A -> B) (p : B -> bool) l :
  length (filter p (map f l)) = length (filter (fun x => p (f x)) l).
Proof. induction l as [|a l IH]; cbn; auto. destruct (p (f a)); cbn; auto. Qed.

Lemma seq_shift_k k a n : seq (k + a) n = map (fun i => k + i) (seq a n).
Proof.
  revert a; induction n as [|n IH]; intros a; cbn; auto.
  f_equal. rewrite <- IH. f_equal. lia.
Qed.

Lemma filter_len_ext {A} (p q : A -> bool) l :
  (forall x, In x l -> p x = q x) -> length (filter p l) = length (filter q l).
Proof.
  intros H. induction l as [|a l IH]; cbn; auto.
  rewrite (H a) by (left; auto). destruct (q a); cbn; rewrite IH; auto; intros; apply H; right; auto.
Qed.

Lemma bit_cons_low w d j : j < 64 -> bit (w :: d) j = N.testbit w (N.of_nat j).
Proof.
  intros H. unfold bit. rewrite Nat.div_small, Nat.mod_small by lia. reflexivity.
Qed.
Lemma bit_cons_high w d j : bit (w :: d) (64 + j) = bit d j.
Proof.
  unfold bit. replace ((64 + j) / 64) with (S (j / 64)) by lia.
  replace ((64 + j) mod 64) with (j mod 64) by lia. reflexivity.
Qed.

Lemma popCount_raw d : popCount d = count_bits (bit d) (64 * length d).
Proof.
  unfold count_bits. induction d as [|w d IH]; [reflexivity|].
  rewrite popCount_cons, IH. cbn [length].
  replace (64 * S (length d)) with (64 + 64 * length d) by lia.
  rewrite seq_app_len, filter_app, app_length. unfold popcount64.
  apply (f_equal2 Nat.add).
  - apply filter_len_ext. intros j Hj. apply in_seq in Hj.
    rewrite bit_cons_low; auto; lia.
  - replace (seq (0 + 64) (64 * length d)) with (map (fun i => 64 + i) (seq 0 (64 * length d)))
      by (rewrite <- seq_shift_k; reflexivity).
    rewrite filter_map_len. apply filter_len_ext. intros j _. rewrite bit_cons_high. reflexivity.
Qed.


Lemma count_bits_clean f n m : n <= m -> (forall j, n <= j -> f j = false) ->
  count_bits f m = count_bits f n.
Proof.
  intros H Hf. unfold count_bits. replace m with (n + (m - n)) by lia.
  rewrite seq_app_len, filter_app, app_length.
  assert (E : filter f (seq (0 + n) (m - n)) = []).
  { destruct (filter f (seq (0 + n) (m - n))) as [|x l] eqn:E; auto.
    assert (Hin : In x (filter f (seq (0 + n) (m - n)))) by (rewrite E; left; auto).
    apply filter_In in Hin. destruct Hin as [Hin Hx]. apply in_seq in Hin.
    rewrite Hf in Hx by lia. discriminate. }
  rewrite E. cbn. lia.
Qed.

Lemma popCount_clean n d : length d = numElements n -> clean n d ->
  popCount d = count_bits (bit d) n.
Proof.
  intros HL HC. rewrite popCount_raw. apply count_bits_clean; auto.
  rewrite HL. pose proof (numElements_bound n). lia.
Qed.

Lemma word_zero w : (w < 2 ^ 64)%N ->
  (w =? 0)%N = negb (existsb (fun b => N.testbit w (N.of_nat b)) (seq 0 64)).
Proof.
  intros Hw. destruct (N.eqb_spec w 0) as [->|H].
  - reflexivity.
  - symmetry. apply negb_false_iff, existsb_exists.
    destruct (existsb (fun b => N.testbit w (N.of_nat b)) (seq 0 64)) eqn:E.
    + apply existsb_exists in E. exact E.
    + exfalso. apply H. apply word_ext; [auto|reflexivity|]. intros b Hb.
      rewrite N.bits_0. destruct (N.testbit w (N.of_nat b)) eqn:F; auto.
      rewrite <- E. symmetry. apply existsb_exists. exists b. split; auto. apply in_seq. lia.
Qed.

Lemma existsb_seq_ext f g a n :
  (forall j, a <= j < a + n -> f j = g j) -> existsb f (seq a n) = existsb g (seq a n).
Proof.
  revert a; induction n as [|n IH]; intros a H; cbn; auto.
  rewrite (H a) by lia. f_equal. apply IH. intros; apply H; lia.
Qed.
Lemma existsb_map {A B} (f : A -> B) p l : existsb p (map f l) = existsb (fun x => p (f x)) l.
Proof. induction l; cbn; congruence. Qed.

Lemma any_raw d : wf d -> any d = existsb (bit d) (seq 0 (64 * length d)).
Proof.
  induction d as [|w d IH]; intros Hwf; [reflexivity|].
  inversion Hwf; subst. cbn [length].
  replace (64 * S (length d)) with (64 + 64 * length d) by lia.
  rewrite seq_app_len, existsb_app. unfold any. cbn [existsb]. apply (f_equal2 orb).
  - rewrite word_zero, negb_involutive by auto. apply existsb_seq_ext.
    intros j Hj. rewrite bit_cons_low; auto; lia.
  - unfold any in IH. rewrite IH by auto.
    replace (seq (0 + 64) (64 * length d)) with (map (fun i => 64 + i) (seq 0 (64 * length d)))
      by (rewrite <- seq_shift_k; reflexivity).
    rewrite existsb_map. apply existsb_seq_ext. intros j _. rewrite bit_cons_high. reflexivity.
Qed.

Lemma none_any d : none d = negb (any d).
Proof.
  unfold none, any. induction d as [|w d IH]; cbn; auto.
  rewrite IH, negb_orb, negb_involutive. reflexivity.
Qed.

Lemma existsb_clean f n m : n <= m -> (forall j, n <= j -> f j = false) ->
  existsb f (seq 0 m) = existsb f (seq 0 n).
Proof.
  intros H Hf. replace m with (n + (m - n)) by lia. rewrite seq_app_len, existsb_app.
  replace (existsb f (seq (0 + n) (m - n))) with false; [apply orb_false_r|].
  symmetry. destruct (existsb f _) eqn:E; auto. apply existsb_exists in E.
  destruct E as (x & Hx & Ex). apply in_seq in Hx. rewrite Hf in Ex by lia. discriminate.
Qed.

Lemma any_clean n d : wf d -> length d = numElements n -> clean n d ->
  any d = existsb (bit d) (seq 0 n).
Proof.
  intros Hwf HL HC. rewrite any_raw by auto. apply existsb_clean; auto.
  rewrite HL. pose proof (numElements_bound n). lia.
Qed.


Lemma ok_get n d i : ok n d -> i < n -> get d i = Ok (bit d i).
Proof.
  intros (HL & _ & _) Hi. apply get_spec. pose proof (numElements_bound n). lia.
Qed.
Lemma ok_empty n : ok n (empty n).
Proof. split; [apply empty_length|split; [apply empty_wf|]]. intros j _. apply empty_bit. Qed.

Lemma ok_ext n d e : ok n d -> ok n e -> (forall i, i < n -> bit d i = bit e i) -> d = e.
Proof.
  intros (L1 & W1 & C1) (L2 & W2 & C2) H. apply (list_eq_nth 0%N); [congruence|].
  intros k Hk. apply word_ext; try (apply wf_nth; assumption). intros b Hb.
  assert (E : bit d (64 * k + b) = bit e (64 * k + b)).
  { destruct (Nat.lt_ge_cases (64 * k + b) n); [auto|]. rewrite C1, C2; auto. }
  unfold bit in E. replace ((64 * k + b) / 64) with k in E by lia.
  replace ((64 * k + b) mod 64) with b in E by lia. exact E.
Qed.

Lemma history_ok n ops : Forall (fun '(i, _) => i < n) ops ->
  exists d, run_sets ops (empty n) = Ok d /\ ok n d /\
    forall j, bit d j = last_write ops (fun _ => false) j.
Proof.
  intros HF. pose proof (numElements_bound n) as HB.
  destruct (run_sets_spec ops (empty n) (empty_wf n)) as (d & E & L & W & B).
  { rewrite empty_length. revert HF. apply Forall_impl. intros [i v]. lia. }
  exists d. split; auto. 
  assert (Hb : forall j, bit d j = last_write ops (fun _ => false) j).
  { intros j. rewrite B. unfold last_write. rewrite empty_bit. reflexivity. }
  split; [|exact Hb].
  split; [rewrite L; apply empty_length|]. split; auto. intros j Hj.
  rewrite Hb. unfold last_write.
  assert (G : forall b, fold_left (fun (acc : bool) '(i, v) => if i =? j then v else acc) ops b = b).
  { clear - HF Hj. induction ops as [|[i v] ops IH]; intros b; cbn; auto.
    inversion HF; subst. destruct (Nat.eqb_spec i j); [lia|]. apply IH; auto. }
  apply G.
Qed.

Theorem history_all n ops : Forall (fun '(i, _) => i < n) ops ->
  exists d, run_sets ops (empty n) = Ok d /\
    (forall j, j < n -> get d j = Ok (last_write ops (fun _ => false) j)) /\
    popCount d = count_bits (last_write ops (fun _ => false)) n /\
    any d = existsb (last_write ops (fun _ => false)) (seq 0 n) /\
    none d = negb (any d).
Proof.
  intros HF. destruct (history_ok n ops HF) as (d & E & Hok & B).
  exists d. split; auto. split; [|split; [|split]].
  - intros j Hj. rewrite (ok_get n) by auto. rewrite B. reflexivity.
  - destruct Hok as (L & W & C). rewrite (popCount_clean n) by auto.
    unfold count_bits. apply filter_len_ext. intros; apply B.
  - destruct Hok as (L & W & C). rewrite (any_clean n) by auto.
    apply existsb_seq_ext. intros; apply B.
  - apply none_any.
Qed.

(** ** Range writes *)
Lemma set_loop d lo hi v : wf d -> lo <= hi -> hi <= 64 * length d ->
  exists d', for_range lo hi (fun i d => set1 d i v) d = Ok d' /\ length d' = length d /\ wf d' /\
    forall j, bit d' j = if (lo <=? j) && (j <? hi) then v else bit d j.
Proof.
  intros Hwf Hle Hhi.
  destruct (for_range_inv
    (fun i d' => length d' = length d /\ wf d' /\
       forall j, bit d' j = if (lo <=? j) && (j <? i) then v else bit d j)
    (fun i d => set1 d i v) lo hi d) as (d' & E & L & W & B); auto.
  - intros i d1 Hi (L & W & B).
    destruct (set1_spec d1 i v) as (d2 & E2 & L2 & W2 & B2); [lia|auto|].
    exists d2. split; auto. split; [congruence|]. split; auto.
    intros j. rewrite B2, B.
    destruct (Nat.eqb_spec j i); subst.
    + replace ((lo <=? i) && (i <? S i)) with true by lia. reflexivity.
    + replace (j <? S i) with (j <? i) by lia. reflexivity.
  - split; auto. split; auto. intros j.
    replace ((lo <=? j) && (j <? lo)) with false by lia. reflexivity.
  - exists d'. auto.
Qed.

Lemma word_loop d lo hi (v : bool) : wf d -> lo <= hi -> hi <= length d ->
  exists d', for_range lo hi (fun i d => wr d i (if v then ones64 else 0%N)) d = Ok d' /\
    length d' = length d /\ wf d' /\
    forall j, bit d' j = if (64 * lo <=? j) && (j <? 64 * hi) then v else bit d j.
Proof.
  intros Hwf Hle Hhi.
  destruct (for_range_inv
    (fun i d' => length d' = length d /\ wf d' /\
       forall j, bit d' j = if (64 * lo <=? j) && (j <? 64 * i) then v else bit d j)
    (fun i d => wr d i (if v then ones64 else 0%N)) lo hi d) as (d' & E & L & W & B); auto.
  - intros i d1 Hi (L & W & B). rewrite wr_Ok by lia. eexists. split; [reflexivity|].
    split; [rewrite upd_length; auto|]. split.
    { apply wf_upd; auto. destruct v; reflexivity. }
    intros j. unfold bit at 1. rewrite nth_upd.
    destruct (Nat.eqb_spec i (j / 64)) as [Hij|Hij].
    + replace (i <? length d1) with true by lia. cbn [andb].
      replace ((64 * lo <=? j) && (j <? 64 * S i)) with true by lia.
      destruct v.
      * apply N.ones_spec_low. lia.
      * apply N.bits_0.
    + cbn [andb]. fold (bit d1 j). rewrite B.
      replace ((64 * lo <=? j) && (j <? 64 * S i)) with ((64 * lo <=? j) && (j <? 64 * i)) by lia.
      reflexivity.
  - split; auto. split; auto. intros j.
    replace ((64 * lo <=? j) && (j <? 64 * lo)) with false by lia. reflexivity.
  - exists d'. auto.
Qed.

(** Exactly what a range write does: bits [lowest, end) of v, where lowest is the start rounded
    down to a word boundary when both ends fall in the same word. *)
Lemma setRange_exact d a b v : wf d -> max a b <= 64 * length d ->
  exists d', setRange d a b v = Ok d' /\ length d' = length d /\ wf d' /\
    forall j, bit d' j =
      if ((if min a b / 64 =? max a b / 64 then 64 * (min a b / 64) else min a b) <=? j)
         && (j <? max a b) then v else bit d j.
Proof.
  intros Hwf Hmax. unfold setRange.
  replace (if b <? a then (b, a) else (a, b)) with (min a b, max a b)
    by (destruct (Nat.ltb_spec b a); f_equal; lia).
  assert (Hmm : min a b <= max a b) by lia.
  set (s := min a b) in *. set (e := max a b) in *. clearbody s e.
  destruct (set_loop d s (min e ((s / 64 + 1) * 64)) v) as (d1 & E1 & L1 & W1 & B1);
    [auto|lia|lia|].
  rewrite E1. cbn [bind].
  assert (G : exists d2, for_range (s / 64 + 1) (e / 64)
                (fun i d => wr d i (if v then ones64 else 0%N)) d1 = Ok d2 /\
              length d2 = length d1 /\ wf d2 /\
              forall j, bit d2 j = if (64 * (s / 64 + 1) <=? j) && (j <? 64 * (e / 64))
                                   then v else bit d1 j).
  { destruct (Nat.le_gt_cases (s / 64 + 1) (e / 64)) as [H|H].
    - apply word_loop; auto; lia.
    - rewrite for_range_empty by lia. exists d1. repeat split; auto. intros j.
      replace ((64 * (s / 64 + 1) <=? j) && (j <? 64 * (e / 64))) with false by lia. reflexivity. }
  destruct G as (d2 & E2 & L2 & W2 & B2). rewrite E2. cbn [bind].
  destruct (set_loop d2 (e / 64 * 64) e v) as (d3 & E3 & L3 & W3 & B3); [auto|lia|lia|].
  exists d3. split; [exact E3|]. split; [congruence|]. split; auto.
  intros j. rewrite B3, B2, B1.
  destruct (Nat.eqb_spec (s / 64) (e / 64)) as [Heq|Hne];
  destruct ((e / 64 * 64 <=? j) && (j <? e)) eqn:C1;
  destruct ((64 * (s / 64 + 1) <=? j) && (j <? 64 * (e / 64))) eqn:C2;
  destruct ((s <=? j) && (j <? min e ((s / 64 + 1) * 64))) eqn:C3;
  match goal with |- _ = if ?c then _ else _ => destruct c eqn:C4 end; auto; exfalso; lia.
Qed.

Lemma setRange_good d a b v : wf d -> max a b <= 64 * length d ->
  (min a b mod 64 = 0 \/ min a b / 64 < max a b / 64) ->
  exists d', setRange d a b v = Ok d' /\ length d' = length d /\ wf d' /\
    forall j, bit d' j = if (min a b <=? j) && (j <? max a b) then v else bit d j.
Proof.
  intros Hwf Hmax Hc. destruct (setRange_exact d a b v Hwf Hmax) as (d' & E & L & W & B).
  exists d'. repeat split; auto. intros j. rewrite B.
  destruct (Nat.eqb_spec (min a b / 64) (max a b / 64)); auto.
  replace (64 * (min a b / 64)) with (min a b) by lia. reflexivity.
Qed.

(** ** Shifts *)
Definition wsh (es ds : nat) (d : words) (k : nat) : N :=
  let t := (N.shiftl (nth (k - es) d 0%N) (N.of_nat ds) mod 2 ^ 64)%N in
  if es + 1 <=? k then N.lor t (N.shiftr (nth (k - es - 1) d 0%N) (N.of_nat (64 - ds))) else t.

Lemma wsh_bit es ds d k b : b < 64 -> ds < 64 -> es <= k -> wf d ->
  N.testbit (wsh es ds d k) (N.of_nat b) =
    if ds <=? b then N.testbit (nth (k - es) d 0%N) (N.of_nat (b - ds))
    else if es + 1 <=? k then N.testbit (nth (k - es - 1) d 0%N) (N.of_nat (b + 64 - ds)) else false.
Proof.
  intros Hb Hds Hk Hwf. unfold wsh.
  assert (HS : N.testbit (N.shiftl (nth (k - es) d 0) (N.of_nat ds) mod 2 ^ 64)%N (N.of_nat b)
               = if ds <=? b then N.testbit (nth (k - es) d 0%N) (N.of_nat (b - ds)) else false).
  { rewrite N.mod_pow2_bits_low by lia. destruct (Nat.leb_spec ds b).
    - rewrite N.shiftl_spec_high' by lia. f_equal. lia.
    - rewrite N.shiftl_spec_low by lia. reflexivity. }
  destruct (Nat.leb_spec (es + 1) k).
  - rewrite N.lor_spec, HS, N.shiftr_spec'.
    replace (N.of_nat b + N.of_nat (64 - ds))%N with (N.of_nat (b + 64 - ds)) by lia.
    destruct (Nat.leb_spec ds b).
    + rewrite (testbit_high _ (N.of_nat (b + 64 - ds))); [apply orb_false_r|apply wf_nth; auto|lia].
    + reflexivity.
  - exact HS.
Qed.

Lemma wsh_lt es ds d k : ds < 64 -> wf d -> (wsh es ds d k < 2 ^ 64)%N.
Proof.
  intros Hds Hwf. unfold wsh.
  assert (H1 : (N.shiftl (nth (k - es) d 0) (N.of_nat ds) mod 2 ^ 64 < 2 ^ 64)%N)
    by (apply N.mod_lt; discriminate).
  destruct (_ <=? _); auto.
  apply word_lt. intros j Hj. rewrite N.lor_spec, testbit_high by auto. cbn [orb].
  rewrite N.shiftr_spec'. apply testbit_high; [apply wf_nth; auto|lia].
Qed.

Lemma zero_loop d lo hi : wf d -> lo <= hi -> hi <= length d ->
  exists d', for_range lo hi (fun i d => wr d i 0%N) d = Ok d' /\
    length d' = length d /\ wf d' /\
    forall k, nth k d' 0%N = if (lo <=? k) && (k <? hi) then 0%N else nth k d 0%N.
Proof.
  intros Hwf Hle Hhi.
  destruct (for_range_inv
    (fun i d' => length d' = length d /\ wf d' /\
       forall k, nth k d' 0%N = if (lo <=? k) && (k <? i) then 0%N else nth k d 0%N)
    (fun i d => wr d i 0%N) lo hi d) as (d' & E & L & W & B); auto.
  - intros i d1 Hi (L & W & B). rewrite wr_Ok by lia. eexists. split; [reflexivity|].
    split; [rewrite upd_length; auto|]. split; [apply wf_upd; auto; reflexivity|].
    intros k. rewrite nth_upd, B.
    destruct (Nat.eqb_spec i k); subst.
    + replace (k <? length d1) with true by lia. cbn [andb].
      replace ((lo <=? k) && (k <? S k)) with true by lia. reflexivity.
    + cbn [andb]. replace (k <? S i) with (k <? i) by lia. reflexivity.
  - split; auto. split; auto. intros k.
    replace ((lo <=? k) && (k <? lo)) with false by lia. reflexivity.
  - exists d'; auto.
Qed.

Lemma shl_pos_words d s : wf d -> s mod 64 <> 0 \/ length d <= s / 64 + 1 -> s / 64 <= length d ->
  exists d', shl_pos d s = Ok d' /\ length d' = length d /\ wf d' /\
    forall k, k < length d -> nth k d' 0%N = if k <? s / 64 then 0%N else wsh (s / 64) (s mod 64) d k.
Proof.
  intros Hwf Hds Hes. unfold shl_pos.
  set (es := s / 64) in *. set (ds := s mod 64) in *.
  assert (Hds' : ds < 64) by (unfold ds in *; lia). clearbody es ds.
  replace (es <=? length d) with true by lia.
  destruct (zero_loop d (length d - es) (length d)) as (d1 & E1 & L1 & W1 & B1); [auto|lia|lia|].
  rewrite E1. cbn [bind].
  match goal with |- context [for_down (length d) es ?body d1] => set (bdy := body) end.
  destruct (for_down_inv
    (fun i d' => length d' = length d /\ wf d' /\
       forall k, nth k d' 0%N = if (i <=? k) && (k <? length d) && (es <=? k)
                                then wsh es ds d k else nth k d1 0%N)
    bdy (length d) es d1) as (d2 & E2 & L2 & W2 & B2); auto.
  - intros i d' Hi (L & W & B). unfold bdy.
    rewrite (rd_Ok d' (i - es) 0%N) by lia. cbn [bind]. rewrite shl64_Ok by lia. cbn [bind].
    assert (Hlow : nth (i - es) d' 0%N = nth (i - es) d 0%N).
    { rewrite B. replace ((S i <=? i - es) && (i - es <? length d) && (es <=? i - es)) with false by lia.
      rewrite B1. replace ((length d - es <=? i - es) && (i - es <? length d)) with false by lia.
      reflexivity. }
    assert (Htmp : (if es + 1 <=? i
               then do hi <- rd d' (i - es - 1);
                    do t2 <- shr64 hi (64 - ds);
                    Ok (N.lor (N.shiftl (nth (i - es) d' 0) (N.of_nat ds) mod 2 ^ 64)%N t2)
               else Ok (N.shiftl (nth (i - es) d' 0) (N.of_nat ds) mod 2 ^ 64)%N) = Ok (wsh es ds d i)).
    { unfold wsh. rewrite Hlow. destruct (Nat.leb_spec (es + 1) i); auto.
      rewrite (rd_Ok d' (i - es - 1) 0%N) by lia. cbn [bind]. rewrite shr64_Ok by lia. cbn [bind].
      rewrite B. replace ((S i <=? i - es - 1) && (i - es - 1 <? length d) && (es <=? i - es - 1)) with false by lia.
      rewrite B1. replace ((length d - es <=? i - es - 1) && (i - es - 1 <? length d)) with false by lia.
      reflexivity. }
    rewrite Htmp. cbn [bind]. rewrite wr_Ok by lia. eexists. split; [reflexivity|].
    split; [rewrite upd_length; auto|]. split; [apply wf_upd; auto; apply wsh_lt; auto|].
    intros k. rewrite nth_upd, B.
    destruct (Nat.eqb_spec i k); subst.
    + replace (k <? length d') with true by lia. cbn [andb].
      replace ((k <=? k) && (k <? length d) && (es <=? k)) with true by lia. reflexivity.
    + cbn [andb]. replace (S i <=? k) with (i <=? k) by lia. reflexivity.
  - split; auto. split; auto. intros k.
    replace ((length d <=? k) && (k <? length d) && (es <=? k)) with false by lia. reflexivity.
  - rewrite E2. cbn [bind].
    destruct (zero_loop d2 0 es) as (d3 & E3 & L3 & W3 & B3); [auto|lia|lia|].
    exists d3. split; auto. split; [congruence|]. split; auto.
    intros k Hk. rewrite B3, B2. cbn [Nat.leb andb].
    destruct (Nat.ltb_spec k es); auto.
    replace ((es <=? k) && (k <? length d) && (es <=? k)) with true by lia. reflexivity.
Qed.

Lemma shl_pos_bits d s : wf d -> s mod 64 <> 0 \/ length d <= s / 64 + 1 -> s / 64 <= length d ->
  exists d', shl_pos d s = Ok d' /\ length d' = length d /\ wf d' /\
    forall j, j < 64 * length d -> bit d' j = if s <=? j then bit d (j - s) else false.
Proof.
  intros Hwf Hds Hes. destruct (shl_pos_words d s Hwf Hds Hes) as (d' & E & L & W & B).
  exists d'. repeat split; auto. intros j Hj. unfold bit. rewrite B by lia.
  destruct (Nat.ltb_spec (j / 64) (s / 64)).
  - rewrite N.bits_0. destruct (Nat.leb_spec s j); auto. exfalso; lia.
  - rewrite wsh_bit by (auto; lia).
    destruct (Nat.leb_spec (s mod 64) (j mod 64)).
    + destruct (Nat.leb_spec s j); [|exfalso; lia].
      f_equal; [f_equal; lia|lia].
    + destruct (Nat.leb_spec (s / 64 + 1) (j / 64)); destruct (Nat.leb_spec s j); auto; try (exfalso; lia).
      f_equal; [f_equal; lia|lia].
Qed.

Definition wshr (es ds : nat) (d : words) (k : nat) : N :=
  let t := N.shiftr (nth (k + es) d 0%N) (N.of_nat ds) in
  if k + es + 1 <? length d
  then N.lor t (N.shiftl (nth (k + es + 1) d 0%N) (N.of_nat (64 - ds)) mod 2 ^ 64)%N else t.

Lemma wshr_bit es ds d k b : b < 64 -> ds < 64 -> wf d ->
  N.testbit (wshr es ds d k) (N.of_nat b) =
    if b + ds <? 64 then N.testbit (nth (k + es) d 0%N) (N.of_nat (b + ds))
    else N.testbit (nth (k + es + 1) d 0%N) (N.of_nat (b + ds - 64)).
Proof.
  intros Hb Hds Hwf. unfold wshr.
  assert (H1 : N.testbit (N.shiftr (nth (k + es) d 0%N) (N.of_nat ds)) (N.of_nat b)
               = if b + ds <? 64 then N.testbit (nth (k + es) d 0%N) (N.of_nat (b + ds)) else false).
  { rewrite N.shiftr_spec'. replace (N.of_nat b + N.of_nat ds)%N with (N.of_nat (b + ds)) by lia.
    destruct (Nat.ltb_spec (b + ds) 64); auto. apply testbit_high; [apply wf_nth; auto|lia]. }
  destruct (Nat.ltb_spec (k + es + 1) (length d)).
  - rewrite N.lor_spec, H1, N.mod_pow2_bits_low by lia.
    destruct (Nat.ltb_spec (b + ds) 64).
    + rewrite N.shiftl_spec_low by lia. apply orb_false_r.
    + rewrite N.shiftl_spec_high' by lia. cbn [orb]. f_equal. lia.
  - rewrite H1. destruct (Nat.ltb_spec (b + ds) 64); auto.
    rewrite nth_overflow by lia. rewrite N.bits_0. reflexivity.
Qed.

Lemma wshr_lt es ds d k : ds < 64 -> wf d -> (wshr es ds d k < 2 ^ 64)%N.
Proof.
  intros Hds Hwf. unfold wshr.
  assert (H1 : (N.shiftr (nth (k + es) d 0) (N.of_nat ds) < 2 ^ 64)%N).
  { apply word_lt. intros j Hj. rewrite N.shiftr_spec'. apply testbit_high; [apply wf_nth; auto|lia]. }
  destruct (_ <? _); auto.
  apply word_lt. intros j Hj. rewrite N.lor_spec, testbit_high by auto. cbn [orb].
  apply N.mod_pow2_bits_high; auto.
Qed.

Lemma shr_pos_words d s : wf d -> s mod 64 <> 0 \/ length d <= s / 64 + 1 -> s / 64 <= length d ->
  exists d', shr_pos d s = Ok d' /\ length d' = length d /\ wf d' /\
    forall k, k < length d ->
      nth k d' 0%N = if k <? length d - s / 64 then wshr (s / 64) (s mod 64) d k else 0%N.
Proof.
  intros Hwf Hds Hes. unfold shr_pos.
  set (es := s / 64) in *. set (ds := s mod 64) in *.
  assert (Hds' : ds < 64) by (unfold ds in *; lia). clearbody es ds.
  destruct (zero_loop d 0 es) as (d1 & E1 & L1 & W1 & B1); [auto|lia|lia|].
  rewrite E1. cbn [bind].
  match goal with |- context [for_range 0 (length d - es) ?body d1] => set (bdy := body) end.
  destruct (for_range_inv
    (fun i d' => length d' = length d /\ wf d' /\
       forall k, nth k d' 0%N = if k <? i then wshr es ds d k else nth k d1 0%N)
    bdy 0 (length d - es) d1) as (d2 & E2 & L2 & W2 & B2); [lia| | |].
  - intros i d' Hi (L & W & B). unfold bdy.
    rewrite (rd_Ok d' (i + es) 0%N) by lia. cbn [bind]. rewrite shr64_Ok by lia. cbn [bind].
    assert (Hrd : forall k, i <= k -> es <= k -> nth k d' 0%N = nth k d 0%N).
    { intros k Hk Hk2. rewrite B. replace (k <? i) with false by lia. rewrite B1.
      replace ((0 <=? k) && (k <? es)) with false by lia. reflexivity. }
    assert (Htmp : (if i + es + 1 <? length d
               then do hi <- rd d' (i + es + 1);
                    do t2 <- shl64 hi (64 - ds);
                    Ok (N.lor (N.shiftr (nth (i + es) d' 0) (N.of_nat ds))%N t2)
               else Ok (N.shiftr (nth (i + es) d' 0) (N.of_nat ds))%N) = Ok (wshr es ds d i)).
    { unfold wshr. rewrite (Hrd (i + es)) by lia. destruct (Nat.ltb_spec (i + es + 1) (length d)); auto.
      rewrite (rd_Ok d' (i + es + 1) 0%N) by lia. cbn [bind]. rewrite shl64_Ok by lia. cbn [bind].
      rewrite Hrd by lia. reflexivity. }
    rewrite Htmp. cbn [bind]. rewrite wr_Ok by lia. eexists. split; [reflexivity|].
    split; [rewrite upd_length; auto|]. split; [apply wf_upd; auto; apply wshr_lt; auto|].
    intros k. rewrite nth_upd, B.
    destruct (Nat.eqb_spec i k); subst.
    + replace (k <? length d') with true by lia. cbn [andb].
      replace (k <? S k) with true by lia. reflexivity.
    + cbn [andb]. replace (k <? S i) with (k <? i) by lia. reflexivity.
  - split; auto.
  - rewrite E2. cbn [bind].
    destruct (zero_loop d2 (length d - es) (length d)) as (d3 & E3 & L3 & W3 & B3); [auto|lia|lia|].
    exists d3. split; auto. split; [congruence|]. split; auto.
    intros k Hk. rewrite B3, B2.
    destruct (Nat.ltb_spec k (length d - es)).
    + replace ((length d - es <=? k) && (k <? length d)) with false by lia. reflexivity.
    + replace ((length d - es <=? k) && (k <? length d)) with true by lia. reflexivity.
Qed.

Lemma shr_pos_bits d s : wf d -> s mod 64 <> 0 \/ length d <= s / 64 + 1 -> s / 64 <= length d ->
  exists d', shr_pos d s = Ok d' /\ length d' = length d /\ wf d' /\
    forall j, j < 64 * length d -> bit d' j = bit d (j + s).
Proof.
  intros Hwf Hds Hes. destruct (shr_pos_words d s Hwf Hds Hes) as (d' & E & L & W & B).
  exists d'. repeat split; auto. intros j Hj. unfold bit. rewrite B by lia.
  destruct (Nat.ltb_spec (j / 64) (length d - s / 64)).
  - rewrite wshr_bit by (auto; lia).
    destruct (Nat.ltb_spec (j mod 64 + s mod 64) 64).
    + f_equal; [f_equal; lia|lia].
    + f_equal; [f_equal; lia|lia].
  - rewrite N.bits_0. rewrite (nth_overflow d) by lia. rewrite N.bits_0. reflexivity.
Qed.

(** *** The remaining distances are undefined *)
Lemma for_from_app {T} n m i (body : nat -> T -> outcome T) s :
  for_from (n + m) i body s = bind (for_from n i body s) (for_from m (i + n) body).
Proof.
  revert i s; induction n as [|n IH]; intros i s; cbn.
  - rewrite Nat.add_0_r. reflexivity.
  - destruct (body i s); cbn; auto. rewrite IH. replace (i + S n) with (S i + n) by lia. reflexivity.
Qed.

Lemma zero_loop_UB d hi : wf d -> length d < hi -> for_range 0 hi (fun i d => wr d i 0%N) d = UB.
Proof.
  intros Hwf H. unfold for_range. replace (hi - 0) with (length d + (1 + (hi - 1 - length d))) by lia.
  rewrite for_from_app.
  destruct (zero_loop d 0 (length d)) as (d1 & E1 & L1 & W1 & B1); [auto|lia|lia|].
  unfold for_range in E1. rewrite Nat.sub_0_r in E1. rewrite E1. cbn [bind].
  cbn [for_from Nat.add]. rewrite wr_UB by lia. reflexivity.
Qed.

Lemma shl_pos_UB d s : wf d -> 0 < s ->
  length d < s / 64 \/ (s mod 64 = 0 /\ s / 64 + 1 < length d) -> shl_pos d s = UB.
Proof.
  intros Hwf Hs [H|[H0 H]]; unfold shl_pos; set (es := s / 64) in *; set (ds := s mod 64) in *.
  - clearbody es ds. replace (es <=? length d) with false by lia. cbn [bind].
    rewrite for_down_empty by lia. cbn [bind]. apply zero_loop_UB; auto.
  - clearbody es ds. subst ds. replace (es <=? length d) with true by lia.
    destruct (zero_loop d (length d - es) (length d)) as (d1 & E1 & L1 & W1 & B1); [auto|lia|lia|].
    rewrite E1. cbn [bind]. unfold for_down.
    replace (length d - es) with (S (length d - es - 1)) by lia. cbn [for_down_n].
    set (i := es + (length d - es - 1)) in *.
    rewrite (rd_Ok d1 (i - es) 0%N) by lia. cbn [bind]. rewrite shl64_Ok by lia. cbn [bind].
    replace (es + 1 <=? i) with true by lia.
    rewrite (rd_Ok d1 (i - es - 1) 0%N) by lia. cbn [bind]. reflexivity.
Qed.

Lemma shr_pos_UB d s : wf d -> 0 < s ->
  length d < s / 64 \/ (s mod 64 = 0 /\ s / 64 + 1 < length d) -> shr_pos d s = UB.
Proof.
  intros Hwf Hs [H|[H0 H]]; unfold shr_pos; set (es := s / 64) in *; set (ds := s mod 64) in *.
  - clearbody es ds. rewrite zero_loop_UB by auto. reflexivity.
  - clearbody es ds. subst ds.
    destruct (zero_loop d 0 es) as (d1 & E1 & L1 & W1 & B1); [auto|lia|lia|].
    rewrite E1. cbn [bind]. unfold for_range.
    replace (length d - es - 0) with (S (length d - es - 1)) by lia. cbn [for_from].
    rewrite (rd_Ok d1 (0 + es) 0%N) by lia. cbn [bind]. rewrite shr64_Ok by lia. cbn [bind].
    replace (0 + es + 1 <? length d) with true by lia.
    rewrite (rd_Ok d1 (0 + es + 1) 0%N) by lia. cbn [bind]. reflexivity.
Qed.


Lemma ok_bound n d i : ok n d -> i < n -> i < 64 * length d.
Proof. intros (L & _) H. rewrite L. pose proof (numElements_bound n). lia. Qed.

Lemma shl_get n d s : ok n d -> shift_defined n s ->
  exists d', shl d (Z.of_nat s) = Ok d' /\ length d' = length d /\ wf d' /\
    forall i, i < n -> get d' i = if s <=? i then get d (i - s) else Ok false.
Proof.
  intros Hok Hs. pose proof Hok as (HL & HW & HC). unfold shl.
  replace (Z.of_nat s =? int64_min)%Z with false by (unfold int64_min; lia).
  replace (Z.of_nat s <? 0)%Z with false by lia.
  destruct (Z.eqb_spec (Z.of_nat s) 0) as [E|E].
  - exists d. repeat split; auto. intros i Hi. replace (i - s) with i by lia.
    replace (s <=? i) with true by lia. reflexivity.
  - rewrite Nat2Z.id. destruct Hs as [->|[H1 H2]]; [lia|]. rewrite <- HL in *.
    destruct (shl_pos_bits d s HW H2 H1) as (d' & E' & L & W & B).
    exists d'. repeat split; auto. intros i Hi. pose proof (ok_bound n d i Hok Hi).
    rewrite get_spec by lia. rewrite B by lia.
    destruct (Nat.leb_spec s i); auto. rewrite get_spec by lia. reflexivity.
Qed.

Lemma shr_get n d s : ok n d -> shift_defined n s ->
  exists d', shr d (Z.of_nat s) = Ok d' /\ ok n d' /\
    forall i, i < n -> get d' i = if i + s <? n then get d (i + s) else Ok false.
Proof.
  intros Hok Hs. pose proof Hok as (HL & HW & HC). unfold shr.
  replace (Z.of_nat s =? int64_min)%Z with false by (unfold int64_min; lia).
  replace (Z.of_nat s <? 0)%Z with false by lia.
  destruct (Z.eqb_spec (Z.of_nat s) 0) as [E|E].
  - exists d. repeat split; auto. intros i Hi. replace (i + s) with i by lia.
    replace (i <? n) with true by lia. reflexivity.
  - rewrite Nat2Z.id. destruct Hs as [->|[H1 H2]]; [lia|]. rewrite <- HL in *.
    destruct (shr_pos_bits d s HW H2 H1) as (d' & E' & L & W & B).
    exists d'. split; auto. split.
    { split; [congruence|]. split; auto. intros j Hj.
      destruct (Nat.lt_ge_cases j (64 * length d)).
      - rewrite B by auto. apply HC. lia.
      - unfold bit. rewrite nth_overflow by lia. apply N.bits_0. }
    intros i Hi. pose proof (ok_bound n d i Hok Hi).
    rewrite get_spec by lia. rewrite B by lia.
    destruct (Nat.ltb_spec (i + s) n).
    + rewrite (ok_get n) by auto. reflexivity.
    + rewrite HC by lia. reflexivity.
Qed.

Lemma shift_neg d s : (Z.abs s < 2 ^ 63)%Z -> shl d (- s) = shr d s /\ shr d (- s) = shl d s.
Proof.
  intros H. unfold shl, shr, int64_min.
  replace (s =? - 2 ^ 63)%Z with false by lia.
  replace (- s =? - 2 ^ 63)%Z with false by lia.
  destruct (Z.ltb_spec s 0), (Z.ltb_spec (- s) 0); try lia;
  destruct (Z.eqb_spec s 0), (Z.eqb_spec (- s) 0); try lia; auto;
  rewrite Z.opp_involutive; auto.
Qed.

Lemma shl_undefined n d s : ok n d -> ~ shift_defined n s -> shl d (Z.of_nat s) = UB.
Proof.
  intros (HL & HW & HC) Hs. unfold shift_defined in Hs. unfold shl.
  replace (Z.of_nat s =? int64_min)%Z with false by (unfold int64_min; lia).
  replace (Z.of_nat s <? 0)%Z with false by lia.
  replace (Z.of_nat s =? 0)%Z with false by lia. rewrite Nat2Z.id.
  apply shl_pos_UB; auto; rewrite ?HL; lia.
Qed.
Lemma shr_undefined n d s : ok n d -> ~ shift_defined n s -> shr d (Z.of_nat s) = UB.
Proof.
  intros (HL & HW & HC) Hs. unfold shift_defined in Hs. unfold shr.
  replace (Z.of_nat s =? int64_min)%Z with false by (unfold int64_min; lia).
  replace (Z.of_nat s <? 0)%Z with false by lia.
  replace (Z.of_nat s =? 0)%Z with false by lia. rewrite Nat2Z.id.
  apply shr_pos_UB; auto; rewrite ?HL; lia.
Qed.

(** ** Complement *)
Lemma highMask_bit n k : N.testbit (highMask n) (N.of_nat k) = (k <? n mod 64).
Proof.
  unfold highMask. generalize (n mod 64) as m. intros m.
  assert (G : forall l acc, N.testbit (fold_left (fun res i => N.lor res (N.shiftl 1 (N.of_nat i))) l acc)
                (N.of_nat k) = N.testbit acc (N.of_nat k) || existsb (Nat.eqb k) l).
  { induction l as [|i l IH]; intros acc; cbn [fold_left existsb]; [rewrite orb_false_r; auto|].
    rewrite IH, N.lor_spec, N.shiftl_1_l, N.pow2_bits_eqb, <- orb_assoc. f_equal. f_equal.
    destruct (N.eqb_spec (N.of_nat i) (N.of_nat k)), (Nat.eqb_spec k i); auto; lia. }
  rewrite G, N.bits_0. cbn [orb].
  destruct (Nat.ltb_spec k m).
  - apply existsb_exists. exists k. split; [apply in_seq; lia|apply Nat.eqb_refl].
  - destruct (existsb _ _) eqn:E; auto. apply existsb_exists in E. destruct E as (x & Hx & E).
    apply in_seq in Hx. apply Nat.eqb_eq in E. lia.
Qed.

Lemma map_not_bit d j : j < 64 * length d -> bit (map not64 d) j = negb (bit d j).
Proof.
  intros H. unfold bit. rewrite (nth_indep _ _ (not64 0%N)) by (rewrite map_length; lia).
  rewrite map_nth. apply not64_bit. lia.
Qed.
Lemma map_not_wf d : wf d -> wf (map not64 d).
Proof.
  intros H. apply Forall_forall. intros x Hx. apply in_map_iff in Hx.
  destruct Hx as (w & <- & Hw). apply not64_lt. exact (proj1 (Forall_forall _ _) H _ Hw).
Qed.

Lemma compl_bits n d : 0 < n -> length d = numElements n -> wf d ->
  exists d', compl n d = Ok d' /\ length d' = numElements n /\ wf d' /\
    forall j, j < 64 * length d ->
      bit d' j = if j / 64 =? numElements n - 1 then negb (bit d j) && (j mod 64 <? n mod 64)
                 else negb (bit d j).
Proof.
  intros Hn HL HW. pose proof (numElements_bound n) as HB. unfold compl.
  rewrite (rd_Ok _ _ 0%N) by (rewrite map_length; lia). cbn [bind].
  rewrite wr_Ok by (rewrite map_length; lia). eexists. split; [reflexivity|].
  split; [rewrite upd_length, map_length; auto|].
  assert (Hw : wf (map not64 d)) by (apply map_not_wf; auto).
  split.
  { apply wf_upd; auto. apply word_lt. intros k Hk. rewrite N.land_spec.
    rewrite testbit_high; auto. apply wf_nth; auto. }
  intros j Hj. unfold bit at 1. rewrite nth_upd, map_length.
  rewrite (Nat.eqb_sym (numElements n - 1)).
  destruct (Nat.eqb_spec (j / 64) (numElements n - 1)) as [E|E].
  - replace (numElements n - 1 <? length d) with true by lia. cbn [andb].
    rewrite N.land_spec, highMask_bit. rewrite <- E. fold (bit (map not64 d) j).
    rewrite map_not_bit by auto. reflexivity.
  - cbn [andb]. fold (bit (map not64 d) j). apply map_not_bit; auto.
Qed.

Lemma compl_ok n d : n mod 64 <> 0 -> ok n d ->
  exists d', compl n d = Ok d' /\ ok n d' /\ forall i, i < n -> bit d' i = negb (bit d i).
Proof.
  intros Hn (HL & HW & HC). assert (0 < n) by lia.
  destruct (compl_bits n d) as (d' & E & L & W & B); auto.
  exists d'. split; auto. unfold numElements in *. split.
  - split; auto. split; auto. intros j Hj.
    destruct (Nat.lt_ge_cases j (64 * length d)).
    + rewrite B by auto. destruct (Nat.eqb_spec (j / 64) ((n + 64 - 1) / 64 - 1)); [|exfalso; lia].
      replace (j mod 64 <? n mod 64) with false by lia. apply andb_false_r.
    + unfold bit. rewrite nth_overflow by lia. apply N.bits_0.
  - intros i Hi. rewrite B by lia.
    destruct (Nat.eqb_spec (i / 64) ((n + 64 - 1) / 64 - 1)); auto.
    replace (i mod 64 <? n mod 64) with true by lia. apply andb_true_r.
Qed.

Lemma count_compl f g n : (forall i, i < n -> g i = negb (f i)) -> count_bits f n + count_bits g n = n.
Proof.
  unfold count_bits. intros H. induction n as [|n IH]; [reflexivity|].
  rewrite seq_S, !filter_app, !app_length, Nat.add_0_l. cbn [filter].
  rewrite (H n) by lia. specialize (IH ltac:(intros; apply H; lia)).
  destruct (f n); cbn [negb length]; lia.
Qed.

Theorem compl_all n d : n mod 64 <> 0 -> ok n d ->
  exists d', compl n d = Ok d' /\ ok n d' /\
    (forall i, i < n -> get d' i = omap negb (get d i)) /\
    compl n d' = Ok d /\ popCount d + popCount d' = n.
Proof.
  intros Hn Hok. destruct (compl_ok n d Hn Hok) as (d' & E & Hok' & B).
  destruct (compl_ok n d' Hn Hok') as (d'' & E'' & Hok'' & B'').
  exists d'. split; auto. split; auto. split; [|split].
  - intros i Hi. rewrite !(ok_get n) by auto. rewrite B by auto. reflexivity.
  - rewrite E''. f_equal. apply (ok_ext n); auto. intros i Hi. rewrite B'', B by auto.
    apply negb_involutive.
  - destruct Hok as (L & W & C). destruct Hok' as (L' & W' & C').
    rewrite !(popCount_clean n) by auto. apply count_compl. exact B.
Qed.

(** When n is a multiple of 64 the last 64 positions of the complement read false. *)
Lemma compl_mult64 n d : 0 < n -> n mod 64 = 0 -> ok n d ->
  exists d', compl n d = Ok d' /\
    forall i, i < n -> get d' i = if n - 64 <=? i then Ok false else omap negb (get d i).
Proof.
  intros Hn H0 (HL & HW & HC). destruct (compl_bits n d) as (d' & E & L & W & B); auto.
  exists d'. split; auto. intros i Hi. unfold numElements in *.
  rewrite !get_spec by lia. rewrite B by lia. cbn [omap bind].
  destruct (Nat.eqb_spec (i / 64) ((n + 64 - 1) / 64 - 1)), (Nat.leb_spec (n - 64) i); try (exfalso; lia); auto.
  replace (i mod 64 <? n mod 64) with false by lia. rewrite andb_false_r. reflexivity.
Qed.

(** ** all *)
Lemma ones_iff w : (w < 2 ^ 64)%N ->
  (w =? ones64)%N = forallb (fun b => N.testbit w (N.of_nat b)) (seq 0 64).
Proof.
  intros Hw. destruct (N.eqb_spec w ones64) as [->|H].
  - reflexivity.
  - symmetry. destruct (forallb _ _) eqn:E; auto. exfalso. apply H.
    apply word_ext; [auto|reflexivity|]. intros b Hb.
    rewrite forallb_forall in E. rewrite E by (apply in_seq; lia).
    unfold ones64. rewrite N.ones_spec_low by lia. reflexivity.
Qed.

Lemma forallb_seq_ext f g a n :
  (forall j, a <= j < a + n -> f j = g j) -> forallb f (seq a n) = forallb g (seq a n).
Proof.
  revert a; induction n as [|n IH]; intros a H; cbn; auto.
  rewrite (H a) by lia. f_equal. apply IH. intros; apply H; lia.
Qed.
Lemma forallb_map' {A B} (f : A -> B) p l : forallb p (map f l) = forallb (fun x => p (f x)) l.
Proof. induction l; cbn; congruence. Qed.

Lemma all_raw d : wf d -> all d = forallb (bit d) (seq 0 (64 * length d)).
Proof.
  induction d as [|w d IH]; intros Hwf; [reflexivity|].
  inversion Hwf; subst. cbn [length].
  replace (64 * S (length d)) with (64 + 64 * length d) by lia.
  rewrite seq_app_len, forallb_app. unfold all. cbn [forallb]. apply (f_equal2 andb).
  - rewrite ones_iff by auto. apply forallb_seq_ext.
    intros j Hj. rewrite bit_cons_low; auto; lia.
  - unfold all in IH. rewrite IH by auto.
    replace (seq (0 + 64) (64 * length d)) with (map (fun i => 64 + i) (seq 0 (64 * length d)))
      by (rewrite <- seq_shift_k; reflexivity).
    rewrite forallb_map'. apply forallb_seq_ext. intros j _. rewrite bit_cons_high. reflexivity.
Qed.

Lemma all_mult64 n d : n mod 64 = 0 -> ok n d -> all d = forallb (bit d) (seq 0 n).
Proof.
  intros Hn (HL & HW & HC). rewrite all_raw by auto. f_equal. f_equal.
  rewrite HL. unfold numElements. lia.
Qed.
Lemma all_never n d : n mod 64 <> 0 -> ok n d -> all d = false.
Proof.
  intros Hn (HL & HW & HC). rewrite all_raw by auto.
  destruct (forallb _ _) eqn:E; auto. rewrite forallb_forall in E.
  rewrite <- (HC n) by lia. symmetry. apply E. apply in_seq. rewrite HL. unfold numElements. lia.
Qed.

(** ** first / last *)
Lemma lowBitFrom_spec w k j : match lowBitFrom k j w with
  | Some b => j <= b < j + k /\ N.testbit w (N.of_nat b) = true /\
              forall i, j <= i < b -> N.testbit w (N.of_nat i) = false
  | None => forall i, j <= i < j + k -> N.testbit w (N.of_nat i) = false
  end.
Proof.
  revert j; induction k as [|k IH]; intros j; cbn [lowBitFrom].
  - intros; lia.
  - destruct (N.testbit w (N.of_nat j)) eqn:E.
    + split; [lia|]. split; auto. intros; lia.
    + specialize (IH (S j)). destruct (lowBitFrom k (S j) w).
      * destruct IH as (H1 & H2 & H3). split; [lia|]. split; auto. intros i Hi.
        destruct (Nat.eq_dec i j); subst; auto. apply H3; lia.
      * intros i Hi. destruct (Nat.eq_dec i j); subst; auto. apply IH; lia.
Qed.
Lemma highBitFrom_spec w k : match highBitFrom k w with
  | Some b => b < k /\ N.testbit w (N.of_nat b) = true /\
              forall i, b < i < k -> N.testbit w (N.of_nat i) = false
  | None => forall i, i < k -> N.testbit w (N.of_nat i) = false
  end.
Proof.
  induction k as [|k IH]; cbn [highBitFrom].
  - intros; lia.
  - destruct (N.testbit w (N.of_nat k)) eqn:E.
    + split; [lia|]. split; auto. intros; lia.
    + destruct (highBitFrom k w).
      * destruct IH as (H1 & H2 & H3). split; [lia|]. split; auto. intros i Hi.
        destruct (Nat.eq_dec i k); subst; auto. apply H3; lia.
      * intros i Hi. destruct (Nat.eq_dec i k); subst; auto. apply IH; lia.
Qed.
Lemma no_bits_zero w : (w < 2 ^ 64)%N -> (forall i, i < 64 -> N.testbit w (N.of_nat i) = false) -> w = 0%N.
Proof. intros Hw H. apply word_ext; [auto|reflexivity|]. intros b Hb. rewrite H, N.bits_0; auto. Qed.

Lemma first_from_spec d n : wf d -> forall i,
  (first_from i d n = n /\ forall j, j < 64 * length d -> bit d j = false) \/
  (exists b, first_from i d n = i * 64 + b /\ b < 64 * length d /\ bit d b = true /\
     forall j, j < b -> bit d j = false).
Proof.
  induction d as [|w d IH]; intros Hwf i; cbn [first_from].
  - left. split; auto. cbn; intros; lia.
  - inversion Hwf as [|? ? Hw Hwf']; subst. specialize (IH Hwf' (S i)).
    assert (Hskip : w = 0%N ->
      (first_from (S i) d n = n /\ forall j, j < 64 * length (w :: d) -> bit (w :: d) j = false) \/
      (exists b, first_from (S i) d n = i * 64 + b /\ b < 64 * length (w :: d) /\
         bit (w :: d) b = true /\ forall j, j < b -> bit (w :: d) j = false)).
    { intros ->. cbn [length].
      assert (Hs : forall j, 64 <= j -> bit (0%N :: d) j = bit d (j - 64)).
      { intros j Hj. replace j with (64 + (j - 64)) at 1 by lia. apply bit_cons_high. }
      assert (Hl : forall j, j < 64 -> bit (0%N :: d) j = false).
      { intros j Hj. rewrite bit_cons_low by auto. apply N.bits_0. }
      destruct IH as [[E H]|(b & E & Hb & Hbit & Hlow)].
      - left. split; auto. intros j Hj. destruct (Nat.lt_ge_cases j 64); auto.
        rewrite Hs by auto. apply H. lia.
      - right. exists (64 + b). split; [rewrite E; lia|]. split; [lia|]. split.
        + rewrite bit_cons_high. auto.
        + intros j Hj. destruct (Nat.lt_ge_cases j 64); auto. rewrite Hs by auto. apply Hlow. lia. }
    destruct (N.eqb_spec w 0) as [E0|E0]; auto.
    pose proof (lowBitFrom_spec w 64 0) as HS. fold (lowBit w) in HS.
    destruct (lowBit w) as [b|].
    + right. destruct HS as (H1 & H2 & H3). exists b. split; auto. cbn [length]. split; [lia|].
      split; [rewrite bit_cons_low by lia; auto|]. intros j Hj.
      rewrite bit_cons_low by lia. apply H3. lia.
    + exfalso. apply E0. apply no_bits_zero; auto. intros; apply HS; lia.
Qed.

Lemma first_spec n d : ok n d ->
  (first n d = n /\ forall j, j < n -> bit d j = false) \/
  (first n d < n /\ bit d (first n d) = true /\ forall j, j < first n d -> bit d j = false).
Proof.
  intros (HL & HW & HC). unfold first. pose proof (numElements_bound n).
  destruct (first_from_spec d n HW 0) as [[E H1]|(b & E & Hb & Hbit & Hlow)]; rewrite E.
  - left. split; auto. intros j Hj. apply H1. lia.
  - right. rewrite Nat.mul_0_l, Nat.add_0_l. repeat split; auto.
    destruct (Nat.lt_ge_cases b n); auto. rewrite HC in Hbit by auto. discriminate.
Qed.

Lemma last_from_spec d k : wf d -> k <= length d ->
  (last_from k d = UB /\ forall j, j < 64 * k -> bit d j = false) \/
  (exists b, last_from k d = Ok b /\ b < 64 * k /\ bit d b = true /\
     forall j, b < j < 64 * k -> bit d j = false).
Proof.
  intros HW. induction k as [|k IH]; intros Hk; cbn [last_from].
  - left. split; auto. intros; lia.
  - rewrite (rd_Ok d k 0%N) by lia. cbn [bind]. set (w := nth k d 0%N).
    assert (Hw : (w < 2 ^ 64)%N) by (apply wf_nth; auto).
    assert (Hb : forall j, 64 * k <= j < 64 * S k -> bit d j = N.testbit w (N.of_nat (j - 64 * k))).
    { intros j Hj. unfold bit. replace (j / 64) with k by lia.
      replace (j mod 64) with (j - 64 * k) by lia. reflexivity. }
    destruct (N.eqb_spec w 0) as [E0|E0].
    + assert (Hz : forall j, 64 * k <= j < 64 * S k -> bit d j = false).
      { intros j Hj. rewrite Hb, E0 by auto. apply N.bits_0. }
      destruct IH as [[E H]|(b & E & H1 & H2 & H3)]; [lia| |].
      * left. split; auto. intros j Hj. destruct (Nat.lt_ge_cases j (64 * k)); auto.
      * right. exists b. split; auto. split; [lia|]. split; auto. intros j Hj.
        destruct (Nat.lt_ge_cases j (64 * k)); [apply H3; lia|apply Hz; lia].
    + pose proof (highBitFrom_spec w 64) as HS. fold (highBit w) in HS.
      destruct (highBit w) as [b|].
      * destruct HS as (H1 & H2 & H3). right. exists (b + k * 64). split; auto. split; [lia|]. split.
        -- rewrite Hb by lia. replace (b + k * 64 - 64 * k) with b by lia. auto.
        -- intros j Hj. rewrite Hb by lia. apply H3. lia.
      * exfalso. apply E0. apply no_bits_zero; auto.
Qed.

Lemma last_spec n d : ok n d ->
  (last d = UB /\ forall j, j < n -> bit d j = false) \/
  (exists b, last d = Ok b /\ b < n /\ bit d b = true /\ forall j, b < j < n -> bit d j = false).
Proof.
  intros (HL & HW & HC). unfold last. pose proof (numElements_bound n).
  destruct (last_from_spec d (length d) HW (le_n _)) as [[E H1]|(b & E & Hb & Hbit & Hlow)].
  - left. split; auto. intros j Hj. apply H1. lia.
  - right. exists b. split; auto. split.
    + destruct (Nat.lt_ge_cases b n); auto. rewrite HC in Hbit by auto. discriminate.
    + split; auto. intros j Hj. apply Hlow. lia.
Qed.

(** ** Logical operators *)
Lemma zip_low_length f d e : length (zip_low f d e) = length d.
Proof. revert e; induction d as [|x d IH]; intros [|y e]; cbn; auto. Qed.
Lemma zip_low_nth f d e k : k < length d ->
  nth k (zip_low f d e) 0%N = if k <? length e then f (nth k d 0%N) (nth k e 0%N) else nth k d 0%N.
Proof.
  revert e k; induction d as [|x d IH]; intros [|y e] [|k] H; cbn in *; auto; try lia.
  rewrite IH by lia. change (S k <? S (length e)) with (k <? length e). reflexivity.
Qed.
Lemma and_assign_length d e : length (and_assign d e) = length d.
Proof. revert e; induction d as [|x d IH]; intros [|y e]; cbn; auto. Qed.
Lemma and_assign_nth d e k :
  nth k (and_assign d e) 0%N = N.land (nth k d 0%N) (nth k e 0%N).
Proof.
  revert e k; induction d as [|x d IH]; intros [|y e] [|k]; cbn [and_assign nth]; auto;
    rewrite ?N.land_0_r, ?IH; auto.
  destruct k; cbn [nth]; rewrite N.land_0_r; reflexivity.
Qed.

Lemma bit_oob d j : 64 * length d <= j -> bit d j = false.
Proof. intros H. unfold bit. rewrite nth_overflow by lia. apply N.bits_0. Qed.

Lemma or_bit d e j : j < 64 * length d -> bit (or_assign d e) j = bit d j || bit e j.
Proof.
  intros H. unfold bit, or_assign. rewrite zip_low_nth by lia.
  destruct (Nat.ltb_spec (j / 64) (length e)); [apply N.lor_spec|].
  rewrite (nth_overflow e) by auto. rewrite N.bits_0, orb_false_r. reflexivity.
Qed.
Lemma xor_bit d e j : j < 64 * length d -> bit (xor_assign d e) j = xorb (bit d j) (bit e j).
Proof.
  intros H. unfold bit, xor_assign. rewrite zip_low_nth by lia.
  destruct (Nat.ltb_spec (j / 64) (length e)); [apply N.lxor_spec|].
  rewrite (nth_overflow e) by auto. rewrite N.bits_0, xorb_false_r. reflexivity.
Qed.
Lemma and_bit d e j : bit (and_assign d e) j = bit d j && bit e j.
Proof. unfold bit. rewrite and_assign_nth. apply N.land_spec. Qed.

Lemma wf_of_bits d : (forall k, (nth k d 0 < 2 ^ 64)%N) -> wf d.
Proof.
  intros H. apply Forall_forall. intros x Hx. destruct (In_nth _ _ 0%N Hx) as (i & Hi & <-). auto.
Qed.
Lemma zip_wf f d e : wf d -> wf e ->
  (forall x y, (x < 2 ^ 64 -> y < 2 ^ 64 -> f x y < 2 ^ 64)%N) -> wf (zip_low f d e).
Proof.
  intros Hd He Hf. apply wf_of_bits. intros k.
  destruct (Nat.lt_ge_cases k (length d)).
  - rewrite zip_low_nth by auto. destruct (_ <? _); [apply Hf|]; apply wf_nth; auto.
  - rewrite nth_overflow by (rewrite zip_low_length; auto). reflexivity.
Qed.
Lemma lor_lt x y : (x < 2 ^ 64 -> y < 2 ^ 64 -> N.lor x y < 2 ^ 64)%N.
Proof. intros. apply word_lt. intros k Hk. rewrite N.lor_spec, !testbit_high; auto. Qed.
Lemma lxor_lt x y : (x < 2 ^ 64 -> y < 2 ^ 64 -> N.lxor x y < 2 ^ 64)%N.
Proof. intros. apply word_lt. intros k Hk. rewrite N.lxor_spec, !testbit_high; auto. Qed.
Lemma and_wf d e : wf d -> wf (and_assign d e).
Proof.
  intros Hd. apply wf_of_bits. intros k. rewrite and_assign_nth.
  apply word_lt. intros j Hj. rewrite N.land_spec, testbit_high; auto. apply wf_nth; auto.
Qed.

Lemma posn_bit d i : posn d i = bit d i.
Proof.
  unfold posn. destruct (Nat.lt_ge_cases i (64 * length d)).
  - rewrite get_spec by auto. reflexivity.
  - rewrite get_oob, bit_oob by auto. reflexivity.
Qed.

Theorem logic_read n m d e i : ok n d -> ok m e -> i < n ->
  get (or_assign d e) i = Ok (posn d i || posn e i) /\
  get (xor_assign d e) i = Ok (xorb (posn d i) (posn e i)) /\
  get (and_assign d e) i = Ok (posn d i && posn e i).
Proof.
  intros Hd He Hi. pose proof (ok_bound n d i Hd Hi). rewrite !posn_bit.
  rewrite !get_spec; rewrite ?and_assign_length; unfold or_assign, xor_assign;
    rewrite ?zip_low_length; auto.
  fold (or_assign d e) (xor_assign d e).
  rewrite or_bit, xor_bit, and_bit by auto. auto.
Qed.

Theorem logic_ok n m d e : ok n d -> ok m e ->
  ok n (and_assign d e) /\ (m <= n -> ok n (or_assign d e) /\ ok n (xor_assign d e)).
Proof.
  intros (L & W & C) (L' & W' & C'). split; [|intros Hmn; split].
  - split; [rewrite and_assign_length; auto|]. split; [apply and_wf; auto|].
    intros j Hj. rewrite and_bit, C by auto. reflexivity.
  - unfold or_assign. split; [rewrite zip_low_length; auto|]. split; [apply zip_wf; auto using lor_lt|].
    intros j Hj. fold (or_assign d e). destruct (Nat.lt_ge_cases j (64 * length d)).
    + rewrite or_bit, C, C' by (auto; lia). reflexivity.
    + apply bit_oob. unfold or_assign. rewrite zip_low_length; auto.
  - unfold xor_assign. split; [rewrite zip_low_length; auto|]. split; [apply zip_wf; auto using lxor_lt|].
    intros j Hj. fold (xor_assign d e). destruct (Nat.lt_ge_cases j (64 * length d)).
    + rewrite xor_bit, C, C' by (auto; lia). reflexivity.
    + apply bit_oob. unfold xor_assign. rewrite zip_low_length; auto.
Qed.

(** ** Equality *)
Lemma bs_eqb_eq d e : length d = length e -> BitSetModel.eqb d e = true <-> d = e.
Proof.
  revert e; induction d as [|x d IH]; intros [|y e] H; cbn in *; try discriminate; [tauto|].
  rewrite andb_true_iff, N.eqb_eq, IH by auto. split; [intros [-> ->]; auto|].
  intros E; inversion E; auto.
Qed.
Theorem bs_eqb_spec n d e : ok n d -> ok n e ->
  (BitSetModel.eqb d e = true <-> forall i, i < n -> get d i = get e i).
Proof.
  intros Hd He. rewrite bs_eqb_eq by (destruct Hd, He; congruence). split.
  - intros ->; auto.
  - intros H. apply (ok_ext n); auto. intros i Hi. specialize (H i Hi).
    rewrite !(ok_get n) in H by auto. congruence.
Qed.

(** ** Text *)
Lemma for_down_n_str d n : n <= 64 * length d -> forall acc,
  for_down_n n 0 (fun i acc => do b <- get d i; Ok (acc ++ [if b then char1 else char0])) acc
  = Ok (acc ++ map (fun i => if bit d i then char1 else char0) (rev (seq 0 n))).
Proof.
  induction n as [|n IH]; intros Hn acc; cbn [for_down_n].
  - cbn. rewrite app_nil_r. reflexivity.
  - rewrite Nat.add_0_l, get_spec by lia. cbn [bind]. rewrite IH by lia.
    rewrite seq_S, rev_app_distr. cbn [rev app map Nat.add]. rewrite <- app_assoc. reflexivity.
Qed.

Lemma str_spec n d : ok n d ->
  str n d = Ok (map (fun i => if bit d i then char1 else char0) (rev (seq 0 n))).
Proof.
  intros (L & W & C). unfold str, for_down. pose proof (numElements_bound n).
  rewrite for_down_n_str by lia. cbn [app]. rewrite Nat.sub_0_r. reflexivity.
Qed.

Lemma nth_rev_seq n i : i < n -> nth_error (rev (seq 0 n)) i = Some (n - i - 1).
Proof.
  intros H. rewrite (nth_error_nth' _ 0) by (rewrite rev_length, seq_length; auto).
  rewrite rev_nth by (rewrite seq_length; auto). rewrite seq_length.
  rewrite seq_nth by lia. f_equal. lia.
Qed.

(** Position j of the text of length len denotes bit len-1-j. *)
Definition text_bit (s : list ascii) (j : nat) : bool :=
  match nth_error s (length s - j - 1) with Some c => (j <? length s) && Ascii.eqb c char1 | None => false end.

Lemma of_string_good n s : length s <= n -> Forall (fun c => c = char0 \/ c = char1) s ->
  exists d, of_string n s = Ok d /\ ok n d /\ forall j, bit d j = text_bit s j.
Proof.
  intros Hlen HF. unfold of_string. pose proof (numElements_bound n) as HB.
  match goal with |- context [for_range 0 _ ?b _] => set (bdy := b) end.
  destruct (for_range_inv
    (fun i d => length d = numElements n /\ wf d /\
       forall j, bit d j = (length s - i <=? j) && text_bit s j)
    bdy 0 (length s) (empty n)) as (d & E & L & W & B); [lia| | |].
  - intros i d Hi (L & W & B). unfold bdy.
    destruct (nth_error s i) as [c|] eqn:Ec; [|apply nth_error_None in Ec; lia].
    assert (Htb : text_bit s (length s - i - 1) = Ascii.eqb c char1).
    { unfold text_bit. replace (length s - (length s - i - 1) - 1) with i by lia. rewrite Ec.
      replace (length s - i - 1 <? length s) with true by lia. reflexivity. }
    assert (Hc : c = char0 \/ c = char1).
    { exact (proj1 (Forall_forall _ _) HF _ (nth_error_In _ _ Ec)). }
    destruct Hc as [-> | ->].
    + cbn [Ascii.eqb]. exists d. split; [reflexivity|]. repeat split; auto. intros j. rewrite B.
      destruct (Nat.eq_dec j (length s - i - 1)) as [->|Hne].
      * rewrite Htb. rewrite !andb_false_r. reflexivity.
      * replace (length s - S i <=? j) with (length s - i <=? j) by lia. reflexivity.
    + change (Ascii.eqb char1 char0) with false. change (Ascii.eqb char1 char1) with true. cbv iota.
      destruct (set1_spec d (length s - i - 1) true) as (d' & E & L' & W' & B'); [lia|auto|].
      exists d'. split; auto. split; [congruence|]. split; auto. intros j. rewrite B', B.
      destruct (Nat.eqb_spec j (length s - i - 1)) as [->|Hne].
      * rewrite Htb. replace (length s - S i <=? length s - i - 1) with true by lia. reflexivity.
      * replace (length s - S i <=? j) with (length s - i <=? j) by lia. reflexivity.
  - split; [apply empty_length|]. split; [apply empty_wf|]. intros j. rewrite empty_bit.
    rewrite Nat.sub_0_r. unfold text_bit. destruct (Nat.leb_spec (length s) j); auto.
    destruct (nth_error s (length s - j - 1)); auto.
    replace (j <? length s) with false by lia. reflexivity.
  - assert (B' : forall j, bit d j = text_bit s j).
    { intros j. rewrite B. replace (length s - length s <=? j) with true by lia. reflexivity. }
    exists d. split; auto. split; auto. split; auto. split; auto. intros j Hj. rewrite B'.
    unfold text_bit. destruct (nth_error _ _); auto. replace (j <? length s) with false by lia. reflexivity.
Qed.

Lemma of_string_bad n s : length s <= n -> ~ Forall (fun c => c = char0 \/ c = char1) s ->
  of_string n s = Throw RuntimeError.
Proof.
  intros Hlen HF. unfold of_string. pose proof (numElements_bound n) as HB.
  match goal with |- context [for_range 0 _ ?b _] => set (bdy := b) end.
  unfold for_range. rewrite Nat.sub_0_r.
  assert (G : forall k i d, i + k = length s -> length d = numElements n -> wf d ->
             ~ Forall (fun c => c = char0 \/ c = char1) (skipn i s) ->
             for_from k i bdy d = Throw RuntimeError).
  { induction k as [|k IH]; intros i d Hk L W HN.
    - exfalso. apply HN. rewrite skipn_all2 by lia. constructor.
    - cbn [for_from]. unfold bdy at 1.
      destruct (nth_error s i) as [c|] eqn:Ec; [|apply nth_error_None in Ec; lia].
      assert (Hsk : skipn i s = c :: skipn (S i) s).
      { clear - Ec. revert i Ec; induction s as [|a s IHs]; intros [|i] E; cbn in *; try discriminate.
        - congruence. - auto. }
      destruct (Ascii.eqb_spec c char0) as [->|H0].
      + cbn [bind]. apply IH; auto; [lia|]. intros HF'. apply HN. rewrite Hsk. constructor; auto.
      + destruct (Ascii.eqb_spec c char1) as [->|H1]; [|reflexivity].
        destruct (set1_spec d (length s - i - 1) true) as (d' & E & L' & W' & B'); [lia|auto|].
        rewrite E. cbn [bind]. apply IH; auto; [lia|congruence|].
        intros HF'. apply HN. rewrite Hsk. constructor; auto. }
  apply G; auto using empty_length, empty_wf.
Qed.

Theorem text_roundtrip n d : ok n d ->
  exists s, str n d = Ok s /\ length s = n /\
    (forall i, i < n -> nth_error s i =
        Some (if posn d (n - 1 - i) then char1 else char0)) /\
    of_string n s = Ok d.
Proof.
  intros Hok. rewrite (str_spec n d Hok).
  set (s := map _ _).
  assert (HL : length s = n) by (unfold s; rewrite map_length, rev_length, seq_length; auto).
  assert (HN : forall i, i < n -> nth_error s i = Some (if bit d (n - i - 1) then char1 else char0)).
  { intros i Hi. unfold s. apply map_nth_error with (f := fun i => if bit d i then char1 else char0).
    apply nth_rev_seq. auto. }
  exists s. split; auto. split; auto. split.
  - intros i Hi. rewrite HN by auto. rewrite posn_bit. replace (n - 1 - i) with (n - i - 1) by lia. reflexivity.
  - destruct (of_string_good n s) as (d' & E & Hok' & B).
    + lia.
    + apply Forall_forall. intros c Hc. unfold s in Hc. apply in_map_iff in Hc.
      destruct Hc as (x & <- & _). destruct (bit d x); auto.
    + rewrite E. f_equal. apply (ok_ext n); auto. intros i Hi. rewrite B.
      unfold text_bit. rewrite HL, HN by lia. replace (i <? n) with true by lia.
      replace (n - (n - i - 1) - 1) with i by lia. destruct (bit d i); reflexivity.
Qed.

(** ** API-level statements *)
Lemma setRange_all n d a b v : ok n d -> max a b <= n ->
  exists d', setRange d a b v = Ok d' /\ ok n d' /\
    forall j, j < n -> get d' j =
      if ((if min a b / 64 =? max a b / 64 then 64 * (min a b / 64) else min a b) <=? j)
         && (j <? max a b) then Ok v else get d j.
Proof.
  intros Hok Hm. pose proof Hok as (L & W & C). pose proof (numElements_bound n).
  destruct (setRange_exact d a b v) as (d' & E & L' & W' & B); [auto|lia|].
  exists d'. split; auto. split.
  - split; [congruence|]. split; auto. intros j Hj. rewrite B.
    replace (j <? max a b) with false by lia. rewrite andb_false_r. auto.
  - intros j Hj. rewrite get_spec by lia. rewrite B.
    rewrite (ok_get n d j) by auto. destruct (_ && _); reflexivity.
Qed.
Lemma setRange_partial n d a b v : ok n d -> max a b <= n ->
  (min a b mod 64 = 0 \/ min a b / 64 < max a b / 64) ->
  exists d', setRange d a b v = Ok d' /\ ok n d' /\
    forall j, j < n -> get d' j = if (min a b <=? j) && (j <? max a b) then Ok v else get d j.
Proof.
  intros Hok Hm Hc. destruct (setRange_all n d a b v Hok Hm) as (d' & E & O & B).
  exists d'. split; auto. split; auto. intros j Hj. rewrite B by auto.
  destruct (Nat.eqb_spec (min a b / 64) (max a b / 64)); auto.
  replace (64 * (min a b / 64)) with (min a b) by lia. reflexivity.
Qed.
Lemma setRange_refuted : exists n d a b d' j, ok n d /\ a <= n /\ b <= n /\ setRange d a b true = Ok d' /\
    j < n /\ ~ (min a b <= j < max a b) /\ get d j = Ok false /\ get d' j = Ok true.
Proof.
  exists 20, (empty 20), 5, 10, [1023%N], 0. split; [apply ok_empty|].
  repeat split; try lia; vm_compute; reflexivity.
Qed.

Lemma shift_undefined n d s : ok n d -> ~ shift_defined n s ->
  shl d (Z.of_nat s) = UB /\ shr d (Z.of_nat s) = UB.
Proof. intros. split; [apply (shl_undefined n)|apply (shr_undefined n)]; auto. Qed.
Lemma shift_64_undefined : ok 192 (empty 192) /\ ~ shift_defined 192 64.
Proof. split; [apply ok_empty|]. unfold shift_defined. change (numElements 192) with 3. change (64 / 64) with 1. change (64 mod 64) with 0. lia. Qed.

Lemma ok_single n w : 0 < n <= 64 -> (w < 2 ^ 64)%N ->
  (forall j, n <= j < 64 -> N.testbit w (N.of_nat j) = false) -> ok n [w].
Proof.
  intros Hn Hw H. split; [unfold numElements; cbn [length]; lia|]. split; [repeat constructor; auto|].
  intros j Hj. destruct (Nat.lt_ge_cases j 64).
  - rewrite bit_cons_low by auto. apply H; lia.
  - apply bit_oob. cbn [length]. lia.
Qed.
Lemma ok_single_check n w : 0 < n <= 64 -> (w <? 2 ^ 64)%N = true ->
  forallb (fun j => negb (N.testbit w (N.of_nat j))) (seq n (64 - n)) = true -> ok n [w].
Proof.
  intros Hn Hw H. apply ok_single; auto; [lia|]. intros j Hj. rewrite forallb_forall in H.
  apply negb_true_iff. apply H. apply in_seq. lia.
Qed.
Lemma forall_below_check n (p : nat -> bool) : forallb p (seq 0 n) = true -> forall i, i < n -> p i = true.
Proof. intros H i Hi. rewrite forallb_forall in H. apply H. apply in_seq. lia. Qed.

Lemma get_const_check n d b :
  forallb (fun i => match get d i with Ok c => Bool.eqb c b | _ => false end) (seq 0 n) = true ->
  forall i, i < n -> get d i = Ok b.
Proof.
  intros H i Hi. pose proof (forall_below_check _ _ H i Hi) as G. cbv beta in G.
  destruct (get d i); try discriminate. apply eqb_prop in G. congruence.
Qed.

Lemma shl_shr_refuted : exists n d s d1 d2 i, ok n d /\ shift_defined n s /\ shl d (Z.of_nat s) = Ok d1 /\
    shr d1 (Z.of_nat s) = Ok d2 /\ i < n /\ n <= i + s /\ get d2 i = Ok true /\
    (forall j, j < n -> get d1 j = Ok false) /\ popCount d1 = 1.
Proof.
  exists 10, [512%N], 1, [1024%N], [512%N], 9.
  split; [apply ok_single_check; [lia|reflexivity|reflexivity]|].
  split; [right; change (numElements 10) with 1; change (1 / 64) with 0; change (1 mod 64) with 1; lia|].
  split; [vm_compute; reflexivity|]. split; [vm_compute; reflexivity|].
  split; [lia|]. split; [lia|]. split; [vm_compute; reflexivity|].
  split; [apply get_const_check; vm_compute; reflexivity|vm_compute; reflexivity].
Qed.

Lemma ok_mult64 n d : n mod 64 = 0 -> length d = numElements n -> wf d -> ok n d.
Proof.
  intros Hn HL HW. split; auto. split; auto. intros j Hj. apply bit_oob. rewrite HL.
  unfold numElements. lia.
Qed.

Lemma shl_shr_mult64 n d s : ok n d -> shift_defined n s -> n mod 64 = 0 ->
  exists d1 d2, shl d (Z.of_nat s) = Ok d1 /\ ok n d1 /\ shr d1 (Z.of_nat s) = Ok d2 /\ ok n d2 /\
    forall i, i < n -> get d2 i = if i + s <? n then get d i else Ok false.
Proof.
  intros Hok Hs Hn. destruct (shl_get n d s Hok Hs) as (d1 & E1 & L1 & W1 & B1).
  assert (Hok1 : ok n d1) by (apply ok_mult64; auto; destruct Hok; congruence).
  destruct (shr_get n d1 s Hok1 Hs) as (d2 & E2 & O2 & B2).
  exists d1, d2. split; auto. split; auto. split; auto. split; auto. intros i Hi. rewrite B2 by auto.
  destruct (Nat.ltb_spec (i + s) n); auto. rewrite B1 by auto.
  replace (s <=? i + s) with true by lia. f_equal. lia.
Qed.

Lemma all_iff n d : n mod 64 = 0 -> ok n d -> (all d = true <-> forall i, i < n -> get d i = Ok true).
Proof.
  intros Hn Hok. rewrite (all_mult64 n) by auto. rewrite forallb_forall. split; intros H i Hi.
  - rewrite (ok_get n) by auto. f_equal. apply H. apply in_seq. lia.
  - apply in_seq in Hi. specialize (H i ltac:(lia)). rewrite (ok_get n) in H by (auto; lia). congruence.
Qed.
Lemma all_refuted : (forall n d, n mod 64 <> 0 -> ok n d -> all d = false) /\
  (exists d, ok 10 d /\ forall i, i < 10 -> get d i = Ok true).
Proof.
  split; [exact all_never|]. exists [1023%N].
  split; [apply ok_single_check; [lia|reflexivity|reflexivity]|].
  apply get_const_check. vm_compute. reflexivity.
Qed.

Lemma first_get n d : ok n d ->
  (first n d = n /\ forall j, j < n -> get d j = Ok false) \/
  (first n d < n /\ get d (first n d) = Ok true /\ forall j, j < first n d -> get d j = Ok false).
Proof.
  intros Hok. destruct (first_spec n d Hok) as [[E H]|(H1 & H2 & H3)]; [left|right].
  - split; auto. intros j Hj. rewrite (ok_get n), H by auto. reflexivity.
  - split; auto. split; [rewrite (ok_get n), H2 by auto; reflexivity|].
    intros j Hj. rewrite (ok_get n) by (auto; lia). rewrite H3 by auto. reflexivity.
Qed.
Lemma last_nonempty n d : ok n d -> (exists i, i < n /\ get d i = Ok true) ->
  exists b, last d = Ok b /\ b < n /\ get d b = Ok true /\ forall j, b < j < n -> get d j = Ok false.
Proof.
  intros Hok (i & Hi & Gi). rewrite (ok_get n) in Gi by auto.
  destruct (last_spec n d Hok) as [[E H]|(b & E & H1 & H2 & H3)].
  - rewrite H in Gi by auto. discriminate.
  - exists b. split; auto. split; auto. split; [rewrite (ok_get n), H2 by auto; auto|].
    intros j Hj. rewrite (ok_get n), H3 by (auto; lia). reflexivity.
Qed.
Lemma last_empty n d : ok n d -> (forall i, i < n -> get d i = Ok false) -> last d = UB.
Proof.
  intros Hok H. destruct (last_spec n d Hok) as [[E _]|(b & E & H1 & H2 & H3)]; auto.
  specialize (H b H1). rewrite (ok_get n) in H by auto. congruence.
Qed.
Lemma empty_reads n i : i < n -> get (empty n) i = Ok false.
Proof. intros H. rewrite (ok_get n) by auto using ok_empty. rewrite empty_bit. reflexivity. Qed.

Lemma or_stray_refuted : exists n m d e, ok n d /\ ok m e /\ n < m /\
    (forall i, i < n -> get (or_assign d e) i = Ok false) /\
    popCount (or_assign d e) = 1 /\ popCount (xor_assign d e) = 1 /\ any (or_assign d e) = true.
Proof.
  exists 10, 20, [0%N], [32768%N].
  split; [apply ok_single_check; [lia|reflexivity|reflexivity]|].
  split; [apply ok_single_check; [lia|reflexivity|reflexivity]|].
  split; [lia|]. split; [apply get_const_check; vm_compute; reflexivity|].
  repeat split; vm_compute; reflexivity.
Qed.
