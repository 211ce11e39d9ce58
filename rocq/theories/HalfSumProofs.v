(** halfAdd: the sum is correctly rounded (ties away from zero). *)
From Verif Require Import Base BaseProofs HalfModel HalfSpec HalfBits HalfConvProofs HalfProofs HalfAddProofs.
From Coq Require Import ZifyNat ZifyN ZifyBool.
Ltac Zify.zify_post_hook ::= idtac.
Local Open Scope Z_scope.

(** ** Correct rounding *)
Definition add_pack (s3 e3 m3 : Z) : Z := w16 (Z.lor (s3 * 2 ^ 15) (w16 (Z.lor (w16 (e3 * 2 ^ 10)) m3))).
Lemma add_pack_ok s e m : hfields s e m -> add_pack s e m = hpack s e m.
Proof.
  intros (Hs & He & Hm). unfold add_pack. rewrite (w16_id (e * 2 ^ 10)) by lia. rewrite (lor_add e m 10) by lia. rewrite (w16_id (e * 2 ^ 10 + m)) by lia.
  rewrite (lor_add s _ 15) by lia. rewrite w16_id by lia. unfold hpack. lia.
Qed.

Definition rounded_to (s3 e3 m3 x : Z) : Prop :=
  add_pack s3 e3 m3 = hpack s3 e3 m3 /\ hfields s3 e3 m3 /\ half_finite (hpack s3 e3 m3) /\
  let sx := if s3 =? 0 then x else - x in
  nearest 1 (hpack s3 e3 m3) sx /\ ties_away 1 (hpack s3 e3 m3) sx.

Lemma finish_normal s3 e1 N x : 0 <= s3 < 2 -> 1 <= e1 <= 31 -> 1024 <= N <= 2048 -> 0 <= x < overflow_threshold ->
  2 ^ (e1 + 9) <= x -> 2 * (x - N * 2 ^ (e1 - 1)) < 2 ^ (e1 - 1) -> 2 * (N * 2 ^ (e1 - 1) - x) <= 2 ^ (e1 - 1) ->
  rounded_to s3 (if N =? 2048 then e1 + 1 else e1) (if N =? 2048 then 0 else N - 1024) x.
Proof.
  intros Hs He HN Hx Hbig H1 H2. unfold overflow_threshold in Hx.
  assert (E30 : e1 <= 30). { destruct (Z.le_gt_cases e1 30); auto. exfalso. replace e1 with 31 in Hbig by lia. change (2 ^ (31 + 9)) with (2 ^ 40) in Hbig. lia. }
  assert (E31 : N = 2048 -> e1 < 30). { intros ->. destruct (Z.lt_ge_cases e1 30); auto. exfalso. replace e1 with 30 in H2 by lia. change (2 ^ (30 - 1)) with (2 ^ 29) in H2. lia. }
  set (e3 := if N =? 2048 then e1 + 1 else e1). set (m3 := if N =? 2048 then 0 else N - 1024).
  assert (HF : hfields s3 e3 m3). { unfold hfields, e3, m3. destruct (N =? 2048) eqn:E; lia. }
  destruct (hpack_fields _ _ _ HF) as (B16 & P1 & P2 & P3).
  assert (Fin : half_finite (hpack s3 e3 m3)). { unfold half_finite. rewrite P2. unfold e3. destruct (N =? 2048) eqn:E; lia. }
  split; [apply add_pack_ok; auto|]. split; [auto|]. split; [auto|].
  assert (HM : half_magnitude (hpack s3 e3 m3) = N * 2 ^ (e1 - 1)).
  { unfold half_magnitude. rewrite P2, P3. unfold e3, m3. destruct (N =? 2048) eqn:Eq.
    - replace (e1 + 1 =? 0) with false by lia. replace N with 2048 by lia. replace (e1 + 1 - 1) with (1 + (e1 - 1)) by lia. rewrite Z.pow_add_r by lia. change (2 ^ 1) with 2. lia.
    - replace (e1 =? 0) with false by lia. f_equal. lia. }
  pose proof (nearest_away 1 (hpack s3 e3 m3) x N (e1 - 1)) as NA. rewrite P1 in NA. apply NA; auto; try lia.
  right. replace (e1 - 1 + 10) with (e1 + 9) by lia. lia.
Qed.

Lemma finish_exact s3 N : 0 <= s3 < 2 -> 0 <= N < 2048 -> rounded_to s3 (if N <? 1024 then 0 else 1) (N mod 1024) N.
Proof.
  intros Hs HN. set (e3 := if N <? 1024 then 0 else 1).
  assert (Hm : N mod 1024 = if N <? 1024 then N else N - 1024).
  { destruct (N <? 1024) eqn:E; [apply Z.mod_small; lia|]. apply mod_unique_small with 1; lia. }
  assert (HF : hfields s3 e3 (N mod 1024)). { unfold hfields, e3. rewrite Hm. destruct (N <? 1024) eqn:E; lia. }
  destruct (hpack_fields _ _ _ HF) as (B16 & P1 & P2 & P3).
  assert (Fin : half_finite (hpack s3 e3 (N mod 1024))). { unfold half_finite. rewrite P2. unfold e3. destruct (N <? 1024) eqn:E; lia. }
  split; [apply add_pack_ok; auto|]. split; [auto|]. split; [auto|].
  assert (HM : half_magnitude (hpack s3 e3 (N mod 1024)) = N * 2 ^ 0).
  { unfold half_magnitude. rewrite P2, P3, Hm. unfold e3. destruct (N <? 1024) eqn:E; [change (0 =? 0) with true|change (1 =? 0) with false; change (1 - 1) with 0]; cbv iota; lia. }
  pose proof (nearest_away 1 (hpack s3 e3 (N mod 1024)) N N 0) as NA. rewrite P1 in NA. apply NA; auto; try lia.
Qed.

(** Round half up of V / P to a multiple of 8, seen through an approximation c1 of V / P. *)
Lemma round8 c1 P V g : 0 < P ->
  (c1 * P <= V < (c1 + 1) * P) \/ ((g = 1 \/ g = 2) /\ c1 mod (2 * g) = g /\ (c1 - g) * P < V < (c1 + g) * P) ->
  let N := (c1 + 4) / 8 in 2 * (V - 8 * N * P) < 8 * P /\ 2 * (8 * N * P - V) <= 8 * P.
Proof.
  intros HP H N. pose proof (Z.div_mod (c1 + 4) 8 ltac:(lia)) as D. pose proof (Z.mod_pos_bound (c1 + 4) 8 ltac:(lia)) as R. fold N in D.
  set (r := (c1 + 4) mod 8) in *. clearbody N r.
  destruct H as [H|(Hg & Hp & H)].
  - assert (8 * N - 4 <= c1 <= 8 * N + 3) by lia. split; nia.
  - assert (Q : c1 - g >= 8 * N - 4 /\ c1 + g <= 8 * N + 4).
    { pose proof (Z.div_mod c1 (2 * g) ltac:(lia)) as D2. rewrite Hp in D2. set (w := c1 / (2 * g)) in *. clearbody w. destruct Hg as [-> | ->]; lia. }
    clear Hp D R. split; nia.
Qed.

Lemma add_round_N c1 : 0 <= c1 < 2 ^ 14 -> let c2 := c1 + c1 mod 8 in let N := (c1 + 4) / 8 in
  c2 / 8 = N /\ (2 ^ 14 <= c2 <-> N = 2048) /\ 0 <= N <= 2048 /\ (2 ^ 13 <= c1 -> 1024 <= N).
Proof.
  intros H c2 N. pose proof (Z.div_mod c1 8 ltac:(lia)) as D. pose proof (Z.mod_pos_bound c1 8 ltac:(lia)) as R.
  set (t := c1 / 8) in *. set (r := c1 mod 8) in *.
  assert (EN : N = if r <? 4 then t else t + 1).
  { unfold N. destruct (r <? 4) eqn:E; [apply div_unique_small with (r + 4); lia|apply div_unique_small with (r - 4); lia]. }
  assert (E2 : c2 / 8 = N).
  { rewrite EN. unfold c2. destruct (r <? 4) eqn:E; [apply div_unique_small with (2 * r); lia|apply div_unique_small with (2 * r - 8); lia]. }
  split; [exact E2|]. unfold c2 in *. clearbody N t r. destruct (r <? 4) eqn:E; lia.
Qed.

(** [add_round] when the significand is normalised. *)
Lemma add_round_normal ea c e c1 e1 : 0 <= c < 2 ^ 15 ->
  c1 = (if 2 ^ 14 <=? c then c / 2 else c) -> e1 = (if 2 ^ 14 <=? c then e + 1 else e) -> 2 ^ 13 <= c1 -> ea <> 0 ->
  let N := (c1 + 4) / 8 in 1024 <= N <= 2048 /\ add_round ea c e = (if N =? 2048 then e1 + 1 else e1, if N =? 2048 then 0 else N - 1024).
Proof.
  intros Hc E1 E2 Hn Hea N. assert (R1 : 0 <= c1 < 2 ^ 14).
  { rewrite E1. destruct (2 ^ 14 <=? c) eqn:E; [|lia]. split; [apply Z.div_pos; lia|apply Z.div_lt_upper_bound; lia]. }
  destruct (add_round_N c1 R1) as (Q1 & Q2 & Q3 & Q4). fold N in Q1, Q2, Q3, Q4. split; [lia|].
  unfold add_round. rewrite <- E1, <- E2. replace (ea =? 0) with false by lia. cbn [andb]. rewrite Q1.
  destruct (N =? 2048) eqn:EN.
  - replace (2 ^ 14 <=? c1 + c1 mod 8) with true by lia. replace N with 2048 by lia. reflexivity.
  - replace (2 ^ 14 <=? c1 + c1 mod 8) with false by lia. f_equal. apply mod_unique_small with 1; lia.
Qed.
(** ... and when it is a subnormal, an exact multiple of 8. *)
Lemma add_round_exact ea N : 0 <= N < 2048 -> (ea = 0 \/ N < 1024) -> add_round ea (8 * N) 0 = (if N <? 1024 then 0 else 1, N mod 1024).
Proof.
  intros HN He. unfold add_round. replace (2 ^ 14 <=? 8 * N) with false by lia.
  assert (M : (8 * N) mod 8 = 0) by (rewrite Z.mul_comm; apply Z.mod_mul; lia). rewrite M, Z.add_0_r.
  replace (2 ^ 14 <=? 8 * N) with false by lia. rewrite Z.mul_comm, Z.div_mul by lia. f_equal.
  destruct (N <? 1024) eqn:E; [replace ((ea =? 0) && (2 ^ 13 <=? N * 8)) with false by lia|replace ((ea =? 0) && (2 ^ 13 <=? N * 8)) with true by lia]; reflexivity.
Qed.

(** What jamming keeps. *)
Lemma jam_exact b d : 0 <= d -> b mod 2 ^ d = 0 -> jam b d * 2 ^ d = b.
Proof.
  intros Hd E. unfold jam. rewrite E. change (0 =? 0) with true. cbv iota. pose proof (pow_pos d Hd).
  pose proof (Z.div_mod b (2 ^ d) ltac:(lia)). lia.
Qed.
Lemma jam_sticky b d : 0 <= b -> 0 <= d -> b mod 2 ^ d <> 0 ->
  jam b d mod 2 = 1 /\ (jam b d = b / 2 ^ d \/ jam b d = b / 2 ^ d + 1) /\ (jam b d - 1) * 2 ^ d < b < (jam b d + 1) * 2 ^ d /\
  jam b d / 2 = b / 2 ^ d / 2.
Proof.
  intros Hb Hd N. unfold jam. replace (b mod 2 ^ d =? 0) with false by lia. pose proof (pow_pos d Hd).
  pose proof (Z.div_mod b (2 ^ d) ltac:(lia)) as D. pose proof (Z.mod_pos_bound b (2 ^ d) ltac:(lia)) as R.
  set (q := b / 2 ^ d) in *. assert (0 <= q) by (apply Z.div_pos; lia).
  pose proof (Z.div_mod q 2 ltac:(lia)) as D2. pose proof (Z.mod_pos_bound q 2 ltac:(lia)) as R2.
  assert (L : Z.lor q 1 = 2 * (q / 2) + 1).
  { replace q with (q / 2 * 2 ^ 1 + q mod 2) at 1 by (change (2 ^ 1) with 2; lia). rewrite <- lor_add by (change (2 ^ 1) with 2; lia).
    rewrite <- Z.lor_assoc. replace (Z.lor (q mod 2) 1) with 1. { rewrite lor_add by (change (2 ^ 1) with 2; lia). change (2 ^ 1) with 2. lia. }
    assert (q mod 2 = 0 \/ q mod 2 = 1) as [-> | ->] by lia; reflexivity. }
  rewrite L. set (t := q / 2) in *. clearbody t q. split; [apply mod_unique_small with t; lia|]. split; [lia|]. split; [nia|].
  apply div_unique_small with 1; lia.
Qed.

Lemma rescale k x N G V P F : 0 <= k -> 0 < G -> 0 < F -> 8 * x * G = V * F -> 2 ^ k * G = P * F ->
  2 * (V - 8 * N * P) < 8 * P -> 2 * (8 * N * P - V) <= 8 * P -> 2 ^ 13 * P <= V ->
  2 ^ (k + 10) <= x /\ 2 * (x - N * 2 ^ k) < 2 ^ k /\ 2 * (N * 2 ^ k - x) <= 2 ^ k.
Proof.
  intros Hk HG HF E1 E2 H1 H2 H3. set (Q := 2 ^ k) in *. rewrite Z.pow_add_r by lia. fold Q. change (2 ^ 10) with 1024. change (2 ^ 13) with 8192 in H3.
  assert (K1 : 2 * (V - 8 * N * P) * F < 8 * P * F) by (apply Z.mul_lt_mono_pos_r; auto).
  assert (K2 : 2 * (8 * N * P - V) * F <= 8 * P * F) by (apply Z.mul_le_mono_nonneg_r; auto; lia).
  assert (K3 : 8192 * P * F <= V * F) by (apply Z.mul_le_mono_nonneg_r; auto; lia). clear H1 H2 H3.
  assert (A1 : 2 * (V - 8 * N * P) * F = 2 * (8 * x - 8 * N * Q) * G).
  { transitivity (2 * (V * F) - 16 * N * (P * F)); [ring|]. rewrite <- E1, <- E2. ring. }
  assert (A2 : 2 * (8 * N * P - V) * F = 2 * (8 * N * Q - 8 * x) * G).
  { transitivity (16 * N * (P * F) - 2 * (V * F)); [ring|]. rewrite <- E1, <- E2. ring. }
  assert (A3 : 8 * P * F = 8 * Q * G). { transitivity (8 * (P * F)); [ring|]. rewrite <- E2. ring. }
  assert (A4 : 8192 * P * F = 8192 * Q * G). { transitivity (8192 * (P * F)); [ring|]. rewrite <- E2. ring. }
  rewrite A1, A3 in K1. rewrite A2, A3 in K2. rewrite A4, <- E1 in K3.
  apply Z.mul_lt_mono_pos_r in K1; [|lia]. apply Z.mul_le_mono_pos_r in K2; [|lia]. apply Z.mul_le_mono_pos_r in K3; [|lia]. lia.
Qed.

(** Common to both cases: a normalised significand c1 whose quotient V / P is what it stands for. *)
Lemma normal_case s3 ea c e c1 e1 x G V P F g : 0 <= s3 < 2 -> 0 <= c < 2 ^ 15 ->
  c1 = (if 2 ^ 14 <=? c then c / 2 else c) -> e1 = (if 2 ^ 14 <=? c then e + 1 else e) -> 2 ^ 13 <= c1 -> ea <> 0 -> 1 <= e1 <= 31 ->
  0 < P -> 0 < G -> 0 < F -> 8 * x * G = V * F -> 2 ^ (e1 - 1) * G = P * F -> 2 ^ 13 * P <= V -> 0 <= x < overflow_threshold ->
  (c1 * P <= V < (c1 + 1) * P) \/ ((g = 1 \/ g = 2) /\ c1 mod (2 * g) = g /\ (c1 - g) * P < V < (c1 + g) * P) ->
  let '(e3, m3) := add_round ea c e in rounded_to s3 e3 m3 x.
Proof.
  intros Hs Hc E1 E2 Hn Hea He HP HG HF Q1 Q2 Q3 Hx Ap.
  destruct (add_round_normal ea c e c1 e1 Hc E1 E2 Hn Hea) as (RN & ->).
  destruct (round8 c1 P V g HP Ap) as (R1 & R2).
  destruct (rescale (e1 - 1) x ((c1 + 4) / 8) G V P F ltac:(lia) HG HF Q1 Q2 R1 R2 Q3) as (T1 & T2 & T3).
  replace (e1 - 1 + 10) with (e1 + 9) in T1 by lia. apply finish_normal; auto.
Qed.

Lemma same_core s3 ea ma eb mb x : 0 <= s3 < 2 -> 0 <= ma < 1024 -> 0 <= mb < 1024 -> 0 <= eb <= ea -> ea <= 30 ->
  x = signif ea ma * 2 ^ (Z.max ea 1 - 1) + signif eb mb * 2 ^ (Z.max eb 1 - 1) -> x < overflow_threshold ->
  let '(e3, m3) := add_round ea (8 * signif ea ma + jam (8 * signif eb mb) (Z.max ea 1 - Z.max eb 1)) ea in rounded_to s3 e3 m3 x.
Proof.
  intros Hs Hma Hmb Heb Hea Ex Hx.
  pose proof (signif_range ea ma Hma) as RA. pose proof (signif_range eb mb Hmb) as RB.
  set (Eb := Z.max eb 1) in *. set (E := Z.max ea 1) in *. set (d := E - Eb). assert (Hd : 0 <= d) by lia.
  destruct (Z.eq_dec ea 0) as [Z0|NZ].
  - assert (eb = 0) by lia. assert (d = 0) by lia. subst ea eb. unfold E, Eb in Ex. change (2 ^ (Z.max 0 1 - 1)) with 1 in Ex. rewrite H0.
    unfold jam. change (2 ^ 0) with 1. rewrite Z.mod_1_r, Z.div_1_r. change (0 =? 0) with true. cbv iota. unfold signif in *. change (0 =? 0) with true in *. cbv iota in *.
    replace (8 * (0 + ma) + 8 * (0 + mb)) with (8 * (ma + mb)) by lia. rewrite add_round_exact by lia. replace x with (ma + mb) by lia. apply finish_exact; lia.
  - assert (E = ea) by lia. assert (A10 : 1024 <= signif ea ma < 2048). { unfold signif in *. replace (ea =? 0) with false in * by lia. lia. }
    set (Ma := signif ea ma) in *. set (Mb := signif eb mb) in *. set (F := 2 ^ (Eb - 1)). set (P := 2 ^ d).
    assert (HF : 0 < F) by (apply pow_pos; lia). assert (HP : 0 < P) by (apply pow_pos; lia).
    assert (PF : 2 ^ (ea - 1) = P * F). { unfold P, F. rewrite <- Z.pow_add_r by lia. f_equal. lia. }
    assert (E8 : 8 * x = (8 * Ma * P + 8 * Mb) * F). { rewrite Ex, H, PF. fold F. ring. }
    set (B := jam (8 * Mb) d). set (c := 8 * Ma + B). set (V := 8 * Ma * P + 8 * Mb) in *.
    assert (RBj : 0 <= B < 2 ^ 14) by (apply jam_range; lia).
    assert (x0 : 0 <= x). { assert (0 <= V * F) by nia. lia. }
    assert (V13 : 2 ^ 13 * P <= V). { assert (1024 * P <= Ma * P) by (apply Z.mul_le_mono_nonneg_r; lia). unfold V. lia. }
    assert (Cmp : B * P = 8 * Mb \/ (B mod 2 = 1 /\ (B - 1) * P < 8 * Mb < (B + 1) * P /\ B / 2 * (2 * P) <= 8 * Mb < (B / 2 + 1) * (2 * P))).
    { destruct (Z.eq_dec ((8 * Mb) mod 2 ^ d) 0) as [X|X]. { left. apply jam_exact; auto. }
      right. destruct (jam_sticky (8 * Mb) d ltac:(lia) Hd X) as (J1 & J2 & J3 & J4). fold B P in J1, J2, J3, J4. split; [auto|]. split; [auto|].
      rewrite J4. pose proof (Z.div_mod (8 * Mb) P ltac:(lia)) as D1. pose proof (Z.mod_pos_bound (8 * Mb) P HP) as D2.
      set (q := 8 * Mb / P) in *. set (rr := (8 * Mb) mod P) in *. pose proof (Z.div_mod q 2 ltac:(lia)) as D3. pose proof (Z.mod_pos_bound q 2 ltac:(lia)) as D4.
      set (t := q / 2) in *. set (pp := q mod 2) in *. clearbody q rr t pp. clear - D1 D2 D3 D4 HP. assert (pp = 0 \/ pp = 1) as [-> | ->] by lia; nia. }
    destruct (2 ^ 14 <=? c) eqn:Ec.
    + apply (normal_case s3 ea c ea (c / 2) (ea + 1) x 1 V (2 * P) F 1); auto; try lia; rewrite ?Ec; auto.
      * replace (ea + 1 - 1) with (Z.succ (ea - 1)) by lia. rewrite Z.pow_succ_r, PF by lia. ring.
      * assert (HB : c / 2 = 4 * Ma + B / 2). { unfold c. replace (8 * Ma + B) with (4 * Ma * 2 + B) by lia. rewrite Z.div_add_l by lia. reflexivity. }
        assert (K : 2 ^ 13 <= c / 2) by (apply Z.div_le_lower_bound; lia).
        assert (B / 2 * (2 * P) <= 8 * Mb). { destruct Cmp as [X|(_ & _ & X & _)]; auto. pose proof (Z.div_mod B 2 ltac:(lia)). pose proof (Z.mod_pos_bound B 2 ltac:(lia)). rewrite <- X. nia. }
        rewrite HB in K. change (2 ^ 13) with 8192 in *. unfold V. set (t := B / 2) in *. clearbody t. assert (8192 * P <= (4 * Ma + t) * P) by (apply Z.mul_le_mono_nonneg_r; lia). clear - H1 H0. lia.
      * left. assert (HB : c / 2 = 4 * Ma + B / 2). { unfold c. replace (8 * Ma + B) with (4 * Ma * 2 + B) by lia. rewrite Z.div_add_l by lia. reflexivity. }
        rewrite HB. assert (B / 2 * (2 * P) <= 8 * Mb < (B / 2 + 1) * (2 * P)).
        { destruct Cmp as [X|(_ & _ & X)]; auto. pose proof (Z.div_mod B 2 ltac:(lia)). pose proof (Z.mod_pos_bound B 2 ltac:(lia)). rewrite <- X. set (t := B / 2) in *. clearbody t. nia. }
        unfold V. set (t := B / 2) in *. clearbody t. clear - H0. lia.
    + apply (normal_case s3 ea c ea c ea x 1 V P F 1); auto; try lia; rewrite ?Ec; auto; try (unfold c in *; clearbody B; lia).
Qed.

Lemma sticky_far Mb d : 0 <= d -> (8 * Mb) mod 2 ^ d <> 0 -> 4 <= d.
Proof.
  intros Hd H. destruct (Z.le_gt_cases 4 d); auto. exfalso. apply H.
  assert (d = 0 \/ d = 1 \/ d = 2 \/ d = 3) as [-> | [-> | [-> | -> ]]] by lia.
  - apply Z.mod_1_r.
  - change (2 ^ 1) with 2. replace (8 * Mb) with (4 * Mb * 2) by lia. apply Z.mod_mul. lia.
  - change (2 ^ 2) with 4. replace (8 * Mb) with (2 * Mb * 4) by lia. apply Z.mod_mul. lia.
  - change (2 ^ 3) with 8. rewrite Z.mul_comm. apply Z.mod_mul. lia.
Qed.

Lemma diff_core s3 ea ma eb mb x D : 0 <= s3 < 2 -> 0 <= ma < 1024 -> 0 <= mb < 1024 -> 0 <= eb <= ea -> ea <= 30 ->
  D = signif ea ma * 2 ^ (Z.max ea 1 - 1) - signif eb mb * 2 ^ (Z.max eb 1 - 1) -> x = Z.abs D -> x < overflow_threshold ->
  let A := 8 * signif ea ma in let B := jam (8 * signif eb mb) (Z.max ea 1 - Z.max eb 1) in
  let '(c, e) := add_raw false ea A B in
  (c = 0 -> D = 0) /\ (A > B -> 0 < D) /\ (A <= B -> D <= 0) /\
  (c <> 0 -> let '(e3, m3) := add_round ea c e in rounded_to s3 e3 m3 x).
Proof.
  intros Hs Hma Hmb Heb Hea ED Ex Hx A B.
  pose proof (signif_range ea ma Hma) as RA. pose proof (signif_range eb mb Hmb) as RB.
  assert (Cs : (ea = 0 /\ signif ea ma < 1024 /\ signif eb mb < 1024 /\ Z.max ea 1 = 1 /\ Z.max eb 1 = 1) \/ (1 <= ea /\ 1024 <= signif ea ma /\ Z.max ea 1 = ea)).
  { unfold signif. destruct (ea =? 0) eqn:Z1; [left|right]; [|lia]. replace (eb =? 0) with true by lia. lia. }
  assert (RE : 1 <= Z.max eb 1 <= Z.max ea 1) by lia.
  set (Eb := Z.max eb 1) in *. set (E := Z.max ea 1) in *. set (Ma := signif ea ma) in *. set (Mb := signif eb mb) in *. clearbody Eb E Ma Mb.
  set (d := E - Eb) in *. assert (Hd : 0 <= d) by (unfold d; lia).
  set (F := 2 ^ (Eb - 1)) in *. set (P := 2 ^ d) in *.
  assert (HF : 0 < F) by (apply pow_pos; lia). assert (HP : 0 < P) by (apply pow_pos; lia).
  assert (PF : 2 ^ (E - 1) = P * F). { unfold P, F. rewrite <- Z.pow_add_r by lia. f_equal. unfold d. lia. }
  rewrite PF in ED.
  assert (RBj : 0 <= B < 2 ^ 14) by (apply jam_range; lia).
  assert (J0 : (8 * Mb = B * P) \/ (4 <= d /\ B mod 2 = 1 /\ 16 <= P /\ (B = 8 * Mb / P \/ B = 8 * Mb / P + 1) /\ (B - 1) * P < 8 * Mb < (B + 1) * P)).
  { destruct (Z.eq_dec ((8 * Mb) mod 2 ^ d) 0) as [X|X]. { left. symmetry. apply jam_exact; auto. }
    right. pose proof (sticky_far Mb d Hd X) as D4. destruct (jam_sticky (8 * Mb) d ltac:(lia) Hd X) as (J1 & J2 & J3 & _).
    split; [auto|]. split; [auto|]. split; [|auto]. change 16 with (2 ^ 4). apply Z.pow_le_mono_r; lia. }
  assert (EA : A = 8 * Ma) by reflexivity. assert (d0 : d = E - Eb) by reflexivity. clearbody A B.
  set (T := A * P - 8 * Mb).
  assert (E8 : 8 * D = T * F). { rewrite ED. unfold T. rewrite EA. ring. }
  assert (X8 : 8 * x = Z.abs T * F). { rewrite Ex. replace (8 * Z.abs D) with (Z.abs (8 * D)) by (rewrite Z.abs_mul; reflexivity). rewrite E8, Z.abs_mul, (Z.abs_eq F) by lia. reflexivity. }
  set (c0 := Z.abs (A - B)).
  assert (Rc0 : 0 <= c0 < 2 ^ 14). { unfold c0. clear - EA RA RBj. lia. }
  assert (Cmp : T = (A - B) * P \/ (4 <= d /\ 7168 <= c0 /\ c0 = A - B /\ c0 mod 2 = 1 /\ (c0 - 1) * P < T < (c0 + 1) * P)).
  { destruct J0 as [X|(J1 & J2 & J3 & J4 & J5)]. { left. unfold T. rewrite X. ring. }
    right. assert (Q : 8 * Mb / P < 1024) by (apply Z.div_lt_upper_bound; lia).
    assert (HB : B <= 1024) by (clear - J4 Q; lia). assert (M10 : 1024 <= Ma) by (clear - Cs J1 d0; lia).
    assert (H2 : c0 = A - B) by (unfold c0; clear - EA HB M10; lia).
    split; [auto|]. split; [clear - H2 EA HB M10; lia|]. split; [auto|]. split.
    { rewrite H2. pose proof (Z.div_mod B 2 ltac:(lia)) as H3. rewrite J2 in H3. set (t := B / 2) in *. clearbody t. clear - H3 EA. apply mod_unique_small with (4 * Ma - t - 1); lia. }
    rewrite H2. unfold T. clear - J5. lia. }
  assert (Sg : (A > B -> 0 < T) /\ (A <= B -> T <= 0) /\ (c0 = 0 -> T = 0)).
  { clear - HP Cmp. destruct Cmp as [X|(X1 & X2 & X3 & X4 & X5)].
    - rewrite X. split; [intros; apply Z.mul_pos_pos; lia|]. split; [intros; apply Z.mul_nonpos_nonneg; lia|]. intros. unfold c0 in *. replace (A - B) with 0 by lia. lia.
    - assert (0 <= (c0 - 1) * P) by (apply Z.mul_nonneg_nonneg; lia). clearbody c0. lia. }
  assert (SD : (A > B -> 0 < D) /\ (A <= B -> D <= 0) /\ (c0 = 0 -> D = 0)).
  { destruct Sg as (S1 & S2 & S3). split; [|split]; intros Q.
    - specialize (S1 Q). assert (0 < T * F) by (apply Z.mul_pos_pos; auto). lia.
    - specialize (S2 Q). assert (T * F <= 0) by (apply Z.mul_nonpos_nonneg; lia). lia.
    - specialize (S3 Q). rewrite S3 in E8. lia. }
  unfold add_raw. cbv zeta. fold c0. clear Sg ED.
  destruct (ea =? 0) eqn:Ez.
  - destruct Cs as [(_ & M1 & M2 & M3 & M4)|Cs]; [|lia]. assert (d = 0) by lia. assert (P = 1) by (unfold P; rewrite H; reflexivity).
    assert (TT : T = A - B). { destruct Cmp as [X|(X & _)]; [rewrite X, H0; lia|lia]. }
    assert (F1 : F = 1). { unfold F. replace (Eb - 1) with 0 by lia. reflexivity. }
    assert (X0 : c0 = 8 * x). { unfold c0. rewrite <- TT, X8, F1. lia. }
    split; [apply SD|]. split; [apply SD|]. split; [apply SD|]. intros _. rewrite X0.
    assert (BM : B = 8 * Mb). { destruct J0 as [X|(X & _)]; [rewrite H0 in X; lia|lia]. }
    assert (Rx : 0 <= x < 1024). { clear - X0 EA BM M1 M2 RA RB. unfold c0 in X0. lia. }
    clear - Hs Rx. rewrite add_round_exact by lia. apply finish_exact; lia.
  - assert (NZ : ea <> 0) by lia. destruct Cs as [Cs|(_ & A10 & H)]; [lia|]. rewrite H in PF. assert (Ec0 : c0 = Z.abs (A - B)) by reflexivity. clear J0 RBj RA RB Hma Hmb ma mb. clearbody c0 T F P.
    destruct (c0 =? 0) eqn:Ec.
    { assert (C0 : c0 = 0) by lia. rewrite C0. rewrite !Z.mul_0_l. destruct SD as (S1 & S2 & S3). destruct (ea <? 16 - 1); (split; [auto|]; split; [auto|]; split; [auto|]; lia). }
    destruct (Z.log2_spec c0 ltac:(lia)) as (L1 & L2). set (l := Z.log2 c0) in *. assert (L0 : 0 <= l) by apply Z.log2_nonneg.
    assert (L13 : l <= 13). { destruct (Z.le_gt_cases l 13); auto. assert (2 ^ 14 <= 2 ^ l) by (apply Z.pow_le_mono_r; lia). lia. }
    set (n := 15 - l - 1).
    destruct (ea <? n) eqn:En.
    + (* denormalised result, exact *)
      assert (Ex1 : T = (A - B) * P).
      { destruct Cmp as [X|(X1 & X2 & _)]; auto. exfalso. assert (12 <= l); [|lia]. destruct (Z.le_gt_cases 12 l); auto.
        assert (2 ^ Z.succ l <= 2 ^ 12) by (apply Z.pow_le_mono_r; lia). lia. }
      set (c := c0 * 2 ^ (ea - 1)). assert (X0 : c = 8 * x).
      { unfold c. rewrite X8, Ex1, Z.abs_mul, (Z.abs_eq P) by lia. rewrite PF, Ec0. ring. }
      assert (Pe : 0 < 2 ^ (ea - 1)) by (apply pow_pos; lia).
      assert (c < 2 ^ 13). { unfold c. apply Z.lt_le_trans with (2 ^ Z.succ l * 2 ^ (ea - 1)). { apply Z.mul_lt_mono_pos_r; lia. } rewrite <- Z.pow_add_r by lia. apply Z.pow_le_mono_r; lia. }
      assert (0 < c) by (apply Z.mul_pos_pos; lia).
      split; [lia|]. split; [apply SD|]. split; [apply SD|]. intros _. rewrite X0. rewrite add_round_exact by lia. apply finish_exact; lia.
    + assert (Hn : 1 <= n <= 14) by lia.
      set (G := 2 ^ (n - 1)). assert (HG : 0 < G) by (apply pow_pos; lia).
      assert (P2n : 2 ^ n = 2 * G). { unfold G. rewrite <- Z.pow_succ_r by lia. f_equal. lia. }
      assert (C14 : 2 ^ 13 <= c0 * G < 2 ^ 14).
      { split.
        - replace 13 with (l + (n - 1)) by lia. rewrite Z.pow_add_r by lia. fold G. apply Z.mul_le_mono_nonneg_r; lia.
        - replace 14 with (Z.succ l + (n - 1)) by lia. rewrite Z.pow_add_r by lia. fold G. apply Z.mul_lt_mono_pos_r; lia. }
      assert (Ch : c0 * 2 ^ n / 2 = c0 * G). { rewrite P2n. replace (c0 * (2 * G)) with (c0 * G * 2) by ring. apply Z.div_mul. lia. }
      assert (C2 : c0 * 2 ^ n = 2 * (c0 * G)) by (rewrite P2n; ring).
      assert (HB14 : (2 ^ 14 <=? c0 * 2 ^ n) = true) by (rewrite C2; apply Z.leb_le; lia).
      split; [intros Z1; rewrite C2 in Z1; lia|]. split; [apply SD|]. split; [apply SD|]. intros _.
      assert (GPF : 2 ^ (ea - n + 1 - 1) * G = P * F). { rewrite <- PF. unfold G. rewrite <- Z.pow_add_r by lia. f_equal. lia. }
      assert (XG : 8 * x * G = Z.abs T * G * F) by (rewrite X8; ring).
      assert (Appr : 2 ^ 13 * P <= Z.abs T * G /\ ((c0 * G * P <= Z.abs T * G < (c0 * G + 1) * P) \/
         ((G = 1 \/ G = 2) /\ (c0 * G) mod (2 * G) = G /\ (c0 * G - G) * P < Z.abs T * G < (c0 * G + G) * P))).
      { destruct Cmp as [X|(X1 & X2 & X3 & X4 & X5)].
        - rewrite X, Z.abs_mul, (Z.abs_eq P) by lia. rewrite <- Ec0. replace (c0 * P * G) with (c0 * G * P) by ring. split; [apply Z.mul_le_mono_nonneg_r; lia|]. left. lia.
        - assert (T0 : 0 < T). { assert (0 <= (c0 - 1) * P) by (apply Z.mul_nonneg_nonneg; lia). lia. } rewrite Z.abs_eq by lia.
          assert (12 <= l). { destruct (Z.le_gt_cases 12 l); auto. assert (2 ^ Z.succ l <= 2 ^ 12) by (apply Z.pow_le_mono_r; lia). lia. }
          assert (Gc : G = 1 \/ G = 2). { unfold G. assert (n = 1 \/ n = 2) as [-> | ->] by lia; [left|right]; reflexivity. }
          pose proof (Z.div_mod c0 2 ltac:(lia)) as Dm. rewrite X4 in Dm. set (t := c0 / 2) in *.
          split.
          { assert (2 ^ 13 <= (c0 - 1) * G). { change (2 ^ 13) with 8192 in *. clear - C14 Dm Gc. clearbody t. destruct Gc as [-> | ->]; lia. }
            apply Z.le_trans with ((c0 - 1) * G * P); [apply Z.mul_le_mono_nonneg_r; lia|]. replace ((c0 - 1) * G * P) with ((c0 - 1) * P * G) by ring. apply Z.mul_le_mono_nonneg_r; lia. }
          right. split; [auto|]. split.
          { clear - Dm Gc HG. clearbody t G. subst c0. apply mod_unique_small with t; [lia|ring]. }
          replace ((c0 * G - G) * P) with ((c0 - 1) * P * G) by ring. replace ((c0 * G + G) * P) with ((c0 + 1) * P * G) by ring.
          split; apply Z.mul_lt_mono_pos_r; lia. }
      destruct Appr as (V13 & Appr).
      assert (Hx0 : 0 <= x < overflow_threshold) by (clear - Ex Hx; lia).
      clear Cmp SD L1 L2 E8. clearbody G.
      apply (normal_case s3 ea (c0 * 2 ^ n) (ea - n) (c0 * G) (ea - n + 1) x G (Z.abs T * G) P F G); auto.
      * rewrite C2. clear - C14. lia.
      * rewrite HB14. auto.
      * rewrite HB14. auto.
      * clear - C14. lia.
      * clear - Hn Hea En. lia.
Qed.

Lemma units_of s e m : hfields s e m -> e <= 30 ->
  half_units (hpack s e m) = (if s =? 0 then 1 else -1) * (signif e m * 2 ^ (Z.max e 1 - 1)).
Proof.
  intros F He. destruct (hpack_fields _ _ _ F) as (_ & P1 & P2 & P3). pose proof F as (Fs & Fe & Fm).
  unfold half_units, half_magnitude. rewrite P1, P2, P3. unfold signif. destruct (e =? 0) eqn:E.
  - replace (Z.max e 1 - 1) with 0 by lia. destruct (s =? 0); lia.
  - replace (Z.max e 1) with e by lia. change (2 ^ 10) with 1024. destruct (s =? 0); lia.
Qed.

Lemma halfAdd_nearest j x y : bits16 x -> bits16 y -> half_finite x -> half_finite y ->
  Z.abs (half_units x + half_units y) < overflow_threshold ->
  exists r, halfAdd (Some j) x y = Ok r /\ nearest 1 r (half_units x + half_units y) /\ ties_away 1 r (half_units x + half_units y).
Proof.
  intros Bx By Fx Fy Hov. destruct (hpack_of x Bx) as (HFx & Ex), (hpack_of y By) as (HFy & Ey).
  unfold half_finite in *. set (sx := hsign x) in *. set (ex := hexp x) in *. set (mx := hfrac x) in *.
  set (sy := hsign y) in *. set (ey := hexp y) in *. set (my := hfrac y) in *.
  assert (Px : exists sa ea ma sb eb mb, picks sx ex mx sy ey my sa ea ma sb eb mb /\ hfields sa ea ma /\ hfields sb eb mb /\ eb <= ea <= 30 /\
     half_units x + half_units y = (if sa =? 0 then 1 else -1) * (signif ea ma * 2 ^ (Z.max ea 1 - 1)) + (if sb =? 0 then 1 else -1) * (signif eb mb * 2 ^ (Z.max eb 1 - 1))).
  { pose proof HFx as (_ & Rx & _). pose proof HFy as (_ & Ry & _). rewrite <- Ex, <- Ey. rewrite !units_of by (auto; lia).
    destruct (Z.lt_ge_cases ex ey).
    - exists sy, ey, my, sx, ex, mx. split; [left; auto|]. split; [auto|]. split; [auto|]. split; [lia|]. apply Z.add_comm.
    - exists sx, ex, mx, sy, ey, my. split; [right; auto|]. split; [auto|]. split; [auto|]. split; [lia|]. reflexivity. }
  destruct Px as (sa & ea & ma & sb & eb & mb & Pk & HFa & HFb & Hea & ES).
  pose proof (halfAdd_eq j _ _ _ _ _ _ _ _ _ _ _ _ HFx HFy Pk ltac:(lia)) as EQ. rewrite Ex, Ey in EQ. cbv zeta in EQ.
  pose proof HFa as (Fas & Fae & Fam). pose proof HFb as (Fbs & Fbe & Fbm).
  assert (Pa : 0 <= signif ea ma * 2 ^ (Z.max ea 1 - 1)). { pose proof (signif_range ea ma Fam). pose proof (pow_pos (Z.max ea 1 - 1) ltac:(lia)). nia. }
  assert (Pb : 0 <= signif eb mb * 2 ^ (Z.max eb 1 - 1)). { pose proof (signif_range eb mb Fbm). pose proof (pow_pos (Z.max eb 1 - 1) ltac:(lia)). nia. }
  clear Pk HFx HFy Ex Ey sx ex mx sy ey my HFa HFb Fx Fy.
  set (S1 := half_units x + half_units y) in *. clearbody S1.
  assert (Big : Z.max ea 1 - 1 >= 0) by lia.
  destruct (sa =? sb) eqn:Es.
  - assert (sb = sa) by lia. subst sb. cbn [add_raw negb andb] in EQ.
    set (u := signif ea ma * 2 ^ (Z.max ea 1 - 1)) in *. set (v := signif eb mb * 2 ^ (Z.max eb 1 - 1)) in *.
    pose proof (same_core sa ea ma eb mb (u + v) Fas Fam Fbm ltac:(lia) ltac:(lia) eq_refl ltac:(destruct (sa =? 0); lia)) as SC.
    destruct (add_round _ _ _) as (e3, m3). rewrite EQ. change (w16 _) with (add_pack sa e3 m3). eexists; split; [reflexivity|].
    destruct SC as (P1 & _ & _ & P4). rewrite P1. replace S1 with (if sa =? 0 then u + v else - (u + v)) by (destruct (sa =? 0); lia). exact P4.
  - set (u := signif ea ma * 2 ^ (Z.max ea 1 - 1)) in *. set (v := signif eb mb * 2 ^ (Z.max eb 1 - 1)) in *.
    set (A := 8 * signif ea ma) in *. set (B := jam (8 * signif eb mb) (Z.max ea 1 - Z.max eb 1)) in *.
    set (s3 := if A >? B then sa else sb) in *. assert (Hs3 : 0 <= s3 < 2) by (unfold s3; destruct (A >? B); auto).
    assert (AD : Z.abs S1 = Z.abs (u - v)). { assert (sa = 0 /\ sb = 1 \/ sa = 1 /\ sb = 0) as [[-> ->]|[-> ->]] by lia; cbn [Z.eqb] in ES; lia. }
    pose proof (diff_core s3 ea ma eb mb (Z.abs (u - v)) (u - v) Hs3 Fam Fbm ltac:(lia) ltac:(lia) eq_refl eq_refl ltac:(lia)) as DC. cbv zeta in DC. fold A B in DC.
    destruct (add_raw false ea A B) as (c, e). destruct DC as (D1 & D2 & D3 & D4).
    cbn [negb andb] in EQ. destruct (c =? 0) eqn:Ec.
    + destruct (add_round ea c e) as (e3, m3). rewrite EQ. eexists; split; [reflexivity|]. specialize (D1 ltac:(lia)).
      assert (S0 : S1 = 0) by lia. rewrite S0.
      pose proof (finish_exact 0 0 ltac:(lia) ltac:(lia)) as (_ & _ & _ & Q). exact Q.
    + specialize (D4 ltac:(lia)). destruct (add_round ea c e) as (e3, m3). rewrite EQ. change (w16 _) with (add_pack s3 e3 m3). eexists; split; [reflexivity|].
      destruct D4 as (P1 & _ & _ & P4). rewrite P1. replace S1 with (if s3 =? 0 then Z.abs (u - v) else - Z.abs (u - v)); [exact P4|].
      unfold s3. destruct (A >? B) eqn:AB; [specialize (D2 ltac:(lia)); clear D3|specialize (D3 ltac:(lia)); clear D2];
        assert (sa = 0 /\ sb = 1 \/ sa = 1 /\ sb = 0) as [[-> ->]|[-> ->]] by lia; cbn [Z.eqb] in *; lia.
Qed.

Lemma halfAdd_comm j x y : bits16 x -> bits16 y -> half_finite x -> half_finite y -> halfAdd (Some j) x y = halfAdd (Some j) y x.
Proof.
  intros Bx By Fx Fy. destruct (hpack_of x Bx) as (HFx & Ex), (hpack_of y By) as (HFy & Ey).
  unfold half_finite in *. set (sx := hsign x) in *. set (ex := hexp x) in *. set (mx := hfrac x) in *.
  set (sy := hsign y) in *. set (ey := hexp y) in *. set (my := hfrac y) in *. rewrite <- Ex, <- Ey.
  pose proof HFx as (Rsx & Rx & _). pose proof HFy as (Rsy & Ry & _).
  assert (W : forall sx ex mx sy ey my, hfields sx ex mx -> hfields sy ey my -> ex < ey -> ey <= 30 ->
     halfAdd (Some j) (hpack sx ex mx) (hpack sy ey my) = halfAdd (Some j) (hpack sy ey my) (hpack sx ex mx)).
  { clear. intros sx ex mx sy ey my H1 H2 L L2.
    pose proof (halfAdd_eq j sx ex mx sy ey my sy ey my sx ex mx H1 H2 ltac:(left; auto) L2) as Q1. cbv zeta in Q1.
    pose proof (halfAdd_eq j sy ey my sx ex mx sy ey my sx ex mx H2 H1 ltac:(right; split; [lia|auto]) L2) as Q2. cbv zeta in Q2.
    destruct (add_raw _ _ _ _) as (c, e). destruct (add_round _ _ _) as (e3, m3). rewrite Q1, Q2. reflexivity. }
  destruct (Z.lt_trichotomy ex ey) as [L|[Q|G]].
  - apply W; auto. lia.
  - rewrite <- Q in *. assert (L2 : ex <= 30) by lia.
    pose proof (halfAdd_eq j sx ex mx sy ex my sx ex mx sy ex my HFx HFy ltac:(right; split; [lia|auto]) L2) as Q1. cbv zeta in Q1.
    pose proof (halfAdd_eq j sy ex my sx ex mx sy ex my sx ex mx HFy HFx ltac:(right; split; [lia|auto]) L2) as Q2. cbv zeta in Q2.
    rewrite Z.sub_diag in Q1, Q2. assert (J : forall b, jam b 0 = b). { intros. unfold jam. change (2 ^ 0) with 1. rewrite Z.mod_1_r, Z.div_1_r. reflexivity. }
    rewrite J in Q1, Q2. set (A := 8 * signif ex mx) in *. set (B := 8 * signif ex my) in *.
    rewrite (Z.eqb_sym sy sx) in Q2. destruct (sx =? sy) eqn:Es.
    + assert (sy = sx) by lia. rewrite H in *. cbn [add_raw] in Q1, Q2. rewrite (Z.add_comm B A) in Q2. destruct (add_round _ _ _) as (e3, m3). rewrite Q1, Q2. reflexivity.
    + assert (R : add_raw false ex B A = add_raw false ex A B). { unfold add_raw. replace (Z.abs (B - A)) with (Z.abs (A - B)) by lia. reflexivity. }
      rewrite R in Q2. assert (C0 : A = B -> fst (add_raw false ex A B) = 0).
      { intros ->. unfold add_raw. rewrite Z.sub_diag. cbn [Z.abs]. destruct (ex =? 0); [reflexivity|]. destruct (ex <? _); reflexivity. }
      destruct (add_raw false ex A B) as (c, e). cbn [fst] in C0. destruct (add_round _ _ _) as (e3, m3). rewrite Q1, Q2. cbn [negb andb].
      destruct (c =? 0) eqn:Ec; [reflexivity|]. destruct (Z.lt_trichotomy A B) as [L|[Q'|G]]; [|rewrite C0 in Ec by auto; discriminate|].
      * replace (A >? B) with false by lia. replace (B >? A) with true by lia. reflexivity.
      * replace (A >? B) with true by lia. replace (B >? A) with false by lia. reflexivity.
  - symmetry. apply W; auto. lia.
Qed.

(** Two halfs with the same non-zero value are the same bits. *)
Lemma units_inj x y : bits16 x -> bits16 y -> half_finite x -> half_finite y -> half_units x = half_units y -> half_units x <> 0 -> x = y.
Proof.
  intros Bx By Fx Fy E N.
  assert (K : forall h, half_finite h -> order_key h = half_units h). { intros h F. unfold order_key, half_units, half_finite in *. replace (hexp h =? 31) with false by lia. reflexivity. }
  pose proof (eq_spec x y Bx By) as H. rewrite !K in H by auto. unfold half_nan, half_zero, half_finite in *.
  assert (HE : half_eq x y = true); [|unfold half_eq in HE; lia]. rewrite H; [lia|tauto|tauto|].
  intros [[a b] _]. apply N. unfold half_units, half_magnitude. rewrite a, b. destruct (hsign x =? 0); reflexivity.
Qed.

(** The nearest half to a representable value has that value. *)
Lemma nearest_exact r x : bits16 x -> half_finite x -> nearest 1 r (half_units x) -> half_units r = half_units x.
Proof. intros B F (_ & _ & H). specialize (H x B F). lia. Qed.

Lemma units_bound x : bits16 x -> half_finite x -> Z.abs (half_units x) < overflow_threshold.
Proof.
  intros B F. rewrite half_units_abs by auto. destruct (half_shape x B F) as (M & q & HM & Hq & ->). unfold overflow_threshold.
  assert (2 ^ q <= 2 ^ 29) by (apply Z.pow_le_mono_r; lia). pose proof (pow_pos q ltac:(lia)). nia.
Qed.

Lemma halfNeg_eq s e m : hfields s e m -> halfNeg (hpack s e m) = hpack (1 - s) e m.
Proof.
  intros F. pose proof F as (Fs & Fe & Fm). destruct (hpack_fields _ _ _ F) as (B & P1 & P2 & P3).
  unfold halfNeg. unfold bits16 in B. unfold hpack in *. set (v := e * 2 ^ 10 + m). assert (Rv : 0 <= v < 2 ^ 15) by (unfold v; lia).
  assert (L : Z.lxor v (2 ^ 15) = v + 2 ^ 15).
  { symmetry. apply Z.add_nocarry_lxor. rewrite land_bit by lia. rewrite testbit_high by (cbn [Z.add]; lia). replace (2 ^ 15 <=? v) with false by lia. reflexivity. }
  change 32768 with (2 ^ 15). assert (s = 0 \/ s = 1) as [-> | ->] by lia.
  - replace (0 * 2 ^ 15 + e * 2 ^ 10 + m) with v by (unfold v; lia). rewrite L. rewrite w16_id by lia. unfold v. lia.
  - replace (1 * 2 ^ 15 + e * 2 ^ 10 + m) with (v + 2 ^ 15) by (unfold v; lia). rewrite <- L, Z.lxor_assoc, Z.lxor_nilpotent, Z.lxor_0_r. rewrite w16_id by lia. unfold v. lia.
Qed.
Lemma half_negate_eq h : bits16 h -> half_negate h = halfNeg h.
Proof.
  intros B. destruct (hpack_of h B) as (F & E). pose proof F as (Fs & Fe & Fm). rewrite <- E. rewrite (halfNeg_eq _ _ _ F).
  set (s := hsign h) in *. set (e := hexp h) in *. set (m := hfrac h) in *.
  unfold half_negate. replace (Z.lxor (hpack s e m) 32768) with (hpack (1 - s) e m).
  2:{ rewrite <- (halfNeg_eq _ _ _ F). unfold halfNeg. apply w16_id. split. { apply Z.lxor_nonneg. unfold hpack. lia. }
      destruct (Z.eq_dec (Z.lxor (hpack s e m) 32768) 0) as [->|N]; [lia|]. apply Z.log2_lt_pow2.
      { assert (0 <= Z.lxor (hpack s e m) 32768); [|lia]. apply Z.lxor_nonneg. unfold hpack. lia. }
      eapply Z.le_lt_trans; [apply Z.log2_lxor; unfold hpack; lia|]. change (Z.log2 32768) with 15. apply Z.max_lub_lt; [|lia].
      destruct (Z.eq_dec (hpack s e m) 0) as [->|N2]; [reflexivity|]. apply Z.log2_lt_pow2; unfold hpack in *; lia. }
  change 32767 with (2 ^ 15 - 1). rewrite land_low by lia. set (v := e * 2 ^ 10 + m). assert (Rv : 0 <= v < 2 ^ 15) by (unfold v; lia).
  replace (hpack s e m) with (s * 2 ^ 15 + v) by (unfold hpack, v; lia). replace (hpack (1 - s) e m) with ((1 - s) * 2 ^ 15 + v) by (unfold hpack, v; lia).
  rewrite (mod_unique_small _ s v) by lia. rewrite <- lor_add by lia. rewrite Z.lor_comm, <- Z.lor_assoc, Z.lor_diag. rewrite lor_add by lia. apply w16_id. lia.
Qed.
Lemma halfNeg_units h : bits16 h -> bits16 (halfNeg h) /\ hexp (halfNeg h) = hexp h /\ hfrac (halfNeg h) = hfrac h /\ hsign (halfNeg h) = 1 - hsign h /\ half_units (halfNeg h) = - half_units h.
Proof.
  intros B. destruct (hpack_of h B) as (F & E). pose proof F as (Fs & Fe & Fm).
  assert (EN : halfNeg h = hpack (1 - hsign h) (hexp h) (hfrac h)) by (rewrite <- E at 1; apply halfNeg_eq; auto). rewrite EN.
  assert (F2 : hfields (1 - hsign h) (hexp h) (hfrac h)) by (unfold hfields; lia). destruct (hpack_fields _ _ _ F2) as (B2 & P1 & P2 & P3).
  split; [auto|]. split; [auto|]. split; [auto|]. split; [auto|].
  unfold half_units, half_magnitude. rewrite P1, P2, P3. destruct (hsign h =? 0) eqn:Z0; [replace (1 - hsign h =? 0) with false by lia|replace (1 - hsign h =? 0) with true by lia]; lia.
Qed.
Lemma halfSub_self j x : bits16 x -> half_finite x -> halfSub (Some j) x x = Ok 0.
Proof.
  intros B Fi. destruct (hpack_of x B) as (F & E). pose proof F as (Fs & Fe & Fm). unfold half_finite in Fi. set (s := hsign x) in *. set (e := hexp x) in *. set (m := hfrac x) in *.
  rewrite <- E. unfold halfSub. rewrite (halfNeg_eq _ _ _ F).
  assert (F2 : hfields (1 - s) e m) by (unfold hfields; lia).
  pose proof (halfAdd_eq j s e m (1 - s) e m s e m (1 - s) e m F F2 ltac:(right; split; [lia|auto]) ltac:(lia)) as Q. cbv zeta in Q.
  rewrite Z.sub_diag in Q. assert (J : forall b, jam b 0 = b). { intros. unfold jam. change (2 ^ 0) with 1. rewrite Z.mod_1_r, Z.div_1_r. reflexivity. }
  rewrite J in Q. replace (s =? 1 - s) with false in Q by lia. unfold add_raw in Q. rewrite Z.sub_diag in Q. cbn [Z.abs] in Q. cbv zeta in Q.
  destruct (e =? 0); [|destruct (e <? _)]; rewrite ?Z.mul_0_l in Q; destruct (add_round _ _ _) as (e3, m3); cbn [negb andb Z.eqb] in Q; exact Q.
Qed.
