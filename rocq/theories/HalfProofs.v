(** Rounding, conversions, comparison and constants of [half]. *)
From Verif Require Import Base BaseProofs HalfModel HalfSpec HalfBits HalfConvProofs.
From Coq Require Import ZifyNat ZifyN ZifyBool.
Ltac Zify.zify_post_hook ::= idtac.
Local Open Scope Z_scope.

Lemma pow_pos k : 0 <= k -> 0 < 2 ^ k.
Proof. intros. apply Z.pow_pos_nonneg; lia. Qed.

(** ** Nearest multiples *)
Lemma nearest_multiple u a b s x : 0 < u -> 0 < s -> 2 * (x - a * u * s) < u * s -> 2 * (a * u * s - x) <= u * s ->
  Z.abs (a * u * s - x) <= Z.abs (b * u * s - x) /\ (Z.abs (a * u * s - x) = Z.abs (b * u * s - x) -> b <= a).
Proof.
  intros Hu Hs H1 H2. assert (Hp : 0 < u * s) by nia.
  destruct (Z.lt_trichotomy b a) as [L|[->|G]].
  - assert (b * u * s + u * s <= a * u * s) by nia. split; [lia|lia].
  - split; lia.
  - assert (a * u * s + u * s <= b * u * s) by nia. split; lia.
Qed.

(** Every finite half is M * 2^q with M < 2^11. *)
Lemma half_shape h : bits16 h -> half_finite h ->
  exists M q, 0 <= M < 2 ^ 11 /\ 0 <= q <= 29 /\ half_magnitude h = M * 2 ^ q.
Proof.
  intros B Fi. destruct (hpack_of h B) as ((Hs & He & Hm) & _). unfold half_finite, half_magnitude in *.
  destruct (hexp h =? 0) eqn:E.
  - exists (hfrac h), 0. lia.
  - exists (2 ^ 10 + hfrac h), (hexp h - 1). split; [lia|]. split; [lia|]. reflexivity.
Qed.
Lemma half_magnitude_nonneg h : bits16 h -> half_finite h -> 0 <= half_magnitude h.
Proof. intros B Fi. destruct (half_shape h B Fi) as (M & q & HM & Hq & ->). pose proof (pow_pos q). nia. Qed.

Lemma half_units_abs h : bits16 h -> half_finite h -> Z.abs (half_units h) = half_magnitude h.
Proof. intros B Fi. pose proof (half_magnitude_nonneg h B Fi). unfold half_units. destruct (hsign h =? 0); lia. Qed.

Lemma shape_divides M q k : 0 <= M < 2 ^ 11 -> 0 <= q -> 0 <= k -> 2 ^ (k + 10) <= M * 2 ^ q -> exists b, M * 2 ^ q = b * 2 ^ k.
Proof.
  intros HM Hq Hk H. destruct (Z.lt_ge_cases q k) as [L|G].
  - exfalso. replace (k + 10) with ((k - 1 - q) + (q + 11)) in H by lia. rewrite !Z.pow_add_r in H by lia.
    pose proof (pow_pos (k - 1 - q) ltac:(lia)). pose proof (pow_pos q Hq). nia.
  - exists (M * 2 ^ (q - k)). rewrite <- Z.mul_assoc, <- Z.pow_add_r by lia. repeat f_equal; lia.
Qed.

(** The one rounding lemma: a multiple of 2^k within half of 2^k, where x >= 2^(k+10) unless k = 0. *)
Lemma nearest_away s h x a k : 0 < s -> bits16 h -> half_finite h -> 0 <= k -> 0 <= x ->
  half_magnitude h = a * 2 ^ k -> (k = 0 \/ 2 ^ (k + 10) * s <= x) ->
  2 * (x - a * 2 ^ k * s) < 2 ^ k * s -> 2 * (a * 2 ^ k * s - x) <= 2 ^ k * s ->
  let sx := if hsign h =? 0 then x else - x in nearest s h sx /\ ties_away s h sx.
Proof.
  intros Hs B Fi Hk Hx Hm Hbig H1 H2 sx. pose proof (pow_pos k Hk) as Pk.
  assert (Hd : forall u : Z, Z.abs (half_units h * s - sx) = Z.abs (half_magnitude h * s - x)).
  { intros _. unfold half_units, sx. destruct (hsign h =? 0); lia. }
  assert (K : forall h', bits16 h' -> half_finite h' ->
    Z.abs (half_units h * s - sx) <= Z.abs (half_units h' * s - sx) /\
    (Z.abs (half_units h * s - sx) = Z.abs (half_units h' * s - sx) -> half_magnitude h' <= half_magnitude h)).
  { intros h' B' F'. rewrite (Hd 0). clear Hd.
    set (Y := if hsign h =? 0 then half_units h' else - half_units h').
    assert (EY : Z.abs (half_units h' * s - sx) = Z.abs (Y * s - x)). { unfold Y, sx. destruct (hsign h =? 0); lia. }
    assert (AY : half_magnitude h' = Z.abs Y). { rewrite <- (half_units_abs h' B' F'). unfold Y. destruct (hsign h =? 0); lia. }
    clearbody Y. rewrite EY, Hm. pose proof (half_magnitude_nonneg h B Fi) as NN. rewrite Hm in NN.
    destruct (half_shape h' B' F') as (M & q & HM & Hq & EM).
    assert (Neg : Y < 0 -> Z.abs (a * 2 ^ k * s - x) < Z.abs (Y * s - x)).
    { intros HY. assert (Y * s <= - s) by nia. destruct Hbig as [->|Hbig]; [change (2 ^ 0) with 1 in *; lia|].
      assert (2 ^ k * s <= x). { rewrite Z.pow_add_r in Hbig by lia. nia. } lia. }
    destruct (Z.lt_ge_cases Y 0) as [L|G]. { specialize (Neg L). split; lia. }
    rewrite AY. rewrite (Z.abs_eq Y) in * by lia.
    assert (EYM : Y = M * 2 ^ q) by congruence.
    destruct (Z.eq_dec k 0) as [->|Nk].
    - change (2 ^ 0) with 1 in *. destruct (nearest_multiple 1 a Y s x) as [N1 N2]; lia.
    - destruct Hbig as [|Hbig]; [lia|].
      destruct (Z.lt_ge_cases Y (2 ^ (k + 10))) as [L|G2].
      + destruct (nearest_multiple (2 ^ k) a (2 ^ 10) s x) as [N1 _]; try lia.
        rewrite Z.pow_add_r in * by lia. assert (2 ^ k * 2 ^ 10 * s = 2 ^ 10 * 2 ^ k * s) by lia.
        assert (Y * s < 2 ^ k * 2 ^ 10 * s) by nia. split; lia.
      + rewrite EYM in G2. destruct (shape_divides M q k HM ltac:(lia) Hk G2) as (b & Eb).
        rewrite EYM, Eb. destruct (nearest_multiple (2 ^ k) a b s x) as [N1 N2]; try lia. split; [auto|].
        intros T. apply N2 in T. nia. }
  split.
  - split; [auto|]. split; [auto|]. intros h' B' F'. apply K; auto.
  - intros h' B' F' T. apply (proj2 (K h' B' F')); auto.
Qed.

(** ** Conversions *)
Lemma h2f_value J h : bits16 h -> exists f, halfToFloat J h = Ok f /\ bits32 f /\ fsign f = hsign h /\
  (half_finite h -> float_finite f /\ float_units f = half_units h * 2 ^ 125) /\
  (half_inf h -> float_inf f) /\ (half_nan h -> float_nan f).
Proof.
  intros B. destruct (hpack_of h B) as (F & E). pose proof F as (Fs & Fe & Fm).
  assert (Ex : exists e m, h2f_em (hexp h) (hfrac h) = e * 2 ^ 23 + m /\ 0 <= e < 256 /\ 0 <= m < 2 ^ 23 /\
    (hexp h <> 31 -> e <> 255 /\ (if e =? 0 then m else (2 ^ 23 + m) * 2 ^ (e - 1)) = half_magnitude h * 2 ^ 125) /\
    (hexp h = 31 -> e = 255 /\ m = hfrac h * 2 ^ 13)).
  { unfold h2f_em, half_magnitude. destruct (hexp h =? 0) eqn:E0; [destruct (hfrac h =? 0) eqn:E1|destruct (hexp h =? 31) eqn:E1].
    - exists 0, 0. repeat (split; [lia|]). split; [|lia]. intros _. split; [lia|]. change (0 =? 0) with true. cbv iota.
      replace (hfrac h) with 0 by lia. reflexivity.
    - destruct (subnormal_frac (hfrac h)) as [L1 L2]; [lia|]. set (k := Z.log2 (hfrac h)) in *.
      exists (103 + k), (hfrac h * 2 ^ (23 - k) - 2 ^ 23). repeat (split; [lia|]). split; [|lia]. intros _. split; [lia|].
      replace (103 + k =? 0) with false by lia.
      replace (2 ^ 23 + (hfrac h * 2 ^ (23 - k) - 2 ^ 23)) with (hfrac h * 2 ^ (23 - k)) by lia.
      rewrite <- Z.mul_assoc, <- Z.pow_add_r by lia. replace (23 - k + (103 + k - 1)) with 125 by lia. reflexivity.
    - exists 255, (hfrac h * 2 ^ 13). repeat (split; [lia|]). lia.
    - exists (hexp h + 112), (hfrac h * 2 ^ 13). repeat (split; [lia|]). split; [|lia]. intros _. split; [lia|].
      replace (hexp h + 112 =? 0) with false by lia.
      replace (2 ^ 23 + hfrac h * 2 ^ 13) with ((2 ^ 10 + hfrac h) * 2 ^ 13) by lia.
      rewrite <- !Z.mul_assoc, <- !Z.pow_add_r by lia. replace (13 + (hexp h + 112 - 1)) with (hexp h - 1 + 125) by lia. reflexivity. }
  destruct Ex as (e & m & Hem & Re & Rm & Hf & Hn).
  assert (FF : ffields (hsign h) e m) by (split; auto).
  destruct (fpack_fields _ _ _ FF) as (B32 & P1 & P2 & P3).
  exists (fpack (hsign h) e m). split; [|split; [auto|split; [auto|split; [|split]]]].
  - rewrite <- E at 1. rewrite halfToFloat_eq by auto. unfold fpack. rewrite Hem. f_equal. lia.
  - unfold half_finite, float_finite, float_units, float_magnitude, half_units. rewrite P1, P2, P3. intros Hfin.
    destruct (Hf Hfin) as [G1 G2]. split; [auto|]. rewrite G2. destruct (hsign h =? 0); lia.
  - unfold half_inf, float_inf. rewrite P2, P3. intros [G1 G2]. destruct (Hn G1). lia.
  - unfold half_nan, float_nan. rewrite P2, P3. intros [G1 G2]. destruct (Hn G1). lia.
Qed.

Lemma f2h_hidden_range m : 0 <= m < 2 ^ 23 -> 2 ^ 23 <= f2h_hidden m < 2 ^ 24.
Proof. intros H. pose proof (f2h_round_range m H). unfold f2h_hidden. destruct (f2h_round m <? 2 ^ 23) eqn:E; lia. Qed.

(** On a machine where the out-of-range shift returns something, floatToHalf returns something. *)
Lemma f2h_total j s e m : ffields s e m -> exists D, 0 <= D < 2 ^ 32 /\
  shr32 (Some j) (f2h_hidden m) (w32 (113 - e)) = Ok D /\
  (82 <= e <= 113 -> D = f2h_hidden m / 2 ^ (113 - e)).
Proof.
  intros (Fs & Fe & Fm). pose proof (f2h_hidden_range m Fm). unfold shr32. destruct (w32 (113 - e) <? 32) eqn:E.
  - exists (w32 (Z.shiftr (f2h_hidden m) (w32 (113 - e)))). split; [apply w32_range|]. split; [reflexivity|].
    intros He. rewrite (w32_id (113 - e)) by lia. rewrite Z.shiftr_div_pow2 by lia. apply w32_id.
    pose proof (pow_pos (113 - e) ltac:(lia)). split; [apply Z.div_pos; lia|apply Z.div_lt_upper_bound; nia].
  - cbn [bad_shift omap bind]. eexists. split; [apply w32_range|]. split; [reflexivity|]. intros He. rewrite (w32_id (113 - e)) in E by lia. lia.
Qed.

Lemma f2h_strict s e m : ffields s e m -> (floatToHalf None (fpack s e m) = UB <-> ~ 82 <= e <= 113).
Proof.
  intros F. pose proof F as (Fs & Fe & Fm). pose proof (f2h_hidden_range m Fm).
  assert (W : (w32 (113 - e) <? 32) = (82 <=? e) && (e <=? 113)).
  { destruct (Z.lt_ge_cases 113 e); [rewrite w32_neg by lia|rewrite w32_id by lia]; lia. }
  destruct ((82 <=? e) && (e <=? 113)) eqn:E.
  - split; [|lia]. intros U. exfalso.
    rewrite (floatToHalf_eq None s e m (f2h_hidden m / 2 ^ (113 - e))) in U; [discriminate|auto| |].
    + unfold shr32. rewrite W. cbn [omap bind]. rewrite (w32_id (113 - e)) by lia. rewrite Z.shiftr_div_pow2 by lia. f_equal. apply w32_id.
      pose proof (pow_pos (113 - e) ltac:(lia)). split; [apply Z.div_pos; lia|apply Z.div_lt_upper_bound; nia].
    + pose proof (pow_pos (113 - e) ltac:(lia)). split; [apply Z.div_pos; lia|apply Z.div_lt_upper_bound; nia].
  - split; [lia|]. intros _. unfold floatToHalf.
    rewrite f_land_e, f_land_m by auto. rewrite (w32_id (e * 2 ^ 23)) by lia. rewrite Z.shiftr_div_pow2 by lia.
    rewrite Z.div_mul by lia. rewrite (w16_id e) by lia.
    replace (w32 (1 - w32 (e - 112))) with (w32 (113 - e)). 2:{ unfold w32. rewrite Zminus_mod_idemp_r. f_equal; lia. }
    unfold shr32. rewrite W. reflexivity.
Qed.

Lemma w16_lor s em : 0 <= s < 2 -> 0 <= em < 2 ^ 15 -> w16 (Z.lor (s * 2 ^ 15) em) = s * 2 ^ 15 + em.
Proof. intros. rewrite lor_add by lia. apply w16_id. lia. Qed.

Lemma bit12 m : Z.testbit m 12 = (2 ^ 12 <=? m mod 2 ^ 13).
Proof.
  rewrite <- (Z.mod_pow2_bits_low m 13 12) by lia. apply testbit_high; [lia|]. apply Z.mod_pos_bound. reflexivity.
Qed.

(** Rounding to a multiple of 2^13, halves upwards. *)
Lemma f2h_round_div m : 0 <= m < 2 ^ 23 -> let q := f2h_round m / 2 ^ 13 in
  0 <= q <= 2 ^ 10 /\ (2 ^ 23 <= f2h_round m <-> q = 2 ^ 10) /\ 2 * (m - q * 2 ^ 13) < 2 ^ 13 /\ 2 * (q * 2 ^ 13 - m) <= 2 ^ 13 /\
  (q = 2 ^ 10 <-> 2 ^ 23 - 2 ^ 12 <= m).
Proof.
  intros Hm q. pose proof (Z.div_mod m (2 ^ 13) ltac:(lia)) as E. pose proof (Z.mod_pos_bound m (2 ^ 13) ltac:(lia)) as R.
  assert (Q : f2h_round m = (m / 2 ^ 13 + (if 2 ^ 12 <=? m mod 2 ^ 13 then 1 else 0)) * 2 ^ 13 + m mod 2 ^ 13).
  { unfold f2h_round. rewrite bit12. destruct (2 ^ 12 <=? m mod 2 ^ 13); lia. }
  assert (Qq : q = m / 2 ^ 13 + (if 2 ^ 12 <=? m mod 2 ^ 13 then 1 else 0)). { unfold q. rewrite Q. apply div_unique_small with (m mod 2 ^ 13); auto. }
  clearbody q. rewrite <- Qq in Q. destruct (2 ^ 12 <=? m mod 2 ^ 13) eqn:T; lia.
Qed.

Lemma f2h_em_normal D e m : 0 <= m < 2 ^ 23 -> 113 <= e <= 143 ->
  f2h_em D e m = (e - 112) * 2 ^ 10 + f2h_round m / 2 ^ 13.
Proof.
  intros Hm He. destruct (f2h_round_div m Hm) as (R1 & R2 & _). unfold f2h_em.
  replace (e =? 255) with false by lia. replace (e <=? 112) with false by lia. replace (144 <=? e) with false by lia. cbn [andb].
  destruct (2 ^ 23 <=? f2h_round m) eqn:E; lia.
Qed.

Lemma f2h_nearest j f : bits32 f -> float_finite f -> 113 <= fexp f -> float_magnitude f < overflow_threshold * 2 ^ 125 ->
  exists h, floatToHalf (Some j) f = Ok h /\ hsign h = fsign f /\ nearest (2 ^ 125) h (float_units f) /\ ties_away (2 ^ 125) h (float_units f).
Proof.
  intros B Fi He Hov. destruct (fpack_of f B) as (F & E). pose proof F as (Fs & Fe & Fm). set (s := fsign f) in *. set (e := fexp f) in *. set (m := ffrac f) in *.
  destruct (f2h_round_div m Fm) as (R1 & R2 & R3 & R4 & R5). set (q := f2h_round m / 2 ^ 13) in *.
  assert (Mag : float_magnitude f = (2 ^ 23 + m) * 2 ^ (e - 1)). { unfold float_magnitude. fold e m. replace (e =? 0) with false by lia. reflexivity. }
  assert (He2 : e <= 142).
  { destruct (Z.le_gt_cases e 142); auto. exfalso. rewrite Mag in Hov. unfold overflow_threshold in Hov.
    assert (2 ^ 142 <= 2 ^ (e - 1)) by (apply Z.pow_le_mono_r; lia).
    assert (2 ^ 23 * 2 ^ 142 <= (2 ^ 23 + m) * 2 ^ (e - 1)) by (apply Z.mul_le_mono_nonneg; lia). lia. }
  assert (Hq : e = 142 -> q < 2 ^ 10).
  { intros E142. destruct (Z.lt_ge_cases q (2 ^ 10)); auto. exfalso. assert (2 ^ 23 - 2 ^ 12 <= m) by lia.
    rewrite Mag, E142 in Hov. unfold overflow_threshold in Hov. change (142 - 1) with 141 in Hov.
    assert ((2 ^ 24 - 2 ^ 12) * 2 ^ 141 <= (2 ^ 23 + m) * 2 ^ 141) by (apply Z.mul_le_mono_nonneg_r; lia). lia. }
  destruct (f2h_total j s e m F) as (D & RD & HD & _).
  set (e' := if q =? 2 ^ 10 then e - 111 else e - 112). set (m' := if q =? 2 ^ 10 then 0 else q).
  assert (HF : hfields s e' m'). { unfold hfields, e', m'. destruct (q =? 2 ^ 10) eqn:Eq; lia. }
  assert (EP : s * 2 ^ 15 + ((e - 112) * 2 ^ 10 + q) = hpack s e' m'). { unfold hpack, e', m'. destruct (q =? 2 ^ 10) eqn:Eq; lia. }
  assert (Eh : floatToHalf (Some j) f = Ok (hpack s e' m')).
  { rewrite <- E. rewrite (floatToHalf_eq (Some j) s e m D) by auto. rewrite f2h_em_normal by lia. fold q. rewrite w16_lor by lia. rewrite EP. reflexivity. }
  destruct (hpack_fields _ _ _ HF) as (B16 & P1 & P2 & P3).
  exists (hpack s e' m'). split; [exact Eh|]. split; [exact P1|].
  assert (HM : half_magnitude (hpack s e' m') = (2 ^ 10 + q) * 2 ^ (e - 113)).
  { unfold half_magnitude. rewrite P2, P3. unfold e', m'. destruct (q =? 2 ^ 10) eqn:Eq.
    - replace (e - 111 =? 0) with false by lia. replace (e - 111 - 1) with (1 + (e - 113)) by lia. rewrite Z.pow_add_r by lia. change (2 ^ 1) with 2. lia.
    - replace (e - 112 =? 0) with false by lia. replace (e - 112 - 1) with (e - 113) by lia. reflexivity. }
  pose proof (pow_pos (e - 1) ltac:(lia)) as Pe.
  assert (Sc : 2 ^ (e - 113) * 2 ^ 125 = 2 ^ 13 * 2 ^ (e - 1)). { rewrite <- !Z.pow_add_r by lia. f_equal. lia. }
  assert (Fin : half_finite (hpack s e' m')). { unfold half_finite. rewrite P2. unfold e'. destruct (q =? 2 ^ 10) eqn:Eq; lia. }
  pose proof (nearest_away (2 ^ 125) (hpack s e' m') (float_magnitude f) (2 ^ 10 + q) (e - 113)) as NA.
  rewrite P1 in NA. unfold float_units. fold s. apply NA; auto; try lia.
  - right. rewrite Mag. replace (e - 113 + 10) with (10 + (e - 113)) by lia. rewrite Z.pow_add_r by lia.
    rewrite <- Z.mul_assoc, Sc. rewrite Z.mul_assoc. apply Z.mul_le_mono_nonneg_r; lia.
  - rewrite <- Z.mul_assoc, Sc, Mag.
    replace (2 * ((2 ^ 23 + m) * 2 ^ (e - 1) - (2 ^ 10 + q) * (2 ^ 13 * 2 ^ (e - 1)))) with (2 * (m - q * 2 ^ 13) * 2 ^ (e - 1)) by ring.
    apply Z.mul_lt_mono_pos_r; lia.
  - rewrite <- Z.mul_assoc, Sc, Mag.
    replace (2 * ((2 ^ 10 + q) * (2 ^ 13 * 2 ^ (e - 1)) - (2 ^ 23 + m) * 2 ^ (e - 1))) with (2 * (q * 2 ^ 13 - m) * 2 ^ (e - 1)) by ring.
    apply Z.mul_le_mono_nonneg_r; lia.
Qed.

(** Overflow. *)
Lemma f2h_inf j f : bits32 f -> ~ float_nan f ->
  (144 <= fexp f \/ fexp f = 142 /\ 2 ^ 23 - 2 ^ 12 <= ffrac f) ->
  exists h, floatToHalf (Some j) f = Ok h /\ hsign h = fsign f /\ half_inf h.
Proof.
  intros B Nn Hc. destruct (fpack_of f B) as (F & E). pose proof F as (Fs & Fe & Fm). set (s := fsign f) in *. set (e := fexp f) in *. set (m := ffrac f) in *.
  assert (HF : hfields s 31 0) by (unfold hfields; lia). destruct (hpack_fields _ _ _ HF) as (B16 & P1 & P2 & P3).
  exists (hpack s 31 0). split; [|split; [exact P1|split; auto]].
  destruct (f2h_total j s e m F) as (D & RD & HD & _). rewrite <- E. rewrite (floatToHalf_eq (Some j) s e m D) by auto.
  assert (X : f2h_em D e m = 31 * 2 ^ 10).
  { destruct Hc as [Hc|[Hc1 Hc2]].
    - unfold f2h_em. unfold float_nan in Nn. fold e m in Nn. replace ((e =? 255) && (2 ^ 22 <=? m)) with false by lia.
      replace (e <=? 112) with false by lia. replace (144 <=? e) with true by lia. reflexivity.
    - rewrite f2h_em_normal by lia. destruct (f2h_round_div m Fm) as (_ & _ & _ & _ & R5). rewrite (proj2 R5) by lia. lia. }
  rewrite X, w16_lor by lia. unfold hpack. f_equal. lia.
Qed.

Lemma f2h_quiet_nan j f : bits32 f -> fexp f = 255 -> 2 ^ 22 <= ffrac f ->
  exists h, floatToHalf (Some j) f = Ok h /\ hsign h = fsign f /\ half_nan h.
Proof.
  intros B H1 H2. destruct (fpack_of f B) as (F & E). pose proof F as (Fs & Fe & Fm). set (s := fsign f) in *. set (e := fexp f) in *. set (m := ffrac f) in *.
  assert (HF : hfields s 31 512) by (unfold hfields; lia). destruct (hpack_fields _ _ _ HF) as (B16 & P1 & P2 & P3).
  exists (hpack s 31 512). split; [|split; [exact P1|split; lia]].
  destruct (f2h_total j s e m F) as (D & RD & HD & _). rewrite <- E. rewrite (floatToHalf_eq (Some j) s e m D) by auto.
  unfold f2h_em. replace ((e =? 255) && (2 ^ 22 <=? m)) with true by lia. change 0x7e00 with (31 * 2 ^ 10 + 512). rewrite w16_lor by lia. unfold hpack. f_equal. lia.
Qed.

Lemma f2h_signalling_nan j f : bits32 f -> fexp f = 255 -> 0 < ffrac f < 2 ^ 22 ->
  exists h, floatToHalf (Some j) f = Ok h /\ hsign h = fsign f /\ half_inf h.
Proof.
  intros B H1 H2. destruct (fpack_of f B) as (F & E). pose proof F as (Fs & Fe & Fm). set (s := fsign f) in *. set (e := fexp f) in *. set (m := ffrac f) in *.
  assert (HF : hfields s 31 0) by (unfold hfields; lia). destruct (hpack_fields _ _ _ HF) as (B16 & P1 & P2 & P3).
  exists (hpack s 31 0). split; [|split; [exact P1|split; lia]].
  destruct (f2h_total j s e m F) as (D & RD & HD & _). rewrite <- E. rewrite (floatToHalf_eq (Some j) s e m D) by auto.
  unfold f2h_em. replace ((e =? 255) && (2 ^ 22 <=? m)) with false by lia. replace (e <=? 112) with false by lia. replace (144 <=? e) with true by lia.
  change 0x7c00 with (31 * 2 ^ 10). rewrite w16_lor by lia. unfold hpack. f_equal. lia.
Qed.

(** ** There and back *)
Lemma round_multiple m c : 0 <= m < 2 ^ 23 -> m = c * 2 ^ 13 -> f2h_round m = m.
Proof. intros H ->. unfold f2h_round. rewrite bit12. rewrite Z.mod_mul by lia. change (2 ^ 12 <=? 0) with false. lia. Qed.

Lemma back_and_forth j h : bits16 h -> ~ half_nan h -> ~ half_zero h ->
  (do f <- halfToFloat (Some j) h; floatToHalf (Some j) f) = Ok h.
Proof.
  intros B Nn Nz. destruct (hpack_of h B) as (F & E). pose proof F as (Fs & Fe & Fm).
  unfold half_nan, half_zero in *. set (s := hsign h) in *. set (e := hexp h) in *. set (m := hfrac h) in *.
  rewrite <- E at 1. rewrite halfToFloat_eq by auto. cbn [bind].
  assert (K : forall e' m', ffields s e' m' -> h2f_em e m = e' * 2 ^ 23 + m' ->
    (forall D, shr32 (Some j) (f2h_hidden m') (w32 (113 - e')) = Ok D -> (82 <= e' <= 113 -> D = f2h_hidden m' / 2 ^ (113 - e')) -> f2h_em D e' m' = e * 2 ^ 10 + m) ->
    floatToHalf (Some j) (s * 2 ^ 31 + h2f_em e m) = Ok h).
  { intros e' m' FF Eh K. rewrite Eh. replace (s * 2 ^ 31 + (e' * 2 ^ 23 + m')) with (fpack s e' m') by (unfold fpack; lia).
    destruct (f2h_total j s e' m' FF) as (D & RD & HD & HD2). rewrite (floatToHalf_eq (Some j) s e' m' D) by auto.
    rewrite (K D HD HD2). rewrite w16_lor by lia. f_equal. unfold hpack in E. lia. }
  unfold h2f_em in *. destruct (e =? 0) eqn:E0; [destruct (m =? 0) eqn:E1|destruct (e =? 31) eqn:E1].
  - lia.
  - destruct (subnormal_frac m) as [L1 L2]; [lia|]. set (k := Z.log2 m) in *.
    eapply K; [|reflexivity|]. { unfold ffields. lia. }
    intros D _ HD. rewrite HD by lia. unfold f2h_em. replace (103 + k =? 255) with false by lia. replace (103 + k <=? 112) with true by lia. cbn [andb].
    assert (Rm : f2h_round (m * 2 ^ (23 - k) - 2 ^ 23) = m * 2 ^ (23 - k) - 2 ^ 23).
    { apply (round_multiple _ (m * 2 ^ (10 - k) - 2 ^ 10)); [lia|]. replace (23 - k) with (10 - k + 13) by lia. rewrite Z.pow_add_r by lia. lia. }
    unfold f2h_hidden. rewrite Rm. replace (m * 2 ^ (23 - k) - 2 ^ 23 <? 2 ^ 23) with true by lia.
    replace (m * 2 ^ (23 - k) - 2 ^ 23 + 2 ^ 23) with (m * 2 ^ 13 * 2 ^ (113 - (103 + k))).
    2:{ rewrite <- Z.mul_assoc, <- Z.pow_add_r by lia. replace (13 + (113 - (103 + k))) with (23 - k) by lia. lia. }
    rewrite Z.div_mul by (pose proof (pow_pos (113 - (103 + k))); lia). rewrite Z.div_mul by lia. lia.
  - assert (m = 0) by lia. eapply K; [|reflexivity|]. { unfold ffields. lia. }
    intros D _ _. unfold f2h_em. replace (m * 2 ^ 13) with 0 by lia. change (255 =? 255) with true. change (2 ^ 22 <=? 0) with false. change (255 <=? 112) with false. change (144 <=? 255) with true. cbn [andb]. lia.
  - eapply K; [|reflexivity|]. { unfold ffields. lia. }
    intros D _ _. rewrite f2h_em_normal by lia. rewrite (round_multiple _ m) by lia. rewrite Z.div_mul by lia. lia.
Qed.

(** Zero: the value of an out-of-range shift decides. *)
Lemma zero_back j h : bits16 h -> half_zero h ->
  (do f <- halfToFloat (Some j) h; floatToHalf (Some j) f) = Ok (w16 (Z.lor h (w32 (j (2 ^ 23) 113) / 2 ^ 13))).
Proof.
  intros B [Z1 Z2]. destruct (hpack_of h B) as (F & E). pose proof F as (Fs & Fe & Fm). set (s := hsign h) in *. rewrite Z1, Z2 in *.
  rewrite <- E. rewrite halfToFloat_eq by auto. cbn [bind]. unfold h2f_em. change (0 =? 0) with true. cbv iota.
  assert (FF : ffields s 0 0) by (unfold ffields; lia).
  replace (s * 2 ^ 31 + 0) with (fpack s 0 0) by (unfold fpack; lia).
  rewrite (floatToHalf_eq (Some j) s 0 0 (w32 (j (2 ^ 23) 113))); auto using w32_range.
  unfold hpack. replace (s * 2 ^ 15 + 0 * 2 ^ 10 + 0) with (s * 2 ^ 15) by lia. reflexivity.
Qed.

(** ** Comparison *)
Definition em_key (e m : Z) : Z := if e =? 31 then 2 ^ 41 else if e =? 0 then m else (2 ^ 10 + m) * 2 ^ (e - 1).

Lemma em_key_bound e m : 0 <= e < 31 -> 0 <= m < 1024 -> 0 <= em_key e m < 2 ^ 10 * 2 ^ e.
Proof.
  intros He Hm. unfold em_key. replace (e =? 31) with false by lia. destruct (e =? 0) eqn:E. { replace e with 0 by lia. lia. }
  assert (P2 : 2 ^ e = 2 * 2 ^ (e - 1)). { replace e with (Z.succ (e - 1)) at 1 by lia. apply Z.pow_succ_r. lia. } rewrite P2. pose proof (pow_pos (e - 1) ltac:(lia)). change (2 ^ 10) with 1024. nia.
Qed.
Lemma em_key_low e m : 1 <= e < 31 -> 0 <= m < 1024 -> 2 ^ 10 * 2 ^ (e - 1) <= em_key e m.
Proof.
  intros He Hm. unfold em_key. replace (e =? 31) with false by lia. replace (e =? 0) with false by lia.
  pose proof (pow_pos (e - 1) ltac:(lia)). nia.
Qed.
Lemma em_key_exp e m e' m' : 0 <= e < 32 -> 0 <= e' < 32 -> 0 <= m < 1024 -> 0 <= m' < 1024 ->
  e < e' -> em_key e m < em_key e' m'.
Proof.
  intros He He' Hm Hm' L. pose proof (em_key_bound e m ltac:(lia) Hm) as B.
  destruct (Z.eq_dec e' 31) as [->|N].
  - unfold em_key at 2. change (31 =? 31) with true. cbv iota. assert (2 ^ e <= 2 ^ 30) by (apply Z.pow_le_mono_r; lia). lia.
  - pose proof (em_key_low e' m' ltac:(lia) Hm') as B'. assert (2 ^ e <= 2 ^ (e' - 1)) by (apply Z.pow_le_mono_r; lia). lia.
Qed.
Lemma em_key_frac e m m' : 0 <= e < 31 -> (em_key e m < em_key e m' <-> m < m').
Proof.
  intros He. unfold em_key. replace (e =? 31) with false by lia. destruct (e =? 0) eqn:E; [tauto|].
  pose proof (pow_pos (e - 1) ltac:(lia)). split; nia.
Qed.

Lemma lt_spec l r : bits16 l -> bits16 r -> ~ half_nan l -> ~ half_nan r -> ~ (half_zero l /\ half_zero r) ->
  half_lt l r = (order_key l <? order_key r).
Proof.
  intros Bl Br Nl Nr Nz. destruct (hpack_of l Bl) as ((Sl & El & Ml) & _), (hpack_of r Br) as ((Sr & Er & Mr) & _).
  assert (Kl : order_key l = if hsign l =? 0 then em_key (hexp l) (hfrac l) else - em_key (hexp l) (hfrac l)) by reflexivity.
  assert (Kr : order_key r = if hsign r =? 0 then em_key (hexp r) (hfrac r) else - em_key (hexp r) (hfrac r)) by reflexivity.
  rewrite Kl, Kr. unfold half_lt, half_nan, half_zero in *.
  change (m_sign l) with (hsign l). change (m_sign r) with (hsign r). change (m_exp l) with (hexp l). change (m_exp r) with (hexp r). change (m_frac l) with (hfrac l). change (m_frac r) with (hfrac r).
  generalize dependent (hsign l). generalize dependent (hsign r). generalize dependent (hexp l). generalize dependent (hexp r). generalize dependent (hfrac l). generalize dependent (hfrac r).
  clear. intros mr Mr ml Ml er Nr Er el Nl Nz El sr Sr _ sl Sl _.
  assert (P : forall e m, 0 <= e < 32 -> 0 <= m < 1024 -> 0 <= em_key e m /\ (~ (e = 0 /\ m = 0) -> 0 < em_key e m)).
  { intros e m He Hm. destruct (Z.eq_dec e 31) as [->|N]. { unfold em_key. change (31 =? 31) with true. lia. }
    destruct (Z.eq_dec e 0) as [->|N0]. { unfold em_key. change (0 =? 31) with false. change (0 =? 0) with true. cbv iota. lia. }
    pose proof (em_key_low e m ltac:(lia) Hm). pose proof (pow_pos (e - 1) ltac:(lia)). lia. }
  destruct (P el ml El Ml) as [Pl Pl'], (P er mr Er Mr) as [Pr Pr'].
  assert (C : (el < er -> em_key el ml < em_key er mr) /\ (er < el -> em_key er mr < em_key el ml) /\
    (el = er -> (ml < mr -> em_key el ml < em_key er mr) /\ (mr < ml -> em_key er mr < em_key el ml) /\ (mr = ml -> em_key er mr = em_key el ml))).
  { split; [apply em_key_exp; auto|]. split; [apply em_key_exp; auto|]. intros <-.
    destruct (Z.eq_dec el 31) as [->|N]. { assert (ml = 0) by lia. assert (mr = 0) by lia. subst. lia. }
    split; [apply em_key_frac; lia|]. split; [apply em_key_frac; lia|]. intros ->; auto. }
  destruct C as (C1 & C2 & C3). generalize dependent (em_key el ml). generalize dependent (em_key er mr). intros kr Pr Pr' kl Pl Pl' C1 C2 C3.
  assert (S1 : sl = 0 \/ sl = 1) by lia. assert (S2 : sr = 0 \/ sr = 1) by lia. clear Sl Sr P.
  destruct (Z.lt_trichotomy el er) as [L|[L|L]].
  - specialize (C1 L). destruct S1 as [-> | ->], S2 as [-> | ->]; cbv [Z.eqb Pos.eqb]; replace (el >? er) with false by lia; replace (el <? er) with true by lia; lia.
  - specialize (C3 L). destruct C3 as (C4 & C5 & C6). subst er. replace (el >? el) with false by lia. replace (el <? el) with false by lia.
    destruct (Z.lt_trichotomy ml mr) as [Q|[Q|Q]].
    + specialize (C4 Q). replace (ml >? mr) with false by lia. replace (ml >=? mr) with false by lia.
      destruct S1 as [-> | ->], S2 as [-> | ->]; cbv [Z.eqb Pos.eqb]; lia.
    + subst mr. specialize (C6 eq_refl). replace (ml >? ml) with false by lia. replace (ml >=? ml) with true by lia.
      destruct S1 as [-> | ->], S2 as [-> | ->]; cbv [Z.eqb Pos.eqb]; lia.
    + specialize (C5 Q). replace (ml >? mr) with true by lia. replace (ml >=? mr) with true by lia.
      destruct S1 as [-> | ->], S2 as [-> | ->]; cbv [Z.eqb Pos.eqb]; lia.
  - specialize (C2 L). destruct S1 as [-> | ->], S2 as [-> | ->]; cbv [Z.eqb Pos.eqb]; replace (el >? er) with true by lia; lia.
Qed.

Lemma eq_spec l r : bits16 l -> bits16 r -> ~ half_nan l -> ~ half_nan r -> ~ (half_zero l /\ half_zero r) ->
  half_eq l r = (order_key l =? order_key r).
Proof.
  intros Bl Br Nl Nr Nz. unfold half_eq. destruct (l =? r) eqn:E. { replace r with l by lia. lia. }
  pose proof (lt_spec l r Bl Br Nl Nr Nz) as L1. pose proof (lt_spec r l Br Bl Nr Nl ltac:(tauto)) as L2.
  assert (OR : half_lt l r || half_lt r l = true); [|rewrite L1, L2 in OR; lia].
  destruct (hpack_of l Bl) as ((Sl & El & Ml) & Pl), (hpack_of r Br) as ((Sr & Er & Mr) & Pr).
  assert (D : ~ (hsign l = hsign r /\ hexp l = hexp r /\ hfrac l = hfrac r)). { intros (A & B & C). rewrite A, B, C in Pl. lia. }
  unfold half_lt. change (m_sign l) with (hsign l). change (m_sign r) with (hsign r). change (m_exp l) with (hexp l). change (m_exp r) with (hexp r). change (m_frac l) with (hfrac l). change (m_frac r) with (hfrac r).
  clear - D Sl Sr. generalize dependent (hsign l). generalize dependent (hsign r). intros sr Sr sl D Sl.
  assert (S1 : sl = 0 \/ sl = 1) by lia. assert (S2 : sr = 0 \/ sr = 1) by lia.
  destruct S1 as [-> | ->], S2 as [-> | ->]; cbv [Z.eqb Pos.eqb]; auto;
  destruct (hexp l >? hexp r) eqn:A1, (hexp l <? hexp r) eqn:A2, (hexp r >? hexp l) eqn:A3, (hexp r <? hexp l) eqn:A4; auto;
  destruct (hfrac l >? hfrac r) eqn:B1, (hfrac r >? hfrac l) eqn:B2, (hfrac l >=? hfrac r) eqn:B3, (hfrac r >=? hfrac l) eqn:B4; auto; exfalso; lia.
Qed.
