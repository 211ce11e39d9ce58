(** Proofs about conversions of multi-precision numbers. *)
From Coq Require Import ZArith QArith Qabs Qround Qpower Lia Lqa.
From Coq Require Import ZifyNat ZifyN ZifyBool.
From Verif Require Import Base MpfModel MpfSpec MpfProofs MpcModel MpcSpec.
Ltac Zify.zify_post_hook ::= idtac.
Local Open Scope Z_scope.

(** Rounding *)
Lemma round_even_near a b : 0 < b -> 2 * Z.abs (b * round_even a b - a) <= b.
Proof.
  intros Hb. unfold round_even. pose proof (Z.div_mod a b ltac:(lia)) as E. pose proof (Z.mod_pos_bound a b Hb) as M.
  destruct (2 * (a mod b) ?= b) eqn:C.
  - apply Z.compare_eq in C. destruct (Z.even (a / b)); lia.
  - rewrite Z.compare_lt_iff in C. lia.
  - rewrite Z.compare_gt_iff in C. lia.
Qed.
Lemma round_even_exact k b : 0 < b -> round_even (k * b) b = k.
Proof.
  intros Hb. pose proof (round_even_near (k * b) b Hb) as H. assert (Z.abs (b * (round_even (k * b) b - k)) < b) by lia.
  rewrite Z.abs_mul in H0. nia.
Qed.
Lemma round_even_sign a b : 0 < b -> (a < 0 -> round_even a b <= 0) /\ (0 <= a -> 0 <= round_even a b).
Proof. intros Hb. pose proof (round_even_near a b Hb). split; intros; nia. Qed.

(** Digits *)
Lemma number_horner l : number l = horner 10 l.
Proof. reflexivity. Qed.
Lemma digits_of_take s : digits_of s = take_digits s.
Proof. induction s as [|[d| |] s IH]; cbn; [reflexivity| |reflexivity..]. now rewrite IH. Qed.
Lemma number_snoc l d : number (l ++ [d]) = number l * 10 + Z.of_nat d.
Proof. unfold number. now rewrite fold_left_app. Qed.
Lemma whole_value f : forall a, 0 <= a -> number (whole f a) = a.
Proof.
  induction f; intros a Ha; cbn [whole].
  - cbn. lia.
  - destruct (Z.ltb_spec a 10); [cbn; lia|]. pose proof (Z.div_mod a 10 ltac:(lia)). pose proof (Z.mod_pos_bound a 10 ltac:(lia)).
    rewrite number_snoc, IHf by (apply Z.div_pos; lia). lia.
Qed.
Lemma whole_nonempty f a : whole f a <> [].
Proof. destruct f; cbn; [discriminate|]. destruct (a <? 10); [discriminate|]. intros E. apply app_eq_nil in E. now destruct E. Qed.
Lemma whole_small f : forall a, 0 <= a < 2 ^ (Z.of_nat f + 1) -> Forall (fun d => d < 10)%nat (whole f a).
Proof.
  induction f; intros a Ha; cbn [whole].
  - change (2 ^ (Z.of_nat 0 + 1)) with 2 in Ha. constructor; [lia|constructor].
  - destruct (Z.ltb_spec a 10); [constructor; [lia|constructor]|]. apply Forall_app. split.
    + apply IHf. split; [apply Z.div_pos; lia|]. apply Z.div_lt_upper_bound; [lia|].
      replace (Z.of_nat (S f) + 1) with (Z.succ (Z.of_nat f + 1)) in Ha by lia. rewrite Z.pow_succ_r in Ha by lia. lia.
    + pose proof (Z.mod_pos_bound a 10 ltac:(lia)). constructor; [lia|constructor].
Qed.
Lemma digits_small a : 0 <= a -> Forall (fun d => d < 10)%nat (digits a).
Proof.
  intros Ha. apply whole_small. split; [lia|]. rewrite Z2Nat.id by apply Z.log2_nonneg.
  destruct (Z.eq_dec a 0) as [->|]; [reflexivity|]. apply Z.log2_spec. lia.
Qed.
Lemma last_digits_length d : forall a, length (last_digits d a) = d.
Proof. induction d; intros a; cbn [last_digits]; [reflexivity|]. rewrite app_length, IHd. cbn. lia. Qed.
Lemma last_digits_value d : forall a, number (last_digits d a) = a mod 10 ^ Z.of_nat d.
Proof.
  induction d; intros a; cbn [last_digits].
  - now rewrite Z.mod_1_r.
  - rewrite number_snoc, IHd. replace (Z.of_nat (S d)) with (Z.succ (Z.of_nat d)) by lia. rewrite Z.pow_succ_r by lia.
    rewrite (Z.rem_mul_r a 10) by (try apply Z.pow_nonzero; lia). pose proof (Z.mod_pos_bound a 10 ltac:(lia)). lia.
Qed.
Lemma last_digits_small d : forall a, Forall (fun d => d < 10)%nat (last_digits d a).
Proof.
  induction d; intros a; cbn [last_digits]; [constructor|]. apply Forall_app. split; [apply IHd|].
  pose proof (Z.mod_pos_bound a 10 ltac:(lia)). constructor; [lia|constructor].
Qed.
Lemma pow10_pos d : 0 <= d -> 0 < 10 ^ d.
Proof. intros. apply Z.pow_pos_nonneg; lia. Qed.
Lemma pow2_pos d : 0 <= d -> 0 < 2 ^ d.
Proof. intros. apply Z.pow_pos_nonneg; lia. Qed.

(** Reading texts *)
Lemma scan_integer ds : ds <> [] -> scan_unsigned (map Dig ds) = Some (inject_Z (number ds)).
Proof.
  intros H. unfold scan_unsigned. rewrite digits_of_take. rewrite <- (app_nil_r (map Dig ds)), take_digits_map by discriminate.
  destruct ds; [congruence|]. reflexivity.
Qed.
Lemma scan_point is fs : is <> [] ->
  scan_unsigned (map Dig is ++ Dot :: map Dig fs) = Some (number (is ++ fs) # Z.to_pos (10 ^ Z.of_nat (length fs)))%Q.
Proof.
  intros H. unfold scan_unsigned. rewrite digits_of_take, take_digits_map by discriminate. destruct is as [|i is]; [congruence|].
  rewrite digits_of_take. rewrite <- (app_nil_r (map Dig fs)), take_digits_map by discriminate. reflexivity.
Qed.
Lemma scan_plain s : (forall r, s <> Minus :: r) -> scan s = scan_unsigned s.
Proof. intros H. destruct s as [|[d| |] s]; auto. exfalso. now apply (H s). Qed.

(** The text of an mpfr *)
Definition rounded (d : Z) (q : Q) : Z := round_even (Qnum q * 10 ^ d) (Zpos (Qden q)).
Lemma fixed_scan d q : 0 <= d -> exists v, scan (fixed d q) = Some v /\ (v == inject_Z (rounded d q) * decimal d)%Q.
Proof.
  intros Hd. pose proof (pow10_pos d Hd) as T. unfold fixed. fold (rounded d q). set (n := Z.abs (rounded d q)).
  assert (Hn : 0 <= n) by (unfold n; lia).
  set (body := map Dig (digits (n / 10 ^ d)) ++ (if d =? 0 then [] else Dot :: map Dig (last_digits (Z.to_nat d) n))).
  assert (B : exists v, scan_unsigned body = Some v /\ (v == inject_Z n * decimal d)%Q).
  { unfold body. destruct (Z.eqb_spec d 0) as [->|D].
    - rewrite app_nil_r, scan_integer by apply whole_nonempty. eexists. split; [reflexivity|]. unfold digits.
      rewrite whole_value by (rewrite Z.pow_0_r, Z.div_1_r; lia). rewrite Z.pow_0_r, Z.div_1_r. unfold decimal. cbn. now rewrite Qmult_1_r.
    - rewrite scan_point by apply whole_nonempty. eexists. split; [reflexivity|].
      rewrite last_digits_length, !Z2Nat.id by lia. rewrite number_horner, horner_app, <- !number_horner, last_digits_length, last_digits_value.
      rewrite Z2Nat.id by lia. unfold digits. rewrite whole_value by (apply Z.div_pos; lia).
      pose proof (Z.div_mod n (10 ^ d) ltac:(lia)) as E. rewrite (Z.mul_comm (n / 10 ^ d)), <- E.
      rewrite Qmake_Qdiv. unfold decimal, Qdiv. rewrite Z2Pos.id by lia. reflexivity. }
  destruct B as (v & S & V). pose proof (round_even_sign (Qnum q * 10 ^ d) (Zpos (Qden q)) ltac:(lia)) as [SN SP].
  fold (rounded d q) in SN, SP. destruct (Z.ltb_spec (Qnum q) 0) as [N|N].
  - change ([Minus] ++ body) with (Minus :: body). cbn [scan]. rewrite S. eexists. split; [reflexivity|]. rewrite V.
    specialize (SN ltac:(nia)). replace (rounded d q) with (- n) by (unfold n; lia). rewrite inject_Z_opp. ring.
  - specialize (SP ltac:(nia)). cbn [app]. rewrite scan_plain, S.
    + eexists. split; [reflexivity|]. rewrite V. now replace n with (rounded d q) by (unfold n; lia).
    + intros r E. unfold body in E. pose proof (whole_nonempty (Z.to_nat (Z.log2 (n / 10 ^ d))) (n / 10 ^ d)) as W. fold (digits (n / 10 ^ d)) in W.
      destruct (digits (n / 10 ^ d)); [congruence|]. discriminate E.
Qed.
Lemma decimal_pos d : 0 <= d -> (0 < decimal d)%Q.
Proof. intros H. apply Qinv_lt_0_compat. change 0%Q with (inject_Z 0). rewrite <- Zlt_Qlt. now apply pow10_pos. Qed.
Lemma bit_pos p : 0 <= p -> (0 < bit p)%Q.
Proof. intros H. apply Qinv_lt_0_compat. change 0%Q with (inject_Z 0). rewrite <- Zlt_Qlt. now apply pow2_pos. Qed.
Lemma rounded_near d q : 0 <= d -> (Qabs (inject_Z (rounded d q) * decimal d - q) <= (1 # 2) * decimal d)%Q.
Proof.
  intros Hd. pose proof (pow10_pos d Hd) as T. pose proof (round_even_near (Qnum q * 10 ^ d) (Zpos (Qden q)) ltac:(lia)) as N.
  fold (rounded d q) in N. set (r := rounded d q) in *. clearbody r. destruct q as [a b]. cbn [Qnum Qden] in *.
  unfold decimal. set (t := 10 ^ d) in *. clearbody t. destruct t as [|t|t]; try lia.
  assert (E : (inject_Z r * / inject_Z (Zpos t) - (a # b) == (Zpos b * r - a * Zpos t) # (b * t))%Q).
  { unfold Qeq, Qminus, Qplus, Qmult, Qinv, Qopp, inject_Z. cbn [Qnum Qden]. rewrite !Pos2Z.inj_mul. ring. }
  rewrite E. unfold Qabs, Qle, Qmult, Qinv, inject_Z. cbn [Qnum Qden]. rewrite !Pos2Z.inj_mul. nia.
Qed.

(** Digits and bits *)
Lemma bits2digits_nonneg b : 0 <= b -> 0 <= bits2digits b.
Proof. intros. unfold bits2digits. apply Z.div_pos; lia. Qed.
Lemma digits_enough p : 0 <= p <= 1000000 -> 2 ^ p <= 10 ^ (bits2digits p + 2).
Proof.
  intros Hp. pose proof (bits2digits_nonneg p ltac:(lia)) as D0. set (d := bits2digits p) in *.
  assert (D : p * 146 <= 485 * (d + 2)).
  { unfold d, bits2digits. pose proof (Z.div_mod (p * 30102999566398119) (10 ^ 17) ltac:(lia)) as E.
    pose proof (Z.mod_pos_bound (p * 30102999566398119) (10 ^ 17) ltac:(lia)) as M.
    set (q := p * 30102999566398119 / 10 ^ 17) in *. set (m := (p * 30102999566398119) mod 10 ^ 17) in *. clearbody q m.
    change (10 ^ 17) with 100000000000000000 in *. lia. }
  clearbody d. assert (P : 2 ^ 485 <= 10 ^ 146) by (vm_compute; discriminate).
  apply (proj2 (Z.pow_le_mono_l_iff (2 ^ p) (10 ^ (d + 2)) 485 ltac:(apply Z.pow_nonneg; lia) ltac:(apply Z.pow_nonneg; lia) ltac:(reflexivity))).
  rewrite <- !Z.pow_mul_r by lia. rewrite (Z.mul_comm p), Z.pow_mul_r by lia. eapply Z.le_trans.
  - apply Z.pow_le_mono_l. split; [apply Z.pow_nonneg; lia|exact P].
  - rewrite <- Z.pow_mul_r by lia. apply Z.pow_le_mono_r; lia.
Qed.
Lemma decimal_bit p : 0 <= p <= 1000000 -> (decimal (bits2digits p) <= 100 * bit p)%Q.
Proof.
  intros Hp. pose proof (digits_enough p Hp) as H. pose proof (bits2digits_nonneg p ltac:(lia)) as D.
  rewrite Z.pow_add_r in H by lia. pose proof (pow10_pos _ D) as T. pose proof (pow2_pos p ltac:(lia)) as P. unfold decimal, bit.
  set (t := 10 ^ bits2digits p) in *. set (b := 2 ^ p) in *. clearbody t b. destruct t as [|t|t]; try lia. destruct b as [|b|b]; try lia.
  unfold Qle, Qmult, Qinv, inject_Z. cbn [Qnum Qden]. rewrite ?Pos2Z.inj_mul. change (10 ^ 2) with 100 in H. lia.
Qed.
Lemma bit_le_one p : 0 <= p -> (bit p <= 1)%Q.
Proof.
  intros Hp. pose proof (pow2_pos p Hp) as P. unfold bit. set (b := 2 ^ p) in *. clearbody b. destruct b as [|b|b]; try lia.
  unfold Qle, Qinv, inject_Z. cbn [Qnum Qden]. lia.
Qed.

(** The integer part *)
Lemma chop_part x : integer_part x (chop x).
Proof.
  destruct x as [a b]. unfold integer_part, chop. cbn [Qnum Qden].
  pose proof (Z.quot_rem a (Zpos b) ltac:(lia)) as E.
  split; intros H; unfold Qle, Qlt, Qplus, Qminus, Qopp, inject_Z in *; cbn [Qnum Qden] in *; rewrite ?Z.mul_1_r in *.
  - pose proof (Z.rem_bound_pos a (Zpos b) ltac:(lia) ltac:(lia)). set (q := Z.quot a (Zpos b)) in *. cbn. lia.
  - pose proof (Z.rem_bound_pos (- a) (Zpos b) ltac:(lia) ltac:(lia)) as M. rewrite Z.rem_opp_l in M by lia.
    set (q := Z.quot a (Zpos b)) in *. cbn. lia.
Qed.
Lemma inject_lt1 a b : (inject_Z a < inject_Z b + 1)%Q -> a <= b.
Proof. intros H. change 1%Q with (inject_Z 1) in H. rewrite <- inject_Z_plus, <- Zlt_Qlt in H. lia. Qed.
Lemma integer_part_unique x y z1 z2 : (x == y)%Q -> integer_part x z1 -> integer_part y z2 -> z1 = z2.
Proof.
  intros E [P1 N1] [P2 N2]. destruct (Qlt_le_dec x 0) as [L|L].
  - specialize (N1 ltac:(lra)). specialize (N2 ltac:(lra)). apply Z.le_antisymm; apply inject_lt1; lra.
  - specialize (P1 L). specialize (P2 ltac:(lra)). apply Z.le_antisymm; apply inject_lt1; lra.
Qed.
Lemma integer_part_int z : integer_part (inject_Z z) z.
Proof. split; intros; lra. Qed.
Lemma chop_int x z : (x == inject_Z z)%Q -> chop x = z.
Proof. intros E. exact (integer_part_unique _ _ _ _ E (chop_part x) (integer_part_int z)). Qed.
Lemma part_close x z : integer_part x z -> (Qabs (inject_Z z - x) < 1)%Q.
Proof.
  intros [P N]. apply Qabs_Qlt_condition. destruct (Qlt_le_dec x 0).
  - specialize (N ltac:(lra)). lra.
  - specialize (P ltac:(lra)). lra.
Qed.

(** Conversions from an mpfr *)
Lemma Qmul_le a b c : (0 <= a -> b <= c -> a * b <= a * c)%Q.
Proof. intros. rewrite (Qmult_comm a b), (Qmult_comm a c). now apply Qmult_le_compat_r. Qed.
Lemma Qabs_tri a b c : (Qabs (a - c) <= Qabs (a - b) + Qabs (b - c))%Q.
Proof. setoid_replace (a - c)%Q with ((a - b) + (b - c))%Q by ring. apply Qabs_triangle. Qed.
Lemma text_read precision x : 0 <= precision -> exists t v, str_mpfr precision (-1) (Fin x) = Some t /\ scan t = Some v /\
  (v == inject_Z (rounded (bits2digits precision) x) * decimal (bits2digits precision))%Q.
Proof.
  intros Hp. unfold str_mpfr. cbn [Z.ltb Z.compare]. destruct (fixed_scan (bits2digits precision) x (bits2digits_nonneg _ Hp)) as (v & S & V).
  eexists. exists v. split; [reflexivity|]. auto.
Qed.
Lemma rounded_int d x z : 0 <= d -> (x == inject_Z z)%Q -> rounded d x = z * 10 ^ d.
Proof.
  intros Hd E. unfold rounded. unfold Qeq, inject_Z in E. cbn [Qnum Qden] in E.
  replace (Qnum x * 10 ^ d) with (z * 10 ^ d * Zpos (Qden x)) by lia. now apply round_even_exact.
Qed.
Lemma decimal_cancel d z : 0 <= d -> (inject_Z (z * 10 ^ d) * decimal d == inject_Z z)%Q.
Proof.
  intros Hd. pose proof (pow10_pos d Hd). unfold decimal. rewrite inject_Z_mult. rewrite <- Qmult_assoc, Qmult_inv_r; [ring|].
  intros E. apply (proj1 (inject_Z_injective (10 ^ d) 0)) in E. lia.
Qed.
Lemma mpf_error fit p precision x : good_fit p fit -> 0 <= p <= precision -> precision <= 1000000 ->
  exists y, mpf_of_text fit (str_mpfr precision (-1) (Fin x)) = Ok y /\ (Qabs (y - x) <= bit p * (Qabs x + 100))%Q.
Proof.
  intros G Hp HP. destruct (text_read precision x ltac:(lia)) as (t & v & T & S & V). rewrite T. unfold mpf_of_text. rewrite S.
  eexists. split; [reflexivity|]. set (d := bits2digits precision) in *.
  pose proof (rounded_near d x (bits2digits_nonneg precision ltac:(lia))) as N. rewrite <- V in N.
  assert (D : (decimal d <= 100 * bit p)%Q).
  { eapply Qle_trans; [apply decimal_bit; lia|]. pose proof (pow2_pos p ltac:(lia)). pose proof (pow2_pos precision ltac:(lia)).
    assert (2 ^ p <= 2 ^ precision) by (apply Z.pow_le_mono_r; lia). unfold bit. set (b := 2 ^ p) in *. set (c := 2 ^ precision) in *.
    clearbody b c. destruct b as [|b|b]; try lia. destruct c as [|c|c]; try lia. unfold Qle, Qmult, Qinv, inject_Z. cbn [Qnum Qden].
    rewrite ?Pos2Z.inj_mul. lia. }
  pose proof (fit_close _ _ G v) as C. pose proof (bit_pos p ltac:(lia)) as B. pose proof (bit_le_one p ltac:(lia)) as B1.
  pose proof (Qabs_tri (fit v) v x) as T1. pose proof (Qabs_tri v x 0) as T2.
  assert (Z0 : forall u, (Qabs (u - 0) == Qabs u)%Q) by (intros; apply Qabs_wd; ring). rewrite !Z0 in T2.
  assert (M : (bit p * Qabs v <= bit p * (Qabs x + 50 * bit p))%Q).
  { apply Qmul_le; lra. }
  assert (M2 : (bit p * bit p <= bit p * 1)%Q). { apply Qmul_le; lra. }
  lra.
Qed.
Lemma mpf_integer fit p precision x z : good_fit p fit -> 0 <= precision -> (x == inject_Z z)%Q -> Z.abs z <= 2 ^ p ->
  exists y, mpf_of_text fit (str_mpfr precision (-1) (Fin x)) = Ok y /\ (y == inject_Z z)%Q.
Proof.
  intros G HP E Hz. destruct (text_read precision x HP) as (t & v & T & S & V). rewrite T. unfold mpf_of_text. rewrite S.
  eexists. split; [reflexivity|]. rewrite (fit_compat _ _ G v (inject_Z z)); [now apply (fit_integer _ _ G)|].
  rewrite V, (rounded_int _ x z) by (auto using bits2digits_nonneg). apply decimal_cancel. now apply bits2digits_nonneg.
Qed.

(** Conversions to an mpfr *)
Lemma str_mpz_scan z : exists v, scan (str_mpz z) = Some v /\ (v == inject_Z z)%Q.
Proof.
  unfold str_mpz. assert (W : number (digits (Z.abs z)) = Z.abs z) by (apply whole_value; lia).
  assert (N : digits (Z.abs z) <> []) by apply whole_nonempty. destruct (Z.ltb_spec z 0).
  - cbn [app scan]. rewrite scan_integer, W by exact N. eexists. split; [reflexivity|]. rewrite <- inject_Z_opp.
    now replace (- Z.abs z) with z by lia.
  - cbn [app]. rewrite scan_plain.
    + rewrite scan_integer, W by exact N. eexists. split; [reflexivity|]. now replace (Z.abs z) with z by lia.
    + intros r E. destruct (digits (Z.abs z)); [congruence|discriminate E].
Qed.
Lemma scan_read_unsigned s q : read_unsigned 10 s = Some q -> exists v, scan_unsigned s = Some v /\ (v == q)%Q.
Proof.
  unfold read_unsigned, scan_unsigned. change digits_of with take_digits. destruct (take_digits s) as [[|i is] [|[d| |] r]]; try discriminate.
  destruct (take_digits r) as [fs [|? ?]]; try discriminate. intros H. injection H as <-.
  eexists. split; [reflexivity|]. change (horner 10 (i :: is ++ fs)) with (number (i :: is ++ fs)). set (n := number (i :: is ++ fs)). pose proof (pow10_pos (Z.of_nat (length fs)) ltac:(lia)) as T.
  rewrite Qmake_Qdiv. unfold Qdiv. rewrite Z2Pos.id by lia. rewrite Qpower_opp, Zpower_Qpower by lia. reflexivity.
Qed.
Lemma scan_read s q : read_text 10 s = Some q -> exists v, scan s = Some v /\ (v == q)%Q.
Proof.
  intros H. unfold read_text, scan in *.
  assert (P : forall u, option_map (fun q => (1 * q)%Q) (read_unsigned 10 u) = Some q -> exists v, scan_unsigned u = Some v /\ (v == q)%Q).
  { intros u Hu. destruct (read_unsigned 10 u) as [q'|] eqn:R; [|discriminate]. injection Hu as <-.
    destruct (scan_read_unsigned _ _ R) as (v & S & V). exists v. split; [auto|]. rewrite V. ring. }
  destruct s as [|[d| |] s]; try (now apply P).
  destruct (read_unsigned 10 s) as [q'|] eqn:R; [|discriminate]. injection H as <-.
  destruct (scan_read_unsigned _ _ R) as (v & S & V). rewrite S. eexists. split; [reflexivity|]. rewrite V. ring.
Qed.

(** A number type that keeps the leading bits *)
Definition leading (p : Z) (x : Q) : Q :=
  let r := Qred x in
  let e := p + 1 + Z.log2 (Zpos (Qden r)) - Z.log2 (Z.abs (Qnum r)) in
  (inject_Z (chop (r * Qpower 2 e)) * Qpower 2 (- e))%Q.
Lemma two_nz : ~ (2 == 0)%Q.
Proof. discriminate. Qed.
Lemma pow_pos2 e : (0 < Qpower 2 e)%Q.
Proof. apply Qpower_0_lt. reflexivity. Qed.
Lemma pow_cancel x e : (x * Qpower 2 e * Qpower 2 (- e) == x)%Q.
Proof. rewrite <- Qmult_assoc, <- Qpower_plus by exact two_nz. replace (e + - e) with 0 by lia. cbn. ring. Qed.
Lemma size_below a b : a <> 0 -> 0 < b -> (Qpower 2 (Z.log2 (Z.abs a) - Z.log2 b - 1) <= Qabs (a # Z.to_pos b))%Q.
Proof.
  intros Ha Hb. pose proof (Z.log2_spec (Z.abs a) ltac:(lia)) as [A _]. pose proof (Z.log2_spec b Hb) as [_ B].
  pose proof (Z.log2_nonneg (Z.abs a)) as NA. pose proof (Z.log2_nonneg b) as NB.
  set (la := Z.log2 (Z.abs a)) in *. set (lb := Z.log2 b) in *.
  replace (la - lb - 1) with (la + - (lb + 1)) by lia. rewrite Qpower_plus by exact two_nz. rewrite Qpower_opp.
  change 2%Q with (inject_Z 2). rewrite <- !Zpower_Qpower by lia. replace (Z.succ lb) with (lb + 1) in B by lia.
  pose proof (pow2_pos la NA). set (u := 2 ^ la) in *. set (w := 2 ^ (lb + 1)) in *. clearbody u w.
  destruct w as [|w|w]; try lia. destruct b as [|b|b]; try lia. cbn [Z.to_pos].
  unfold Qabs, Qle, Qmult, Qinv, inject_Z. cbn [Qnum Qden]. rewrite ?Pos2Z.inj_mul, ?Pos.mul_1_l. nia.
Qed.
Lemma leading_close p x : 0 <= p -> (Qabs (leading p x - x) <= bit p * Qabs x)%Q.
Proof.
  intros Hp. assert (L : leading p x = leading p (Qred x)) by (unfold leading; now rewrite (Qred_complete (Qred x) x (Qred_correct x))).
  assert (E : forall u, (Qabs (u - x) == Qabs (u - Qred x))%Q) by (intros; now rewrite Qred_correct).
  rewrite E. rewrite <- (Qabs_wd _ _ (Qred_correct x)). unfold leading. clear E L.
  destruct (Qred x) as [a b]. cbn [Qnum Qden]. set (e := p + 1 + Z.log2 (Zpos b) - Z.log2 (Z.abs a)).
  pose proof (chop_part ((a # b) * Qpower 2 e)) as C. pose proof (part_close _ _ C) as D. set (c := chop _) in *. clearbody c.
  setoid_replace (inject_Z c * Qpower 2 (- e) - (a # b))%Q with ((inject_Z c - (a # b) * Qpower 2 e) * Qpower 2 (- e))%Q
    by (rewrite <- (pow_cancel (a # b) e) at 1; ring).
  rewrite Qabs_Qmult. rewrite (Qabs_pos (Qpower 2 (- e))) by (apply Qlt_le_weak, pow_pos2).
  destruct (Z.eq_dec a 0) as [->|Ha].
  - assert (H0 : ((0 # b) * Qpower 2 e == 0)%Q) by (setoid_replace (0 # b)%Q with 0%Q by reflexivity; ring).
    assert (c = 0). { apply (integer_part_unique _ 0 c 0 H0 C). exact (integer_part_int 0). } subst c.
    rewrite H0. setoid_replace (Qabs (inject_Z 0 - 0)) with 0%Q by reflexivity. setoid_replace (Qabs (0 # b)) with 0%Q by reflexivity. lra.
  - eapply Qle_trans; [apply Qmult_le_compat_r; [apply Qlt_le_weak, D|apply Qlt_le_weak, pow_pos2]|]. rewrite Qmult_1_l.
    replace (- e) with (- p + (Z.log2 (Z.abs a) - Z.log2 (Zpos b) - 1)) by (unfold e; lia). rewrite Qpower_plus by exact two_nz.
    assert (B : (Qpower 2 (- p) == bit p)%Q) by (rewrite Qpower_opp; unfold bit; now rewrite Zpower_Qpower by lia).
    rewrite B. apply Qmul_le; [apply Qlt_le_weak, bit_pos, Hp|]. apply (size_below a (Zpos b) Ha). lia.
Qed.
Lemma leading_below p x : (0 <= x -> 0 <= leading p x <= x)%Q /\ (x <= 0 -> x <= leading p x <= 0)%Q.
Proof.
  unfold leading. set (e := p + 1 + _ - _). clearbody e. pose proof (Qred_correct x) as R. set (r := Qred x) in *. clearbody r.
  pose proof (chop_part (r * Qpower 2 e)) as [P N]. set (c := chop _) in *. clearbody c.
  pose proof (pow_pos2 e) as H1. pose proof (pow_pos2 (- e)) as H2. pose proof (pow_cancel r e) as H3. set (s := Qpower 2 e) in *.
  set (t := Qpower 2 (- e)) in *. clearbody s t.
  split; intros H.
  - assert (W : (0 <= r * s)%Q) by (apply Qmult_le_0_compat; lra). specialize (P W).
    assert (C : (0 <= inject_Z c)%Q). { change 0%Q with (inject_Z 0). rewrite <- Zle_Qle. apply inject_lt1. change (inject_Z 0) with 0%Q. lra. }
    split; [apply Qmult_le_0_compat; lra|]. rewrite <- R, <- H3. apply Qmult_le_compat_r; lra.
  - assert (W : (r * s <= 0)%Q) by (pose proof (Qmult_le_0_compat (- r) s ltac:(lra) ltac:(lra)); lra). specialize (N W).
    assert (C : (inject_Z c <= 0)%Q). { change 0%Q with (inject_Z 0). rewrite <- Zle_Qle. apply inject_lt1. change (inject_Z 0) with 0%Q. lra. }
    split; [|pose proof (Qmult_le_0_compat (- inject_Z c) t ltac:(lra) ltac:(lra)); lra].
    rewrite <- R, <- H3. apply Qmult_le_compat_r; lra.
Qed.
Lemma leading_integer p z : 0 <= p -> Z.abs z <= 2 ^ p -> (leading p (inject_Z z) == inject_Z z)%Q.
Proof.
  intros Hp H. unfold leading. assert (E : Qred (inject_Z z) = inject_Z z).
  { unfold Qred, inject_Z. pose proof (Z.ggcd_correct_divisors z 1) as D. pose proof (Z.ggcd_gcd z 1) as G.
    destruct (Z.ggcd z 1) as [g [u v]]. cbn in *. rewrite Z.gcd_1_r in G. subst g. destruct D as [-> D]. rewrite Z.mul_1_l in *. subst v. reflexivity. }
  rewrite E. cbn [Qnum Qden inject_Z]. assert (L : Z.log2 (Z.abs z) <= p).
  { rewrite <- (Z.log2_pow2 p) by lia. now apply Z.log2_le_mono. }
  change (Z.log2 1) with 0. set (e := p + 1 + 0 - Z.log2 (Z.abs z)). assert (He : 0 <= e) by (unfold e; lia). clearbody e.
  assert (W : (inject_Z z * Qpower 2 e == inject_Z (z * 2 ^ e))%Q). { rewrite inject_Z_mult, Zpower_Qpower by lia. reflexivity. }
  rewrite (chop_int _ _ W), <- W. apply pow_cancel.
Qed.
Lemma leading_fit p : 0 <= p -> good_fit p (leading p).
Proof.
  intros Hp. constructor; intros.
  - unfold leading. now rewrite (Qred_complete x y H).
  - apply leading_below.
  - now apply leading_close.
  - now apply leading_integer.
Qed.
Lemma leading_near p : 0 <= p -> good_near p (leading p).
Proof. intros Hp. destruct (leading_fit p Hp). constructor; auto. Qed.

(** Which texts are numbers *)
Lemma digits_split s ds r : digits_of s = (ds, r) -> s = map Dig ds ++ r.
Proof.
  revert ds r. induction s as [|x s IH]; intros ds r H; [injection H as <- <-; reflexivity|].
  destruct x; cbn [digits_of] in H; try (injection H as <- <-; reflexivity).
  destruct (digits_of s) as (ds', r') eqn:E. injection H as <- <-. cbn [map app]. f_equal. apply IH. reflexivity.
Qed.
Lemma digits_join ds r : (r = [] \/ exists t, r = Dot :: t) -> digits_of (map Dig ds ++ r) = (ds, r).
Proof.
  intros R. induction ds as [|x ds IH]; cbn [map app digits_of]; [destruct R as [->|[t ->]]; reflexivity|]. rewrite IH. reflexivity.
Qed.
Lemma scan_unsigned_some s q : scan_unsigned s = Some q -> exists i is rest, s = Dig i :: map Dig is ++ rest /\ (rest = [] \/ exists fs, rest = Dot :: map Dig fs).
Proof.
  unfold scan_unsigned. destruct (digits_of s) as ([|i is], r) eqn:E; [discriminate|]. apply digits_split in E.
  destruct r as [|c r]; [intros _; exists i, is, []; split; [exact E|left; reflexivity]|]. destruct c; try discriminate.
  destruct (digits_of r) as (fs, [|]) eqn:F; [|discriminate]. intros _. apply digits_split in F. rewrite app_nil_r in F.
  exists i, is, (Dot :: r). split; [exact E|]. right. exists fs. rewrite F. reflexivity.
Qed.
Lemma scan_unsigned_text i is rest : (rest = [] \/ exists fs, rest = Dot :: map Dig fs) -> exists q, scan_unsigned (Dig i :: map Dig is ++ rest) = Some q.
Proof.
  intros R. unfold scan_unsigned. change (Dig i :: map Dig is ++ rest) with (map Dig (i :: is) ++ rest). rewrite digits_join.
  - destruct R as [->|[fs ->]]; [eexists; reflexivity|]. rewrite <- (app_nil_r (map Dig fs)), digits_join by (left; reflexivity). eexists. reflexivity.
  - destruct R as [->|[fs ->]]; [left; reflexivity|right; eexists; reflexivity].
Qed.
Lemma scan_text t : decimal_text t <-> exists q, scan t = Some q.
Proof.
  split.
  - intros (sign & i & is & rest & -> & [->| ->] & R); destruct (scan_unsigned_text i is rest R) as [q Q]; cbn [app scan]; rewrite Q; eexists; reflexivity.
  - intros [q H]. unfold scan in H.
    assert (D : scan_unsigned t = Some q -> decimal_text t) by (intros K; destruct (scan_unsigned_some _ _ K) as (i & is & rest & E & R); exists [], i, is, rest; auto).
    destruct t as [|c t]; [auto|]. destruct c; auto. destruct (scan_unsigned t) as [q'|] eqn:K; [|discriminate H].
    destruct (scan_unsigned_some _ _ K) as (i & is & rest & -> & R). exists [Minus], i, is, rest. auto.
Qed.
