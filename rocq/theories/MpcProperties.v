(** C101: conversions between multi-precision numbers, their absolute value, sign and scaling. *)
From Coq Require Import ZArith QArith Qabs Qround Qpower Lia Lqa.
From Coq Require Import ZifyNat ZifyN ZifyBool.
From Verif Require Import Base MpfModel MpfSpec MpfProofs MpfProperties MpcModel MpcSpec MpcProofs.
Ltac Zify.zify_post_hook ::= idtac.
Local Open Scope Z_scope.

(** Number types with the behaviour that the theorems below ask of GMP and MPFR exist for every number of bits. *)
Theorem C101_types_exist : forall p, 0 <= p -> (exists fit, good_fit p fit) /\ (exists near, good_near p near).
Proof. intros p Hp. split; exists (leading p); [now apply leading_fit|now apply leading_near]. Qed.
Print Assumptions C101_types_exist.

Example C101_ex_leading : Qred (leading 3 (2 # 3)) = (5 # 8)%Q /\ Qred (leading 2 1000) = 960%Q /\ Qred (leading 4 (-(1000))) = (-(992))%Q.
Proof. vm_compute. auto. Qed.

(** toMpz of an mpf or an mpq is the integer part. *)
Theorem C101_to_integer : forall x, integer_part x (toMpz_f x) /\ integer_part x (toMpz_q x).
Proof. intros x. split; apply chop_part. Qed.
Print Assumptions C101_to_integer.

Example C101_ex_integer : toMpz_q (7 # 2) = 3 /\ toMpz_f (-7 # 2) = -3.
Proof. vm_compute. auto. Qed.

(** toMpf and toMpq of an integer of p bits are exact, and so is the way back; toMpf of a fraction is the number cut to p bits. *)
Theorem C101_exact : forall fit p, good_fit p fit ->
  (forall z, toMpz_q (toMpq_z z) = z) /\
  (forall z, Z.abs z <= 2 ^ p -> (toMpf_z fit z == inject_Z z)%Q /\ toMpz_f (toMpf_z fit z) = z) /\
  (forall q, (Qabs (toMpf_q fit q) <= Qabs q)%Q /\ (Qabs (toMpf_q fit q - q) <= bit p * Qabs q)%Q) /\
  (forall x, (toMpf_q fit (toMpq_f x) == fit x)%Q).
Proof.
  intros fit p G. split; [|split; [|split]].
  - intros z. now apply chop_int.
  - intros z Hz. pose proof (fit_integer _ _ G z Hz) as E. split; [exact E|]. now apply chop_int.
  - intros q. split; [|apply (fit_close _ _ G)]. destruct (fit_below _ _ G q) as [P N]. unfold toMpf_q.
    destruct (Qlt_le_dec q 0) as [L|L].
    + specialize (N ltac:(lra)). rewrite !Qabs_neg by lra. lra.
    + specialize (P L). rewrite !Qabs_pos by lra. lra.
  - reflexivity.
Qed.
Print Assumptions C101_exact.

Example C101_ex_exact : (toMpf_z (leading 10) 1024 == 1024)%Q /\ toMpz_f (toMpf_z (leading 10) (-1023)) = -1023.
Proof. vm_compute. auto. Qed.

(** The text of an mpfr of [precision] bits: a decimal numeral for the multiple of 10^-d next to the number, where d is the number of
    decimal digits of [precision] bits. *)
Theorem C101_text : forall precision x, 0 <= precision ->
  exists t v, str_mpfr precision (-1) (Fin x) = Some t /\ (forall k, In (Dig k) t -> (k < 10)%nat) /\ scan t = Some v /\
    (exists n, v == inject_Z n * decimal (bits2digits precision))%Q /\
    (Qabs (v - x) <= (1 # 2) * decimal (bits2digits precision))%Q.
Proof.
  intros precision x Hp. destruct (text_read precision x Hp) as (t & v & T & S & V). pose proof (bits2digits_nonneg precision Hp) as D.
  exists t, v. split; [exact T|]. split; [|split; [exact S|split; [eauto|]]].
  - unfold str_mpfr in T. cbn [Z.ltb Z.compare] in T. injection T as <-. intros k I. unfold fixed in I.
    pose proof (pow10_pos _ D) as T. set (n := Z.abs _) in I. assert (Hn : 0 <= n) by (unfold n; lia).
    apply in_app_or in I. destruct I as [I|I]; [destruct (Qnum x <? 0); [destruct I as [I|[]]; discriminate|destruct I]|].
    apply in_app_or in I. destruct I as [I|I].
    + apply in_map_iff in I. destruct I as (j & E & I). injection E as ->. pose proof (digits_small (n / 10 ^ bits2digits precision) ltac:(apply Z.div_pos; lia)) as F.
      rewrite Forall_forall in F. auto.
    + destruct (bits2digits precision =? 0); [destruct I|]. destruct I as [I|I]; [discriminate|].
      apply in_map_iff in I. destruct I as (j & E & I). injection E as ->. pose proof (last_digits_small (Z.to_nat (bits2digits precision)) n) as F.
      rewrite Forall_forall in F. auto.
  - rewrite V. now apply rounded_near.
Qed.
Print Assumptions C101_text.

Example C101_ex_text : str_mpfr 10 (-1) (Fin (-5 # 3)) = Some [Minus; Dig 1; Dot; Dig 6; Dig 6; Dig 7].
Proof. reflexivity. Qed.

(** ... but a number of digits given by the caller is taken for a number of bits: of 10 digits asked for, 3 are printed. *)
Theorem C101_text_digits_refuted : exists x t v, str_mpfr 53 10 (Fin x) = Some t /\ scan t = Some v /\ ~ (Qabs (v - x) <= decimal 10)%Q.
Proof.
  exists (1 # 16)%Q, [Dig 0; Dot; Dig 0; Dig 6; Dig 2], (62 # 1000)%Q. split; [vm_compute; reflexivity|].
  split; [vm_compute; reflexivity|]. vm_compute. intros H. now apply H.
Qed.
Print Assumptions C101_text_digits_refuted.

(** toMpf (and toMpq) of an mpfr of up to a million bits: the absolute error is at most 2^-p (|x| + 100), so that numbers of modulus
    at least 1 keep all but the last seven bits.  Missing: a bound relative to small numbers, see the refutation. *)
Theorem C101_from_mpfr_partial : forall fit p precision x, good_fit p fit -> 0 <= p <= precision -> precision <= 1000000 ->
  exists y, toMpf_r fit precision (Fin x) = Ok y /\ toMpq_r fit precision (Fin x) = Ok y /\ (Qabs (y - x) <= bit p * (Qabs x + 100))%Q /\
    (1 <= Qabs x -> Qabs (y - x) <= 101 * bit p * Qabs x)%Q.
Proof.
  intros fit p precision x G Hp HP. destruct (mpf_error fit p precision x G Hp HP) as (y & E & B). exists y. split; [exact E|].
  split; [exact E|]. split; [exact B|]. intros H. eapply Qle_trans; [exact B|]. pose proof (bit_pos p ltac:(lia)) as P.
  setoid_replace (101 * bit p * Qabs x)%Q with (bit p * (101 * Qabs x))%Q by ring. apply Qmul_le; lra.
Qed.
Print Assumptions C101_from_mpfr_partial.

Example C101_ex_from_mpfr : omap Qred (toMpf_r (leading 53) 53 (Fin (5 # 4))) = Ok (5 # 4)%Q.
Proof. vm_compute. reflexivity. Qed.

(** An mpfr below half of the last decimal becomes 0: 2^-60 at 53 bits, for every behaviour of the number type. *)
Theorem C101_from_mpfr_small_refuted : forall fit, good_fit 53 fit ->
  exists y, toMpf_r fit 53 (Fin (1 # 2 ^ 60)) = Ok y /\ (y == 0)%Q.
Proof.
  intros fit G. exists (fit (0 # 10 ^ 15)%Q). split.
  { unfold toMpf_r, mpf_of_text. replace (str_mpfr _ _ _) with (Some (Dig 0 :: Dot :: repeat (Dig 0) 15)) by (vm_compute; reflexivity).
    replace (scan _) with (Some (0 # 10 ^ 15)%Q) by (vm_compute; reflexivity). reflexivity. }
  rewrite (fit_compat _ _ G _ (inject_Z 0)) by reflexivity.
  rewrite (fit_integer _ _ G); [reflexivity|]. vm_compute. discriminate.
Qed.
Print Assumptions C101_from_mpfr_small_refuted.

Example C101_ex_small : (0 < 1 # 2 ^ 60)%Q.
Proof. reflexivity. Qed.

(** toMpz of an mpfr: exact for integers of p bits; otherwise off by less than 1 + 2^-p (|x| + 100). *)
Theorem C101_mpfr_to_integer_partial : forall fit p precision, good_fit p fit -> 0 <= p <= precision -> precision <= 1000000 ->
  (forall x z, (x == inject_Z z)%Q -> Z.abs z <= 2 ^ p -> toMpz_r fit precision (Fin x) = Ok z) /\
  (forall x, exists z, toMpz_r fit precision (Fin x) = Ok z /\ (Qabs (inject_Z z - x) < 1 + bit p * (Qabs x + 100))%Q).
Proof.
  intros fit p precision G Hp HP. split.
  - intros x z E Hz. destruct (mpf_integer fit p precision x z G ltac:(lia) E Hz) as (y & Y & V). unfold toMpz_r. rewrite Y. unfold omap; cbn [bind].
    now rewrite (chop_int y z V).
  - intros x. destruct (mpf_error fit p precision x G Hp HP) as (y & E & B). unfold toMpz_r. rewrite E. unfold omap; cbn [bind]. eexists. split; [reflexivity|].
    pose proof (part_close _ _ (chop_part y)). pose proof (Qabs_tri (inject_Z (chop y)) y x). lra.
Qed.
Print Assumptions C101_mpfr_to_integer_partial.

Example C101_ex_mpfr_int : toMpz_r (leading 53) 53 (Fin (-12 # 4)) = Ok (-3) /\ toMpz_r (leading 53) 53 (Fin (39 # 10)) = Ok 3.
Proof. vm_compute. auto. Qed.

(** It is not the integer part: 1 - 2^-53, a number of 53 bits, becomes 1, for every behaviour of the number type. *)
Theorem C101_mpfr_to_integer_refuted : forall fit, good_fit 53 fit ->
  exists x z, toMpz_r fit 53 (Fin x) = Ok z /\ ~ integer_part x z.
Proof.
  intros fit G. exists (2 ^ 53 - 1 # 2 ^ 53)%Q, 1. split.
  - unfold toMpz_r. unfold mpf_of_text. replace (str_mpfr _ _ _) with (Some (Dig 1 :: Dot :: repeat (Dig 0) 15)) by (vm_compute; reflexivity).
    replace (scan _) with (Some (10 ^ 15 # 10 ^ 15)%Q) by (vm_compute; reflexivity). unfold omap; cbn [bind]. f_equal. apply chop_int.
    rewrite (fit_compat _ _ G _ (inject_Z 1)) by reflexivity. rewrite (fit_integer _ _ G); [reflexivity|]. vm_compute. discriminate.
  - intros [P _]. assert (H : (0 <= 2 ^ 53 - 1 # 2 ^ 53)%Q) by (vm_compute; discriminate). destruct (P H) as [L _]. vm_compute in L. now apply L.
Qed.
Print Assumptions C101_mpfr_to_integer_refuted.

(** NaN and the infinities have no counterpart in the other types: every conversion of them throws. *)
Theorem C101_not_finite : forall fit precision, toMpz_r fit precision NotFinite = Throw InvalidArgument /\
  toMpf_r fit precision NotFinite = Throw InvalidArgument /\ toMpq_r fit precision NotFinite = Throw InvalidArgument.
Proof. auto. Qed.
Print Assumptions C101_not_finite.
(** A text is accepted exactly if it is a decimal number; any other text throws. *)
Theorem C101_bad_text : forall fit t, (decimal_text t -> exists q, scan t = Some q /\ mpf_of_text fit (Some t) = Ok (fit q)) /\
  (~ decimal_text t -> mpf_of_text fit (Some t) = Throw InvalidArgument).
Proof.
  intros fit t. split; intros H.
  - apply scan_text in H. destruct H as [q H]. exists q. unfold mpf_of_text. rewrite H. auto.
  - unfold mpf_of_text. destruct (scan t) as [q|] eqn:E; [|reflexivity]. exfalso. apply H, scan_text. eauto.
Qed.
Print Assumptions C101_bad_text.
Example C101_bad_text_ex : decimal_text [Minus; Dig 1; Dot; Dig 5] /\ ~ decimal_text [Dot; Dig 5] /\ ~ decimal_text [Dig 1; Minus].
Proof.
  split; [exists [Minus], 1%nat, [], [Dot; Dig 5]; split; [reflexivity|]; split; [right; reflexivity|right; exists [5%nat]; reflexivity]|].
  split; intros H; apply scan_text in H; destruct H as [q H]; discriminate H.
Qed.

(** toMpfr of an integer: finite, correct to p bits, exact for integers of p bits; and toMpz goes back. *)
Theorem C101_integer_to_mpfr : forall fit near p precision z, good_fit p fit -> good_near p near -> 0 <= precision ->
  exists v, toMpfr_z near z = Fin v /\ (Qabs (v - inject_Z z) <= bit p * Qabs (inject_Z z))%Q /\
    (Z.abs z <= 2 ^ p -> (v == inject_Z z)%Q /\ toMpz_r fit precision (toMpfr_z near z) = Ok z).
Proof.
  intros fit near p precision z G N HP. destruct (str_mpz_scan z) as (v & S & V). unfold toMpfr_z, mpfr_of_text. rewrite S.
  exists (near v). split; [reflexivity|]. pose proof (near_compat _ _ N _ _ V) as E. split.
  - rewrite E. apply (near_close _ _ N).
  - intros Hz. rewrite (near_integer _ _ N z Hz) in E. split; [exact E|].
    destruct (mpf_integer fit p precision (near v) z G HP E Hz) as (y & Y & W). unfold toMpz_r. rewrite Y. unfold omap; cbn [bind].
    now rewrite (chop_int y z W).
Qed.
Print Assumptions C101_integer_to_mpfr.

Example C101_ex_to_mpfr : toMpz_r (leading 53) 53 (toMpfr_z (leading 53) (-90071992547409)) = Ok (-90071992547409).
Proof. vm_compute. reflexivity. Qed.

(** toMpfr of an mpf (or, through an mpf, of an mpq): the number that GMP's digits denote, correct to p bits. *)
Theorem C101_mpf_to_mpfr : forall near p negative ds exp, good_near p near ->
  exists v, toMpfr_f near (get_str negative ds) exp = Ok (Fin v) /\
    (Qabs (v - scientific 10 negative ds exp) <= bit p * Qabs (scientific 10 negative ds exp))%Q.
Proof.
  intros near p negative ds exp N. destruct (C66_text_denotes_value 10 negative ds exp ltac:(lia)) as (s & q & E & R & V).
  destruct (scan_read s q R) as (w & S & W). unfold toMpfr_f. rewrite E. unfold omap; cbn [bind]. unfold mpfr_of_text. rewrite S.
  exists (near w). split; [reflexivity|]. rewrite (near_compat _ _ N w (scientific 10 negative ds exp)) by (now rewrite W).
  apply (near_close _ _ N).
Qed.
Print Assumptions C101_mpf_to_mpfr.

Example C101_ex_mpf_to_mpfr : omap (fun v => match v with Fin q => Qred q | NotFinite => 0%Q end) (toMpfr_f (leading 20) (get_str true [1; 2; 5]%nat) 2) =
  Ok (-25 # 2)%Q.
Proof. vm_compute. reflexivity. Qed.

(** abs is the absolute value; copySign takes the modulus of one number and the sign of another (0 counts as positive). *)
Theorem C101_abs : (forall z, abs_z z = Z.abs z) /\ (forall q, abs_q q == Qabs q)%Q.
Proof.
  split; [intros z; unfold abs_z; destruct (Z.leb_spec 0 z); lia|]. intros q. unfold abs_q. destruct (Qle_bool 0 q) eqn:E.
  - apply Qle_bool_iff in E. now rewrite Qabs_pos.
  - rewrite Qabs_neg; [reflexivity|]. destruct (Qlt_le_dec q 0); [lra|]. apply Qle_bool_iff in q0. congruence.
Qed.
Print Assumptions C101_abs.

Example C101_ex_abs : abs_z (-4) = 4 /\ abs_q (-1 # 2) = (1 # 2)%Q.
Proof. vm_compute. auto. Qed.

Theorem C101_copySign : (forall mag sign, copySign_z mag sign = if sign <? 0 then - Z.abs mag else Z.abs mag) /\
  (forall mag sign, (0 <= sign -> copySign_q mag sign == Qabs mag)%Q /\ (sign < 0 -> copySign_q mag sign == - Qabs mag)%Q).
Proof.
  split.
  - intros m s. unfold copySign_z. destruct (Z.leb_spec 0 s), (Z.ltb_spec s 0), (Z.leb_spec 0 m), (Z.ltb_spec m 0); cbn [andb]; lia.
  - intros m s. unfold copySign_q, qlt.
    assert (B : forall u, Qle_bool 0 u = true /\ (0 <= u)%Q \/ Qle_bool 0 u = false /\ (u < 0)%Q).
    { intros u. destruct (Qle_bool 0 u) eqn:E; [left; split; [auto|now apply Qle_bool_iff]|]. right. split; [auto|].
      destruct (Qlt_le_dec u 0); [auto|]. apply Qle_bool_iff in q. congruence. }
    destruct (B s) as [[-> Hs]|[-> Hs]], (B m) as [[-> Hm]|[-> Hm]]; cbn [andb negb]; (split; intros H; [try lra|try lra]).
    all: first [rewrite Qabs_pos by lra|rewrite Qabs_neg by lra]; lra.
Qed.
Print Assumptions C101_copySign.

Example C101_ex_copySign : copySign_z 5 (-2) = -5 /\ copySign_q (-1 # 2) 3 = (1 # 2)%Q.
Proof. vm_compute. auto. Qed.

(** signBit tells negative numbers from positive ones; 0 counts as negative, for numbers that have no negative 0. *)
Theorem C101_signBit_partial : (forall z, z <> 0 -> (signBit_z z = true <-> z < 0)) /\ (forall q, (~ q == 0)%Q -> (signBit_q q = true <-> q < 0)%Q).
Proof.
  split.
  - intros z Hz. unfold signBit_z. lia.
  - intros q Hq. unfold signBit_q, qlt. destruct (Qeq_bool q 0) eqn:E; [apply Qeq_bool_iff in E; contradiction|]. rewrite orb_false_r.
    destruct (Qle_bool 0 q) eqn:L; cbn [negb].
    + apply Qle_bool_iff in L. split; [discriminate|]. intros. lra.
    + split; [|auto]. intros _. destruct (Qlt_le_dec q 0); [auto|]. apply Qle_bool_iff in q0. congruence.
Qed.
Print Assumptions C101_signBit_partial.

Example C101_ex_signBit : signBit_z 3 = false /\ signBit_q (-1 # 3) = true.
Proof. vm_compute. auto. Qed.

Theorem C101_signBit_refuted : signBit_z 0 = true /\ signBit_q 0 = true /\ copySign_z 7 0 = 7.
Proof. vm_compute. auto. Qed.
Print Assumptions C101_signBit_refuted.

(** ldexp is x * 2^exp for exponents that are not negative. *)
Theorem C101_ldexp_partial : forall exp, 0 <= exp < 2 ^ 63 ->
  (forall x, ldexp_z x exp = Ok (x * 2 ^ exp)) /\
  (forall x, exists y, ldexp_q x exp = Ok y /\ (y == x * Qpower 2 exp)%Q) /\
  (forall x, (ldexp_f x exp == x * Qpower 2 exp)%Q).
Proof.
  intros exp H. unfold ldexp_z, ldexp_q, ldexp_f. replace (exp <? 0) with false by lia. rewrite (Z.mod_small exp) by (split; [lia|]; lia).
  split; [auto|]. split; intros x; [eexists; split; [reflexivity|]|]; now rewrite Zpower_Qpower by lia.
Qed.
Print Assumptions C101_ldexp_partial.

Example C101_ex_ldexp : ldexp_z 3 4 = Ok 48 /\ ldexp_q (3 # 4) 2 = Ok (12 # 4)%Q /\ (ldexp_f (3 # 4) 1 == 3 # 2)%Q.
Proof. vm_compute. auto. Qed.

(** A negative exponent does not halve: an integer or a fraction stops the program, and an mpf gets larger. *)
Theorem C101_ldexp_negative_refuted : forall exp, - 2 ^ 63 <= exp < 0 ->
  (forall x, ldexp_z x exp = UB) /\ (forall x, ldexp_q x exp = UB) /\ (forall x, (0 < x -> x < ldexp_f x exp)%Q).
Proof.
  intros exp H. unfold ldexp_z, ldexp_q, ldexp_f. replace (exp <? 0) with true by lia. split; [auto|]. split; [auto|]. intros x Hx.
  assert (M : exp mod 2 ^ 64 = exp + 2 ^ 64). { symmetry. apply Z.mod_unique_pos with (q := -1); lia. }
  rewrite M. assert (G : 1 < 2 ^ (exp + 2 ^ 64)) by (apply Z.pow_gt_1; lia). set (w := 2 ^ (exp + 2 ^ 64)) in *. clearbody w.
  assert (W : (1 < inject_Z w)%Q) by (change 1%Q with (inject_Z 1); now rewrite <- Zlt_Qlt).
  rewrite <- (Qmult_1_r x) at 1. rewrite (Qmult_comm x 1), (Qmult_comm x (inject_Z w)). now apply Qmult_lt_compat_r.
Qed.
Print Assumptions C101_ldexp_negative_refuted.
