(** C100: lengths and directions of vectors over float and double. *)
From Coq Require Import ZArith Reals List Lia Lra.
From Flocq Require Import Core BinarySingleNaN.
From Verif Require Import Base AccModel AccSpec AccProofs NumModel NumSpec NumBasics NrmSpec VectorModel VectorSpec MagModel MagProofs.
From Coq Require Import ZifyNat ZifyN ZifyBool.
Ltac Zify.zify_post_hook ::= idtac.
Import ListNotations.
Local Open Scope R_scope.

Local Notation dbl := (fint 53 1024 eq_refl eq_refl).
Local Notation pow2 k := (binary_normalize 53 1024 eq_refl eq_refl mode_NE 1 k false).

(** The length of a vector without NaN is a number >= 0 or infinity. *)
Theorem C100_nonnegative : forall prec emax (Hp : Prec_gt_0 prec) (Hm : Prec_lt_emax prec emax) w asserts junk N (e : expr (binary_float prec emax)) f,
  (0 < w)%nat -> conforming w N e -> VectorSpec.total e -> keeps_zero (fzero prec emax) e -> values e N f -> length junk = (packets w N * w)%nat ->
  (forall i, (i < N)%nat -> is_nan (f i) = false) ->
  exists m, fmag prec emax Hp Hm w asserts junk e = Ok m /\ (m = B754_infinity false \/ (is_finite m = true /\ 0 <= B2R m)).
Proof. intros prec emax Hp Hm w asserts junk N e f Hw HC HT HK HV Hj HF. now apply (mag_above prec emax Hp Hm w asserts Hw junk N e f). Qed.
Print Assumptions C100_nonnegative.
Example C100_nonnegative_ex :
  omap B2SF (fmag 53 1024 eq_refl eq_refl 4 true (repeat B754_nan 4) (V (mkv 3 [dbl 2; B754_infinity true; dbl (-1); dbl 0]))) = Ok (SpecFloat.S754_infinity false).
Proof. vm_compute. reflexivity. Qed.

(** The length is accurate to N+2 roundings, provided its square neither overflows nor comes near the subnormal numbers. *)
Theorem C100_mag : forall prec emax (Hp : Prec_gt_0 prec) (Hm : Prec_lt_emax prec emax) w asserts junk N (e : expr (binary_float prec emax)) f,
  (6 <= prec)%Z -> (prec + 3 <= emax)%Z ->
  (0 < w)%nat -> conforming w N e -> VectorSpec.total e -> keeps_zero (fzero prec emax) e -> values e N f -> length junk = (packets w N * w)%nat ->
  (forall i, (i < N)%nat -> is_finite (f i) = true) -> (0 < N)%nat -> 64 * INR N * unit_roundoff prec <= 1 ->
  let len := length2 N (fun i => B2R (f i)) in
  64 * INR N * normal_min emax <= len * len -> 4 * (len * len) < bpow radix2 emax ->
  exists m, fmag prec emax Hp Hm w asserts junk e = Ok m /\ is_finite m = true /\ Rabs (B2R m - len) <= (INR N + 2) * unit_roundoff prec * len.
Proof.
  intros prec emax Hp Hm w asserts junk N e f P6 PE Hw HC HT HK HV Hj HF HN K len LOW HIGH.
  destruct (mag_ok prec emax Hp Hm P6 PE w asserts Hw N e f HC HT HK HV HF HN K LOW HIGH junk Hj) as (m & E & F & Q).
  unfold fmag. rewrite E. exists (NrmModel.fsqrt prec emax Hp Hm m). split; [reflexivity|]. split; assumption.
Qed.
Print Assumptions C100_mag.

(** norm divides by the length: each element is accurate to 2(N+2) roundings, and the length of the result is 1 up to 6(N+2). *)
Theorem C100_norm : forall prec emax (Hp : Prec_gt_0 prec) (Hm : Prec_lt_emax prec emax) w asserts junk junk' N (e : expr (binary_float prec emax)) f,
  (6 <= prec)%Z -> (prec + 3 <= emax)%Z ->
  (0 < w)%nat -> conforming w N e -> VectorSpec.total e -> keeps_zero (fzero prec emax) e -> values e N f ->
  length junk = (packets w N * w)%nat -> length junk' = (packets w N * w)%nat ->
  (forall i, (i < N)%nat -> is_finite (f i) = true) -> (0 < N)%nat -> 64 * INR N * unit_roundoff prec <= 1 ->
  let len := length2 N (fun i => B2R (f i)) in
  64 * INR N * normal_min emax <= len * len -> 4 * (len * len) < bpow radix2 emax ->
  exists v, fnorm prec emax Hp Hm w asserts junk junk' e = Ok v /\ dims v = N /\ storage w v /\
    let r := fun i => nth i (elements v) (fzero prec emax) in
    (forall i, (i < N)%nat -> is_finite (r i) = true /\
       Rabs (B2R (r i) - B2R (f i) / len) <= 2 * (INR N + 2) * unit_roundoff prec * Rabs (B2R (f i) / len) + underflow_unit prec emax) /\
    Rabs (length2 N (fun i => B2R (r i)) - 1) <= 6 * (INR N + 2) * unit_roundoff prec.
Proof.
  intros prec emax Hp Hm w asserts junk junk' N e f P6 PE Hw HC HT HK HV Hj Hj' HF HN K len LOW HIGH.
  exact (norm_ok prec emax Hp Hm P6 PE w asserts Hw N e f HC HT HK HV HF HN K LOW HIGH junk junk' Hj Hj').
Qed.
Print Assumptions C100_norm.

(** The vector (3, 4) in packets of four lanes meets the conditions. *)
Example C100_ex :
  let x := mkv 2 [dbl 3; dbl 4; dbl 0; dbl 0] in
  let f := fun i => nth i [dbl 3; dbl 4] (dbl 0) in
  conforming 4 2 (V x) /\ VectorSpec.total (V x) /\ keeps_zero (fzero 53 1024) (V x) /\ values (V x) 2 f /\
  (forall i, (i < 2)%nat -> is_finite (f i) = true) /\ 64 * INR 2 * unit_roundoff 53 <= 1 /\
  length2 2 (fun i => B2R (f i)) = 5 /\ 64 * INR 2 * normal_min 1024 <= 5 * 5 /\ 4 * (5 * 5) < bpow radix2 1024.
Proof.
  intros x f. assert (V3 : B2R (dbl 3) = 3) by (apply (fint_exact 53 1024 eq_refl eq_refl 3); vm_compute; discriminate).
  assert (V4 : B2R (dbl 4) = 4) by (apply (fint_exact 53 1024 eq_refl eq_refl 4); vm_compute; discriminate).
  split; [split; [split; reflexivity|discriminate]|]. split; [exact I|]. split; [cbn; repeat constructor|]. split.
  { intros [|[|i]] Hi; [reflexivity|reflexivity|lia]. }
  split; [intros [|[|i]] Hi; [reflexivity|reflexivity|lia]|]. change (INR 2) with (1 + 1). split.
  { apply Rle_trans with (bpow radix2 7 * bpow radix2 (-53)); [right; unfold unit_roundoff; change (bpow radix2 7) with 128; change (- (53))%Z with (-53)%Z; ring|].
    rewrite <- bpow_plus. change 1 with (bpow radix2 0). apply bpow_le. lia. }
  split.
  { unfold length2, AccSpec.total. cbn [MatmulSpec.sum f nth]. rewrite V3, V4. replace (0 + 3 * 3 + 4 * 4) with (5 * 5) by ring. apply sqrt_square. lra. }
  split.
  { apply Rle_trans with (bpow radix2 7 * bpow radix2 (-1022)); [right; unfold normal_min; change (bpow radix2 7) with 128; change (2 - 1024)%Z with (-1022)%Z; ring|].
    rewrite <- bpow_plus. apply Rle_trans with (bpow radix2 0); [apply bpow_le; lia|change (bpow radix2 0) with 1; lra]. }
  apply Rlt_le_trans with (bpow radix2 7); [change (bpow radix2 7) with 128; lra|apply bpow_le; lia].
Qed.
Example C100_run :
  omap B2SF (fmag 53 1024 eq_refl eq_refl 4 true (repeat B754_nan 4) (V (mkv 2 [dbl 3; dbl 4; dbl 0; dbl 0]))) = Ok (B2SF (dbl 5)) /\
  omap (fun v => map B2SF (elements v)) (fnorm 53 1024 eq_refl eq_refl 4 true (repeat B754_nan 4) (repeat B754_nan 4) (V (mkv 2 [dbl 3; dbl 4; dbl 0; dbl 0])))
    = Ok (map B2SF [fdiv 53 1024 eq_refl eq_refl (dbl 3) (dbl 5); fdiv 53 1024 eq_refl eq_refl (dbl 4) (dbl 5)]).
Proof. split; vm_compute; reflexivity. Qed.

(** The conditions on the square of the length matter. The length of (2^600, 0) is 2^600, a double; mag says infinity, and norm gives
    the zero vector. *)
Theorem C100_overflow_refuted : exists x : vec (binary_float 53 1024), storage 2 x /\ Forall (fun a => is_finite a = true) (elements x) /\
  length2 2 (fun i => B2R (nth i (elements x) (fzero 53 1024))) = bpow radix2 600 /\ bpow radix2 600 < bpow radix2 1024 /\
  omap B2SF (fmag 53 1024 eq_refl eq_refl 2 true (repeat B754_nan 2) (V x)) = Ok (SpecFloat.S754_infinity false) /\
  omap (fun v => map B2SF (elements v)) (fnorm 53 1024 eq_refl eq_refl 2 true (repeat B754_nan 2) (repeat B754_nan 2) (V x))
    = Ok [SpecFloat.S754_zero false; SpecFloat.S754_zero false].
Proof.
  exists (mkv 2 [pow2 600; dbl 0]). split; [reflexivity|]. split; [cbn; repeat constructor|]. split.
  { unfold length2, AccSpec.total. cbn [MatmulSpec.sum elements firstn nth dims cells].
    assert (V : B2R (pow2 600) = bpow radix2 600).
    { rewrite <- SF2R_B2SF. replace (B2SF (pow2 600)) with (SpecFloat.S754_finite false (2 ^ 52) 548) by (vm_compute; reflexivity).
      unfold SF2R, F2R. cbn [cond_Zopp Fnum Fexp]. change (IZR (Z.pos (2 ^ 52))) with (bpow radix2 52). rewrite <- bpow_plus. reflexivity. }
    rewrite V. change (B2R (dbl 0)) with 0. replace (0 + bpow radix2 600 * bpow radix2 600 + 0 * 0) with (bpow radix2 600 * bpow radix2 600) by ring.
    apply sqrt_square, bpow_ge_0. }
  split; [apply bpow_lt; lia|]. split; vm_compute; reflexivity.
Qed.
Print Assumptions C100_overflow_refuted.
(** The vector (2^-600, 0) is not zero, but mag says 0 and norm gives infinity and NaN; so does the zero vector give NaN. *)
Theorem C100_underflow_refuted : exists x : vec (binary_float 53 1024), storage 2 x /\ Forall (fun a => is_finite a = true) (elements x) /\
  length2 2 (fun i => B2R (nth i (elements x) (fzero 53 1024))) = bpow radix2 (-600) /\ normal_min 1024 < bpow radix2 (-600) /\
  omap B2SF (fmag 53 1024 eq_refl eq_refl 2 true (repeat B754_nan 2) (V x)) = Ok (SpecFloat.S754_zero false) /\
  omap (fun v => map B2SF (elements v)) (fnorm 53 1024 eq_refl eq_refl 2 true (repeat B754_nan 2) (repeat B754_nan 2) (V x))
    = Ok [SpecFloat.S754_infinity false; SpecFloat.S754_nan].
Proof.
  exists (mkv 2 [pow2 (-600); dbl 0]). split; [reflexivity|]. split; [cbn; repeat constructor|]. split.
  { unfold length2, AccSpec.total. cbn [MatmulSpec.sum elements firstn nth dims cells].
    assert (V : B2R (pow2 (-600)) = bpow radix2 (-600)).
    { rewrite <- SF2R_B2SF. replace (B2SF (pow2 (-600))) with (SpecFloat.S754_finite false (2 ^ 52) (-652)) by (vm_compute; reflexivity).
      unfold SF2R, F2R. cbn [cond_Zopp Fnum Fexp]. change (IZR (Z.pos (2 ^ 52))) with (bpow radix2 52). rewrite <- bpow_plus. reflexivity. }
    rewrite V. change (B2R (dbl 0)) with 0. replace (0 + bpow radix2 (-600) * bpow radix2 (-600) + 0 * 0) with (bpow radix2 (-600) * bpow radix2 (-600)) by ring.
    apply sqrt_square, bpow_ge_0. }
  split; [apply bpow_lt; lia|]. split; vm_compute; reflexivity.
Qed.
Print Assumptions C100_underflow_refuted.
