(** C109: the hyperbolic tangent and the tangent of complex numbers over float and double. *)
From Coq Require Import ZArith Reals Lia Lra.
From Flocq Require Import Core BinarySingleNaN.
From Verif Require Import AccModel AccSpec NumModel NumBasics NrmModel CsqModel CsqSpec TnhModel TnhSpec TnhProofs TnhFinal.
From Coq Require Import ZifyNat ZifyN ZifyBool.
Ltac Zify.zify_post_hook ::= idtac.
Local Open Scope R_scope.

Local Notation dbl := (fint 53 1024 eq_refl eq_refl).
Local Notation pow2 k := (binary_normalize 53 1024 eq_refl eq_refl mode_NE 1 k false).
Local Notation out z := (B2SF (fst z), B2SF (snd z)).

(** A complex number other than a pole has exactly one hyperbolic tangent. *)
Theorem C109_unique : forall x y p q p' q', cos y <> 0 \/ x <> 0 -> tanh_of x y p q -> tanh_of x y p' q' -> p = p' /\ q = q'.
Proof. exact tanh_unique. Qed.
Print Assumptions C109_unique.
Example C109_unique_ex : tanh_of 0 0 0 0 /\ cos 0 <> 0.
Proof. unfold tanh_of. rewrite sinh_0, cosh_0, sin_0, cos_0. lra. Qed.

(** If the real sinh and tan are accurate to one unit in the last place, so is the complex tanh to 31 and 17 roundings in its two parts,
    for every finite argument: both parts are finite although sinh overflows for most arguments, the squares of sinh and tan overflow
    for more, and the imaginary part underflows.  Only when the denominator overflows is the imaginary part 0 instead of a number of at
    most 2^(emax/4 + 8 - emax).  float (24, 128) and double (53, 1024) meet the conditions. *)
Theorem C109_tanh : forall prec emax (Hp : Prec_gt_0 prec) (Hm : Prec_lt_emax prec emax) libTan libSinh (re im : binary_float prec emax),
  (24 <= prec)%Z -> (3 * prec + 8 <= emax)%Z -> good_tan prec emax libTan im -> good_sinh prec emax libSinh re ->
  exists p q, tanh_of (B2R re) (B2R im) p q /\
    let '(a, b) := fctanh prec emax Hp Hm libTan libSinh re im in
    is_finite a = true /\ is_finite b = true /\
    Rabs (B2R a - p) <= 31 * unit_roundoff prec * Rabs p + 4 * underflow_unit prec emax /\
    (Rabs (B2R b - q) <= 17 * unit_roundoff prec * Rabs q + underflow_unit prec emax \/ B2R b = 0 /\ Rabs q <= tanh_tiny emax).
Proof.
  intros prec emax Hp Hm libTan libSinh re im P PE GT GS. exists (part_re (sinh (B2R re)) (tan (B2R im))), (part_im (sinh (B2R re)) (tan (B2R im))).
  split; [apply parts_tanh, GT|]. pose proof (tanh_ok prec emax Hp Hm P PE libTan libSinh re im GT GS) as G.
  destruct (fctanh prec emax Hp Hm libTan libSinh re im) as [a b]. exact G.
Qed.
Print Assumptions C109_tanh.
(** 2^-60 and 2000, where sinh overflows; the libraries' functions return the argument and an infinity *)
Example C109_tanh_ex : good_tan 53 1024 (fun x => x) (fzero 53 1024) /\ good_sinh 53 1024 (fun x => x) (pow2 (-60)) /\ good_sinh 53 1024 (fun _ => B754_infinity false) (dbl 2000) /\
  out (fctanh 53 1024 eq_refl eq_refl (fun x => x) (fun x => x) (pow2 (-60)) (fzero 53 1024)) = (B2SF (pow2 (-60)), B2SF (fzero 53 1024)) /\
  out (fctanh 53 1024 eq_refl eq_refl (fun x => x) (fun _ => B754_infinity false) (dbl 2000) (fzero 53 1024)) = (B2SF (dbl 1), B2SF (fzero 53 1024)).
Proof.
  split; [|split; [|split; [|vm_compute; split; reflexivity]]].
  - split; [change (B2R (fzero 53 1024)) with 0; rewrite cos_0; lra|]. unfold within_ulp. change (B2R (fzero 53 1024)) with 0. rewrite tan_0, Rminus_0_r, Rabs_R0.
    split; [split; [reflexivity|lra]|apply bpow_ge_0].
  - left. split; [reflexivity|]. assert (V : B2R (pow2 (-60)) = bpow radix2 (-60)) by (unfold B2R; vm_compute; lra). rewrite V. set (x := bpow radix2 (-60)).
    assert (X : 0 < x <= / 4 * unit_roundoff 53) by (split; [apply bpow_gt_0|]; unfold x, unit_roundoff; change (/ 4) with (bpow radix2 (-2)); rewrite <- bpow_plus; apply bpow_le; lia).
    assert (U : unit_roundoff 53 <= / 2) by (change (/ 2) with (bpow radix2 (-1)); apply bpow_le; lia).
    pose proof (exp_ineq1_le (- x)) as E1. pose proof (exp_ineq1_le x) as E2.
    assert (EE : exp x * exp (- x) = 1) by (rewrite <- exp_plus, Rplus_opp_r; apply exp_0).
    assert (H1 : exp x * (1 - x) <= 1) by (rewrite <- EE; apply Rmult_le_compat_l; lra).
    assert (H2 : (1 + x) * exp (- x) <= 1) by (rewrite <- EE; apply Rmult_le_compat_r; lra).
    assert (XX : 0 <= x * x <= unit_roundoff 53 / 4 * x) by (split; [apply Rmult_le_pos; lra|apply Rmult_le_compat_r; lra]).
    assert (H3 : exp x <= 1 + x + 2 * (x * x)).
    { apply Rmult_le_reg_r with (1 - x); [lra|]. assert (x * x * x <= / 2 * (x * x)) by (replace (x * x * x) with (x * (x * x)) by ring; apply Rmult_le_compat_r; lra). lra. }
    assert (H4 : exp (- x) <= 1 - x + x * x).
    { apply Rmult_le_reg_l with (1 + x); [lra|]. assert (0 <= x * (x * x)) by (apply Rmult_le_pos; lra). lra. }
    assert (L : x - / 2 * (x * x) <= sinh x <= x + x * x) by (unfold sinh; lra).
    assert (X8 : x * x <= / 8 * x) by (apply Rmult_le_compat_r; lra). rewrite (Rabs_pos_eq (sinh x)) by lra. apply Rabs_le.
    assert (unit_roundoff 53 * (x * / 2) <= unit_roundoff 53 * sinh x) by (apply Rmult_le_compat_l; lra). lra.
  - right. assert (V : B2R (dbl 2000) = 2000) by (unfold B2R; vm_compute; lra). rewrite V. split; [rewrite Rlt_bool_false by lra; reflexivity|].
    assert (E : bpow radix2 2000 <= exp 2000).
    { replace 2000 with (INR 2000) by (rewrite INR_IZR_INZ; reflexivity). assert (P : forall n, bpow radix2 (Z.of_nat n) <= exp (INR n)).
      { induction n as [|n IH]; [cbn; rewrite exp_0; lra|]. rewrite S_INR, exp_plus, Nat2Z.inj_succ. unfold Z.succ. rewrite bpow_plus. change (bpow radix2 1) with 2.
        pose proof (exp_ineq1_le 1). apply Rmult_le_compat; try lra. apply bpow_ge_0. }
      apply (P 2000%nat). }
    assert (L : exp (Ropp 2000) <= 1) by (rewrite <- exp_0; left; apply exp_increasing; lra).
    assert (B : bpow radix2 (1024 - 1) * 4 <= bpow radix2 2000) by (change 4 with (bpow radix2 2); rewrite <- bpow_plus; apply bpow_le; lia).
    assert (B1 : 1 <= bpow radix2 (1024 - 1)) by (change 1 with (bpow radix2 0); apply bpow_le; lia).
    unfold sinh. rewrite Rabs_pos_eq by lra. lra.
Qed.

(** The tangent of a complex number, likewise, with the two bounds exchanged. *)
Theorem C109_tan : forall prec emax (Hp : Prec_gt_0 prec) (Hm : Prec_lt_emax prec emax) libTan libSinh (re im : binary_float prec emax),
  (24 <= prec)%Z -> (3 * prec + 8 <= emax)%Z -> good_tan prec emax libTan re -> good_sinh prec emax libSinh (Bopp im) ->
  exists p q, tan_of (B2R re) (B2R im) p q /\
    let '(a, b) := fctan prec emax Hp Hm libTan libSinh re im in
    is_finite a = true /\ is_finite b = true /\
    (Rabs (B2R a - p) <= 17 * unit_roundoff prec * Rabs p + underflow_unit prec emax \/ B2R a = 0 /\ Rabs p <= tanh_tiny emax) /\
    Rabs (B2R b - q) <= 31 * unit_roundoff prec * Rabs q + 4 * underflow_unit prec emax.
Proof.
  intros prec emax Hp Hm libTan libSinh re im P PE GT GS.
  set (S := sinh (B2R (Bopp im))). set (T := tan (B2R re)). exists (part_im S T), (- part_re S T).
  split; [apply tan_tanh; rewrite <- B2R_Bopp; apply parts_tanh, GT|].
  pose proof (tanh_ok prec emax Hp Hm P PE libTan libSinh (Bopp im) re GT GS) as (A & B & C & D). fold S T in C, D.
  unfold fctan. destruct (fctanh prec emax Hp Hm libTan libSinh (Bopp im) re) as [a b]. cbn [fst snd] in *.
  rewrite is_finite_Bopp, B2R_Bopp, Rabs_Ropp. split; [exact B|]. split; [exact A|]. split; [exact D|].
  replace (- B2R a - - part_re S T) with (- (B2R a - part_re S T)) by ring. now rewrite Rabs_Ropp.
Qed.
Print Assumptions C109_tan.
Example C109_tan_ex : good_sinh 53 1024 (fun x => x) (Bopp (fzero 53 1024)) /\ tan_of 0 0 0 0 /\
  out (fctan 53 1024 eq_refl eq_refl (fun x => x) (fun x => x) (fzero 53 1024) (fzero 53 1024)) = (B2SF (fzero 53 1024), B2SF (fzero 53 1024)).
Proof.
  split; [|split; [unfold tan_of; rewrite sinh_0, cosh_0, sin_0, cos_0; lra|vm_compute; reflexivity]].
  left. split; [reflexivity|]. change (B2R (Bopp (fzero 53 1024))) with 0. rewrite sinh_0, Rminus_0_r, Rabs_R0. lra.
Qed.

(** tanh is odd in its real part, exactly; and the conjugate of the argument gives the conjugate of the result, up to the sign of a zero. *)
Theorem C109_symmetric : forall prec emax (Hp : Prec_gt_0 prec) (Hm : Prec_lt_emax prec emax) libTan libSinh (re im : binary_float prec emax),
  (forall x, libTan (Bopp x) = Bopp (libTan x)) -> (forall x, libSinh (Bopp x) = Bopp (libSinh x)) ->
  let tanh := fctanh prec emax Hp Hm libTan libSinh in
  tanh (Bopp re) im = (Bopp (fst (tanh re im)), snd (tanh re im)) /\
  fst (tanh re (Bopp im)) = fst (tanh re im) /\ same_but_zero prec emax (snd (tanh re (Bopp im))) (Bopp (snd (tanh re im))).
Proof.
  intros prec emax Hp Hm libTan libSinh re im OT OS tanh. unfold tanh, fctanh. rewrite OT, OS, parts_opp_s, parts_opp_t. cbn [fst snd].
  split; [reflexivity|]. split; [reflexivity|]. destruct (fisInf prec emax (tanh_dv prec emax Hp Hm (libSinh re) (libTan im))) eqn:I; [right|left; reflexivity].
  exists false. split; [reflexivity|]. unfold tanh_parts. rewrite I. reflexivity.
Qed.
Print Assumptions C109_symmetric.
Example C109_symmetric_ex : let tanh := fctanh 53 1024 eq_refl eq_refl (fun x => x) (fun x => x) in
  out (tanh (dbl 1) (dbl 1)) = out (tanh_parts 53 1024 eq_refl eq_refl (dbl 1) (dbl 1)) /\
  B2SF (fst (tanh (dbl (-1)) (dbl 1))) = B2SF (Bopp (fst (tanh (dbl 1) (dbl 1)))) /\ B2SF (snd (tanh (dbl 1) (dbl (-1)))) = B2SF (Bopp (snd (tanh (dbl 1) (dbl 1)))).
Proof. vm_compute. repeat split. Qed.

(** Infinite and undefined arguments: the limit 1 or -1 at infinity, and NaN wherever a part is NaN. *)
Theorem C109_special : forall prec emax (Hp : Prec_gt_0 prec) (Hm : Prec_lt_emax prec emax) libTan libSinh (re im : binary_float prec emax),
  (24 <= prec)%Z -> (3 * prec + 8 <= emax)%Z ->
  (forall s, libSinh (B754_infinity s) = B754_infinity s) -> libSinh B754_nan = B754_nan -> libTan B754_nan = B754_nan -> (is_finite im = true -> is_finite (libTan im) = true) ->
  let tanh := fctanh prec emax Hp Hm libTan libSinh in
  (is_finite im = true -> forall s, B2R (fst (tanh (B754_infinity s) im)) = (if s then -1 else 1) /\ snd (tanh (B754_infinity s) im) = B754_zero false) /\
  tanh B754_nan im = (B754_nan, B754_nan) /\ tanh re B754_nan = (B754_nan, B754_nan).
Proof.
  intros prec emax Hp Hm libTan libSinh re im P PE HI HN HT HF tanh. unfold tanh, fctanh. rewrite HN, HT, (nan_s prec emax Hp Hm), (nan_t prec emax Hp Hm). split; [|split; reflexivity].
  intros F s. rewrite HI, (inf_out prec emax Hp Hm P PE s (libTan im) (HF F)). destruct (one_val prec emax Hp Hm) as [F1 V1]. cbn [fst snd]. split; [|reflexivity].
  destruct s; [rewrite B2R_Bopp, V1; lra|exact V1].
Qed.
Print Assumptions C109_special.
Example C109_special_ex : out (fctanh 53 1024 eq_refl eq_refl (fun x => x) (fun x => x) (B754_infinity true) (dbl 3)) = (B2SF (dbl (-1)), B2SF (fzero 53 1024)).
Proof. vm_compute. reflexivity. Qed.

(** Two values differ from those of the C standard (Annex G), whatever tan and sinh are used: the imaginary part at an infinite real part
    is +0 even where the result should be the conjugate, and an infinite imaginary part at an infinite real part gives NaN instead of 1. *)
Theorem C109_annex_g_refuted : forall libTan libSinh : binary_float 53 1024 -> binary_float 53 1024,
  (forall s, libSinh (B754_infinity s) = B754_infinity s) -> (forall s, libTan (B754_infinity s) = B754_nan) ->
  is_finite (libTan (dbl 1)) = true -> is_finite (libTan (dbl (-1))) = true ->
  let tanh := fctanh 53 1024 eq_refl eq_refl libTan libSinh in
  ~ (forall im, is_finite (libTan im) = true -> is_finite (libTan (Bopp im)) = true -> snd (tanh (B754_infinity false) (Bopp im)) = Bopp (snd (tanh (B754_infinity false) im))) /\
  ~ (fst (tanh (B754_infinity false) (B754_infinity false)) = dbl 1).
Proof.
  intros libTan libSinh HI HN F1 F2 tanh. unfold tanh, fctanh. split.
  - intros H. specialize (H (dbl 1) F1). replace (Bopp (dbl 1)) with (dbl (-1)) in H by (apply B2SF_inj; vm_compute; reflexivity). specialize (H F2).
    rewrite HI, !(inf_out 53 1024 eq_refl eq_refl ltac:(lia) ltac:(lia)) in H by assumption. cbn in H. discriminate H.
  - rewrite HN, nan_t. cbn [fst]. intros H. apply (f_equal (fun x => is_nan x)) in H. vm_compute in H. discriminate H.
Qed.
Print Assumptions C109_annex_g_refuted.
