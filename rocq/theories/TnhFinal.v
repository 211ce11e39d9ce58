(** Proofs for C109: signs, symmetries and special values of the tangents. *)
From Coq Require Import ZArith Reals Lia Lra Bool.
From Flocq Require Import Core Relative BinarySingleNaN.
From Verif Require Import AccModel AccSpec AccProofs NumModel NumSpec NumBasics NrmModel NrmSpec NrmFloat CsqModel CsqError CsqProofs CsqFinal TnhModel TnhSpec TnhProofs.
From Verif Require ComplexModel ComplexProofs.
From Coq Require Import ZifyNat ZifyN ZifyBool.
Ltac Zify.zify_post_hook ::= idtac.
Local Open Scope R_scope.

(** ** The exact values are the tangents *)
Lemma parts_tanh x y : cos y <> 0 -> tanh_of x y (part_re (sinh x) (tan y)) (part_im (sinh x) (tan y)).
Proof.
  intros C. pose proof (ComplexProofs.ctanh_ok (ComplexModel.mk x y) C) as H.
  apply (f_equal (fun z => (ComplexModel.re z, ComplexModel.im z))) in H. injection H as H1 H2. split; [exact H1|].
  etransitivity; [|exact H2]. cbv [ComplexModel.mul ComplexModel.mul_assign ComplexModel.ctanh ComplexModel.ccosh ComplexModel.re ComplexModel.im part_re part_im den]. ring.
Qed.
Lemma tanh_unique x y p q p' q' : cos y <> 0 \/ x <> 0 -> tanh_of x y p q -> tanh_of x y p' q' -> p = p' /\ q = q'.
Proof.
  intros NZ [A B] [A' B']. set (c := cosh x * cos y) in *. set (d := sinh x * sin y) in *.
  assert (N : 0 < c * c + d * d).
  { unfold c, d. pose proof (ComplexProofs.cosh_sinh x) as CS. pose proof (ComplexProofs.cosh_ge1 x) as C1. pose proof (sin2_cos2 y) as SC. unfold Rsqr in SC.
    replace (cosh x * cos y * (cosh x * cos y) + sinh x * sin y * (sinh x * sin y)) with (sinh x * sinh x + cos y * cos y).
    2: { replace (sinh x * sinh x) with (cosh x * cosh x - 1) by lra.
         replace (sinh x * sin y * (sinh x * sin y)) with ((cosh x * cosh x - 1) * (sin y * sin y)) by (replace (cosh x * cosh x - 1) with (sinh x * sinh x) by lra; ring).
         replace (sin y * sin y) with (1 - cos y * cos y) by lra. ring. }
    pose proof (Rle_0_sqr (sinh x)) as Q1. pose proof (Rle_0_sqr (cos y)) as Q2. unfold Rsqr in *.
    destruct NZ as [NZ|NZ].
    - assert (0 < cos y * cos y) by (apply Rsqr_pos_lt in NZ; exact NZ). lra.
    - assert (SN : sinh x <> 0).
      { unfold sinh. intros E. assert (E2 : exp x = exp (- x)) by lra. apply exp_inv in E2. lra. }
      apply Rsqr_pos_lt in SN. unfold Rsqr in SN. lra. }
  assert (E1 : (p - p') * c = (q - q') * d) by lra. assert (E2 : (p - p') * d = - ((q - q') * c)) by lra.
  assert (E3 : (p - p') * (c * c + d * d) = 0). { replace ((p - p') * (c * c + d * d)) with ((p - p') * c * c + (p - p') * d * d) by ring. rewrite E1, E2. ring. }
  assert (E4 : (q - q') * (c * c + d * d) = 0). { replace ((q - q') * (c * c + d * d)) with ((q - q') * d * d - (- ((q - q') * c)) * c) by ring. rewrite <- E1, <- E2. ring. }
  apply Rmult_integral in E3, E4. lra.
Qed.
Lemma tan_tanh x y p q : tanh_of (- y) x p q -> tan_of x y q (- p).
Proof.
  unfold tanh_of, tan_of. rewrite ComplexProofs.cosh_neg, ComplexProofs.sinh_neg. intros [A B]. split; lra.
Qed.
Lemma den_sign S T : den (- S) T = den S T /\ den S (- T) = den S T.
Proof. unfold den. split; ring. Qed.
Lemma parts_sign S T : part_re (- S) T = - part_re S T /\ part_re S (- T) = part_re S T /\ part_im (- S) T = part_im S T /\ part_im S (- T) = - part_im S T.
Proof.
  unfold part_re, part_im. destruct (den_sign S T) as [-> ->]. pose proof (den_ge1 S T). repeat split.
  - replace (- S * - S) with (S * S) by ring. field. lra.
  - f_equal. ring.
  - field. lra.
Qed.

Section Float.
Variables prec emax : Z.
Context (Hp : Prec_gt_0 prec) (Hm : Prec_lt_emax prec emax).
Hypothesis (P24 : (24 <= prec)%Z) (PE : (3 * prec + 8 <= emax)%Z) (P53 : (prec <= 53)%Z).
Local Notation num := (binary_float prec emax).
Local Notation fzero := (fzero prec emax).
Local Notation fone := (fone prec emax Hp Hm).
Local Notation fadd := (fadd prec emax Hp Hm).
Local Notation fmul := (fmul prec emax Hp Hm).
Local Notation fdiv := (fdiv prec emax Hp Hm).
Local Notation flt := (flt prec emax).
Local Notation fsqrt := (fsqrt prec emax Hp Hm).
Local Notation fisInf := (fisInf prec emax).
Local Notation tanh_bv := (tanh_bv prec emax Hp Hm).
Local Notation tanh_dv := (tanh_dv prec emax Hp Hm).
Local Notation tanh_parts := (tanh_parts prec emax Hp Hm).
Local Notation rn := (nearest prec emax).
Local Notation u := (unit_roundoff prec).
Local Notation eta := (underflow_unit prec emax).
Local Notation is := (is prec emax).
Local Notation u0 := (u_pos prec).
Local Notation us := (u_small prec P24).

(** the error of the two parts, signs included *)
Definition parts_good (S T : R) (p : num * num) : Prop :=
  is_finite (fst p) = true /\ is_finite (snd p) = true /\
  Rabs (B2R (fst p) - part_re S T) <= 31 * u * Rabs (part_re S T) + 4 * eta /\
  (Rabs (B2R (snd p) - part_im S T) <= 17 * u * Rabs (part_im S T) + eta \/ B2R (snd p) = 0 /\ Rabs (part_im S T) <= tanh_tiny emax).

Lemma not_inf (x : num) : is_finite x = true -> fisInf x = false.
Proof. destruct x; auto; discriminate. Qed.
Lemma nonneg_ok (s t : num) (S T : R) : 0 <= S -> 0 <= T -> T <= bpow radix2 (emax / 4) -> is 2 t T ->
  is 2 s S \/ (s = B754_infinity false /\ bpow radix2 (emax - 1) <= S) -> parts_good S T (tanh_parts s t).
Proof.
  intros S0 T0 TB IT IS. pose proof u0 as U0. pose proof (eta0 prec emax) as E0. pose proof (den_ge1 S T) as D1. pose proof (den_ge S T) as DG.
  pose proof (part_re_nonneg S T S0) as P0. assert (Q0 : 0 <= part_im S T) by (apply Rmult_le_pos; [auto|left; apply Rinv_0_lt_compat; lra]).
  unfold parts_good. rewrite (Rabs_pos_eq (part_re S T)), (Rabs_pos_eq (part_im S T)) by auto.
  assert (UP : 0 <= u * part_re S T) by (apply Rmult_le_pos; lra).
  assert (ONE : bpow radix2 (emax - 5) <= den S T -> is_finite fone = true /\ is_finite fzero = true /\ Rabs (B2R fone - part_re S T) <= 31 * u * part_re S T + 4 * eta /\
    (Rabs (B2R fzero - part_im S T) <= 17 * u * part_im S T + eta \/ B2R fzero = 0 /\ part_im S T <= tanh_tiny emax)).
  { intros DL. destruct (one_val prec emax Hp Hm) as [F1 V1]. split; [exact F1|]. split; [reflexivity|]. split.
    - rewrite V1. pose proof (re_one prec emax P24 PE S T S0 T0 TB DL). lra.
    - right. split; [reflexivity|]. apply (im_tiny emax S T TB DL). }
  assert (IM : forall d : num, is (221 / 16) d (den S T) -> is_finite (fdiv t d) = true /\ Rabs (B2R (fdiv t d) - part_im S T) <= 17 * u * part_im S T + eta).
  { intros d ID. destruct (div_abs prec emax Hp Hm P24 PE 2 (221 / 16) t T d (den S T)) as [G E]; auto; try lra; [apply (t_top prec emax P24 PE T TB)|].
    split; [exact G|]. unfold part_im. lra. }
  assert (FIN : forall a : num, is (221 / 16) (tanh_dv s t) (den S T) -> is_finite a = true -> Rabs (B2R a - part_re S T) <= 31 * u * part_re S T + 4 * eta ->
    a = fdiv (fmul (fsqrt (fadd fone (fmul s s))) (tanh_bv s t)) (tanh_dv s t) ->
    is_finite (fst (tanh_parts s t)) = true /\ is_finite (snd (tanh_parts s t)) = true /\ Rabs (B2R (fst (tanh_parts s t)) - part_re S T) <= 31 * u * part_re S T + 4 * eta /\
    (Rabs (B2R (snd (tanh_parts s t)) - part_im S T) <= 17 * u * part_im S T + eta \/ B2R (snd (tanh_parts s t)) = 0 /\ part_im S T <= tanh_tiny emax)).
  { intros a ID FA EA ->. unfold TnhModel.tanh_parts. rewrite (not_inf _ (proj1 ID)). cbn [fst snd]. destruct (IM _ ID) as [G E]. auto. }
  destruct IS as [IS|[-> SB]].
  - destruct (Rlt_le_dec (u * (S * (1 + T * T))) (32 * eta)) as [UF|UF].
    + destruct (tiny_case prec emax Hp Hm P24 PE s t S T S0 T0 TB IT IS UF) as (_ & ID & FA & EA).
      apply (FIN _ (is_mono prec emax 3 (221 / 16) (tanh_dv s t) (den S T) ltac:(lra) ltac:(lra) ID) FA EA eq_refl).
    + destruct (Rle_lt_dec (den S T) (bpow radix2 (emax - 5))) as [OF|OF].
      * destruct (normal_case prec emax Hp Hm P24 PE s t S T S0 T0 TB IT IS UF OF) as (_ & ID & FA & NA).
        apply (FIN _ ID FA); [|reflexivity]. unfold CsqError.near in NA. lra.
      * destruct (large_case prec emax Hp Hm P24 PE s t S T S0 T0 TB IT (Rlt_le _ _ OF) IS) as [E|(_ & ID & FA & VA)].
        -- rewrite E. apply ONE. lra.
        -- apply (FIN _ ID FA); [|reflexivity]. rewrite VA. pose proof (re_one prec emax P24 PE S T S0 T0 TB (Rlt_le _ _ OF)). lra.
  - assert (DL : bpow radix2 (emax - 5) <= den S T).
    { assert (B1 : 1 <= bpow radix2 (emax - 1)) by (change 1 with (bpow radix2 0); apply bpow_le; lia).
      assert (1 * S <= S * S) by (apply Rmult_le_compat_r; lra). assert (bpow radix2 (emax - 5) <= bpow radix2 (emax - 1)) by (apply bpow_le; lia). lra. }
    rewrite (inf_case prec emax Hp Hm P24 PE (B754_infinity false) t T T0 TB IT eq_refl). apply ONE, DL.
Qed.
(** ** Signs *)
Lemma mul_opp_l (x y : num) : fmul (Bopp x) y = Bopp (fmul x y).
Proof.
  unfold AccModel.fmul. destruct (is_finite x && is_finite y) eqn:F; [|destruct x as [[]|[]| |[] mx ex Hx], y as [[]|[]| |[] my ey Hy]; try discriminate F; reflexivity].
  apply andb_prop in F. destruct F as [F F'].
  pose proof (Bmult_correct prec emax Hp Hm mode_NE x y) as C. pose proof (Bmult_correct prec emax Hp Hm mode_NE (Bopp x) y) as C'.
  rewrite B2R_Bopp, is_finite_Bopp, Bsign_Bopp in C' by (apply finite_not_nan; exact F).
  assert (EO : round radix2 (SpecFloat.fexp prec emax) (round_mode mode_NE) (- B2R x * B2R y) = - round radix2 (SpecFloat.fexp prec emax) (round_mode mode_NE) (B2R x * B2R y)).
  { replace (- B2R x * B2R y) with (- (B2R x * B2R y)) by ring. apply (rn_opp prec emax). }
  rewrite EO, Rabs_Ropp in C'. destruct (Rlt_bool _ _).
  - destruct C as (C1 & C2 & C3). destruct C' as (D1 & D2 & D3). rewrite F, F' in C2, D2. cbn [andb] in C2, D2.
    apply B2R_Bsign_inj; [auto|now rewrite is_finite_Bopp|now rewrite B2R_Bopp, C1, D1|].
    rewrite Bsign_Bopp, C3, D3 by (apply finite_not_nan; auto). now destruct (Bsign x), (Bsign y).
  - change (B2SF (Bmult mode_NE x y) = SpecFloat.S754_infinity (xorb (Bsign x) (Bsign y))) in C. change (B2SF (Bmult mode_NE (Bopp x) y) = SpecFloat.S754_infinity (xorb (negb (Bsign x)) (Bsign y))) in C'.
    apply B2SF_inj. rewrite C'. rewrite <- negb_xorb_l. revert C. generalize (xorb (Bsign x) (Bsign y)). intros b C.
    destruct (Bmult mode_NE x y) as [t'|t'| |t' ? ? ?]; try discriminate C. cbn in C. injection C as ->. reflexivity.
Qed.
Lemma mul_opp_r (x y : num) : fmul x (Bopp y) = Bopp (fmul x y).
Proof.
  unfold AccModel.fmul. destruct (is_finite x && is_finite y) eqn:F; [|destruct x as [[]|[]| |[] mx ex Hx], y as [[]|[]| |[] my ey Hy]; try discriminate F; reflexivity].
  apply andb_prop in F. destruct F as [F F'].
  pose proof (Bmult_correct prec emax Hp Hm mode_NE x y) as C. pose proof (Bmult_correct prec emax Hp Hm mode_NE x (Bopp y)) as C'.
  rewrite B2R_Bopp, is_finite_Bopp, Bsign_Bopp in C' by (apply finite_not_nan; exact F').
  assert (EO : round radix2 (SpecFloat.fexp prec emax) (round_mode mode_NE) (B2R x * - B2R y) = - round radix2 (SpecFloat.fexp prec emax) (round_mode mode_NE) (B2R x * B2R y)).
  { replace (B2R x * - B2R y) with (- (B2R x * B2R y)) by ring. apply (rn_opp prec emax). }
  rewrite EO, Rabs_Ropp in C'. destruct (Rlt_bool _ _).
  - destruct C as (C1 & C2 & C3). destruct C' as (D1 & D2 & D3). rewrite F, F' in C2, D2. cbn [andb] in C2, D2.
    apply B2R_Bsign_inj; [auto|now rewrite is_finite_Bopp|now rewrite B2R_Bopp, C1, D1|].
    rewrite Bsign_Bopp, C3, D3 by (apply finite_not_nan; auto). now destruct (Bsign x), (Bsign y).
  - change (B2SF (Bmult mode_NE x y) = SpecFloat.S754_infinity (xorb (Bsign x) (Bsign y))) in C. change (B2SF (Bmult mode_NE x (Bopp y)) = SpecFloat.S754_infinity (xorb (Bsign x) (negb (Bsign y)))) in C'.
    apply B2SF_inj. rewrite C'. rewrite <- negb_xorb_r. revert C. generalize (xorb (Bsign x) (Bsign y)). intros b C.
    destruct (Bmult mode_NE x y) as [t'|t'| |t' ? ? ?]; try discriminate C. cbn in C. injection C as ->. reflexivity.
Qed.
Lemma dv_zero b (t : num) : fisInf (tanh_dv (B754_zero b) t) = false.
Proof.
  unfold TnhModel.tanh_dv, TnhModel.tanh_bv. set (w := fadd fone (fmul t t)). destruct (one_val prec emax Hp Hm) as [F1 V1]. unfold AccModel.fone in *.
  assert (Z : exists z : num, fmul (fmul (B754_zero b) w) (B754_zero b) = z /\ ((exists b', z = B754_zero b') \/ z = B754_nan)).
  { eexists. split; [reflexivity|]. clear. destruct w as [[]|[]| |[] m e H], b; cbn; eauto. }
  destruct Z as (z & -> & [[b' ->] | ->]); destruct (Bone : num) as [b1|[]| |b1 m1 e1 H1]; try discriminate F1; try reflexivity; cbn in V1; lra.
Qed.
Lemma parts_opp_s (s t : num) : tanh_parts (Bopp s) t = (Bopp (fst (tanh_parts s t)), snd (tanh_parts s t)).
Proof.
  assert (B : tanh_bv (Bopp s) t = Bopp (tanh_bv s t)) by apply mul_opp_l.
  assert (E : tanh_dv (Bopp s) t = tanh_dv s t) by (unfold TnhModel.tanh_dv; rewrite B, mul_opp_l, mul_opp_r, Bopp_involutive; reflexivity).
  unfold TnhModel.tanh_parts. rewrite B, E. destruct (fisInf (tanh_dv s t)) eqn:I; cbn [fst snd].
  - f_equal. destruct s as [b|b| |b m e H].
    + rewrite dv_zero in I. discriminate I.
    + destruct b; cbn; rewrite ?Bopp_involutive; reflexivity.
    + unfold TnhModel.tanh_dv, TnhModel.tanh_bv in I. exfalso. revert I. clear. unfold AccModel.fmul, AccModel.fadd, AccModel.fone. cbn [Bmult Bplus]. destruct (fadd fone (fmul t t)), (Bone : num); cbn; discriminate.
    + destruct b; cbn; rewrite ?Bopp_involutive; reflexivity.
  - rewrite mul_opp_l, !mul_opp_r, Bopp_involutive, div_opp. reflexivity.
Qed.
Lemma parts_opp_t (s t : num) : tanh_parts s (Bopp t) = (fst (tanh_parts s t), if fisInf (tanh_dv s t) then fzero else Bopp (snd (tanh_parts s t))).
Proof.
  assert (B : tanh_bv s (Bopp t) = tanh_bv s t) by (unfold TnhModel.tanh_bv; rewrite mul_opp_l, mul_opp_r, Bopp_involutive; reflexivity).
  assert (E : tanh_dv s (Bopp t) = tanh_dv s t) by (unfold TnhModel.tanh_dv; rewrite B; reflexivity).
  unfold TnhModel.tanh_parts. rewrite B, E. destruct (fisInf (tanh_dv s t)); cbn [fst snd]; [reflexivity|]. rewrite div_opp. reflexivity.
Qed.
Lemma good_opp_s S T (p : num * num) : parts_good S T p -> parts_good (- S) T (Bopp (fst p), snd p).
Proof.
  unfold parts_good. destruct (parts_sign S T) as (-> & _ & -> & _). cbn [fst snd]. rewrite is_finite_Bopp, B2R_Bopp, Rabs_Ropp. intros (A & B & C & D).
  repeat (split; [assumption|]). split; [|exact D]. replace (- B2R (fst p) - - part_re S T) with (- (B2R (fst p) - part_re S T)) by ring. now rewrite Rabs_Ropp.
Qed.
Lemma good_opp_t S T (p : num * num) q : parts_good S T p -> is_finite q = true -> B2R q = - B2R (snd p) -> parts_good S (- T) (fst p, q).
Proof.
  unfold parts_good. destruct (parts_sign S T) as (_ & -> & _ & ->). cbn [fst snd]. intros (A & B & C & D) FQ VQ. rewrite VQ, Rabs_Ropp.
  repeat (split; [assumption|]). destruct D as [D|[D D']].
  - left. replace (- B2R (snd p) - - part_im S T) with (- (B2R (snd p) - part_im S T)) by ring. now rewrite Rabs_Ropp.
  - right. split; [lra|exact D'].
Qed.
Lemma ulp_is (r : num) y : 0 <= y -> within_ulp prec emax r y -> is 2 r y.
Proof. intros Y [F E]. rewrite (Rabs_pos_eq y Y) in E. split; auto. Qed.
Lemma ulp_opp (r : num) y : within_ulp prec emax r y -> within_ulp prec emax (Bopp r) (- y).
Proof.
  intros [F E]. split; [now rewrite is_finite_Bopp|]. rewrite B2R_Bopp, Rabs_Ropp. replace (- B2R r - - y) with (- (B2R r - y)) by ring. now rewrite Rabs_Ropp.
Qed.
Lemma signed_t (s t : num) (S T : R) : 0 <= S -> Rabs T <= bpow radix2 (emax / 4) -> within_ulp prec emax t T ->
  is 2 s S \/ (s = B754_infinity false /\ bpow radix2 (emax - 1) <= S) -> parts_good S T (tanh_parts s t).
Proof.
  intros S0 TB IT IS. destruct (Rle_lt_dec 0 T) as [T0|T0].
  - rewrite Rabs_pos_eq in TB by auto. apply nonneg_ok; auto. apply ulp_is; auto.
  - rewrite Rabs_left in TB by auto. pose proof (ulp_opp _ _ IT) as IT'.
    pose proof (nonneg_ok s (Bopp t) S (- T) S0 ltac:(lra) TB (ulp_is (Bopp t) (- T) ltac:(lra) IT') IS) as G.
    pose proof (parts_opp_t s (Bopp t)) as E. rewrite Bopp_involutive in E. rewrite E.
    replace (parts_good S T) with (parts_good S (- - T)) by (now rewrite Ropp_involutive). apply good_opp_t; [exact G| |].
    + destruct (fisInf _); [reflexivity|]. rewrite is_finite_Bopp. apply G.
    + destruct (fisInf (tanh_dv s (Bopp t))) eqn:I; [|apply B2R_Bopp]. unfold TnhModel.tanh_parts. rewrite I. cbn. ring.
Qed.
Lemma signed_ok (s t : num) (S T : R) : Rabs T <= bpow radix2 (emax / 4) -> within_ulp prec emax t T ->
  within_ulp prec emax s S \/ (s = B754_infinity (Rlt_bool S 0) /\ bpow radix2 (emax - 1) <= Rabs S) -> parts_good S T (tanh_parts s t).
Proof.
  intros TB IT IS. destruct (Rle_lt_dec 0 S) as [S0|S0].
  - apply signed_t; auto. rewrite Rlt_bool_false, Rabs_pos_eq in IS by auto. destruct IS as [IS|IS]; [left; apply ulp_is; auto|right; exact IS].
  - rewrite Rlt_bool_true, Rabs_left in IS by auto.
    assert (G : parts_good (- S) T (tanh_parts (Bopp s) t)).
    { apply signed_t; auto; [lra|]. destruct IS as [IS|[-> IS]]; [left; apply ulp_is; [lra|apply ulp_opp; auto]|right; split; [reflexivity|exact IS]]. }
    pose proof (parts_opp_s (Bopp s) t) as E. rewrite Bopp_involutive in E. rewrite E.
    replace (parts_good S T) with (parts_good (- - S) T) by (now rewrite Ropp_involutive). apply good_opp_s, G.
Qed.
(** the sign of sinh *)
Lemma sinh_sign x : Rlt_bool (sinh x) 0 = Rlt_bool x 0.
Proof.
  unfold sinh. destruct (Rlt_bool_spec x 0) as [L|L].
  - apply Rlt_bool_true. assert (exp x < exp (- x)) by (apply exp_increasing; lra). lra.
  - apply Rlt_bool_false. destruct (Req_dec x 0) as [-> |N]; [rewrite Ropp_0; lra|]. assert (exp (- x) < exp x) by (apply exp_increasing; lra). lra.
Qed.
Lemma tanh_ok libTan libSinh (re im : num) : good_tan prec emax libTan im -> good_sinh prec emax libSinh re ->
  parts_good (sinh (B2R re)) (tan (B2R im)) (fctanh prec emax Hp Hm libTan libSinh re im).
Proof.
  intros (C & IT & TB) IS. apply signed_ok; auto. destruct IS as [IS|[IS L]]; [left; auto|right]. rewrite sinh_sign. auto.
Qed.

(** ** Special values *)
Lemma nan_s (t : num) : tanh_parts B754_nan t = (B754_nan, B754_nan).
Proof.
  assert (D : tanh_dv B754_nan t = B754_nan).
  { unfold TnhModel.tanh_dv, TnhModel.tanh_bv. destruct (fadd fone (fmul t t)); cbn; destruct fone; reflexivity. }
  unfold TnhModel.tanh_parts. rewrite D. cbn [CsqModel.fisInf]. f_equal; [destruct (fmul _ _)|destruct t]; reflexivity.
Qed.
Lemma nan_t (s : num) : tanh_parts s B754_nan = (B754_nan, B754_nan).
Proof.
  assert (B : tanh_bv s B754_nan = B754_nan) by (unfold TnhModel.tanh_bv; cbn; destruct fone, s; reflexivity).
  assert (D : tanh_dv s B754_nan = B754_nan) by (unfold TnhModel.tanh_dv; rewrite B; destruct s; cbn; destruct fone; reflexivity).
  unfold TnhModel.tanh_parts. rewrite B, D. cbn [CsqModel.fisInf]. f_equal. destruct (fsqrt _); reflexivity.
Qed.
Lemma inf_out b (t : num) : is_finite t = true -> tanh_parts (B754_infinity b) t = ((if b then Bopp fone else fone), fzero).
Proof.
  intros F. enough (E : tanh_parts (B754_infinity false) t = (fone, fzero)).
  { destruct b; [|exact E]. change (B754_infinity true) with (Bopp (B754_infinity false) : num). rewrite parts_opp_s, E. reflexivity. }
  destruct (one_val prec emax Hp Hm) as [F1 V1].
  assert (W : (is_finite (fadd fone (fmul t t)) = true /\ 0 < B2R (fadd fone (fmul t t))) \/ fadd fone (fmul t t) = B754_infinity false).
  { assert (M : (is_finite (fmul t t) = true /\ 0 <= B2R (fmul t t)) \/ fmul t t = B754_infinity false).
    { pose proof (Bmult_correct prec emax Hp Hm mode_NE t t) as C. change (Bmult mode_NE t t) with (fmul t t) in C. destruct (Rlt_bool _ _).
      - left. destruct C as (C1 & C2 & _). rewrite F in C2. split; [exact C2|]. rewrite C1. change (0 <= rn (B2R t * B2R t)). rewrite <- (rn_0 prec emax). apply rn_le; [exact Hp|]. pose proof (Rle_0_sqr (B2R t)) as Q. exact Q.
      - right. rewrite xorb_nilpotent in C. change (B2SF (fmul t t) = SpecFloat.S754_infinity false) in C. destruct (fmul t t); try discriminate C. cbn in C. injection C as ->. reflexivity. }
    destruct M as [[FM VM]|E].
    - left. pose proof (Bplus_correct prec emax Hp Hm mode_NE fone (fmul t t) F1 FM) as C. change (Bplus mode_NE fone (fmul t t)) with (fadd fone (fmul t t)) in C.
      assert (G : 1 <= rn (B2R fone + B2R (fmul t t))) by (apply rn_ge_format; [exact Hp|apply (one_format prec emax Hp Hm)|lra]).
      rewrite Rlt_bool_true in C.
      + destruct C as (C1 & C2 & _). split; [exact C2|]. rewrite C1. change (0 < rn (B2R fone + B2R (fmul t t))). lra.
      + change (Rabs (rn (B2R fone + B2R (fmul t t))) < bpow radix2 emax). destruct (Rle_dec (bpow radix2 (prec + 1)) (B2R (fmul t t))) as [L|L].
        * rewrite V1, (absorb_one prec emax Hp _ (num_format prec emax _) L). apply finite_lt.
        * apply (rn_small prec emax Hp _ (prec + 2)); try lia. rewrite V1, Rabs_pos_eq by lra. replace (prec + 2)%Z with (prec + 1 + 1)%Z by lia. rewrite (bpow_plus radix2 (prec + 1)). change (bpow radix2 1) with 2.
          assert (1 <= bpow radix2 (prec + 1)) by (change 1 with (bpow radix2 0); apply bpow_le; lia). lra.
    - right. rewrite E. unfold AccModel.fone in *. destruct (Bone : num) as [|[]| |]; try discriminate F1; reflexivity. }
  assert (D : tanh_dv (B754_infinity false) t = B754_infinity false).
  { unfold TnhModel.tanh_dv, TnhModel.tanh_bv. rewrite (proj1 (inf_mul prec emax Hp Hm _ W)). cbn. unfold AccModel.fone in *. destruct (Bone : num) as [|[]| |]; try discriminate F1; reflexivity. }
  unfold TnhModel.tanh_parts. rewrite D. reflexivity.
Qed.
End Float.
