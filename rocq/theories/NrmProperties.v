(** C96 (Euclidean norms) and C97 (Givens rotations) of the bundled BLAS. *)
From Coq Require Import ZArith Reals List Lia Lra.
From Flocq Require Import Core BinarySingleNaN.
From Verif Require Import Base BlasModel MatmulSpec BlasSpec BlasProofs ComplexModel AccModel AccSpec AccProofs NumModel NumBasics NrmModel NrmSpec NrmProofs NrmFloat.
From Coq Require Import ZifyNat ZifyN ZifyBool.
Ltac Zify.zify_post_hook ::= idtac.
Import ListNotations.
Local Open Scope R_scope.

Local Notation dbl := (fint 53 1024 eq_refl eq_refl).

(** ** C96 *)
(** In exact arithmetic nrm2 is the Euclidean length, whatever the increment (negative and zero ones included). *)
Theorem C96_nrm2 : forall n x incX (m : list R), inside m x incX n ->
  rnrm2 n x incX m = Ok (length2 (Z.to_nat n) (item 0 m x incX n)).
Proof. exact rnrm2_ok. Qed.
Print Assumptions C96_nrm2.
Example C96_nrm2_ex : inside [0; 4; 7; -3] 1 2 2 /\ rnrm2 2 1 2 [0; 4; 7; -3] = Ok 5.
Proof.
  assert (I : inside [0; 4; 7; -3] 1 2 2) by (intros i Hi; unfold elt; change (2 <? 0)%Z with false; cbn [length]; lia).
  split; [exact I|]. rewrite (C96_nrm2 _ _ _ _ I). f_equal. unfold length2, total. change (Z.to_nat 2) with 2%nat. cbn [sum].
  change (item 0 [0; 4; 7; -3] 1 2 2 0) with 4. change (item 0 [0; 4; 7; -3] 1 2 2 1) with (-3). apply root_of; lra.
Qed.
(** The same for vectors of complex numbers. *)
Theorem C96_cnrm2 : forall n x incX (m : list cx), inside m x incX n ->
  cnrm2 n x incX m = Ok (clength2 (Z.to_nat n) (item zero m x incX n)).
Proof. exact cnrm2_ok. Qed.
Print Assumptions C96_cnrm2.
Example C96_cnrm2_ex : inside [mk 1 1; mk 1 (-1)] 0 (-1) 2 /\ cnrm2 2 0 (-1) [mk 1 1; mk 1 (-1)] = Ok 2.
Proof.
  assert (I : inside [mk 1 1; mk 1 (-1)] 0 (-1) 2) by (intros i Hi; unfold elt; change (-1 <? 0)%Z with true; cbn [length]; lia).
  split; [exact I|]. rewrite (C96_cnrm2 _ _ _ _ I). f_equal. unfold clength2, total. change (Z.to_nat 2) with 2%nat. cbn [sum].
  change (item zero [mk 1 1; mk 1 (-1)] 0 (-1) 2 0) with (mk 1 (-1)). change (item zero [mk 1 1; mk 1 (-1)] 0 (-1) 2 1) with (mk 1 1). cbn [re im]. apply root_of; lra.
Qed.

(** Over float and double the result is the length up to 8(n+1) roundings, as soon as the length itself (with this error)
    fits the format: squares that overflow or underflow do no harm. *)
Theorem C96_nrm2_float : forall prec emax (Hp : Prec_gt_0 prec) (Hm : Prec_lt_emax prec emax), (6 <= prec)%Z -> (prec + 3 <= emax)%Z ->
  forall square, good_square prec emax square -> forall n x incX (m : list (binary_float prec emax)), inside m x incX n ->
  64 * INR (Z.to_nat n) * unit_roundoff prec <= 1 ->
  let f := item (fzero prec emax) m x incX n in
  (forall i, (i < Z.to_nat n)%nat -> is_finite (f i) = true) ->
  let len := length2 (Z.to_nat n) (fun i => B2R (f i)) in
  len + nrm2_bound prec emax (Z.to_nat n) len < bpow radix2 emax ->
  exists r, fnrm2 prec emax Hp Hm square n x incX m = Ok r /\ is_finite r = true /\
    Rabs (B2R r - len) <= nrm2_bound prec emax (Z.to_nat n) len.
Proof. intros prec emax Hp Hm P6 PE square SQ n x incX m Hx K f F len L. now apply fnrm2_ok. Qed.
Print Assumptions C96_nrm2_float.
(** The same for complex vectors of at least two elements; a single element goes to std::abs. *)
Theorem C96_cnrm2_float : forall prec emax (Hp : Prec_gt_0 prec) (Hm : Prec_lt_emax prec emax), (6 <= prec)%Z -> (prec + 3 <= emax)%Z ->
  forall square, good_square prec emax square -> forall modulus n x incX (m : list (binary_float prec emax * binary_float prec emax)), inside m x incX n ->
  (2 <= n)%Z -> 128 * INR (Z.to_nat n) * unit_roundoff prec <= 1 ->
  let f := item (fzero prec emax, fzero prec emax) m x incX n in
  (forall i, (i < Z.to_nat n)%nat -> is_finite (fst (f i)) = true /\ is_finite (snd (f i)) = true) ->
  let len := clength2 (Z.to_nat n) (fun i => mk (B2R (fst (f i))) (B2R (snd (f i)))) in
  len + nrm2_bound prec emax (2 * Z.to_nat n) len < bpow radix2 emax ->
  exists r, fcnrm2 prec emax Hp Hm square modulus n x incX m = Ok r /\ is_finite r = true /\
    Rabs (B2R r - len) <= nrm2_bound prec emax (2 * Z.to_nat n) len.
Proof. intros prec emax Hp Hm P6 PE square SQ modulus n x incX m Hx N K f F len L. now apply fcnrm2_ok. Qed.
Print Assumptions C96_cnrm2_float.
(** A square computed by one multiplication is good enough, so the theorems apply to it. *)
Theorem C96_square : forall prec emax (Hp : Prec_gt_0 prec) (Hm : Prec_lt_emax prec emax), (6 <= prec)%Z -> (prec + 3 <= emax)%Z ->
  good_square prec emax (fun r => fmul prec emax Hp Hm r r).
Proof. intros. now apply rounded_square_good. Qed.
Print Assumptions C96_square.
(** (3, 4) * 2^1020: the squares are beyond the range of double, the length is 5 * 2^1020. *)
Definition C96_memory : list (binary_float 53 1024) := map dbl [3 * 2 ^ 1020; 4 * 2 ^ 1020]%Z.
Definition C96_square64 (r : binary_float 53 1024) : binary_float 53 1024 := fmul 53 1024 eq_refl eq_refl r r.
Lemma C96_values : B2R (nth 0 C96_memory (fzero 53 1024)) = 3 * bpow radix2 1020 /\ B2R (nth 1 C96_memory (fzero 53 1024)) = 4 * bpow radix2 1020.
Proof.
  split; rewrite <- SF2R_B2SF; match goal with |- SF2R _ ?b = _ => let c := eval vm_compute in b in replace b with c by (vm_compute; reflexivity) end; unfold SF2R, F2R; cbn [Fnum Fexp cond_Zopp].
  - replace 1020%Z with (51 + 969)%Z by lia. rewrite bpow_plus. rewrite <- Rmult_assoc. f_equal. rewrite <- IZR_Zpower by lia. rewrite <- mult_IZR. reflexivity.
  - replace 1020%Z with (50 + 970)%Z by lia. rewrite bpow_plus. rewrite <- Rmult_assoc. f_equal. rewrite <- IZR_Zpower by lia. rewrite <- mult_IZR. reflexivity.
Qed.
Example C96_nrm2_float_ex : let f := item (fzero 53 1024) C96_memory 0 1 2 in let len := length2 2 (fun i => B2R (f i)) in
  inside C96_memory 0 1 2 /\ 64 * INR 2 * unit_roundoff 53 <= 1 /\ good_square 53 1024 C96_square64 /\
  (forall i, (i < 2)%nat -> is_finite (f i) = true) /\ len = 5 * bpow radix2 1020 /\ len + nrm2_bound 53 1024 2 len < bpow radix2 1024 /\
  omap B2SF (fnrm2 53 1024 eq_refl eq_refl C96_square64 2 0 1 C96_memory) = Ok (B2SF (dbl (5 * 2 ^ 1020))).
Proof.
  intros f len. assert (U : unit_roundoff 53 <= / 1024) by (unfold unit_roundoff; change (/ 1024) with (bpow radix2 (-10)); apply bpow_le; lia).
  assert (E0 : underflow_unit 53 1024 <= bpow radix2 1020).
  { unfold underflow_unit. assert (bpow radix2 (3 - 1024 - 53) <= bpow radix2 1020) by (apply bpow_le; lia). pose proof (bpow_gt_0 radix2 (3 - 1024 - 53)). lra. }
  pose proof (u_pos 53) as U0. pose proof (bpow_gt_0 radix2 1020) as B.
  assert (L : len = 5 * bpow radix2 1020).
  { unfold len, length2, total. cbn [sum]. destruct C96_values as (V0 & V1). change (f 0%nat) with (nth 0 C96_memory (fzero 53 1024)). change (f 1%nat) with (nth 1 C96_memory (fzero 53 1024)). rewrite V0, V1.
    apply root_of; [lra|]. ring. }
  split; [intros i Hi; unfold elt; change (1 <? 0)%Z with false; cbn [length map C96_memory]; lia|].
  split; [change (INR 2) with 2; lra|]. split; [apply (C96_square 53 1024 eq_refl eq_refl); lia|].
  split; [intros i Hi; destruct i as [|[|i]]; [vm_compute; reflexivity|vm_compute; reflexivity|lia]|].
  split; [exact L|]. split.
  - rewrite L. unfold nrm2_bound. change (INR 2) with 2. replace 1024%Z with (4 + 1020)%Z at 2 by lia. rewrite bpow_plus. change (bpow radix2 4) with 16.
    set (t := bpow radix2 1020) in *. assert (unit_roundoff 53 * t <= / 1024 * t) by (apply Rmult_le_compat_r; lra). lra.
  - vm_compute. reflexivity.
Qed.
Example C96_cnrm2_float_ex : omap B2SF (fcnrm2 53 1024 eq_refl eq_refl C96_square64 fst 2 0 1 [(dbl (2 ^ 1020), dbl (- 2 ^ 1020)); (dbl (2 ^ 1020), dbl (2 ^ 1020))])
  = Ok (B2SF (dbl (2 ^ 1021))).
Proof. vm_compute. reflexivity. Qed.

(** ** C97 *)
(** rotg computes the rotation that maps (a, b) to (r, 0). *)
Theorem C97_rotg : forall a b, let '(r, z, c, s) := rrotg a b in
  c * a + s * b = r /\ - s * a + c * b = 0 /\ c * c + s * s = 1 /\ Rabs r = sqrt (a * a + b * b) /\
  (Rabs b < Rabs a -> 0 < c) /\ (Rabs a <= Rabs b -> b <> 0 -> 0 < s).
Proof. exact rotg_rotates. Qed.
Print Assumptions C97_rotg.
Example C97_rotg_ex : forall r z c s, rrotg 3 (-4) = (r, z, c, s) -> r = -5 /\ c = - 3 / 5 /\ s = 4 / 5 /\ z = - 5 / 3.
Proof.
  intros r z c s E. rewrite rrotg_nonzero in E by (left; lra). cbv zeta in E.
  replace (sqrt (3 * 3 + -4 * -4)) with 5 in E by (symmetry; apply root_of; lra).
  rewrite (Rabs_pos_eq 3) in E by lra. rewrite (Rabs_left (-4)) in E by lra.
  replace (rlt (- -4) 3) with false in E by (symmetry; apply rlt_false; lra). replace (rlt (-4) 0) with true in E by (symmetry; apply rlt_true; lra).
  replace (rlt 3 (- -4)) with true in E by (symmetry; apply rlt_true; lra). cbv iota in E. match type of E with context [req ?q 0] => replace (req q 0) with false in E by (symmetry; apply req_false; apply Rmult_integral_contrapositive_currified; [lra|apply Rinv_neq_0_compat; lra]) end.
  cbn [negb andb] in E. injection E as <- <- <- <-. split; [lra|]. split; [field|]. split; field; repeat split; lra.
Qed.
(** The number z left in b stands for the rotation (as in the BLAS standard) unless a and b have equal moduli. *)
Theorem C97_rotg_recover_partial : forall a b, Rabs a <> Rabs b \/ (a = 0 /\ b = 0) ->
  let '(r, z, c, s) := rrotg a b in recover z = (c, s).
Proof. exact rotg_recover. Qed.
Print Assumptions C97_rotg_recover_partial.
Example C97_rotg_recover_ex : Rabs 3 <> Rabs (-4) \/ (3 = 0 /\ -4 = 0).
Proof. left. rewrite Rabs_pos_eq by lra. rewrite Rabs_left by lra. lra. Qed.
(** For equal moduli z is 1, which stands for the rotation (0, 1); the reference BLAS stores 1/c there. *)
Theorem C97_rotg_recover_refuted : forall a b, a <> 0 -> Rabs a = Rabs b ->
  let '(r, z, c, s) := rrotg a b in z = 1 /\ c * c = 1 / 2 /\ recover z <> (c, s).
Proof. exact rotg_equal. Qed.
Print Assumptions C97_rotg_recover_refuted.
Example C97_rotg_recover_refuted_ex : exists r c s, rrotg 1 1 = (r, 1, c, s) /\ recover 1 = (0, 1) /\ c <> 0.
Proof.
  pose proof (C97_rotg_recover_refuted 1 1 ltac:(lra) eq_refl) as H. destruct (rrotg 1 1) as (((r, z), c), s). destruct H as (-> & C & _).
  exists r, c, s. split; [reflexivity|]. split; [unfold recover; now replace (req 1 1) with true by (symmetry; now apply req_true)|]. intros ->. lra.
Qed.
(** The complex rotg: c is real. *)
Theorem C97_crotg : forall a b, let '(r, c, s) := crotg a b in
  add (mul_l c a) (mul s b) = r /\ sub (mul_l c b) (mul (conj s) a) = zero /\ c * c + (re s * re s + im s * im s) = 1 /\ 0 <= c /\
  cabs r = sqrt (cabs a * cabs a + cabs b * cabs b).
Proof. exact crotg_rotates. Qed.
Print Assumptions C97_crotg.
Example C97_crotg_ex : crotg zero (mk 2 1) = (mk 2 1, 0, mk 1 0).
Proof. unfold crotg. replace (req (cabs zero) 0) with true; [reflexivity|]. symmetry. apply req_true. pose proof (cabs_square zero) as H. cbn [re im zero of_real] in H. pose proof (cabs_pos zero). nra. Qed.

(** rot with c^2 + s^2 = 1 turns each pair (x_i, y_i), keeps the sum of squares, touches nothing else, and rot with -s undoes it exactly
    (real numbers). *)
Theorem C97_rot : forall n x incX y incY c s (m : list R), c * c + s * s = 1 ->
  inside m x incX n -> inside m y incY n -> incX <> 0%Z \/ (n <= 1)%Z -> incY <> 0%Z \/ (n <= 1)%Z -> disjoint x incX y incY n ->
  exists m', rrot n x incX y incY c s m = Ok m' /\
    (forall i, (0 <= i < n)%Z -> val 0 m' (elt x incX n i) = c * val 0 m (elt x incX n i) + s * val 0 m (elt y incY n i) /\
                                 val 0 m' (elt y incY n i) = - s * val 0 m (elt x incX n i) + c * val 0 m (elt y incY n i)) /\
    (forall k, (k <= Z.to_nat n)%nat -> total k (fun i => item 0 m' x incX n i * item 0 m' x incX n i + item 0 m' y incY n i * item 0 m' y incY n i) =
       total k (fun i => item 0 m x incX n i * item 0 m x incX n i + item 0 m y incY n i * item 0 m y incY n i)) /\
    rrot n x incX y incY c (- s) m' = Ok m.
Proof. exact rrot_ok. Qed.
Print Assumptions C97_rot.
(** rotg followed by rot on two vectors that start with (a, b) leaves (r, 0) there. *)
Theorem C97_rotg_rot : forall n x incX y incY (m : list R), (1 <= n)%Z ->
  inside m x incX n -> inside m y incY n -> incX <> 0%Z \/ (n <= 1)%Z -> incY <> 0%Z \/ (n <= 1)%Z -> disjoint x incX y incY n ->
  let a := val 0 m (elt x incX n 0) in let b := val 0 m (elt y incY n 0) in let '(r, z, c, s) := rrotg a b in
  exists m', rrot n x incX y incY c s m = Ok m' /\ val 0 m' (elt x incX n 0) = r /\ val 0 m' (elt y incY n 0) = 0.
Proof.
  intros n x incX y incY m N Hx Hy HiX HiY Hd a b. pose proof (C97_rotg a b) as G. destruct (rrotg a b) as (((r, z), c), s). destruct G as (G1 & G2 & G3 & _).
  destruct (C97_rot n x incX y incY c s m G3 Hx Hy HiX HiY Hd) as (m' & E & V & _). exists m'. split; [exact E|]. destruct (V 0%Z ltac:(lia)) as (V1 & V2).
  rewrite V1, V2. split; [exact G1|exact G2].
Qed.
Print Assumptions C97_rotg_rot.
Example C97_rot_ex : let m := [3; 1; 4; 2] in 3 / 5 * (3 / 5) + 4 / 5 * (4 / 5) = 1 /\ inside m 0 1 2 /\ inside m 2 1 2 /\ disjoint 0 1 2 1 2 /\
  rrot 2 0 1 2 1 (3 / 5) (4 / 5) m = Ok [3 / 5 * 3 + 4 / 5 * 4; 3 / 5 * 1 + 4 / 5 * 2; - (4 / 5) * 3 + 3 / 5 * 4; - (4 / 5) * 1 + 3 / 5 * 2].
Proof.
  intros m. split; [lra|]. split; [intros i Hi; unfold elt; change (1 <? 0)%Z with false; cbn [length m]; lia|]. split; [intros i Hi; unfold elt; change (1 <? 0)%Z with false; cbn [length m]; lia|].
  split; [intros i j Hi Hj; unfold elt; change (1 <? 0)%Z with false; cbv iota; lia|]. reflexivity.
Qed.
Theorem C97_crot : forall n x incX y incY c s (m : list cx), c * c + (re s * re s + im s * im s) = 1 ->
  inside m x incX n -> inside m y incY n -> incX <> 0%Z \/ (n <= 1)%Z -> incY <> 0%Z \/ (n <= 1)%Z -> disjoint x incX y incY n ->
  exists m', crot n x incX y incY c s m = Ok m' /\
    (forall i, (0 <= i < n)%Z -> val zero m' (elt x incX n i) = add (mul_l c (val zero m (elt x incX n i))) (mul s (val zero m (elt y incY n i))) /\
                                 val zero m' (elt y incY n i) = sub (mul_l c (val zero m (elt y incY n i))) (mul (conj s) (val zero m (elt x incX n i)))) /\
    (forall k, (k <= Z.to_nat n)%nat -> total k (fun i => norm (item zero m' x incX n i) + norm (item zero m' y incY n i)) =
       total k (fun i => norm (item zero m x incX n i) + norm (item zero m y incY n i))) /\
    crot n x incX y incY c (neg s) m' = Ok m.
Proof. exact crot_ok. Qed.
Print Assumptions C97_crot.
Example C97_crot_ex : let m := [mk 3 0; mk 4 1] in 3 / 5 * (3 / 5) + (0 * 0 + 4 / 5 * (4 / 5)) = 1 /\ inside m 0 1 1 /\ inside m 1 1 1 /\ disjoint 0 1 1 1 1 /\
  crot 1 0 1 1 1 (3 / 5) (mk 0 (4 / 5)) m = Ok [add (mul_l (3 / 5) (mk 3 0)) (mul (mk 0 (4 / 5)) (mk 4 1)); sub (mul_l (3 / 5) (mk 4 1)) (mul (conj (mk 0 (4 / 5))) (mk 3 0))].
Proof.
  intros m. split; [lra|]. split; [intros i Hi; unfold elt; change (1 <? 0)%Z with false; cbn [length m]; lia|]. split; [intros i Hi; unfold elt; change (1 <? 0)%Z with false; cbn [length m]; lia|].
  split; [intros i j Hi Hj; unfold elt; change (1 <? 0)%Z with false; cbv iota; lia|]. reflexivity.
Qed.
(** Unlike nrm2, rotg overflows although the result fits: it scales by |a| + |b|.  For a = b = 2^1023 the length of (a, b) is below
    2^1024, but r, c and s are not numbers (0/0 and 0 * infinity). *)
Theorem C97_rotg_overflow_refuted : exists a b : binary_float 53 1024,
  is_finite a = true /\ is_finite b = true /\ sqrt (B2R a * B2R a + B2R b * B2R b) < 3 / 4 * bpow radix2 1024 /\
  let '(r, z, c, s) := frotg 53 1024 eq_refl eq_refl a b in is_nan r = true /\ is_nan c = true /\ is_nan s = true.
Proof.
  exists (dbl (2 ^ 1023)), (dbl (2 ^ 1023)). split; [vm_compute; reflexivity|]. split; [vm_compute; reflexivity|]. split.
  - assert (V : B2R (dbl (2 ^ 1023)) = bpow radix2 1023).
    { rewrite <- SF2R_B2SF. replace (B2SF (dbl (2 ^ 1023))) with (SpecFloat.S754_finite false 4503599627370496 971) by (vm_compute; reflexivity). unfold SF2R, F2R. cbn [Fnum Fexp cond_Zopp].
      replace 1023%Z with (52 + 971)%Z by lia. rewrite bpow_plus. f_equal. }
    rewrite V. replace 1024%Z with (1 + 1023)%Z by lia. rewrite bpow_plus. change (bpow radix2 1) with 2. pose proof (bpow_gt_0 radix2 1023) as B. set (t := bpow radix2 1023) in *. clearbody t.
    rewrite <- (sqrt_square (3 / 4 * (2 * t))) by lra. apply sqrt_lt_1_alt. assert (0 < t * t) by (apply Rmult_lt_0_compat; auto). lra.
  - assert (Q : (let '(r, z, c, s) := frotg 53 1024 eq_refl eq_refl (dbl (2 ^ 1023)) (dbl (2 ^ 1023)) in is_nan r && is_nan c && is_nan s)%bool = true) by (vm_compute; reflexivity).
    destruct (frotg 53 1024 eq_refl eq_refl (dbl (2 ^ 1023)) (dbl (2 ^ 1023))) as (((r, z), c), s). destruct (is_nan r), (is_nan c), (is_nan s); try discriminate Q; auto.
Qed.
Print Assumptions C97_rotg_overflow_refuted.
