(** C116: Givens rotations of float and double are accurate. *)
From Coq Require Import ZArith Reals List Lia Lra Bool.
From Flocq Require Import Core BinarySingleNaN.
From Verif Require Import Base BlasModel BlasSpec BlasProofs AccModel AccSpec AccProofs NumModel NumBasics NrmModel GrtModel GrtSpec GrtProofs.
From Coq Require Import ZifyNat ZifyN ZifyBool.
Ltac Zify.zify_post_hook ::= idtac.
Import ListNotations.
Local Open Scope R_scope.

Local Notation num64 := (binary_float 53 1024).
Local Notation dbl := (fint 53 1024 eq_refl eq_refl).
Local Notation u := unit_roundoff.
Local Notation eta := underflow_unit.

(** r, c and s: for (a, b) in range none of them overflows; r is the signed length with a relative error of at most six unit roundoffs,
    c and s are the signed cosine and sine with relative errors of at most eight unit roundoffs, or one underflow unit. *)
Theorem C116_rotg : forall prec emax (Hp : Prec_gt_0 prec) (Hm : Prec_lt_emax prec emax), (24 <= prec)%Z -> (3 * prec + 8 <= emax)%Z ->
  forall a b : binary_float prec emax, is_finite a = true -> is_finite b = true -> in_range emax (B2R a) (B2R b) ->
  let L := length2 (B2R a) (B2R b) in let sg := sign_of (B2R a) (B2R b) in let '(r, z, c, s) := frotg prec emax Hp Hm a b in
  (is_finite r = true /\ Rabs (B2R r - sg * L) <= 6 * u prec * L) /\
  (is_finite c = true /\ Rabs (B2R c - sg * (B2R a / L)) <= 8 * u prec * (Rabs (B2R a) / L) + eta prec emax) /\
  (is_finite s = true /\ Rabs (B2R s - sg * (B2R b / L)) <= 8 * u prec * (Rabs (B2R b) / L) + eta prec emax).
Proof. intros prec emax Hp Hm P E. exact (rotg_ok prec emax Hp Hm P E). Qed.
Print Assumptions C116_rotg.
(** r is the double next to -5. *)
Example C116_rotg_ex : in_range 1024 3 (-4) /\ sign_of 3 (-4) = -1 /\
  let '(r, z, c, s) := frotg 53 1024 eq_refl eq_refl (dbl 3) (dbl (-4)) in B2SF r = SpecFloat.S754_finite true 5629499534213119 (-50) /\ is_finite c = true /\ is_finite s = true.
Proof.
  assert (L : length2 3 (-4) = 5) by (unfold length2; replace (3 * 3 + -4 * -4) with (5 * 5) by ring; apply sqrt_square; lra).
  split; [|split].
  - unfold in_range. rewrite L. rewrite (Rabs_pos_eq 3) by lra. rewrite (Rabs_left (-4)) by lra. split.
    + apply Rle_trans with (bpow radix2 0); [apply bpow_le; lia|simpl; lra].
    + apply Rle_trans with (bpow radix2 3); [simpl; lra|apply bpow_le; lia].
  - unfold sign_of. rewrite (Rabs_pos_eq 3) by lra. rewrite (Rabs_left (-4)) by lra. destruct (Rlt_dec (- -4) 3); [lra|]. destruct (Rlt_dec (-4) 0); lra.
  - vm_compute. repeat split; reflexivity.
Qed.

(** What one expects of a rotation: it is orthogonal up to twenty unit roundoffs, maps (a, b) to (r, 0) up to sixteen and ten unit roundoffs
    of the length. *)
Theorem C116_rotation : forall prec emax (Hp : Prec_gt_0 prec) (Hm : Prec_lt_emax prec emax), (24 <= prec)%Z -> (3 * prec + 8 <= emax)%Z ->
  forall a b : binary_float prec emax, is_finite a = true -> is_finite b = true -> in_range emax (B2R a) (B2R b) ->
  let L := length2 (B2R a) (B2R b) in let '(r, z, c, s) := frotg prec emax Hp Hm a b in
  Rabs (B2R c * B2R c + B2R s * B2R s - 1) <= 20 * u prec /\
  Rabs (B2R c * B2R b - B2R s * B2R a) <= 10 * u prec * L /\
  Rabs (B2R c * B2R a + B2R s * B2R b - B2R r) <= 16 * u prec * L.
Proof.
  intros prec emax Hp Hm P E a b FA FB IR L. pose proof (C116_rotg prec emax Hp Hm P E a b FA FB IR) as G. cbv zeta in G. fold L in G.
  destruct (frotg prec emax Hp Hm a b) as (((r, z), c), s). destruct G as ((_ & HR) & (_ & HC) & (_ & HS)).
  apply (consequences prec emax P E L (B2R a) (B2R b) (sign_of (B2R a) (B2R b))); auto.
  - unfold L. destruct IR as [IR _]. pose proof (bpow_gt_0 radix2 (7 - emax)). lra.
  - apply length_square.
  - apply sign_square.
Qed.
Print Assumptions C116_rotation.
(** Neither c nor s is exact here: c is the double next to 1/sqrt 5. *)
Example C116_rotation_ex : let '(r, z, c, s) := frotg 53 1024 eq_refl eq_refl (dbl 1) (dbl 2) in
  B2SF c = SpecFloat.S754_finite false 8056283928194521 (-54) /\ B2SF s = SpecFloat.S754_finite false 8056283928194521 (-53).
Proof. vm_compute. split; reflexivity. Qed.

(** The rotation of (0, 0) is the identity. *)
Theorem C116_zero : forall prec emax (Hp : Prec_gt_0 prec) (Hm : Prec_lt_emax prec emax) (a b : binary_float prec emax),
  is_finite a = true -> is_finite b = true -> B2R a = 0 -> B2R b = 0 ->
  frotg prec emax Hp Hm a b = (fzero prec emax, fzero prec emax, fone prec emax Hp Hm, fzero prec emax).
Proof.
  intros prec emax Hp Hm a b FA FB A B. destruct a as [sa|sa| |sa ma ea Ba]; try discriminate FA.
  - destruct b as [sb|sb| |sb mb eb Bb]; try discriminate FB; [reflexivity|].
    exfalso. cbn [B2R] in B. apply F2R_eq_0_reg in B || apply eq_0_F2R in B. destruct sb; discriminate B.
  - exfalso. cbn [B2R] in A. apply F2R_eq_0_reg in A || apply eq_0_F2R in A. destruct sa; discriminate A.
Qed.
Print Assumptions C116_zero.
Example C116_zero_ex : let '(r, z, c, s) := frotg 53 1024 eq_refl eq_refl (dbl 0) (Bopp (dbl 0)) in B2SF r = SpecFloat.S754_zero false /\ B2SF c = B2SF (dbl 1).
Proof. vm_compute. split; reflexivity. Qed.

(** rot with any finite c and s, on two vectors of any length and strides that do not overlap: nothing else changes, and a pair of finite
    elements whose products fit becomes finite, with an error of at most three unit roundoffs of the sum of the moduli of the products
    and three underflow units. *)
Theorem C116_rot : forall prec emax (Hp : Prec_gt_0 prec) (Hm : Prec_lt_emax prec emax), (24 <= prec)%Z -> (3 * prec + 8 <= emax)%Z ->
  forall d n x incX y incY (c s : binary_float prec emax) m, is_finite c = true -> is_finite s = true ->
  inside m x incX n -> inside m y incY n -> incX <> 0%Z \/ (n <= 1)%Z -> incY <> 0%Z \/ (n <= 1)%Z -> disjoint x incX y incY n ->
  exists m', frot prec emax Hp Hm n x incX y incY c s m = Ok m' /\ changes d m m' (fun p => in_vector x incX n p \/ in_vector y incY n p) /\
    forall i, (0 <= i < n)%Z -> let xi := val d m (elt x incX n i) in let yi := val d m (elt y incY n i) in
      let xi' := val d m' (elt x incX n i) in let yi' := val d m' (elt y incY n i) in is_finite xi = true -> is_finite yi = true ->
      (let w := Rabs (B2R c * B2R xi) + Rabs (B2R s * B2R yi) in w <= 3 / 2 * bpow radix2 (emax - 2) ->
         is_finite xi' = true /\ Rabs (B2R xi' - (B2R c * B2R xi + B2R s * B2R yi)) <= 3 * u prec * w + 3 * eta prec emax) /\
      (let w := Rabs (B2R s * B2R xi) + Rabs (B2R c * B2R yi) in w <= 3 / 2 * bpow radix2 (emax - 2) ->
         is_finite yi' = true /\ Rabs (B2R yi' - (B2R c * B2R yi - B2R s * B2R xi)) <= 3 * u prec * w + 3 * eta prec emax).
Proof.
  intros prec emax Hp Hm P E d n x incX y incY c s m FC FS Hx Hy HiX HiY Hd.
  destruct (write_xy d (fun v w => fadd prec emax Hp Hm (fmul prec emax Hp Hm c v) (fmul prec emax Hp Hm s w))
    (fun v w => fadd prec emax Hp Hm (fmul prec emax Hp Hm (fneg prec emax s) v) (fmul prec emax Hp Hm c w)) n x incX y incY m Hx Hy HiX HiY Hd) as (m' & K & V & C).
  exists m'. split; [exact K|]. split; [exact C|]. intros i Hi xi yi xi' yi' F1 F2. destruct (V i Hi) as [V1 V2]. fold xi yi in V1, V2. unfold xi', yi'. rewrite V1, V2.
  cbv zeta. split; intros W.
  - exact (two_products prec emax Hp Hm P E c xi s yi FC F1 FS F2 W).
  - set (w := Rabs (B2R s * B2R xi) + Rabs (B2R c * B2R yi)) in *. assert (FN : is_finite (fneg prec emax s) = true) by (unfold fneg; rewrite is_finite_Bopp; exact FS).
    assert (VN : B2R (fneg prec emax s) = - B2R s) by (unfold fneg; apply B2R_Bopp).
    assert (WE : w = Rabs (B2R (fneg prec emax s) * B2R xi) + Rabs (B2R c * B2R yi)) by (rewrite VN, Ropp_mult_distr_l_reverse, Rabs_Ropp; reflexivity).
    rewrite WE in W. destruct (two_products prec emax Hp Hm P E _ xi c yi FN F1 FC F2 W) as [G B]. split; [exact G|]. rewrite <- WE in B.
    replace (B2R c * B2R yi - B2R s * B2R xi) with (B2R (fneg prec emax s) * B2R xi + B2R c * B2R yi) by (rewrite VN; ring). exact B.
Qed.
Print Assumptions C116_rot.
Example C116_rot_ex : match frot 53 1024 eq_refl eq_refl 2 0 1 2 (-1) (dbl 3) (dbl 4) [dbl 1; dbl 2; dbl 5; dbl 7] with
  Ok m => map B2SF m = map (fun k => B2SF (dbl k)) [31; 26; 7; 17]%Z | _ => False end.
Proof. vm_compute. reflexivity. Qed.

(** rotg and then rot on two vectors that start with (a, b): the first element becomes r up to twenty unit roundoffs of the length, and the
    element to be annihilated is left below fourteen. *)
Theorem C116_annihilates : forall prec emax (Hp : Prec_gt_0 prec) (Hm : Prec_lt_emax prec emax), (24 <= prec)%Z -> (3 * prec + 8 <= emax)%Z ->
  forall d n x incX y incY (m : list (binary_float prec emax)), (1 <= n)%Z ->
  inside m x incX n -> inside m y incY n -> incX <> 0%Z \/ (n <= 1)%Z -> incY <> 0%Z \/ (n <= 1)%Z -> disjoint x incX y incY n ->
  let a := val d m (elt x incX n 0) in let b := val d m (elt y incY n 0) in is_finite a = true -> is_finite b = true -> in_range emax (B2R a) (B2R b) ->
  let L := length2 (B2R a) (B2R b) in let '(r, z, c, s) := frotg prec emax Hp Hm a b in
  exists m', frot prec emax Hp Hm n x incX y incY c s m = Ok m' /\
    let a' := val d m' (elt x incX n 0) in let b' := val d m' (elt y incY n 0) in
    is_finite a' = true /\ is_finite b' = true /\ Rabs (B2R a' - B2R r) <= 20 * u prec * L /\ Rabs (B2R b') <= 14 * u prec * L.
Proof.
  intros prec emax Hp Hm P E d n x incX y incY m N Hx Hy HiX HiY Hd a b FA FB IR L.
  destruct (frotg prec emax Hp Hm a b) as (((r, z), c), s) eqn:K. destruct (applied prec emax Hp Hm P E a b r z c s FA FB IR K) as [[A1 A2] [B1 B2]].
  destruct (write_xy d (fun v w => fadd prec emax Hp Hm (fmul prec emax Hp Hm c v) (fmul prec emax Hp Hm s w))
    (fun v w => fadd prec emax Hp Hm (fmul prec emax Hp Hm (fneg prec emax s) v) (fmul prec emax Hp Hm c w)) n x incX y incY m Hx Hy HiX HiY Hd) as (m' & Q & V & _).
  exists m'. split; [exact Q|]. destruct (V 0%Z ltac:(lia)) as [V1 V2]. fold a b in V1, V2. cbv zeta. rewrite V1, V2. auto.
Qed.
Print Assumptions C116_annihilates.
Example C116_annihilates_ex : let '(r, z, c, s) := frotg 53 1024 eq_refl eq_refl (dbl 3) (dbl 4) in
  match frot 53 1024 eq_refl eq_refl 1 0 1 1 1 c s [dbl 3; dbl 4] with Ok [a; b] => B2SF a = SpecFloat.S754_finite false 5629499534213121 (-50) /\ is_finite b = true | _ => False end.
Proof. vm_compute. split; reflexivity. Qed.

(** The number z that stands for the rotation is not covered by the range: a and b in range can give an infinite z (1 / c overflows), from
    which c and s cannot be recovered. *)
Theorem C116_z_refuted : exists a b : num64, is_finite a = true /\ is_finite b = true /\ in_range 1024 (B2R a) (B2R b) /\
  let '(r, z, c, s) := frotg 53 1024 eq_refl eq_refl a b in B2SF z = SpecFloat.S754_infinity false /\ is_finite c = true /\ B2SF c <> SpecFloat.S754_zero false.
Proof.
  set (t := fdiv 53 1024 eq_refl eq_refl (dbl 1) (fmul 53 1024 eq_refl eq_refl (dbl (2 ^ 1000)) (dbl 1))).
  set (a := fdiv 53 1024 eq_refl eq_refl t (dbl (2 ^ 60))). exists a, (dbl 1).
  assert (VA : B2SF a = SpecFloat.S754_finite false 16384 (-1074)) by (vm_compute; reflexivity).
  assert (RA : B2R a = bpow radix2 (-1060)).
  { rewrite <- SF2R_B2SF, VA. unfold SF2R, F2R. cbn [Fnum Fexp cond_Zopp]. replace (-1060)%Z with (14 + -1074)%Z by lia. rewrite bpow_plus. f_equal. }
  assert (R1 : B2R (dbl 1) = 1) by (rewrite <- SF2R_B2SF; replace (B2SF (dbl 1)) with (SpecFloat.S754_finite false 4503599627370496 (-52)) by (vm_compute; reflexivity);
    unfold SF2R, F2R; cbn [Fnum Fexp cond_Zopp]; simpl; lra).
  split; [vm_compute; reflexivity|]. split; [vm_compute; reflexivity|]. split.
  - rewrite RA, R1. assert (B : 0 < bpow radix2 (-1060) <= 1) by (split; [apply bpow_gt_0|apply (bpow_le radix2 (-1060) 0); lia]). unfold in_range, length2. split.
    + apply Rle_trans with (sqrt 1); [rewrite sqrt_1; apply (bpow_le radix2 _ 0); lia|]. apply sqrt_le_1_alt. pose proof (Rle_0_sqr (bpow radix2 (-1060))) as Q. unfold Rsqr in Q. lra.
    + rewrite !Rabs_pos_eq by lra. apply Rle_trans with (bpow radix2 1); [simpl; lra|apply bpow_le; lia].
  - vm_compute. split; [reflexivity|]. split; [reflexivity|discriminate].
Qed.
Print Assumptions C116_z_refuted.
