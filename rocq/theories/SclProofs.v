(** Proofs for C105. *)
From Coq Require Import ZArith Reals List Lia Lra Bool.
From Flocq Require Import Core Relative BinarySingleNaN.
From Verif Require Import Base BaseProofs ShapeModel ShapeSpec ShapeProofs ViewModel ViewSpec ViewProofs.
From Verif Require Import MatmulModel MatmulSpec MatmulProofs AccModel AccSpec AccLinear AccProofs NumModel NumSpec NumBasics SclSpec.
From Coq Require Import ZifyNat ZifyN ZifyBool.
Ltac Zify.zify_post_hook ::= idtac.
Import ListNotations.
Local Open Scope R_scope.

Section Update.
Variables prec emax : Z.
Context (Hp : Prec_gt_0 prec) (Hm : Prec_lt_emax prec emax).
Local Notation num := (binary_float prec emax).
Local Notation fzero := (fzero prec emax).
Local Notation fone := (fone prec emax Hp Hm).
Local Notation fadd := (fadd prec emax Hp Hm).
Local Notation fmul := (fmul prec emax Hp Hm).
Local Notation fis_zero := (fis_zero prec emax).
Local Notation rn := (nearest prec emax).
Local Notation u := (unit_roundoff prec).
Local Notation eta := (underflow_unit prec emax).
Local Notation update_bound := (@SclSpec.update_bound prec emax).
Local Notation update_size := (@SclSpec.update_size prec emax).
Local Notation big := (bpow radix2 emax).
Local Notation format := (generic_format radix2 (FLT_exp (3 - emax - prec) prec)).

Lemma rn_u x : Rabs (rn x - x) <= u * Rabs x + eta.
Proof. eapply Rle_trans; [apply rn_err; auto|]. pose proof (Rmult_le_compat_r (Rabs x) _ _ (Rabs_pos x) (v_le prec)). lra. Qed.
Lemma add_u x y : format x -> format y -> Rabs (rn (x + y) - (x + y)) <= u * Rabs (x + y).
Proof.
  intros Fx Fy. eapply Rle_trans; [apply (add_rel prec emax Hp _ _ Fx Fy)|]. apply Rmult_le_compat_r; [apply Rabs_pos|apply v_le].
Qed.
Lemma fmul_1_r (x : num) : is_finite (fmul x fone) = is_finite x /\ (is_finite x = true -> B2R (fmul x fone) = B2R x).
Proof.
  destruct (is_finite x) eqn:F.
  - destruct (fmul_small prec emax Hp Hm x fone F (fone_finite prec emax Hp Hm)) as [G V].
    + rewrite fone_1, Rmult_1_r, rn_id by apply num_format. apply abs_B2R_lt_emax.
    + split; [exact G|]. intros _. rewrite V, fone_1, Rmult_1_r. apply rn_id, num_format.
  - split; [|discriminate]. destruct (is_finite (fmul x fone)) eqn:G; [|reflexivity]. apply fmul_finite in G. destruct G as [G _]. congruence.
Qed.

(** The scaled old value *)
Definition good_old (beta c q : num) : Prop :=
  (is_finite q = true -> old_finite beta c /\ Rabs (B2R q - old_part beta c) <= u * Rabs (old_part beta c) + eta) /\
  (old_finite beta c -> (1 + u) * Rabs (old_part beta c) + eta < big -> is_finite q = true) /\
  (old_finite beta c -> integral (old_part beta c) -> Rabs (old_part beta c) <= bpow radix2 prec -> is_finite q = true /\ B2R q = old_part beta c).

Lemma scaled_old beta c : good_old beta c (scaled fzero fmul fis_zero beta c).
Proof.
  pose proof (u_pos prec) as U. pose proof (eta_pos prec emax) as ET. unfold good_old, old_finite, old_part, scaled.
  assert (BP : bpow radix2 prec < big) by (apply bpow_lt; exact Hm).
  destruct (fis_zero beta) eqn:Z.
  - rewrite Rabs_R0. cbn [B2R]. split; [|split].
    + intros _. split; [discriminate|]. unfold AccModel.fzero. cbn [B2R]. rewrite Rminus_0_r, Rabs_R0. lra.
    + reflexivity.
    + intros _ _ _. split; reflexivity.
  - set (p := B2R beta * B2R c). assert (C : B2R c * B2R beta = p) by (unfold p; ring). split; [|split].
    + intros F. apply fmul_finite in F. destruct F as (F1 & F2 & V). split; [auto|]. rewrite V, C. apply rn_u.
    + intros O L. destruct (O eq_refl) as [F1 F2]. apply fmul_small; auto. rewrite C. eapply Rle_lt_trans; [|exact L].
      pose proof (near_abs _ _ _ (rn_u p)). lra.
    + intros O I L. destruct (O eq_refl) as [F1 F2].
      assert (R : rn p = p) by (apply rn_id, (integral_format prec emax Hp _ Hm); auto).
      destruct (fmul_small prec emax Hp Hm c beta F2 F1) as [G V]; [rewrite C, R; lra|]. split; [exact G|]. rewrite V, C. exact R.
Qed.
Lemma good_once beta c q : good_old beta c q -> good_old beta c (scaled fzero fmul fis_zero fone q).
Proof.
  intros (G1 & G2 & G3). unfold scaled. rewrite fone_not_zero. destruct (fmul_1_r q) as [F V]. unfold good_old. rewrite F. split; [|split].
  - intros Q. rewrite V by exact Q. auto.
  - auto.
  - intros O I L. destruct (G3 O I L) as [Q E]. split; [exact Q|]. now rewrite V.
Qed.

(** The update *)
Lemma update_nothing alpha a b beta c q : good_old beta c q -> updated 0 alpha a b beta c q.
Proof.
  intros (G1 & G2 & G3). pose proof (u_pos prec) as U. pose proof (eta_pos prec emax) as ET. unfold updated.
  change (total 0 _) with 0. change (total 0 _) with 0.
  assert (DB : dot_bound prec emax 0 0 = 0) by (unfold dot_bound; cbn [INR]; ring).
  unfold SclSpec.update_bound, SclSpec.update_size. rewrite DB, !Rplus_0_r, !Rmult_0_r, !Rplus_0_l. cbv zeta.
  set (o := old_part beta c) in *. pose proof (Rabs_pos o) as O0.
  assert (UO : 0 <= u * Rabs o) by (apply Rmult_le_pos; lra).
  assert (UU : 0 <= u * u * Rabs o) by (apply Rmult_le_pos; [apply Rmult_le_pos; lra|lra]).
  assert (UE : 0 <= u * eta) by (apply Rmult_le_pos; lra).
  split; [|split].
  - intros F. destruct (G1 F) as [O B]. split; [split; [intros i; lia|exact O]|]. split; [lia|]. eapply Rle_trans; [exact B|]. lra.
  - intros [_ O] _ _ L. apply G2; [exact O|]. lra.
  - intros [_ O] _ _ I _ _ L. now apply G3.
Qed.

Lemma update_ok n alpha a b beta c q d : good_old beta c q -> accurate n a b d -> updated n alpha a b beta c (fadd q (fmul alpha d)).
Proof.
  intros (G1 & G2 & G3) (D1 & D2 & D3). pose proof (u_pos prec) as U. pose proof (eta_pos prec emax) as ET.
  unfold updated, accurate in *. cbv zeta in *.
  set (t := total n (fun i => B2R (a i) * B2R (b i))) in *. set (s := total n (fun i => Rabs (B2R (a i) * B2R (b i)))) in *.
  set (o := old_part beta c) in *. set (D := dot_bound prec emax n s) in *.
  pose proof (Rabs_pos o) as O0. pose proof (Rabs_pos (B2R alpha)) as A0.
  assert (TS : Rabs t <= s) by apply total_abs.
  assert (BP : bpow radix2 prec < big) by (apply bpow_lt; exact Hm).
  set (al := B2R alpha) in *.
  (* errors for given finite intermediate values *)
  assert (ERR : forall x y z, format x -> format y -> Rabs (x - t) <= D -> Rabs (y - o) <= u * Rabs o + eta ->
    z = rn (y + rn (al * x)) -> Rabs (rn (al * x)) <= (1 + u) * (Rabs al * (s + D)) + eta /\
      Rabs (z - (al * t + o)) <= update_bound n al s (Rabs o)).
  { intros x y z Fx Fy Ex Ey ->. set (p := rn (al * x)).
    assert (X : Rabs x <= s + D) by (pose proof (near_abs _ _ _ Ex); lra).
    assert (AX : Rabs (al * x) <= Rabs al * (s + D)) by (rewrite Rabs_mult; apply Rmult_le_compat_l; auto).
    pose proof (rn_u (al * x)) as EP. fold p in EP.
    assert (UX : u * Rabs (al * x) <= u * (Rabs al * (s + D))) by (apply Rmult_le_compat_l; lra).
    assert (P : Rabs p <= (1 + u) * (Rabs al * (s + D)) + eta) by (pose proof (near_abs _ _ _ EP); lra).
    split; [exact P|].
    assert (Y : Rabs y <= (1 + u) * Rabs o + eta) by (pose proof (near_abs _ _ _ Ey); lra).
    assert (FP : format p) by (unfold p; apply rn_format; auto).
    pose proof (add_u y p Fy FP) as EZ.
    assert (YP : u * Rabs (y + p) <= u * (((1 + u) * Rabs o + eta) + ((1 + u) * (Rabs al * (s + D)) + eta))).
    { apply Rmult_le_compat_l; [lra|]. eapply Rle_trans; [apply Rabs_triang|]. lra. }
    assert (AT : Rabs (al * x - al * t) <= Rabs al * D).
    { replace (al * x - al * t) with (al * (x - t)) by ring. rewrite Rabs_mult. apply Rmult_le_compat_l; auto. }
    replace (rn (y + p) - (al * t + o)) with ((rn (y + p) - (y + p)) + ((y - o) + ((p - al * x) + (al * x - al * t)))) by ring.
    eapply Rle_trans; [apply Rabs_triang|]. eapply Rle_trans; [apply Rplus_le_compat_l, Rabs_triang|].
    eapply Rle_trans; [apply Rplus_le_compat_l, Rplus_le_compat_l, Rabs_triang|].
    unfold SclSpec.update_bound, SclSpec.update_size. fold D. set (W := Rabs al * (s + D)) in *. cbv zeta.
    replace (Rabs al * D + u * (2 + u) * (W + Rabs o) + 2 * (1 + u) * eta)
      with (u * (((1 + u) * Rabs o + eta) + ((1 + u) * W + eta)) + ((u * Rabs o + eta) + ((u * W + eta) + Rabs al * D))) by ring.
    lra. }
  split; [|split].
  - intros F. apply fadd_finite in F. destruct F as (FQ & FM & V). apply fmul_finite in FM. destruct FM as (FA & FD & VM).
    destruct (D1 FD) as [I1 E1]. destruct (G1 FQ) as [I2 E2]. split; [auto|]. split; [auto|].
    apply (ERR (B2R d) (B2R q)); auto; try apply num_format. rewrite V, VM. reflexivity.
  - intros [I1 I2] FA LS LX. assert (UB : 0 <= update_bound n al s (Rabs o)).
    { unfold SclSpec.update_bound, SclSpec.update_size. fold D. assert (D0 : 0 <= D).
      { unfold D. replace 0 with (dot_bound prec emax 0 0) by (unfold dot_bound; cbn [INR]; ring). apply bound_mono; [lia|].
        split; [lra|apply total_nonneg]. }
      assert (S0 : 0 <= s) by apply total_nonneg.
      assert (W1 : 0 <= Rabs al * D) by (apply Rmult_le_pos; lra). assert (W2 : 0 <= Rabs al * (s + D)) by (apply Rmult_le_pos; lra).
      assert (W3 : 0 <= u * (2 + u) * (Rabs al * (s + D) + Rabs o)) by (apply Rmult_le_pos; [apply Rmult_le_pos; lra|lra]).
      assert (W4 : 0 <= 2 * (1 + u) * eta) by (apply Rmult_le_pos; lra). cbv zeta. lra. }
    assert (S0 : 0 <= s) by apply total_nonneg.
    assert (D0 : 0 <= D).
    { unfold D. replace 0 with (dot_bound prec emax 0 0) by (unfold dot_bound; cbn [INR]; ring). apply bound_mono; [lia|lra]. }
    assert (W2 : 0 <= Rabs al * (s + D)) by (apply Rmult_le_pos; lra).
    assert (W1 : 0 <= Rabs al * D) by (apply Rmult_le_pos; lra).
    unfold SclSpec.update_bound, SclSpec.update_size in LX. fold D in LX. cbv zeta in LX.
    assert (U1 : 0 <= u * (Rabs al * (s + D))) by (apply Rmult_le_pos; lra).
    assert (U2 : 0 <= u * u * (Rabs al * (s + D))) by (apply Rmult_le_pos; [apply Rmult_le_pos|]; lra).
    assert (U3 : 0 <= u * Rabs o) by (apply Rmult_le_pos; lra).
    assert (U4 : 0 <= u * u * Rabs o) by (apply Rmult_le_pos; [apply Rmult_le_pos|]; lra).
    assert (U5 : 0 <= u * eta) by (apply Rmult_le_pos; lra).
    assert (FD : is_finite d = true) by (apply D2; auto).
    assert (FQ : is_finite q = true) by (apply G2; [exact I2|lra]).
    destruct (D1 FD) as [_ E1]. destruct (G1 FQ) as [_ E2].
    destruct (ERR (B2R d) (B2R q) _ (num_format prec emax d) (num_format prec emax q) E1 E2 eq_refl) as [P E].
    destruct (fmul_small prec emax Hp Hm alpha d FA FD) as [FM VM]; [fold al; lra|]. fold al in VM.
    apply fadd_small; auto. rewrite VM. eapply Rle_lt_trans; [apply (near_abs _ _ _ E)|].
    assert (AT : Rabs (al * t + o) <= Rabs al * (s + D) + Rabs o).
    { eapply Rle_trans; [apply Rabs_triang|]. apply Rplus_le_compat_r. rewrite Rabs_mult. apply Rmult_le_compat_l; lra. }
    unfold SclSpec.update_bound, SclSpec.update_size. fold D. cbv zeta. lra.
  - intros [I1 I2] FA IA IO II LS LX.
    assert (S0 : 0 <= s) by apply total_nonneg.
    assert (W : 0 <= Rabs al * s) by (apply Rmult_le_pos; lra).
    destruct D3 as [FD VD]; [intros i Hi; destruct (I1 i Hi), (II i Hi); auto|exact LS|].
    destruct (G3 I2 IO ltac:(lra)) as [FQ VQ].
    assert (IT : integral t).
    { apply integral_total. intros i Hi. destruct (II i Hi) as ((x & X) & (y & Y)). exists (x * y)%Z. now rewrite X, Y, mult_IZR. }
    assert (IP : integral (al * t)).
    { destruct IA as (x & X). destruct IT as (y & Y). exists (x * y)%Z. now rewrite X, Y, mult_IZR. }
    assert (LP : Rabs (al * t) <= Rabs al * s) by (rewrite Rabs_mult; apply Rmult_le_compat_l; lra).
    assert (RP : rn (al * t) = al * t) by (apply rn_id, (integral_format prec emax Hp _ Hm); [exact IP|lra]).
    destruct (fmul_small prec emax Hp Hm alpha d FA FD) as [FM VM]; [fold al; rewrite VD, RP; lra|]. fold al in VM. rewrite VD, RP in VM.
    assert (LZ : Rabs (o + al * t) <= bpow radix2 prec) by (eapply Rle_trans; [apply Rabs_triang|lra]).
    assert (RZ : rn (o + al * t) = o + al * t).
    { apply rn_id, (integral_format prec emax Hp _ Hm); [|exact LZ]. destruct IO as (x & X). destruct IP as (y & Y).
      exists (x + y)%Z. now rewrite X, Y, plus_IZR. }
    destruct (fadd_small prec emax Hp Hm q (fmul alpha d) FQ FM) as [F V]; [rewrite VQ, VM, RZ; lra|].
    split; [exact F|]. rewrite V, VQ, VM, RZ. ring.
Qed.

(** ** The product of the factors *)
Lemma pow_pair n : 2 <= (1 + u) ^ n + (1 - u) ^ n /\ (1 - u) ^ n <= (1 + u) ^ n.
Proof.
  pose proof (u_pos prec) as U. pose proof (u_le_1 prec Hp) as U1. induction n as [|n [I1 I2]]; cbn [pow]; [lra|].
  assert (0 <= (1 - u) ^ n) by (apply pow_le; lra).
  assert (0 <= u * ((1 + u) ^ n - (1 - u) ^ n)) by (apply Rmult_le_pos; lra).
  assert (0 <= u * (1 + u) ^ n) by (apply Rmult_le_pos; lra). assert (0 <= u * (1 - u) ^ n) by (apply Rmult_le_pos; lra).
  split; lra.
Qed.
Lemma pow_low n : 1 - INR n * u <= (1 - u) ^ n.
Proof.
  pose proof (u_pos prec) as U. pose proof (u_le_1 prec Hp) as U1. induction n as [|n IH]; [cbn; lra|]. rewrite S_INR. cbn [pow].
  assert (0 <= u * u * INR n) by (apply Rmult_le_pos; [apply Rmult_le_pos; lra|apply pos_INR]).
  assert ((1 - u) * (1 - INR n * u) <= (1 - u) * (1 - u) ^ n) by (apply Rmult_le_compat_l; lra). lra.
Qed.
Definition within (n : nat) (x y : R) : Prop := exists e, x = y * e /\ (1 - u) ^ n <= e <= (1 + u) ^ n.
Lemma within_err n x y : within n x y -> Rabs (x - y) <= ((1 + u) ^ n - 1) * Rabs y.
Proof.
  intros (e & -> & E). replace (y * e - y) with ((e - 1) * y) by ring. rewrite Rabs_mult. apply Rmult_le_compat_r; [apply Rabs_pos|].
  pose proof (pow_pair n) as [P _]. apply Rabs_le. lra.
Qed.
Lemma within_mul n m x y x' y' : within n x y -> within m x' y' -> within (n + m) (x * x') (y * y').
Proof.
  intros (e & -> & E) (f & -> & F). exists (e * f). split; [ring|]. rewrite !pow_add. pose proof (u_le_1 prec Hp) as U1.
  assert (0 <= (1 - u) ^ n) by (apply pow_le; lra). assert (0 <= (1 - u) ^ m) by (apply pow_le; lra).
  split; apply Rmult_le_compat; lra.
Qed.
Lemma within_refl x : within 0 x x.
Proof. exists 1. cbn. lra. Qed.
Lemma normal_rel x : bpow radix2 (2 - emax) <= Rabs x -> Rabs (rn x - x) <= u * Rabs x.
Proof.
  intros H. eapply Rle_trans.
  - apply (relative_error_N_FLT radix2 (3 - emax - prec) prec Hp (fun z => negb (Z.even z)) x).
    now replace (3 - emax - prec + prec - 1)%Z with (2 - emax)%Z by ring.
  - apply Rmult_le_compat_r; [apply Rabs_pos|]. unfold unit_roundoff. change (/ 2) with (bpow radix2 (-1)). rewrite <- bpow_plus.
    apply bpow_le. lia.
Qed.
Lemma within_rn n x y : within n x y -> INR n * u <= / 2 -> bpow radix2 (3 - emax) <= Rabs y -> within (S n) (rn x) y.
Proof.
  intros (e & -> & E) N L. pose proof (u_pos prec) as U. pose proof (u_le_1 prec Hp) as U1. pose proof (pow_low n) as PL.
  assert (E0 : / 2 <= e) by lra.
  assert (LX : bpow radix2 (2 - emax) <= Rabs (y * e)).
  { rewrite Rabs_mult, (Rabs_pos_eq e) by lra. apply Rle_trans with (bpow radix2 (3 - emax) * / 2).
    - change (/ 2) with (bpow radix2 (-1)). rewrite <- bpow_plus. apply bpow_le. lia.
    - apply Rmult_le_compat; [apply bpow_ge_0|lra|auto|auto]. }
  pose proof (normal_rel _ LX) as R. assert (Y : y * e <> 0).
  { intros Z. rewrite Z, Rabs_R0 in LX. pose proof (bpow_gt_0 radix2 (2 - emax)). lra. }
  set (g := rn (y * e) / (y * e)). assert (G : rn (y * e) = y * e * g) by (unfold g, Rdiv; rewrite (Rmult_comm (y * e)), Rmult_assoc, Rinv_l by exact Y; lra).
  assert (GB : Rabs (g - 1) <= u).
  { apply Rmult_le_reg_r with (Rabs (y * e)); [now apply Rabs_pos_lt|]. rewrite <- Rabs_mult.
    replace ((g - 1) * (y * e)) with (rn (y * e) - y * e) by (rewrite G; ring). exact R. }
  apply Rabs_le_inv in GB. exists (e * g). split; [rewrite G; ring|]. cbn [pow]. rewrite (Rmult_comm (1 - u)), (Rmult_comm (1 + u)).
  assert (0 <= (1 - u) ^ n) by (apply pow_le; lra). split; apply Rmult_le_compat; lra.
Qed.
Lemma product_ok (l : list num) : is_finite (product fone fmul l) = true -> large_products l -> INR (length l) * u <= / 2 ->
  within (length l) (B2R (product fone fmul l)) (real_product l).
Proof.
  pose proof (u_pos prec) as U. induction l as [|x l IH]; intros F L N.
  - cbn. exists 1. cbn. rewrite fone_1. lra.
  - unfold product in F |- *. cbn [fold_right] in F |- *. fold (product fone fmul l) in F |- *.
    apply fmul_finite in F. destruct F as (F1 & F2 & V). rewrite V. destruct L as [L1 L2]. cbn [length] in *. rewrite S_INR in N.
    assert (N' : INR (length l) * u <= / 2) by lra.
    apply within_rn; auto. change (real_product (x :: l)) with (B2R x * real_product l).
    apply (within_mul 0 (length l)); [apply within_refl|auto].
Qed.
Lemma factors_ok (l m : list num) : let phi := fmul (product fone fmul l) (product fone fmul m) in
  is_finite phi = true -> large_products l -> large_products m -> bpow radix2 (3 - emax) <= Rabs (real_product l * real_product m) ->
  INR (length l + length m) * u <= / 2 ->
  Rabs (B2R phi - real_product l * real_product m) <= ((1 + u) ^ (length l + length m + 1) - 1) * Rabs (real_product l * real_product m).
Proof.
  intros phi F L M B N. unfold phi in *. clear phi. apply fmul_finite in F. destruct F as (F1 & F2 & V). pose proof (u_pos prec) as U.
  rewrite plus_INR in N. pose proof (pos_INR (length l)) as P1. pose proof (pos_INR (length m)) as P2.
  assert (0 <= INR (length l) * u) by (apply Rmult_le_pos; lra). assert (0 <= INR (length m) * u) by (apply Rmult_le_pos; lra).
  apply within_err. rewrite V. replace (length l + length m + 1)%nat with (S (length l + length m)) by lia.
  apply within_rn; [|rewrite plus_INR; lra|exact B]. apply within_mul; apply product_ok; auto; lra.
Qed.
End Update.

(** ** Products of scaled operands, over any element type *)
Section Lazy.
Context {A : Type} (zero one : A) (add mul : A -> A -> A) (is_zero : A -> bool).
Local Notation Sum := (sum zero add).
Hypothesis Z0 : is_zero zero = true.
Hypothesis Z1 : is_zero one = false.
Hypothesis M1 : forall x, mul one x = x.
Hypothesis M0 : mul zero one = zero.
Local Open Scope nat_scope.

(** What the storage behind an operand holds *)
Definition holds_matrix (e : @lexpr A) (rows cols : N) (f : nat -> nat -> A) : Prop :=
  let t := Nat.odd (transposes e) in
  fst (base e) = (if t then [cols; rows] else [rows; cols]) /\
  is_matrix (fun x => x) RowMajor (if t then Trans else NoTrans) (N.to_nat (if t then rows else cols)) (snd (base e)) (N.to_nat rows) (N.to_nat cols) f.
Definition holds_vector (e : @lexpr A) (n : N) (f : nat -> A) : Prop :=
  fst (base e) = [n] /\ forall i, i < N.to_nat n -> nth_error (snd (base e)) i = Some (f i).

Lemma plain_base (e : @lexpr A) : base (plain one e) = base e /\ transposes (plain one e) = transposes e /\ unscaled one (plain one e).
Proof.
  unfold unscaled. induction e as [a|e (I1 & I2 & I3) f|e (I1 & I2 & I3) f]; cbn; repeat split; auto; try (now rewrite I2); constructor; auto.
Qed.
Lemma sc_matrix (e : @lexpr A) rows cols f : lmatrix mul (plain one e) rows cols f -> holds_matrix e rows cols f.
Proof.
  intros H. destruct (plain_base e) as (B & T & U). pose proof (lf_matrix zero one mul is_zero Z1 M1 M0 _ _ _ _ U H) as R. unfold holds_matrix. now rewrite B, T in R.
Qed.
Lemma sc_vector (e : @lexpr A) n f : lvector mul (plain one e) n f -> holds_vector e n f.
Proof.
  intros H. destruct (plain_base e) as (B & T & U). pose proof (lf_vector zero one mul is_zero Z1 M1 M0 _ _ _ U H) as R. unfold holds_vector. now rewrite B in R.
Qed.

Let nz : forall x, (x =? 0) = true <-> x = 0 := fun x => Nat.eqb_eq x 0.
Local Notation s_mm := (@shape_mm nat 0 0 (fun x => x =? 0) nz).
Local Notation c_mm := (@class_mm nat 0 0 (fun x => x =? 0) nz).
Local Notation s_mv := (@shape_mv nat 0 0 (fun x => x =? 0) nz).
Local Notation c_mv := (@class_mv nat 0 0 (fun x => x =? 0) nz).
Local Notation x_r := (@ext_r nat 0 0 (fun x => x =? 0) nz).
Local Notation x_c := (@ext_c nat 0 0 (fun x => x =? 0) nz).
Local Notation x_l := (@ext_l nat 0 0 (fun x => x =? 0) nz).
Local Notation x_1 := (@ext1 nat 0 0 (fun x => x =? 0) nz).

Lemma held_dot_mm asserts sched junk (e1 e2 : @lexpr A) m k n f g :
  (forall m n k, interleaving n (column_program m k) (sched m n k)) ->
  holds_matrix e1 m k f -> holds_matrix e2 k n g -> (m * n < 2 ^ 32)%N ->
  let phi := mul (product one mul (factors e1)) (product one mul (factors e2)) in
  exists out, dot zero one add mul is_zero asserts sched junk e1 e2 = Ok ([m; n], out) /\
    forall i j, (i < m)%N -> (j < n)%N -> element [m; n] out [i; j] =
      Some (if is_zero phi || (N.to_nat k =? 0) then zero
            else add zero (mul phi (Sum (N.to_nat k) (fun h => mul (f (N.to_nat i) h) (g h (N.to_nat j)))))).
Proof using Z0 Z1 M0.
  clear M1.
  intros HS H1 H2 HN phi. unfold dot. rewrite !dotHelper_fold.
  destruct H1 as (S1 & MA). destruct H2 as (S2 & MB). fold phi.
 set (ta := Nat.odd (transposes e1)) in *. set (tb := Nat.odd (transposes e2)) in *.
  rewrite S1, S2, s_mm, N.eqb_refl, check_true. cbn [bind].
  assert (SZ : size [m; n] = (m * n)%N).
  { rewrite size_exact; cbn [prod]; [lia|]. eapply N.lt_trans; [|exact (eq_refl : (2 ^ 32 < 2 ^ 64)%N)]. lia. }
  rewrite SZ. set (out := map junk (seq 0 (N.to_nat (m * n)))).
  assert (LO : length out = N.to_nat m * N.to_nat n) by (unfold out; rewrite map_length, seq_length; lia).
  match goal with |- context [sched ?x ?y ?z] => set (sc := sched x y z) end.
  assert (HSC : interleaving (N.to_nat n) (column_program (N.to_nat m) (N.to_nat k)) sc) by (unfold sc; cbn [nth]; destruct ta; apply HS).
  unfold applyTo. cbn [fst snd]. rewrite S1, S2, s_mm, N.eqb_refl, check_true. cbn [bind].
  rewrite (proj2 (shape_eqb_spec [m; n] [m; n]) eq_refl), check_true. cbn [bind].
  rewrite c_mm, N.eqb_refl, check_true. cbn [bind].
  rewrite (x_r asserts ta m k). cbn [bind]. rewrite (x_c asserts tb k n). cbn [bind]. rewrite (x_c asserts ta m k). cbn [bind].
  rewrite (x_l asserts ta m k). cbn [bind]. rewrite (x_l asserts tb k n). cbn [bind]. rewrite x_1. cbn [bind].
  unfold gemm. destruct ((N.to_nat m =? 0) || (N.to_nat n =? 0)) eqn:Z.
  { cbn [bind]. eexists. split; [reflexivity|]. intros; lia. }
  assert (HC : forall i j, i < N.to_nat m -> j < N.to_nat n -> i * N.to_nat n + j < length out) by (intros i j Hi Hj; rewrite LO; nia).
  destruct (is_zero phi) eqn:ZP.
  - unfold gemm_body. rewrite ZP. destruct (lf_gescal zero add mul is_zero (N.to_nat m) (N.to_nat n) zero out (N.to_nat n) (le_n _) HC) as (c1 & E1 & L1 & P1).
    rewrite E1. cbn [bind]. exists c1. split; [reflexivity|]. intros i j Hi Hj. unfold element. cbn [position prod orb].
    replace (N.to_nat (i * (n * 1) + (j * 1 + 0))) with (N.to_nat i * N.to_nat n + N.to_nat j) by lia.
    rewrite (P1 (N.to_nat i) (N.to_nat j)) by lia. specialize (HC (N.to_nat i) (N.to_nat j) ltac:(lia) ltac:(lia)).
    destruct (nth_error out _) as [v|] eqn:Ev; [|apply nth_error_None in Ev; lia]. cbn [option_map]. f_equal. unfold scaled. now rewrite Z0.
  - destruct (lf_gemm zero one add mul is_zero ta tb (N.to_nat m) (N.to_nat n) (N.to_nat k) phi (snd (base e1)) (N.to_nat (if ta then m else k))
      (snd (base e2)) (N.to_nat (if tb then k else n)) zero out (N.to_nat n) sc f g) as (c' & E & L & P); auto.
    rewrite E. cbn [bind]. exists c'. split; [auto|]. intros i j Hi Hj. unfold element. cbn [position prod orb].
    replace (N.to_nat (i * (n * 1) + (j * 1 + 0))) with (N.to_nat i * N.to_nat n + N.to_nat j) by lia.
    rewrite (P (N.to_nat i) (N.to_nat j)) by lia. specialize (HC (N.to_nat i) (N.to_nat j) ltac:(lia) ltac:(lia)).
    destruct (nth_error out _) as [v|] eqn:Ev; [|apply nth_error_None in Ev; lia]. cbn [option_map]. f_equal.
    unfold scaled. rewrite Z0, Z1, M0. reflexivity.
Qed.
Lemma sc_dot_mm asserts sched junk (e1 e2 : @lexpr A) m k n f g :
  (forall m n k, interleaving n (column_program m k) (sched m n k)) ->
  lmatrix mul (plain one e1) m k f -> lmatrix mul (plain one e2) k n g -> (m * n < 2 ^ 32)%N ->
  let phi := mul (product one mul (factors e1)) (product one mul (factors e2)) in
  exists out, dot zero one add mul is_zero asserts sched junk e1 e2 = Ok ([m; n], out) /\
    forall i j, (i < m)%N -> (j < n)%N -> element [m; n] out [i; j] =
      Some (if is_zero phi || (N.to_nat k =? 0) then zero
            else add zero (mul phi (Sum (N.to_nat k) (fun h => mul (f (N.to_nat i) h) (g h (N.to_nat j)))))).
Proof using Z0 Z1 M1 M0. intros; apply held_dot_mm; auto using sc_matrix, sc_vector. Qed.
Lemma held_dot_mv asserts sched junk (e1 e2 : @lexpr A) m k f g :
  holds_matrix e1 m k f -> holds_vector e2 k g ->
  (0 < k)%N -> Nat.odd (transposes e1) = false \/ m = k -> (m < 2 ^ 32)%N ->
  let phi := mul (product one mul (factors e1)) (product one mul (factors e2)) in
  exists out, dot zero one add mul is_zero asserts sched junk e1 e2 = Ok ([m], out) /\
    forall i, (i < m)%N -> element [m] out [i] = Some (add zero (mul phi (Sum (N.to_nat k) (fun h => mul (f (N.to_nat i) h) (g h))))).
Proof using Z0 Z1 M0.
  clear M1.
  intros H1 H2 HK HT HM phi. unfold dot. rewrite !dotHelper_fold.
  destruct H1 as (S1 & MA). destruct H2 as (S2 & MB). fold phi.
 set (ta := Nat.odd (transposes e1)) in *. set (tb := Nat.odd (transposes e2)) in *.
  rewrite S1, S2, s_mv, N.eqb_refl, check_true. cbn [bind].
  assert (SZ : size [m] = m).
  { rewrite size_exact; cbn [prod]; [lia|]. eapply N.lt_trans; [|exact (eq_refl : (2 ^ 32 < 2 ^ 64)%N)]. lia. }
  rewrite SZ. set (out := map junk (seq 0 (N.to_nat m))).
  assert (LO : length out = N.to_nat m) by (unfold out; rewrite map_length, seq_length; lia).
  unfold applyTo. cbn [fst snd]. rewrite S1, S2, s_mv, N.eqb_refl, check_true. cbn [bind].
  rewrite (proj2 (shape_eqb_spec [m] [m]) eq_refl), check_true. cbn [bind].
  rewrite c_mv, N.eqb_refl, check_true. cbn [bind].
  rewrite (x_r asserts ta m k). cbn [bind]. rewrite (x_c asserts ta m k). cbn [bind]. rewrite (x_l asserts ta m k).
  cbn [bind]. unfold gemv.
  destruct ((N.to_nat m =? 0) || (N.to_nat k =? 0)) eqn:Z.
  { assert (m = 0%N) by lia. subst m. exists out. split; [reflexivity|]. intros; lia. }
  destruct (lf_gemv zero one add mul is_zero (if ta then Trans else NoTrans) (N.to_nat m) (N.to_nat k) phi (snd (base e1)) (N.to_nat (if ta then m else k))
    (snd (base e2)) zero out f g) as (y' & E & L & P).
  - destruct ta; reflexivity.
  - intros i h Hi Hh. apply MA; destruct ta; cbn [is_trans] in *; destruct HT; try congruence; subst; auto.
  - intros h Hh. apply MB. destruct ta; cbn [is_trans] in *; destruct HT; try congruence; subst; auto.
  - intros i Hi. rewrite LO. destruct ta; cbn [is_trans] in *; destruct HT; try congruence; subst; lia.
  - rewrite E. cbn [bind]. exists y'. split; [auto|]. intros i Hi. unfold element. cbn [position prod].
    replace (N.to_nat (i * 1 + 0)) with (N.to_nat i) by lia. rewrite P by (destruct ta; cbn [is_trans] in *; destruct HT; try congruence; subst; lia).
    destruct (nth_error out _) as [v|] eqn:Ev; [|apply nth_error_None in Ev; lia]. cbn [option_map]. f_equal.
    replace (if is_trans (if ta then Trans else NoTrans) then N.to_nat m else N.to_nat k) with (N.to_nat k)
      by (destruct ta; cbn [is_trans] in *; destruct HT; try congruence; subst; auto).
    unfold scaled. now rewrite Z0.
Qed.
Lemma sc_dot_mv asserts sched junk (e1 e2 : @lexpr A) m k f g :
  lmatrix mul (plain one e1) m k f -> lvector mul (plain one e2) k g ->
  (0 < k)%N -> Nat.odd (transposes e1) = false \/ m = k -> (m < 2 ^ 32)%N ->
  let phi := mul (product one mul (factors e1)) (product one mul (factors e2)) in
  exists out, dot zero one add mul is_zero asserts sched junk e1 e2 = Ok ([m], out) /\
    forall i, (i < m)%N -> element [m] out [i] = Some (add zero (mul phi (Sum (N.to_nat k) (fun h => mul (f (N.to_nat i) h) (g h))))).
Proof using Z0 Z1 M1 M0. intros; apply held_dot_mv; auto using sc_matrix, sc_vector. Qed.
End Lazy.
