(** Proofs for C96 and C97 over the real numbers. *)
From Coq Require Import ZArith Reals List Lia Lra.
From Flocq Require Import Core BinarySingleNaN.
From Verif Require Import Base BaseProofs BlasModel MatmulSpec BlasSpec BlasProofs ComplexModel ComplexProofs AccSpec NrmModel NrmSpec.
Import ListNotations.
Local Open Scope R_scope.

Lemma rlt_true x y : rlt x y = true <-> x < y.
Proof. unfold rlt. destruct (Rlt_dec x y); split; intros; try lra; congruence. Qed.
Lemma rlt_false x y : rlt x y = false <-> y <= x.
Proof. unfold rlt. destruct (Rlt_dec x y); split; intros; try lra; congruence. Qed.
Lemma req_true x y : req x y = true <-> x = y.
Proof. unfold req. destruct (Req_EM_T x y); split; intros; try lra; congruence. Qed.
Lemma req_false x y : req x y = false <-> x <> y.
Proof. unfold req. destruct (Req_EM_T x y); split; intros; try lra; congruence. Qed.

(** ** The loop of nrm2, for any element type *)
Section Loop.
Context {T X : Type} (zero one : T) (add mul div : T -> T -> T) (abs sqrt : T -> T) (square : T -> T) (lt eq : T -> T -> bool).
Variables (parts : X -> list T) (modulus : X -> T) (d : X).
Local Notation step := (ssq_step zero one add mul div abs square lt eq).
(** the numbers of the first k elements *)
Definition numbers (m : list X) (x incX n : Z) (k : nat) : list T := flat_map parts (map (item d m x incX n) (seq 0 k)).
Lemma numbers_S m x incX n k : numbers m x incX n (S k) = numbers m x incX n k ++ parts (item d m x incX n k).
Proof. unfold numbers. rewrite seq_S, map_app, flat_map_app. cbn [map flat_map plus]. now rewrite app_nil_r. Qed.
Lemma nrm2_loop n x incX (m : list X) : inside m x incX n -> (2 <= n)%Z ->
  nrm2 zero one add mul div abs sqrt square lt eq parts modulus n x incX m =
  Ok (let st := fold_left step (numbers m x incX n (Z.to_nat n)) (zero, one) in mul (fst st) (sqrt (snd st))).
Proof.
  intros Hx Hn. unfold nrm2. replace (n <? 1)%Z with false by lia. replace (n =? 1)%Z with false by lia. unfold walk1.
  edestruct (walk_inv (fun j st => st = fold_left step (numbers m x incX n (Z.to_nat j)) (zero, one)) n incX 0
    (fun iX _ st => do u <- load m (start x incX n + iX); Ok (fold_left step (parts u) st)) (zero, one)) as (st & E & P).
  - lia.
  - reflexivity.
  - intros j st Hj ->. rewrite start_elt. rewrite (load_ok d) by (apply Hx; lia). cbn [bind]. eexists. split; [reflexivity|].
    replace (Z.to_nat (j + 1)) with (S (Z.to_nat j)) by lia. rewrite numbers_S, fold_left_app. unfold item. now rewrite Z2Nat.id by lia.
  - rewrite E. cbn [bind]. now rewrite P.
Qed.
Lemma nrm2_one x incX (m : list X) : inside m x incX 1 ->
  nrm2 zero one add mul div abs sqrt square lt eq parts modulus 1 x incX m = Ok (modulus (item d m x incX 1 0)).
Proof.
  intros Hx. unfold nrm2. cbn [Z.ltb Z.eqb Z.compare Pos.compare Pos.compare_cont Pos.eqb].
  replace (start x incX 1) with (elt x incX 1 0) by (unfold start, elt; destruct (incX <? 0)%Z; lia).
  rewrite (load_ok d) by (apply Hx; lia). reflexivity.
Qed.
End Loop.

(** ** Exact arithmetic *)
Local Notation rstep := (ssq_step 0 1 Rplus Rmult Rdiv Rabs (fun r => r * r) rlt req).
Definition squares (l : list R) : R := exact_sum (map (fun v => v * v) l).
Lemma squares_app l k : squares (l ++ k) = squares l + squares k.
Proof. unfold squares, exact_sum. rewrite map_app, fold_right_app. induction (map (fun v => v * v) l) as [|a q IH]; cbn [fold_right]; [lra|]. rewrite IH. lra. Qed.
Lemma squares_pos l : 0 <= squares l.
Proof. unfold squares, exact_sum. induction l as [|a l IH]; cbn [map fold_right]; [lra|]. pose proof (Rle_0_sqr a). unfold Rsqr in H. lra. Qed.
Lemma rstep_ok l : let st := fold_left rstep l (0, 1) in 0 <= fst st /\ 1 <= snd st /\ fst st * fst st * snd st = squares l.
Proof.
  cbv zeta. induction l as [|v l IH] using rev_ind.
  - cbn. unfold squares, exact_sum. cbn. lra.
  - rewrite fold_left_app. cbn [fold_left]. destruct (fold_left rstep l (0, 1)) as (sc, ss) eqn:E. cbn [fst snd] in IH. destruct IH as (H1 & H2 & H3).
    rewrite squares_app. replace (squares [v]) with (v * v) by (unfold squares, exact_sum; cbn; lra). rewrite <- H3. unfold ssq_step.
    destruct (req v 0) eqn:Ev.
    + apply req_true in Ev. subst v. cbn [fst snd]. split; [auto|]. split; [auto|]. lra.
    + apply req_false in Ev. assert (AP : 0 < Rabs v) by (apply Rabs_pos_lt; auto). assert (AA : Rabs v * Rabs v = v * v) by (rewrite <- Rabs_mult; apply Rabs_pos_eq, Rle_0_sqr).
      destruct (rlt sc (Rabs v)) eqn:L.
      * cbn [fst snd]. split; [lra|]. split.
        -- pose proof (Rle_0_sqr (sc / Rabs v)). unfold Rsqr in H. assert (0 <= ss * (sc / Rabs v * (sc / Rabs v))) by (apply Rmult_le_pos; lra). lra.
        -- rewrite <- AA. field. lra.
      * apply rlt_false in L. cbn [fst snd]. split; [auto|]. split.
        -- pose proof (Rle_0_sqr (Rabs v / sc)). unfold Rsqr in H. lra.
        -- rewrite <- AA. field. lra.
Qed.
Lemma flat_squares {X} (parts : X -> list R) (f : nat -> X) n : squares (flat_map parts (map f (seq 0 n))) = total n (fun i => squares (parts (f i))).
Proof.
  unfold total. induction n as [|n IH]; [reflexivity|]. rewrite seq_S, map_app, flat_map_app, squares_app, IH. cbn [sum map flat_map plus]. now rewrite app_nil_r.
Qed.
Lemma total_ext n f g : (forall i, (i < n)%nat -> f i = g i) -> total n f = total n g.
Proof. unfold total. induction n as [|n IH]; intros H; cbn; [reflexivity|]. rewrite IH by auto. now rewrite H by lia. Qed.
Lemma exact_nrm2 {X} (parts : X -> list R) (modulus : X -> R) d n x incX m : inside m x incX n ->
  (forall a, modulus a = sqrt (squares (parts a))) ->
  nrm2 0 1 Rplus Rmult Rdiv Rabs sqrt (fun r => r * r) rlt req parts modulus n x incX m =
  Ok (sqrt (total (Z.to_nat n) (fun i => squares (parts (item d m x incX n i))))).
Proof.
  intros Hx Hmod. destruct (Z_lt_le_dec n 1) as [L|L].
  - unfold nrm2. replace (n <? 1)%Z with true by lia. replace (Z.to_nat n) with 0%nat by lia. cbn. now rewrite sqrt_0.
  - destruct (Z.eq_dec n 1) as [->|N].
    + rewrite (nrm2_one _ _ _ _ _ _ _ _ _ _ _ _ d) by auto. rewrite Hmod. change (Z.to_nat 1) with 1%nat. unfold total. cbn [sum]. now rewrite Rplus_0_l.
    + rewrite (nrm2_loop _ _ _ _ _ _ _ _ _ _ _ _ d) by (auto; lia). f_equal. cbv zeta. destruct (rstep_ok (numbers parts d m x incX n (Z.to_nat n))) as (H1 & H2 & H3).
      rewrite <- flat_squares. fold (numbers parts d m x incX n (Z.to_nat n)). rewrite <- H3. rewrite sqrt_mult_alt by (apply Rmult_le_pos; auto). now rewrite sqrt_square by auto.
Qed.
Lemma rnrm2_ok n x incX m : inside m x incX n -> rnrm2 n x incX m = Ok (length2 (Z.to_nat n) (item 0 m x incX n)).
Proof.
  intros Hx. unfold rnrm2. rewrite (exact_nrm2 _ _ 0) by (auto; intros a; unfold squares, exact_sum; cbn; rewrite Rplus_0_r; symmetry; apply sqrt_Rsqr_abs).
  unfold length2. do 2 f_equal. apply total_ext. intros i _. unfold squares, exact_sum. cbn. lra.
Qed.
Lemma cnrm2_ok n x incX m : inside m x incX n -> cnrm2 n x incX m = Ok (clength2 (Z.to_nat n) (item zero m x incX n)).
Proof.
  intros Hx. unfold cnrm2. rewrite (exact_nrm2 _ _ zero).
  - unfold clength2. do 2 f_equal. apply total_ext. intros i _. unfold squares, exact_sum. cbn. lra.
  - auto.
  - intros a. unfold squares, exact_sum, cabs. cbn. f_equal. unfold Rsqr || idtac. lra.
Qed.

(** ** Givens rotations *)
Lemma hyp_pos a b : a <> 0 \/ b <> 0 -> 0 < sqrt (a * a + b * b).
Proof.
  intros H. apply sqrt_lt_R0. pose proof (Rle_0_sqr a). pose proof (Rle_0_sqr b). unfold Rsqr in *.
  destruct H as [H|H]; apply Rsqr_pos_lt in H; unfold Rsqr in H; lra.
Qed.
Lemma hyp_square a b : sqrt (a * a + b * b) * sqrt (a * a + b * b) = a * a + b * b.
Proof. apply sqrt_sqrt. pose proof (Rle_0_sqr a). pose proof (Rle_0_sqr b). unfold Rsqr in *. lra. Qed.
Lemma abs_square a : Rabs a * Rabs a = a * a.
Proof. rewrite <- Rabs_mult. apply Rabs_pos_eq, Rle_0_sqr. Qed.
(** the scaled computation of sqrt (p^2 + q^2) *)
Lemma scaled_hyp p q : 0 < p + q -> (p + q) * sqrt (p / (p + q) * (p / (p + q)) + q / (p + q) * (q / (p + q))) = sqrt (p * p + q * q).
Proof.
  intros H. rewrite <- (sqrt_square (p + q)) at 1 by lra. rewrite <- sqrt_mult_alt by (apply Rmult_le_pos; lra). f_equal. field. lra.
Qed.
(** the value of r, then c and s *)
Lemma rrotg_nonzero a b : a <> 0 \/ b <> 0 -> let h := sqrt (a * a + b * b) in
  let r := if rlt (if rlt (Rabs b) (Rabs a) then a else b) 0 then - h else h in
  rrotg a b = (r, if rlt (Rabs a) (Rabs b) && negb (req (a / r) 0) then 1 / (a / r) else if rlt (Rabs b) (Rabs a) then b / r else 1, a / r, b / r).
Proof.
  intros H h r. unfold rrotg, rotg. assert (SP : 0 < Rabs a + Rabs b).
  { pose proof (Rabs_pos a). pose proof (Rabs_pos b). destruct H as [H|H]; apply Rabs_pos_lt in H; lra. }
  destruct (req (Rabs a + Rabs b) 0) eqn:E; [apply req_true in E; lra|]. rewrite scaled_hyp by exact SP. rewrite !abs_square. fold h. fold r. reflexivity.
Qed.
Lemma rrotg_zero : rrotg 0 0 = (0, 0, 1, 0).
Proof. unfold rrotg, rotg. rewrite Rabs_R0. replace (req (0 + 0) 0) with true by (symmetry; apply req_true; lra). reflexivity. Qed.
Lemma rotg_rotates a b : let '(r, z, c, s) := rrotg a b in
  c * a + s * b = r /\ - s * a + c * b = 0 /\ c * c + s * s = 1 /\ Rabs r = sqrt (a * a + b * b) /\
  (Rabs b < Rabs a -> 0 < c) /\ (Rabs a <= Rabs b -> b <> 0 -> 0 < s).
Proof.
  destruct (Req_dec a 0) as [A|A]; [destruct (Req_dec b 0) as [B|B]|].
  { subst. rewrite rrotg_zero. rewrite Rabs_R0. replace (0 * 0 + 0 * 0) with 0 by lra. rewrite sqrt_0. repeat split; try lra. }
  all: rewrite rrotg_nonzero by auto; cbv zeta; pose proof (hyp_pos a b ltac:(auto)) as HP; pose proof (hyp_square a b) as HS;
    set (h := sqrt (a * a + b * b)) in *; set (r := if rlt (if rlt (Rabs b) (Rabs a) then a else b) 0 then - h else h);
    assert (RR : r * r = a * a + b * b) by (unfold r; destruct (rlt _ 0); lra);
    assert (RN : r <> 0) by (unfold r; destruct (rlt _ 0); lra);
    assert (RA : Rabs r = h) by (unfold r; destruct (rlt _ 0); [rewrite Rabs_Ropp|]; apply Rabs_pos_eq; lra);
    (split; [replace (a / r * a + b / r * b) with ((a * a + b * b) / r) by (field; auto); rewrite <- RR; field; auto|]);
    (split; [field; auto|]);
    (split; [replace (a / r * (a / r) + b / r * (b / r)) with ((a * a + b * b) / (r * r)) by (field; auto); rewrite <- RR; field; auto|]);
    (split; [exact RA|]);
    (split; [intros L; unfold r; rewrite (proj2 (rlt_true _ _) L); destruct (rlt a 0) eqn:E;
       [apply rlt_true in E; replace (a / - h) with (- a / h) by (field; lra); apply Rdiv_lt_0_compat; lra|
        apply rlt_false in E; apply Rdiv_lt_0_compat; [pose proof (Rabs_pos b); rewrite (Rabs_pos_eq a) in L by auto; lra|auto]] |]);
    intros L NB; unfold r; rewrite (proj2 (rlt_false _ _) L); destruct (rlt b 0) eqn:E;
       [apply rlt_true in E; replace (b / - h) with (- b / h) by (field; lra); apply Rdiv_lt_0_compat; lra|
        apply rlt_false in E; apply Rdiv_lt_0_compat; [lra|auto]].
Qed.
Lemma root_of x y : 0 <= x -> x * x = y -> sqrt y = x.
Proof. intros H <-. now apply sqrt_square. Qed.
Lemma rotg_recover a b : Rabs a <> Rabs b \/ (a = 0 /\ b = 0) -> let '(r, z, c, s) := rrotg a b in recover z = (c, s).
Proof.
  intros H. destruct H as [H|(-> & ->)].
  2: { rewrite rrotg_zero. unfold recover. replace (req 0 1) with false by (symmetry; apply req_false; lra).
       rewrite Rabs_R0. replace (rlt 0 1) with true by (symmetry; apply rlt_true; lra). f_equal. apply root_of; lra. }
  assert (N : a <> 0 \/ b <> 0). { destruct (Req_dec a 0) as [->|]; [|auto]. right. intros ->. auto. }
  pose proof (rotg_rotates a b) as P. rewrite rrotg_nonzero in P |- * by auto. cbv zeta in *.
  set (h := sqrt (a * a + b * b)) in *. set (r := if rlt (if rlt (Rabs b) (Rabs a) then a else b) 0 then - h else h) in *.
  assert (HP : 0 < h) by now apply hyp_pos.
  assert (RN : r <> 0) by (unfold r; destruct (rlt _ 0); lra).
  destruct P as (_ & _ & P3 & PA & P5 & P6). set (c := a / r) in *. set (s := b / r) in *. clearbody h.
  assert (CS : Rabs c = Rabs a / h /\ Rabs s = Rabs b / h) by (unfold c, s; unfold Rdiv at 1 3; rewrite !Rabs_mult, !Rabs_inv, PA; auto). destruct CS as (CA & SB).
  destruct (Rtotal_order (Rabs a) (Rabs b)) as [L|[L|L]]; [|contradiction|].
  - rewrite (proj2 (rlt_true _ _) L). specialize (P6 (Rlt_le _ _ L)). cbn [andb].
    assert (BN : b <> 0) by (intros ->; rewrite Rabs_R0 in L; pose proof (Rabs_pos a); lra). specialize (P6 BN).
    destruct (req c 0) eqn:EC; cbn [negb].
    + apply req_true in EC. rewrite (proj2 (rlt_false (Rabs b) (Rabs a))) by lra. unfold recover. rewrite (proj2 (req_true 1 1)) by auto. rewrite EC in *. f_equal.
      assert (Q : s * s = 1) by lra. assert ((s - 1) * (s + 1) = 0) by lra. apply Rmult_integral in H0. lra.
    + apply req_false in EC. assert (C1 : Rabs c < 1). { assert (Rabs c < Rabs s) by (rewrite CA, SB; apply Rmult_lt_compat_r; [now apply Rinv_0_lt_compat|auto]).
        rewrite (Rabs_pos_eq s) in H0 by lra. pose proof (abs_square c) as AS. apply Rnot_le_lt. intros K. pose proof (Rmult_le_compat 1 (Rabs c) 1 (Rabs c) ltac:(lra) ltac:(lra) K K). assert (0 < s * s) by (apply Rmult_lt_0_compat; lra). lra. }
      unfold recover. assert (ZA : 1 < Rabs (1 / c)). { unfold Rdiv. rewrite Rmult_1_l, Rabs_inv. rewrite <- Rinv_1 at 1. apply Rinv_lt_contravar; [|auto]. rewrite Rmult_1_r. now apply Rabs_pos_lt. }
      rewrite (proj2 (req_false _ _)) by (intros K; rewrite K, Rabs_R1 in ZA; lra). rewrite (proj2 (rlt_false _ _)) by lra.
      replace (1 / (1 / c)) with c by (field; auto). f_equal. apply root_of; lra.
  - rewrite (proj2 (rlt_false (Rabs a) (Rabs b))) by lra. cbn [andb]. rewrite (proj2 (rlt_true _ _)) by lra. specialize (P5 L).
    assert (S1 : Rabs s < 1). { assert (Rabs s < Rabs c) by (rewrite CA, SB; apply Rmult_lt_compat_r; [now apply Rinv_0_lt_compat|auto]).
        rewrite (Rabs_pos_eq c) in H0 by lra. pose proof (abs_square s) as AS. apply Rnot_le_lt. intros K. pose proof (Rmult_le_compat 1 (Rabs s) 1 (Rabs s) ltac:(lra) ltac:(lra) K K). assert (0 < c * c) by (apply Rmult_lt_0_compat; lra). lra. }
    unfold recover. rewrite (proj2 (req_false _ _)) by (intros K; rewrite K, Rabs_R1 in S1; lra). rewrite (proj2 (rlt_true _ _)) by lra. f_equal. apply root_of; lra.
Qed.
(** equal moduli: z is 1, which stands for (0, 1) *)
Lemma rotg_equal a b : a <> 0 -> Rabs a = Rabs b -> let '(r, z, c, s) := rrotg a b in z = 1 /\ c * c = 1 / 2 /\ recover z <> (c, s).
Proof.
  intros A E. pose proof (rotg_rotates a b) as P. rewrite rrotg_nonzero in P |- * by auto. cbv zeta in *.
  set (r := if rlt (if rlt (Rabs b) (Rabs a) then a else b) 0 then _ else _) in *. destruct P as (_ & _ & P3 & PA & _).
  rewrite (proj2 (rlt_false (Rabs a) (Rabs b))) by lra. rewrite (proj2 (rlt_false (Rabs b) (Rabs a))) by lra. cbn [andb].
  assert (B : a * a = b * b) by (rewrite <- (abs_square a), <- (abs_square b), E; auto).
  assert (RN : r <> 0). { intros K. rewrite K, Rabs_R0 in PA. pose proof (hyp_pos a b (or_introl A)). lra. }
  assert (C2 : a / r * (a / r) = 1 / 2). { assert (b / r * (b / r) = a / r * (a / r)) by (replace (b / r * (b / r)) with (b * b / (r * r)) by (field; auto); rewrite <- B; field; auto). lra. }
  split; [auto|]. split; [exact C2|]. unfold recover. rewrite (proj2 (req_true 1 1)) by auto. intros K. injection K as K _. rewrite <- K in C2. lra.
Qed.

(** Complex numbers *)
Lemma div_nonneg x y : 0 <= x -> 0 < y -> 0 <= x / y.
Proof. intros H K. apply Rmult_le_pos; [auto|]. left. now apply Rinv_0_lt_compat. Qed.
Lemma cabs_square z : cabs z * cabs z = re z * re z + im z * im z.
Proof. unfold cabs. apply hyp_square. Qed.
Lemma cabs_pos z : 0 <= cabs z.
Proof. apply sqrt_pos. Qed.
Lemma cabs_0 z : cabs z = 0 -> z = zero.
Proof.
  intros H. pose proof (cabs_square z) as S. rewrite H in S. destruct z as [x y]. cbn [re im] in *. unfold zero.
  assert (x = 0) by nra. assert (y = 0) by nra. now subst.
Qed.
Lemma crotg_rotates a b : let '(r, c, s) := crotg a b in
  add (mul_l c a) (mul s b) = r /\ sub (mul_l c b) (mul (conj s) a) = zero /\ c * c + (re s * re s + im s * im s) = 1 /\ 0 <= c /\
  cabs r = sqrt (cabs a * cabs a + cabs b * cabs b).
Proof.
  unfold crotg. destruct (req (cabs a) 0) eqn:E.
  { apply req_true in E. rewrite E. apply cabs_0 in E. subst a. destruct b as [x y]. unfold add, mul_l, mul, sub, conj, zero, of_real, add_assign, mul_assign, sub_assign, sread, cread. cbn [re im].
    split; [f_equal; ring|]. split; [f_equal; ring|]. split; [ring|]. split; [lra|]. symmetry. apply root_of; [apply cabs_pos|]. cbn [re im]. ring. }
  apply req_false in E. pose proof (cabs_pos a) as PA. pose proof (cabs_pos b) as PB. assert (AP : 0 < cabs a) by lra.
  assert (DV : forall z k, 0 < k -> cabs (div_r z k) = cabs z / k).
  { intros z k K. apply root_of; [apply div_nonneg; [apply cabs_pos|auto]|]. unfold div_r, div_scalar. cbn.
    replace (cabs z / k * (cabs z / k)) with (cabs z * cabs z / (k * k)) by (field; lra). rewrite cabs_square. field. lra. }
  rewrite !DV by lra. rewrite scaled_hyp by lra. set (h := sqrt (cabs a * cabs a + cabs b * cabs b)).
  assert (HP : 0 < h) by (apply hyp_pos; auto). assert (HS : h * h = cabs a * cabs a + cabs b * cabs b) by apply hyp_square.
  pose proof (cabs_square a) as SA. pose proof (cabs_square b) as SB. set (A := cabs a) in *. clearbody h.
  destruct a as [ax ay], b as [bx by_]. cbn [re im] in *. unfold add, mul_l, mul_r, mul, sub, conj, zero, of_real, div_r, div_scalar, mul_scalar. cbn [re im].
  unfold add_assign, mul_assign, sub_assign, sread, cread. cbn [re im].
  assert (HN : h <> 0) by lra.
  assert (K1 : A * A + (bx * bx + by_ * by_) = h * h) by lra.
  split; [f_equal|split; [f_equal|split; [|split]]].
  - match goal with |- ?x = _ => replace x with (ax / A * (A * A + (bx * bx + by_ * by_)) / h) by (field; lra) end. rewrite K1. field. lra.
  - match goal with |- ?x = _ => replace x with (ay / A * (A * A + (bx * bx + by_ * by_)) / h) by (field; lra) end. rewrite K1. field. lra.
  - match goal with |- ?x = 0 => replace x with (bx / (A * h) * (A * A - (ax * ax + ay * ay))) by (field; lra) end. rewrite SA. ring.
  - match goal with |- ?x = 0 => replace x with (by_ / (A * h) * (A * A - (ax * ax + ay * ay))) by (field; lra) end. rewrite SA. ring.
  - match goal with |- ?x = 1 => replace x with ((A * A + (ax * ax + ay * ay) / (A * A) * (bx * bx + by_ * by_)) / (h * h)) by (field; lra) end.
    rewrite <- SA. replace (A * A / (A * A)) with 1 by (field; lra). rewrite Rmult_1_l, K1. field. lra.
  - apply div_nonneg; lra.
  - apply root_of; [lra|]. cbn [re im]. replace (ax / A * h * (ax / A * h) + ay / A * h * (ay / A * h)) with ((ax * ax + ay * ay) / (A * A) * (h * h)) by (field; lra). rewrite <- SA. field. lra.
Qed.

(** ** Applying a rotation *)
Lemma total_plus n f g : total n (fun i => f i + g i) = total n f + total n g.
Proof. unfold total. induction n as [|n IH]; cbn [sum]; [lra|]. rewrite IH. lra. Qed.
Lemma memory_ext {A} (d : A) (m m' : list A) : length m' = length m -> (forall p, (0 <= p < Z.of_nat (length m))%Z -> val d m' p = val d m p) -> m' = m.
Proof.
  intros L H. apply (nth_ext m' m d d L). intros i Hi. specialize (H (Z.of_nat i) ltac:(lia)). unfold val in H. now rewrite Nat2Z.id in H.
Qed.
Lemma inside_length {A} (m m' : list A) x inc n : length m' = length m -> inside m x inc n -> inside m' x inc n.
Proof. intros L H i Hi. rewrite L. auto. Qed.
(** a loop that undoes another one *)
Lemma undone {A} (d : A) (f g f' g' : A -> A -> A) n x incX y incY (m m' m'' : list A) :
  (forall u v, f' (f u v) (g u v) = u /\ g' (f u v) (g u v) = v) -> inside m x incX n -> inside m y incY n ->
  (forall i, (0 <= i < n)%Z -> val d m' (elt x incX n i) = f (val d m (elt x incX n i)) (val d m (elt y incY n i)) /\
                               val d m' (elt y incY n i) = g (val d m (elt x incX n i)) (val d m (elt y incY n i))) ->
  changes d m m' (fun p => in_vector x incX n p \/ in_vector y incY n p) ->
  (forall i, (0 <= i < n)%Z -> val d m'' (elt x incX n i) = f' (val d m' (elt x incX n i)) (val d m' (elt y incY n i)) /\
                               val d m'' (elt y incY n i) = g' (val d m' (elt x incX n i)) (val d m' (elt y incY n i))) ->
  changes d m' m'' (fun p => in_vector x incX n p \/ in_vector y incY n p) -> m'' = m.
Proof.
  intros I Hx Hy V1 (L1 & C1) V2 (L2 & C2). apply (memory_ext d); [congruence|]. intros p Hp.
  assert (D : forall a inc k, (0 <= k)%Z -> (forall i, (0 <= i < k)%Z -> p <> elt a inc n i) \/ exists i, (0 <= i < k)%Z /\ p = elt a inc n i).
  { intros a inc k Hk. pattern k. apply natlike_ind; [left; intros; lia| |exact Hk]. intros j Hj [N|(i & Hi & E)].
    - destruct (Z.eq_dec p (elt a inc n j)) as [->|Ne]; [right; exists j; split; [lia|auto]|]. left. intros i Hi. destruct (Z.eq_dec i j) as [->|]; [auto|apply N; lia].
    - right. exists i. split; [lia|auto]. }
  destruct (Z_le_gt_dec n 0) as [N|N].
  { rewrite C2, C1; auto; [|rewrite L1; auto|]; intros [(i & Hi & _)|(i & Hi & _)]; lia. }
  destruct (D x incX n ltac:(lia)) as [Nx|(i & Hi & ->)].
  - destruct (D y incY n ltac:(lia)) as [Ny|(i & Hi & ->)].
    + assert (O : ~ (in_vector x incX n p \/ in_vector y incY n p)) by (intros [(i & Hi & E)|(i & Hi & E)]; [now apply (Nx i)|now apply (Ny i)]).
      rewrite C2, C1; auto. now rewrite L1.
    + destruct (V1 i Hi) as (A1 & A2), (V2 i Hi) as (B1 & B2). rewrite B2, A1, A2. apply I.
  - destruct (V1 i Hi) as (A1 & A2), (V2 i Hi) as (B1 & B2). rewrite B1, A1, A2. apply I.
Qed.

Lemma rrot_ok n x incX y incY c s (m : list R) : c * c + s * s = 1 ->
  inside m x incX n -> inside m y incY n -> incX <> 0%Z \/ (n <= 1)%Z -> incY <> 0%Z \/ (n <= 1)%Z -> disjoint x incX y incY n ->
  exists m', rrot n x incX y incY c s m = Ok m' /\
    (forall i, (0 <= i < n)%Z -> val 0 m' (elt x incX n i) = c * val 0 m (elt x incX n i) + s * val 0 m (elt y incY n i) /\
                                 val 0 m' (elt y incY n i) = - s * val 0 m (elt x incX n i) + c * val 0 m (elt y incY n i)) /\
    (forall k, (k <= Z.to_nat n)%nat -> total k (fun i => item 0 m' x incX n i * item 0 m' x incX n i + item 0 m' y incY n i * item 0 m' y incY n i) =
       total k (fun i => item 0 m x incX n i * item 0 m x incX n i + item 0 m y incY n i * item 0 m y incY n i)) /\
    rrot n x incX y incY c (- s) m' = Ok m.
Proof.
  intros CS Hx Hy HiX HiY Hd. unfold rrot, rot.
  destruct (write_xy 0 (fun u v => c * u + s * v) (fun u v => - s * u + c * v) n x incX y incY m Hx Hy HiX HiY Hd) as (m' & E & V & C).
  exists m'. split; [exact E|]. split; [exact V|]. split.
  - intros k Hk. apply total_ext. intros i Hi. unfold item. destruct (V (Z.of_nat i) ltac:(lia)) as (-> & ->).
    set (a := val 0 m (elt x incX n (Z.of_nat i))). set (b := val 0 m (elt y incY n (Z.of_nat i))).
    replace ((c * a + s * b) * (c * a + s * b) + (- s * a + c * b) * (- s * a + c * b)) with ((c * c + s * s) * (a * a + b * b)) by ring. rewrite CS. ring.
  - destruct (write_xy 0 (fun u v => c * u + - s * v) (fun u v => - - s * u + c * v) n x incX y incY m') as (m'' & E2 & V2 & C2); auto.
    { destruct C as (L & _). now apply (inside_length m). } { destruct C as (L & _). now apply (inside_length m). }
    rewrite E2. f_equal. apply (undone 0 (fun u v => c * u + s * v) (fun u v => - s * u + c * v) (fun u v => c * u + - s * v) (fun u v => - - s * u + c * v) n x incX y incY m m' m''); auto.
    intros a b. split.
    + replace (c * (c * a + s * b) + - s * (- s * a + c * b)) with ((c * c + s * s) * a) by ring. rewrite CS. ring.
    + replace (- - s * (c * a + s * b) + c * (- s * a + c * b)) with ((c * c + s * s) * b) by ring. rewrite CS. ring.
Qed.

Lemma rounds_swap {St} k iX incX iY incY (body body' : Z -> Z -> St -> outcome St) s : (forall a b t, body a b t = body' b a t) ->
  rounds k iX incX iY incY body s = rounds k iY incY iX incX body' s.
Proof.
  intros H. revert iX iY s. induction k as [|k IH]; intros iX iY s; cbn [rounds]; [reflexivity|]. rewrite H. destruct (body' iY iX s); cbn [bind]; auto.
Qed.
Lemma loads_swap {A B} (m : list A) p q (k : A -> A -> outcome B) :
  (do u <- load m p; do v <- load m q; k u v) = (do v <- load m q; do u <- load m p; k u v).
Proof.
  unfold load, rd. destruct (p <? 0)%Z, (q <? 0)%Z; cbn [bind]; auto; try (destruct (nth_error m (Z.to_nat p)); cbn [bind]; auto; fail).
  - destruct (nth_error m (Z.to_nat q)); cbn [bind]; auto.
  - destruct (nth_error m (Z.to_nat p)), (nth_error m (Z.to_nat q)); cbn [bind]; auto.
Qed.
Lemma crot_loop n x incX y incY c s (m : list cx) :
  inside m x incX n -> inside m y incY n -> incX <> 0%Z \/ (n <= 1)%Z -> incY <> 0%Z \/ (n <= 1)%Z -> disjoint x incX y incY n ->
  exists m', crot n x incX y incY c s m = Ok m' /\
    (forall i, (0 <= i < n)%Z -> val zero m' (elt x incX n i) = add (mul_l c (val zero m (elt x incX n i))) (mul s (val zero m (elt y incY n i))) /\
                                 val zero m' (elt y incY n i) = sub (mul_l c (val zero m (elt y incY n i))) (mul (conj s) (val zero m (elt x incX n i)))) /\
    changes zero m m' (fun p => in_vector x incX n p \/ in_vector y incY n p).
Proof.
  intros Hx Hy HiX HiY Hd.
  destruct (write_xy zero (fun v u => sub (mul_l c v) (mul (conj s) u)) (fun v u => add (mul_l c u) (mul s v)) n y incY x incX m Hy Hx HiY HiX) as (m' & E & V & L & C).
  { intros i j Hi Hj K. symmetry in K. now apply (Hd j i). }
  exists m'. split.
  - rewrite <- E. unfold crot, walk. apply rounds_swap. intros a b t. apply loads_swap.
  - split; [intros i Hi; destruct (V i Hi); auto|]. split; [exact L|]. intros p Hp N. apply C; [auto|]. tauto.
Qed.
Lemma crot_ok n x incX y incY c s (m : list cx) : c * c + (re s * re s + im s * im s) = 1 ->
  inside m x incX n -> inside m y incY n -> incX <> 0%Z \/ (n <= 1)%Z -> incY <> 0%Z \/ (n <= 1)%Z -> disjoint x incX y incY n ->
  exists m', crot n x incX y incY c s m = Ok m' /\
    (forall i, (0 <= i < n)%Z -> val zero m' (elt x incX n i) = add (mul_l c (val zero m (elt x incX n i))) (mul s (val zero m (elt y incY n i))) /\
                                 val zero m' (elt y incY n i) = sub (mul_l c (val zero m (elt y incY n i))) (mul (conj s) (val zero m (elt x incX n i)))) /\
    (forall k, (k <= Z.to_nat n)%nat -> total k (fun i => norm (item zero m' x incX n i) + norm (item zero m' y incY n i)) =
       total k (fun i => norm (item zero m x incX n i) + norm (item zero m y incY n i))) /\
    crot n x incX y incY c (neg s) m' = Ok m.
Proof.
  intros CS Hx Hy HiX HiY Hd.
  destruct (crot_loop n x incX y incY c s m Hx Hy HiX HiY Hd) as (m' & E & V & C).
  exists m'. split; [exact E|]. split; [exact V|]. split.
  - intros k Hk. apply total_ext. intros i Hi. unfold item. destruct (V (Z.of_nat i) ltac:(lia)) as (-> & ->).
    destruct (val zero m (elt x incX n (Z.of_nat i))) as [a b]. destruct (val zero m (elt y incY n (Z.of_nat i))) as [p q]. destruct s as [sx sy]. cbn [re im] in CS.
    unfold norm, add, mul_l, mul, sub, conj, of_real, add_assign, mul_assign, sub_assign, sread, cread. cbn [re im].
    match goal with |- ?l = _ => replace l with ((c * c + (sx * sx + sy * sy)) * ((a * a + b * b) + (p * p + q * q))) by ring end. rewrite CS. ring.
  - destruct (crot_loop n x incX y incY c (neg s) m') as (m'' & E2 & V2 & C2); auto.
    { destruct C as (L & _). now apply (inside_length m). } { destruct C as (L & _). now apply (inside_length m). }
    rewrite E2. f_equal. apply (undone zero (fun u v => add (mul_l c u) (mul s v)) (fun u v => sub (mul_l c v) (mul (conj s) u))
       (fun u v => add (mul_l c u) (mul (neg s) v)) (fun u v => sub (mul_l c v) (mul (conj (neg s)) u)) n x incX y incY m m' m''); auto.
    intros [a b] [p q]. destruct s as [sx sy]. cbn [re im] in CS.
    unfold neg, add, mul_l, mul, sub, conj, of_real, add_assign, mul_assign, sub_assign, sread, cread. cbn [re im].
    split; f_equal.
    + match goal with |- ?l = _ => replace l with ((c * c + (sx * sx + sy * sy)) * a) by ring end. rewrite CS. ring.
    + match goal with |- ?l = _ => replace l with ((c * c + (sx * sx + sy * sy)) * b) by ring end. rewrite CS. ring.
    + match goal with |- ?l = _ => replace l with ((c * c + (sx * sx + sy * sy)) * p) by ring end. rewrite CS. ring.
    + match goal with |- ?l = _ => replace l with ((c * c + (sx * sx + sy * sy)) * q) by ring end. rewrite CS. ring.
Qed.
