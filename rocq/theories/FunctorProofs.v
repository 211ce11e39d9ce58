From Coq Require Import Reals Lra.
From Verif Require Import Base BaseProofs ShapeModel AssignModel AssignSpec AssignProofs FunctorModel FunctorSpec.
Local Open Scope R_scope.

Lemma lebP x y : leb x y = true <-> x <= y.
Proof. unfold leb. destruct Rle_dec; intuition congruence. Qed.
Lemma ltbP x y : ltb x y = true <-> x < y.
Proof. unfold ltb. destruct Rlt_dec; intuition congruence. Qed.
Lemma eqbP x y : eqb x y = true <-> x = y.
Proof. unfold eqb. destruct Req_EM_T; intuition congruence. Qed.
Lemma lebF x y : leb x y = false <-> ~ x <= y.
Proof. unfold leb. destruct Rle_dec; intuition congruence. Qed.
Lemma ltbF x y : ltb x y = false <-> ~ x < y.
Proof. unfold ltb. destruct Rlt_dec; intuition congruence. Qed.
Lemma eqbF x y : eqb x y = false <-> x <> y.
Proof. unfold eqb. destruct Req_EM_T; intuition congruence. Qed.

Lemma rfloor_spec x : rfloor x <= x < rfloor x + 1.
Proof. unfold rfloor. rewrite minus_IZR. destruct (archimed x). lra. Qed.

Lemma exp_neq x : exp x <> 0.
Proof. apply Rgt_not_eq, exp_pos. Qed.
Lemma ln2_pos : 0 < ln 2.
Proof. rewrite <- ln_1. apply ln_increasing; lra. Qed.
Lemma ln10_pos : 0 < ln 10.
Proof. rewrite <- ln_1. apply ln_increasing; lra. Qed.

Lemma Rpower_third x : 0 < x -> Rpower x (/ 3) * Rpower x (/ 3) * Rpower x (/ 3) = x.
Proof. intros. rewrite <- !Rpower_plus. replace (/ 3 + / 3 + / 3) with 1 by lra. apply Rpower_1; auto. Qed.

Lemma when_valued c y (P : Prop) (Q : R -> Prop) : (c = true -> P /\ Q y) -> (c = false -> ~ P) -> valued P Q (when c y).
Proof. destruct c; cbn; auto. Qed.

(** asinh, acosh, atanh as the library functions define them (used for the GPU kernels) *)
Lemma asinh_char x : exp (arcsinh x) - exp (- arcsinh x) = 2 * x.
Proof. pose proof (sinh_arcsinh x) as H. unfold sinh in H. lra. Qed.
Lemma acosh_char x : 1 <= x -> let y := ln (x + sqrt (x * x - 1)) in 0 <= y /\ exp y + exp (- y) = 2 * x.
Proof.
  intros H y. assert (0 <= x * x - 1) by nra. pose proof (sqrt_pos (x * x - 1)). pose proof (sqrt_sqrt _ H0).
  split.
  - unfold y. rewrite <- ln_1. destruct (Req_dec (x + sqrt (x * x - 1)) 1) as [->|]; [lra|].
    left. apply ln_increasing; lra.
  - unfold y. rewrite exp_Ropp, exp_ln by lra. set (s := sqrt (x * x - 1)) in *.
    assert (x + s <> 0) by lra. field_simplify_eq; auto. nra.
Qed.
Lemma atanh_char x : -1 < x < 1 -> let y := / 2 * ln ((1 + x) / (1 - x)) in exp y - exp (- y) = x * (exp y + exp (- y)).
Proof.
  intros H y. assert (E : exp y * exp y = (1 + x) / (1 - x)).
  { rewrite <- exp_plus. replace (y + y) with (ln ((1 + x) / (1 - x))) by (unfold y; lra).
    apply exp_ln. apply Rdiv_lt_0_compat; lra. }
  rewrite exp_Ropp. set (e := exp y) in *. assert (e <> 0) by apply exp_neq.
  apply (Rmult_eq_reg_r e); auto.
  replace ((e - / e) * e) with (e * e - 1) by (field; auto).
  replace (x * (e + / e) * e) with (x * (e * e + 1)) by (field; auto).
  rewrite E. field. lra.
Qed.

(** The library function of a name. *)
Definition own_core (f : name) : core :=
  match f with
  | neg => c_neg | sin_ => c_sin | cos_ => c_cos | tan_ => c_tan | asin_ => c_asin | acos_ => c_acos | atan_ => c_atan
  | sinh_ => c_sinh | cosh_ => c_cosh | tanh_ => c_tanh | asinh_ => c_asinh | acosh_ => c_acosh | atanh_ => c_atanh
  | exp_ => c_exp | exp2_ => c_exp2 | exp10_ => c_exp10 | log_ => c_log | log10_ => c_log10 | log2_ => c_log2
  | sqrt_ => c_sqrt | cbrt_ => c_cbrt | abs_ => c_abs | floor_ => c_floor | ceil_ => c_ceil
  end.

Lemma own_core_means f x : means f x (std_fun (own_core f) x).
Proof.
  destruct f; cbn -[exp ln sin cos tan sinh cosh tanh arcsinh Rpower sqrt PI asin acos atan rfloor]; auto.
  - split; auto; lra.
  - apply when_valued; intros H.
    + apply Bool.negb_true_iff, eqbF in H. split; auto. unfold tan. field; auto.
    + apply Bool.negb_false_iff, eqbP in H. auto.
  - apply when_valued; intros H.
    + apply Bool.andb_true_iff in H. rewrite !lebP in H. split; [lra|]. split.
      * pose proof (asin_bound x). lra.
      * apply sin_asin; lra.
    + apply Bool.andb_false_iff in H. rewrite !lebF in H. lra.
  - apply when_valued; intros H.
    + apply Bool.andb_true_iff in H. rewrite !lebP in H. split; [lra|]. split.
      * apply acos_bound.
      * apply cos_acos; lra.
    + apply Bool.andb_false_iff in H. rewrite !lebF in H. lra.
  - split; auto. pose proof (atan_bound x). split; [lra|]. assert (cos (atan x) > 0) by (apply cos_gt_0; lra).
    pose proof (tan_atan x) as E. unfold tan in E. rewrite <- E at 2. field. lra.
  - split; auto. unfold sinh. lra.
  - split; auto. unfold cosh. lra.
  - split; auto. unfold tanh, sinh, cosh. pose proof (exp_pos x). pose proof (exp_pos (-x)). field. lra.
  - split; auto. apply asinh_char.
  - apply when_valued; intros H; [apply lebP in H|apply lebF in H]; auto.
    split; auto. apply acosh_char; auto.
  - apply when_valued; intros H.
    + apply Bool.andb_true_iff in H. rewrite !ltbP in H. split; [lra|]. apply atanh_char; lra.
    + apply Bool.andb_false_iff in H. rewrite !ltbF in H. lra.
  - split; auto. split; [apply exp_pos|]. unfold Rpower. apply ln_exp.
  - split; auto. split; [apply exp_pos|]. unfold Rpower. apply ln_exp.
  - apply when_valued; intros H; [apply ltbP in H|apply ltbF in H]; auto. split; auto. apply exp_ln; auto.
  - apply when_valued; intros H; [apply ltbP in H|apply ltbF in H]; auto. split; auto.
    replace (ln x / ln 10 * ln 10) with (ln x) by (field; pose proof ln10_pos; lra). apply exp_ln; auto.
  - apply when_valued; intros H; [apply ltbP in H|apply ltbF in H]; auto. split; auto.
    replace (ln x / ln 2 * ln 2) with (ln x) by (field; pose proof ln2_pos; lra). apply exp_ln; auto.
  - apply when_valued; intros H; [apply lebP in H|apply lebF in H]; auto. split; auto.
    split; [apply sqrt_pos|apply sqrt_sqrt; auto].
  - split; auto. destruct (ltb 0 x) eqn:E; [apply ltbP in E|apply ltbF in E].
    + apply Rpower_third; auto.
    + destruct (ltb x 0) eqn:E2; [apply ltbP in E2|apply ltbF in E2].
      * pose proof (Rpower_third (-x) ltac:(lra)). set (c := Rpower (- x) (/ 3)) in *. nra.
      * assert (x = 0) by lra. subst. ring.
  - split; auto. unfold Rabs. destruct Rcase_abs; destruct (ltb x 0) eqn:E;
      [apply ltbP in E|apply ltbF in E|apply ltbP in E|apply ltbF in E]; lra.
  - split; auto. split; [unfold rfloor; eauto|]. apply rfloor_spec.
  - split; auto. split.
    + unfold rfloor. exists (- (up (- x) - 1))%Z. rewrite opp_IZR. reflexivity.
    + pose proof (rfloor_spec (- x)). lra.
Qed.

Lemma valued_unique (P : Prop) (Q : R -> Prop) r r' :
  (forall y y', P -> Q y -> Q y' -> y = y') -> valued P Q r -> valued P Q r' -> r = r'.
Proof. destruct r as [y|], r' as [y'|]; cbn; intros H A B; [|tauto|tauto|reflexivity]. f_equal. apply H; tauto. Qed.

Lemma exp_inj a b : exp a = exp b -> a = b.
Proof. intros H. rewrite <- (ln_exp a), <- (ln_exp b). congruence. Qed.

Lemma sinh_inj a b : exp a - exp (- a) = exp b - exp (- b) -> a = b.
Proof.
  intros H. destruct (Rtotal_order a b) as [L|[E|L]]; auto; exfalso.
  - pose proof (exp_increasing a b L). pose proof (exp_increasing (-b) (-a) ltac:(lra)). lra.
  - pose proof (exp_increasing b a L). pose proof (exp_increasing (-a) (-b) ltac:(lra)). lra.
Qed.
Lemma cosh_inj a b : 0 <= a -> 0 <= b -> exp a + exp (- a) = exp b + exp (- b) -> a = b.
Proof.
  assert (G : forall a b, 0 <= a < b -> exp a + exp (- a) < exp b + exp (- b)).
  { clear. intros a b [H L]. rewrite !exp_Ropp. pose proof (exp_increasing a b L).
    assert (1 <= exp a) by (destruct (Req_dec a 0) as [->|]; [rewrite exp_0; lra|rewrite <- exp_0; left; apply exp_increasing; lra]).
    set (p := exp a) in *. set (q := exp b) in *.
    assert (/ p - / q = (q - p) / (p * q)) by (field; lra).
    assert ((q - p) / (p * q) < q - p).
    { apply (Rmult_lt_reg_r (p * q)); [nra|]. unfold Rdiv. rewrite Rmult_assoc, Rinv_l by nra.
      assert (1 < p * q) by nra. nra. }
    lra. }
  intros Ha Hb E. destruct (Rtotal_order a b) as [L|[E'|L]]; auto; exfalso.
  - specialize (G a b (conj Ha L)). lra.
  - specialize (G b a (conj Hb L)). lra.
Qed.

Lemma means_functional f : functional f.
Proof.
  intros x r r' H H'. destruct f; cbn -[exp ln sin cos PI] in H, H'; refine (valued_unique _ _ _ _ _ H H'); clear H H' r r';
    cbn -[exp ln sin cos PI]; intros y y' D Q Q'; try (subst; lra); try (subst; reflexivity).
  - apply (Rmult_eq_reg_r (cos x)); auto. congruence.
  - destruct Q as [Q1 Q2], Q' as [Q1' Q2']. subst x. rewrite <- (asin_sin y), <- (asin_sin y') by lra. congruence.
  - destruct Q as [Q1 Q2], Q' as [Q1' Q2']. subst x. rewrite <- (acos_cos y), <- (acos_cos y') by lra. congruence.
  - destruct Q as [Q1 Q2], Q' as [Q1' Q2'].
    assert (C : cos y > 0) by (apply cos_gt_0; lra). assert (C' : cos y' > 0) by (apply cos_gt_0; lra).
    assert (tan y = x) by (unfold tan; rewrite Q2; field; lra).
    assert (tan y' = x) by (unfold tan; rewrite Q2'; field; lra).
    rewrite <- (atan_tan y), <- (atan_tan y') by lra. congruence.
  - pose proof (exp_pos x). pose proof (exp_pos (-x)). apply (Rmult_eq_reg_r (exp x + exp (-x))); lra.
  - apply sinh_inj. congruence.
  - apply cosh_inj; [tauto|tauto|]. destruct Q, Q'. congruence.
  - assert (G : forall z, exp z - exp (- z) = x * (exp z + exp (- z)) -> exp (z + z) = (1 + x) / (1 - x)).
    { intros z E. rewrite exp_plus. rewrite exp_Ropp in E. set (e := exp z) in *. assert (e <> 0) by apply exp_neq.
      assert ((e - / e) * e = x * (e + / e) * e) by (rewrite E; ring).
      replace ((e - / e) * e) with (e * e - 1) in H0 by (field; auto).
      replace (x * (e + / e) * e) with (x * (e * e + 1)) in H0 by (field; auto).
      apply (Rmult_eq_reg_r (1 - x)); [|lra]. replace ((1 + x) / (1 - x) * (1 - x)) with (1 + x) by (field; lra). lra. }
    assert (y + y = y' + y') by (apply exp_inj; rewrite (G y Q), (G y' Q'); reflexivity). lra.
  - destruct Q, Q'. apply ln_inv; congruence.
  - destruct Q, Q'. apply ln_inv; congruence.
  - apply exp_inj. congruence.
  - assert (E : y * ln 10 = y' * ln 10) by (apply exp_inj; congruence). pose proof ln10_pos. apply Rmult_eq_reg_r in E; auto; lra.
  - assert (E : y * ln 2 = y' * ln 2) by (apply exp_inj; congruence). pose proof ln2_pos. apply Rmult_eq_reg_r in E; auto; lra.
  - destruct Q, Q'. rewrite <- (sqrt_square y), <- (sqrt_square y') by auto. congruence.
  - assert (E : (y - y') * (y * y + y * y' + y' * y') = 0) by (ring_simplify; nra).
    apply Rmult_integral in E as [E|E]; [lra|].
    assert (y' * y' = 0) by nra. assert (y * y = 0) by nra.
    apply Rsqr_0_uniq in H. apply Rsqr_0_uniq in H0. lra.
  - destruct Q as [[n ->] Q], Q' as [[m ->] Q'].
    assert (IZR n < IZR m + 1) by lra. assert (IZR m < IZR n + 1) by lra.
    rewrite <- plus_IZR in *. apply lt_IZR in H. apply lt_IZR in H0. f_equal. lia.
  - destruct Q as [[n ->] Q], Q' as [[m ->] Q'].
    assert (IZR n < IZR m + 1) by lra. assert (IZR m < IZR n + 1) by lra.
    rewrite <- plus_IZR in *. apply lt_IZR in H. apply lt_IZR in H0. f_equal. lia.
Qed.

Lemma core_own f : misnamed f = false -> core_of (functor_of f) = own_core f.
Proof. destruct f; cbn; congruence. Qed.

Lemma unary_means f x : misnamed f = false -> means f x (unary f (Some x)).
Proof. intros H. cbn [unary]. rewrite core_own by auto. apply own_core_means. Qed.

(** integers *)
Lemma trunc_spec y : Rabs (IZR (trunc y)) <= Rabs y /\ Rabs y < Rabs (IZR (trunc y)) + 1 /\ 0 <= IZR (trunc y) * y.
Proof.
  unfold trunc. destruct (ltb y 0) eqn:E; [apply ltbP in E|apply ltbF in E].
  - pose proof (rfloor_spec (- y)) as H. unfold rfloor in H. rewrite opp_IZR.
    assert (0 <= IZR (up (- y) - 1)).
    { apply IZR_le. assert (IZR 0 < IZR (up (-y))) by (rewrite minus_IZR in H; cbn; lra). apply lt_IZR in H0. lia. }
    set (k := IZR (up (- y) - 1)) in *. rewrite (Rabs_left y), Rabs_Ropp, Rabs_right by lra. split; [lra|]. split; [lra|]. nra.
  - pose proof (rfloor_spec y) as H. unfold rfloor in H.
    assert (0 <= IZR (up y - 1)).
    { apply IZR_le. assert (IZR 0 < IZR (up y)) by (rewrite minus_IZR in H; cbn; lra). apply lt_IZR in H0. lia. }
    set (k := IZR (up y - 1)) in *. rewrite !Rabs_right by lra. split; [lra|]. split; [lra|]. nra.
Qed.

Lemma unary_int_means f n : misnamed f = false -> means_int f n (unary_int f n).
Proof.
  intros H.
  assert (G : forall c, own_core f = c -> c <> c_neg -> c <> c_abs ->
    means_int f n match std_fun c (IZR n) with Some y => Ok (trunc y) | None => UB end).
  { intros c Hc _ _. pose proof (own_core_means f (IZR n)) as M. rewrite Hc in M.
    destruct (std_fun c (IZR n)) as [y|]; cbn; auto. exists y. split; auto. apply trunc_spec. }
  destruct f; try discriminate H; try (apply (G _ eq_refl); discriminate); cbn -[Rabs].
  - exists (IZR (- n)). split; [split; auto; rewrite opp_IZR; lra|]. split; [lra|]. split; [lra|]. nra.
  - exists (IZR (if (n <? 0)%Z then (- n)%Z else n)). split.
    + split; auto. rewrite <- abs_IZR. destruct (Z.ltb_spec n 0); f_equal; lia.
    + split; [lra|]. split; [lra|]. nra.
Qed.

(** the five wrong ones *)
Lemma misnamed_refuted f : misnamed f = true -> exists x, (exists y, means f x (Some y)) /\ ~ means f x (unary f (Some x)).
Proof.
  assert (E1 : 1 < exp 1) by (rewrite <- exp_0 at 1; apply exp_increasing; lra).
  assert (E1' : 0 < exp (-1)) by apply exp_pos.
  assert (E1i : exp 1 * exp (-1) = 1) by (rewrite <- exp_plus; replace (1 + -1) with 0 by lra; apply exp_0).
  destruct f; intros H; try discriminate H; clear H; cbn -[exp ln sinh cosh tanh].
  - (* asinh: take x = 1 *)
    exists 1. split; [exists (arcsinh 1); split; auto; apply asinh_char|].
    intros [_ H]. assert (sinh 1 = arcsinh 1) by (apply sinh_inj; rewrite asinh_char; lra).
    (* sinh 1 > 1 > arcsinh 1 *)
    assert (S : 1 < sinh 1).
    { unfold sinh. pose proof (exp_ineq1 1 ltac:(lra)). 
      (* e - 1/e > 2: e > 2.5 *)
      assert (5 / 2 < exp 1).
      { replace 1 with (/2 + /2) by lra. rewrite exp_plus.
        assert (162 / 100 <= exp (/ 2)).
        { replace (/2) with (/4 + /4) by lra. rewrite exp_plus. pose proof (exp_ineq1 (/4) ltac:(lra)).
          assert (F4 : exp (/4) = exp (/8) * exp (/8)) by (rewrite <- exp_plus; f_equal; lra).
          assert (F8 : exp (/8) = exp (/16) * exp (/16)) by (rewrite <- exp_plus; f_equal; lra).
          pose proof (exp_ineq1 (/16) ltac:(lra)).
          assert ((17/16)*(17/16) < exp (/8)) by (rewrite F8; nra).
          assert ((289/256)*(289/256) < exp (/4)) by (rewrite F4; nra).
          nra. }
        nra. }
      assert (exp (-1) < 2 / 5) by nra. replace (- (1)) with (-1) by lra. lra. }
    assert (arcsinh 1 < 1).
    { destruct (Rlt_le_dec (arcsinh 1) 1); auto. exfalso.
      assert (sinh 1 <= sinh (arcsinh 1)) by (destruct r as [r|<-]; [left; apply sinh_lt; auto|lra]).
      rewrite sinh_arcsinh in H1. lra. }
    lra.
  - (* acosh: x = 1, acosh 1 = 0 but cosh 1 > 0 *)
    exists 1. split.
    { exists 0. split; [lra|]. rewrite Ropp_0, exp_0. lra. }
    intros [_ [_ H]]. assert (cosh 1 = 0).
    { apply cosh_inj; [unfold cosh; pose proof (exp_pos 1); pose proof (exp_pos (- (1))); lra|lra|]. rewrite Ropp_0, exp_0. lra. }
    unfold cosh in H0. pose proof (exp_pos (- (1))). lra.
  - (* atanh: outside (-1,1) atanh is undefined, but take an inner point: x = 1/2 *)
    exists (/ 2). split; [exists (/ 2 * ln ((1 + / 2) / (1 - / 2))); split; [lra|]; apply atanh_char; lra|].
    intros [_ H]. set (t := tanh (/ 2)) in *.
    assert (T : t < / 2).
    { unfold t, tanh, sinh, cosh. pose proof (exp_pos (/2)). pose proof (exp_pos (- / 2)).
      apply (Rmult_lt_reg_r ((exp (/2) + exp (-/2)) / 2)); [lra|].
      unfold Rdiv at 1. rewrite Rmult_assoc, Rinv_l by lra.
      (* e - 1/e < (e + 1/e)/2  <=>  e < 3/e <=> e^2 < 3 *)
      assert (exp (/2) * exp (/2) < 3) by (rewrite <- exp_plus; replace (/2 + /2) with 1 by lra; pose proof exp_le_3; 
         destruct (Req_dec (exp 1) 3) as [F3|]; [|lra]; exfalso; 
         assert (exp (-1) = / 3) by (rewrite <- F3, <- exp_Ropp; f_equal; lra); 
         (* e = 3 contradicts e^{-1/2} > 1/2 *) assert (/ 2 < exp (- / 2)) by (pose proof (exp_ineq1 (- / 2) ltac:(lra)); lra); 
         assert (exp (-1) = exp (-/2) * exp (-/2)) by (rewrite <- exp_plus; f_equal; lra);
         assert (exp (-/4) * exp (-/4) = exp (-/2)) by (rewrite <- exp_plus; f_equal; lra);
         pose proof (exp_ineq1 (- / 4) ltac:(lra)); assert (9/16 < exp (-/2)) by nra;
         assert (exp (-/8) * exp (-/8) = exp (-/4)) by (rewrite <- exp_plus; f_equal; lra);
         pose proof (exp_ineq1 (- / 8) ltac:(lra)); assert (49/64 < exp (-/4)) by nra; assert (2401/4096 < exp (-/2)) by nra;
         nra).
      assert (exp (/2) * exp (-/2) = 1) by (rewrite <- exp_plus; replace (/2 + -/2) with 0 by lra; apply exp_0).
      assert (exp (/2) < 3 * exp (-/2)); [|lra].
      apply (Rmult_lt_reg_r (exp (/2))); auto. nra. }
    assert (T0 : 0 < t).
    { unfold t. unfold tanh, sinh, cosh. pose proof (exp_pos (/2)). pose proof (exp_pos (- / 2)).
      pose proof (exp_increasing (-/2) (/2) ltac:(lra)). apply Rdiv_lt_0_compat; lra. }
    (* tanh t = 1/2 but tanh t < tanh 1/2 < 1/2 *)
    assert (M : tanh t = / 2).
    { unfold tanh, sinh, cosh. pose proof (exp_pos t). pose proof (exp_pos (- t)).
      apply (Rmult_eq_reg_r ((exp t + exp (-t)) / 2)); [|lra]. unfold Rdiv at 1. rewrite Rmult_assoc, Rinv_l by lra. lra. }
    assert (tanh t <= tanh (/ 2)).
    { unfold tanh, sinh, cosh. rewrite !exp_Ropp.
      pose proof (exp_increasing t (/2) T). pose proof (exp_pos t).
      set (p := exp t) in *. set (q := exp (/ 2)) in *.
      assert (E : forall z, 0 < z -> (z - / z) / 2 / ((z + / z) / 2) = 1 - 2 / (z * z + 1)) by (intros; field; repeat split; nra).
      rewrite !E by lra. assert (2 / (q * q + 1) <= 2 / (p * p + 1)); [|lra].
      apply Rmult_le_compat_l; [lra|]. apply Rinv_le_contravar; nra. }
    unfold t in T. rewrite M in H0. lra.
  - exists 1. split; [exists 2; split; auto; split; [lra|lra]|].
    intros [_ [_ H]]. rewrite ln_exp in H. assert (ln 2 = 1) by lra.
    assert (2 = exp 1) by (rewrite <- H0; symmetry; apply exp_ln; lra).
    pose proof (exp_ineq1 1 ltac:(lra)). lra.
  - exists 1. split; [exists 10; split; auto; split; [lra|lra]|].
    intros [_ [_ H]]. rewrite ln_exp in H. assert (ln 10 = 1) by lra.
    assert (10 = exp 1) by (rewrite <- H0; symmetry; apply exp_ln; lra).
    pose proof exp_le_3. lra.
Qed.

(** binary *)
Lemma binary_means o a b : bmeans o a b (binary o (Some a) (Some b)).
Proof.
  unfold binary. destruct o; cbn; try (split; auto; lra).
  - apply when_valued; intros H.
    + apply Bool.negb_true_iff, eqbF in H. split; auto. field; auto.
    + apply Bool.negb_false_iff, eqbP in H. auto.
  - split; auto. unfold truth, b2r. destruct (ltb a b) eqn:E; [apply ltbP in E|apply ltbF in E]; auto.
  - split; auto. unfold truth, b2r. destruct (ltb b a) eqn:E; [apply ltbP in E|apply ltbF in E]; auto.
  - split; auto. unfold truth, b2r. destruct (leb a b) eqn:E; [apply lebP in E|apply lebF in E]; auto.
  - split; auto. unfold truth, b2r. destruct (leb b a) eqn:E; [apply lebP in E|apply lebF in E]; [left|right]; lra.
  - split; auto. unfold truth, b2r. destruct (eqb a b) eqn:E; [apply eqbP in E|apply eqbF in E]; auto.
  - split; auto. unfold truth, b2r. destruct (eqb a b) eqn:E; [apply eqbP in E|apply eqbF in E]; cbn; auto.
Qed.

(** GPU *)
Lemma opencl_own f c : opencl_kernel (functor_of f) = Some c -> c = own_core f.
Proof. destruct f; cbn; congruence. Qed.
Lemma cuda_own f c : cuda_kernel (functor_of f) = Some c -> c = own_core f.
Proof. destruct f; cbn; congruence. Qed.

(** arrays, through the evaluation loops of Assign *)
Lemma assigned_unary f st lhs id n st' : misnamed f = false -> length (st id) = n ->
  assigned st lhs (EUn (unary f) (EArr id)) n st' ->
  forall i x, nth_error (st id) i = Some (Some x) -> exists r, nth_error (st' lhs) i = Some r /\ means f x r.
Proof.
  intros Hf Hl (_ & _ & H) i x Hx.
  assert (Hi : (i < n)%nat) by (rewrite <- Hl; apply nth_error_Some; congruence).
  destruct (H i Hi) as (y & V & E). cbn [value] in V. rewrite Hx in V. injection V as <-.
  eexists. split; [exact E|]. apply unary_means; auto.
Qed.

Lemma assigned_binary o st lhs e1 e2 n st' : operands_have st e1 n -> operands_have st e2 n ->
  assigned st lhs (EBin (binary o) e1 e2) n st' ->
  forall i x y, (i < n)%nat -> value st e1 i = Some (Some x) -> value st e2 i = Some (Some y) ->
  exists r, nth_error (st' lhs) i = Some r /\ bmeans o x y r.
Proof.
  intros _ _ (_ & _ & H) i x y Hi Hx Hy. destruct (H i Hi) as (v & V & E). cbn [value] in V.
  rewrite Hx, Hy in V. injection V as <-. eexists. split; [exact E|]. apply binary_means.
Qed.
