From Coq Require Import Reals Lra Lia ZArith List.
From Coquelicot Require Import Coquelicot.
From Coq Require Import ZifyNat ZifyBool.
From Verif Require Import Base BaseProofs DualModel DualSpec.
Import ListNotations.
Local Open Scope R_scope.
Ltac Zify.zify_post_hook ::= idtac.

Lemma lim_eq f x l l' : derivable_pt_lim f x l -> l = l' -> derivable_pt_lim f x l'.
Proof. intros; subst; auto. Qed.

(** ** The library functions *)
Lemma up_int n : (up (IZR n) - 1 = n)%Z.
Proof.
  assert (n + 1 = up (IZR n))%Z; [|lia].
  apply up_tech; [lra|]. rewrite plus_IZR. lra.
Qed.
Lemma cpow_pos x y : 0 < x -> cpow x y = Rpower x y.
Proof. unfold cpow. destruct Rlt_dec; tauto. Qed.
Lemma cpow_int x n : cpow x (IZR n) = powerRZ x n.
Proof.
  unfold cpow. destruct Rlt_dec as [H|H].
  - symmetry. now apply powerRZ_Rpower.
  - rewrite up_int. destruct Req_EM_T; tauto.
Qed.
Lemma cbrt_pos x : 0 < x -> cbrt x = Rpower x (/ 3).
Proof. unfold cbrt. destruct Rlt_dec; tauto. Qed.
Lemma cbrt_neg x : x < 0 -> cbrt x = - Rpower (- x) (/ 3).
Proof. intros. unfold cbrt. destruct Rlt_dec; [lra|]. destruct Rlt_dec; tauto. Qed.

Lemma d_cbrt_pos v : 0 < v -> derivable_pt_lim cbrt v (1 / (3 * cbrt (v * v))).
Proof.
  intros Hv.
  apply derivable_pt_lim_locally_ext with (f := fun t => Rpower t (/ 3)) (a := 0) (b := v + 1); [lra| |].
  - intros z Hz. symmetry. apply cbrt_pos; lra.
  - eapply lim_eq; [apply derivable_pt_lim_power; auto|].
    rewrite cbrt_pos by nra.
    rewrite <- Rpower_mult_distr by auto. rewrite <- Rpower_plus.
    replace (/ 3 - 1) with (- (/ 3 + / 3)) by lra. rewrite Rpower_Ropp. field.
    apply Rgt_not_eq, exp_pos.
Qed.
Lemma d_cbrt v : v <> 0 -> derivable_pt_lim cbrt v (1 / (3 * cbrt (v * v))).
Proof.
  intros Hv. destruct (Rlt_dec 0 v) as [P|P]; [now apply d_cbrt_pos|].
  assert (N : v < 0) by lra. clear P Hv.
  apply derivable_pt_lim_locally_ext with (f := fun t => - cbrt (- t)) (a := v - 1) (b := 0); [lra| |].
  - intros z Hz. rewrite (cbrt_neg z), cbrt_pos by lra. reflexivity.
  - eapply lim_eq.
    + apply derivable_pt_lim_opp with (f := fun t => cbrt (- t)).
      apply (derivable_pt_lim_comp Ropp cbrt v).
      * apply derivable_pt_lim_opp with (f := fun t => t). apply derivable_pt_lim_id.
      * apply d_cbrt_pos. lra.
    + replace (- v * - v) with (v * v) by ring. ring.
Qed.

Lemma d_powerRZ v n : v <> 0 \/ (1 <= n)%Z -> derivable_pt_lim (fun t => powerRZ t n) v (IZR n * powerRZ v (n - 1)).
Proof.
  intros H. destruct n as [|p|p].
  - eapply lim_eq; [apply derivable_pt_lim_const|]. ring.
  - cbn [powerRZ]. eapply lim_eq; [apply derivable_pt_lim_pow|].
    rewrite INR_IZR_INZ, positive_nat_Z. f_equal.
    replace (Z.pos p - 1)%Z with (Z.of_nat (pred (Pos.to_nat p))) by lia.
    apply pow_powerRZ.
  - assert (Hv : v <> 0) by (destruct H; [auto|lia]).
    assert (Hp : v ^ Pos.to_nat p <> 0) by now apply pow_nonzero.
    cbn [powerRZ]. eapply lim_eq.
    + apply derivable_pt_lim_locally_ext with (f := div_fct (fun _ => 1) (fun t => t ^ Pos.to_nat p)) (a := v - 1) (b := v + 1); [lra| |].
      * intros. unfold div_fct. lra.
      * apply derivable_pt_lim_div; [apply derivable_pt_lim_const|apply derivable_pt_lim_pow|auto].
    + replace (Z.neg p - 1)%Z with (- Z.of_nat (S (Pos.to_nat p)))%Z by lia.
      rewrite powerRZ_neg', <- pow_powerRZ.
      replace (IZR (Z.neg p)) with (- INR (Pos.to_nat p)) by (rewrite INR_IZR_INZ, positive_nat_Z; symmetry; apply (opp_IZR (Z.pos p))).
      destruct (Pos2Nat.is_succ p) as [k Hk]. rewrite Hk in *. cbn [pred]. unfold Rsqr.
      assert (v ^ k <> 0) by now apply pow_nonzero.
      cbn [pow]. field. auto.
Qed.

Lemma d_cpow_l v y : power_ok v y -> derivable_pt_lim (fun t => cpow t y) v (y * cpow v (y - 1)).
Proof.
  intros [P|(n & -> & H)].
  - apply derivable_pt_lim_locally_ext with (f := fun t => Rpower t y) (a := 0) (b := v + 1); [lra| |].
    + intros z Hz. symmetry. apply cpow_pos. lra.
    + rewrite cpow_pos by auto. now apply derivable_pt_lim_power.
  - rewrite <- minus_IZR, cpow_int.
    apply derivable_pt_lim_ext with (f := fun t => powerRZ t n); [intros; symmetry; apply cpow_int|].
    apply d_powerRZ. destruct H as [?|[? ?]]; [left; lra|right; auto].
Qed.
Lemma d_cpow_r c v : 0 < c -> derivable_pt_lim (fun t => cpow c t) v (ln c * cpow c v).
Proof.
  intros Hc. rewrite cpow_pos by auto.
  apply derivable_pt_lim_ext with (f := fun t => exp (t * ln c)).
  - intros. rewrite cpow_pos; auto.
  - apply is_derive_Reals. unfold Rpower. auto_derive; auto. ring.
Qed.

Lemma d_std f v : smooth_at f v -> derivable_pt_lim (std f) v (derivative (fun1 f (mk v 1))).
Proof.
  destruct f; cbn [std fun1 smooth_at value derivative]; intros H.
  - eapply lim_eq; [apply derivable_pt_lim_sin|ring].
  - eapply lim_eq; [apply derivable_pt_lim_cos|ring].
  - eapply lim_eq; [apply derivable_pt_lim_div with (f1 := sin) (f2 := cos);
      [apply derivable_pt_lim_sin|apply derivable_pt_lim_cos|auto]|].
    pose proof (sin2_cos2 v) as E. unfold Rsqr in *.
    replace 1 with (sin v * sin v + cos v * cos v). field. auto.
  - eapply lim_eq; [apply derive_pt_eq_1 with (pr := derivable_pt_asin v H); apply derive_pt_asin|]. reflexivity.
  - eapply lim_eq; [apply derive_pt_eq_1 with (pr := derivable_pt_acos v H); apply derive_pt_acos|]. reflexivity.
  - eapply lim_eq; [apply derivable_pt_lim_atan|]. unfold Rsqr. field. nra.
  - eapply lim_eq; [apply derivable_pt_lim_sinh|ring].
  - eapply lim_eq; [apply derivable_pt_lim_cosh|ring].
  - assert (C : cosh v <> 0) by (unfold cosh; pose proof (exp_pos v); pose proof (exp_pos (- v)); lra).
    eapply lim_eq; [apply derivable_pt_lim_div with (f1 := sinh) (f2 := cosh);
      [apply derivable_pt_lim_sinh|apply derivable_pt_lim_cosh|auto]|].
    unfold Rsqr. assert (E : cosh v * cosh v - sinh v * sinh v = 1).
    { unfold cosh, sinh. assert (Q : exp v * exp (- v) = 1) by (rewrite <- exp_plus, Rplus_opp_r; apply exp_0). nra. }
    rewrite E. reflexivity.
  - eapply lim_eq; [apply derivable_pt_lim_arcsinh|]. replace (v ^ 2 + 1) with (1 + v * v) by ring. unfold Rdiv. ring.
  - assert (P : 0 < v * v - 1) by nra. assert (Q := sqrt_lt_R0 _ P).
    apply is_derive_Reals. unfold std. auto_derive; replace (v * v + - (1)) with (v * v - 1) by ring; [repeat split; auto; lra|].
    field. lra.
  - apply is_derive_Reals. unfold std. auto_derive; [|field; nra].
    split; [lra|]. split; [|auto]. apply Rdiv_lt_0_compat; lra.
  - eapply lim_eq; [apply derivable_pt_lim_exp|ring].
  - apply is_derive_Reals. unfold std, Rpower. auto_derive; auto. ring.
  - apply is_derive_Reals. unfold std, Rpower. auto_derive; auto. ring.
  - eapply lim_eq; [apply derivable_pt_lim_ln; auto|]. field; lra.
  - assert (ln 10 <> 0) by (apply Rgt_not_eq; rewrite <- ln_1; apply ln_increasing; lra).
    apply is_derive_Reals. unfold std. auto_derive; auto. field; lra.
  - assert (ln 2 <> 0) by (apply Rgt_not_eq; rewrite <- ln_1; apply ln_increasing; lra).
    apply is_derive_Reals. unfold std. auto_derive; auto. field; lra.
  - eapply lim_eq; [apply derivable_pt_lim_sqrt; auto|]. unfold Rdiv. ring.
  - now apply d_cbrt.
Qed.

Lemma fun1_value f a : value (fun1 f a) = std f (value a).
Proof. destruct f; reflexivity. Qed.
Lemma fun1_linear f a : derivative (fun1 f a) = derivative (fun1 f (mk (value a) 1)) * derivative a.
Proof. destruct f; cbn [fun1 value derivative]; unfold Rdiv; ring. Qed.

(** ** Expressions *)
Lemma deval_value e d : value (deval e d) = reval e (value d).
Proof.
  induction e; cbn [deval reval neg pos value pow_r pow_l pow_d]; try congruence; try destruct o; cbn [bin bin_r bin_l value arith]; try congruence.
  rewrite fun1_value. congruence.
Qed.

(** seeds are carried linearly *)
Lemma deval_seed e v d : derivative (deval e (mk v d)) = derivative (deval e (mk v 1)) * d.
Proof.
  induction e; cbn [deval neg pos derivative value pow_r pow_l pow_d]; rewrite ?deval_value; cbn [value]; try lra.
  - destruct o; cbn [bin derivative value]; rewrite ?deval_value, ?IHe1, ?IHe2; cbn [value]; unfold Rdiv; ring.
  - destruct o; cbn [bin_r derivative value]; rewrite ?IHe; unfold Rdiv; ring.
  - destruct o; cbn [bin_l derivative value]; rewrite ?deval_value, ?IHe; cbn [value]; unfold Rdiv; ring.
  - rewrite fun1_linear, (fun1_linear f (deval e (mk v 1))), !deval_value, IHe. cbn [value]. ring.
  - rewrite IHe. ring.
  - rewrite IHe. ring.
  - rewrite IHe1, IHe2. unfold Rdiv. ring.
Qed.

Lemma deval_curve e : forall (g : R -> R) t d,
  derivable_pt_lim g t d -> smooth e (g t) ->
  derivable_pt_lim (fun s => reval e (g s)) t (derivative (deval e (mk (g t) d))).
Proof.
  induction e as [| c | e IH | e IH | o l IHl r IHr | o l IHl c | o c r IHr | f e IH | e IH y | c e IH | l IHl r IHr];
    intros g t d Hg Hs; cbn [deval reval smooth] in *.
  - exact Hg.
  - apply derivable_pt_lim_const.
  - cbn [neg derivative]. apply derivable_pt_lim_opp with (f := fun s => reval e (g s)). auto.
  - cbn [pos derivative]. auto.
  - destruct Hs as (Hl & Hr & Hd). specialize (IHl g t d Hg Hl). specialize (IHr g t d Hg Hr).
    destruct o; cbn [bin derivative value arith divisor_ok] in *; rewrite ?deval_value; cbn [value].
    + now apply derivable_pt_lim_plus with (f1 := fun s => reval l (g s)) (f2 := fun s => reval r (g s)).
    + now apply derivable_pt_lim_minus with (f1 := fun s => reval l (g s)) (f2 := fun s => reval r (g s)).
    + now apply derivable_pt_lim_mult with (f1 := fun s => reval l (g s)) (f2 := fun s => reval r (g s)).
    + eapply lim_eq; [apply derivable_pt_lim_div with (f1 := fun s => reval l (g s)) (f2 := fun s => reval r (g s)); eauto|].
      unfold Rsqr, Rdiv. ring.
  - destruct Hs as (Hl & Hd). specialize (IHl g t d Hg Hl).
    destruct o; cbn [bin_r derivative value arith divisor_ok] in *.
    + eapply lim_eq; [apply derivable_pt_lim_plus with (f1 := fun s => reval l (g s)) (f2 := fun _ => c); [eauto|apply derivable_pt_lim_const]|ring].
    + eapply lim_eq; [apply derivable_pt_lim_minus with (f1 := fun s => reval l (g s)) (f2 := fun _ => c); [eauto|apply derivable_pt_lim_const]|ring].
    + eapply lim_eq; [apply derivable_pt_lim_mult with (f1 := fun s => reval l (g s)) (f2 := fun _ => c); [eauto|apply derivable_pt_lim_const]|ring].
    + eapply lim_eq; [apply derivable_pt_lim_div with (f1 := fun s => reval l (g s)) (f2 := fun _ => c); [eauto|apply derivable_pt_lim_const|auto]|].
      unfold Rsqr. field. auto.
  - destruct Hs as (Hr & Hd). specialize (IHr g t d Hg Hr).
    destruct o; cbn [bin_l derivative value arith divisor_ok] in *; rewrite ?deval_value; cbn [value].
    + eapply lim_eq; [apply derivable_pt_lim_plus with (f2 := fun s => reval r (g s)) (f1 := fun _ => c); [apply derivable_pt_lim_const|eauto]|ring].
    + eapply lim_eq; [apply derivable_pt_lim_minus with (f2 := fun s => reval r (g s)) (f1 := fun _ => c); [apply derivable_pt_lim_const|eauto]|ring].
    + eapply lim_eq; [apply derivable_pt_lim_mult with (f2 := fun s => reval r (g s)) (f1 := fun _ => c); [apply derivable_pt_lim_const|eauto]|ring].
    + eapply lim_eq; [apply derivable_pt_lim_div with (f2 := fun s => reval r (g s)) (f1 := fun _ => c); [apply derivable_pt_lim_const|eauto|auto]|].
      unfold Rsqr. field. auto.
  - destruct Hs as (He & Hf). specialize (IH g t d Hg He).
    rewrite fun1_linear, deval_value. cbn [value].
    apply (derivable_pt_lim_comp (fun s => reval e (g s)) (std f) t); auto. now apply d_std.
  - destruct Hs as (He & Hp). specialize (IH g t d Hg He).
    cbn [pow_r derivative]. rewrite deval_value. cbn [value].
    apply (derivable_pt_lim_comp (fun s => reval e (g s)) (fun z => cpow z y) t); auto. now apply d_cpow_l.
  - destruct Hs as (He & Hp). specialize (IH g t d Hg He).
    cbn [pow_l derivative std]. rewrite deval_value. cbn [value].
    apply (derivable_pt_lim_comp (fun s => reval e (g s)) (fun z => cpow c z) t); auto. now apply d_cpow_r.
  - destruct Hs as (Hl & Hr & Hp). specialize (IHl g t d Hg Hl). specialize (IHr g t d Hg Hr).
    cbn [pow_d derivative std]. rewrite !deval_value. cbn [value].
    set (a := derivative (deval l (mk (g t) d))) in *. set (b := derivative (deval r (mk (g t) d))) in *.
    apply is_derive_Reals.
    apply is_derive_ext_loc with (f := fun s => exp (reval r (g s) * ln (reval l (g s)))).
    + assert (Cl : continuous (fun s => reval l (g s)) t).
      { apply (ex_derive_continuous (V := R_NormedModule) (fun s => reval l (g s))). exists a. now apply is_derive_Reals. }
      assert (L : locally t (fun s => 0 < reval l (g s))).
      { apply (Cl (fun z => 0 < z)). apply open_gt. exact Hp. }
      revert L. apply filter_imp. intros s Hsp. rewrite cpow_pos by auto. reflexivity.
    + apply is_derive_Reals in IHl. apply is_derive_Reals in IHr.
      rewrite cpow_pos by auto. unfold Rpower.
      replace (exp (reval r (g t) * ln (reval l (g t))) * (b * ln (reval l (g t)) + reval r (g t) * a / reval l (g t)))
        with ((b * ln (reval l (g t)) + reval r (g t) * (a * / reval l (g t))) * exp (reval r (g t) * ln (reval l (g t)))) by (unfold Rdiv; ring).
      apply (is_derive_comp exp (fun s => reval r (g s) * ln (reval l (g s))) t).
      * apply is_derive_Reals, derivable_pt_lim_exp.
      * apply (is_derive_mult (fun s => reval r (g s)) (fun s => ln (reval l (g s))) t); auto.
        -- apply (is_derive_comp ln (fun s => reval l (g s)) t); auto.
           apply is_derive_Reals, derivable_pt_lim_ln. auto.
        -- intros; apply Rmult_comm.
Qed.

Lemma deval_derivative e x : smooth e x -> derivable_pt_lim (reval e) x (derivative (deval e (mk x 1))).
Proof. intros H. apply (deval_curve e (fun s => s) x 1); auto. apply derivable_pt_lim_id. Qed.

(** ** Device kernels *)
Lemma kernel_item_ok o dst lhs rhs m lv ld rv rd_ :
  (S dst < length m)%nat ->
  nth_error m lhs = Some lv -> nth_error m (S lhs) = Some ld ->
  nth_error m rhs = Some rv -> nth_error m (S rhs) = Some rd_ ->
  (S dst < lhs \/ S lhs < dst)%nat \/ (o = Add \/ o = Sub) /\ dst = lhs ->
  (S dst < rhs \/ S rhs < dst)%nat \/ (o = Add \/ o = Sub) /\ dst = rhs ->
  exists m', kernel_item o dst lhs rhs m = Ok m'
    /\ length m' = length m
    /\ nth_error m' dst = Some (value (bin o (mk lv ld) (mk rv rd_)))
    /\ nth_error m' (S dst) = Some (derivative (bin o (mk lv ld) (mk rv rd_)))
    /\ forall j, j <> dst -> j <> S dst -> nth_error m' j = nth_error m j.
Proof.
  intros Hd Hlv Hld Hrv Hrd Al Ar.
  unfold kernel_item, rd. rewrite Hlv, Hrv. cbn [bind].
  rewrite wr_Ok by lia. cbn [bind].
  rewrite !nth_error_upd.
  assert (E1 : (dst =? S lhs)%nat = false) by (destruct Al as [?|[_ ?]]; apply Nat.eqb_neq; lia).
  assert (E2 : (dst =? S rhs)%nat = false) by (destruct Ar as [?|[_ ?]]; apply Nat.eqb_neq; lia).
  rewrite E1, E2. cbn [andb]. rewrite Hld, Hrd.
  replace ((dst <? length m)%nat) with true by (symmetry; apply Nat.ltb_lt; lia).
  rewrite !Bool.andb_true_r, Hlv, Hrv.
  destruct (Nat.eqb_spec dst lhs) as [El|El], (Nat.eqb_spec dst rhs) as [Er|Er]; cbn [bind];
    (rewrite wr_Ok by (rewrite upd_length; lia)); eexists; (split; [reflexivity|]);
    rewrite !upd_length, !nth_error_upd, !upd_length;
    replace ((S dst <? length m)%nat) with true by (symmetry; apply Nat.ltb_lt; lia);
    replace ((dst <? length m)%nat) with true by (symmetry; apply Nat.ltb_lt; lia);
    replace ((S dst =? dst)%nat) with false by (symmetry; apply Nat.eqb_neq; lia);
    rewrite !Nat.eqb_refl; cbn [andb];
    (split; [reflexivity|]); (split; [destruct o; reflexivity|]);
    (split; [|intros j J1 J2; rewrite !nth_error_upd;
       replace ((S dst =? j)%nat) with false by (symmetry; apply Nat.eqb_neq; lia);
       replace ((dst =? j)%nat) with false by (symmetry; apply Nat.eqb_neq; lia); reflexivity]).
  - destruct Al as [?|[[-> | ->] _]]; [lia| |]; reflexivity.
  - destruct Al as [?|[[-> | ->] _]]; [lia| |]; reflexivity.
  - destruct Ar as [?|[[-> | ->] _]]; [lia| |]; reflexivity.
  - destruct o; reflexivity.
Qed.

(** ** Sigmoid *)
Lemma sig_den x : 0 < 1 + exp (- x).
Proof. pose proof (exp_pos (- x)). lra. Qed.
Lemma forward_pos x : 0 < forward x.
Proof. unfold forward. apply Rdiv_lt_0_compat; [lra|apply sig_den]. Qed.
Lemma forward_lt1 x : forward x < 1.
Proof.
  unfold forward. pose proof (exp_pos (- x)). apply (Rmult_lt_reg_r (1 + exp (- x))); [lra|].
  unfold Rdiv. rewrite Rmult_assoc, Rinv_l by lra. lra.
Qed.
Lemma forward_incr x y : x < y -> forward x < forward y.
Proof.
  intros H. unfold forward, Rdiv. rewrite !Rmult_1_l.
  apply Rinv_lt_contravar; [apply Rmult_lt_0_compat; apply sig_den|].
  assert (exp (- y) < exp (- x)) by (apply exp_increasing; lra). lra.
Qed.
Lemma forward_deriv x : derivable_pt_lim forward x (backward (forward x)).
Proof.
  pose proof (sig_den x).
  apply is_derive_Reals. unfold forward, backward. auto_derive; [lra|]. field. lra.
Qed.
Lemma forward_sym x : forward (- x) = 1 - forward x.
Proof.
  unfold forward. rewrite Ropp_involutive. pose proof (exp_pos x).
  rewrite (exp_Ropp x). field. lra.
Qed.
Lemma forward_chain g t d : derivable_pt_lim g t d ->
  derivable_pt_lim (fun s => forward (g s)) t (backward (forward (g t)) * d).
Proof. intros. apply (derivable_pt_lim_comp g forward t); auto. apply forward_deriv. Qed.
Lemma network_gradient ls : forall x, derivable_pt_lim (network ls) x (gradient ls x).
Proof.
  induction ls as [|[w b] ls IH]; intros x; cbn [network gradient].
  - apply derivable_pt_lim_id.
  - apply (derivable_pt_lim_comp (fun s => forward (w * s + b)) (network ls) x); [|apply IH].
    apply (forward_chain (fun s => w * s + b)). apply is_derive_Reals. auto_derive; auto. ring.
Qed.
Lemma backward_bounds y : 0 < y < 1 -> 0 < backward y <= / 4.
Proof. unfold backward. intros. pose proof (Rle_0_sqr (y - / 2)). unfold Rsqr in *. nra. Qed.
Lemma forward_int_0 x : forward_int x = 0%Z.
Proof.
  unfold forward_int. assert (1 = up (forward (IZR x)))%Z; [|lia].
  apply (up_tech _ 0); [left; apply forward_pos|apply forward_lt1].
Qed.
Lemma compound_exact a b :
  (assign Mul a b = bin Mul a b <-> derivative b = 0 \/ value a = 0 \/ value b = 1)
  /\ (value b <> 0 ->
      (assign Div a b = bin Div a b <-> derivative b = 0 \/ value a = 0 \/ value b = 1)).
Proof.
  destruct a as [v d], b as [w e]. cbn [assign bin value derivative].
  split; [|intros Hw]; (split; [intros E; apply (f_equal derivative) in E; cbn [derivative] in E|intros E; f_equal]).
  - assert (Q : e * (v * (w - 1)) = 0) by lra.
    apply Rmult_integral in Q as [Q|Q]; auto. apply Rmult_integral in Q as [Q|Q]; auto. right; right; lra.
  - destruct E as [-> |[-> | ->]]; ring.
  - assert (Q : e * (v * (w - 1)) = 0).
    { apply Rdiv_eq_reg_r in E || (unfold Rdiv in E; apply Rmult_eq_reg_r in E); [|nra..|apply Rinv_neq_0_compat; nra].
      assert (E' : v * / w * e * w = v * e * w) by (f_equal; lra).
      replace (v * / w * e * w) with (v * e) in E' by (field; auto). lra. }
    apply Rmult_integral in Q as [Q|Q]; auto. apply Rmult_integral in Q as [Q|Q]; auto. right; right; lra.
  - destruct E as [-> |[-> | ->]]; field; auto; lra.
Qed.

Lemma kernel_in_place : exists m m',
  kernel_item Mul 0 0 2 m = Ok m' /\ m = [2; 1; 3; 1]
  /\ derivative (bin Mul (mk 2 1) (mk 3 1)) = 5
  /\ nth_error m' 1 = Some 9.
Proof.
  do 2 eexists. split; [|split; [reflexivity|split]].
  - reflexivity.
  - cbn. lra.
  - cbn. f_equal. lra.
Qed.

Lemma sigmoid_dual x :
  deval (BinL Div 1 (BinL Add 1 (Fun Exp (Neg X)))) (mk x 1) = mk (forward x) (backward (forward x)).
Proof.
  cbn. unfold forward, backward. pose proof (sig_den x). f_equal. field. lra.
Qed.
