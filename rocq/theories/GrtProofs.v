(** Proofs for C116. *)
From Coq Require Import ZArith Reals List Lia Lra Bool.
From Flocq Require Import Core Relative Plus_error BinarySingleNaN.
From Verif Require Import Base BaseProofs BlasModel BlasSpec BlasProofs AccModel AccSpec AccProofs NumModel NumSpec NumBasics NrmModel NrmSpec
  NrmFloat CsqModel CsqError GrtModel GrtSpec.
From Coq Require Import ZifyNat ZifyN ZifyBool.
Ltac Zify.zify_post_hook ::= idtac.
Local Open Scope R_scope.

Section Float.
Variables prec emax : Z.
Context (Hp : Prec_gt_0 prec) (Hm : Prec_lt_emax prec emax).
Hypothesis (P24 : (24 <= prec)%Z) (PE : (3 * prec + 8 <= emax)%Z).
Local Notation num := (binary_float prec emax).
Local Notation fzero := (fzero prec emax).
Local Notation fadd := (fadd prec emax Hp Hm).
Local Notation fmul := (fmul prec emax Hp Hm).
Local Notation fdiv := (fdiv prec emax Hp Hm).
Local Notation fabs := (fabs prec emax).
Local Notation fneg := (fneg prec emax).
Local Notation fsqrt := (fsqrt prec emax Hp Hm).
Local Notation flt := (flt prec emax).
Local Notation feq := (feq prec emax).
Local Notation rn := (nearest prec emax).
Local Notation u := (unit_roundoff prec).
Local Notation eta := (underflow_unit prec emax).
Local Notation format := (generic_format radix2 (FLT_exp (3 - emax - prec) prec)).
Local Notation is := (is prec emax).
Local Notation near := (near u).
Local Notation safe := (safe prec emax).

Lemma u_ok : 0 < u <= / 1048576.
Proof. split; [apply u_pos|apply u_small; auto]. Qed.
Lemma eta_ok : 0 < eta /\ 64 * eta <= u.
Proof. split; [apply eta_pos|apply small_eta; auto; lia]. Qed.

(** ** The length *)
Definition root (a b : num) : num :=
  let scale := fadd (fabs a) (fabs b) in
  let x := fdiv (fabs a) scale in let y := fdiv (fabs b) scale in fmul scale (fsqrt (fadd (fmul x x) (fmul y y))).
Lemma length_pos a b : 0 < length2 a b -> 0 < a * a + b * b.
Proof. unfold length2. intros H. destruct (Rle_lt_dec (a * a + b * b) 0) as [L|L]; [|auto]. rewrite sqrt_neg_0 in H by auto. lra. Qed.
Lemma length_square a b : length2 a b * length2 a b = a * a + b * b.
Proof. apply sqrt_sqrt. nra. Qed.
Lemma length_ge a b : Rabs a <= length2 a b /\ Rabs b <= length2 a b.
Proof.
  unfold length2. split; rewrite <- sqrt_Rsqr_abs; apply sqrt_le_1_alt; unfold Rsqr; nra.
Qed.
Lemma length_le a b : length2 a b <= Rabs a + Rabs b.
Proof.
  unfold length2. pose proof (Rabs_pos a) as A. pose proof (Rabs_pos b) as B. rewrite <- (sqrt_square (Rabs a + Rabs b)) by lra.
  apply sqrt_le_1_alt. assert (a * a = Rabs a * Rabs a) by (rewrite <- Rabs_mult; symmetry; apply Rabs_pos_eq; nra).
  assert (b * b = Rabs b * Rabs b) by (rewrite <- Rabs_mult; symmetry; apply Rabs_pos_eq; nra). nra.
Qed.
Lemma scale_ok (a b : num) : is_finite a = true -> is_finite b = true -> in_range emax (B2R a) (B2R b) ->
  let scale := fadd (fabs a) (fabs b) in let S := B2R scale in
  is_finite scale = true /\ Rabs (B2R a) <= S /\ Rabs (B2R b) <= S /\ 0 < S /\ S * S <= 3 * (B2R a * B2R a + B2R b * B2R b).
Proof.
  intros FA FB [L T] scale S. pose proof u_ok as U. pose proof (bpow_gt_0 radix2 (7 - emax)) as B0.
  destruct (fabs_ok prec emax a FA) as [GA VA]. destruct (fabs_ok prec emax b FB) as [GB VB].
  assert (GE : Rabs (B2R a) + Rabs (B2R b) <= bpow radix2 (emax - 2)) by exact T.
  pose proof (Rabs_pos (B2R a)) as A0. pose proof (Rabs_pos (B2R b)) as B0'.
  destruct (fadd_small prec emax Hp Hm _ _ GA GB) as [G V].
  { rewrite VA, VB. apply (rn_small prec emax Hp _ (emax - 2)); try lia. rewrite Rabs_pos_eq by lra. exact GE. }
  rewrite VA, VB in V. fold scale in G, V. fold S in V.
  assert (FmA : format (Rabs (B2R a))) by (rewrite <- VA; apply num_format). assert (FmB : format (Rabs (B2R b))) by (rewrite <- VB; apply num_format).
  assert (SA : Rabs (B2R a) <= S) by (rewrite V; apply rn_ge_format; auto; lra).
  assert (SB : Rabs (B2R b) <= S) by (rewrite V; apply rn_ge_format; auto; lra).
  pose proof (length_pos (B2R a) (B2R b) ltac:(lra)) as LP. pose proof (length_le (B2R a) (B2R b)) as LL.
  pose proof (add_rel prec emax Hp _ _ FmA FmB) as AR. rewrite <- V in AR. rewrite (Rabs_pos_eq (_ + _)) in AR by lra.
  pose proof (v_le prec) as VL. apply Rabs_le_inv in AR.
  assert (SU : S <= (Rabs (B2R a) + Rabs (B2R b)) * (1 + / 1048576)).
  { assert (u / (1 + u) * (Rabs (B2R a) + Rabs (B2R b)) <= / 1048576 * (Rabs (B2R a) + Rabs (B2R b))) by (apply Rmult_le_compat_r; lra). lra. }
  split; [exact G|]. split; [exact SA|]. split; [exact SB|].
  assert (S0 : 0 < S).
  { destruct (Rle_lt_dec S 0) as [K|K]; [|exact K]. exfalso. lra. }
  split; [exact S0|]. set (P := Rabs (B2R a) + Rabs (B2R b)) in *.
  assert (PP : P * P <= 2 * (B2R a * B2R a + B2R b * B2R b)).
  { assert (E1 : B2R a * B2R a = Rabs (B2R a) * Rabs (B2R a)) by (rewrite <- Rabs_mult; symmetry; apply Rabs_pos_eq; nra).
    assert (E2 : B2R b * B2R b = Rabs (B2R b) * Rabs (B2R b)) by (rewrite <- Rabs_mult; symmetry; apply Rabs_pos_eq; nra).
    rewrite E1, E2. unfold P. pose proof (Rle_0_sqr (Rabs (B2R a) - Rabs (B2R b))) as Q. unfold Rsqr in Q. lra. }
  apply Rle_trans with ((P * (1 + / 1048576)) * (P * (1 + / 1048576))); [apply Rmult_le_compat; lra|]. 
  replace (P * (1 + / 1048576) * (P * (1 + / 1048576))) with (P * P * ((1 + / 1048576) * (1 + / 1048576))) by ring.
  assert (0 <= P * P) by nra. lra.
Qed.
Lemma root_ok (a b : num) : is_finite a = true -> is_finite b = true -> in_range emax (B2R a) (B2R b) ->
  is 6 (root a b) (length2 (B2R a) (B2R b)).
Proof.
  intros FA FB IR. destruct (scale_ok a b FA FB IR) as (G & SA & SB & S0 & SS). destruct IR as [L T].
  pose proof u_ok as U. pose proof eta_ok as E. pose proof (bpow_gt_0 radix2 (7 - emax)) as B0. unfold root.
  set (scale := fadd (fabs a) (fabs b)) in *. set (S := B2R scale) in *.
  destruct (fabs_ok prec emax a FA) as [GA VA]. destruct (fabs_ok prec emax b FB) as [GB VB].
  pose proof (rounded_square_good prec emax Hp Hm ltac:(lia) ltac:(lia)) as SQ.
  destruct (quotient prec emax Hp Hm ltac:(lia) ltac:(lia) (fun r => fmul r r) SQ (fabs a) scale GA G) as (X & F1 & T1 & Q1); [rewrite VA; split; [apply Rabs_pos|exact SA]|fold S; lra|].
  destruct (quotient prec emax Hp Hm ltac:(lia) ltac:(lia) (fun r => fmul r r) SQ (fabs b) scale GB G) as (Y & F2 & T2 & Q2); [rewrite VB; split; [apply Rabs_pos|exact SB]|fold S; lra|].
  fold S in X, Y, Q1, Q2. rewrite VA in X, Q1. rewrite VB in Y, Q2.
  set (x := Rabs (B2R a) / S) in *. set (y := Rabs (B2R b) / S) in *. set (t1 := fmul (fdiv (fabs a) scale) (fdiv (fabs a) scale)) in *.
  set (t2 := fmul (fdiv (fabs b) scale) (fdiv (fabs b) scale)) in *. set (N := x * x + y * y).
  assert (NV : S * S * N = B2R a * B2R a + B2R b * B2R b).
  { assert (E1 : B2R a * B2R a = Rabs (B2R a) * Rabs (B2R a)) by (rewrite <- Rabs_mult; symmetry; apply Rabs_pos_eq; nra).
    assert (E2 : B2R b * B2R b = Rabs (B2R b) * Rabs (B2R b)) by (rewrite <- Rabs_mult; symmetry; apply Rabs_pos_eq; nra).
    rewrite E1, E2. unfold N, x, y. field. lra. }
  assert (N0 : / 4 <= N).
  { destruct (Rle_lt_dec (/ 4) N) as [K|K]; [exact K|]. exfalso. assert (0 < S * S) by (apply Rmult_lt_0_compat; auto).
    assert (S * S * N < S * S * / 4) by (apply Rmult_lt_compat_l; auto). lra. }
  assert (X2 : 0 <= x * x <= 1) by (split; nra). assert (Y2 : 0 <= y * y <= 1) by (split; nra).
  assert (N1 : N <= 2) by (unfold N; lra).
  assert (NS : near 6 (B2R t1 + B2R t2) N).
  { unfold CsqError.near. apply Rabs_le. assert (u * / 4 <= u * N) by (apply Rmult_le_compat_l; lra). unfold N in *. split; lra. }
  assert (IS : is (57 / 8) (fadd t1 t2) N).
  { destruct (fadd_small prec emax Hp Hm t1 t2 F1 F2) as [G2 V2].
    { apply near_fits with 6 N; auto; try lia; try lra. split; [lra|]. apply Rle_trans with (bpow radix2 1); [exact N1|apply bpow_le; lia]. }
    split; [exact G2|]. rewrite V2. replace (57 / 8) with (6 + 9 / 8) by lra. apply near_rn; auto; try lia; try lra. right.
    assert (u * / 4 <= u * N) by (apply Rmult_le_compat_l; lra). lra. }
  assert (SN : / 2 <= sqrt N) by (rewrite <- (sqrt_square (/ 2)) by lra; apply sqrt_le_1_alt; lra).
  assert (IQ : is (19 / 4) (fsqrt (fadd t1 t2)) (sqrt N)).
  { replace (19 / 4) with (57 / 8 / 2 + 19 / 16) by lra. apply is_sqrt; auto; try lia; try lra.
    assert (u * / 2 <= u * sqrt N) by (apply Rmult_le_compat_l; lra). lra. }
  assert (LE : length2 (B2R a) (B2R b) = S * sqrt N).
  { unfold length2. rewrite <- NV. rewrite sqrt_mult_alt by nra. rewrite sqrt_square by lra. reflexivity. }
  rewrite LE. apply (is_mono prec emax (0 + 19 / 4 + 19 / 16)); [lra|apply Rmult_le_pos; lra|].
  apply is_mul; auto; try lia; try lra.
  - rewrite <- LE. eapply Rle_trans; [apply length_le|exact T].
  - right. rewrite <- LE. rewrite eta_pow. unfold unit_roundoff. apply Rle_trans with (bpow radix2 (- prec) * bpow radix2 (7 - emax)).
    + change 16 with (bpow radix2 4). rewrite <- !bpow_plus. apply bpow_le. lia.
    + apply Rmult_le_compat_l; [apply bpow_ge_0|exact L].
  - apply is_refl. exact G.
Qed.
Lemma part_ok (p r : num) L sg : is_finite p = true -> sg = 1 \/ sg = -1 -> 0 < L -> Rabs (B2R p) <= L -> is_finite r = true ->
  near 6 (sg * B2R r) L -> is_finite (fdiv p r) = true /\ Rabs (B2R (fdiv p r) - sg * (B2R p / L)) <= 8 * u * (Rabs (B2R p) / L) + eta.
Proof.
  intros Fp SG L0 PL Fr N. pose proof u_ok as U. pose proof eta_ok as E.
  pose proof (near_bounds u (proj1 U) (proj2 U) 6 _ _ ltac:(lra) (Rlt_le _ _ L0) N) as B.
  set (R := sg * B2R r) in *. assert (R0 : 0 < R) by lra. assert (RN : B2R r <> 0) by (intros Z; unfold R in R0; rewrite Z in R0; lra).
  pose proof (near_div u (proj1 U) (proj2 U) 0 6 (Rabs (B2R p)) (Rabs (B2R p)) R L ltac:(lra) ltac:(lra) (Rabs_pos _) L0 (near_refl _ _) N) as D.
  set (q := Rabs (B2R p) / L) in *. assert (Q : 0 <= q <= 1).
  { unfold q. split; [apply Rmult_le_pos; [apply Rabs_pos|left; apply Rinv_0_lt_compat; auto]|]. apply Rmult_le_reg_r with L; [auto|]. unfold Rdiv. rewrite Rmult_assoc, Rinv_l; lra. }
  pose proof (near_bounds u (proj1 U) (proj2 U) (0 + 6 + / 16) _ _ ltac:(lra) (proj1 Q) D) as BD.
  assert (AB : Rabs (B2R p / B2R r) = Rabs (B2R p) / R).
  { unfold Rdiv. rewrite Rabs_mult, Rabs_inv. f_equal. f_equal. unfold R. rewrite <- (Rabs_pos_eq (sg * B2R r)) by (fold R; lra). rewrite Rabs_mult.
    destruct SG as [-> | ->]; [rewrite Rabs_R1|rewrite (Rabs_left (-1)) by lra]; lra. }
  destruct (fdiv_small prec emax Hp Hm p r Fp RN) as [G V].
  { apply (rn_small prec emax Hp _ 1); try lia. rewrite AB. change (bpow radix2 1) with 2. lra. }
  split; [exact G|]. rewrite V. pose proof (rn_rel prec emax Hp (B2R p / B2R r)) as RR. rewrite AB in RR.
  assert (DD : Rabs (B2R p / B2R r - sg * (B2R p / L)) <= (6 + / 16) * u * q).
  { unfold CsqError.near in D. fold q in D. replace (0 + 6 + / 16) with (6 + / 16) in D by lra. eapply Rle_trans; [|exact D]. right.
    unfold q. destruct (Rle_lt_dec 0 (B2R p)) as [K|K].
    - rewrite (Rabs_pos_eq (B2R p)) by auto. rewrite <- (Rabs_Ropp (B2R p / R - B2R p / L)).
      destruct SG as [H|H]; unfold R; rewrite H.
      + rewrite Rabs_Ropp. f_equal. field. lra.
      + f_equal. field. split; lra.
    - rewrite (Rabs_left (B2R p)) by auto. rewrite <- (Rabs_Ropp (- B2R p / R - - B2R p / L)). destruct SG as [H|H]; unfold R; rewrite H.
      + f_equal. field. split; lra.
      + rewrite Rabs_Ropp. f_equal. field. split; lra. }
  replace (rn (B2R p / B2R r) - sg * (B2R p / L)) with ((rn (B2R p / B2R r) - B2R p / B2R r) + (B2R p / B2R r - sg * (B2R p / L))) by ring.
  eapply Rle_trans; [apply Rabs_triang|]. assert (u * (Rabs (B2R p) / R) <= u * (q * (1 + / 16384))) by (apply Rmult_le_compat_l; lra).
  assert (0 <= u * q) by (apply Rmult_le_pos; lra). lra.
Qed.

(** ** rotg *)
Lemma rotg_ok (a b : num) : is_finite a = true -> is_finite b = true -> in_range emax (B2R a) (B2R b) ->
  let L := length2 (B2R a) (B2R b) in let sg := sign_of (B2R a) (B2R b) in let '(r, z, c, s) := frotg prec emax Hp Hm a b in
  (is_finite r = true /\ Rabs (B2R r - sg * L) <= 6 * u * L) /\
  (is_finite c = true /\ Rabs (B2R c - sg * (B2R a / L)) <= 8 * u * (Rabs (B2R a) / L) + eta) /\
  (is_finite s = true /\ Rabs (B2R s - sg * (B2R b / L)) <= 8 * u * (Rabs (B2R b) / L) + eta).
Proof.
  intros FA FB IR L sg. destruct (scale_ok a b FA FB IR) as (G & SA & SB & S0 & _). destruct (root_ok a b FA FB IR) as [GR NR]. fold L in NR.
  pose proof (length_ge (B2R a) (B2R b)) as [LA LB]. fold L in LA, LB.
  assert (L0 : 0 < L) by (unfold L; destruct IR as [IR _]; pose proof (bpow_gt_0 radix2 (7 - emax)); lra).
  destruct (fzero_val prec emax) as [FZ VZ]. destruct (fabs_ok prec emax a FA) as [GA VA]. destruct (fabs_ok prec emax b FB) as [GB VB].
  unfold frotg, rotg. cbv zeta. rewrite (feq_val prec emax _ _ G FZ), VZ. rewrite Req_bool_false by lra.
  change (fmul (fadd (fabs a) (fabs b)) (fsqrt (fadd (fmul (fdiv (fabs a) (fadd (fabs a) (fabs b))) (fdiv (fabs a) (fadd (fabs a) (fabs b))))
    (fmul (fdiv (fabs b) (fadd (fabs a) (fabs b))) (fdiv (fabs b) (fadd (fabs a) (fabs b))))))) with (root a b).
  assert (RO : flt (if flt (fabs b) (fabs a) then a else b) fzero = if Rlt_dec (if Rlt_dec (Rabs (B2R b)) (Rabs (B2R a)) then B2R a else B2R b) 0 then true else false).
  { rewrite (flt_val prec emax _ _ GB GA), VA, VB. destruct (Rlt_dec (Rabs (B2R b)) (Rabs (B2R a))) as [K|K].
    - rewrite Rlt_bool_true by auto. rewrite (flt_val prec emax _ _ FA FZ), VZ. destruct (Rlt_dec (B2R a) 0); [apply Rlt_bool_true|apply Rlt_bool_false]; lra.
    - rewrite Rlt_bool_false by lra. rewrite (flt_val prec emax _ _ FB FZ), VZ. destruct (Rlt_dec (B2R b) 0); [apply Rlt_bool_true|apply Rlt_bool_false]; lra. }
  rewrite RO. unfold sg, sign_of. clear RO.
  destruct (Rlt_dec (if Rlt_dec (Rabs (B2R b)) (Rabs (B2R a)) then B2R a else B2R b) 0) as [K|K].
  - assert (FN : is_finite (fneg (root a b)) = true) by (unfold NumModel.fneg; rewrite is_finite_Bopp; exact GR).
    assert (VN : B2R (fneg (root a b)) = - B2R (root a b)) by (unfold NumModel.fneg; apply B2R_Bopp).
    assert (NN : near 6 (-1 * B2R (fneg (root a b))) L) by (rewrite VN; replace (-1 * - B2R (root a b)) with (B2R (root a b)) by ring; exact NR).
    split; [split; [exact FN|]|split; apply part_ok; auto].
    rewrite VN. unfold CsqError.near in NR. rewrite <- Rabs_Ropp. replace (- (- B2R (root a b) - -1 * L)) with (B2R (root a b) - L) by ring. exact NR.
  - assert (NN : near 6 (1 * B2R (root a b)) L) by (rewrite Rmult_1_l; exact NR).
    split; [split; [exact GR|]|split; apply part_ok; auto]. rewrite Rmult_1_l. exact NR.
Qed.
Lemma sign_square a b : sign_of a b * sign_of a b = 1.
Proof. unfold sign_of. destruct (Rlt_dec _ 0); lra. Qed.
(** what follows for the rotation *)
Lemma consequences L a b sg r c s : 0 < L -> L * L = a * a + b * b -> sg * sg = 1 ->
  Rabs (r - sg * L) <= 6 * u * L -> Rabs (c - sg * (a / L)) <= 8 * u * (Rabs a / L) + eta -> Rabs (s - sg * (b / L)) <= 8 * u * (Rabs b / L) + eta ->
  Rabs (c * c + s * s - 1) <= 20 * u /\ Rabs (c * b - s * a) <= 10 * u * L /\ Rabs (c * a + s * b - r) <= 16 * u * L.
Proof.
  intros L0 LL SG HR HC HS. pose proof u_ok as U. pose proof eta_ok as E.
  set (x := a / L) in *. set (y := b / L) in *. assert (A : a = x * L) by (unfold x; field; lra). assert (B : b = y * L) by (unfold y; field; lra).
  assert (XY : x * x + y * y = 1).
  { assert (Q : (x * x + y * y - 1) * (L * L) = 0) by (rewrite A, B in LL; lra). apply Rmult_integral in Q. destruct Q as [Q|Q]; [lra|nra]. }
  assert (EX : Rabs a / L = Rabs x) by (unfold x, Rdiv; rewrite Rabs_mult, (Rabs_pos_eq (/ L)) by (left; apply Rinv_0_lt_compat; auto); reflexivity).
  assert (EY : Rabs b / L = Rabs y) by (unfold y, Rdiv; rewrite Rabs_mult, (Rabs_pos_eq (/ L)) by (left; apply Rinv_0_lt_compat; auto); reflexivity).
  rewrite EX in HC. rewrite EY in HS. set (e := c - sg * x) in *. set (f := s - sg * y) in *. set (g := r - sg * L) in *.
  assert (CV : c = sg * x + e) by (unfold e; ring). assert (SV : s = sg * y + f) by (unfold f; ring). assert (RV : r = sg * L + g) by (unfold g; ring).
  clearbody x y e f g. clear LL EX EY. subst a b c s r.
  set (X := Rabs x) in *. set (Y := Rabs y) in *.
  assert (X2 : X * X = x * x) by (unfold X; rewrite <- Rabs_mult; apply Rabs_pos_eq; nra).
  assert (Y2 : Y * Y = y * y) by (unfold Y; rewrite <- Rabs_mult; apply Rabs_pos_eq; nra).
  pose proof (Rabs_pos x) as X0. pose proof (Rabs_pos y) as Y0. fold X in X0. fold Y in Y0.
  assert (XX : X * X + Y * Y = 1) by lra. pose proof (Rle_0_sqr X) as SX. pose proof (Rle_0_sqr Y) as SY. pose proof (Rle_0_sqr (X - Y)) as SXY. unfold Rsqr in SX, SY, SXY.
  assert (X1 : X <= 1) by (destruct (Rle_lt_dec X 1) as [Q|Q]; [exact Q|]; assert (1 * 1 < X * X) by (apply Rmult_le_0_lt_compat; lra); lra).
  assert (Y1 : Y <= 1) by (destruct (Rle_lt_dec Y 1) as [Q|Q]; [exact Q|]; assert (1 * 1 < Y * Y) by (apply Rmult_le_0_lt_compat; lra); lra).
  assert (XYh : X * Y <= / 2) by lra.
  assert (SA : Rabs sg = 1).
  { assert (Q : sg = 1 \/ sg = -1) by (assert ((sg - 1) * (sg + 1) = 0) by lra; apply Rmult_integral in H; destruct H; [left|right]; lra). destruct Q as [-> | ->]; [apply Rabs_R1|rewrite Rabs_left; lra]. }
  assert (EE : Rabs e <= 9 * u) by (assert (8 * u * X <= 8 * u * 1) by (apply Rmult_le_compat_l; lra); lra).
  assert (FF : Rabs f <= 9 * u) by (assert (8 * u * Y <= 8 * u * 1) by (apply Rmult_le_compat_l; lra); lra).
  assert (XE : X * Rabs e <= 8 * u * (x * x) + eta).
  { apply Rle_trans with (X * (8 * u * X + eta)); [apply Rmult_le_compat_l; lra|]. rewrite <- X2. assert (X * eta <= 1 * eta) by (apply Rmult_le_compat_r; lra). lra. }
  assert (YF : Y * Rabs f <= 8 * u * (y * y) + eta).
  { apply Rle_trans with (Y * (8 * u * Y + eta)); [apply Rmult_le_compat_l; lra|]. rewrite <- Y2. assert (Y * eta <= 1 * eta) by (apply Rmult_le_compat_r; lra). lra. }
  assert (SUM : 8 * u * (x * x) + 8 * u * (y * y) = 8 * u) by (rewrite <- Rmult_plus_distr_l, XY; ring).
  split; [|split].
  - replace ((sg * x + e) * (sg * x + e) + (sg * y + f) * (sg * y + f) - 1) with
      ((sg * sg * (x * x + y * y) - 1) + (2 * (sg * (x * e)) + 2 * (sg * (y * f)) + (e * e + f * f))) by ring.
    rewrite SG, XY. replace (1 * 1 - 1) with 0 by ring. rewrite Rplus_0_l.
    eapply Rle_trans; [apply Rabs_triang|]. eapply Rle_trans; [apply Rplus_le_compat_r, Rabs_triang|].
    rewrite !Rabs_mult, SA, (Rabs_pos_eq 2) by lra. rewrite (Rabs_pos_eq (e * e + f * f)) by nra. fold X Y.
    assert (Q1 : e * e <= 81 * u * u). { replace (e * e) with (Rabs e * Rabs e) by (rewrite <- Rabs_mult; apply Rabs_pos_eq; nra). apply Rle_trans with (9 * u * (9 * u)); [apply Rmult_le_compat; auto; apply Rabs_pos|lra]. }
    assert (Q2 : f * f <= 81 * u * u). { replace (f * f) with (Rabs f * Rabs f) by (rewrite <- Rabs_mult; apply Rabs_pos_eq; nra). apply Rle_trans with (9 * u * (9 * u)); [apply Rmult_le_compat; auto; apply Rabs_pos|lra]. }
    assert (u * u <= u * / 1048576) by (apply Rmult_le_compat_l; lra). lra.
  - replace ((sg * x + e) * (y * L) - (sg * y + f) * (x * L)) with ((y * e - x * f) * L) by ring. rewrite Rabs_mult, (Rabs_pos_eq L) by lra.
    apply Rmult_le_compat_r; [lra|]. unfold Rminus. eapply Rle_trans; [apply Rabs_triang|]. rewrite Rabs_Ropp, !Rabs_mult. fold X Y.
    assert (Y * Rabs e <= Y * (8 * u * X + eta)) by (apply Rmult_le_compat_l; lra). assert (X * Rabs f <= X * (8 * u * Y + eta)) by (apply Rmult_le_compat_l; lra).
    assert (Y * eta <= 1 * eta) by (apply Rmult_le_compat_r; lra). assert (X * eta <= 1 * eta) by (apply Rmult_le_compat_r; lra).
    assert (u * (X * Y) <= u * / 2) by (apply Rmult_le_compat_l; lra). lra.
  - replace ((sg * x + e) * (x * L) + (sg * y + f) * (y * L) - (sg * L + g)) with ((sg * (x * x + y * y) - sg) * L + ((x * e + y * f) * L - g)) by ring.
    rewrite XY. replace ((sg * 1 - sg) * L) with 0 by ring. rewrite Rplus_0_l. unfold Rminus. eapply Rle_trans; [apply Rabs_triang|]. rewrite Rabs_Ropp.
    rewrite Rabs_mult, (Rabs_pos_eq L) by lra. assert (Q : Rabs (x * e + y * f) <= 10 * u).
    { eapply Rle_trans; [apply Rabs_triang|]. rewrite !Rabs_mult. fold X Y. lra. }
    assert (Rabs (x * e + y * f) * L <= 10 * u * L) by (apply Rmult_le_compat_r; lra). lra.
Qed.

(** ** rot *)
Lemma two_products (p q p' q' : num) : is_finite p = true -> is_finite q = true -> is_finite p' = true -> is_finite q' = true ->
  let w := Rabs (B2R p * B2R q) + Rabs (B2R p' * B2R q') in w <= 3 / 2 * bpow radix2 (emax - 2) ->
  is_finite (fadd (fmul p q) (fmul p' q')) = true /\
  Rabs (B2R (fadd (fmul p q) (fmul p' q')) - (B2R p * B2R q + B2R p' * B2R q')) <= 3 * u * w + 3 * eta.
Proof.
  intros F1 F2 F3 F4 w W. pose proof u_ok as U. pose proof eta_ok as E. set (x := B2R p * B2R q) in *. set (y := B2R p' * B2R q') in *. assert (WE : w = Rabs x + Rabs y) by reflexivity.
  pose proof (Rabs_pos x) as X0. pose proof (Rabs_pos y) as Y0.
  assert (fit : forall z, Rabs z <= bpow radix2 (emax - 1) -> Rabs (rn z) < bpow radix2 emax) by (intros z Z; apply (rn_small prec emax Hp z (emax - 1)); auto; lia).
  assert (TB : bpow radix2 (emax - 1) = 2 * bpow radix2 (emax - 2)) by (replace (emax - 1)%Z with (1 + (emax - 2))%Z by lia; rewrite bpow_plus; reflexivity).
  assert (B1 : / 2 <= bpow radix2 (emax - 2)) by (change (/ 2) with (bpow radix2 (-1)); apply bpow_le; lia).
  destruct (fmul_small prec emax Hp Hm p q F1 F2) as [G1 V1]; [apply fit; fold x; lra|]. fold x in V1.
  destruct (fmul_small prec emax Hp Hm p' q' F3 F4) as [G2 V2]; [apply fit; fold y; lra|]. fold y in V2.
  pose proof (rn_rel prec emax Hp x) as R1. pose proof (rn_rel prec emax Hp y) as R2.
  assert (UW : 0 <= u * w <= / 1048576 * w) by (split; [apply Rmult_le_pos; unfold w; lra|apply Rmult_le_compat_r; unfold w; lra]).
  assert (SB : Rabs (rn x + rn y - (x + y)) <= u * w + 2 * eta).
  { replace (rn x + rn y - (x + y)) with ((rn x - x) + (rn y - y)) by ring. eapply Rle_trans; [apply Rabs_triang|]. unfold w. lra. }
  assert (SS : Rabs (rn x + rn y) <= w * (1 + u) + 2 * eta).
  { replace (rn x + rn y) with ((rn x + rn y - (x + y)) + (x + y)) by ring. eapply Rle_trans; [apply Rabs_triang|].
    pose proof (Rabs_triang x y) as T. fold w in T. lra. }
  destruct (fadd_small prec emax Hp Hm _ _ G1 G2) as [G V]; [rewrite V1, V2; apply fit; lra|].
  split; [exact G|]. rewrite V, V1, V2.
  pose proof (add_rel prec emax Hp (rn x) (rn y) ltac:(apply generic_format_round; typeclasses eauto) ltac:(apply generic_format_round; typeclasses eauto)) as AR.
  pose proof (v_le prec) as VL. assert (AU : u / (1 + u) * Rabs (rn x + rn y) <= u * Rabs (rn x + rn y)) by (apply Rmult_le_compat_r; [apply Rabs_pos|auto]).
  assert (UU : u * Rabs (rn x + rn y) <= u * (w * (1 + u) + 2 * eta)) by (apply Rmult_le_compat_l; lra).
  assert (u * (w * u) <= / 1048576 * (w * u)) by (apply Rmult_le_compat_r; [|lra]; rewrite Rmult_comm; lra).
  assert (u * eta <= / 1048576 * eta) by (apply Rmult_le_compat_r; lra).
  replace (rn (rn x + rn y) - (x + y)) with ((rn (rn x + rn y) - (rn x + rn y)) + (rn x + rn y - (x + y))) by ring.
  eapply Rle_trans; [apply Rabs_triang|]. lra.
Qed.
(** rotg and then rot on (a, b) itself *)
Lemma applied (a b r z c s : num) : is_finite a = true -> is_finite b = true -> in_range emax (B2R a) (B2R b) ->
  frotg prec emax Hp Hm a b = (r, z, c, s) ->
  let L := length2 (B2R a) (B2R b) in
  (is_finite (fadd (fmul c a) (fmul s b)) = true /\ Rabs (B2R (fadd (fmul c a) (fmul s b)) - B2R r) <= 20 * u * L) /\
  (is_finite (fadd (fmul (fneg s) a) (fmul c b)) = true /\ Rabs (B2R (fadd (fmul (fneg s) a) (fmul c b))) <= 14 * u * L).
Proof.
  intros FA FB IR EQ L. pose proof (rotg_ok a b FA FB IR) as G. rewrite EQ in G. cbv zeta in G. fold L in G.
  destruct G as ((FR & HR) & (FC & HC) & (FS & HS)). set (sg := sign_of (B2R a) (B2R b)) in *.
  assert (L0 : 0 < L) by (unfold L; destruct IR as [IR _]; pose proof (bpow_gt_0 radix2 (7 - emax)); lra).
  pose proof (length_square (B2R a) (B2R b)) as LL. fold L in LL.
  destruct (consequences L (B2R a) (B2R b) sg _ _ _ L0 LL (sign_square _ _) HR HC HS) as (_ & K1 & K2).
  pose proof (length_ge (B2R a) (B2R b)) as [LA LB]. fold L in LA, LB. pose proof (length_le (B2R a) (B2R b)) as LE. fold L in LE.
  pose proof u_ok as U. pose proof eta_ok as E.
  assert (EL : 32 * eta <= u * L).
  { apply Rle_trans with (u * bpow radix2 (7 - emax)); [|apply Rmult_le_compat_l; [lra|apply IR]].
    rewrite eta_pow. change 32 with (bpow radix2 5). unfold unit_roundoff. change (/ 2) with (bpow radix2 (-1)). rewrite <- !bpow_plus. apply bpow_le. lia. }
  set (x := Rabs (B2R a) / L) in *. set (y := Rabs (B2R b) / L) in *.
  assert (AX : Rabs (B2R a) = x * L) by (unfold x; field; lra). assert (BY : Rabs (B2R b) = y * L) by (unfold y; field; lra).
  assert (X0 : 0 <= x) by (unfold x; apply Rmult_le_pos; [apply Rabs_pos|left; apply Rinv_0_lt_compat; auto]).
  assert (Y0 : 0 <= y) by (unfold y; apply Rmult_le_pos; [apply Rabs_pos|left; apply Rinv_0_lt_compat; auto]).
  assert (X1 : x <= 1) by (apply Rmult_le_reg_r with L; lra). assert (Y1 : y <= 1) by (apply Rmult_le_reg_r with L; lra).
  assert (sq : forall t, Rabs t * Rabs t = t * t) by (intros t; rewrite <- Rabs_mult; apply Rabs_pos_eq; nra).
  assert (XY : x * x + y * y = 1).
  { assert (Q : (x * x + y * y - 1) * (L * L) = 0) by (rewrite <- (sq (B2R a)), <- (sq (B2R b)), AX, BY in LL; lra). apply Rmult_integral in Q. destruct Q as [Q|Q]; [lra|nra]. }
  assert (part : forall t q, Rabs t / L <= 1 -> 0 <= Rabs t / L -> Rabs (q - sg * (t / L)) <= 8 * u * (Rabs t / L) + eta -> Rabs q <= (1 + 8 * u) * (Rabs t / L) + eta).
  { intros t q T1 T0 Q. replace q with ((q - sg * (t / L)) + sg * (t / L)) by ring. eapply Rle_trans; [apply Rabs_triang|].
    assert (V : Rabs (sg * (t / L)) = Rabs t / L).
    { unfold Rdiv. rewrite !Rabs_mult, (Rabs_pos_eq (/ L)) by (left; apply Rinv_0_lt_compat; auto). unfold sg, sign_of. destruct (Rlt_dec _ 0); [rewrite (Rabs_left (-1)) by lra|rewrite Rabs_R1]; ring. }
    rewrite V. lra. }
  pose proof (part _ _ X1 X0 HC) as PC. pose proof (part _ _ Y1 Y0 HS) as PS. fold x in PC. fold y in PS. clear part.
  assert (UX : 0 <= 8 * u * x <= 8 * u) by (split; [apply Rmult_le_pos; lra|apply Rle_trans with (8 * u * 1); [apply Rmult_le_compat_l; lra|lra]]).
  assert (UY : 0 <= 8 * u * y <= 8 * u) by (split; [apply Rmult_le_pos; lra|apply Rle_trans with (8 * u * 1); [apply Rmult_le_compat_l; lra|lra]]).
  assert (SXY : 2 * (x * y) <= 1) by (pose proof (Rle_0_sqr (x - y)) as Q; unfold Rsqr in Q; lra).
  assert (XYp : 0 <= x * y) by (apply Rmult_le_pos; auto).
  assert (CX : Rabs (B2R c) * x <= x * x + 9 * u) by (apply Rle_trans with (((1 + 8 * u) * x + eta) * x); [apply Rmult_le_compat_r; auto|];
    assert (8 * u * x * x <= 8 * u * 1) by (apply Rmult_le_compat; lra); assert (eta * x <= eta * 1) by (apply Rmult_le_compat_l; lra); lra).
  assert (SY : Rabs (B2R s) * y <= y * y + 9 * u) by (apply Rle_trans with (((1 + 8 * u) * y + eta) * y); [apply Rmult_le_compat_r; auto|];
    assert (8 * u * y * y <= 8 * u * 1) by (apply Rmult_le_compat; lra); assert (eta * y <= eta * 1) by (apply Rmult_le_compat_l; lra); lra).
  assert (CY : Rabs (B2R c) * y <= x * y + 9 * u) by (apply Rle_trans with (((1 + 8 * u) * x + eta) * y); [apply Rmult_le_compat_r; auto|];
    assert (8 * u * x * y <= 8 * u * 1) by (apply Rmult_le_compat; lra); assert (eta * y <= eta * 1) by (apply Rmult_le_compat_l; lra); lra).
  assert (SX : Rabs (B2R s) * x <= x * y + 9 * u) by (apply Rle_trans with (((1 + 8 * u) * y + eta) * x); [apply Rmult_le_compat_r; auto|];
    assert (8 * u * y * x <= 8 * u * 1) by (apply Rmult_le_compat; lra); assert (eta * x <= eta * 1) by (apply Rmult_le_compat_l; lra); lra).
  assert (UL : 0 <= u * L <= / 1048576 * L) by (split; [apply Rmult_le_pos; lra|apply Rmult_le_compat_r; lra]).
  assert (FN : is_finite (fneg s) = true) by (unfold NumModel.fneg; rewrite is_finite_Bopp; exact FS).
  assert (VN : B2R (fneg s) = - B2R s) by (unfold NumModel.fneg; apply B2R_Bopp).
  assert (LM : L <= bpow radix2 (emax - 2)) by (destruct IR as [_ IR]; lra).
  assert (W1 : Rabs (B2R c * B2R a) + Rabs (B2R s * B2R b) <= (1 + 18 * u) * L).
  { rewrite !Rabs_mult, AX, BY. replace (Rabs (B2R c) * (x * L) + Rabs (B2R s) * (y * L)) with ((Rabs (B2R c) * x + Rabs (B2R s) * y) * L) by ring.
    apply Rmult_le_compat_r; lra. }
  assert (W2 : Rabs (B2R (fneg s) * B2R a) + Rabs (B2R c * B2R b) <= (1 + 18 * u) * L).
  { rewrite VN, !Rabs_mult, Rabs_Ropp, AX, BY. replace (Rabs (B2R s) * (x * L) + Rabs (B2R c) * (y * L)) with ((Rabs (B2R s) * x + Rabs (B2R c) * y) * L) by ring.
    apply Rmult_le_compat_r; lra. }
  assert (bound : forall w, w <= (1 + 18 * u) * L -> w <= 3 / 2 * bpow radix2 (emax - 2) /\ 3 * u * w + 3 * eta <= 7 / 2 * (u * L)).
  { intros w W. split; [lra|]. assert (3 * u * w <= 3 * u * ((1 + 18 * u) * L)) by (apply Rmult_le_compat_l; lra).
    assert (u * (u * L) <= / 1048576 * (u * L)) by (apply Rmult_le_compat_r; lra). lra. }
  destruct (bound _ W1) as [A1 A2]. destruct (bound _ W2) as [B1 B2].
  destruct (two_products c a s b FC FA FS FB A1) as [T1 T2]. destruct (two_products (fneg s) a c b FN FA FC FB B1) as [T3 T4].
  split; (split; [assumption|]).
  - match goal with |- Rabs (?v - ?w) <= _ => replace (v - w) with ((v - (B2R c * B2R a + B2R s * B2R b)) + (B2R c * B2R a + B2R s * B2R b - w)) by ring end.
    eapply Rle_trans; [apply Rabs_triang|]. lra.
  - match goal with |- Rabs ?v <= _ => replace v with ((v - (B2R (fneg s) * B2R a + B2R c * B2R b)) + (B2R (fneg s) * B2R a + B2R c * B2R b)) by ring end.
    eapply Rle_trans; [apply Rabs_triang|]. assert (K3 : Rabs (B2R (fneg s) * B2R a + B2R c * B2R b) <= 10 * u * L) by (rewrite VN; replace (- B2R s * B2R a + B2R c * B2R b) with (B2R c * B2R b - B2R s * B2R a) by ring; exact K1). lra.
Qed.
End Float.
