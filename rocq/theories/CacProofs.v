(** Proofs for C106. *)
From Coq Require Import ZArith Reals Bool List Permutation Lia Lra.
From Flocq Require Import Core BinarySingleNaN.
From Coq Require Import ZifyNat ZifyN ZifyBool.
From Verif Require Import Base MatmulModel MatmulSpec MatmulProofs AccModel AccSpec AccLinear AccProofs NumModel NumSpec NumBasics SclSpec SclProofs
  CacModel CacSpec.
Import ListNotations.
Ltac Zify.zify_post_hook ::= idtac.
Local Open Scope R_scope.

(** ** Sums of pairs of products *)
Section Pairs.
Variables prec emax : Z.
Context (Hp : Prec_gt_0 prec) (Hm : Prec_lt_emax prec emax).
Local Notation num := (binary_float prec emax).
Local Notation fzero := (fzero prec emax).
Local Notation fadd := (fadd prec emax Hp Hm).
Local Notation rn := (nearest prec emax).
Local Notation big := (bpow radix2 emax).
Local Notation fadded := (fadded prec emax).

(** x computes the product p of finite operands (ok) *)
Definition computes (ok : Prop) (p : R) (x : num) : Prop :=
  (is_finite x = true -> ok /\ B2R x = rn p) /\ (ok -> Rabs (rn p) < big -> is_finite x = true).

Variables (x y : nat -> num) (p q : nat -> R) (okx oky : nat -> Prop).
Hypothesis HX : forall i, computes (okx i) (p i) (x i).
Hypothesis HY : forall i, computes (oky i) (q i) (y i).
Local Notation S n := (sum fzero fadd n (fun i => fadd (x i) (y i))).
Definition terms (n : nat) : list num := flat_map (fun i => [x i; y i]) (seq 0 n).
Definition values (n : nat) : list R := flat_map (fun i => [p i; q i]) (seq 0 n).

Lemma terms_S n : terms (Datatypes.S n) = terms n ++ [x n; y n].
Proof. unfold terms. rewrite seq_S, flat_map_app. reflexivity. Qed.
Lemma values_S n : values (Datatypes.S n) = values n ++ [p n; q n].
Proof. unfold values. rewrite seq_S, flat_map_app. reflexivity. Qed.
Lemma values_length n : length (values n) = (2 * n)%nat.
Proof. induction n as [|n IH]; [reflexivity|]. rewrite values_S, app_length, IH. cbn [length]. lia. Qed.
Lemma values_exact n : exact_sum (values n) = total n (fun i => p i + q i).
Proof.
  induction n as [|n IH]; [reflexivity|]. rewrite values_S, exact_app, IH. unfold total. cbn [sum exact_sum fold_right]. ring.
Qed.
Lemma values_size n : size_sum (values n) = total n (fun i => Rabs (p i) + Rabs (q i)).
Proof.
  induction n as [|n IH]; [reflexivity|]. rewrite values_S, size_app, IH. unfold total, size_sum. cbn [sum exact_sum map fold_right]. ring.
Qed.
Lemma pairs_added n : fadded (terms n) (S n).
Proof.
  induction n as [|n IH]; [apply fadded_none|]. rewrite terms_S. cbn [sum]. apply fadded_both; auto.
  apply (fadded_both prec emax Hp Hm [x n] [y n]); apply fadded_one.
Qed.
Lemma terms_values n : Forall (fun t => is_finite t = true) (terms n) ->
  map B2R (terms n) = map rn (values n) /\ forall i, (i < n)%nat -> okx i /\ oky i.
Proof.
  induction n as [|n IH]; intros F; [split; [reflexivity|lia]|]. rewrite terms_S in F. apply Forall_app in F. destruct F as [F1 F2].
  destruct (IH F1) as [E O]. inversion F2 as [|? ? Fx F3]. inversion F3 as [|? ? Fy _]. subst.
  destruct (proj1 (HX n) Fx) as [Ox Ex]. destruct (proj1 (HY n) Fy) as [Oy Ey]. split.
  - rewrite terms_S, values_S, !map_app, E. cbn [map]. now rewrite Ex, Ey.
  - intros i Hi. destruct (Nat.eq_dec i n) as [->|N]; [auto|]. apply O. lia.
Qed.
Lemma pairs_error n : is_finite (S n) = true -> (forall i, (i < n)%nat -> okx i /\ oky i) /\
  Rabs (B2R (S n) - total n (fun i => p i + q i)) <= dot_bound prec emax (2 * n) (total n (fun i => Rabs (p i) + Rabs (q i))).
Proof.
  intros F. destruct (pairs_added n F) as [FT A]. destruct (terms_values n FT) as [E O]. split; [exact O|]. rewrite E in A.
  apply (dot_any_order prec emax Hp) in A. now rewrite values_length, values_exact, values_size in A.
Qed.

(** A part of the sum is no larger than the whole *)
Lemma part_small ps t n s : added prec emax (map rn ps) t -> (length ps <= n)%nat -> size_sum ps <= s ->
  s + dot_bound prec emax n s < big -> Rabs t < big.
Proof.
  intros A L Z B. apply (dot_any_order prec emax Hp) in A. eapply Rle_lt_trans; [apply (near_abs _ _ _ A)|]. eapply Rle_lt_trans; [|exact B].
  pose proof (exact_size ps) as E. pose proof (size_pos ps) as P.
  apply Rplus_le_compat; [lra|]. apply bound_mono; [exact L|]. lra.
Qed.
Lemma sizes_mono k n : (k <= n)%nat -> total k (fun i => Rabs (p i) + Rabs (q i)) <= total n (fun i => Rabs (p i) + Rabs (q i)).
Proof.
  induction 1 as [|n H IH]; [lra|]. unfold total in *. cbn [sum]. pose proof (Rabs_pos (p n)). pose proof (Rabs_pos (q n)). lra.
Qed.
Lemma sizes_pos k : 0 <= total k (fun i => Rabs (p i) + Rabs (q i)).
Proof. rewrite <- values_size. apply size_pos. Qed.
Lemma sizes_term k n : (k < n)%nat -> Rabs (p k) + Rabs (q k) <= total n (fun i => Rabs (p i) + Rabs (q i)).
Proof. intros H. pose proof (sizes_mono (Datatypes.S k) n H) as M. pose proof (sizes_pos k). unfold total in *. cbn [sum] in M. lra. Qed.

Lemma pairs_finite n : (forall i, (i < n)%nat -> okx i /\ oky i) ->
  let s := total n (fun i => Rabs (p i) + Rabs (q i)) in
  s + dot_bound prec emax (2 * n) s < big -> is_finite (S n) = true.
Proof.
  intros O s B. assert (H : forall k, (k <= n)%nat -> is_finite (S k) = true); [|apply H; lia].
  induction k as [|k IH]; intros Hk; [reflexivity|]. cbn [sum]. specialize (IH ltac:(lia)). destruct (O k ltac:(lia)) as [Ox Oy].
  pose proof (sizes_term k n Hk) as T. fold s in T. pose proof (Rabs_pos (p k)) as P1. pose proof (Rabs_pos (q k)) as P2.
  assert (Fx : is_finite (x k) = true).
  { apply (HX k); auto. apply (part_small [p k] _ (2 * n) s); [apply added_one|cbn; lia| |exact B]. unfold size_sum. cbn [map exact_sum fold_right]. lra. }
  assert (Fy : is_finite (y k) = true).
  { apply (HY k); auto. apply (part_small [q k] _ (2 * n) s); [apply added_one|cbn; lia| |exact B]. unfold size_sum. cbn [map exact_sum fold_right]. lra. }
  destruct (proj1 (HX k) Fx) as [_ Ex]. destruct (proj1 (HY k) Fy) as [_ Ey].
  assert (A2 : added prec emax (map rn [p k; q k]) (rn (B2R (x k) + B2R (y k)))).
  { rewrite Ex, Ey. apply (added_both prec emax [rn (p k)] [rn (q k)]); apply added_one. }
  destruct (fadd_small prec emax Hp Hm (x k) (y k) Fx Fy) as [F2 E2].
  { apply (part_small [p k; q k] _ (2 * n) s A2); [cbn; lia| |exact B]. unfold size_sum. cbn [map exact_sum fold_right]. lra. }
  apply (fadd_small prec emax Hp Hm); auto. rewrite E2.
  apply (part_small (values (Datatypes.S k)) _ (2 * n) s).
  - rewrite values_S, map_app. apply added_both; [|exact A2]. destruct (pairs_added k IH) as [FT A].
    destruct (terms_values k FT) as [E _]. rewrite E in A. exact A.
  - rewrite values_length. lia.
  - rewrite values_size. now apply sizes_mono.
  - exact B.
Qed.

Lemma pairs_integers n : (forall i, (i < n)%nat -> okx i /\ oky i) -> (forall i, (i < n)%nat -> integral (p i) /\ integral (q i)) ->
  total n (fun i => Rabs (p i) + Rabs (q i)) <= bpow radix2 prec ->
  is_finite (S n) = true /\ B2R (S n) = total n (fun i => p i + q i).
Proof.
  intros O I B. assert (BP : bpow radix2 prec < big) by (apply bpow_lt; exact Hm).
  assert (RI : forall r, integral r -> Rabs r <= bpow radix2 prec -> rn r = r) by (intros r H1 H2; apply rn_id, (integral_format prec emax Hp _ Hm); auto).
  assert (IP : forall a b, integral a -> integral b -> integral (a + b)) by (intros a b (u & ->) (v & ->); exists (u + v)%Z; now rewrite plus_IZR).
  assert (H : forall k, (k <= n)%nat -> is_finite (S k) = true /\ B2R (S k) = total k (fun i => p i + q i)); [|apply H; lia].
  induction k as [|k IH]; intros Hk; [split; reflexivity|]. cbn [sum]. destruct (IH ltac:(lia)) as [F E].
  destruct (O k ltac:(lia)) as [Ox Oy]. destruct (I k ltac:(lia)) as [Ip Iq]. pose proof (sizes_term k n Hk) as T.
  pose proof (Rabs_pos (p k)) as P1. pose proof (Rabs_pos (q k)) as P2.
  assert (Rp : rn (p k) = p k) by (apply RI; [auto|lra]). assert (Rq : rn (q k) = q k) by (apply RI; [auto|lra]).
  assert (Fx : is_finite (x k) = true) by (apply (HX k); [auto|rewrite Rp; lra]).
  assert (Fy : is_finite (y k) = true) by (apply (HY k); [auto|rewrite Rq; lra]).
  destruct (proj1 (HX k) Fx) as [_ Ex]. destruct (proj1 (HY k) Fy) as [_ Ey]. rewrite Rp in Ex. rewrite Rq in Ey.
  pose proof (Rabs_triang (p k) (q k)) as TR.
  assert (R2 : rn (p k + q k) = p k + q k) by (apply RI; [auto|lra]).
  destruct (fadd_small prec emax Hp Hm (x k) (y k) Fx Fy) as [F2 E2]; [rewrite Ex, Ey, R2; lra|]. rewrite Ex, Ey, R2 in E2.
  assert (L : Rabs (total (Datatypes.S k) (fun i => p i + q i)) <= bpow radix2 prec).
  { rewrite <- values_exact. eapply Rle_trans; [apply exact_size|]. rewrite values_size. eapply Rle_trans; [apply (sizes_mono _ n Hk)|exact B]. }
  assert (R3 : rn (total (Datatypes.S k) (fun i => p i + q i)) = total (Datatypes.S k) (fun i => p i + q i)).
  { apply RI; [|exact L]. apply integral_total. intros i Hi. destruct (I i ltac:(lia)). auto. }
  assert (ES : B2R (S k) + B2R (fadd (x k) (y k)) = total (Datatypes.S k) (fun i => p i + q i)) by (rewrite E, E2; reflexivity).
  destruct (fadd_small prec emax Hp Hm (S k) (fadd (x k) (y k)) F F2) as [G1 G2]; [rewrite ES, R3; lra|]. split; [exact G1|]. rewrite G2, ES. exact R3.
Qed.
End Pairs.

(** ** Complex sums *)
Section Complex.
Variables prec emax : Z.
Context (Hp : Prec_gt_0 prec) (Hm : Prec_lt_emax prec emax).
Local Notation num := (binary_float prec emax).
Local Notation complex := (fcomplex prec emax).
Local Notation fzero := (fzero prec emax).
Local Notation fone := (fone prec emax Hp Hm).
Local Notation fadd := (fadd prec emax Hp Hm).
Local Notation fsub := (fsub prec emax Hp Hm).
Local Notation fmul := (fmul prec emax Hp Hm).
Local Notation fneg := (fneg prec emax).
Local Notation czero := (czero prec emax).
Local Notation cone := (cone prec emax Hp Hm).
Local Notation cadd := (cadd prec emax Hp Hm).
Local Notation cmul := (cmul prec emax Hp Hm).
Local Notation cconj := (cconj prec emax).
Local Notation rn := (nearest prec emax).

Lemma fsub_neg (x y : num) : fsub x y = fadd x (fneg y).
Proof. destruct x, y; reflexivity. Qed.
Lemma computes_mul (x y : num) : computes prec emax (is_finite x = true /\ is_finite y = true) (B2R x * B2R y) (fmul x y).
Proof.
  split.
  - intros F. destruct (fmul_finite prec emax Hp Hm _ _ F) as (A & B & E). auto.
  - intros [A B] L. now apply (fmul_small prec emax Hp Hm).
Qed.
Lemma rn_neg x : rn (- x) = - rn x.
Proof. apply round_NE_opp. Qed.
Lemma computes_neg (x y : num) : computes prec emax (is_finite x = true /\ is_finite y = true) (- (B2R x * B2R y)) (fneg (fmul x y)).
Proof.
  destruct (computes_mul x y) as [H1 H2]. unfold NumModel.fneg. split.
  - rewrite is_finite_Bopp. intros F. destruct (H1 F) as [O E]. split; [exact O|]. now rewrite B2R_Bopp, E, rn_neg.
  - rewrite is_finite_Bopp, rn_neg, Rabs_Ropp. exact H2.
Qed.

Lemma csum_parts n f : sum czero cadd n f = (sum fzero fadd n (fun i => fst (f i)), sum fzero fadd n (fun i => snd (f i))).
Proof. induction n as [|n IH]; [reflexivity|]. cbn [sum]. rewrite IH. reflexivity. Qed.
Lemma total_ext n f g : (forall i, f i = g i) -> total n f = total n g.
Proof. intros H. unfold total. induction n as [|n IH]; cbn [sum]; [auto|]. now rewrite IH, H. Qed.
Lemma sum_ext_num n (f g : nat -> num) : (forall i, f i = g i) -> sum fzero fadd n f = sum fzero fadd n g.
Proof. intros H. induction n as [|n IH]; cbn [sum]; [auto|]. now rewrite IH, H. Qed.
Lemma cfinite_iff (z : complex) : cfinite z = true <-> is_finite (fst z) = true /\ is_finite (snd z) = true.
Proof. unfold cfinite. apply andb_true_iff. Qed.

Lemma csum_accurate n (a b : nat -> complex) : caccurate n a b (sum czero cadd n (fun i => cmul (a i) (b i))).
Proof.
  rewrite csum_parts. unfold NumModel.cmul. cbn [fst snd].
  rewrite (sum_ext_num n _ (fun i => fadd (fmul (fst (a i)) (fst (b i))) (fneg (fmul (snd (a i)) (snd (b i))))) (fun i => fsub_neg _ _)).
  assert (HX := fun i => computes_mul (fst (a i)) (fst (b i))). assert (HY := fun i => computes_neg (snd (a i)) (snd (b i))).
  assert (HU := fun i => computes_mul (fst (a i)) (snd (b i))). assert (HV := fun i => computes_mul (snd (a i)) (fst (b i))).
  unfold caccurate. cbn [fst snd].
  assert (E1 : total n (fun i => size_re (a i) (b i))
    = total n (fun i => Rabs (B2R (fst (a i)) * B2R (fst (b i))) + Rabs (- (B2R (snd (a i)) * B2R (snd (b i)))))).
  { apply total_ext. intros i. unfold size_re. now rewrite Rabs_Ropp. }
  assert (E2 : total n (fun i => rmul_re (a i) (b i)) = total n (fun i => B2R (fst (a i)) * B2R (fst (b i)) + - (B2R (snd (a i)) * B2R (snd (b i))))).
  { apply total_ext. intros i. unfold rmul_re. ring. }
  rewrite E1, E2. clear E1 E2. unfold size_im, rmul_im. split; [|split].
  - intros F. apply cfinite_iff in F. cbn [fst snd] in F. destruct F as [F1 F2].
    destruct (pairs_error prec emax Hp Hm _ _ _ _ _ _ HX HY n F1) as [O1 B1]. destruct (pairs_error prec emax Hp Hm _ _ _ _ _ _ HU HV n F2) as [_ B2].
    split; [|auto]. intros i Hi. destruct (O1 i Hi) as [[? ?] [? ?]]. rewrite !cfinite_iff. auto.
  - intros O L1 L2. apply cfinite_iff. cbn [fst snd].
    split; [apply (pairs_finite prec emax Hp Hm _ _ _ _ _ _ HX HY n)|apply (pairs_finite prec emax Hp Hm _ _ _ _ _ _ HU HV n)]; auto;
      intros i Hi; destruct (O i Hi) as [A B]; apply cfinite_iff in A; apply cfinite_iff in B; tauto.
  - intros O G L1 L2. rewrite cfinite_iff. cbn [fst snd].
    assert (IM : forall u v, integral u -> integral v -> integral (u * v)) by (intros u v (s & ->) (t & ->); exists (s * t)%Z; now rewrite mult_IZR).
    assert (IN : forall u, integral u -> integral (- u)) by (intros u (s & ->); exists (- s)%Z; now rewrite opp_IZR).
    destruct (pairs_integers prec emax Hp Hm _ _ _ _ _ _ HX HY n) as [F1 V1]; auto.
    { intros i Hi. destruct (O i Hi) as [A B]; apply cfinite_iff in A; apply cfinite_iff in B; tauto. }
    { intros i Hi. destruct (G i Hi) as [[] []]. auto. }
    destruct (pairs_integers prec emax Hp Hm _ _ _ _ _ _ HU HV n) as [F2 V2]; auto.
    { intros i Hi. destruct (O i Hi) as [A B]; apply cfinite_iff in A; apply cfinite_iff in B; tauto. }
    { intros i Hi. destruct (G i Hi) as [[] []]. auto. }
Qed.

(** ** Multiplication by one, addition of zero *)
Lemma caccurate_same n a b (r r' : complex) : cfinite r' = cfinite r ->
  (cfinite r = true -> B2R (fst r') = B2R (fst r) /\ B2R (snd r') = B2R (snd r)) -> caccurate n a b r -> caccurate n a b r'.
Proof.
  intros EF EV (H1 & H2 & H3). split; [|split].
  - rewrite EF. intros F. destruct (EV F) as [-> ->]. auto.
  - rewrite EF. exact H2.
  - rewrite EF. intros O G L1 L2. destruct (H3 O G L1 L2) as (F & V). split; [exact F|]. destruct (EV F) as [-> ->]. auto.
Qed.
Lemma caccurate_add_0 n a b r : caccurate n a b r -> caccurate n a b (cadd czero r).
Proof.
  apply caccurate_same; unfold cfinite, CacModel.cadd, CacModel.czero; cbn [fst snd].
  - now rewrite !(proj1 (fadd_0_l prec emax Hp Hm _)).
  - intros _. now rewrite !(proj2 (fadd_0_l prec emax Hp Hm _)).
Qed.
Lemma fmul_0_fin (x : num) : is_finite (fmul fzero x) = is_finite x /\ B2R (fmul fzero x) = 0.
Proof. destruct x; split; reflexivity. Qed.
Lemma fsub_0_val (x z : num) : is_finite z = true -> B2R z = 0 -> is_finite (fsub x z) = is_finite x /\ B2R (fsub x z) = B2R x.
Proof.
  intros F E. assert (Z : exists s, z = B754_zero s).
  { destruct z as [s| | |s m e b]; try discriminate; [eauto|]. exfalso. cbn in E. apply eq_0_F2R in E. destruct s; discriminate. }
  destruct Z as [s ->]. destruct x as [t| | |]; split; try reflexivity; destruct t, s; reflexivity.
Qed.
Lemma fadd_0_val (x z : num) : is_finite z = true -> B2R z = 0 -> is_finite (fadd x z) = is_finite x /\ B2R (fadd x z) = B2R x.
Proof.
  intros F E. assert (Z : exists s, z = B754_zero s).
  { destruct z as [s| | |s m e b]; try discriminate; [eauto|]. exfalso. cbn in E. apply eq_0_F2R in E. destruct s; discriminate. }
  destruct Z as [s ->]. destruct x as [t| | |]; split; try reflexivity; destruct t, s; reflexivity.
Qed.
Lemma cmul_one (r : complex) : cfinite (cmul cone r) = cfinite r /\
  (cfinite r = true -> B2R (fst (cmul cone r)) = B2R (fst r) /\ B2R (snd (cmul cone r)) = B2R (snd r)).
Proof.
  destruct r as [x y]. unfold NumModel.cmul, CacModel.cone, cfinite. cbn [fst snd]. rewrite !fmul_1_l.
  destruct (fmul_0_fin x) as [Fx Ex]. destruct (fmul_0_fin y) as [Fy Ey]. split.
  - destruct (is_finite x) eqn:Gx, (is_finite y) eqn:Gy.
    + rewrite (proj1 (fsub_0_val x _ Fy Ey)), (proj1 (fadd_0_val y _ Fx Ex)), Gx, Gy. reflexivity.
    + rewrite (proj1 (fadd_0_val y _ Fx Ex)), Gy, andb_false_r. reflexivity.
    + rewrite (proj1 (fsub_0_val x _ Fy Ey)), Gx. reflexivity.
    + destruct x, y; try discriminate; reflexivity.
  - intros G. apply andb_true_iff in G. destruct G as [Gx Gy]. rewrite Gx in Fx. rewrite Gy in Fy.
    now rewrite (proj2 (fsub_0_val x _ Fy Ey)), (proj2 (fadd_0_val y _ Fx Ex)).
Qed.
Lemma caccurate_one n a b r : caccurate n a b r -> caccurate n a b (cmul cone r).
Proof. apply caccurate_same; apply cmul_one. Qed.

Lemma cone_one : cmul cone cone = cone.
Proof.
  unfold NumModel.cmul, CacModel.cone. cbn [fst snd]. rewrite !fmul_1_l, fmul_0_0, fmul_0_1, fadd_0_0. f_equal.
  pose proof (fone_not_zero prec emax Hp Hm) as Z. destruct fone; [discriminate Z|reflexivity..].
Qed.
Lemma czero_one : cmul czero cone = czero.
Proof. unfold NumModel.cmul, CacModel.cone, CacModel.czero. cbn [fst snd]. rewrite !fmul_0_0, fmul_0_1, fadd_0_0. reflexivity. Qed.
Lemma cone_not_zero : cis_zero prec emax cone = false.
Proof. unfold cis_zero, CacModel.cone. cbn [fst snd]. now rewrite fone_not_zero. Qed.
Lemma ones l : Forall (eq cone) l -> product cone cmul l = cone.
Proof. induction 1 as [|? l <- H IH]; [reflexivity|]. unfold product in *. cbn [fold_right]. now rewrite IH, cone_one. Qed.
(** ** The distance in the plane *)
Lemma modulus_box x y d : Rabs x <= d -> Rabs y <= d -> modulus x y <= sqrt 2 * d.
Proof.
  intros X Y. pose proof (Rabs_pos x). assert (D : 0 <= d) by lra. unfold modulus. rewrite <- (sqrt_square d D) at 1. rewrite <- sqrt_mult by nra.
  apply sqrt_le_1_alt. rewrite <- (pow2_abs x), <- (pow2_abs y). pose proof (Rabs_pos y). nra.
Qed.
Lemma cross_le a b c d : Rabs (a * c) + Rabs (b * d) <= modulus a b * modulus c d.
Proof.
  unfold modulus. rewrite <- sqrt_mult by nra. rewrite <- (sqrt_square (Rabs (a * c) + Rabs (b * d)))
    by (pose proof (Rabs_pos (a * c)); pose proof (Rabs_pos (b * d)); lra).
  apply sqrt_le_1_alt. rewrite !Rabs_mult.
  pose proof (pow2_abs a) as A. pose proof (pow2_abs b) as B. pose proof (pow2_abs c) as C. pose proof (pow2_abs d) as D. rewrite <- A, <- B, <- C, <- D.
  generalize (Rabs a) (Rabs b) (Rabs c) (Rabs d). intros s t u v. clear. pose proof (pow2_ge_0 (s * v - t * u)). nra.
Qed.
Lemma total_le n f g : (forall i, f i <= g i) -> total n f <= total n g.
Proof. intros H. unfold total. induction n as [|n IH]; cbn [sum]; [lra|]. pose proof (H n). lra. Qed.
Lemma total_pos n f : (forall i, 0 <= f i) -> 0 <= total n f.
Proof. intros H. unfold total. induction n as [|n IH]; cbn [sum]; [lra|]. pose proof (H n). lra. Qed.
Lemma caccurate_distance n (a b : nat -> complex) r : caccurate n a b r -> cfinite r = true ->
  modulus (B2R (fst r) - total n (fun i => rmul_re (a i) (b i))) (B2R (snd r) - total n (fun i => rmul_im (a i) (b i)))
    <= sqrt 2 * dot_bound prec emax (2 * n) (total n (fun i => cmodulus (a i) * cmodulus (b i))).
Proof using Hp.
  intros (H & _) F. destruct (H F) as (_ & E1 & E2). apply modulus_box.
  - eapply Rle_trans; [exact E1|]. apply bound_mono; [lia|]. split.
    + apply total_pos. intros i. unfold size_re. pose proof (Rabs_pos (B2R (fst (a i)) * B2R (fst (b i)))). pose proof (Rabs_pos (B2R (snd (a i)) * B2R (snd (b i)))). lra.
    + apply total_le. intros i. apply cross_le.
  - eapply Rle_trans; [exact E2|]. apply bound_mono; [lia|]. split.
    + apply total_pos. intros i. unfold size_im. pose proof (Rabs_pos (B2R (fst (a i)) * B2R (snd (b i)))). pose proof (Rabs_pos (B2R (snd (a i)) * B2R (fst (b i)))). lra.
    + apply total_le. intros i. unfold size_im, cmodulus.
      pose proof (cross_le (B2R (fst (a i))) (B2R (snd (a i))) (B2R (snd (b i))) (B2R (fst (b i)))) as C. unfold modulus in *.
      replace (B2R (fst (b i)) ^ 2 + B2R (snd (b i)) ^ 2) with (B2R (snd (b i)) ^ 2 + B2R (fst (b i)) ^ 2) by ring. exact C.
Qed.
Lemma caccurate_none a b : caccurate 0 a b czero.
Proof. apply (csum_accurate 0). Qed.
End Complex.

(** ** Operands *)
Section Bare.
Context {A : Type} (one : A).
Lemma bare_lvalue (e : @lexpr A) idx : lvalue (fun _ x => x) (plain one e) idx = lvalue (fun _ x => x) e idx.
Proof.
  revert idx. induction e as [a|e IH f|e IH f]; intros idx; [reflexivity| |]; cbn [plain lvalue]; rewrite ?IH; reflexivity.
Qed.
Lemma bare_lshape (e : @lexpr A) : lshape (plain one e) = lshape e.
Proof. induction e as [a|e IH f|e IH f]; [reflexivity| |]; cbn [plain lshape]; rewrite ?IH; reflexivity. Qed.
Lemma bare_base (e : @lexpr A) : base (plain one e) = base e.
Proof. induction e as [a|e IH f|e IH f]; [reflexivity| |]; cbn [plain base]; auto. Qed.
Lemma bare_holds (e : @lexpr A) rows cols f : bare_matrix e rows cols f -> holds_matrix e rows cols f.
Proof.
  intros (HA & HS & HV). apply (sc_matrix one one (fun _ x => x) (fun _ => false) eq_refl (fun x => eq_refl) eq_refl).
  split; [now rewrite bare_base|]. split; [now rewrite bare_lshape|]. intros i j Hi Hj. rewrite bare_lvalue. auto.
Qed.
Lemma bare_holds_v (e : @lexpr A) n f : bare_vector e n f -> holds_vector e n f.
Proof.
  intros (HA & HS & HV). apply (sc_vector one one (fun _ x => x) (fun _ => false) eq_refl (fun x => eq_refl) eq_refl).
  split; [now rewrite bare_base|]. split; [now rewrite bare_lshape|]. intros i Hi. rewrite bare_lvalue. auto.
Qed.
End Bare.
