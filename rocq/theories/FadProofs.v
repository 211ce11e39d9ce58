(** Proofs for C117. *)
From Coq Require Import ZArith Reals List Lia Lra Bool.
From Flocq Require Import Core Relative Plus_error BinarySingleNaN.
From Verif Require Import Base BaseProofs MatmulModel BlasModel BlasSpec BlasProofs TriModel TriSpec TriProofs SymModel SymSpec SymProofs PackSpec ExtModel ExtSpec ExtProofs
  AccModel AccSpec AccProofs NumModel NumSpec NumBasics NrmModel NrmFloat CsqModel CsqError GrtProofs FadModel FadSpec.
From Coq Require Import ZifyNat ZifyN ZifyBool.
Ltac Zify.zify_post_hook ::= idtac.
Local Open Scope R_scope.

(** ** Loops *)
Lemma acts_pair {A} (d : A) f h (P : A -> A -> A -> Prop) : acts d f h -> (forall u v, P u v (h u v)) -> each_pair d f P.
Proof.
  intros F H n x ix y iy m Hx Hy Hi Hd. destruct (F n x ix y iy m Hx Hy Hi Hd) as (m' & E & V & C). exists m'. split; [exact E|]. split; [exact C|].
  intros i I. rewrite (V i I). apply H.
Qed.
Lemma acts1_element {A} (d : A) f h (P : A -> A -> Prop) : acts1 d f h -> (forall v, P v (h v)) -> each_element d f P.
Proof.
  intros F H n y iy m Hy Hi. destruct (F n y iy m Hy Hi) as (m' & E & V & C). exists m'. split; [exact E|]. split; [exact C|].
  intros i I. rewrite (V i I). apply H.
Qed.
Lemma dense_entry {A} (d : A) plain cj h hc t (P : A -> A -> A -> Prop) : acts d plain h -> acts d cj hc ->
  (forall u v, P u v ((if is_conj t then hc else h) u v)) -> each_entry d (dense plain cj) t P.
Proof.
  intros F1 F2 H o rows cols a lda b ldb m Hr Hc Hl Ht Hin Hs.
  destruct (dense_ok d plain cj h hc F1 F2 o t rows cols a lda b ldb m Hr Hc Hl Ht Hin Hs) as (m' & E & C & V). exists m'. split; [exact E|]. split; [exact C|].
  intros i j Hi Hj. rewrite (V i j Hi Hj eq_refl). apply H.
Qed.
(** scal_init and then an addition, without laws *)
Lemma axpby_plain {A} (d zero : A) add mul is_zero alpha beta :
  acts d (axpby zero add mul is_zero alpha beta) (fun u v => add (if is_zero beta then zero else mul v beta) (mul alpha u)).
Proof.
  intros n x ix y iy m Hx Hy Hi Hd. unfold axpby.
  destruct (scal_init_ok d zero mul is_zero n beta y iy m Hy Hi) as (m1 & E1 & V1 & C1). rewrite E1. cbn [bind].
  pose proof C1 as [L1 C1']. destruct (axpy_acts d add mul alpha n x ix y iy m1) as (m2 & E2 & V2 & C2); auto.
  - intros i Hin. rewrite L1. now apply Hx.
  - intros i Hin. rewrite L1. now apply Hy.
  - exists m2. split; [exact E2|]. split.
    + intros i Hin. rewrite V2, V1 by auto. rewrite (C1' (elt x ix n i)); [reflexivity|now apply Hx|intros (j & Hj & Ej); now apply (Hd j i Hj Hin)].
    + eapply changes_weaken; [|eapply changes_trans; [exact C1|exact C2]]. intros p [H|H]; exact H.
Qed.
Lemma acxpby_plain {A} (d zero : A) add mul is_zero alpha beta :
  acts d (acxpby zero add mul (fun v => v) is_zero alpha beta) (fun u v => add (if is_zero beta then zero else mul v beta) (mul alpha u)).
Proof. exact (axpby_plain d zero add mul is_zero alpha beta). Qed.

(** ger, without laws *)
Section Ger.
Local Open Scope Z_scope.
Context {A : Type} (d : A) (add mul : A -> A -> A).
Lemma ger_row_plain rows cols alpha x incX y incY a lda (m : list A) :
  cols <= lda -> block_inside m RowMajor a lda rows cols ->
  vector_apart m x incX rows (block RowMajor a lda rows cols) -> vector_apart m y incY cols (block RowMajor a lda rows cols) ->
  exists m', geru_row add mul (fun v => v) rows cols alpha (start x incX rows) incX (start y incY cols) incY a lda m = Ok m' /\
    changes d m m' (block RowMajor a lda rows cols) /\
    forall i j, 0 <= i < rows -> 0 <= j < cols -> entry d RowMajor a lda m' i j =
      add (entry d RowMajor a lda m i j) (mul (mul alpha (val d m (elt x incX rows i))) (val d m (elt y incY cols j))).
Proof.
  intros Hl Hin Hx Hy. unfold geru_row.
  destruct (lines d rows (fun i m => do u <- load m (start x incX rows + i * incX); axpy_gen add mul (fun v => v) false cols (mul alpha u) (start y incY cols) incY (a + i * lda) 1 m)
    (fun _ k => 0 <= k < cols) (fun l k => a + l * lda + k)
    (fun l k => add (val d m (a + l * lda + k)) (mul (mul alpha (val d m (elt x incX rows l))) (val d m (elt y incY cols k)))) m) as (m' & E & C & V).
  - intros l k Hll Hk. apply (Hin l k Hll Hk).
  - intros l k l' k' Hll Hl' Hk Hk' Q. assert (K : l * lda + k = l' * lda + k') by lia. nia.
  - intros l s Hll Cs. pose proof Cs as [L Cv].
    assert (part : forall p, (exists l' k, 0 <= l' < l /\ 0 <= k < cols /\ p = a + l' * lda + k) -> block RowMajor a lda rows cols p)
      by (intros p (l' & k & H1 & H2 & ->); exists l', k; split; [lia|]; split; [lia|reflexivity]).
    assert (LX : load s (start x incX rows + l * incX) = Ok (val d m (elt x incX rows l))).
    { destruct (Hx l Hll) as [X1 X2]. rewrite <- (start_elt x incX rows l) in *. rewrite (load_ok d) by (rewrite L; exact X1). f_equal. apply Cv; [exact X1|]. intros Q. apply X2, part, Q. }
    rewrite LX. cbn [bind].
    change (axpy_gen add mul (fun v => v) false cols (mul alpha (val d m (elt x incX rows l))) (start y incY cols) incY (a + l * lda) 1 s)
      with (axpy add mul cols (mul alpha (val d m (elt x incX rows l))) y incY (a + l * lda) 1 s).
    assert (EL : forall k, elt (a + l * lda) 1 cols k = a + l * lda + k) by (intros k; unfold elt; change (1 <? 0) with false; cbv iota; lia).
    destruct (axpy_ok d add mul cols (mul alpha (val d m (elt x incX rows l))) y incY (a + l * lda) 1 s) as (s' & E & V & C).
    + intros k Hk. rewrite L. apply (Hy k Hk).
    + intros k Hk. rewrite L, EL. apply (Hin l k Hll Hk).
    + left. lia.
    + intros i j Hi Hij Hj Q. rewrite EL in Q. destruct (Hy j ltac:(lia)) as [_ Y2]. apply Y2. rewrite <- Q. exists l, i. split; [lia|]. split; [lia|reflexivity].
    + exists s'. split; [exact E|]. split.
      * eapply (changes_iff d); [|exact C]. intros p. split; [intros (k & Hk & ->); exists k; split; auto|intros (k & Hk & ->); exists k; split; auto].
      * intros k Hk. rewrite <- (EL k) at 1. rewrite (V k Hk), EL. f_equal.
        -- apply Cv; [apply (Hin l k Hll Hk)|]. intros (l' & k' & H1 & H2 & Q). assert (K : l * lda + k = l' * lda + k') by lia. nia.
        -- f_equal. destruct (Hy k Hk) as [Y1 Y2]. apply Cv; [exact Y1|]. intros Q. apply Y2, part, Q.
  - exists m'. split; [exact E|]. split.
    + eapply (changes_iff d); [|exact C]. intros p. split; intros (l & k & H1 & H2 & ->); exists l, k; (split; [lia|]); (split; [lia|reflexivity]).
    + intros i j Hi Hj. apply (V i j Hi Hj).
Qed.
Lemma ger_plain o rows cols alpha x incX y incY a lda (m : list A) :
  leading o rows cols lda -> block_inside m o a lda rows cols ->
  vector_apart m x incX rows (block o a lda rows cols) -> vector_apart m y incY cols (block o a lda rows cols) ->
  exists m', geru add mul (fun v => v) o rows cols alpha x incX y incY a lda m = Ok m' /\ changes d m m' (block o a lda rows cols) /\
    forall i j, 0 <= i < rows -> 0 <= j < cols -> entry d o a lda m' i j =
      let u := val d m (elt x incX rows i) in let v := val d m (elt y incY cols j) in
      add (entry d o a lda m i j) (match o with RowMajor => mul (mul alpha u) v | ColMajor => mul (mul alpha v) u end).
Proof.
  intros Hl Hin Hx Hy. unfold geru. destruct o; cbn [leading] in Hl.
  - apply ger_row_plain; auto.
  - destruct (ger_row_plain cols rows alpha y incY x incX a lda m Hl) as (m' & E & C & V).
    + now apply block_inside_col.
    + eapply apart_iff_vector; [|exact Hy]. intros p. apply block_col'.
    + eapply apart_iff_vector; [|exact Hx]. intros p. apply block_col'.
    + exists m'. split; [exact E|]. split; [eapply (changes_iff d); [|exact C]; intros p; symmetry; apply block_col'|].
      intros i j Hi Hj. exact (V j i Hj Hi).
Qed.
End Ger.

(** ** Values *)
Section Float.
Variables prec emax : Z.
Context (Hp : Prec_gt_0 prec) (Hm : Prec_lt_emax prec emax).
Hypothesis (P24 : (24 <= prec)%Z) (PE : (3 * prec + 8 <= emax)%Z).
Local Notation num := (binary_float prec emax).
Local Notation fadd := (fadd prec emax Hp Hm).
Local Notation fmul := (fmul prec emax Hp Hm).
Local Notation fdiv := (fdiv prec emax Hp Hm).
Local Notation rn := (nearest prec emax).
Local Notation u := (unit_roundoff prec).
Local Notation eta := (underflow_unit prec emax).

Lemma fit z : Rabs z <= bpow radix2 (emax - 1) -> Rabs (rn z) < bpow radix2 emax.
Proof. intros Z. apply (rn_small prec emax Hp z (emax - 1)); auto; lia. Qed.
Lemma twice : bpow radix2 (emax - 1) = 2 * bpow radix2 (emax - 2).
Proof. replace (emax - 1)%Z with (1 + (emax - 2))%Z by lia. rewrite bpow_plus. reflexivity. Qed.
Lemma large : 1 <= bpow radix2 (emax - 2).
Proof. change 1 with (bpow radix2 0). apply bpow_le. lia. Qed.

Lemma product (x y : num) : is_finite x = true -> is_finite y = true -> value_of (fmul x y) (B2R x * B2R y).
Proof.
  intros F1 F2 B. pose proof twice. pose proof large. destruct (fmul_small prec emax Hp Hm x y F1 F2) as [G V]; [apply fit; lra|]. split; [exact G|]. rewrite V. apply rn_rel; auto.
Qed.
Lemma quotient_value (x y : num) : is_finite x = true -> B2R y <> 0 -> value_of (fdiv x y) (B2R x / B2R y).
Proof.
  intros F1 F2 B. pose proof twice. pose proof large. destruct (fdiv_small prec emax Hp Hm x y F1 F2) as [G V]; [apply fit; lra|]. split; [exact G|]. rewrite V. apply rn_rel; auto.
Qed.
Lemma added (v p : num) q e : is_finite v = true -> is_finite p = true -> 0 <= e -> Rabs (B2R p - q) <= e -> Rabs (B2R v) + Rabs q + e <= bpow radix2 (emax - 1) ->
  is_finite (fadd v p) = true /\ Rabs (B2R (fadd v p) - (B2R v + q)) <= u * (Rabs (B2R v) + Rabs q) + (1 + u) * e.
Proof.
  intros F1 F2 E0 E W. pose proof (u_ok prec P24) as U.
  assert (S : Rabs (B2R v + B2R p) <= Rabs (B2R v) + Rabs q + e).
  { replace (B2R v + B2R p) with (B2R v + q + (B2R p - q)) by ring. eapply Rle_trans; [apply Rabs_triang|]. pose proof (Rabs_triang (B2R v) q). lra. }
  destruct (fadd_small prec emax Hp Hm v p F1 F2) as [G V]; [apply fit; lra|]. split; [exact G|]. rewrite V.
  pose proof (add_rel prec emax Hp (B2R v) (B2R p) (num_format prec emax v) (num_format prec emax p)) as AR.
  assert (AU : u / (1 + u) * Rabs (B2R v + B2R p) <= u * Rabs (B2R v + B2R p)) by (apply Rmult_le_compat_r; [apply Rabs_pos|apply v_le]).
  assert (AV : u * Rabs (B2R v + B2R p) <= u * (Rabs (B2R v) + Rabs q + e)) by (apply Rmult_le_compat_l; lra).
  replace (rn (B2R v + B2R p) - (B2R v + q)) with ((rn (B2R v + B2R p) - (B2R v + B2R p)) + (B2R p - q)) by ring.
  eapply Rle_trans; [apply Rabs_triang|]. lra.
Qed.
(** an element plus a rounded term *)
Lemma plus_value (v p : num) q : is_finite v = true -> value_of p q -> sum_of (fadd v p) (B2R v) q.
Proof.
  intros F V W. pose proof (Rabs_pos (B2R v)) as A0. pose proof (Rabs_pos q) as A1. pose proof (u_ok prec P24) as U. pose proof (eta_ok prec emax P24 PE) as E. pose proof twice as T. pose proof large as L.
  destruct V as [G B]; [lra|].
  assert (UQ : 0 <= u * Rabs q <= / 1048576 * Rabs q) by (split; [apply Rmult_le_pos; lra|apply Rmult_le_compat_r; lra]).
  destruct (added v p q (u * Rabs q + eta) F G) as [G' B']; [lra|exact B|lra|]. split; [exact G'|]. eapply Rle_trans; [exact B'|].
  assert (u * (u * Rabs q) <= / 1048576 * (u * Rabs q)) by (apply Rmult_le_compat_r; lra).
  assert (u * eta <= / 1048576 * eta) by (apply Rmult_le_compat_r; lra).
  assert (0 <= u * Rabs (B2R v)) by (apply Rmult_le_pos; lra). lra.
Qed.
Lemma two_values (p q p' q' : num) : is_finite p = true -> is_finite q = true -> is_finite p' = true -> is_finite q' = true ->
  sum_of (fadd (fmul p q) (fmul p' q')) (B2R p * B2R q) (B2R p' * B2R q').
Proof.
  intros F1 F2 F3 F4 W. pose proof large. apply (two_products prec emax Hp Hm P24 PE); auto. lra.
Qed.
Lemma axpby_value (alpha beta x y : num) : is_finite alpha = true -> is_finite beta = true -> is_finite x = true -> B2R beta = 0 \/ is_finite y = true ->
  sum_of (fadd (if fis_zero prec emax beta then fzero prec emax else fmul y beta) (fmul alpha x)) (B2R beta * B2R y) (B2R alpha * B2R x).
Proof.
  intros FA FB FX FY. destruct beta as [sb|sb| |sb mb eb Bb]; try discriminate FB; cbn [fis_zero].
  - cbn [B2R]. rewrite Rmult_0_l. exact (plus_value (fzero prec emax) _ _ eq_refl (product _ _ FA FX)).
  - destruct FY as [Z|FY].
    + exfalso. cbn [B2R] in Z. apply eq_0_F2R in Z. destruct sb; discriminate Z.
    + rewrite (Rmult_comm (B2R (B754_finite sb mb eb Bb))). apply two_values; auto.
Qed.
(** the element of a rank-one update *)
Lemma ger_value (c alpha x y : num) : is_finite c = true -> is_finite alpha = true -> is_finite x = true -> is_finite y = true ->
  Rabs (B2R alpha * B2R x) <= bpow radix2 (emax - 2) ->
  let w := Rabs (B2R c) + Rabs (B2R alpha * B2R x * B2R y) in w <= bpow radix2 (emax - 2) ->
  is_finite (fadd c (fmul (fmul alpha x) y)) = true /\
  Rabs (B2R (fadd c (fmul (fmul alpha x) y)) - (B2R c + B2R alpha * B2R x * B2R y)) <= 4 * u * w + 2 * (1 + Rabs (B2R y)) * eta.
Proof.
  intros F0 F1 F2 F3 B1 w W. pose proof (u_ok prec P24) as U. pose proof (eta_ok prec emax P24 PE) as E. pose proof twice as T. pose proof large as L.
  destruct (product alpha x F1 F2 B1) as [G1 V1]. set (p := fmul alpha x) in *. set (t := B2R alpha * B2R x) in *. set (q := t * B2R y) in *.
  assert (WE : w = Rabs (B2R c) + Rabs q) by reflexivity. pose proof (Rabs_pos (B2R c)) as C0. pose proof (Rabs_pos q) as Q0. pose proof (Rabs_pos (B2R y)) as Y0.
  assert (PQ : Rabs (B2R p * B2R y - q) <= u * Rabs q + eta * Rabs (B2R y)).
  { unfold q. replace (B2R p * B2R y - t * B2R y) with ((B2R p - t) * B2R y) by ring. rewrite !Rabs_mult.
    apply Rle_trans with ((u * Rabs t + eta) * Rabs (B2R y)); [apply Rmult_le_compat_r; auto|right; ring]. }
  assert (EY : 0 <= eta * Rabs (B2R y) <= / 1024).
  { split; [apply Rmult_le_pos; lra|]. apply Rle_trans with (eta * bpow radix2 emax); [apply Rmult_le_compat_l; [lra|left; apply abs_B2R_lt_emax]|].
    rewrite eta_pow, <- bpow_plus. change (/ 1024) with (bpow radix2 (-10)). apply bpow_le. lia. }
  assert (UQ : 0 <= u * Rabs q <= / 1048576 * Rabs q) by (split; [apply Rmult_le_pos; lra|apply Rmult_le_compat_r; lra]).
  assert (PB : Rabs (B2R p * B2R y) <= Rabs q + (u * Rabs q + eta * Rabs (B2R y))).
  { replace (B2R p * B2R y) with ((B2R p * B2R y - q) + q) by ring. eapply Rle_trans; [apply Rabs_triang|]. lra. }
  destruct (fmul_small prec emax Hp Hm p y G1 F3) as [G2 V2]; [apply fit; lra|].
  pose proof (rn_rel prec emax Hp (B2R p * B2R y)) as RR. rewrite <- V2 in RR.
  assert (UP : u * Rabs (B2R p * B2R y) <= u * (Rabs q + (u * Rabs q + eta * Rabs (B2R y)))) by (apply Rmult_le_compat_l; lra).
  assert (UU : u * (u * Rabs q) <= / 1048576 * (u * Rabs q)) by (apply Rmult_le_compat_r; lra).
  assert (UE : u * (eta * Rabs (B2R y)) <= / 1048576 * (eta * Rabs (B2R y))) by (apply Rmult_le_compat_r; lra).
  set (e := (2 + / 1048576) * (u * Rabs q) + (1 + / 1048576) * (eta * Rabs (B2R y)) + eta).
  assert (PE1 : Rabs (B2R (fmul p y) - q) <= e).
  { replace (B2R (fmul p y) - q) with ((B2R (fmul p y) - B2R p * B2R y) + (B2R p * B2R y - q)) by ring. eapply Rle_trans; [apply Rabs_triang|]. unfold e. lra. }
  assert (E0 : 0 <= e) by (unfold e; lra).
  destruct (added c (fmul p y) q e F0 G2 E0 PE1) as [G B]; [unfold e; lra|]. split; [exact G|]. eapply Rle_trans; [exact B|].
  assert (UE2 : u * e <= / 1048576 * e) by (apply Rmult_le_compat_r; lra). rewrite WE.
  assert (0 <= u * Rabs (B2R c)) by (apply Rmult_le_pos; lra). unfold e in *. lra.
Qed.
(** integers *)
Lemma integer_value (v alpha x : num) a b c : is_finite v = true -> is_finite alpha = true -> is_finite x = true ->
  B2R v = IZR a -> B2R alpha = IZR b -> B2R x = IZR c -> (Z.abs a + Z.abs (b * c) <= 2 ^ prec)%Z ->
  is_finite (fadd v (fmul alpha x)) = true /\ B2R (fadd v (fmul alpha x)) = IZR (a + b * c).
Proof.
  intros F1 F2 F3 V1 V2 V3 W.
  assert (id : forall z, (Z.abs z <= 2 ^ prec)%Z -> rn (IZR z) = IZR z) by (intros z Z; apply (rn_id prec emax), fmt_int; auto; lia).
  assert (sm : forall z, (Z.abs z <= 2 ^ prec)%Z -> Rabs (rn (IZR z)) < bpow radix2 emax).
  { intros z Z. apply (rn_small prec emax Hp _ prec); [lia|lia|]. rewrite <- abs_IZR. rewrite <- IZR_Zpower by lia. apply IZR_le. exact Z. }
  assert (P : B2R alpha * B2R x = IZR (b * c)) by (rewrite V2, V3, mult_IZR; reflexivity).
  destruct (fmul_small prec emax Hp Hm alpha x F2 F3) as [G V]; [rewrite P; apply sm; lia|]. rewrite P, id in V by lia.
  assert (S : B2R v + B2R (fmul alpha x) = IZR (a + b * c)) by (rewrite V1, V, plus_IZR; reflexivity).
  destruct (fadd_small prec emax Hp Hm v _ F1 G) as [G' V']; [rewrite S; apply sm; lia|]. split; [exact G'|]. rewrite V', S. apply id. lia.
Qed.
End Float.
