(** Loops over the rows of a matrix whose rows are contiguous: products and systems in place, sums into another
    vector. *)
From Coq Require Import ZArith Ring_theory Ring Field_theory Field.
From Verif Require Import Base BaseProofs MatmulModel MatmulSpec BlasModel BlasSpec BlasProofs TriModel TriSpec TriProofs
  SymModel SymSpec SymProofs PackModel PackSpec.
From Coq Require Import ZifyNat ZifyN ZifyBool.
Ltac Zify.zify_post_hook ::= idtac.
Local Open Scope Z_scope.

(** ** Loops *)
Lemma rounds_snoc {St} k iX incX iY incY (body : Z -> Z -> St -> outcome St) s :
  rounds (S k) iX incX iY incY body s =
  do s' <- rounds k iX incX iY incY body s; body (iX + Z.of_nat k * incX) (iY + Z.of_nat k * incY) s'.
Proof.
  revert iX iY s. induction k as [|k IH]; intros iX iY s.
  - cbn [rounds bind]. rewrite !Z.add_0_r. now destruct (body iX iY s).
  - change (rounds (S (S k)) iX incX iY incY body s) with (do s' <- body iX iY s; rounds (S k) (iX + incX) incX (iY + incY) incY body s').
    change (rounds (S k) iX incX iY incY body s) with (do s' <- body iX iY s; rounds k (iX + incX) incX (iY + incY) incY body s').
    destruct (body iX iY s) as [s1|e|]; cbn [bind]; [|reflexivity|reflexivity]. rewrite IH.
    replace (iX + incX + Z.of_nat k * incX) with (iX + Z.of_nat (S k) * incX) by lia.
    now replace (iY + incY + Z.of_nat k * incY) with (iY + Z.of_nat (S k) * incY) by lia.
Qed.
Lemma ascend_inv {St} (P : Z -> St -> Prop) n inc body s : 0 <= n -> P 0 s ->
  (forall i s, 0 <= i < n -> P i s -> exists s', body (i * inc) i s = Ok s' /\ P (i + 1) s') ->
  exists s', ascend n inc body s = Ok s' /\ P n s'.
Proof.
  intros Hn H0 Hb. unfold ascend. apply walk_inv; [exact Hn|exact H0|]. intros j t Hj Pt.
  rewrite Z.mul_1_r. now apply Hb.
Qed.
Lemma descend_inv {St} (P : Z -> St -> Prop) n inc body s : 0 <= n -> P n s ->
  (forall i s, 0 <= i < n -> P (i + 1) s -> exists s', body (i * inc) i s = Ok s' /\ P i s') ->
  exists s', descend n n inc body s = Ok s' /\ P 0 s'.
Proof.
  intros Hn H0 Hb. unfold descend.
  assert (G : forall k z t, z = Z.of_nat k -> z <= n -> P z t ->
    exists t', rounds k ((z - 1) * inc) (- inc) (z - 1) (-1) body t = Ok t' /\ P 0 t').
  { induction k as [|k IH]; intros z t Ez Hz Pt.
    - exists t. split; [reflexivity|]. now replace 0 with z by lia.
    - destruct (Hb (z - 1) t) as (t1 & E1 & P1); [lia|now replace (z - 1 + 1) with z by lia|].
      cbn [rounds]. rewrite E1. cbn [bind]. destruct (IH (z - 1) t1) as (t2 & E2 & P2); [lia|lia|exact P1|].
      exists t2. split; [|exact P2]. rewrite <- E2. f_equal; lia. }
  apply (G (Z.to_nat n) n s); [lia|lia|exact H0].
Qed.
(** Rounds that change nothing may be left out. *)
Lemma ascend_skip_last {St} n inc (body : Z -> Z -> St -> outcome St) s s' :
  (forall t t', 0 < n -> body ((n - 1) * inc) (n - 1) t = Ok t' -> t' = t) ->
  ascend n inc body s = Ok s' -> ascend (n - 1) inc body s = Ok s'.
Proof.
  intros Hb E. unfold ascend, walk in *. destruct (Z_le_gt_dec n 0) as [H|H].
  { replace (Z.to_nat (n - 1)) with O by lia. now replace (Z.to_nat n) with O in E by lia. }
  replace (Z.to_nat n) with (S (Z.to_nat (n - 1))) in E by lia. rewrite rounds_snoc in E.
  destruct (rounds (Z.to_nat (n - 1)) 0 inc 0 1 body s) as [t|e|]; cbn [bind] in E; [|discriminate|discriminate].
  rewrite Z2Nat.id in E by lia. replace (0 + (n - 1) * inc) with ((n - 1) * inc) in E by ring.
  replace (0 + (n - 1) * 1) with (n - 1) in E by ring. f_equal. symmetry. now apply (Hb t s'); [lia|].
Qed.
Lemma ascend_skip_first {St} n inc (body : Z -> Z -> St -> outcome St) s s' :
  (forall t t', 0 < n -> body 0 0 t = Ok t' -> t' = t) ->
  ascend n inc body s = Ok s' -> ascend_from_1 n inc body s = Ok s'.
Proof.
  intros Hb E. unfold ascend, walk, ascend_from_1 in *. destruct (Z_le_gt_dec n 0) as [H|H].
  { replace (Z.to_nat (n - 1)) with O by lia. now replace (Z.to_nat n) with O in E by lia. }
  replace (Z.to_nat n) with (S (Z.to_nat (n - 1))) in E by lia. cbn [rounds] in E.
  destruct (body 0 0 s) as [t|e|] eqn:Eb; cbn [bind] in E; [|discriminate|discriminate].
  apply Hb in Eb; [|lia]. subst t. rewrite <- E. f_equal; lia.
Qed.
Lemma descend_skip_last {St} n inc (body : Z -> Z -> St -> outcome St) s s' :
  (forall t t', 0 < n -> body 0 0 t = Ok t' -> t' = t) ->
  descend n n inc body s = Ok s' -> descend (n - 1) n inc body s = Ok s'.
Proof.
  intros Hb E. unfold descend in *. destruct (Z_le_gt_dec n 0) as [H|H].
  { replace (Z.to_nat (n - 1)) with O by lia. now replace (Z.to_nat n) with O in E by lia. }
  replace (Z.to_nat n) with (S (Z.to_nat (n - 1))) in E by lia. rewrite rounds_snoc in E.
  destruct (rounds (Z.to_nat (n - 1)) ((n - 1) * inc) (- inc) (n - 1) (-1) body s) as [t|e|]; cbn [bind] in E; [|discriminate|discriminate].
  rewrite Z2Nat.id in E by lia. replace ((n - 1) * inc + (n - 1) * - inc) with 0 in E by ring.
  replace (n - 1 + (n - 1) * -1) with 0 in E by ring. f_equal. symmetry. now apply (Hb t s'); [lia|].
Qed.

(** ** Windows of a sum *)
Section Windows.
Context {A : Type} (zero one : A) (add mul : A -> A -> A).
Hypothesis SR : semi_ring_theory zero one add mul eq.
Local Notation zs := (zsum zero add).
Lemma zsum_window n lo len t : (forall k, 0 <= k < len -> 0 <= lo + k < n) ->
  (forall j, 0 <= j < n -> ~ lo <= j < lo + len -> t j = zero) -> zs len (fun k => t (lo + k)) = zs n t.
Proof using SR.
  intros Hw Hz. destruct (Z_le_gt_dec len 0) as [H|H].
  - rewrite zsum_nonpos by exact H. rewrite (zsum_ext zero add n t (fun _ => zero)); [|intros i Hi; apply Hz; lia].
    symmetry. apply (zsum_zero zero one add mul SR).
  - pose proof (Hw 0 ltac:(lia)) as H0. pose proof (Hw (len - 1) ltac:(lia)) as H1.
    rewrite (zsum_skip zero one add mul SR lo n t); [|lia|intros i Hi; apply Hz; lia].
    rewrite (zsum_trunc zero one add mul SR len (n - lo)); [reflexivity|lia|]. intros i Hi Hl. apply Hz; lia.
Qed.
(** the diagonal term and the others *)
Definition off (R : Z -> Z -> A) (i j : Z) : A := if i =? j then zero else R i j.
Lemma zsum_diag n R i f : 0 <= i < n ->
  zs n (fun j => mul (R i j) (f j)) = add (mul (R i i) (f i)) (zs n (fun j => mul (off R i j) (f j))).
Proof using SR.
  intros Hi. transitivity (add (zs n (fun j => if i =? j then mul (R j j) (f j) else zero)) (zs n (fun j => mul (off R i j) (f j)))).
  - rewrite <- (zsum_add zero one add mul SR). apply zsum_ext. intros j Hj. unfold off. destruct (i =? j) eqn:E.
    + replace j with i by lia. rewrite (SRmul_0_l SR), (SRadd_comm SR), (SRadd_0_l SR). reflexivity.
    + now rewrite (SRadd_0_l SR).
  - rewrite (zsum_pick zero one add mul SR n i (fun j => mul (R j j) (f j))). now replace ((0 <=? i) && (i <? n)) with true by lia.
Qed.
End Windows.

(** ** Parts of a vector *)
Section Segments.
Context {A : Type} (d zero one : A) (add mul : A -> A -> A).
Hypothesis SR : semi_ring_theory zero one add mul eq.
Variable conj : A -> A.
Local Notation zs := (zsum zero add).
Lemma seg_dot n x inc c len p lo (s : list A) W : inside s x inc n ->
  (forall k, 0 <= k < len -> 0 <= lo + k < n /\ 0 <= p + k < Z.of_nat (length s) /\ W (lo + k) = cj conj c (val d s (p + k))) ->
  (forall j, 0 <= j < n -> ~ lo <= j < lo + len -> W j = zero) ->
  forall z, z = start x inc n + lo * inc ->
  dot_gen zero add mul conj c len p 1 z inc s = Ok (zs n (fun j => mul (W j) (val d s (elt x inc n j)))).
Proof using SR.
  intros Hin Hw Hz z ->. rewrite (dot_gen_ok d).
  - f_equal. rewrite <- (zsum_window zero one add mul SR n lo len (fun j => mul (W j) (val d s (elt x inc n j)))).
    + apply zsum_ext. intros k Hk. destruct (Hw k Hk) as (_ & _ & E). rewrite E. f_equal; [now rewrite Z.mul_1_r|]. f_equal. rewrite <- start_elt. ring.
    + intros k Hk. now apply Hw.
    + intros j Hj N. rewrite Hz by assumption. apply (SRmul_0_l SR).
  - intros k Hk. destruct (Hw k Hk) as (H1 & H2 & _). split; [lia|]. replace (start x inc n + lo * inc + k * inc) with (start x inc n + (lo + k) * inc) by ring.
    rewrite start_elt. now apply Hin.
Qed.
Variables (ny y incY : Z) (m : list A).
Hypothesis HincY : incY <> 0.
Hypothesis HinY : inside m y incY ny.
Local Notation ye := (elt y incY ny).
Local Notation gain := (gain d add ye (line ny)).
Local Notation region := (region ye (line ny)).
Local Notation fixed := (fixed ye (line ny) m).
Lemma seg_axpy c cnt al p lo s W : changes d m s region ->
  (forall k, 0 <= k < cnt -> 0 <= lo + k < ny /\ fixed (p + k) /\ W (lo + k) = cj conj c (val d m (p + k))) ->
  (forall l, 0 <= l < ny -> ~ lo <= l < lo + cnt -> W l = zero) ->
  forall z, z = start y incY ny + lo * incY ->
  exists s', axpy_gen add mul conj c cnt al p 1 z incY s = Ok s' /\ gain (fun l => mul al (W l)) s s'.
Proof using SR HincY HinY.
  intros Cs Hw Hz z ->.
  destruct (gain_axpy d zero one add mul SR ye (line ny) m conj Z.eqb c cnt al p 1 (start y incY ny + lo * incY) incY (fun k => lo + k) s) as (s' & E & G).
  - intros i j. apply Z.eqb_eq.
  - apply (ye_inj ny y incY HincY).
  - apply (ye_in ny y incY m HinY).
  - exact Cs.
  - intros k Hk. split; [apply Hw; exact Hk|]. rewrite <- start_elt. ring.
  - intros k Hk. rewrite Z.mul_1_r. now apply Hw.
  - exists s'. split; [exact E|]. eapply gain_ext; [|exact G]. intros l Hl. cbv beta. unfold line in Hl.
    rewrite (zsum_ext zero add cnt _ (fun k => if l - lo =? k then mul al (W (lo + k)) else zero)).
    + rewrite (zsum_pick zero one add mul SR). destruct ((0 <=? l - lo) && (l - lo <? cnt)) eqn:Ew.
      * now replace (lo + (l - lo)) with l by lia.
      * rewrite Hz by lia. symmetry. rewrite (SRmul_comm SR). apply (SRmul_0_l SR).
    + intros k Hk. replace (l =? lo + k) with (l - lo =? k) by lia. destruct (l - lo =? k); [|reflexivity]. destruct (Hw k Hk) as (_ & _ & ->). now rewrite Z.mul_1_r.
Qed.
End Segments.

(** ** Products in place *)
Section InPlace.
Context {A : Type} (d zero one : A) (add mul : A -> A -> A).
Hypothesis SR : semi_ring_theory zero one add mul eq.
Add Ring PackRing : SR.
Variables (n x inc : Z) (m : list A) (R : Z -> Z -> A).
Hypothesis Hinc : inc <> 0.
Hypothesis Hin : inside m x inc n.
Local Notation zs := (zsum zero add).
Local Notation e := (elt x inc n).
Local Notation V := (in_vector x inc n).
Local Notation multiplied := (multiplied d zero add mul n x inc m R).
Local Notation x0 l := (val d m (e l)).
Variable body : Z -> Z -> list A -> outcome (list A).

Section Dots.
Hypothesis Hb : forall i s, 0 <= i < n -> changes d m s V ->
  body (i * inc) i s = store s (e i) (zs n (fun j => mul (R i j) (val d s (e j)))).
Lemma product_ascend : (forall i j, 0 <= j < i -> i < n -> R i j = zero) ->
  exists m', ascend n inc body m = Ok m' /\ multiplied m'.
Proof using SR Hinc Hin Hb.
  intros Hz. destruct (ascend_ok d (fun i f => zs n (fun j => mul (R i j) (f j))) body n n x inc m) as (m' & E & C & H1 & _).
  - exact Hinc.
  - lia.
  - exact Hin.
  - intros i f g Hi Hfg. apply zsum_ext. intros j Hj. now rewrite Hfg.
  - exact Hb.
  - exists m'. split; [exact E|]. split; [exact C|]. intros i Hi. rewrite H1 by exact Hi. apply zsum_ext. intros j Hj.
    destruct (j <? i) eqn:El; [|reflexivity]. rewrite Hz by lia. ring.
Qed.
Lemma product_descend : (forall i j, 0 <= i < j -> j < n -> R i j = zero) ->
  exists m', descend n n inc body m = Ok m' /\ multiplied m'.
Proof using SR Hinc Hin Hb.
  intros Hz. destruct (descend_ok d (fun i f => zs n (fun j => mul (R i j) (f j))) body n n x inc m) as (m' & E & C & H1 & _).
  - exact Hinc.
  - lia.
  - exact Hin.
  - intros i f g Hi Hfg. apply zsum_ext. intros j Hj. now rewrite Hfg.
  - intros i s Hi. apply Hb. lia.
  - exists m'. split; [exact E|]. split; [exact C|]. intros i Hi. rewrite H1 by lia. apply zsum_ext. intros j Hj.
    destruct (i <? j) eqn:El; [|reflexivity]. rewrite Hz by lia. ring.
Qed.
End Dots.

Section Columns.
(** column i of R times element i is added to the others *)
Hypothesis Hb : forall i s, 0 <= i < n -> changes d m s V ->
  exists s', body (i * inc) i s = Ok s' /\ changes d s s' V /\
    forall l, 0 <= l < n -> val d s' (e l) = if l =? i then mul (val d s (e i)) (R i i) else add (val d s (e l)) (mul (val d s (e i)) (R l i)).
Definition partly (D : Z -> bool) (s : list A) : Prop :=
  changes d m s V /\ forall l, 0 <= l < n ->
    val d s (e l) = if D l then zs n (fun k => if D k then mul (R l k) (x0 k) else zero) else x0 l.
Lemma partly_step D i s : 0 <= i < n -> D i = false ->
  (forall k, 0 <= k < n -> D k = true -> R i k = zero) -> (forall l, 0 <= l < n -> D l = false -> l <> i -> R l i = zero) ->
  partly D s -> exists s', body (i * inc) i s = Ok s' /\ partly (fun k => D k || (k =? i)) s'.
Proof using SR Hb.
  intros Hi Di Hr Hc [C P]. destruct (Hb i s Hi C) as (s' & E & C' & H). exists s'. split; [exact E|]. split.
  - eapply changes_weaken; [|exact (changes_trans d _ _ _ _ _ C C')]. cbv beta. tauto.
  - intros l Hl. cbv beta. rewrite H by exact Hl. pose proof (P i Hi) as Pi. rewrite Di in Pi. rewrite Pi. destruct (l =? i) eqn:El.
    + replace l with i by lia. rewrite orb_true_r.
      rewrite (zsum_ext zero add n _ (fun k => if i =? k then mul (R i k) (x0 k) else zero)).
      * rewrite (zsum_pick zero one add mul SR). replace ((0 <=? i) && (i <? n)) with true by lia. ring.
      * intros k Hk. rewrite (Z.eqb_sym i k). destruct (D k) eqn:Dk; cbn [orb]; [|reflexivity]. rewrite (Hr k Hk Dk). destruct (k =? i); ring.
    + rewrite orb_false_r. rewrite (P l Hl). destruct (D l) eqn:Dl.
      * rewrite (zsum_ext zero add n (fun k => if D k || (k =? i) then mul (R l k) (x0 k) else zero)
          (fun k => add (if D k then mul (R l k) (x0 k) else zero) (if i =? k then mul (R l k) (x0 k) else zero))).
        -- rewrite (zsum_add zero one add mul SR), (zsum_pick zero one add mul SR). replace ((0 <=? i) && (i <? n)) with true by lia. ring.
        -- intros k Hk. rewrite (Z.eqb_sym i k). destruct (k =? i) eqn:Ek; [replace k with i by lia; rewrite Di|]; cbn [orb]; [ring|].
           rewrite orb_false_r. ring.
      * rewrite (Hc l Hl Dl) by lia. ring.
Qed.
Lemma partly_ext D D' s : (forall k, 0 <= k < n -> D k = D' k) -> partly D s -> partly D' s.
Proof using Type.
  intros H [C P]. split; [exact C|]. intros l Hl. rewrite <- H by exact Hl. rewrite (P l Hl). destruct (D l); [|reflexivity].
  apply zsum_ext. intros k Hk. now rewrite H by exact Hk.
Qed.
Lemma partly_all s : partly (fun _ => true) s -> multiplied s.
Proof using Type. intros [C P]. split; [exact C|]. intros i Hi. now rewrite P. Qed.
Lemma partly_none : partly (fun _ => false) m.
Proof using Type. split; [apply changes_refl|]. reflexivity. Qed.
Lemma columns_ascend : (forall i j, 0 <= j < i -> i < n -> R i j = zero) ->
  exists m', ascend n inc body m = Ok m' /\ multiplied m'.
Proof using SR Hb Hin.
  intros Hz. destruct (Z_le_gt_dec n 0) as [Hn|Hn].
  { exists m. unfold ascend. rewrite walk_nonpos by exact Hn. split; [reflexivity|]. split; [apply changes_refl|]. intros; lia. }
  destruct (ascend_inv (fun i s => partly (fun k => k <? i) s) n inc body m) as (m' & E & P).
  - lia.
  - eapply partly_ext; [|apply partly_none]. intros k Hk. cbv beta. lia.
  - intros i s Hi P. destruct (partly_step (fun k => k <? i) i s Hi) as (s' & E & P').
    + lia.
    + intros k Hk Dk. apply Hz; lia.
    + intros l Hl Dl Ne. destruct (Z_lt_le_dec l i) as [H|H]; [lia|]. apply Hz; lia.
    + exact P.
    + exists s'. split; [exact E|]. eapply partly_ext; [|exact P']. intros k Hk. cbv beta. lia.
  - exists m'. split; [exact E|]. apply partly_all. eapply partly_ext; [|exact P]. intros k Hk. cbv beta. lia.
Qed.
Lemma columns_descend : (forall i j, 0 <= i < j -> j < n -> R i j = zero) ->
  exists m', descend n n inc body m = Ok m' /\ multiplied m'.
Proof using SR Hb Hin.
  intros Hz. destruct (Z_le_gt_dec n 0) as [Hn|Hn].
  { exists m. unfold descend. replace (Z.to_nat n) with O by lia. split; [reflexivity|]. split; [apply changes_refl|]. intros; lia. }
  destruct (descend_inv (fun i s => partly (fun k => i <=? k) s) n inc body m) as (m' & E & P).
  - lia.
  - eapply partly_ext; [|apply partly_none]. intros k Hk. cbv beta. lia.
  - intros i s Hi P. destruct (partly_step (fun k => i + 1 <=? k) i s Hi) as (s' & E & P').
    + lia.
    + intros k Hk Dk. apply Hz; lia.
    + intros l Hl Dl Ne. destruct (Z_lt_le_dec i l) as [H|H]; [lia|]. apply Hz; lia.
    + exact P.
    + exists s'. split; [exact E|]. eapply partly_ext; [|exact P']. intros k Hk. cbv beta. lia.
  - exists m'. split; [exact E|]. apply partly_all. eapply partly_ext; [|exact P]. intros k Hk. cbv beta. lia.
Qed.
End Columns.
End InPlace.
