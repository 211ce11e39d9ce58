(** Triangular systems in place, row by row; products with a folded matrix; updates of a matrix. *)
From Coq Require Import ZArith Ring_theory Ring Field_theory Field.
From Verif Require Import Base BaseProofs MatmulModel MatmulSpec BlasModel BlasSpec BlasProofs TriModel TriSpec TriProofs
  SymModel SymSpec SymProofs PackModel PackSpec PackLinear.
From Coq Require Import ZifyNat ZifyN ZifyBool.
Ltac Zify.zify_post_hook ::= idtac.
Local Open Scope Z_scope.

Section InPlace.
Context {A : Type} (d zero one : A) (add sub mul div : A -> A -> A) (opp inv : A -> A).
Hypothesis FT : field_theory zero one add mul sub opp div inv eq.
Add Field PackField : FT.
Let SR : semi_ring_theory zero one add mul eq := field_semi zero one add sub mul div opp inv FT.
Variables (n x inc : Z) (m : list A) (R : Z -> Z -> A).
Hypothesis Hinc : inc <> 0.
Hypothesis Hin : inside m x inc n.
Hypothesis Hdiag : forall i, 0 <= i < n -> R i i <> zero.
Local Notation zs := (zsum zero add).
Local Notation e := (elt x inc n).
Local Notation V := (in_vector x inc n).
Local Notation solved := (solved d zero add mul n x inc m R).
Local Notation x0 l := (val d m (e l)).
Variable body : Z -> Z -> list A -> outcome (list A).
Lemma add_over u v w : w <> zero -> add (mul w (div (sub u v) w)) v = u.
Proof using FT. intros H. field. exact H. Qed.

Section Dots.
Hypothesis Hb : forall i s, 0 <= i < n -> changes d m s V ->
  body (i * inc) i s = store s (e i) (div (sub (val d s (e i)) (zs n (fun j => mul (off zero R i j) (val d s (e j))))) (R i i)).
Local Notation G := (fun i f => div (sub (f i) (zs n (fun j => mul (off zero R i j) (f j)))) (R i i)).
Lemma G_ext i f g : 0 <= i < n -> (forall j, 0 <= j < n -> f j = g j) -> G i f = G i g.
Proof using Type. intros Hi H. cbv beta. rewrite H by exact Hi. do 2 f_equal. apply zsum_ext. intros j Hj. now rewrite H. Qed.
Lemma system_ascend : (forall i j, 0 <= i < j -> j < n -> R i j = zero) ->
  exists m', ascend n inc body m = Ok m' /\ solved m'.
Proof using FT Hinc Hin Hb Hdiag.
  intros Hz. destruct (ascend_ok d G body n n x inc m) as (m' & E & C & H1 & _).
  - exact Hinc.
  - lia.
  - exact Hin.
  - intros i f g Hi Hfg. now apply G_ext.
  - exact Hb.
  - exists m'. split; [exact E|]. split; [exact C|]. intros i Hi. rewrite (zsum_diag zero one add mul SR) by exact Hi.
    rewrite (H1 i) by exact Hi. cbv beta. replace (i <? i) with false by lia.
    rewrite (zsum_ext zero add n (fun j => mul (off zero R i j) (if j <? i then val d m' (e j) else x0 j)) (fun j => mul (off zero R i j) (val d m' (e j)))).
    + apply add_over. now apply Hdiag.
    + intros j Hj. destruct (j <? i) eqn:El; [reflexivity|]. unfold off. destruct (i =? j) eqn:Ej; [ring|]. rewrite Hz by lia. ring.
Qed.
Lemma system_descend : (forall i j, 0 <= j < i -> i < n -> R i j = zero) ->
  exists m', descend n n inc body m = Ok m' /\ solved m'.
Proof using FT Hinc Hin Hb Hdiag.
  intros Hz. destruct (descend_ok d G body n n x inc m) as (m' & E & C & H1 & _).
  - exact Hinc.
  - lia.
  - exact Hin.
  - intros i f g Hi Hfg. apply G_ext; [lia|exact Hfg].
  - intros i s Hi. apply Hb. lia.
  - exists m'. split; [exact E|]. split; [exact C|]. intros i Hi. rewrite (zsum_diag zero one add mul SR) by exact Hi.
    rewrite (H1 i) by lia. cbv beta. replace (i <? i) with false by lia.
    rewrite (zsum_ext zero add n (fun j => mul (off zero R i j) (if i <? j then val d m' (e j) else x0 j)) (fun j => mul (off zero R i j) (val d m' (e j)))).
    + apply add_over. now apply Hdiag.
    + intros j Hj. destruct (i <? j) eqn:El; [reflexivity|]. unfold off. destruct (i =? j) eqn:Ej; [ring|]. rewrite Hz by lia. ring.
Qed.
End Dots.

Section Columns.
Hypothesis Hb : forall i s, 0 <= i < n -> changes d m s V ->
  exists s', body (i * inc) i s = Ok s' /\ changes d s s' V /\
    forall l, 0 <= l < n -> val d s' (e l) =
      if l =? i then div (val d s (e i)) (R i i) else sub (val d s (e l)) (mul (div (val d s (e i)) (R i i)) (R l i)).
(** the elements in D are those of the solution *)
Definition settled (D : Z -> bool) (s : list A) : Prop :=
  changes d m s V /\ forall l, 0 <= l < n ->
    add (if D l then zero else val d s (e l)) (zs n (fun k => if D k then mul (R l k) (val d s (e k)) else zero)) = x0 l.
Lemma settled_step D i s : 0 <= i < n -> D i = false -> (forall k, 0 <= k < n -> D k = true -> R k i = zero) ->
  settled D s -> exists s', body (i * inc) i s = Ok s' /\ settled (fun k => D k || (k =? i)) s'.
Proof using FT Hb Hdiag.
  intros Hi Di Hc [C P]. destruct (Hb i s Hi C) as (s' & E & C' & H). exists s'. split; [exact E|]. split.
  - eapply changes_weaken; [|exact (changes_trans d _ _ _ _ _ C C')]. cbv beta. tauto.
  - intros l Hl. rewrite <- (P l Hl).
    rewrite (zsum_ext zero add n (fun k => if D k || (k =? i) then mul (R l k) (val d s' (e k)) else zero)
      (fun k => add (if D k then mul (R l k) (val d s (e k)) else zero) (if i =? k then mul (R l k) (div (val d s (e k)) (R k k)) else zero))).
    + rewrite (zsum_add zero one add mul SR), (zsum_pick zero one add mul SR). replace ((0 <=? i) && (i <? n)) with true by lia.
      destruct (l =? i) eqn:El.
      * replace l with i by lia. rewrite Di, orb_true_r. field. now apply Hdiag.
      * rewrite orb_false_r. destruct (D l) eqn:Dl; [rewrite (Hc l Hl Dl); ring|]. rewrite H, El by exact Hl. ring.
    + intros k Hk. rewrite (Z.eqb_sym i k), H by exact Hk. destruct (k =? i) eqn:Ek.
      * replace k with i by lia. rewrite Di. cbn [orb]. ring.
      * rewrite orb_false_r. destruct (D k) eqn:Dk; [|ring]. rewrite (Hc k Hk Dk). ring.
Qed.
Lemma settled_ext D D' s : (forall k, 0 <= k < n -> D k = D' k) -> settled D s -> settled D' s.
Proof using Type.
  intros H [C P]. split; [exact C|]. intros l Hl. rewrite <- (P l Hl), (H l Hl). f_equal. apply zsum_ext. intros k Hk. now rewrite H by exact Hk.
Qed.
Lemma settled_all s : settled (fun _ => true) s -> solved s.
Proof using FT. intros [C P]. split; [exact C|]. intros i Hi. rewrite <- (P i Hi). symmetry. apply (F_R FT). Qed.
Lemma settled_none : settled (fun _ => false) m.
Proof using FT. split; [apply changes_refl|]. intros l Hl. rewrite (zsum_zero zero one add mul SR). ring. Qed.
Lemma system_columns_ascend : (forall i j, 0 <= i < j -> j < n -> R i j = zero) ->
  exists m', ascend n inc body m = Ok m' /\ solved m'.
Proof using FT Hb Hin Hdiag.
  intros Hz. destruct (Z_le_gt_dec n 0) as [Hn|Hn].
  { exists m. unfold ascend. rewrite walk_nonpos by exact Hn. split; [reflexivity|]. split; [apply changes_refl|]. intros; lia. }
  destruct (ascend_inv (fun i s => settled (fun k => k <? i) s) n inc body m) as (m' & E & P).
  - lia.
  - eapply settled_ext; [|apply settled_none]. intros k Hk. cbv beta. lia.
  - intros i s Hi P. destruct (settled_step (fun k => k <? i) i s Hi) as (s' & E & P').
    + lia.
    + intros k Hk Dk. apply Hz; lia.
    + exact P.
    + exists s'. split; [exact E|]. eapply settled_ext; [|exact P']. intros k Hk. cbv beta. lia.
  - exists m'. split; [exact E|]. apply settled_all. eapply settled_ext; [|exact P]. intros k Hk. cbv beta. lia.
Qed.
Lemma system_columns_descend : (forall i j, 0 <= j < i -> i < n -> R i j = zero) ->
  exists m', descend n n inc body m = Ok m' /\ solved m'.
Proof using FT Hb Hin Hdiag.
  intros Hz. destruct (Z_le_gt_dec n 0) as [Hn|Hn].
  { exists m. unfold descend. replace (Z.to_nat n) with O by lia. split; [reflexivity|]. split; [apply changes_refl|]. intros; lia. }
  destruct (descend_inv (fun i s => settled (fun k => i <=? k) s) n inc body m) as (m' & E & P).
  - lia.
  - eapply settled_ext; [|apply settled_none]. intros k Hk. cbv beta. lia.
  - intros i s Hi P. destruct (settled_step (fun k => i + 1 <=? k) i s Hi) as (s' & E & P').
    + lia.
    + intros k Hk Dk. apply Hz; lia.
    + exact P.
    + exists s'. split; [exact E|]. eapply settled_ext; [|exact P']. intros k Hk. cbv beta. lia.
  - exists m'. split; [exact E|]. apply settled_all. eapply settled_ext; [|exact P]. intros k Hk. cbv beta. lia.
Qed.
End Columns.
End InPlace.

(** ** Sums into a vector: y[i] gains a row, the other elements gain a column *)
Section Sums.
Context {A : Type} (d zero one : A) (add mul : A -> A -> A).
Hypothesis SR : semi_ring_theory zero one add mul eq.
Add Ring PackRing2 : SR.
Local Notation zs := (zsum zero add).
Variables (n y incY : Z) (m : list A) (alpha : A) (xv : Z -> A).
Local Notation ye := (elt y incY n).
Local Notation gain := (gain d add ye (line n)).
Local Notation region := (region ye (line n)).
Variable body : Z -> list A -> outcome (list A).
Lemma folded (P Q : Z -> Z -> A) s : changes d m s region ->
  (forall i s, 0 <= i < n -> changes d m s region -> exists s', body i s = Ok s' /\
     gain (fun l => add (if l =? i then mul alpha (zs n (fun j => mul (P i j) (xv j))) else zero) (mul (mul alpha (xv i)) (Q i l))) s s') ->
  exists s', repeat n body s = Ok s' /\ gain (fun l => mul alpha (zs n (fun j => mul (add (P l j) (Q j l)) (xv j)))) s s'.
Proof using SR.
  intros Cs Hb. destruct (gain_repeat d zero one add mul SR ye (line n) m _ n body s Cs Hb) as (s' & E & G).
  exists s'. split; [exact E|]. eapply gain_ext; [|exact G]. intros l Hl. cbv beta. unfold line in Hl.
  rewrite (zsum_add zero one add mul SR), (zsum_pick zero one add mul SR n l (fun i => mul alpha (zs n (fun j => mul (P i j) (xv j))))).
  replace ((0 <=? l) && (l <? n)) with true by lia. rewrite <- !(zsum_mul zero one add mul SR), <- (zsum_add zero one add mul SR).
  apply zsum_ext. intros j Hj. ring.
Qed.
End Sums.

(** ** Updates of the kept entries of a matrix *)
Section Grid.
Context {A : Type} (d zero one : A) (add mul : A -> A -> A).
Hypothesis SR : semi_ring_theory zero one add mul eq.
Variable conj : A -> A.
Variables (n : Z) (addr : Z * Z -> Z) (mem : Z * Z -> Prop) (m : list A).
Hypothesis Hmem : forall p, mem p -> 0 <= fst p < n /\ 0 <= snd p < n.
Hypothesis Hinj : forall p q, mem p -> mem q -> addr p = addr q -> p = q.
Hypothesis Hin : forall p, mem p -> 0 <= addr p < Z.of_nat (length m).
Local Notation gain := (gain d add addr mem).
Local Notation region := (region addr mem).
Local Notation fixed := (fixed addr mem m).
(** axpy of a vector into the whole kept part of row i *)
Lemma grid_row c cnt al x inc i lo w s : 0 <= i < n -> changes d m s region ->
  (forall j, mem (i, j) <-> lo <= j < lo + cnt) -> (forall k, 0 <= k < cnt -> addr (i, lo + k) = w + k) ->
  (forall j, 0 <= j < n -> fixed (x + j * inc)) ->
  forall z, z = x + lo * inc ->
  exists s', axpy_gen add mul conj c cnt al z inc w 1 s = Ok s' /\
    gain (fun p => if fst p =? i then mul al (cj conj c (val d m (x + snd p * inc))) else zero) s s'.
Proof using SR Hmem Hinj Hin.
  intros Hi Cs Hw Ha Hx z ->.
  destruct (gain_axpy d zero one add mul SR addr mem m conj peqb c cnt al (x + lo * inc) inc w 1 (fun k => (i, lo + k)) s peqb_ok Hinj Hin Cs) as (s' & E & G).
  - intros k Hk. split; [apply Hw; lia|]. rewrite Ha by exact Hk. ring.
  - intros k Hk. replace (x + lo * inc + k * inc) with (x + (lo + k) * inc) by ring. apply Hx.
    assert (M : mem (i, lo + k)) by (apply Hw; lia). apply Hmem in M. apply M.
  - exists s'. split; [exact E|]. eapply gain_ext; [|exact G]. intros [i' j] Hp. cbv beta. unfold peqb. cbn [fst snd].
    destruct (i' =? i) eqn:E1; cbn [andb]; [|apply (zsum_zero zero one add mul SR)]. replace i' with i in Hp by lia. apply Hw in Hp.
    rewrite (zsum_ext zero add cnt _ (fun k => if j - lo =? k then mul al (cj conj c (val d m (x + (lo + k) * inc))) else zero)).
    + rewrite (zsum_pick zero one add mul SR). replace ((0 <=? j - lo) && (j - lo <? cnt)) with true by lia. now replace (lo + (j - lo)) with j by lia.
    + intros k Hk. replace (j - lo =? k) with (j =? lo + k) by lia. destruct (j =? lo + k); [|reflexivity]. now replace (x + lo * inc + k * inc) with (x + (lo + k) * inc) by ring.
Qed.
Lemma grid_rows (F : Z -> Z -> A) body s : changes d m s region ->
  (forall i s, 0 <= i < n -> changes d m s region ->
     exists s', body i s = Ok s' /\ gain (fun p => if fst p =? i then F i (snd p) else zero) s s') ->
  exists s', repeat n body s = Ok s' /\ gain (fun p => F (fst p) (snd p)) s s'.
Proof using SR Hmem.
  clear Hinj Hin conj. intros C0 Hb.
  destruct (gain_repeat d zero one add mul SR addr mem m (fun i p => if fst p =? i then F i (snd p) else zero) n body s C0 Hb) as (s' & E & G).
  exists s'. split; [exact E|]. eapply gain_ext; [|exact G]. intros p Hp. cbv beta.
  rewrite (zsum_pick zero one add mul SR n (fst p) (fun i => F i (snd p))). specialize (Hmem p Hp).
  now replace ((0 <=? fst p) && (fst p <? n)) with true by lia.
Qed.
Lemma grid_diagonal (re : A -> A) q s : (forall k, 0 <= k < n -> mem (k, k) /\ q k = addr (k, k)) -> changes d m s region ->
  exists s', repeat n (fun i m => do e <- load m (q i); store m (q i) (re e)) s = Ok s' /\ changes d s s' region /\
    forall p, mem p -> val d s' (addr p) = if fst p =? snd p then re (val d s (addr p)) else val d s (addr p).
Proof using Hmem Hinj Hin.
  clear dependent add. clear mul conj one zero. intros Hq Cs.
  apply (sweep d addr mem m re fst (fun p => fst p =? snd p)); [exact Cs|intros p Hp; now apply Hmem|].
  intros k t Hk Ct. destruct (Hq k Hk) as [T ->].
  assert (P : 0 <= addr (k, k) < Z.of_nat (length t)) by (replace (length t) with (length m) by (symmetry; apply Ct); now apply Hin).
  rewrite (load_ok d) by exact P. cbn [bind].
  destruct (store_ok d t (addr (k, k)) (re (val d t (addr (k, k)))) P) as (t' & E & L & V).
  exists t'. split; [exact E|]. split.
  - split; [exact L|]. intros p Hp N. rewrite V by exact Hp. destruct (p =? addr (k, k)) eqn:Ep; [|reflexivity].
    exfalso. apply N. exists (k, k). split; [exact T|]. lia.
  - intros p Hp. rewrite V by (replace (length t) with (length m) by (symmetry; apply Ct); now apply Hin).
    destruct (addr p =? addr (k, k)) eqn:Ep.
    + apply Z.eqb_eq in Ep. apply Hinj in Ep; [|exact Hp|exact T]. subst p. cbn [fst snd]. now rewrite !Z.eqb_refl.
    + destruct p as [i j]. cbn [fst snd]. destruct (i =? j) eqn:E1; cbn [andb]; [|reflexivity].
      destruct (i =? k) eqn:E2; [|reflexivity]. assert (i = k) by lia. assert (j = k) by lia. subst. rewrite Z.eqb_refl in Ep. discriminate.
Qed.
End Grid.
