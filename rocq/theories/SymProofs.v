From Coq Require Import ZArith Ring_theory Ring.
From Verif Require Import Base BaseProofs MatmulModel MatmulSpec BlasModel BlasSpec BlasProofs TriModel TriSpec TriProofs SymModel SymSpec.
From Coq Require Import ZifyNat ZifyN ZifyBool.
Ltac Zify.zify_post_hook ::= idtac.
Local Open Scope Z_scope.

(** ** Sums *)
Section Sums.
Context {A : Type} (zero one : A) (add mul : A -> A -> A).
Hypothesis SR : semi_ring_theory zero one add mul eq.
Add Ring SymRing : SR.
Local Notation zs := (zsum zero add).
Local Notation "x + y" := (add x y).
Local Notation "x * y" := (mul x y).
Lemma add_0_r v : v + zero = v. Proof using SR. ring. Qed.
Lemma zsum_zero n : zs n (fun _ => zero) = zero.
Proof using SR.
  destruct (Z_le_gt_dec n 0) as [H|H]; [now apply zsum_nonpos|].
  rewrite (zsum_trunc zero one add mul SR 0 n) by (intros; lia || reflexivity). now apply zsum_nonpos.
Qed.
Lemma zsum_add n f g : zs n (fun i => f i + g i) = zs n f + zs n g.
Proof using SR.
  destruct (Z_le_gt_dec n 0) as [H|H]; [rewrite !zsum_nonpos by lia; ring|].
  apply (zsum_ind (fun n => zs n (fun i => f i + g i) = zs n f + zs n g) n); [rewrite !zsum_nonpos by lia; ring| |lia].
  intros k Hk E. rewrite !zsum_S, E by lia. ring.
Qed.
Lemma zsum_mul n c f : zs n (fun i => c * f i) = c * zs n f.
Proof using SR.
  destruct (Z_le_gt_dec n 0) as [H|H]; [rewrite !zsum_nonpos by lia; ring|].
  apply (zsum_ind (fun n => zs n (fun i => c * f i) = c * zs n f) n); [rewrite !zsum_nonpos by lia; ring| |lia].
  intros k Hk E. rewrite !zsum_S, E by lia. ring.
Qed.
(** one term *)
Lemma zsum_pick n q v : zs n (fun k => if q =? k then v k else zero) = if (0 <=? q) && (q <? n) then v q else zero.
Proof using SR.
  destruct ((0 <=? q) && (q <? n)) eqn:E.
  - rewrite (zsum_split zero one add mul SR q n) by lia. rewrite Z.eqb_refl.
    rewrite (zsum_ext zero add q _ (fun _ => zero)) by (intros; now replace (q =? i)%Z with false by lia).
    rewrite (zsum_ext zero add (n - q - 1)%Z _ (fun _ => zero)) by (intros; now replace (q =? q + 1 + i)%Z with false by lia).
    rewrite !zsum_zero. ring.
  - transitivity (zs n (fun _ => zero)); [|apply zsum_zero]. apply zsum_ext. intros i Hi. now replace (q =? i)%Z with false by lia.
Qed.
(** the terms before q, and after q *)
Lemma zsum_before n q v : (0 <= q <= n)%Z -> zs n (fun k => if k <? q then v k else zero) = zs q v.
Proof using SR.
  intros Hq. rewrite (zsum_trunc zero one add mul SR q n) by (intros; first [lia | now replace (i <? q)%Z with false by lia]).
  apply zsum_ext. intros. now replace (i <? q)%Z with true by lia.
Qed.
Lemma zsum_after n q v : (0 <= q <= n)%Z -> zs n (fun k => if q <=? k then v k else zero) = zs (n - q) (fun k => v (q + k)%Z).
Proof using SR.
  intros Hq. rewrite (zsum_skip zero one add mul SR q n) by (intros; first [lia | now replace (q <=? i)%Z with false by lia]).
  apply zsum_ext. intros. now replace (q <=? q + i)%Z with true by lia.
Qed.
Lemma zsum_cut k n t : (0 <= k <= n)%Z -> zs n t = zs k t + zs (n - k) (fun i => t (k + i)%Z).
Proof using SR.
  intros Hk. replace n with (k + (n - k))%Z at 1 by lia.
  apply (zsum_ind (fun q => zs (k + q)%Z t = zs k t + zs q (fun i => t (k + i)%Z)) (n - k)); [| |lia].
  - rewrite Z.add_0_r, (zsum_nonpos zero add 0) by lia. ring.
  - intros q Hq E. rewrite Z.add_assoc, zsum_S, E, zsum_S by lia. ring.
Qed.
Lemma two_terms c u v w z : c * u * v + c * w * z = c * (u * v + w * z).
Proof using SR. ring. Qed.
Lemma two_terms' c u v w z : c * v * u + c * z * w = c * (u * v + w * z).
Proof using SR. ring. Qed.
Lemma her2_terms a xi yj a' yi xj : a * (xi * yj) + a' * (yi * xj) = a' * xj * yi + a * yj * xi.
Proof using SR. ring. Qed.
Lemma if_add (b : bool) u v : (if b then u else zero) + (if b then v else zero) = if b then u + v else zero.
Proof using SR. destruct b; [reflexivity|ring]. Qed.
End Sums.

(** ** Loops that add to the cells of a region *)
Section Gain.
Context {A : Type} (d zero one : A) (add mul : A -> A -> A).
Hypothesis SR : semi_ring_theory zero one add mul eq.
Local Notation zs := (zsum zero add).
Context {I : Type} (addr : I -> Z) (mem : I -> Prop) (m : list A).
Definition region (p : Z) : Prop := exists i, mem i /\ p = addr i.
Definition gain (f : I -> A) (s s' : list A) : Prop :=
  changes d s s' region /\ forall i, mem i -> val d s' (addr i) = add (val d s (addr i)) (f i).
Lemma gain_refl s : gain (fun _ => zero) s s.
Proof using SR. split; [apply changes_refl|]. intros i _. symmetry. apply (add_0_r zero one add mul SR). Qed.
Lemma gain_trans f g s s1 s2 : gain f s s1 -> gain g s1 s2 -> gain (fun i => add (f i) (g i)) s s2.
Proof using SR.
  intros [C1 H1] [C2 H2]. split.
  - eapply (changes_weaken d); [|exact (changes_trans d _ _ _ _ _ C1 C2)]. cbv beta. tauto.
  - intros i Hi. rewrite H2, H1 by exact Hi. symmetry. apply (SRadd_assoc SR).
Qed.
Lemma gain_ext f g s s' : (forall i, mem i -> f i = g i) -> gain f s s' -> gain g s s'.
Proof using Type. intros E [C H]. split; [exact C|]. intros i Hi. now rewrite H, E by exact Hi. Qed.
Lemma changes_then s s' : changes d m s region -> changes d s s' region -> changes d m s' region.
Proof using Type. intros H1 H2. eapply (changes_weaken d); [|exact (changes_trans d _ _ _ _ _ H1 H2)]. cbv beta. tauto. Qed.

Lemma gain_one (eqb : I -> I -> bool) s i v : (forall i j, eqb i j = true <-> i = j) ->
  (forall i j, mem i -> mem j -> addr i = addr j -> i = j) -> (forall i, mem i -> 0 <= addr i < Z.of_nat (length m)) ->
  length s = length m -> mem i ->
  exists s', plus_at add s (addr i) v = Ok s' /\ gain (fun j => if eqb j i then v else zero) s s'.
Proof using SR.
  intros eqb_ok inj Hin Ls Hi. assert (P : 0 <= addr i < Z.of_nat (length s)) by (rewrite Ls; now apply Hin).
  unfold plus_at. rewrite (load_ok d) by exact P. cbn [bind].
  destruct (store_ok d s (addr i) (add (val d s (addr i)) v) P) as (s' & E & L & V). exists s'. split; [exact E|]. split.
  - split; [exact L|]. intros p Hp N. rewrite V by exact Hp. destruct (p =? addr i) eqn:Ep; [|reflexivity].
    exfalso. apply N. exists i. split; [exact Hi|]. lia.
  - intros j Hj. rewrite V by (rewrite Ls; now apply Hin). destruct (eqb j i) eqn:Ej.
    + apply eqb_ok in Ej. subst j. now rewrite Z.eqb_refl.
    + rewrite (add_0_r zero one add mul SR). destruct (addr j =? addr i) eqn:E1; [|reflexivity].
      apply Z.eqb_eq in E1. apply inj in E1; [|exact Hj|exact Hi]. apply eqb_ok in E1. congruence.
Qed.
(** A loop whose steps add f 0, f 1, ... *)
Lemma gain_walk (f : Z -> I -> A) n incX incY body s : changes d m s region ->
  (forall k s, 0 <= k < n -> changes d m s region -> exists s', body (k * incX) (k * incY) s = Ok s' /\ gain (f k) s s') ->
  exists s', walk n incX incY body s = Ok s' /\ gain (fun i => zs n (fun k => f k i)) s s'.
Proof using SR.
  intros C0 Hb. destruct (Z_le_gt_dec n 0) as [Hn|Hn].
  { exists s. rewrite walk_nonpos by exact Hn. split; [reflexivity|].
    apply (gain_ext (fun _ => zero)); [|apply gain_refl]. intros i _. symmetry. now apply zsum_nonpos. }
  destruct (walk_inv (fun j t => gain (fun i => zs j (fun k => f k i)) s t) n incX incY body s) as (s' & E & H).
  - lia.
  - apply (gain_ext (fun _ => zero)); [|apply gain_refl]. intros i _. symmetry. apply zsum_nonpos. lia.
  - intros j t Hj Ht. destruct (Hb j t Hj) as (t' & E & G); [apply (changes_then s t C0); apply Ht|].
    exists t'. split; [exact E|]. eapply gain_ext; [|exact (gain_trans _ _ _ _ _ Ht G)].
    intros i _. cbv beta. symmetry. apply (zsum_S zero add j (fun k => f k i)). lia.
  - exists s'. split; [exact E|exact H].
Qed.
Lemma gain_repeat (f : Z -> I -> A) n body s : changes d m s region ->
  (forall k s, 0 <= k < n -> changes d m s region -> exists s', body k s = Ok s' /\ gain (f k) s s') ->
  exists s', repeat n body s = Ok s' /\ gain (fun i => zs n (fun k => f k i)) s s'.
Proof using SR.
  intros C0 Hb. apply (gain_walk f n 1 0 (fun i _ => body i) s C0). intros k t Hk Ct. rewrite Z.mul_1_r. now apply Hb.
Qed.
Variable conj : A -> A.
(** a cell outside the region *)
Definition fixed (p : Z) : Prop := 0 <= p < Z.of_nat (length m) /\ ~ region p.
Lemma fixed_load p s : fixed p -> changes d m s region -> load s p = Ok (val d m p).
Proof using Type. intros [P N] [L H]. rewrite (load_ok d) by (rewrite L; exact P). f_equal. now apply H. Qed.
Lemma gain_axpy (eqb : I -> I -> bool) c n alpha x incX y incY (t : Z -> I) s : (forall i j, eqb i j = true <-> i = j) ->
  (forall i j, mem i -> mem j -> addr i = addr j -> i = j) -> (forall i, mem i -> 0 <= addr i < Z.of_nat (length m)) ->
  changes d m s region ->
  (forall k, 0 <= k < n -> mem (t k) /\ addr (t k) = y + k * incY) ->
  (forall k, 0 <= k < n -> fixed (x + k * incX)) ->
  exists s', axpy_gen add mul conj c n alpha x incX y incY s = Ok s' /\
    gain (fun i => zs n (fun k => if eqb i (t k) then mul alpha (cj conj c (val d m (x + k * incX))) else zero)) s s'.
Proof using SR.
  intros eqb_ok inj Hin C0 Ht Hx. unfold axpy_gen.
  apply (gain_walk (fun k i => if eqb i (t k) then mul alpha (cj conj c (val d m (x + k * incX))) else zero) n incX incY); [exact C0|].
  intros k s1 Hk C1. rewrite (fixed_load _ _ (Hx k Hk) C1). cbn [bind]. destruct (Ht k Hk) as [Hm <-].
  apply gain_one; [exact eqb_ok|exact inj|exact Hin|apply C1|exact Hm].
Qed.
Lemma fixed_dot c n x incX y incY s : changes d m s region ->
  (forall k, 0 <= k < n -> fixed (x + k * incX)) -> (forall k, 0 <= k < n -> fixed (y + k * incY)) ->
  dot_gen zero add mul conj c n x incX y incY s =
    Ok (zs n (fun k => mul (cj conj c (val d m (x + k * incX))) (val d m (y + k * incY)))).
Proof using Type.
  intros [L H] Hx Hy. rewrite (dot_gen_ok d).
  - f_equal. apply zsum_ext. intros k Hk. destruct (Hx k Hk) as [X1 X2], (Hy k Hk) as [Y1 Y2]. now rewrite !H.
  - intros k Hk. rewrite L. split; [apply Hx|apply Hy]; exact Hk.
Qed.
End Gain.

Section Sweep.
Context {A : Type} (d : A) {I : Type} (addr : I -> Z) (mem : I -> Prop) (m : list A).
Local Notation region := (region addr mem).
(** Each cell of the region is rewritten once: by the round [row i], if it is among the [sel]ected ones. *)
Lemma sweep (g : A -> A) (row : I -> Z) (sel : I -> bool) n body s : changes d m s region ->
  (forall i, mem i -> 0 <= row i < n) ->
  (forall k s, 0 <= k < n -> changes d m s region -> exists s', body k s = Ok s' /\ changes d s s' region /\
     forall i, mem i -> val d s' (addr i) = if sel i && (row i =? k) then g (val d s (addr i)) else val d s (addr i)) ->
  exists s', repeat n body s = Ok s' /\ changes d s s' region /\
    forall i, mem i -> val d s' (addr i) = if sel i then g (val d s (addr i)) else val d s (addr i).
Proof using Type.
  intros C0 Hr Hb. destruct (Z_le_gt_dec n 0) as [Hn|Hn].
  { exists s. unfold repeat, walk1. rewrite walk_nonpos by exact Hn. split; [reflexivity|]. split; [apply changes_refl|].
    intros i Hi. specialize (Hr i Hi). lia. }
  destruct (walk_inv (fun j t => changes d s t region /\ forall i, mem i -> val d t (addr i) =
     if sel i && (row i <? j) then g (val d s (addr i)) else val d s (addr i)) n 1 0 (fun i _ => body i) s) as (s' & E & H1 & H2).
  - lia.
  - split; [apply changes_refl|]. intros i Hi. specialize (Hr i Hi). replace (row i <? 0) with false by lia. now rewrite andb_false_r.
  - intros j t Hj [Ct Ht]. destruct (Hb (j * 1) t ltac:(lia)) as (t' & E & C' & V).
    { destruct C0 as [L0 H0], Ct as [L1 H1]. split; [congruence|]. intros p Hp N. rewrite H1; [now apply H0|rewrite L0; exact Hp|exact N]. }
    exists t'. split; [exact E|]. split.
    { destruct Ct as [L1 H1], C' as [L2 H2]. split; [congruence|]. intros p Hp N. rewrite H2; [now apply H1|rewrite L1; exact Hp|exact N]. }
    intros i Hi. rewrite V, Ht by exact Hi. destruct (sel i); cbn [andb]; [|reflexivity].
    destruct (row i =? j * 1) eqn:E1.
    + replace (row i <? j) with false by lia. now replace (row i <? j + 1) with true by lia.
    + now replace (row i <? j + 1) with (row i <? j) by lia.
  - exists s'. split; [exact E|]. split; [exact H1|]. intros i Hi. rewrite H2 by exact Hi. specialize (Hr i Hi).
    replace (row i <? n) with true by lia. now rewrite andb_true_r.
Qed.
End Sweep.

(** ** Matrices, in row-major order *)
Definition peqb (p q : Z * Z) : bool := (fst p =? fst q) && (snd p =? snd q).
Lemma peqb_ok p q : peqb p q = true <-> p = q.
Proof.
  destruct p as [a b], q as [a' b']. unfold peqb. cbn [fst snd]. split.
  - intros H. f_equal; lia.
  - intros H. injection H as -> ->. lia.
Qed.
Definition spot (a lda : Z) (p : Z * Z) : Z := a + fst p * lda + snd p.
Section Rows.
Context {A : Type} (d zero one : A) (add mul : A -> A -> A).
Hypothesis SR : semi_ring_theory zero one add mul eq.
Variable conj : A -> A.
Variables (a lda cols : Z) (mem : Z * Z -> Prop) (m : list A).
Hypothesis Hcols : forall p, mem p -> 0 <= snd p < cols.
Hypothesis Hlda : cols <= lda.
Hypothesis Hin : forall p, mem p -> 0 <= spot a lda p < Z.of_nat (length m).
Lemma spot_inj p q : mem p -> mem q -> spot a lda p = spot a lda q -> p = q.
Proof using Hcols Hlda.
  intros Hp Hq E. destruct p as [i j], q as [i' j']. unfold spot in E. cbn [fst snd] in E.
  apply Hcols in Hp, Hq. cbn [snd] in Hp, Hq.
  destruct (cell_inj a lda cols i j i' j' Hlda Hp Hq E) as [-> ->]. reflexivity.
Qed.
Local Notation gain := (gain d add (spot a lda) mem).
Local Notation region := (region (spot a lda) mem).
Local Notation fixed := (fixed (spot a lda) mem m).
(** axpy into part of row i *)
Lemma row_axpy c cnt al x inc i off s : changes d m s region ->
  (forall k, 0 <= k < cnt -> mem (i, off + k)) -> (forall k, 0 <= k < cnt -> fixed (x + k * inc)) ->
  exists s', axpy_gen add mul conj c cnt al x inc (a + i * lda + off) 1 s = Ok s' /\
    gain (fun p => if (fst p =? i) && ((off <=? snd p) && (snd p <? off + cnt)) then mul al (cj conj c (val d m (x + (snd p - off) * inc))) else zero) s s'.
Proof using SR Hcols Hlda Hin.
  intros C0 Ht Hx.
  destruct (gain_axpy d zero one add mul SR (spot a lda) mem m conj peqb c cnt al x inc (a + i * lda + off) 1
    (fun k => (i, off + k)) s peqb_ok spot_inj Hin C0) as (s' & E & G).
  - intros k Hk. split; [now apply Ht|]. unfold spot. cbn [fst snd]. lia.
  - exact Hx.
  - exists s'. split; [exact E|]. eapply gain_ext; [|exact G]. intros p _. cbv beta. unfold peqb. cbn [fst snd].
    destruct (fst p =? i) eqn:E1; cbn [andb].
    + rewrite (zsum_ext zero add cnt _ (fun k => if snd p - off =? k then mul al (cj conj c (val d m (x + k * inc))) else zero)).
      * rewrite (zsum_pick zero one add mul SR). now replace ((off <=? snd p) && (snd p <? off + cnt)) with ((0 <=? snd p - off) && (snd p - off <? cnt)) by lia.
      * intros k Hk. replace (snd p - off =? k) with (snd p =? off + k) by lia. reflexivity.
    + apply (zsum_zero zero one add mul SR).
Qed.
End Rows.

Section RowLoop.
Context {A : Type} (d zero one : A) (add mul : A -> A -> A).
Hypothesis SR : semi_ring_theory zero one add mul eq.
Variables (a lda : Z) (mem : Z * Z -> Prop) (m : list A).
Local Notation gain := (gain d add (spot a lda) mem).
Local Notation region := (region (spot a lda) mem).
(** one row after the other *)
Lemma rows_gain (F : Z -> Z -> A) n body s : changes d m s region -> (forall p, mem p -> 0 <= fst p < n) ->
  (forall i s, 0 <= i < n -> changes d m s region ->
     exists s', body i s = Ok s' /\ gain (fun p => if fst p =? i then F i (snd p) else zero) s s') ->
  exists s', repeat n body s = Ok s' /\ gain (fun p => F (fst p) (snd p)) s s'.
Proof using SR.
  intros C0 Hr Hb.
  destruct (gain_repeat d zero one add mul SR (spot a lda) mem m (fun i p => if fst p =? i then F i (snd p) else zero) n body s C0 Hb) as (s' & E & G).
  exists s'. split; [exact E|]. eapply gain_ext; [|exact G]. intros p Hp. cbv beta.
  rewrite (zsum_pick zero one add mul SR n (fst p) (fun i => F i (snd p))). specialize (Hr p Hp).
  now replace ((0 <=? fst p) && (fst p <? n)) with true by lia.
Qed.
End RowLoop.

(** ** Rank updates *)
Section Updates.
Context {A : Type} (d zero one : A) (add mul : A -> A -> A).
Hypothesis SR : semi_ring_theory zero one add mul eq.
Variable conj : A -> A.
Definition grid (rows cols : Z) (p : Z * Z) : Prop := 0 <= fst p < rows /\ 0 <= snd p < cols.
Lemma region_grid a lda rows cols p : region (spot a lda) (grid rows cols) p <-> block RowMajor a lda rows cols p.
Proof using Type.
  split.
  - intros (q & [H1 H2] & ->). exists (fst q), (snd q). now repeat split.
  - intros (i & j & Hi & Hj & ->). exists (i, j). now repeat split.
Qed.
Definition tri (up : uplo) (n : Z) (p : Z * Z) : Prop := grid n n p /\ kept up NonUnit (fst p) (snd p) = true.
Lemma region_tri a lda up n p : region (spot a lda) (tri up n) p <-> half RowMajor up n a lda p.
Proof using Type.
  split.
  - intros (q & [[H1 H2] H3] & ->). exists (fst q), (snd q). now repeat split.
  - intros (i & j & Hi & Hj & K & ->). exists (i, j). now repeat split.
Qed.
Lemma fixed_vector (m : list A) x inc n addr (mem : Z * Z -> Prop) cells : (forall p, region addr mem p <-> cells p) ->
  vector_apart m x inc n cells -> forall k, 0 <= k < n -> fixed addr mem m (start x inc n + k * inc).
Proof using Type. intros R H k Hk. rewrite start_elt. destruct (H k Hk) as [P N]. split; [exact P|]. intros Q. apply N. now apply R. Qed.

(** geru and gerc: [c] and [c'] tell which vector is conjugated *)
Lemma ger_row_ok (body : Z -> list A -> outcome (list A)) c c' rows cols alpha x incX y incY a lda (m : list A) :
  cols <= lda -> (forall p, grid rows cols p -> 0 <= spot a lda p < Z.of_nat (length m)) ->
  (forall i, 0 <= i < rows -> fixed (spot a lda) (grid rows cols) m (x + i * incX)) ->
  (forall j, 0 <= j < cols -> fixed (spot a lda) (grid rows cols) m (y + j * incY)) ->
  (forall i s, 0 <= i < rows -> load s (x + i * incX) = Ok (val d m (x + i * incX)) ->
     body i s = axpy_gen add mul conj c' cols (mul alpha (cj conj c (val d m (x + i * incX)))) y incY (a + i * lda) 1 s) ->
  exists m', repeat rows body m = Ok m' /\
    gain d add (spot a lda) (grid rows cols)
      (fun p => mul (mul alpha (cj conj c (val d m (x + fst p * incX)))) (cj conj c' (val d m (y + snd p * incY)))) m m'.
Proof using SR.
  intros Hld Hin Hx Hy Hb.
  apply (rows_gain d zero one add mul SR a lda (grid rows cols) m
    (fun i j => mul (mul alpha (cj conj c (val d m (x + i * incX)))) (cj conj c' (val d m (y + j * incY))))).
  - apply changes_refl.
  - intros p Hp. apply Hp.
  - intros i s Hi Cs. rewrite Hb; [|exact Hi|exact (fixed_load d _ _ _ _ _ (Hx i Hi) Cs)].
    destruct (row_axpy d zero one add mul SR conj a lda cols (grid rows cols) m ltac:(intros p Hp; apply Hp) Hld Hin
      c' cols (mul alpha (cj conj c (val d m (x + i * incX)))) y incY i 0 s Cs) as (s' & E & G).
    + intros k Hk. split; cbn [fst snd]; lia.
    + exact Hy.
    + rewrite Z.add_0_r in E. exists s'. split; [exact E|]. eapply gain_ext; [|exact G]. intros p Hp. cbv beta.
      destruct Hp as [_ Hp]. replace ((0 <=? snd p) && (snd p <? 0 + cols)) with true by lia. rewrite andb_true_r.
      now rewrite Z.sub_0_r.
Qed.

(** one row of a triangle *)
Lemma half_row_ok c up n al x inc a lda i (m s : list A) : n <= lda ->
  (forall p, tri up n p -> 0 <= spot a lda p < Z.of_nat (length m)) ->
  (forall j, 0 <= j < n -> fixed (spot a lda) (tri up n) m (x + j * inc)) ->
  0 <= i < n -> changes d m s (region (spot a lda) (tri up n)) ->
  exists s', half_row add mul conj c up n al x inc a lda i s = Ok s' /\
    gain d add (spot a lda) (tri up n) (fun p => if fst p =? i then mul al (cj conj c (val d m (x + snd p * inc))) else zero) s s'.
Proof using SR.
  intros Hld Hin Hx Hi Cs. unfold half_row. destruct up.
  - destruct (row_axpy d zero one add mul SR conj a lda n (tri Upper n) m ltac:(intros p Hp; apply Hp) Hld Hin
      c (n - i) al (x + i * inc) inc i i s Cs) as (s' & E & G).
    + intros k Hk. split; [split; cbn [fst snd]; lia|]. unfold kept. cbn [fst snd]. lia.
    + intros k Hk. replace (x + i * inc + k * inc) with (x + (i + k) * inc) by ring. apply Hx. lia.
    + replace (a + i * (lda + 1)) with (a + i * lda + i) by ring. exists s'. split; [exact E|].
      eapply gain_ext; [|exact G]. intros p [[H1 H2] K]. cbv beta. destruct (fst p =? i) eqn:E1; cbn [andb]; [|reflexivity].
      replace ((i <=? snd p) && (snd p <? i + (n - i))) with true by (unfold kept in K; lia).
      now replace (x + i * inc + (snd p - i) * inc) with (x + snd p * inc) by ring.
  - destruct (row_axpy d zero one add mul SR conj a lda n (tri Lower n) m ltac:(intros p Hp; apply Hp) Hld Hin
      c (i + 1) al x inc i 0 s Cs) as (s' & E & G).
    + intros k Hk. split; [split; cbn [fst snd]; lia|]. unfold kept. cbn [fst snd]. lia.
    + intros k Hk. apply Hx. lia.
    + rewrite Z.add_0_r in E. exists s'. split; [exact E|].
      eapply gain_ext; [|exact G]. intros p [[H1 H2] K]. cbv beta. destruct (fst p =? i) eqn:E1; cbn [andb]; [|reflexivity].
      replace ((0 <=? snd p) && (snd p <? 0 + (i + 1))) with true by (unfold kept in K; lia).
      now rewrite Z.sub_0_r.
Qed.

(** ** General matrices *)
Lemma apart_iff_vector (m : list A) x inc n (P Q : Z -> Prop) : (forall p, P p <-> Q p) -> vector_apart m x inc n P -> vector_apart m x inc n Q.
Proof using Type. intros H V i Hi. destruct (V i Hi) as [V1 V2]. split; [exact V1|]. intros q. apply V2. now apply H. Qed.
Lemma ger_row_whole body c c' rows cols alpha x incX y incY a lda (m : list A) :
  cols <= lda -> block_inside m RowMajor a lda rows cols ->
  vector_apart m x incX rows (block RowMajor a lda rows cols) -> vector_apart m y incY cols (block RowMajor a lda rows cols) ->
  (forall i s, 0 <= i < rows -> load s (start x incX rows + i * incX) = Ok (val d m (start x incX rows + i * incX)) ->
     body i s = axpy_gen add mul conj c' cols (mul alpha (cj conj c (val d m (start x incX rows + i * incX)))) (start y incY cols) incY (a + i * lda) 1 s) ->
  exists m', repeat rows body m = Ok m' /\ changes d m m' (block RowMajor a lda rows cols) /\
    forall i j, 0 <= i < rows -> 0 <= j < cols -> entry d RowMajor a lda m' i j =
      add (entry d RowMajor a lda m i j) (mul alpha (mul (cj conj c (val d m (elt x incX rows i))) (cj conj c' (val d m (elt y incY cols j))))).
Proof using SR.
  intros Hld Hin Hx Hy Hb. pose proof (region_grid a lda rows cols) as R.
  destruct (ger_row_ok body c c' rows cols alpha (start x incX rows) incX (start y incY cols) incY a lda m) as (m' & E & C & V).
  - exact Hld.
  - intros p [H1 H2]. now apply Hin.
  - now apply fixed_vector with (cells := block RowMajor a lda rows cols).
  - now apply fixed_vector with (cells := block RowMajor a lda rows cols).
  - exact Hb.
  - exists m'. split; [exact E|]. split; [now apply (changes_iff d _ _ _ _ R)|].
    intros i j Hi Hj. specialize (V (i, j)). unfold spot in V. cbn [fst snd] in V. rewrite !start_elt in V.
    unfold entry. cbn [cell]. rewrite V by (split; cbn [fst snd]; assumption). f_equal. symmetry. apply (SRmul_assoc SR).
Qed.
Lemma block_col' a lda rows cols p : block ColMajor a lda rows cols p <-> block RowMajor a lda cols rows p.
Proof using Type. split; intros (i & j & Hi & Hj & E); exists j, i; now repeat split. Qed.
Lemma block_inside_col (m : list A) a lda rows cols : block_inside m ColMajor a lda rows cols -> block_inside m RowMajor a lda cols rows.
Proof using Type. intros H i j Hi Hj. exact (H j i Hj Hi). Qed.
Lemma geru_ok o rows cols alpha x incX y incY a lda (m : list A) :
  leading o rows cols lda -> block_inside m o a lda rows cols ->
  vector_apart m x incX rows (block o a lda rows cols) -> vector_apart m y incY cols (block o a lda rows cols) ->
  exists m', geru add mul conj o rows cols alpha x incX y incY a lda m = Ok m' /\ changes d m m' (block o a lda rows cols) /\
    forall i j, 0 <= i < rows -> 0 <= j < cols -> entry d o a lda m' i j =
      add (entry d o a lda m i j) (mul alpha (mul (val d m (elt x incX rows i)) (val d m (elt y incY cols j)))).
Proof using SR.
  intros Hld Hin Hx Hy. unfold geru. destruct o; cbn [leading] in Hld.
  - apply (ger_row_whole _ false false rows cols alpha x incX y incY a lda m Hld Hin Hx Hy).
    intros i s Hi E. rewrite E. reflexivity.
  - destruct (ger_row_whole (fun i s => do u <- load s (start y incY cols + i * incY);
        axpy_gen add mul conj false rows (mul alpha u) (start x incX rows) incX (a + i * lda) 1 s)
        false false cols rows alpha y incY x incX a lda m Hld) as (m' & E & C & V).
    + now apply block_inside_col.
    + eapply apart_iff_vector; [|exact Hy]. intros p. apply block_col'.
    + eapply apart_iff_vector; [|exact Hx]. intros p. apply block_col'.
    + intros i s Hi E. rewrite E. reflexivity.
    + exists m'. split; [exact E|]. split; [eapply (changes_iff d); [|exact C]; intros p; symmetry; apply block_col'|].
      intros i j Hi Hj. specialize (V j i Hj Hi). cbn [cj] in V. unfold entry in *. cbn [cell] in *. rewrite V.
      do 2 f_equal. apply (SRmul_comm SR).
Qed.
Lemma gerc_ok o rows cols alpha x incX y incY a lda (m : list A) :
  leading o rows cols lda -> block_inside m o a lda rows cols ->
  vector_apart m x incX rows (block o a lda rows cols) -> vector_apart m y incY cols (block o a lda rows cols) ->
  exists m', gerc add mul conj o rows cols alpha x incX y incY a lda m = Ok m' /\ changes d m m' (block o a lda rows cols) /\
    forall i j, 0 <= i < rows -> 0 <= j < cols -> entry d o a lda m' i j =
      add (entry d o a lda m i j) (mul alpha (mul (val d m (elt x incX rows i)) (conj (val d m (elt y incY cols j))))).
Proof using SR.
  intros Hld Hin Hx Hy. unfold gerc. destruct o; cbn [leading] in Hld.
  - apply (ger_row_whole _ false true rows cols alpha x incX y incY a lda m Hld Hin Hx Hy).
    intros i s Hi E. rewrite E. reflexivity.
  - destruct (ger_row_whole (fun i s => do u <- load s (start y incY cols + i * incY);
        axpy_gen add mul conj false rows (mul alpha (conj u)) (start x incX rows) incX (a + i * lda) 1 s)
        true false cols rows alpha y incY x incX a lda m Hld) as (m' & E & C & V).
    + now apply block_inside_col.
    + eapply apart_iff_vector; [|exact Hy]. intros p. apply block_col'.
    + eapply apart_iff_vector; [|exact Hx]. intros p. apply block_col'.
    + intros i s Hi E. rewrite E. reflexivity.
    + exists m'. split; [exact E|]. split; [eapply (changes_iff d); [|exact C]; intros p; symmetry; apply block_col'|].
      intros i j Hi Hj. specialize (V j i Hj Hi). cbn [cj] in V. unfold entry in *. cbn [cell] in *. rewrite V.
      do 2 f_equal. apply (SRmul_comm SR).
Qed.

(** ** Symmetric and Hermitian matrices *)
Definition lg (o : order) (i j : Z) : Z * Z := match o with RowMajor => (i, j) | ColMajor => (j, i) end.
Lemma spot_lg o a lda i j : spot a lda (lg o i j) = cell o a lda i j.
Proof using Type. destruct o; reflexivity. Qed.
Lemma tri_lg o up n i j : 0 <= i < n -> 0 <= j < n -> kept up NonUnit i j = true -> tri (row_uplo o up) n (lg o i j).
Proof using Type.
  intros Hi Hj K. destruct o; cbn [lg row_uplo]; (split; [split; assumption|]); cbn [fst snd]; [exact K|]. now rewrite kept_other.
Qed.
Lemma tri_gl o up n p : tri (row_uplo o up) n p -> exists i j, 0 <= i < n /\ 0 <= j < n /\ kept up NonUnit i j = true /\ p = lg o i j.
Proof using Type.
  destruct p as [i j]. intros [[H1 H2] K]. cbn [fst snd] in *. destruct o; cbn [lg row_uplo] in *.
  - now exists i, j.
  - rewrite kept_other in K. now exists j, i.
Qed.
Lemma region_half o up n a lda p : region (spot a lda) (tri (row_uplo o up) n) p <-> half o up n a lda p.
Proof using Type.
  split.
  - intros (q & Hq & ->). apply tri_gl in Hq. destruct Hq as (i & j & Hi & Hj & K & ->). exists i, j. rewrite spot_lg. now repeat split.
  - intros (i & j & Hi & Hj & K & ->). exists (lg o i j). split; [now apply tri_lg|]. now rewrite spot_lg.
Qed.
Lemma tri_inside (m : list A) o up n a lda : half_inside m o up n a lda ->
  forall p, tri (row_uplo o up) n p -> 0 <= spot a lda p < Z.of_nat (length m).
Proof using Type. intros H p Hp. apply tri_gl in Hp. destruct Hp as (i & j & Hi & Hj & K & ->). rewrite spot_lg. now apply H. Qed.
Lemma half_whole o up n a lda F (m m' : list A) : gain d add (spot a lda) (tri (row_uplo o up) n) F m m' ->
  changes d m m' (half o up n a lda) /\
  forall i j, 0 <= i < n -> 0 <= j < n -> kept up NonUnit i j = true ->
    entry d o a lda m' i j = add (entry d o a lda m i j) (F (lg o i j)).
Proof using Type.
  intros [C V]. split; [now apply (changes_iff d _ _ _ _ (region_half o up n a lda))|].
  intros i j Hi Hj K. specialize (V _ (tri_lg o up n i j Hi Hj K)). now rewrite spot_lg in V.
Qed.
Lemma fixed_half (m : list A) x inc n o up a lda : vector_apart m x inc n (half o up n a lda) ->
  forall k, 0 <= k < n -> fixed (spot a lda) (tri (row_uplo o up) n) m (start x inc n + k * inc).
Proof using Type. apply fixed_vector. apply region_half. Qed.

Lemma syr_gain o up n alpha x incX a lda (m : list A) : n <= lda -> half_inside m o up n a lda ->
  vector_apart m x incX n (half o up n a lda) ->
  exists m', syr add mul conj o up n alpha x incX a lda m = Ok m' /\
    gain d add (spot a lda) (tri (row_uplo o up) n)
      (fun p => mul (mul alpha (val d m (elt x incX n (fst p)))) (val d m (elt x incX n (snd p)))) m m'.
Proof using SR.
  intros Hld Hin Hx. pose proof (fixed_half m x incX n o up a lda Hx) as F. unfold syr.
  apply (rows_gain d zero one add mul SR a lda (tri (row_uplo o up) n) m
    (fun i j => mul (mul alpha (val d m (elt x incX n i))) (val d m (elt x incX n j)))).
  - apply changes_refl.
  - intros p Hp. apply Hp.
  - intros i s Hi Cs. rewrite (fixed_load d _ _ _ _ _ (F i Hi) Cs). cbn [bind]. rewrite start_elt.
    destruct (half_row_ok false (row_uplo o up) n (mul alpha (val d m (elt x incX n i))) (start x incX n) incX a lda i m s) as (s' & E & G);
      [exact Hld|now apply tri_inside|exact F|exact Hi|exact Cs|].
    exists s'. split; [exact E|]. eapply gain_ext; [|exact G]. intros p _. cbv beta. cbn [cj]. now rewrite start_elt.
Qed.
Lemma syr2_row_gain o up n alpha x incX y incY a lda (m : list A) : n <= lda -> half_inside m o up n a lda ->
  vector_apart m x incX n (half o up n a lda) -> vector_apart m y incY n (half o up n a lda) ->
  exists m', syr2_row add mul conj (row_uplo o up) n alpha (start x incX n) incX (start y incY n) incY a lda m = Ok m' /\
    gain d add (spot a lda) (tri (row_uplo o up) n)
      (fun p => add (mul (mul alpha (val d m (elt x incX n (fst p)))) (val d m (elt y incY n (snd p))))
                    (mul (mul alpha (val d m (elt y incY n (fst p)))) (val d m (elt x incX n (snd p))))) m m'.
Proof using SR.
  intros Hld Hin Hx Hy. pose proof (fixed_half m x incX n o up a lda Hx) as F. pose proof (fixed_half m y incY n o up a lda Hy) as F'. unfold syr2_row.
  apply (rows_gain d zero one add mul SR a lda (tri (row_uplo o up) n) m
    (fun i j => add (mul (mul alpha (val d m (elt x incX n i))) (val d m (elt y incY n j)))
                    (mul (mul alpha (val d m (elt y incY n i))) (val d m (elt x incX n j))))).
  - apply changes_refl.
  - intros p Hp. apply Hp.
  - intros i s Hi Cs. rewrite (fixed_load d _ _ _ _ _ (F i Hi) Cs). cbn [bind]. rewrite start_elt.
    destruct (half_row_ok false (row_uplo o up) n (mul alpha (val d m (elt x incX n i))) (start y incY n) incY a lda i m s) as (s1 & E & G);
      [exact Hld|now apply tri_inside|exact F'|exact Hi|exact Cs|]. rewrite E. cbn [bind].
    assert (C1 : changes d m s1 (region (spot a lda) (tri (row_uplo o up) n))) by (apply (changes_then d _ _ m s s1 Cs); apply G).
    rewrite (fixed_load d _ _ _ _ _ (F' i Hi) C1). cbn [bind]. rewrite start_elt.
    destruct (half_row_ok false (row_uplo o up) n (mul alpha (val d m (elt y incY n i))) (start x incX n) incX a lda i m s1) as (s2 & E2 & G2);
      [exact Hld|now apply tri_inside|exact F|exact Hi|exact C1|].
    exists s2. split; [exact E2|]. eapply gain_ext; [|exact (gain_trans d zero one add mul SR _ _ _ _ _ _ _ G G2)].
    intros p _. cbv beta. cbn [cj]. rewrite !start_elt. apply (if_add zero one add mul SR).
Qed.
Lemma syr_ok o up n alpha x incX a lda (m : list A) : n <= lda -> half_inside m o up n a lda ->
  vector_apart m x incX n (half o up n a lda) ->
  exists m', syr add mul conj o up n alpha x incX a lda m = Ok m' /\ changes d m m' (half o up n a lda) /\
    forall i j, 0 <= i < n -> 0 <= j < n -> kept up NonUnit i j = true ->
      entry d o a lda m' i j = add (entry d o a lda m i j) (mul alpha (mul (val d m (elt x incX n i)) (val d m (elt x incX n j)))).
Proof using SR.
  intros Hld Hin Hx. destruct (syr_gain o up n alpha x incX a lda m Hld Hin Hx) as (m' & E & G).
  apply half_whole in G. destruct G as [C V]. exists m'. split; [exact E|]. split; [exact C|].
  intros i j Hi Hj K. rewrite V by assumption. f_equal. rewrite (SRmul_assoc SR).
  destruct o; cbn [lg fst snd]; [reflexivity|]. rewrite <- !(SRmul_assoc SR). f_equal. apply (SRmul_comm SR).
Qed.
Lemma syr2_ok o up n alpha x incX y incY a lda (m : list A) : n <= lda -> half_inside m o up n a lda ->
  vector_apart m x incX n (half o up n a lda) -> vector_apart m y incY n (half o up n a lda) ->
  exists m', syr2 add mul conj o up n alpha x incX y incY a lda m = Ok m' /\ changes d m m' (half o up n a lda) /\
    forall i j, 0 <= i < n -> 0 <= j < n -> kept up NonUnit i j = true ->
      entry d o a lda m' i j = add (entry d o a lda m i j)
        (mul alpha (add (mul (val d m (elt x incX n i)) (val d m (elt y incY n j))) (mul (val d m (elt y incY n i)) (val d m (elt x incX n j))))).
Proof using SR.
  intros Hld Hin Hx Hy. unfold syr2. destruct o.
  - destruct (syr2_row_gain RowMajor up n alpha x incX y incY a lda m Hld Hin Hx Hy) as (m' & E & G).
    apply half_whole in G. destruct G as [C V]. exists m'. split; [exact E|]. split; [exact C|].
    intros i j Hi Hj K. rewrite V by assumption. cbn [lg fst snd]. f_equal. apply (two_terms zero one add mul SR).
  - destruct (syr2_row_gain ColMajor up n alpha y incY x incX a lda m Hld Hin Hy Hx) as (m' & E & G).
    apply half_whole in G. destruct G as [C V]. exists m'. split; [exact E|]. split; [exact C|].
    intros i j Hi Hj K. rewrite V by assumption. cbn [lg fst snd]. f_equal. apply (two_terms' zero one add mul SR).
Qed.

(** the diagonal made real *)
Variables (re : A -> A).
Lemma real_diagonal_ok up n a lda (m s : list A) : n <= lda ->
  (forall p, tri up n p -> 0 <= spot a lda p < Z.of_nat (length m)) -> changes d m s (region (spot a lda) (tri up n)) ->
  exists s', real_diagonal re n a lda s = Ok s' /\ changes d s s' (region (spot a lda) (tri up n)) /\
    forall p, tri up n p -> val d s' (spot a lda p) = if fst p =? snd p then re (val d s (spot a lda p)) else val d s (spot a lda p).
Proof using All.
  intros Hld Hin Cs. unfold real_diagonal.
  apply (sweep d (spot a lda) (tri up n) m re fst (fun p => fst p =? snd p)); [exact Cs|intros p Hp; apply Hp|].
  intros k t Hk Ct. assert (T : tri up n (k, k)) by (split; [split; exact Hk|]; unfold kept; cbn [fst snd]; destruct up; lia).
  change (a + k * lda + k) with (spot a lda (k, k)).
  assert (P : 0 <= spot a lda (k, k) < Z.of_nat (length t)) by (replace (length t) with (length m) by (symmetry; apply Ct); now apply Hin).
  rewrite (load_ok d) by exact P. cbn [bind].
  destruct (store_ok d t (spot a lda (k, k)) (re (val d t (spot a lda (k, k)))) P) as (t' & E & L & V).
  exists t'. split; [exact E|]. split.
  - split; [exact L|]. intros p Hp N. rewrite V by exact Hp. destruct (p =? spot a lda (k, k)) eqn:Ep; [|reflexivity].
    exfalso. apply N. exists (k, k). split; [exact T|]. lia.
  - intros p Hp. rewrite V by (replace (length t) with (length m) by (symmetry; apply Ct); now apply Hin).
    destruct (spot a lda p =? spot a lda (k, k)) eqn:Ep.
    + apply Z.eqb_eq in Ep. apply (spot_inj a lda n (tri up n) ltac:(intros q Hq; apply Hq) Hld) in Ep; [|exact Hp|exact T].
      subst p. cbn [fst snd]. now rewrite !Z.eqb_refl.
    + destruct p as [i j]. cbn [fst snd]. destruct (i =? j) eqn:E1; cbn [andb]; [|reflexivity].
      destruct (i =? k) eqn:E2; [|reflexivity]. assert (i = k) by lia. assert (j = k) by lia. subst. rewrite Z.eqb_refl in Ep. discriminate.
Qed.
Lemma her_end o up n a lda F (m m1 : list A) : n <= lda -> half_inside m o up n a lda ->
  gain d add (spot a lda) (tri (row_uplo o up) n) F m m1 ->
  exists m', real_diagonal re n a lda m1 = Ok m' /\ changes d m m' (half o up n a lda) /\
    forall i j, 0 <= i < n -> 0 <= j < n -> kept up NonUnit i j = true ->
      entry d o a lda m' i j = (if i =? j then re else fun v => v) (add (entry d o a lda m i j) (F (lg o i j))).
Proof using All.
  intros Hld Hin G. destruct (real_diagonal_ok (row_uplo o up) n a lda m m1) as (m' & E & C & V);
    [exact Hld|now apply tri_inside|apply G|].
  exists m'. split; [exact E|]. split.
  - apply (changes_iff d _ _ _ _ (region_half o up n a lda)). apply (changes_then d _ _ m m1 m'); [apply G|exact C].
  - apply half_whole in G. destruct G as [_ V1]. intros i j Hi Hj K.
    specialize (V _ (tri_lg o up n i j Hi Hj K)). rewrite spot_lg in V. unfold entry in *. rewrite V, V1 by assumption.
    replace (fst (lg o i j) =? snd (lg o i j)) with (i =? j) by (destruct o; cbn [lg fst snd]; lia). now destruct (i =? j).
Qed.

Variable is_zero : A -> bool.
Lemma her_ok o up n alpha x incX a lda (m : list A) : n <= lda -> half_inside m o up n a lda ->
  vector_apart m x incX n (half o up n a lda) -> is_zero alpha = false ->
  exists m', her add mul conj re is_zero o up n alpha x incX a lda m = Ok m' /\ changes d m m' (half o up n a lda) /\
    forall i j, 0 <= i < n -> 0 <= j < n -> kept up NonUnit i j = true ->
      entry d o a lda m' i j = (if i =? j then re else fun v => v)
        (add (entry d o a lda m i j) (mul alpha (mul (val d m (elt x incX n i)) (conj (val d m (elt x incX n j)))))).
Proof using All.
  intros Hld Hin Hx Hz. pose proof (fixed_half m x incX n o up a lda Hx) as F. unfold her, her_gen. rewrite Hz.
  destruct (rows_gain d zero one add mul SR a lda (tri (row_uplo o up) n) m
    (fun i j => mul (mul alpha (cj conj (row_conj o) (val d m (elt x incX n i)))) (cj conj (negb (row_conj o)) (val d m (elt x incX n j))))
    n (fun i m => do u <- load m (start x incX n + i * incX);
       if row_conj o then half_row add mul conj false (row_uplo o up) n (mul alpha (conj u)) (start x incX n) incX a lda i m
       else half_row add mul conj true (row_uplo o up) n (mul alpha u) (start x incX n) incX a lda i m) m) as (m1 & E1 & G).
  - apply changes_refl.
  - intros p Hp. apply Hp.
  - intros i s Hi Cs. rewrite (fixed_load d _ _ _ _ _ (F i Hi) Cs). cbn [bind]. rewrite start_elt.
    destruct (half_row_ok (negb (row_conj o)) (row_uplo o up) n (mul alpha (cj conj (row_conj o) (val d m (elt x incX n i)))) (start x incX n) incX a lda i m s) as (s' & E & G);
      [exact Hld|now apply tri_inside|exact F|exact Hi|exact Cs|].
    exists s'. split; [destruct o; exact E|]. eapply gain_ext; [|exact G]. intros p _. cbv beta. now rewrite start_elt.
  - rewrite E1. cbn [bind]. destruct (her_end o up n a lda _ m m1 Hld Hin G) as (m' & E & C & V).
    exists m'. split; [exact E|]. split; [exact C|]. intros i j Hi Hj K. rewrite V by assumption.
    replace (mul (mul alpha (cj conj (row_conj o) (val d m (elt x incX n (fst (lg o i j))))))
               (cj conj (negb (row_conj o)) (val d m (elt x incX n (snd (lg o i j))))))
      with (mul alpha (mul (val d m (elt x incX n i)) (conj (val d m (elt x incX n j))))); [reflexivity|].
    rewrite <- (SRmul_assoc SR). f_equal. destruct o; cbn [lg fst snd row_conj cj negb]; [reflexivity|apply (SRmul_comm SR)].
Qed.
Lemma her2_ok o up n alpha x incX y incY a lda (m : list A) : n <= lda -> half_inside m o up n a lda ->
  vector_apart m x incX n (half o up n a lda) -> vector_apart m y incY n (half o up n a lda) -> is_zero alpha = false ->
  (forall u v, conj (mul u v) = mul (conj u) (conj v)) ->
  exists m', her2 add mul conj re is_zero o up n alpha x incX y incY a lda m = Ok m' /\ changes d m m' (half o up n a lda) /\
    forall i j, 0 <= i < n -> 0 <= j < n -> kept up NonUnit i j = true ->
      entry d o a lda m' i j = (if i =? j then re else fun v => v)
        (add (entry d o a lda m i j)
          (add (mul alpha (mul (val d m (elt x incX n i)) (conj (val d m (elt y incY n j)))))
               (mul (conj alpha) (mul (val d m (elt y incY n i)) (conj (val d m (elt x incX n j))))))).
Proof using All.
  intros Hld Hin Hx Hy Hz CM. pose proof (fixed_half m x incX n o up a lda Hx) as F. pose proof (fixed_half m y incY n o up a lda Hy) as F'.
  unfold her2, her2_gen. rewrite Hz.
  destruct (rows_gain d zero one add mul SR a lda (tri (row_uplo o up) n) m
    (fun i j => let xi := val d m (elt x incX n i) in let yi := val d m (elt y incY n i) in
                let xj := val d m (elt x incX n j) in let yj := val d m (elt y incY n j) in
       if row_conj o then add (mul (conj (mul alpha xi)) yj) (mul (mul alpha (conj yi)) xj)
       else add (mul (mul alpha xi) (conj yj)) (mul (mul (conj alpha) yi) (conj xj)))
    n (fun i m => do u <- load m (start x incX n + i * incX);
       if row_conj o then
         do m1 <- half_row add mul conj false (row_uplo o up) n (conj (mul alpha u)) (start y incY n) incY a lda i m;
         do v <- load m1 (start y incY n + i * incY);
         half_row add mul conj false (row_uplo o up) n (mul alpha (conj v)) (start x incX n) incX a lda i m1
       else
         do m1 <- half_row add mul conj true (row_uplo o up) n (mul alpha u) (start y incY n) incY a lda i m;
         do v <- load m1 (start y incY n + i * incY);
         half_row add mul conj true (row_uplo o up) n (mul (conj alpha) v) (start x incX n) incX a lda i m1) m) as (m1 & E1 & G).
  - apply changes_refl.
  - intros p Hp. apply Hp.
  - intros i s Hi Cs. rewrite (fixed_load d _ _ _ _ _ (F i Hi) Cs). cbn [bind]. rewrite start_elt.
    set (xi := val d m (elt x incX n i)). set (yi := val d m (elt y incY n i)).
    destruct (half_row_ok (negb (row_conj o)) (row_uplo o up) n (cj conj (row_conj o) (mul alpha xi)) (start y incY n) incY a lda i m s) as (s1 & E & G);
      [exact Hld|now apply tri_inside|exact F'|exact Hi|exact Cs|].
    assert (C1 : changes d m s1 (region (spot a lda) (tri (row_uplo o up) n))) by (apply (changes_then d _ _ m s s1 Cs); apply G).
    destruct (half_row_ok (negb (row_conj o)) (row_uplo o up) n (if row_conj o then mul alpha (conj yi) else mul (conj alpha) yi) (start x incX n) incX a lda i m s1) as (s2 & E2 & G2);
      [exact Hld|now apply tri_inside|exact F|exact Hi|exact C1|].
    exists s2. split.
    + destruct o; cbn [row_conj negb cj row_uplo] in *; rewrite E; cbn [bind]; rewrite (fixed_load d _ _ _ _ _ (F' i Hi) C1); cbn [bind]; rewrite start_elt; exact E2.
    + eapply gain_ext; [|exact (gain_trans d zero one add mul SR _ _ _ _ _ _ _ G G2)].
      intros p _. cbv beta. rewrite !start_elt, (if_add zero one add mul SR). fold xi yi. destruct (fst p =? i); [|reflexivity].
      destruct o; reflexivity.
  - rewrite E1. cbn [bind]. destruct (her_end o up n a lda _ m m1 Hld Hin G) as (m' & E & C & V).
    exists m'. split; [exact E|]. split; [exact C|]. intros i j Hi Hj K. rewrite V by assumption.
    match goal with |- (if _ then _ else _) (add _ ?u) = (if _ then _ else _) (add _ ?v) => replace u with v; [reflexivity|] end.
    cbv zeta. destruct o; cbn [lg fst snd row_conj].
    + now rewrite <- !(SRmul_assoc SR).
    + rewrite CM. apply (her2_terms zero one add mul SR).
Qed.
End Updates.

(** ** Symmetric and Hermitian matrices times a vector *)
Section Products.
Context {A : Type} (d zero one : A) (add mul : A -> A -> A).
Hypothesis SR : semi_ring_theory zero one add mul eq.
Add Ring SymRing2 : SR.
Variables (conj : A -> A) (n a lda x incX y incY : Z) (m : list A) (alpha : A).
Local Notation zs := (zsum zero add).
Definition line (l : Z) : Prop := 0 <= l < n.
Local Notation ye := (elt y incY n).
Local Notation xe := (elt x incX n).
Lemma region_vector p : region ye line p <-> in_vector y incY n p.
Proof using Type. split; intros (i & Hi & E); exists i; now split. Qed.
Local Notation gain := (gain d add ye line).
Local Notation region := (region ye line).
Local Notation fixed := (fixed ye line m).
Hypothesis HincY : incY <> 0.
Hypothesis HinY : inside m y incY n.
Lemma ye_inj i j : line i -> line j -> ye i = ye j -> i = j.
Proof using HincY. intros _ _ E. now apply (elt_inj y incY n). Qed.
Lemma ye_in i : line i -> 0 <= ye i < Z.of_nat (length m).
Proof using HinY. intros Hi. now apply HinY. Qed.
Lemma one_by_one (F : Z -> A) body s : changes d m s region ->
  (forall i s, 0 <= i < n -> changes d m s region ->
     exists s', body i s = Ok s' /\ gain (fun l => if l =? i then F i else zero) s s') ->
  exists s', repeat n body s = Ok s' /\ gain F s s'.
Proof using SR.
  intros C0 Hb.
  destruct (gain_repeat d zero one add mul SR ye line m (fun i l => if l =? i then F i else zero) n body s C0 Hb) as (s' & E & G).
  exists s'. split; [exact E|]. eapply gain_ext; [|exact G]. intros l [H1 H2]. cbv beta. rewrite (zsum_pick zero one add mul SR).
  apply Z.leb_le in H1. apply Z.ltb_lt in H2. now rewrite H1, H2.
Qed.
Hypothesis HX : forall k, 0 <= k < n -> fixed (start x incX n + k * incX).

(** one element gains a dot product *)
Lemma dot_step c cnt p s0 off i s : changes d m s region -> 0 <= i < n -> 0 <= off -> off + cnt <= n ->
  (forall k, 0 <= k < cnt -> fixed (p + k * s0)) ->
  exists s', (do r <- dot_gen zero add mul conj c cnt p s0 (start x incX n + off * incX) incX s;
              plus_at add s (start y incY n + i * incY) (mul alpha r)) = Ok s' /\
    gain (fun l => if l =? i then mul alpha (zs cnt (fun k => mul (cj conj c (val d m (p + k * s0))) (val d m (xe (off + k))))) else zero) s s'.
Proof using All.
  intros Cs Hi Hoff Hcnt Hp.
  rewrite (fixed_dot d zero add mul ye line m conj c cnt p s0 (start x incX n + off * incX) incX s Cs Hp).
  2:{ intros k Hk. replace (start x incX n + off * incX + k * incX) with (start x incX n + (off + k) * incX) by ring. apply HX. lia. }
  cbn [bind]. rewrite (start_elt y).
  destruct (gain_one d zero one add mul SR ye line m Z.eqb s i
    (mul alpha (zs cnt (fun k => mul (cj conj c (val d m (p + k * s0))) (val d m (start x incX n + off * incX + k * incX)))))) as (s' & E & G).
  - intros u v. apply Z.eqb_eq.
  - exact ye_inj.
  - exact ye_in.
  - apply Cs.
  - exact Hi.
  - exists s'. split; [exact E|]. eapply gain_ext; [|exact G]. intros l _. cbv beta. destruct (l =? i); [|reflexivity].
    f_equal. apply zsum_ext. intros k Hk. do 2 f_equal. rewrite <- start_elt. ring.
Qed.

(** The symmetric matrix, in row-major order *)
Definition srow (up : uplo) (i j : Z) : A := if kept up NonUnit i j then val d m (a + i * lda + j) else val d m (a + j * lda + i).
Definition kept_fixed (up : uplo) : Prop := forall i j, 0 <= i < n -> 0 <= j < n -> kept up NonUnit i j = true -> fixed (a + i * lda + j).
Lemma symv_gain up s : changes d m s region -> kept_fixed up -> exists s',
  match up with
  | Upper =>
      do m1 <- repeat n (fun i m =>
        do r <- dot_gen zero add mul conj false (n - i) (a + i * lda + i) 1 (start x incX n + i * incX) incX m;
        plus_at add m (start y incY n + i * incY) (mul alpha r)) s;
      repeat n (fun i m =>
        do r <- dot_gen zero add mul conj false i (a + i) lda (start x incX n) incX m;
        plus_at add m (start y incY n + i * incY) (mul alpha r)) m1
  | Lower =>
      do m1 <- repeat n (fun i m =>
        do r <- dot_gen zero add mul conj false i (a + i * lda) 1 (start x incX n) incX m;
        plus_at add m (start y incY n + i * incY) (mul alpha r)) s;
      repeat n (fun i m =>
        do r <- dot_gen zero add mul conj false (n - i) (a + i * lda + i) lda (start x incX n + i * incX) incX m;
        plus_at add m (start y incY n + i * incY) (mul alpha r)) m1
  end = Ok s' /\ gain (fun l => mul alpha (zs n (fun j => mul (srow up l j) (val d m (xe j))))) s s'.
Proof using All.
  intros Cs HK. destruct up.
  - destruct (one_by_one (fun i => mul alpha (zs (n - i) (fun k => mul (val d m (a + i * lda + i + k * 1)) (val d m (xe (i + k))))))
      (fun i m => do r <- dot_gen zero add mul conj false (n - i) (a + i * lda + i) 1 (start x incX n + i * incX) incX m;
        plus_at add m (start y incY n + i * incY) (mul alpha r)) s Cs) as (s1 & E1 & G1).
    { intros i t Hi Ct. apply (dot_step false (n - i) (a + i * lda + i) 1 i i t Ct Hi); [lia|lia|].
      intros k Hk. replace (a + i * lda + i + k * 1) with (a + i * lda + (i + k)) by ring. apply HK; [lia|lia|]. unfold kept. lia. }
    rewrite E1. cbn [bind].
    destruct (one_by_one (fun i => mul alpha (zs i (fun k => mul (val d m (a + i + k * lda)) (val d m (xe (0 + k))))))
      (fun i m => do r <- dot_gen zero add mul conj false i (a + i) lda (start x incX n) incX m;
        plus_at add m (start y incY n + i * incY) (mul alpha r)) s1) as (s2 & E2 & G2).
    { apply (changes_then d ye line m s s1 Cs). apply G1. }
    { intros i t Hi Ct. pose proof (dot_step false i (a + i) lda 0 i t Ct Hi) as D. rewrite Z.mul_0_l, Z.add_0_r in D. apply D; [lia|lia|].
      intros k Hk. replace (a + i + k * lda) with (a + k * lda + i) by ring. apply HK; [lia|lia|]. unfold kept. lia. }
    exists s2. split; [exact E2|]. eapply gain_ext; [|exact (gain_trans d zero one add mul SR _ _ _ _ _ _ _ G1 G2)].
    intros l Hl. cbv beta. unfold line in Hl. rewrite (zsum_cut zero one add mul SR l n) by lia.
    match goal with |- add (mul _ ?u) (mul _ ?v) = mul _ (add ?v' ?u') => replace u' with u; [replace v' with v; [ring|]|] end.
    + apply zsum_ext. intros k Hk. unfold srow. replace (kept Upper NonUnit l k) with false by (unfold kept; lia).
      rewrite Z.add_0_l. do 2 f_equal. ring.
    + apply zsum_ext. intros k Hk. unfold srow. replace (kept Upper NonUnit l (l + k)) with true by (unfold kept; lia).
      do 2 f_equal. ring.
  - destruct (one_by_one (fun i => mul alpha (zs i (fun k => mul (val d m (a + i * lda + k * 1)) (val d m (xe (0 + k))))))
      (fun i m => do r <- dot_gen zero add mul conj false i (a + i * lda) 1 (start x incX n) incX m;
        plus_at add m (start y incY n + i * incY) (mul alpha r)) s Cs) as (s1 & E1 & G1).
    { intros i t Hi Ct. pose proof (dot_step false i (a + i * lda) 1 0 i t Ct Hi) as D. rewrite Z.mul_0_l, Z.add_0_r in D. apply D; [lia|lia|].
      intros k Hk. rewrite Z.mul_1_r. apply HK; [lia|lia|]. unfold kept. lia. }
    rewrite E1. cbn [bind].
    destruct (one_by_one (fun i => mul alpha (zs (n - i) (fun k => mul (val d m (a + i * lda + i + k * lda)) (val d m (xe (i + k))))))
      (fun i m => do r <- dot_gen zero add mul conj false (n - i) (a + i * lda + i) lda (start x incX n + i * incX) incX m;
        plus_at add m (start y incY n + i * incY) (mul alpha r)) s1) as (s2 & E2 & G2).
    { apply (changes_then d ye line m s s1 Cs). apply G1. }
    { intros i t Hi Ct. apply (dot_step false (n - i) (a + i * lda + i) lda i i t Ct Hi); [lia|lia|].
      intros k Hk. replace (a + i * lda + i + k * lda) with (a + (i + k) * lda + i) by ring. apply HK; [lia|lia|]. unfold kept. lia. }
    exists s2. split; [exact E2|]. eapply gain_ext; [|exact (gain_trans d zero one add mul SR _ _ _ _ _ _ _ G1 G2)].
    intros l Hl. cbv beta. unfold line in Hl. rewrite (zsum_cut zero one add mul SR l n) by lia.
    match goal with |- add (mul _ ?v) (mul _ ?u) = mul _ (add ?v' ?u') => replace u' with u; [replace v' with v; [ring|]|] end.
    + apply zsum_ext. intros k Hk. unfold srow. replace (kept Lower NonUnit l k) with true by (unfold kept; lia).
      rewrite Z.add_0_l, Z.mul_1_r. reflexivity.
    + apply zsum_ext. intros k Hk. unfold srow. destruct (Z.eq_dec k 0) as [->|Hk0].
      * replace (kept Lower NonUnit l (l + 0)) with true by (unfold kept; lia). do 2 f_equal. ring.
      * replace (kept Lower NonUnit l (l + k)) with false by (unfold kept; lia). do 2 f_equal. ring.
Qed.

Variable re : A -> A.
(** The Hermitian matrix, in row-major order; [cA]: the kept triangle is conjugated *)
Definition hrow (up : uplo) (cA : bool) (i j : Z) : A :=
  if i =? j then re (val d m (a + i * lda + i))
  else if kept up NonUnit i j then cj conj cA (val d m (a + i * lda + j)) else cj conj (negb cA) (val d m (a + j * lda + i)).
Lemma bind_bind {B C D} (u : outcome B) (f : B -> outcome C) (g : C -> outcome D) :
  (do b <- u; do c <- f b; g c) = (do c <- (do b <- u; f b); g c).
Proof using Type. destruct u; reflexivity. Qed.
(** part of the vector gains multiples of a fixed line *)
Lemma axpy_step c cnt al p s0 off s : changes d m s region -> 0 <= off -> off + cnt <= n ->
  (forall k, 0 <= k < cnt -> fixed (p + k * s0)) ->
  exists s', axpy_gen add mul conj c cnt al p s0 (start y incY n + off * incY) incY s = Ok s' /\
    gain (fun l => if (off <=? l) && (l <? off + cnt) then mul al (cj conj c (val d m (p + (l - off) * s0))) else zero) s s'.
Proof using All.
  intros Cs Hoff Hcnt Hp.
  destruct (gain_axpy d zero one add mul SR ye line m conj Z.eqb c cnt al p s0 (start y incY n + off * incY) incY (fun k => off + k) s
     ltac:(intros; apply Z.eqb_eq) ye_inj ye_in Cs) as (s' & E & G).
  - intros k Hk. split; [unfold line; lia|]. rewrite <- start_elt. ring.
  - exact Hp.
  - exists s'. split; [exact E|]. eapply gain_ext; [|exact G]. intros l _. cbv beta.
    rewrite (zsum_ext zero add cnt _ (fun k => if l - off =? k then mul al (cj conj c (val d m (p + k * s0))) else zero)).
    + rewrite (zsum_pick zero one add mul SR). now replace ((off <=? l) && (l <? off + cnt)) with ((0 <=? l - off) && (l - off <? cnt)) by lia.
    + intros k Hk. now replace (l - off =? k) with (l =? off + k) by lia.
Qed.
Lemma hemv_gain up cA s : changes d m s region -> kept_fixed up -> exists s',
  repeat n (fun i m =>
    do e <- load m (a + i * lda + i);
    do u <- load m (start x incX n + i * incX);
    do m1 <- plus_at add m (start y incY n + i * incY) (mul (mul alpha (re e)) u);
    match up with
    | Upper =>
        do r <- dot_gen zero add mul conj cA (n - i - 1) (a + i * lda + i + 1) 1 (start x incX n + i * incX + incX) incX m1;
        do m2 <- plus_at add m1 (start y incY n + i * incY) (mul alpha r);
        do u <- load m2 (start x incX n + i * incX);
        axpy_gen add mul conj (negb cA) (n - i - 1) (mul alpha u) (a + i * lda + i + 1) 1 (start y incY n + i * incY + incY) incY m2
    | Lower =>
        do r <- dot_gen zero add mul conj cA i (a + i * lda) 1 (start x incX n) incX m1;
        do m2 <- plus_at add m1 (start y incY n + i * incY) (mul alpha r);
        do u <- load m2 (start x incX n + i * incX);
        axpy_gen add mul conj (negb cA) i (mul alpha u) (a + i * lda) 1 (start y incY n) incY m2
    end) s = Ok s' /\ gain (fun l => mul alpha (zs n (fun j => mul (hrow up cA l j) (val d m (xe j))))) s s'.
Proof using All.
  intros Cs HK.
  set (D i := mul (mul alpha (re (val d m (a + i * lda + i)))) (val d m (xe i))).
  assert (First : forall i t, 0 <= i < n -> changes d m t region -> exists t1,
     load t (a + i * lda + i) = Ok (val d m (a + i * lda + i)) /\ load t (start x incX n + i * incX) = Ok (val d m (xe i)) /\
     plus_at add t (start y incY n + i * incY) (D i) = Ok t1 /\ gain (fun l => if l =? i then D i else zero) t t1).
  { intros i t Hi Ct.
    destruct (gain_one d zero one add mul SR ye line m Z.eqb t i (D i) ltac:(intros; apply Z.eqb_eq) ye_inj ye_in) as (t1 & E & G); [apply Ct|exact Hi|].
    exists t1. split; [apply (fixed_load d ye line m); [apply HK; [lia|lia|unfold kept; destruct up; lia]|exact Ct]|].
    split; [rewrite <- (start_elt x); apply (fixed_load d ye line m); [now apply HX|exact Ct]|].
    split; [rewrite start_elt; exact E|exact G]. }
  destruct up.
  - destruct (gain_repeat d zero one add mul SR ye line m (fun i l =>
      add (if l =? i then D i else zero)
     (add (if l =? i then mul alpha (zs (n - i - 1) (fun k => mul (cj conj cA (val d m (a + i * lda + i + 1 + k * 1))) (val d m (xe (i + 1 + k))))) else zero)
          (if (i + 1 <=? l) && (l <? i + 1 + (n - i - 1)) then mul (mul alpha (val d m (xe i))) (cj conj (negb cA) (val d m (a + i * lda + i + 1 + (l - (i + 1)) * 1))) else zero)))
      n (fun i m =>
    do e <- load m (a + i * lda + i);
    do u <- load m (start x incX n + i * incX);
    do m1 <- plus_at add m (start y incY n + i * incY) (mul (mul alpha (re e)) u);
        do r <- dot_gen zero add mul conj cA (n - i - 1) (a + i * lda + i + 1) 1 (start x incX n + i * incX + incX) incX m1;
        do m2 <- plus_at add m1 (start y incY n + i * incY) (mul alpha r);
        do u <- load m2 (start x incX n + i * incX);
        axpy_gen add mul conj (negb cA) (n - i - 1) (mul alpha u) (a + i * lda + i + 1) 1 (start y incY n + i * incY + incY) incY m2) s Cs) as (s' & E & G).
    { intros i t Hi Ct. destruct (First i t Hi Ct) as (t1 & La & Lx & E1 & G1). rewrite La. cbn [bind]. rewrite Lx. cbn [bind].
      fold (D i). rewrite E1. cbn [bind].
      assert (C1 : changes d m t1 region) by (apply (changes_then d ye line m t t1 Ct); apply G1).
      assert (P : forall k, 0 <= k < n - i - 1 -> fixed (a + i * lda + i + 1 + k * 1)).
      { intros k Hk. replace (a + i * lda + i + 1 + k * 1) with (a + i * lda + (i + 1 + k)) by ring. apply HK; [lia|lia|]. unfold kept. lia. }
      destruct (dot_step cA (n - i - 1) (a + i * lda + i + 1) 1 (i + 1) i t1 C1 Hi ltac:(lia) ltac:(lia) P) as (t2 & E2 & G2).
      replace (start x incX n + (i + 1) * incX) with (start x incX n + i * incX + incX) in E2 by ring.
      rewrite bind_bind, E2. cbn [bind].
      assert (C2 : changes d m t2 region) by (apply (changes_then d ye line m t1 t2 C1); apply G2).
      rewrite (fixed_load d ye line m _ _ (HX i Hi) C2). cbn [bind]. rewrite (start_elt x).
      destruct (axpy_step (negb cA) (n - i - 1) (mul alpha (val d m (xe i))) (a + i * lda + i + 1) 1 (i + 1) t2 C2 ltac:(lia) ltac:(lia) P) as (t3 & E3 & G3).
      replace (start y incY n + (i + 1) * incY) with (start y incY n + i * incY + incY) in E3 by ring.
      exists t3. split; [exact E3|].
      exact (gain_trans d zero one add mul SR _ _ _ _ _ _ _ G1 (gain_trans d zero one add mul SR _ _ _ _ _ _ _ G2 G3)). }
    exists s'. split; [exact E|]. eapply gain_ext; [|exact G]. intros l Hl. cbv beta. unfold line in Hl.
    rewrite !(zsum_add zero one add mul SR).
    rewrite (zsum_pick zero one add mul SR n l D).
    rewrite (zsum_pick zero one add mul SR n l (fun i => mul alpha (zs (n - i - 1) (fun k => mul (cj conj cA (val d m (a + i * lda + i + 1 + k * 1))) (val d m (xe (i + 1 + k))))))).
    replace ((0 <=? l) && (l <? n)) with true by lia.
    rewrite (zsum_ext zero add n _ (fun i => if i <? l then mul alpha (mul (hrow Upper cA l i) (val d m (xe i))) else zero)).
    2:{ intros i Hi. destruct (i <? l) eqn:El.
        - replace ((i + 1 <=? l) && (l <? i + 1 + (n - i - 1))) with true by lia. unfold hrow. replace (l =? i) with false by lia.
          replace (kept Upper NonUnit l i) with false by (unfold kept; lia). replace (a + i * lda + i + 1 + (l - (i + 1)) * 1) with (a + i * lda + l) by ring. ring.
        - replace ((i + 1 <=? l) && (l <? i + 1 + (n - i - 1))) with false by lia. reflexivity. }
    rewrite (zsum_before zero one add mul SR) by lia. rewrite (zsum_mul zero one add mul SR).
    rewrite (zsum_split zero one add mul SR l n) by lia.
    rewrite (zsum_ext zero add (n - l - 1) (fun k => mul (cj conj cA (val d m (a + l * lda + l + 1 + k * 1))) (val d m (xe (l + 1 + k))))
      (fun i => mul (hrow Upper cA l (l + 1 + i)) (val d m (xe (l + 1 + i))))).
    2:{ intros k Hk. unfold hrow. replace (l =? l + 1 + k) with false by lia. replace (kept Upper NonUnit l (l + 1 + k)) with true by (unfold kept; lia).
        now replace (a + l * lda + l + 1 + k * 1) with (a + l * lda + (l + 1 + k)) by ring. }
    replace (hrow Upper cA l l) with (re (val d m (a + l * lda + l))) by (unfold hrow; now rewrite Z.eqb_refl).
    unfold D. ring.
  - destruct (gain_repeat d zero one add mul SR ye line m (fun i l =>
      add (if l =? i then D i else zero)
     (add (if l =? i then mul alpha (zs i (fun k => mul (cj conj cA (val d m (a + i * lda + k * 1))) (val d m (xe (0 + k))))) else zero)
          (if (0 <=? l) && (l <? 0 + i) then mul (mul alpha (val d m (xe i))) (cj conj (negb cA) (val d m (a + i * lda + (l - 0) * 1))) else zero)))
      n (fun i m =>
    do e <- load m (a + i * lda + i);
    do u <- load m (start x incX n + i * incX);
    do m1 <- plus_at add m (start y incY n + i * incY) (mul (mul alpha (re e)) u);
        do r <- dot_gen zero add mul conj cA i (a + i * lda) 1 (start x incX n) incX m1;
        do m2 <- plus_at add m1 (start y incY n + i * incY) (mul alpha r);
        do u <- load m2 (start x incX n + i * incX);
        axpy_gen add mul conj (negb cA) i (mul alpha u) (a + i * lda) 1 (start y incY n) incY m2) s Cs) as (s' & E & G).
    { intros i t Hi Ct. destruct (First i t Hi Ct) as (t1 & La & Lx & E1 & G1). rewrite La. cbn [bind]. rewrite Lx. cbn [bind].
      fold (D i). rewrite E1. cbn [bind].
      assert (C1 : changes d m t1 region) by (apply (changes_then d ye line m t t1 Ct); apply G1).
      assert (P : forall k, 0 <= k < i -> fixed (a + i * lda + k * 1)).
      { intros k Hk. rewrite Z.mul_1_r. apply HK; [lia|lia|]. unfold kept. lia. }
      destruct (dot_step cA i (a + i * lda) 1 0 i t1 C1 Hi ltac:(lia) ltac:(lia) P) as (t2 & E2 & G2).
      rewrite Z.mul_0_l, Z.add_0_r in E2.
      rewrite bind_bind, E2. cbn [bind].
      assert (C2 : changes d m t2 region) by (apply (changes_then d ye line m t1 t2 C1); apply G2).
      rewrite (fixed_load d ye line m _ _ (HX i Hi) C2). cbn [bind]. rewrite (start_elt x).
      destruct (axpy_step (negb cA) i (mul alpha (val d m (xe i))) (a + i * lda) 1 0 t2 C2 ltac:(lia) ltac:(lia) P) as (t3 & E3 & G3).
      rewrite Z.mul_0_l, Z.add_0_r in E3.
      exists t3. split; [exact E3|].
      exact (gain_trans d zero one add mul SR _ _ _ _ _ _ _ G1 (gain_trans d zero one add mul SR _ _ _ _ _ _ _ G2 G3)). }
    exists s'. split; [exact E|]. eapply gain_ext; [|exact G]. intros l Hl. cbv beta. unfold line in Hl.
    rewrite !(zsum_add zero one add mul SR).
    rewrite (zsum_pick zero one add mul SR n l D).
    rewrite (zsum_pick zero one add mul SR n l (fun i => mul alpha (zs i (fun k => mul (cj conj cA (val d m (a + i * lda + k * 1))) (val d m (xe (0 + k))))))).
    replace ((0 <=? l) && (l <? n)) with true by lia.
    rewrite (zsum_ext zero add n _ (fun i => if l + 1 <=? i then mul alpha (mul (hrow Lower cA l i) (val d m (xe i))) else zero)).
    2:{ intros i Hi. destruct (l + 1 <=? i) eqn:El.
        - replace ((0 <=? l) && (l <? 0 + i)) with true by lia. unfold hrow. replace (l =? i) with false by lia.
          replace (kept Lower NonUnit l i) with false by (unfold kept; lia). replace (a + i * lda + (l - 0) * 1) with (a + i * lda + l) by ring. ring.
        - replace ((0 <=? l) && (l <? 0 + i)) with false by lia. reflexivity. }
    rewrite (zsum_after zero one add mul SR) by lia. rewrite (zsum_mul zero one add mul SR).
    rewrite (zsum_split zero one add mul SR l n) by lia.
    replace (n - (l + 1)) with (n - l - 1) by ring.
    rewrite (zsum_ext zero add l (fun k => mul (cj conj cA (val d m (a + l * lda + k * 1))) (val d m (xe (0 + k))))
      (fun i => mul (hrow Lower cA l i) (val d m (xe i)))).
    2:{ intros k Hk. unfold hrow. replace (l =? k) with false by lia. replace (kept Lower NonUnit l k) with true by (unfold kept; lia).
        now rewrite Z.mul_1_r, Z.add_0_l. }
    replace (hrow Lower cA l l) with (re (val d m (a + l * lda + l))) by (unfold hrow; now rewrite Z.eqb_refl).
    unfold D. ring.
Qed.
End Products.

Lemma kept_either up i j : i <> j -> kept up NonUnit j i = negb (kept up NonUnit i j).
Proof. unfold kept. destruct up; lia. Qed.
Section Shapes.
Context {A : Type} (d : A).
Lemma srow_symmetric o up a lda (m : list A) i j : srow d a lda m (row_uplo o up) i j = symmetric d o up a lda m i j.
Proof.
  unfold srow, symmetric. destruct o; cbn [row_uplo cell]; [reflexivity|]. rewrite kept_other.
  destruct (Z.eq_dec i j) as [->|Hne]; [now destruct (kept up NonUnit j j)|]. rewrite (kept_either up i j Hne). now destruct (kept up NonUnit i j).
Qed.
Lemma hrow_hermitian (conj re : A -> A) o up a lda (m : list A) i j : hrow d conj a lda m re (row_uplo o up) (row_conj o) i j = hermitian d conj re o up a lda m i j.
Proof.
  unfold hrow, hermitian. destruct (i =? j) eqn:E; [now destruct o|]. destruct o; cbn [row_uplo row_conj cell cj negb]; [reflexivity|].
  rewrite kept_other. rewrite (kept_either up i j) by lia. now destruct (kept up NonUnit i j).
Qed.
Lemma kept_fixed_row o up n a lda y incY (m : list A) : kept_apart m o up NonUnit n a lda (in_vector y incY n) ->
  kept_fixed n a lda y incY m (row_uplo o up).
Proof.
  intros H i j Hi Hj K. destruct o; cbn [row_uplo] in K.
  - destruct (H i j Hi Hj K) as [H1 H2]. split; [exact H1|]. intros Q. apply H2. now apply region_vector.
  - rewrite kept_other in K. destruct (H j i Hj Hi K) as [H1 H2]. split; [exact H1|]. intros Q. apply H2. now apply region_vector.
Qed.
Lemma symmetric_same o up n a lda (m m' : list A) cells i j : kept_apart m o up NonUnit n a lda cells -> changes d m m' cells ->
  0 <= i < n -> 0 <= j < n -> symmetric d o up a lda m' i j = symmetric d o up a lda m i j.
Proof.
  intros H [L C] Hi Hj. unfold symmetric. destruct (kept up NonUnit i j) eqn:K.
  - destruct (H i j Hi Hj K). now apply C.
  - destruct (Z.eq_dec i j) as [->|Hne]; [exfalso; unfold kept in K; destruct up; lia|].
    assert (K' : kept up NonUnit j i = true) by (rewrite (kept_either up i j Hne), K; reflexivity).
    destruct (H j i Hj Hi K'). now apply C.
Qed.
Lemma hermitian_same (conj re : A -> A) o up n a lda (m m' : list A) cells i j : kept_apart m o up NonUnit n a lda cells -> changes d m m' cells ->
  0 <= i < n -> 0 <= j < n -> hermitian d conj re o up a lda m' i j = hermitian d conj re o up a lda m i j.
Proof.
  intros H [L C] Hi Hj. unfold hermitian. destruct (i =? j) eqn:E.
  { f_equal. assert (K : kept up NonUnit i i = true) by (unfold kept; destruct up; lia). destruct (H i i Hi Hi K). now apply C. }
  destruct (kept up NonUnit i j) eqn:K.
  - destruct (H i j Hi Hj K). now apply C.
  - f_equal. assert (K' : kept up NonUnit j i = true) by (rewrite (kept_either up i j) by lia; now rewrite K).
    destruct (H j i Hj Hi K'). now apply C.
Qed.
Lemma apart_length (m m' : list A) o up n a lda cells : length m' = length m -> kept_apart m o up NonUnit n a lda cells -> kept_apart m' o up NonUnit n a lda cells.
Proof. intros L H i j Hi Hj K. rewrite L. now apply H. Qed.
Lemma vector_length (m m' : list A) x inc n cells : length m' = length m -> vector_apart m x inc n cells -> vector_apart m' x inc n cells.
Proof. intros L H i Hi. rewrite L. now apply H. Qed.
Lemma fixed_x (m : list A) x incX y incY n : vector_apart m x incX n (in_vector y incY n) ->
  forall k, 0 <= k < n -> fixed (elt y incY n) (line n) m (start x incX n + k * incX).
Proof. intros H k Hk. rewrite start_elt. destruct (H k Hk) as [P N]. split; [exact P|]. intros Q. apply N. now apply region_vector. Qed.

End Shapes.
Section Level2.
Context {A : Type} (d zero one : A) (add mul : A -> A -> A).
Hypothesis SR : semi_ring_theory zero one add mul eq.
Variables (conj : A -> A) (is_zero : A -> bool).
Hypothesis IZ : forall v, is_zero v = true <-> v = zero.
Lemma scaled_by b v : (if is_zero b then zero else mul v b) = mul b v.
Proof using SR IZ.
  destruct (is_zero b) eqn:E; [|apply (SRmul_comm SR)]. apply IZ in E. subst b. symmetry. apply (SRmul_0_l SR).
Qed.
Lemma symv_ok o up n alpha a lda x incX beta y incY (m : list A) :
  incY <> 0 -> inside m y incY n -> vector_apart m x incX n (in_vector y incY n) -> kept_apart m o up NonUnit n a lda (in_vector y incY n) ->
  exists m', symv zero add mul conj is_zero o up n alpha a lda x incX beta y incY m = Ok m' /\
    changes d m m' (in_vector y incY n) /\
    forall i, 0 <= i < n -> val d m' (elt y incY n i) =
      add (mul beta (val d m (elt y incY n i)))
          (mul alpha (zsum zero add n (fun j => mul (symmetric d o up a lda m i j) (val d m (elt x incX n j))))).
Proof using SR IZ.
  intros HincY HinY Hx HA. unfold symv.
  destruct (scal_init_ok d zero mul is_zero n beta y incY m HinY ltac:(left; exact HincY)) as (m0 & E0 & V0 & C0).
  rewrite E0. cbn [bind]. assert (L0 : length m0 = length m) by apply C0.
  pose proof (vector_length m m0 x incX n _ L0 Hx) as Hx0. pose proof (apart_length m m0 o up n a lda _ L0 HA) as HA0.
  destruct (symv_gain d zero one add mul SR conj n a lda x incX y incY m0 alpha HincY ltac:(intros i Hi; rewrite L0; now apply HinY)
    (fixed_x m0 x incX y incY n Hx0) (row_uplo o up) m0 ltac:(apply changes_refl) (kept_fixed_row o up n a lda y incY m0 HA0)) as (m' & E & C & V).
  exists m'. split; [exact E|]. split.
  - pose proof (changes_iff d _ _ _ _ (region_vector n y incY) C) as C'.
    eapply (changes_weaken d); [|exact (changes_trans d _ _ _ _ _ C0 C')]. cbv beta. tauto.
  - intros i Hi. rewrite V, V0, scaled_by by exact Hi. do 2 f_equal. apply zsum_ext. intros j Hj.
    rewrite srow_symmetric, (symmetric_same d o up n a lda m m0 _ i j HA C0 Hi Hj). f_equal.
    destruct (Hx j Hj) as [P N]. now apply C0.
Qed.
Lemma hemv_ok (re : A -> A) o up n alpha a lda x incX beta y incY (m : list A) :
  incY <> 0 -> inside m y incY n -> vector_apart m x incX n (in_vector y incY n) -> kept_apart m o up NonUnit n a lda (in_vector y incY n) ->
  exists m', hemv zero add mul conj re is_zero o up n alpha a lda x incX beta y incY m = Ok m' /\
    changes d m m' (in_vector y incY n) /\
    forall i, 0 <= i < n -> val d m' (elt y incY n i) =
      add (mul beta (val d m (elt y incY n i)))
          (mul alpha (zsum zero add n (fun j => mul (hermitian d conj re o up a lda m i j) (val d m (elt x incX n j))))).
Proof using SR IZ.
  intros HincY HinY Hx HA. unfold hemv, hemv_gen.
  destruct (scal_init_ok d zero mul is_zero n beta y incY m HinY ltac:(left; exact HincY)) as (m0 & E0 & V0 & C0).
  rewrite E0. cbn [bind]. assert (L0 : length m0 = length m) by apply C0.
  pose proof (vector_length m m0 x incX n _ L0 Hx) as Hx0. pose proof (apart_length m m0 o up n a lda _ L0 HA) as HA0.
  destruct (hemv_gain d zero one add mul SR conj n a lda x incX y incY m0 alpha HincY ltac:(intros i Hi; rewrite L0; now apply HinY)
    (fixed_x m0 x incX y incY n Hx0) re (row_uplo o up) (row_conj o) m0 ltac:(apply changes_refl) (kept_fixed_row o up n a lda y incY m0 HA0)) as (m' & E & C & V).
  exists m'. split; [exact E|]. split.
  - pose proof (changes_iff d _ _ _ _ (region_vector n y incY) C) as C'.
    eapply (changes_weaken d); [|exact (changes_trans d _ _ _ _ _ C0 C')]. cbv beta. tauto.
  - intros i Hi. rewrite V, V0, scaled_by by exact Hi. do 2 f_equal. apply zsum_ext. intros j Hj.
    rewrite hrow_hermitian, (hermitian_same d conj re o up n a lda m m0 _ i j HA C0 Hi Hj). f_equal.
    destruct (Hx j Hj) as [P N]. now apply C0.
Qed.
End Level2.

(** ** Level 3 *)
Section Level3.
Context {A : Type} (d zero one : A) (add mul : A -> A -> A).
Hypothesis SR : semi_ring_theory zero one add mul eq.
Add Ring SymRing3 : SR.
Variables (conj : A -> A) (is_zero is_one : A -> bool).
Hypothesis IZ : forall v, is_zero v = true <-> v = zero.
Hypothesis IO : forall v, is_one v = true -> v = one.
Local Notation zs := (zsum zero add).

Lemma elt_one x n i : elt x 1 n i = x + i.
Proof using All. rewrite elt_pos by lia. ring. Qed.
Lemma syscal_init_ok up n beta a lda (m : list A) : n <= lda ->
  (forall p, tri up n p -> 0 <= spot a lda p < Z.of_nat (length m)) ->
  exists m', syscal_init zero mul is_zero is_one up n beta a lda m = Ok m' /\ changes d m m' (region (spot a lda) (tri up n)) /\
    forall p, tri up n p -> val d m' (spot a lda p) = mul beta (val d m (spot a lda p)).
Proof using All.
  intros Hld Hin. unfold syscal_init. destruct (is_one beta) eqn:E1.
  { apply IO in E1. subst beta. exists m. split; [reflexivity|]. split; [apply changes_refl|]. intros p _. ring. }
  set (from i := match up with Upper => i | Lower => 0 end). set (cnt i := match up with Upper => n - i | Lower => i + 1 end).
  destruct (sweep d (spot a lda) (tri up n) m (mul beta) fst (fun _ => true) n
    (fun i m => match up with
    | Upper => scal_init zero mul is_zero (n - i) beta (a + i * (lda + 1)) 1 m
    | Lower => scal_init zero mul is_zero (i + 1) beta (a + i * lda) 1 m
    end) m) as (m' & E & C & V).
  - apply changes_refl.
  - intros p Hp. apply Hp.
  - intros k s Hk Cs.
    assert (T : forall l, 0 <= l < cnt k -> tri up n (k, from k + l)).
    { intros l Hl. unfold cnt, from in *. split; [split; cbn [fst snd]; destruct up; lia|]. unfold kept. cbn [fst snd]. destruct up; lia. }
    assert (Ls : length s = length m) by apply Cs.
    assert (I : inside s (a + k * lda + from k) 1 (cnt k)).
    { intros l Hl. rewrite elt_one, Ls. specialize (Hin _ (T l Hl)). unfold spot in Hin. cbn [fst snd] in Hin. lia. }
    destruct (scal_init_ok d zero mul is_zero (cnt k) beta (a + k * lda + from k) 1 s I ltac:(left; lia)) as (s' & E & V & C).
    exists s'. split; [|split].
    + rewrite <- E. unfold cnt, from. destruct up; f_equal; ring.
    + eapply (changes_weaken d); [|exact C]. intros p (l & Hl & ->). exists (k, from k + l). split; [now apply T|]. rewrite elt_one. unfold spot. cbn [fst snd]. ring.
    + intros p Hp. cbn [andb]. destruct (fst p =? k) eqn:Ek.
      * assert (Hs : 0 <= snd p - from k < cnt k).
        { destruct Hp as [[H1 H2] K]. unfold kept, from, cnt in *. destruct up; lia. }
        specialize (V _ Hs). rewrite elt_one in V. replace (a + k * lda + from k + (snd p - from k)) with (spot a lda p) in V by (unfold spot; replace (fst p) with k by lia; ring).
        rewrite V. apply (scaled_by zero one add mul SR is_zero IZ).
      * apply C; [rewrite Ls; now apply Hin|]. intros (l & Hl & El). rewrite elt_one in El.
        assert (E2 : p = (k, from k + l)).
        { apply (spot_inj a lda n (tri up n) ltac:(intros q Hq; apply Hq) Hld); [exact Hp|now apply T|]. rewrite El. unfold spot. cbn [fst snd]. ring. }
        subst p. cbn [fst] in Ek. lia.
  - exists m'. split; [exact E|]. split; [exact C|]. intros p Hp. now rewrite (V p Hp).
Qed.

(** a sum of updates of a scaled triangle *)
Lemma rank_k o up n k beta c ldc (body : Z -> list A -> outcome (list A)) (F : Z -> Z * Z -> A) (m : list A) :
  n <= ldc -> half_inside m o up n c ldc ->
  (forall l s, 0 <= l < k -> changes d m s (region (spot c ldc) (tri (row_uplo o up) n)) ->
     exists s', body l s = Ok s' /\ gain d add (spot c ldc) (tri (row_uplo o up) n) (F l) s s') ->
  exists m', (do m0 <- syscal_init zero mul is_zero is_one (row_uplo o up) n beta c ldc m; if k =? 0 then Ok m0 else repeat k body m0) = Ok m' /\
    changes d m m' (half o up n c ldc) /\
    forall i j, 0 <= i < n -> 0 <= j < n -> kept up NonUnit i j = true ->
      entry d o c ldc m' i j = add (mul beta (entry d o c ldc m i j)) (zs k (fun l => F l (lg o i j))).
Proof using All.
  intros Hld Hin Hb. destruct (syscal_init_ok (row_uplo o up) n beta c ldc m Hld (tri_inside m o up n c ldc Hin)) as (m0 & E0 & C0 & V0).
  rewrite E0. cbn [bind].
  destruct (gain_repeat d zero one add mul SR (spot c ldc) (tri (row_uplo o up) n) m F k body m0 C0 Hb) as (m' & E & G).
  exists m'. split.
  - destruct (k =? 0) eqn:Ek; [|exact E]. assert (k = 0) by lia. subst k. exact E.
  - apply half_whole in G. destruct G as [C V]. split.
    + apply (changes_iff d _ _ _ _ (region_half o up n c ldc)) in C0.
      eapply (changes_weaken d); [|exact (changes_trans d _ _ _ _ _ C0 C)]. cbv beta. tauto.
    + intros i j Hi Hj K. rewrite V by assumption. f_equal. unfold entry.
      specialize (V0 _ (tri_lg o up n i j Hi Hj K)). now rewrite spot_lg in V0.
Qed.
Lemma stored_col t a lda i l : stored ColMajor t a lda i l = stored RowMajor (flip t) a lda i l.
Proof using All. destruct t; reflexivity. Qed.
Lemma row_up o up : row_uplo RowMajor (row_uplo o up) = row_uplo o up.
Proof using All. reflexivity. Qed.
(** the l-th column of op(A), as syrk and syr2k pass it on *)
Lemma column_elt t a lda n i l : 0 <= lda ->
  elt (if is_trans t then a + l * lda else a + l) (if is_trans t then 1 else lda) n i = stored RowMajor t a lda i l.
Proof using All. intros H. unfold stored. destruct (is_trans t); rewrite elt_pos by lia; cbn [cell]; ring. Qed.
Lemma half_row_region o up n c ldc p : half RowMajor (row_uplo o up) n c ldc p <-> half o up n c ldc p.
Proof using All. rewrite <- (region_half RowMajor), <- (region_half o). reflexivity. Qed.
Lemma half_inside_row (m : list A) o up n c ldc : half_inside m o up n c ldc -> half_inside m RowMajor (row_uplo o up) n c ldc.
Proof using All.
  intros H i j Hi Hj K. pose proof (tri_inside m o up n c ldc H (i, j)) as T. apply T. split; [split; assumption|exact K].
Qed.
Lemma column_apart (m s : list A) o up t a lda n k c ldc l : 0 <= lda -> 0 <= l < k -> length s = length m ->
  stored_apart m o t a lda n k (half o up n c ldc) ->
  let t' := match o with RowMajor => t | ColMajor => flip t end in
  vector_apart s (if is_trans t' then a + l * lda else a + l) (if is_trans t' then 1 else lda) n (half RowMajor (row_uplo o up) n c ldc).
Proof using All.
  intros Hl Hk L H t' i Hi. rewrite column_elt by exact Hl.
  assert (E : stored RowMajor t' a lda i l = stored o t a lda i l) by (unfold t'; destruct o; [reflexivity|symmetry; apply stored_col]).
  rewrite E, L. destruct (H i l Hi Hk) as [H1 H2]. split; [exact H1|]. intros Q. apply H2. now apply half_row_region.
Qed.
Lemma syrk_ok o up t n k alpha a lda beta c ldc (m : list A) : 0 <= lda -> n <= ldc -> half_inside m o up n c ldc ->
  stored_apart m o t a lda n k (half o up n c ldc) ->
  exists m', syrk zero add mul conj is_zero is_one o up t n k alpha a lda beta c ldc m = Ok m' /\
    changes d m m' (half o up n c ldc) /\
    forall i j, 0 <= i < n -> 0 <= j < n -> kept up NonUnit i j = true ->
      entry d o c ldc m' i j = add (mul beta (entry d o c ldc m i j))
        (mul alpha (zs k (fun l => mul (val d m (stored o t a lda i l)) (val d m (stored o t a lda j l))))).
Proof using All.
  intros Hl Hld Hin HA. set (t' := match o with RowMajor => t | ColMajor => flip t end).
  assert (St : forall i l, stored RowMajor t' a lda i l = stored o t a lda i l) by (intros i l; unfold t'; destruct o; [reflexivity|symmetry; apply stored_col]).
  assert (R : syrk zero add mul conj is_zero is_one o up t n k alpha a lda beta c ldc m =
     syrk_row zero add mul conj is_zero is_one (row_uplo o up) t' n k alpha a lda beta c ldc m) by (unfold t'; destruct o; reflexivity).
  rewrite R. unfold syrk_row.
  destruct (rank_k o up n k beta c ldc
    (fun l m => if is_trans t' then syr add mul conj RowMajor (row_uplo o up) n alpha (a + l * lda) 1 c ldc m
                else syr add mul conj RowMajor (row_uplo o up) n alpha (a + l) lda c ldc m)
    (fun l p => mul alpha (mul (val d m (stored o t a lda (fst p) l)) (val d m (stored o t a lda (snd p) l)))) m Hld Hin) as (m' & E & C & V).
  - intros l s Hk Cs.
    destruct (syr_gain d zero one add mul SR conj RowMajor (row_uplo o up) n alpha (if is_trans t' then a + l * lda else a + l) (if is_trans t' then 1 else lda) c ldc s Hld)
      as (s' & E & G).
    + apply half_inside_row. intros i j Hi Hj K. replace (length s) with (length m) by (symmetry; apply Cs). now apply Hin.
    + apply (column_apart m s o up t a lda n k c ldc l Hl Hk); [apply Cs|exact HA].
    + exists s'. split; [destruct (is_trans t'); exact E|]. rewrite row_up in G. eapply gain_ext; [|exact G]. intros p [[H1 H2] _]. cbv beta.
      rewrite !column_elt, !St by exact Hl.
      destruct (HA (fst p) l H1 Hk) as [P1 N1], (HA (snd p) l H2 Hk) as [P2 N2].
      assert (S : forall q, 0 <= q < Z.of_nat (length m) -> ~ half o up n c ldc q -> val d s q = val d m q).
      { intros q Hq Nq. apply Cs; [exact Hq|]. intros Q. apply Nq. now apply region_half. }
      rewrite !S by assumption. ring.
  - exists m'. split; [exact E|]. split; [exact C|]. intros i j Hi Hj K. rewrite V by assumption. f_equal.
    rewrite <- (zsum_mul zero one add mul SR). apply zsum_ext. intros l _. destruct o; cbn [lg fst snd]; ring.
Qed.
Lemma syr2k_ok o up t n k alpha a lda b ldb beta c ldc (m : list A) : 0 <= lda -> 0 <= ldb -> n <= ldc -> half_inside m o up n c ldc ->
  stored_apart m o t a lda n k (half o up n c ldc) -> stored_apart m o t b ldb n k (half o up n c ldc) ->
  exists m', syr2k zero add mul conj is_zero is_one o up t n k alpha a lda b ldb beta c ldc m = Ok m' /\
    changes d m m' (half o up n c ldc) /\
    forall i j, 0 <= i < n -> 0 <= j < n -> kept up NonUnit i j = true ->
      entry d o c ldc m' i j = add (mul beta (entry d o c ldc m i j))
        (mul alpha (zs k (fun l => add (mul (val d m (stored o t a lda i l)) (val d m (stored o t b ldb j l)))
                                       (mul (val d m (stored o t b ldb i l)) (val d m (stored o t a lda j l)))))).
Proof using All.
  intros Hl Hl' Hld Hin HA HB. set (t' := match o with RowMajor => t | ColMajor => flip t end).
  assert (St : forall a lda i l, stored RowMajor t' a lda i l = stored o t a lda i l) by (intros u v i l; unfold t'; destruct o; [reflexivity|symmetry; apply stored_col]).
  assert (R : syr2k zero add mul conj is_zero is_one o up t n k alpha a lda b ldb beta c ldc m =
     syr2k_row zero add mul conj is_zero is_one (row_uplo o up) t' n k alpha a lda b ldb beta c ldc m) by (unfold t'; destruct o; reflexivity).
  rewrite R. unfold syr2k_row.
  destruct (rank_k o up n k beta c ldc
    (fun l m => if is_trans t' then syr2 add mul conj RowMajor (row_uplo o up) n alpha (a + l * lda) 1 (b + l * ldb) 1 c ldc m
                else syr2 add mul conj RowMajor (row_uplo o up) n alpha (a + l) lda (b + l) ldb c ldc m)
    (fun l p => mul alpha (add (mul (val d m (stored o t a lda (fst p) l)) (val d m (stored o t b ldb (snd p) l)))
                               (mul (val d m (stored o t b ldb (fst p) l)) (val d m (stored o t a lda (snd p) l))))) m Hld Hin) as (m' & E & C & V).
  - intros l s Hk Cs.
    destruct (syr2_row_gain d zero one add mul SR conj RowMajor (row_uplo o up) n alpha
        (if is_trans t' then a + l * lda else a + l) (if is_trans t' then 1 else lda)
        (if is_trans t' then b + l * ldb else b + l) (if is_trans t' then 1 else ldb) c ldc s Hld)
      as (s' & E & G).
    + apply half_inside_row. intros i j Hi Hj K. replace (length s) with (length m) by (symmetry; apply Cs). now apply Hin.
    + apply (column_apart m s o up t a lda n k c ldc l Hl Hk); [apply Cs|exact HA].
    + apply (column_apart m s o up t b ldb n k c ldc l Hl' Hk); [apply Cs|exact HB].
    + exists s'. split; [unfold syr2; destruct (is_trans t'); exact E|]. rewrite row_up in G. eapply gain_ext; [|exact G]. intros p [[H1 H2] _]. cbv beta.
      rewrite !column_elt, !St by assumption.
      destruct (HA (fst p) l H1 Hk) as [P1 N1], (HA (snd p) l H2 Hk) as [P2 N2], (HB (fst p) l H1 Hk) as [P3 N3], (HB (snd p) l H2 Hk) as [P4 N4].
      assert (S : forall q, 0 <= q < Z.of_nat (length m) -> ~ half o up n c ldc q -> val d s q = val d m q).
      { intros q Hq Nq. apply Cs; [exact Hq|]. intros Q. apply Nq. now apply region_half. }
      rewrite !S by assumption. ring.
  - exists m'. split; [exact E|]. split; [exact C|]. intros i j Hi Hj K. rewrite V by assumption. f_equal.
    rewrite <- (zsum_mul zero one add mul SR). apply zsum_ext. intros l _. destruct o; cbn [lg fst snd]; ring.
Qed.

(** symm: one line of C after the other *)
Lemma symmetric_sym o up a lda (m : list A) i j : symmetric d o up a lda m i j = symmetric d o up a lda m j i.
Proof using All.
  unfold symmetric. destruct (Z.eq_dec i j) as [->|Hne]; [reflexivity|]. rewrite (kept_either up i j Hne). now destruct (kept up NonUnit i j).
Qed.
Lemma kept_apart_weaken (m : list A) o up dg n a lda (P Q : Z -> Prop) : (forall p, Q p -> P p) -> kept_apart m o up dg n a lda P -> kept_apart m o up dg n a lda Q.
Proof using All. intros H K i j Hi Hj Ke. destruct (K i j Hi Hj Ke). split; auto. Qed.
Lemma symm_row_ok sd up rows cols alpha a lda b ldb beta c ldc (m : list A) : 0 <= rows -> 0 <= cols <= ldc -> 0 <= ldb ->
  block_inside m RowMajor c ldc rows cols ->
  kept_apart m RowMajor up NonUnit (order_of sd rows cols) a lda (block RowMajor c ldc rows cols) ->
  block_apart m RowMajor b ldb rows cols (block RowMajor c ldc rows cols) ->
  exists m', symm_row zero one add mul conj is_zero sd up rows cols alpha a lda b ldb beta c ldc m = Ok m' /\
    changes d m m' (block RowMajor c ldc rows cols) /\
    forall i j, 0 <= i < rows -> 0 <= j < cols -> entry d RowMajor c ldc m' i j =
      add (mul beta (entry d RowMajor c ldc m i j))
          (mul alpha (applied zero add mul sd rows cols (symmetric d RowMajor up a lda m) (entry d RowMajor b ldb m) i j)).
Proof using All.
  intros Hrows Hcols Hldb Hin HA HB. unfold symm_row, gescal_init.
  destruct (scale_block d (mul beta) (fun n x m => scal_init zero mul is_zero n beta x 1 m) rows cols c ldc m) as (m0 & E0 & C0 & V0).
  { intros n x t Ht. destruct (scal_init_ok d zero mul is_zero n beta x 1 t Ht ltac:(left; lia)) as (t' & E & V & C).
    exists t'. split; [exact E|]. split; [|exact C]. intros i Hi. rewrite V by exact Hi. apply (scaled_by zero one add mul SR is_zero IZ). }
  { exact Hrows. } { exact Hcols. } { exact Hin. }
  rewrite E0. cbn [bind].
  pose proof (region_grid c ldc rows cols) as R.
  assert (C0' : changes d m m0 (region (spot c ldc) (grid rows cols))) by (eapply (changes_iff d); [|exact C0]; intros p; symmetry; apply R).
  assert (Inj : forall p q, grid rows cols p -> grid rows cols q -> spot c ldc p = spot c ldc q -> p = q).
  { apply (spot_inj c ldc cols (grid rows cols)); [intros p Hp; apply Hp|lia]. }
  set (F (i j : Z) := mul alpha (applied zero add mul sd rows cols (symmetric d RowMajor up a lda m) (entry d RowMajor b ldb m) i j)).
  assert (Fin : forall s s', changes d m s (region (spot c ldc) (grid rows cols)) -> gain d add (spot c ldc) (grid rows cols) (fun p => F (fst p) (snd p)) m0 s' ->
    changes d m s' (block RowMajor c ldc rows cols) /\
    forall i j, 0 <= i < rows -> 0 <= j < cols -> entry d RowMajor c ldc s' i j = add (mul beta (entry d RowMajor c ldc m i j)) (F i j)).
  { intros _ s' _ [C V]. split.
    - apply (changes_iff d _ _ _ _ R). apply (changes_then d _ _ m m0 s' C0' C).
    - intros i j Hi Hj. specialize (V (i, j) ltac:(split; assumption)). unfold entry. unfold spot in V. cbn [fst snd cell] in *. rewrite V. f_equal. now apply V0. }
  (* one call of symv on a line of C *)
  assert (Line : forall nn x incX y incY s, nn = order_of sd rows cols -> incY <> 0 -> changes d m s (region (spot c ldc) (grid rows cols)) ->
     (forall l, 0 <= l < nn -> exists q, grid rows cols q /\ elt y incY nn l = spot c ldc q) ->
     (forall l, 0 <= l < nn -> 0 <= elt x incX nn l < Z.of_nat (length m) /\ ~ block RowMajor c ldc rows cols (elt x incX nn l)) ->
     exists s', symv zero add mul conj is_zero RowMajor up nn alpha a lda x incX one y incY s = Ok s' /\ changes d s s' (in_vector y incY nn) /\
       forall l, 0 <= l < nn -> val d s' (elt y incY nn l) = add (val d s (elt y incY nn l))
         (mul alpha (zs nn (fun k => mul (symmetric d RowMajor up a lda m l k) (val d m (elt x incX nn k)))))).
  { intros nn x incX y incY s Hnn Hinc Cs Hy Hx.
    assert (Sub : forall p, in_vector y incY nn p -> block RowMajor c ldc rows cols p).
    { intros p (l & Hl & ->). destruct (Hy l Hl) as (q & Hq & ->). apply R. exists q. now split. }
    assert (Cs' : changes d m s (block RowMajor c ldc rows cols)) by (eapply (changes_iff d); [|exact Cs]; exact R).
    assert (L : length s = length m) by apply Cs.
    destruct (symv_ok d zero one add mul SR conj is_zero IZ RowMajor up nn alpha a lda x incX one y incY s) as (s' & E & C & V).
    - exact Hinc.
    - intros l Hl. destruct (Hy l Hl) as (q & [Hq1 Hq2] & ->). rewrite L. now apply (Hin (fst q) (snd q)).
    - intros l Hl. rewrite L. destruct (Hx l Hl) as [H1 H2]. split; [exact H1|]. intros Q. apply H2. now apply Sub.
    - apply (apart_length m s RowMajor up nn a lda _ L). apply (kept_apart_weaken m RowMajor up NonUnit nn a lda _ _ Sub). now rewrite Hnn.
    - exists s'. split; [exact E|]. split; [exact C|]. intros l Hl. rewrite V by exact Hl. f_equal; [ring|]. f_equal. apply zsum_ext. intros k Hk.
      rewrite (symmetric_same d RowMajor up nn a lda m s (block RowMajor c ldc rows cols) l k); [|now rewrite Hnn|exact Cs'|exact Hl|exact Hk].
      f_equal. destruct (Hx k Hk) as [H1 H2]. now apply Cs'. }
  destruct sd.
  - (* Left: the columns *)
    destruct (gain_repeat d zero one add mul SR (spot c ldc) (grid rows cols) m (fun j p => if snd p =? j then F (fst p) j else zero) cols
      (fun j m => symv zero add mul conj is_zero RowMajor up rows alpha a lda (b + j) ldb one (c + j) ldc m) m0 C0') as (m' & E & G).
    { intros j s Hj Cs. destruct (Line rows (b + j) ldb (c + j) ldc s) as (s' & E & C & V).
      - reflexivity.
      - lia.
      - exact Cs.
      - intros l Hl. exists (l, j). split; [split; assumption|]. rewrite elt_pos by lia. unfold spot. cbn [fst snd]. ring.
      - intros l Hl. rewrite elt_pos by lia. destruct (HB l j Hl Hj) as [H1 H2]. cbn [cell] in *. replace (b + j + l * ldb) with (b + l * ldb + j) by ring. now split.
      - exists s'. split; [exact E|]. assert (L : length s = length m) by apply Cs. split.
        + eapply (changes_weaken d); [|exact C]. intros p (l & Hl & ->). exists (l, j). split; [split; assumption|]. rewrite elt_pos by lia. unfold spot. cbn [fst snd]. ring.
        + intros p Hp. destruct (snd p =? j) eqn:Ej.
          * destruct Hp as [Hp1 Hp2]. specialize (V (fst p) Hp1). rewrite elt_pos in V by lia.
            replace (c + j + fst p * ldc) with (spot c ldc p) in V by (unfold spot; replace (snd p) with j by lia; ring).
            rewrite V. unfold F, applied, entry. cbn [cell]. do 2 f_equal. apply zsum_ext. intros k Hk. rewrite elt_pos by lia. do 2 f_equal. ring.
          * rewrite (add_0_r zero one add mul SR). apply C; [rewrite L; destruct Hp; now apply (Hin (fst p) (snd p))|].
            intros (l & Hl & El). rewrite elt_pos in El by lia.
            assert (E2 : p = (l, j)) by (apply Inj; [exact Hp|split; assumption|rewrite El; unfold spot; cbn [fst snd]; ring]).
            subst p. cbn [snd] in Ej. lia. }
    exists m'. split; [exact E|]. apply (Fin m0 m' C0'). eapply gain_ext; [|exact G]. intros p Hp. cbv beta.
    rewrite (zsum_pick zero one add mul SR cols (snd p) (fun j => F (fst p) j)). destruct Hp as [_ Hp]. now replace ((0 <=? snd p) && (snd p <? cols)) with true by lia.
  - (* Right: the rows *)
    destruct (gain_repeat d zero one add mul SR (spot c ldc) (grid rows cols) m (fun i p => if fst p =? i then F i (snd p) else zero) rows
      (fun i m => symv zero add mul conj is_zero RowMajor up cols alpha a lda (b + i * ldb) 1 one (c + i * ldc) 1 m) m0 C0') as (m' & E & G).
    { intros i s Hi Cs. destruct (Line cols (b + i * ldb) 1 (c + i * ldc) 1 s) as (s' & E & C & V).
      - reflexivity.
      - lia.
      - exact Cs.
      - intros l Hl. exists (i, l). split; [split; assumption|]. now rewrite elt_one.
      - intros l Hl. rewrite elt_one. exact (HB i l Hi Hl).
      - exists s'. split; [exact E|]. assert (L : length s = length m) by apply Cs. split.
        + eapply (changes_weaken d); [|exact C]. intros p (l & Hl & ->). exists (i, l). split; [split; assumption|]. now rewrite elt_one.
        + intros p Hp. destruct (fst p =? i) eqn:Ei.
          * destruct Hp as [Hp1 Hp2]. specialize (V (snd p) Hp2). rewrite elt_one in V.
            replace (c + i * ldc + snd p) with (spot c ldc p) in V by (unfold spot; replace (fst p) with i by lia; ring).
            rewrite V. unfold F, applied, entry. cbn [cell]. do 2 f_equal. apply zsum_ext. intros k Hk. rewrite elt_one, (symmetric_sym RowMajor up a lda m k). ring.
          * rewrite (add_0_r zero one add mul SR). apply C; [rewrite L; destruct Hp; now apply (Hin (fst p) (snd p))|].
            intros (l & Hl & El). rewrite elt_one in El.
            assert (E2 : p = (i, l)) by (apply Inj; [exact Hp|split; assumption|exact El]).
            subst p. cbn [fst] in Ei. lia. }
    exists m'. split; [exact E|]. apply (Fin m0 m' C0'). eapply gain_ext; [|exact G]. intros p Hp. cbv beta.
    rewrite (zsum_pick zero one add mul SR rows (fst p) (fun i => F i (snd p))). destruct Hp as [Hp _]. now replace ((0 <=? fst p) && (fst p <? rows)) with true by lia.
Qed.
Lemma symmetric_col up a lda (m : list A) i j : symmetric d ColMajor up a lda m i j = symmetric d RowMajor (other up) a lda m i j.
Proof using All.
  unfold symmetric. cbn [cell]. rewrite kept_other. destruct (Z.eq_dec i j) as [->|Hne]; [now destruct (kept up NonUnit j j)|].
  rewrite (kept_either up i j Hne). now destruct (kept up NonUnit i j).
Qed.
Lemma symm_ok o sd up rows cols alpha a lda b ldb beta c ldc (m : list A) : 0 <= rows -> 0 <= cols ->
  leading o rows cols ldc -> 0 <= ldb -> block_inside m o c ldc rows cols ->
  kept_apart m o up NonUnit (order_of sd rows cols) a lda (block o c ldc rows cols) ->
  block_apart m o b ldb rows cols (block o c ldc rows cols) ->
  exists m', symm zero one add mul conj is_zero o sd up rows cols alpha a lda b ldb beta c ldc m = Ok m' /\
    changes d m m' (block o c ldc rows cols) /\
    forall i j, 0 <= i < rows -> 0 <= j < cols -> entry d o c ldc m' i j =
      add (mul beta (entry d o c ldc m i j))
          (mul alpha (applied zero add mul sd rows cols (symmetric d o up a lda m) (entry d o b ldb m) i j)).
Proof using All.
  intros Hrows Hcols Hld Hldb Hin HA HB. unfold symm. destruct o; cbn [leading] in Hld.
  - apply symm_row_ok; [exact Hrows|lia|exact Hldb|exact Hin|exact HA|exact HB].
  - destruct (symm_row_ok (opposite sd) (other up) cols rows alpha a lda b ldb beta c ldc m) as (m' & E & C & V).
    + exact Hcols.
    + lia.
    + exact Hldb.
    + now apply block_inside_col.
    + intros i j Hi Hj K. rewrite order_col in Hi, Hj. rewrite kept_other in K. destruct (HA j i Hj Hi K) as [H1 H2]. split; [exact H1|].
      intros Q. apply H2. now apply block_col'.
    + intros i j Hi Hj. destruct (HB j i Hj Hi) as [H1 H2]. split; [exact H1|]. intros Q. apply H2. now apply block_col'.
    + exists m'. split; [exact E|]. split; [eapply (changes_iff d); [|exact C]; intros p; symmetry; apply block_col'|].
      intros i j Hi Hj. specialize (V j i Hj Hi). unfold entry in *. cbn [cell] in *. rewrite V. do 2 f_equal.
      unfold applied. destruct sd; cbn [opposite]; apply zsum_ext; intros k Hk; cbn [cell].
      * rewrite symmetric_col, (symmetric_sym RowMajor (other up) a lda m k). ring.
      * rewrite symmetric_col, (symmetric_sym RowMajor (other up) a lda m k). ring.
Qed.
End Level3.
