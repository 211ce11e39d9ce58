(** Proofs about the matrix routines of ExtModel. *)
From Coq Require Import ZArith Ring_theory Ring.
From Verif Require Import Base BaseProofs MatmulModel MatmulSpec BlasModel BlasSpec BlasProofs TriModel TriSpec TriProofs SymSpec PackSpec ExtModel ExtSpec.
From Coq Require Import ZifyNat ZifyN ZifyBool.
Ltac Zify.zify_post_hook ::= idtac.
Local Open Scope Z_scope.

(** ** Lines written one after the other *)
Section Lines.
Context {A : Type} (d : A).
Lemma lines {I : Type} (K : Z) (body : Z -> list A -> outcome (list A)) (on : Z -> I -> Prop) (q : Z -> I -> Z) (W : Z -> I -> A) (m : list A) :
  (forall l k, 0 <= l < K -> on l k -> 0 <= q l k < Z.of_nat (length m)) ->
  (forall l k l' k', 0 <= l < K -> 0 <= l' < K -> on l k -> on l' k' -> q l k = q l' k' -> l = l') ->
  (forall l s, 0 <= l < K -> changes d m s (fun p => exists l' k, 0 <= l' < l /\ on l' k /\ p = q l' k) ->
     exists s', body l s = Ok s' /\ changes d s s' (fun p => exists k, on l k /\ p = q l k) /\ forall k, on l k -> val d s' (q l k) = W l k) ->
  exists m', TriModel.repeat K body m = Ok m' /\ changes d m m' (fun p => exists l k, 0 <= l < K /\ on l k /\ p = q l k) /\
    forall l k, 0 <= l < K -> on l k -> val d m' (q l k) = W l k.
Proof.
  intros Hin Hdis Hb. destruct (Z_le_gt_dec K 0) as [N|N].
  { exists m. unfold TriModel.repeat, walk1. rewrite walk_nonpos by lia. split; [reflexivity|]. split; [apply changes_refl|]. intros; lia. }
  destruct (repeat_inv (fun n s => changes d m s (fun p => exists l' k, 0 <= l' < n /\ on l' k /\ p = q l' k) /\
      forall l k, 0 <= l < n -> on l k -> val d s (q l k) = W l k) K body m) as (m' & E & C & V).
  - split; [apply changes_refl|]. intros; lia.
  - intros n s Hn (C & V). destruct (Hb n s Hn C) as (s' & E & C' & V'). exists s'. split; [exact E|]. split.
    + eapply changes_weaken; [|eapply changes_trans; [exact C|exact C']].
      intros p [(l' & k & Hl & Hk & ->)|(k & Hk & ->)]; [exists l', k|exists n, k]; repeat split; auto; lia.
    + intros l k Hl Hk. destruct (Z.eq_dec l n) as [->|Ne]; [now apply V'|].
      destruct C as [L C], C' as [L' C']. rewrite C'; [apply V; auto; lia|rewrite L; apply Hin; auto; lia|].
      intros (k' & Hk' & Eq). apply Ne. apply (Hdis l k n k'); auto; lia.
  - lia.
  - exists m'. split; [exact E|]. split; [exact C|exact V].
Qed.

(** ** What a vector routine does *)
Definition acts (f : vop) (h : A -> A -> A) : Prop := forall n x ix y iy (m : list A),
  inside m x ix n -> inside m y iy n -> iy <> 0 \/ n <= 1 -> disjoint x ix y iy n ->
  exists m', f n x ix y iy m = Ok m' /\
    (forall i, 0 <= i < n -> val d m' (elt y iy n i) = h (val d m (elt x ix n i)) (val d m (elt y iy n i))) /\
    changes d m m' (in_vector y iy n).
Lemma disjoint_first x ix y iy n : disjoint x ix y iy n -> read_first x ix y iy n.
Proof. intros H i j Hi Hij Hj. apply H; lia. Qed.
Lemma copy_acts : acts copy_op (fun u v => u).
Proof. intros n x ix y iy m Hx Hy Hi Hd. apply copy_ok; auto using disjoint_first. Qed.
(** one store of a value computed from the two elements *)
Lemma one_store (h : A -> A -> A) n x ix y iy (m : list A) :
  inside m x ix n -> inside m y iy n -> iy <> 0 \/ n <= 1 -> disjoint x ix y iy n ->
  forall body, (forall iX iY m, 0 <= start x ix n + iX < Z.of_nat (length m) -> 0 <= start y iy n + iY < Z.of_nat (length m) ->
    body iX iY m = store m (start y iy n + iY) (h (val d m (start x ix n + iX)) (val d m (start y iy n + iY)))) ->
  exists m', walk n ix iy body m = Ok m' /\
    (forall i, 0 <= i < n -> val d m' (elt y iy n i) = h (val d m (elt x ix n i)) (val d m (elt y iy n i))) /\
    changes d m m' (in_vector y iy n).
Proof.
  intros Hx Hy Hi Hd body Hb. destruct (write_y d h body n x ix y iy m) as (m' & E & V & C); auto using disjoint_first.
  - intros iX iY s H1 H2. rewrite Hb by auto. destruct (store_ok d s (start y iy n + iY) (h (val d s (start x ix n + iX)) (val d s (start y iy n + iY))) H2) as (s' & E & L & V).
    exists s'. auto.
  - exists m'. auto.
Qed.

(** a routine with one vector *)
Definition acts1 (f : Z -> Z -> Z -> list A -> outcome (list A)) (h : A -> A) : Prop := forall n y iy (m : list A),
  inside m y iy n -> iy <> 0 \/ n <= 1 ->
  exists m', f n y iy m = Ok m' /\ (forall i, 0 <= i < n -> val d m' (elt y iy n i) = h (val d m (elt y iy n i))) /\
    changes d m m' (in_vector y iy n).
End Lines.

Section Acts.
Context {A : Type} (d : A).
Variables (zero one : A) (add mul div : A -> A -> A) (conj : A -> A) (is_zero is_one : A -> bool).
Local Ltac loads := intros; cbn beta; repeat (rewrite (load_ok d) by auto; cbn [bind]); reflexivity.
Lemma ccopy_acts : acts d (ccopy conj) (fun u v => conj u).
Proof. intros n x ix y iy m Hx Hy Hi Hd. unfold ccopy. apply (one_store d (fun u v => conj u)); auto. loads. Qed.
Lemma axpy_acts alpha : acts d (axpy_op add mul alpha) (fun u v => add v (mul alpha u)).
Proof. intros n x ix y iy m Hx Hy Hi Hd. apply axpy_ok; auto using disjoint_first. Qed.
Lemma acxpy_acts alpha : acts d (acxpy add mul conj alpha) (fun u v => add v (mul alpha (conj u))).
Proof. intros n x ix y iy m Hx Hy Hi Hd. unfold acxpy. apply (one_store d (fun u v => add v (mul alpha (conj u)))); auto. loads. Qed.
Lemma raxpy_acts alpha : acts d (raxpy add div alpha) (fun u v => add v (div u alpha)).
Proof. intros n x ix y iy m Hx Hy Hi Hd. unfold raxpy. apply (one_store d (fun u v => add v (div u alpha))); auto. loads. Qed.
Lemma racxpy_acts alpha : acts d (racxpy add div conj alpha) (fun u v => add v (div (conj u) alpha)).
Proof. intros n x ix y iy m Hx Hy Hi Hd. unfold racxpy. apply (one_store d (fun u v => add v (div (conj u) alpha))); auto. loads. Qed.
(** scal_init first *)
Lemma init_acts f (g : A -> A) beta : semi_ring_theory zero one add mul eq -> (forall v, is_zero v = true <-> v = zero) ->
  acts d f (fun u v => add v (g u)) ->
  acts d (fun n x ix y iy m => do m1 <- scal_init zero mul is_zero n beta y iy m; f n x ix y iy m1) (fun u v => add (mul beta v) (g u)).
Proof.
  intros SR HZ Hf n x ix y iy m Hx Hy Hi Hd.
  destruct (scal_init_ok d zero mul is_zero n beta y iy m Hy Hi) as (m1 & E1 & V1 & C1). rewrite E1. cbn [bind].
  pose proof C1 as [L1 C1']. destruct (Hf n x ix y iy m1) as (m2 & E2 & V2 & C2); auto.
  - intros i Hin. rewrite L1. now apply Hx.
  - intros i Hin. rewrite L1. now apply Hy.
  - exists m2. split; [exact E2|]. split.
    + intros i Hin. rewrite V2, V1 by auto. rewrite (C1' (elt x ix n i)); [|now apply Hx|intros (j & Hj & Ej); now apply (Hd j i Hj Hin)].
      f_equal. destruct (is_zero beta) eqn:Z0; [apply HZ in Z0 as ->; now rewrite (SRmul_0_l SR)|apply (SRmul_comm SR)].
    + eapply changes_weaken; [|eapply changes_trans; [exact C1|exact C2]]. intros p [H|H]; exact H.
Qed.
Lemma axpby_acts alpha beta : semi_ring_theory zero one add mul eq -> (forall v, is_zero v = true <-> v = zero) ->
  acts d (axpby zero add mul is_zero alpha beta) (fun u v => add (mul beta v) (mul alpha u)).
Proof. intros SR HZ. unfold axpby. apply (init_acts (axpy_op add mul alpha) (fun u => mul alpha u)); auto. apply axpy_acts. Qed.
Lemma acxpby_acts alpha beta : semi_ring_theory zero one add mul eq -> (forall v, is_zero v = true <-> v = zero) ->
  acts d (acxpby zero add mul conj is_zero alpha beta) (fun u v => add (mul beta v) (mul alpha (conj u))).
Proof. intros SR HZ. unfold acxpby. apply (init_acts (acxpy add mul conj alpha) (fun u => mul alpha (conj u))); auto. apply acxpy_acts. Qed.
Lemma scal_acts alpha : acts1 d (fun n y iy m => scal mul n alpha y iy m) (fun v => mul v alpha).
Proof. intros n y iy m Hy Hi. now apply scal_ok. Qed.
Lemma rscal_acts alpha : acts1 d (fun n y iy m => rscal div n alpha y iy m) (fun v => div v alpha).
Proof.
  intros n y iy m Hy Hi. unfold rscal. apply (write_x d (fun v => div v alpha)); auto. intros iX s H.
  rewrite (load_ok d) by auto. cbn [bind]. apply (store_ok d); auto.
Qed.
End Acts.

(** ** Whole matrices, given by the lines in which they are written *)
Lemma elt_pos x inc n i : 0 <= inc -> elt x inc n i = x + i * inc.
Proof. intros H. unfold elt. now replace (inc <? 0) with false by lia. Qed.
Section Matrix.
Context {A : Type} (d : A).
Variables (held : Z -> Z -> bool) (rows cols : Z) (src dst : Z -> Z -> Z) (m : list A).
Variables (K : Z) (len : Z -> Z) (X Y : Z -> Z) (sx sy : Z) (Ri Ci : Z -> Z -> Z).
Notation inside_lines l k := (0 <= l < K /\ 0 <= k < len l).
Hypothesis Hsy : 0 < sy.
Hypothesis Hin : held_inside held dst m rows cols.
Hypothesis Hinj : forall i j i' j', 0 <= i < rows -> 0 <= j < cols -> held i j = true -> 0 <= i' < rows -> 0 <= j' < cols -> held i' j' = true ->
  dst i j = dst i' j' -> i = i' /\ j = j'.
Hypothesis Hto : forall l k, inside_lines l k -> 0 <= Ri l k < rows /\ 0 <= Ci l k < cols /\ held (Ri l k) (Ci l k) = true /\ Y l + k * sy = dst (Ri l k) (Ci l k).
Hypothesis Hfrom : forall i j, 0 <= i < rows -> 0 <= j < cols -> held i j = true -> exists l k, inside_lines l k /\ Ri l k = i /\ Ci l k = j.
Hypothesis Hone : forall l k l' k', inside_lines l k -> inside_lines l' k' -> Ri l k = Ri l' k' -> Ci l k = Ci l' k' -> l = l'.

Lemma in_matrix l k : inside_lines l k -> held_cells held dst rows cols (Y l + k * sy).
Proof. intros H. destruct (Hto l k H) as (A1 & A2 & A3 & ->). exists (Ri l k), (Ci l k). auto. Qed.
(** the cells written before line l are in the matrix, and not in line l *)
Lemma before l s : 0 <= l < K -> changes d m s (fun p => exists l' k, 0 <= l' < l /\ 0 <= k < len l' /\ p = Y l' + k * sy) ->
  length s = length m /\
  (forall k, 0 <= k < len l -> val d s (Y l + k * sy) = val d m (Y l + k * sy)) /\
  forall p, 0 <= p < Z.of_nat (length m) -> ~ held_cells held dst rows cols p -> val d s p = val d m p.
Proof.
  intros Hl [L C]. split; [exact L|]. split.
  - intros k Hk. apply C.
    + destruct (Hto l k (Logic.conj Hl Hk)) as (A1 & A2 & A3 & ->). now apply Hin.
    + intros (l' & k' & Hl' & Hk' & E). assert (H1 : inside_lines l k) by lia. assert (H2 : inside_lines l' k') by lia.
      destruct (Hto l k H1) as (A1 & A2 & A3 & E1). destruct (Hto l' k' H2) as (B1 & B2 & B3 & E2). rewrite E1, E2 in E.
      apply Hinj in E; auto. pose proof (Hone l k l' k' H1 H2 (proj1 E) (proj2 E)). lia.
  - intros p Hp Hn. apply C; [exact Hp|]. intros (l' & k' & Hl' & Hk' & ->). apply Hn. apply in_matrix. lia.
Qed.
Lemma matrix_lines (body : Z -> list A -> outcome (list A)) (W : Z -> Z -> A) :
  (forall l s, 0 <= l < K -> changes d m s (fun p => exists l' k, 0 <= l' < l /\ 0 <= k < len l' /\ p = Y l' + k * sy) ->
     exists s', body l s = Ok s' /\ changes d s s' (fun p => exists k, 0 <= k < len l /\ p = Y l + k * sy) /\
       forall k, 0 <= k < len l -> val d s' (Y l + k * sy) = W (Ri l k) (Ci l k)) ->
  exists m', TriModel.repeat K body m = Ok m' /\ changes d m m' (held_cells held dst rows cols) /\
    forall i j, 0 <= i < rows -> 0 <= j < cols -> held i j = true -> val d m' (dst i j) = W i j.
Proof.
  intros Hb. destruct (lines d K body (fun l k => 0 <= k < len l) (fun l k => Y l + k * sy) (fun l k => W (Ri l k) (Ci l k)) m) as (m' & E & C & V).
  - intros l k Hl Hk. destruct (Hto l k (Logic.conj Hl Hk)) as (A1 & A2 & A3 & ->). now apply Hin.
  - intros l k l' k' Hl Hl' Hk Hk' E. destruct (Hto l k (Logic.conj Hl Hk)) as (A1 & A2 & A3 & E1). destruct (Hto l' k' (Logic.conj Hl' Hk')) as (B1 & B2 & B3 & E2).
    rewrite E1, E2 in E. apply Hinj in E; auto. apply (Hone l k l' k'); tauto.
  - exact Hb.
  - exists m'. split; [exact E|]. split.
    + eapply changes_weaken; [|exact C]. intros p (l & k & Hl & Hk & ->). apply in_matrix. auto.
    + intros i j Hi Hj Hh. destruct (Hfrom i j Hi Hj Hh) as (l & k & (Hl & Hk) & <- & <-).
      destruct (Hto l k (Logic.conj Hl Hk)) as (_ & _ & _ & <-). now apply V.
Qed.
Lemma matrix_ok f h : acts d f h -> 0 <= sx -> source m held rows cols src dst ->
  (forall l k, inside_lines l k -> X l + k * sx = src (Ri l k) (Ci l k)) ->
  exists m', TriModel.repeat K (fun l m => f (len l) (X l) sx (Y l) sy m) m = Ok m' /\ combined d h held rows cols src dst m m'.
Proof.
  intros Hf Hsx Hs Hx. apply (matrix_lines _ (fun i j => h (val d m (src i j)) (val d m (dst i j)))).
  intros l s Hl Cs. destruct (before l s Hl Cs) as (L & V & O).
  destruct (Hf (len l) (X l) sx (Y l) sy s) as (s' & E & V' & C').
  - intros k Hk. rewrite elt_pos, L by lia. rewrite Hx by auto. destruct (Hto l k (Logic.conj Hl Hk)) as (A1 & A2 & A3 & _). now apply Hs.
  - intros k Hk. rewrite elt_pos, L by lia. destruct (Hto l k (Logic.conj Hl Hk)) as (A1 & A2 & A3 & ->). now apply Hin.
  - lia.
  - intros k k' Hk Hk'. rewrite !elt_pos by lia. rewrite Hx by auto. destruct (Hto l k' (Logic.conj Hl Hk')) as (A1 & A2 & A3 & _).
    intros E. apply (Hs (Ri l k') (Ci l k') A1 A2 A3). rewrite <- E. apply in_matrix. auto.
  - exists s'. split; [exact E|]. split.
    + eapply changes_weaken; [|exact C']. intros p (k & Hk & ->). exists k. rewrite elt_pos by lia. auto.
    + intros k Hk. specialize (V' k Hk). rewrite !elt_pos in V' by lia. rewrite V', V, Hx by auto.
      destruct (Hto l k (Logic.conj Hl Hk)) as (A1 & A2 & A3 & ->). rewrite O by now apply Hs. reflexivity.
Qed.
Lemma matrix1_ok f h : acts1 d f h ->
  exists m', TriModel.repeat K (fun l m => f (len l) (Y l) sy m) m = Ok m' /\ combined d (fun _ v => h v) held rows cols dst dst m m'.
Proof.
  intros Hf. apply (matrix_lines _ (fun i j => h (val d m (dst i j)))).
  intros l s Hl Cs. destruct (before l s Hl Cs) as (L & V & O).
  destruct (Hf (len l) (Y l) sy s) as (s' & E & V' & C').
  - intros k Hk. rewrite elt_pos, L by lia. destruct (Hto l k (Logic.conj Hl Hk)) as (A1 & A2 & A3 & ->). now apply Hin.
  - lia.
  - exists s'. split; [exact E|]. split.
    + eapply changes_weaken; [|exact C']. intros p (k & Hk & ->). exists k. rewrite elt_pos by lia. auto.
    + intros k Hk. specialize (V' k Hk). rewrite !elt_pos in V' by lia. rewrite V', V by auto.
      destruct (Hto l k (Logic.conj Hl Hk)) as (_ & _ & _ & ->). reflexivity.
Qed.
End Matrix.

(** ** Rows and columns exchanged *)
Section Swap.
Context {A : Type} (d : A).
Lemma cells_swap held dst rows cols p : held_cells held dst rows cols p -> held_cells (fun i j => held j i) (fun i j => dst j i) cols rows p.
Proof. intros (i & j & Hi & Hj & Hh & ->). exists j, i. auto. Qed.
Lemma combined_swap h held rows cols src dst (m m' : list A) :
  combined d h (fun i j => held j i) cols rows (fun i j => src j i) (fun i j => dst j i) m m' -> combined d h held rows cols src dst m m'.
Proof.
  intros (C & V). split.
  - eapply changes_weaken; [|exact C]. intros p H. now apply cells_swap in H.
  - intros i j Hi Hj Hh. now apply (V j i).
Qed.
Lemma inside_swap held dst rows cols (m : list A) : held_inside held dst m rows cols -> held_inside (fun i j => held j i) (fun i j => dst j i) m cols rows.
Proof. intros H i j Hi Hj Hh. now apply H. Qed.
Lemma source_swap held src dst rows cols (m : list A) : source m held rows cols src dst ->
  source m (fun i j => held j i) cols rows (fun i j => src j i) (fun i j => dst j i).
Proof.
  intros H i j Hi Hj Hh. destruct (H j i Hj Hi Hh) as (H1 & H2). split; [exact H1|]. intros N. apply H2. now apply cells_swap in N.
Qed.
Lemma combined_ext h h' held held' rows cols src src' dst dst' (m m' : list A) :
  (forall u v, h u v = h' u v) -> (forall i j, 0 <= i < rows -> 0 <= j < cols -> held i j = held' i j) ->
  (forall i j, 0 <= i < rows -> 0 <= j < cols -> held i j = true -> src i j = src' i j /\ dst i j = dst' i j) ->
  combined d h held rows cols src dst m m' -> combined d h' held' rows cols src' dst' m m'.
Proof.
  intros Hh Hd Ha (C & V). split.
  - eapply changes_weaken; [|exact C]. intros p (i & j & Hi & Hj & Hij & ->). exists i, j. rewrite <- Hd by auto. repeat split; try lia; auto; apply Ha; auto.
  - intros i j Hi Hj Hij. rewrite <- Hd in Hij by auto. destruct (Ha i j Hi Hj Hij) as (<- & <-). rewrite <- Hh. now apply V.
Qed.
Lemma repeat_one (body : Z -> list A -> outcome (list A)) (m : list A) : TriModel.repeat 1 body m = body 0 m.
Proof. unfold TriModel.repeat, walk1, walk. change (Z.to_nat 1) with 1%nat. cbn [rounds]. now destruct (body 0 m). Qed.
Lemma repeat_ext K (f g : Z -> list A -> outcome (list A)) (m : list A) : (forall l m, f l m = g l m) -> TriModel.repeat K f m = TriModel.repeat K g m.
Proof.
  intros H. unfold TriModel.repeat, walk1, walk. generalize 0 at 1 4. generalize 0 at 1 3. revert m. induction (Z.to_nat K) as [|k IH]; intros m z w; cbn [rounds]; [reflexivity|].
  rewrite H. destruct (g w m); cbn [bind]; auto.
Qed.
End Swap.

(** ** General matrices *)
Section Dense.
Context {A : Type} (d : A).
Variables (plain cj : @vop A) (h hc : A -> A -> A).
Hypothesis Hp : acts d plain h.
Hypothesis Hc : acts d cj hc.
Lemma mode_acts t : acts d (if is_conj t then cj else plain) (if is_conj t then hc else h).
Proof. now destruct (is_conj t). Qed.
Lemma divmod c r k : 0 < c -> 0 <= k < r * c -> 0 <= k / c < r /\ 0 <= k mod c < c /\ k = c * (k / c) + k mod c.
Proof.
  intros Hc' Hk. pose proof (Z.mod_pos_bound k c Hc'). pose proof (Z.div_mod k c ltac:(lia)). split; [|split; lia]. split; [apply Z.div_pos; lia|].
  apply Z.div_lt_upper_bound; lia.
Qed.
Lemma row_inj b ldb c i j i' j' : 0 < c -> c <= ldb -> 0 <= j < c -> 0 <= j' < c -> b + i * ldb + j = b + i' * ldb + j' -> i = i' /\ j = j'.
Proof. intros H0 H1 H2 H3 E. destruct (Z.lt_trichotomy i i') as [N|[N|N]]; nia. Qed.
Lemma dense_row t r c a lda b ldb (m : list A) : 0 <= r -> 0 <= c -> c <= ldb -> (is_trans t = true -> r <= lda) ->
  held_inside all_held (cell RowMajor b ldb) m r c -> source m all_held r c (stored RowMajor t a lda) (cell RowMajor b ldb) ->
  exists m', (let f := if is_conj t then cj else plain in
    if is_trans t then TriModel.repeat r (fun i m => f c (a + i) lda (b + i * ldb) 1 m) m
    else if (lda =? c) && (ldb =? c) then f (r * c) a 1 b 1 m
    else TriModel.repeat r (fun i m => f c (a + i * lda) 1 (b + i * ldb) 1 m) m) = Ok m' /\
  combined d (if is_conj t then hc else h) all_held r c (stored RowMajor t a lda) (cell RowMajor b ldb) m m'.
Proof.
  intros Hr Hc0 Hl Ht Hin Hs. cbv zeta. pose proof (mode_acts t) as Hf. set (f := if is_conj t then cj else plain) in *. set (g := if is_conj t then hc else h) in *.
  assert (Hinj : forall i j i' j', 0 <= i < r -> 0 <= j < c -> all_held i j = true -> 0 <= i' < r -> 0 <= j' < c -> all_held i' j' = true ->
    cell RowMajor b ldb i j = cell RowMajor b ldb i' j' -> i = i' /\ j = j').
  { intros i j i' j' Hi Hj _ Hi' Hj' _ E. cbn [cell] in E. apply (row_inj b ldb c); auto; lia. }
  destruct (is_trans t) eqn:T.
  - destruct (Z_le_gt_dec r 0) as [R|R].
    { exists m. unfold TriModel.repeat, walk1. rewrite walk_nonpos by lia. split; [reflexivity|]. split; [apply changes_refl|]. intros; lia. }
    apply (matrix_ok d all_held r c (stored RowMajor t a lda) (cell RowMajor b ldb) m r (fun _ => c) (fun i => a + i) (fun i => b + i * ldb) lda 1 (fun l k => l) (fun l k => k)) with (h := g); auto; try lia.
    + intros l k (H1 & H2). repeat split; try lia. cbn [cell]. lia.
    + intros i j Hi Hj _. exists i, j. lia.
    + intros l k _. unfold stored. rewrite T. cbn [cell]. lia.
  - destruct (lda =? c) eqn:E1; cbn [andb]; [destruct (ldb =? c) eqn:E2|]; cbn [andb].
    + rewrite <- (repeat_one (fun _ m => f (r * c) a 1 b 1 m) m). destruct (Z_le_gt_dec c 0) as [C|C].
      { exists m. rewrite repeat_one. assert (c = 0) by lia. subst c. rewrite Z.mul_0_r.
        destruct (Hf 0 a 1 b 1 m) as (m' & E & V & (L & Ch)); try (intros ? ?; lia); [lia|]. rewrite E. split.
        - f_equal. apply (memory_eq d); [exact L|]. intros p Hpp. apply Ch; [exact Hpp|]. intros (i & Hi & _). lia.
        - split; [apply changes_refl|]. intros; lia. }
      apply (matrix_ok d all_held r c (stored RowMajor t a lda) (cell RowMajor b ldb) m 1 (fun _ => r * c) (fun i => a) (fun i => b) 1 1 (fun l k => k / c) (fun l k => k mod c)) with (h := g); auto; try lia.
      * intros l k (H1 & H2). destruct (divmod c r k ltac:(lia) H2) as (D1 & D2 & D3). repeat split; try lia. cbn [cell]. nia.
      * intros i j Hi Hj _. exists 0, (i * c + j). split; [split; [lia|nia]|]. split.
        -- symmetry. apply (Z.div_unique_pos _ _ _ j); lia.
        -- symmetry. apply (Z.mod_unique_pos _ _ i); lia.
      * intros l k (H1 & H2). unfold stored. rewrite T. destruct (divmod c r k ltac:(lia) H2) as (D1 & D2 & D3). cbn [cell]. nia.
    + apply (matrix_ok d all_held r c (stored RowMajor t a lda) (cell RowMajor b ldb) m r (fun _ => c) (fun i => a + i * lda) (fun i => b + i * ldb) 1 1 (fun l k => l) (fun l k => k)) with (h := g); auto; try lia.
      * intros l k (H1 & H2). repeat split; try lia. cbn [cell]. lia.
      * intros i j Hi Hj _. exists i, j. lia.
      * intros l k _. unfold stored. rewrite T. cbn [cell]. lia.
    + apply (matrix_ok d all_held r c (stored RowMajor t a lda) (cell RowMajor b ldb) m r (fun _ => c) (fun i => a + i * lda) (fun i => b + i * ldb) 1 1 (fun l k => l) (fun l k => k)) with (h := g); auto; try lia.
      * intros l k (H1 & H2). repeat split; try lia. cbn [cell]. lia.
      * intros i j Hi Hj _. exists i, j. lia.
      * intros l k _. unfold stored. rewrite T. cbn [cell]. lia.
Qed.
Lemma stored_col t a lda i j : stored ColMajor t a lda i j = stored RowMajor t a lda j i.
Proof. unfold stored. destruct (is_trans t); reflexivity. Qed.
(** the leading dimension of A, the matrix of which op(A) is rows x cols *)
Lemma dense_ok o t rows cols a lda b ldb (m : list A) : 0 <= rows -> 0 <= cols -> leading o rows cols ldb ->
  (is_trans t = true -> leading o cols rows lda) ->
  held_inside all_held (cell o b ldb) m rows cols -> source m all_held rows cols (stored o t a lda) (cell o b ldb) ->
  exists m', dense plain cj o t rows cols a lda b ldb m = Ok m' /\
    combined d (if is_conj t then hc else h) all_held rows cols (stored o t a lda) (cell o b ldb) m m'.
Proof.
  intros Hr Hc0 Hl Ht Hin Hs. unfold dense. destruct o; cbn [leading] in *.
  - now apply dense_row.
  - destruct (dense_row t cols rows a lda b ldb m) as (m' & E & C); auto.
    + apply inside_swap in Hin. exact Hin.
    + apply source_swap in Hs. intros i j Hi Hj Hh. rewrite <- stored_col. apply (Hs i j Hi Hj Hh).
    + exists m'. split; [exact E|]. apply combined_swap. eapply combined_ext; [reflexivity| | |exact C]; [reflexivity|].
      intros i j _ _ _. now rewrite stored_col.
Qed.
End Dense.

(** ** Cells written one after the other in a double loop *)
Section Grid.
Context {A : Type} (d : A) {I : Type}.
Variables (K : Z) (len : Z -> Z) (q : Z -> Z -> I -> Z) (W : Z -> Z -> I -> A) (m : list A) (body : Z -> Z -> list A -> outcome (list A)).
Notation inside_lines l k := (0 <= l < K /\ 0 <= k < len l).
Hypothesis Hin : forall l k x, inside_lines l k -> 0 <= q l k x < Z.of_nat (length m).
Hypothesis Hdis : forall l k x l' k' x', inside_lines l k -> inside_lines l' k' -> q l k x = q l' k' x' -> l = l' /\ k = k'.
Hypothesis Hb : forall l k s, inside_lines l k -> length s = length m -> (forall x, val d s (q l k x) = val d m (q l k x)) ->
  (forall p, 0 <= p < Z.of_nat (length m) -> (forall l' k' x, inside_lines l' k' -> p <> q l' k' x) -> val d s p = val d m p) ->
  exists s', body l k s = Ok s' /\ changes d s s' (fun p => exists x, p = q l k x) /\ forall x, val d s' (q l k x) = W l k x.
Lemma grid_ok : exists m', TriModel.repeat K (fun l m => TriModel.repeat (len l) (fun k m => body l k m) m) m = Ok m' /\
  changes d m m' (fun p => exists l k x, inside_lines l k /\ p = q l k x) /\
  forall l k x, inside_lines l k -> val d m' (q l k x) = W l k x.
Proof.
  destruct (lines d K (fun l m => TriModel.repeat (len l) (fun k m => body l k m) m) (fun l (kx : Z * I) => 0 <= fst kx < len l)
    (fun l kx => q l (fst kx) (snd kx)) (fun l kx => W l (fst kx) (snd kx)) m) as (m' & E & C & V).
  - intros l kx Hl Hk. now apply Hin.
  - intros l kx l' kx' Hl Hl' Hk Hk' E. apply (Hdis l (fst kx) (snd kx) l' (fst kx') (snd kx')); auto.
  - intros l s Hl [L C].
    destruct (lines d (len l) (fun k m => body l k m) (fun k (x : I) => True) (fun k x => q l k x) (fun k x => W l k x) s) as (s' & E & C' & V).
    + intros k x Hk _. rewrite L. now apply Hin.
    + intros k x k' x' Hk Hk' _ _ E. apply (Hdis l k x l k' x'); auto.
    + intros k t Hk [L' C']. destruct (Hb l k t) as (t' & E & Ct & Vt); auto.
      * congruence.
      * intros x. assert (P : 0 <= q l k x < Z.of_nat (length m)) by now apply Hin. rewrite C'; [|rewrite L; exact P|].
        -- apply C; [exact P|]. intros (l' & kx & Hl' & Hk' & E). assert (H : 0 <= l' < K) by lia.
           destruct (Hdis l k x l' (fst kx) (snd kx)) as [? _]; auto; lia.
        -- intros (k' & x' & Hk' & _ & E). assert (H : 0 <= k' < len l) by lia. destruct (Hdis l k x l k' x') as [_ ?]; auto; lia.
      * intros p Hp Hn. rewrite C'; [|rewrite L; exact Hp|].
        -- apply C; [exact Hp|]. intros (l' & kx & Hl' & Hk' & ->). apply (Hn l' (fst kx) (snd kx)); auto. split; [lia|exact Hk'].
        -- intros (k' & x' & Hk' & _ & ->). apply (Hn l k' x'); auto. split; [exact Hl|lia].
      * exists t'. split; [exact E|]. split; [|intros x _; apply Vt]. eapply changes_weaken; [|exact Ct]. intros p (x & ->). now exists x.
    + exists s'. split; [exact E|]. split.
      * eapply changes_weaken; [|exact C']. intros p (k & x & Hk & _ & ->). now exists (k, x).
      * intros kx Hk. now apply V.
  - exists m'. split; [exact E|]. split.
    + eapply changes_weaken; [|exact C]. intros p (l & kx & Hl & Hk & ->). exists l, (fst kx), (snd kx). auto.
    + intros l k x (Hl & Hk). apply (V l (k, x)); auto.
Qed.
End Grid.

(** ** The elementary steps *)
Section Steps.
Context {A : Type} (d : A).
Lemma set_ok p u (s : list A) : 0 <= p < Z.of_nat (length s) -> exists s', store s p u = Ok s' /\ changes d s s' (fun r => r = p) /\ val d s' p = u.
Proof.
  intros H. destruct (store_ok d s p u H) as (s' & E & L & V). exists s'. split; [exact E|]. split.
  - split; [exact L|]. intros r Hr N. rewrite V by exact Hr. now replace (r =? p) with false by lia.
  - rewrite V by exact H. now rewrite Z.eqb_refl.
Qed.
Lemma pair_ok (f g : A -> A -> A) p q (s : list A) : 0 <= p < Z.of_nat (length s) -> 0 <= q < Z.of_nat (length s) ->
  (p = q -> f (val d s p) (val d s q) = g (val d s p) (val d s q)) ->
  exists s', (do u <- load s p; do v <- load s q; do m1 <- store s p (f u v); store m1 q (g u v)) = Ok s' /\
    changes d s s' (fun r => r = p \/ r = q) /\ val d s' p = f (val d s p) (val d s q) /\ val d s' q = g (val d s p) (val d s q).
Proof.
  intros Hp Hq Hpq. rewrite (load_ok d s p), (load_ok d s q) by auto. cbn [bind].
  destruct (set_ok p (f (val d s p) (val d s q)) s Hp) as (s1 & E1 & [L1 C1] & V1). rewrite E1. cbn [bind].
  destruct (set_ok q (g (val d s p) (val d s q)) s1) as (s2 & E2 & [L2 C2] & V2); [now rewrite L1|].
  exists s2. split; [exact E2|]. split; [|split; [|exact V2]].
  - split; [congruence|]. intros r Hr N. rewrite C2 by (rewrite ?L1; tauto). apply C1; tauto.
  - destruct (Z.eq_dec p q) as [<-|N]; [now rewrite V2, Hpq|]. now rewrite C2 by (rewrite ?L1; auto).
Qed.
Lemma exchange_ok p q (s : list A) : 0 <= p < Z.of_nat (length s) -> 0 <= q < Z.of_nat (length s) ->
  exists s', exchange p q s = Ok s' /\ changes d s s' (fun r => r = p \/ r = q) /\ val d s' p = val d s q /\ val d s' q = val d s p.
Proof. intros Hp Hq. apply (pair_ok (fun u v => v) (fun u v => u)); auto. now intros ->. Qed.
Lemma conj_at_ok conj p (s : list A) : 0 <= p < Z.of_nat (length s) ->
  exists s', conj_at conj p s = Ok s' /\ changes d s s' (fun r => r = p) /\ val d s' p = conj (val d s p).
Proof. intros H. unfold conj_at. rewrite (load_ok d) by exact H. cbn [bind]. now apply set_ok. Qed.
End Steps.

(** ** One matrix divided by a number, exchanged with another, and transposed *)
Section Dense1.
Context {A : Type} (d : A).
Lemma gerscal_ok (div : A -> A -> A) o rows cols alpha a lda (m : list A) : 0 <= rows -> 0 <= cols -> leading o rows cols lda ->
  held_inside all_held (cell o a lda) m rows cols ->
  exists m', gerscal div o rows cols alpha a lda m = Ok m' /\ combined d (fun _ v => div v alpha) all_held rows cols (cell o a lda) (cell o a lda) m m'.
Proof.
  assert (R : forall r c, 0 <= r -> 0 <= c -> c <= lda -> held_inside all_held (cell RowMajor a lda) m r c ->
    exists m', (if lda =? c then rscal div (r * c) alpha a 1 m else TriModel.repeat r (fun i m => rscal div c alpha (a + i * lda) 1 m) m) = Ok m' /\
      combined d (fun _ v => div v alpha) all_held r c (cell RowMajor a lda) (cell RowMajor a lda) m m').
  { intros r c Hr Hc Hl Hin. pose proof (rscal_acts d div alpha) as Hf. cbv beta in Hf.
    assert (Hinj : forall i j i' j', 0 <= i < r -> 0 <= j < c -> all_held i j = true -> 0 <= i' < r -> 0 <= j' < c -> all_held i' j' = true ->
      cell RowMajor a lda i j = cell RowMajor a lda i' j' -> i = i' /\ j = j').
    { intros i j i' j' Hi Hj _ Hi' Hj' _ E. cbn [cell] in E. apply (row_inj a lda c); auto; lia. }
    destruct (lda =? c) eqn:E1.
    - destruct (Z_le_gt_dec c 0) as [C|C].
      { exists m. assert (c = 0) by lia. subst c. rewrite Z.mul_0_r. destruct (Hf 0 a 1 m) as (m' & E & V & (L & Ch)); try (intros ? ?; lia); [lia|]. rewrite E. split.
        - f_equal. apply (memory_eq d); [exact L|]. intros p Hpp. apply Ch; [exact Hpp|]. intros (i & Hi & _). lia.
        - split; [apply changes_refl|]. intros; lia. }
      rewrite <- (repeat_one (fun _ m => rscal div (r * c) alpha a 1 m) m).
      apply (matrix1_ok d all_held r c (cell RowMajor a lda) (cell RowMajor a lda) m 1 (fun _ => r * c) (fun i => a) (fun i => a) 1 (fun l k => k / c) (fun l k => k mod c)) with (h := fun v => div v alpha) (f := fun n y iy m => rscal div n alpha y iy m); auto; try lia.
      + intros l k (H1 & H2). destruct (divmod c r k ltac:(lia) H2) as (D1 & D2 & D3). repeat split; try lia. cbn [cell]. nia.
      + intros i j Hi Hj _. exists 0, (i * c + j). split; [split; [lia|nia]|]. split.
        * symmetry. apply (Z.div_unique_pos _ _ _ j); lia.
        * symmetry. apply (Z.mod_unique_pos _ _ i); lia.
    - apply (matrix1_ok d all_held r c (cell RowMajor a lda) (cell RowMajor a lda) m r (fun _ => c) (fun i => a) (fun i => a + i * lda) 1 (fun l k => l) (fun l k => k)) with (h := fun v => div v alpha) (f := fun n y iy m => rscal div n alpha y iy m); auto; try lia.
      + intros l k (H1 & H2). repeat split; try lia. cbn [cell]. lia.
      + intros i j Hi Hj _. exists i, j. lia. }
  intros Hr Hc Hl Hin. unfold gerscal. destruct o; cbn [leading] in Hl.
  - now apply R.
  - destruct (R cols rows) as (m' & E & C); auto.
    + apply inside_swap in Hin. exact Hin.
    + exists m'. split; [exact E|]. apply combined_swap. exact C.
Qed.

(** the lines of two matrices exchanged *)
Lemma swap_lines rows cols (atA atB : Z -> Z -> Z) (m : list A) K (len X Y : Z -> Z) sx sy (Ri Ci : Z -> Z -> Z) : 0 < sx -> 0 < sy ->
  held_inside all_held atA m rows cols -> held_inside all_held atB m rows cols ->
  (forall i j i' j', 0 <= i < rows -> 0 <= j < cols -> 0 <= i' < rows -> 0 <= j' < cols -> atA i j = atA i' j' -> i = i' /\ j = j') ->
  (forall i j i' j', 0 <= i < rows -> 0 <= j < cols -> 0 <= i' < rows -> 0 <= j' < cols -> atB i j = atB i' j' -> i = i' /\ j = j') ->
  (forall i j i' j', 0 <= i < rows -> 0 <= j < cols -> 0 <= i' < rows -> 0 <= j' < cols -> atA i j <> atB i' j') ->
  (forall l k, 0 <= l < K -> 0 <= k < len l -> 0 <= Ri l k < rows /\ 0 <= Ci l k < cols /\ X l + k * sx = atA (Ri l k) (Ci l k) /\ Y l + k * sy = atB (Ri l k) (Ci l k)) ->
  (forall i j, 0 <= i < rows -> 0 <= j < cols -> exists l k, 0 <= l < K /\ 0 <= k < len l /\ Ri l k = i /\ Ci l k = j) ->
  (forall l k l' k', 0 <= l < K -> 0 <= k < len l -> 0 <= l' < K -> 0 <= k' < len l' -> Ri l k = Ri l' k' -> Ci l k = Ci l' k' -> l = l') ->
  exists m', TriModel.repeat K (fun l m => swap (len l) (X l) sx (Y l) sy m) m = Ok m' /\
    changes d m m' (fun p => held_cells all_held atA rows cols p \/ held_cells all_held atB rows cols p) /\
    forall i j, 0 <= i < rows -> 0 <= j < cols -> val d m' (atA i j) = val d m (atB i j) /\ val d m' (atB i j) = val d m (atA i j).
Proof.
  intros Hsx Hsy HA HB IA IB AB Hto Hfrom Hone.
  set (q := fun l (kx : Z * bool) => if snd kx then X l + fst kx * sx else Y l + fst kx * sy).
  assert (Dis : forall l kx l' kx', 0 <= l < K -> 0 <= l' < K -> 0 <= fst kx < len l -> 0 <= fst kx' < len l' -> q l kx = q l' kx' -> l = l').
  { intros l [k x] l' [k' x'] Hl Hl' Hk Hk' E. cbn [fst snd] in *. unfold q in E. cbn [fst snd] in E.
    destruct (Hto l k Hl Hk) as (A1 & A2 & A3 & A4). destruct (Hto l' k' Hl' Hk') as (B1 & B2 & B3 & B4).
    destruct x, x'; rewrite ?A3, ?A4, ?B3, ?B4 in E.
    - apply IA in E; auto. apply (Hone l k l' k'); tauto.
    - now apply AB in E.
    - symmetry in E. now apply AB in E.
    - apply IB in E; auto. apply (Hone l k l' k'); tauto. }
  assert (In : forall l kx, 0 <= l < K -> 0 <= fst kx < len l -> 0 <= q l kx < Z.of_nat (length m)).
  { intros l [k x] Hl Hk. cbn [fst] in Hk. unfold q. cbn [fst snd]. destruct (Hto l k Hl Hk) as (A1 & A2 & A3 & A4).
    destruct x; rewrite ?A3, ?A4; [now apply HA|now apply HB]. }
  destruct (lines d K (fun l m => swap (len l) (X l) sx (Y l) sy m) (fun l (kx : Z * bool) => 0 <= fst kx < len l) q
    (fun l kx => val d m (q l (fst kx, negb (snd kx)))) m) as (m' & E & C & V).
  - exact In.
  - intros l kx l' kx' Hl Hl' Hk Hk'. now apply Dis.
  - intros l s Hl [L C].
    assert (Old : forall kx, 0 <= fst kx < len l -> val d s (q l kx) = val d m (q l kx)).
    { intros kx Hk. apply C; [now apply In|]. intros (l' & kx' & Hl' & Hk' & E). assert (H : 0 <= l' < K) by (clear - Hl Hl'; lia).
      pose proof (Dis l kx l' kx' Hl H Hk Hk' E) as El. clear - El Hl'. lia. }
    destruct (write_xy d (fun u v => v) (fun u v => u) (len l) (X l) sx (Y l) sy s) as (s' & E & V & C').
    + intros k Hk. rewrite elt_pos, L by lia. apply (In l (k, true)); auto.
    + intros k Hk. rewrite elt_pos, L by lia. apply (In l (k, false)); auto.
    + lia.
    + lia.
    + intros k k' Hk Hk'. rewrite !elt_pos by lia. destruct (Hto l k Hl Hk) as (A1 & A2 & A3 & A4). destruct (Hto l k' Hl Hk') as (B1 & B2 & B3 & B4).
      rewrite A4, B3. intros Eq. symmetry in Eq. revert Eq. now apply AB.
    + exists s'. split; [exact E|]. split.
      * eapply changes_weaken; [|exact C']. intros p [(k & Hk & ->)|(k & Hk & ->)]; [exists (k, true)|exists (k, false)]; unfold q; cbn [fst snd]; rewrite elt_pos by lia; auto.
      * intros [k x] Hk. cbn [fst snd] in *. destruct (V k Hk) as (V1 & V2). rewrite !elt_pos in V1, V2 by lia.
        destruct x; cbn [negb].
        -- unfold q at 1. cbn [fst snd]. rewrite V1. apply (Old (k, false)). exact Hk.
        -- unfold q at 1. cbn [fst snd]. rewrite V2. apply (Old (k, true)). exact Hk.
  - exists m'. split; [exact E|]. split.
    + eapply changes_weaken; [|exact C]. intros p (l & [k x] & Hl & Hk & ->). cbn [fst] in Hk. unfold q. cbn [fst snd].
      destruct (Hto l k Hl Hk) as (A1 & A2 & A3 & A4). destruct x; [left; rewrite A3|right; rewrite A4]; exists (Ri l k), (Ci l k); auto.
    + intros i j Hi Hj. destruct (Hfrom i j Hi Hj) as (l & k & Hl & Hk & <- & <-). destruct (Hto l k Hl Hk) as (A1 & A2 & A3 & A4).
      pose proof (V l (k, true) Hl Hk) as V1. pose proof (V l (k, false) Hl Hk) as V2. unfold q in V1, V2. cbn [fst snd negb] in V1, V2.
      now rewrite A3, A4 in V1, V2.
Qed.
Lemma cell_inj o a lda rows cols i j i' j' : leading o rows cols lda -> 0 <= i < rows -> 0 <= j < cols -> 0 <= i' < rows -> 0 <= j' < cols ->
  cell o a lda i j = cell o a lda i' j' -> i = i' /\ j = j'.
Proof.
  intros Hl Hi Hj Hi' Hj' E. destruct o; cbn [cell leading] in *.
  - apply (row_inj a lda cols); auto; lia.
  - destruct (row_inj a lda rows j i j' i'); auto; lia.
Qed.
Lemma geswap_ok oa ob rows cols a lda b ldb (m : list A) : 0 <= rows -> 0 <= cols -> leading oa rows cols lda -> leading ob rows cols ldb ->
  (oa = RowMajor -> ob = ColMajor -> rows = cols) ->
  held_inside all_held (cell oa a lda) m rows cols -> held_inside all_held (cell ob b ldb) m rows cols ->
  (forall p, held_cells all_held (cell oa a lda) rows cols p -> ~ held_cells all_held (cell ob b ldb) rows cols p) ->
  exists m', geswap oa ob rows cols a lda b ldb m = Ok m' /\
    changes d m m' (fun p => held_cells all_held (cell oa a lda) rows cols p \/ held_cells all_held (cell ob b ldb) rows cols p) /\
    forall i j, 0 <= i < rows -> 0 <= j < cols -> val d m' (cell oa a lda i j) = val d m (cell ob b ldb i j) /\ val d m' (cell ob b ldb i j) = val d m (cell oa a lda i j).
Proof.
  intros Hr Hc La Lb Hsq HA HB Dis.
  assert (AB : forall i j i' j', 0 <= i < rows -> 0 <= j < cols -> 0 <= i' < rows -> 0 <= j' < cols -> cell oa a lda i j <> cell ob b ldb i' j').
  { intros i j i' j' Hi Hj Hi' Hj' E. apply (Dis (cell oa a lda i j)); [exists i, j; auto|exists i', j'; auto]. }
  assert (IA : forall i j i' j', 0 <= i < rows -> 0 <= j < cols -> 0 <= i' < rows -> 0 <= j' < cols -> cell oa a lda i j = cell oa a lda i' j' -> i = i' /\ j = j').
  { intros. now apply (cell_inj oa a lda rows cols). }
  assert (IB : forall i j i' j', 0 <= i < rows -> 0 <= j < cols -> 0 <= i' < rows -> 0 <= j' < cols -> cell ob b ldb i j = cell ob b ldb i' j' -> i = i' /\ j = j').
  { intros. now apply (cell_inj ob b ldb rows cols). }
  assert (Empty : rows = 0 \/ cols = 0 -> exists m', Ok m = Ok m' /\
    changes d m m' (fun p => held_cells all_held (cell oa a lda) rows cols p \/ held_cells all_held (cell ob b ldb) rows cols p) /\
    forall i j, 0 <= i < rows -> 0 <= j < cols -> val d m' (cell oa a lda i j) = val d m (cell ob b ldb i j) /\ val d m' (cell ob b ldb i j) = val d m (cell oa a lda i j)).
  { intros Hz. exists m. split; [reflexivity|]. split; [apply changes_refl|]. intros; lia. }
  assert (Z0 : forall sx sy, swap 0 a sx b sy m = Ok m) by (intros; unfold swap; apply walk_nonpos; lia).
  destruct oa, ob; cbn [leading] in *; unfold geswap.
  - destruct ((cols =? lda) && (cols =? ldb)) eqn:E.
    + destruct (Z.eq_dec cols 0) as [->|Nz]; [rewrite Z.mul_0_r, Z0; auto|].
      rewrite <- (repeat_one (fun _ m => swap (rows * cols) a 1 b 1 m) m).
      apply (swap_lines rows cols (cell RowMajor a lda) (cell RowMajor b ldb) m 1 (fun _ => rows * cols) (fun _ => a) (fun _ => b) 1 1 (fun l k => k / cols) (fun l k => k mod cols)); auto; try lia.
      * intros l k Hl Hk. destruct (divmod cols rows k ltac:(lia) Hk) as (D1 & D2 & D3). repeat split; try lia; cbn [cell]; nia.
      * intros i j Hi Hj. exists 0, (i * cols + j). split; [lia|]. split; [nia|]. split; symmetry; [apply (Z.div_unique_pos _ _ _ j); lia|apply (Z.mod_unique_pos _ _ i); lia].
    + apply (swap_lines rows cols (cell RowMajor a lda) (cell RowMajor b ldb) m rows (fun _ => cols) (fun i => a + i * lda) (fun i => b + i * ldb) 1 1 (fun l k => l) (fun l k => k)); auto; try lia.
      * intros l k Hl Hk. repeat split; try lia; cbn [cell]; lia.
      * intros i j Hi Hj. exists i, j. lia.
  - rewrite <- (Hsq eq_refl eq_refl) in *. destruct (Z.eq_dec rows 0) as [->|Nz]; [unfold TriModel.repeat, walk1; rewrite walk_nonpos by lia; auto|].
    apply (swap_lines rows rows (cell RowMajor a lda) (cell ColMajor b ldb) m rows (fun _ => rows) (fun j => a + j) (fun j => b + j * ldb) lda 1 (fun l k => k) (fun l k => l)); auto; try lia.
    * intros l k Hl Hk. repeat split; try lia; cbn [cell]; lia.
    * intros i j Hi Hj. exists j, i. lia.
  - destruct (Z.eq_dec cols 0) as [->|Nz]; [unfold TriModel.repeat, walk1; rewrite walk_nonpos by lia; auto|].
    apply (swap_lines rows cols (cell ColMajor a lda) (cell RowMajor b ldb) m cols (fun _ => rows) (fun j => a + j * lda) (fun j => b + j) 1 ldb (fun l k => k) (fun l k => l)); auto; try lia.
    * intros l k Hl Hk. repeat split; try lia; cbn [cell]; lia.
    * intros i j Hi Hj. exists j, i. lia.
  - destruct ((rows =? lda) && (rows =? ldb)) eqn:E.
    + destruct (Z.eq_dec rows 0) as [->|Nz]; [rewrite Z.mul_0_l, Z0; auto|].
      rewrite <- (repeat_one (fun _ m => swap (rows * cols) a 1 b 1 m) m).
      apply (swap_lines rows cols (cell ColMajor a lda) (cell ColMajor b ldb) m 1 (fun _ => rows * cols) (fun _ => a) (fun _ => b) 1 1 (fun l k => k mod rows) (fun l k => k / rows)); auto; try lia.
      * intros l k Hl Hk. destruct (divmod rows cols k ltac:(lia) ltac:(lia)) as (D1 & D2 & D3). repeat split; try lia; cbn [cell]; nia.
      * intros i j Hi Hj. exists 0, (j * rows + i). split; [lia|]. split; [nia|]. split; symmetry; [apply (Z.mod_unique_pos _ _ j); lia|apply (Z.div_unique_pos _ _ _ i); lia].
    + apply (swap_lines rows cols (cell ColMajor a lda) (cell ColMajor b ldb) m cols (fun _ => rows) (fun i => a + i * lda) (fun i => b + i * ldb) 1 1 (fun l k => k) (fun l k => l)); auto; try lia.
      * intros l k Hl Hk. repeat split; try lia; cbn [cell]; lia.
      * intros i j Hi Hj. exists j, i. lia.
Qed.
End Dense1.
