(** Proofs about matrices transposed in place, and about triangular and trapezoidal matrices. *)
From Coq Require Import ZArith Ring_theory Ring.
From Verif Require Import Base BaseProofs MatmulModel MatmulSpec BlasModel BlasSpec BlasProofs TriModel TriSpec TriProofs SymSpec PackSpec ExtModel ExtSpec ExtProofs.
From Coq Require Import ZifyNat ZifyN ZifyBool.
Ltac Zify.zify_post_hook ::= idtac.
Local Open Scope Z_scope.

Section Cotr.
Context {A : Type} (d : A) (conj : A -> A).
Variables (a lda : Z).
Notation at_ i j := (a + i + lda * j).
Lemma at_inj n i j i' j' : n <= lda -> 0 <= i < n -> 0 <= i' < n -> at_ i j = at_ i' j' -> i = i' /\ j = j'.
Proof. intros Hl Hi Hi' E. destruct (row_inj a lda n j i j' i'); lia. Qed.
Lemma transpose_pass n (m : list A) : n <= lda -> (forall i j, 0 <= i < n -> 0 <= j < n -> 0 <= at_ i j < Z.of_nat (length m)) ->
  exists m', TriModel.repeat n (fun i m => TriModel.repeat i (fun j m => exchange (at_ i j) (at_ j i) m) m) m = Ok m' /\
    changes d m m' (fun p => exists i j, 0 <= i < n /\ 0 <= j < n /\ p = at_ i j) /\
    forall i j, 0 <= i < n -> 0 <= j < n -> val d m' (at_ i j) = val d m (at_ j i).
Proof.
  intros Hl Hin. destruct (grid_ok d n (fun l => l) (fun l k (x : bool) => if x then at_ l k else at_ k l)
    (fun l k x => val d m (if x then at_ k l else at_ l k)) m (fun i j m => exchange (at_ i j) (at_ j i) m)) as (m' & E & C & V).
  - intros l k x (H1 & H2). destruct x; apply Hin; lia.
  - intros l k x l' k' x' (H1 & H2) (H3 & H4) E. destruct x, x'; apply (at_inj n) in E; lia.
  - intros l k s (H1 & H2) L Vs _.
    destruct (exchange_ok d (at_ l k) (at_ k l) s) as (s' & E & C & V1 & V2); [rewrite L; apply Hin; lia..|].
    exists s'. split; [exact E|]. split.
    + eapply changes_weaken; [|exact C]. intros p [->| ->]; [now exists true|now exists false].
    + intros [|]; [rewrite V1; apply (Vs false)|rewrite V2; apply (Vs true)].
  - exists m'. split; [exact E|]. split.
    + eapply changes_weaken; [|exact C]. intros p (l & k & x & (H1 & H2) & ->). destruct x; [exists l, k|exists k, l]; repeat split; lia.
    + intros i j Hi Hj. destruct (Z.lt_trichotomy i j) as [Lt|[->|Gt]].
      * apply (V j i false). lia.
      * destruct C as [_ C]. apply C; [now apply Hin|]. intros (l & k & x & (H1 & H2) & E'). destruct x; apply (at_inj n) in E'; lia.
      * apply (V i j true). lia.
Qed.
Lemma conj_pass r c (m : list A) : r <= lda -> (forall i j, 0 <= i < r -> 0 <= j < c -> 0 <= at_ i j < Z.of_nat (length m)) ->
  exists m', TriModel.repeat c (fun j m => TriModel.repeat r (fun i m => conj_at conj (at_ i j) m) m) m = Ok m' /\
    changes d m m' (fun p => exists i j, 0 <= i < r /\ 0 <= j < c /\ p = at_ i j) /\
    forall i j, 0 <= i < r -> 0 <= j < c -> val d m' (at_ i j) = conj (val d m (at_ i j)).
Proof.
  intros Hl Hin. destruct (grid_ok d c (fun _ => r) (fun l k (x : unit) => at_ k l) (fun l k x => conj (val d m (at_ k l))) m (fun j i m => conj_at conj (at_ i j) m)) as (m' & E & C & V).
  - intros l k x (H1 & H2). now apply Hin.
  - intros l k x l' k' x' (H1 & H2) (H3 & H4) E. apply (at_inj r) in E; lia.
  - intros l k s (H1 & H2) L Vs _. destruct (conj_at_ok d conj (at_ k l) s) as (s' & E & C & V1); [rewrite L; now apply Hin|].
    exists s'. split; [exact E|]. split; [|intros x; rewrite V1; f_equal; now apply Vs].
    eapply changes_weaken; [|exact C]. intros p ->. now exists tt.
  - exists m'. split; [exact E|]. split; [|intros i j Hi Hj; apply (V j i tt); lia].
    eapply changes_weaken; [|exact C]. intros p (l & k & x & (H1 & H2) & ->). now exists k, l.
Qed.
Lemma cotr_col asserts t r c (m : list A) : 0 <= r -> r <= lda -> (is_trans t = true -> r = c) ->
  (forall i j, 0 <= i < r -> 0 <= j < c -> 0 <= at_ i j < Z.of_nat (length m)) ->
  exists m', (do m1 <- (if is_trans t then do _ <- assertion asserts (r =? c);
      TriModel.repeat c (fun i m => TriModel.repeat i (fun j m => exchange (a + i + lda * j) (a + j + lda * i) m) m) m else Ok m);
    if is_conj t then TriModel.repeat c (fun j m => TriModel.repeat r (fun i m => conj_at conj (a + i + lda * j) m) m) m1 else Ok m1) = Ok m' /\
    changes d m m' (fun p => exists i j, 0 <= i < r /\ 0 <= j < c /\ p = at_ i j) /\
    forall i j, 0 <= i < r -> 0 <= j < c -> val d m' (at_ i j) = op conj t (fun i j => val d m (at_ i j)) i j.
Proof.
  intros Hr Hl Hsq Hin.
  assert (P : exists m1, (if is_trans t then do _ <- assertion asserts (r =? c);
      TriModel.repeat c (fun i m => TriModel.repeat i (fun j m => exchange (a + i + lda * j) (a + j + lda * i) m) m) m else Ok m) = Ok m1 /\
      changes d m m1 (fun p => exists i j, 0 <= i < r /\ 0 <= j < c /\ p = at_ i j) /\
      forall i j, 0 <= i < r -> 0 <= j < c -> val d m1 (at_ i j) = if is_trans t then val d m (at_ j i) else val d m (at_ i j)).
  { destruct (is_trans t) eqn:T.
    - rewrite <- (Hsq eq_refl) in *. unfold assertion. rewrite Z.eqb_refl. cbn [negb]. rewrite Bool.andb_false_r. cbn [bind]. now apply transpose_pass.
    - exists m. split; [reflexivity|]. split; [apply changes_refl|]. reflexivity. }
  destruct P as (m1 & E1 & C1 & V1). rewrite E1. cbn [bind]. pose proof C1 as [L1 _]. destruct (is_conj t) eqn:Cj.
  - destruct (conj_pass r c m1 Hl) as (m2 & E2 & C2 & V2); [now rewrite L1|]. exists m2. split; [exact E2|]. split.
    + eapply changes_weaken; [|eapply changes_trans; [exact C1|exact C2]]. intros p [H|H]; exact H.
    + intros i j Hi Hj. rewrite V2, V1 by auto. destruct t; try discriminate; reflexivity.
  - exists m1. split; [reflexivity|]. split; [exact C1|]. intros i j Hi Hj. rewrite V1 by auto. destruct t; try discriminate; reflexivity.
Qed.
End Cotr.
Lemma gecotr_ok {A} (d : A) conj asserts o t rows cols a lda (m : list A) : 0 <= rows -> 0 <= cols -> leading o rows cols lda -> (is_trans t = true -> rows = cols) ->
  block_inside m o a lda rows cols ->
  exists m', gecotr conj asserts o t rows cols a lda m = Ok m' /\ changes d m m' (block o a lda rows cols) /\
    forall i j, 0 <= i < rows -> 0 <= j < cols -> entry d o a lda m' i j = op conj t (entry d o a lda m) i j.
Proof.
  intros Hr Hc Hl Hsq Hin. unfold gecotr. destruct o; cbn [leading] in *.
  - destruct (cotr_col d conj a lda asserts t cols rows m) as (m' & E & C & V); auto.
    + intros T. symmetry. auto.
    + intros i j Hi Hj. specialize (Hin j i Hj Hi). cbn [cell] in Hin. lia.
    + exists m'. split; [exact E|]. split.
      * eapply changes_weaken; [|exact C]. intros p (i & j & Hi & Hj & ->). exists j, i. cbn [cell]. repeat split; lia.
      * intros i j Hi Hj. specialize (V j i Hj Hi).
        assert (F : forall m x y, val d m (a + x + lda * y) = entry d RowMajor a lda m y x) by (clear; intros; unfold entry; cbn [cell]; f_equal; lia).
        rewrite F in V. rewrite V. destruct t; cbn [op]; now rewrite F.
  - destruct (cotr_col d conj a lda asserts t rows cols m) as (m' & E & C & V); auto.
    + intros i j Hi Hj. specialize (Hin i j Hi Hj). cbn [cell] in Hin. lia.
    + exists m'. split; [exact E|]. split.
      * eapply changes_weaken; [|exact C]. intros p (i & j & Hi & Hj & ->). exists i, j. cbn [cell]. repeat split; lia.
      * intros i j Hi Hj. specialize (V i j Hi Hj).
        assert (F : forall m x y, val d m (a + x + lda * y) = entry d ColMajor a lda m x y) by (clear; intros; unfold entry; cbn [cell]; f_equal; lia).
        rewrite F in V. rewrite V. destruct t; cbn [op]; now rewrite F.
Qed.

(** ** Trapezoidal matrices *)
Section Trap.
Context {A : Type} (d : A).
Variables (plain cj : @vop A) (h hc : A -> A -> A).
Hypothesis Hp : acts d plain h.
Hypothesis Hc : acts d cj hc.
Lemma col_inj b ldb rows held i j i' j' : rows <= ldb -> 0 <= i < rows -> held i j = true -> 0 <= i' < rows -> held i' j' = true ->
  cell ColMajor b ldb i j = cell ColMajor b ldb i' j' -> i = i' /\ j = j'.
Proof. intros Hl Hi _ Hi' _ E. cbn [cell] in E. destruct (row_inj b ldb rows j i j' i'); lia. Qed.
(** [held] is the upper (lower) trapezoid written by [trap] for the sizes r, c at the places [a0] and [b0] *)
Lemma trap_ok up t rows cols a lda b ldb (m : list A) : rows <= ldb -> (is_trans t = true -> 0 <= lda) ->
  held_inside (kept up NonUnit) (cell ColMajor b ldb) m rows cols ->
  source m (kept up NonUnit) rows cols (stored ColMajor t a lda) (cell ColMajor b ldb) ->
  exists m', trap plain cj up t rows cols a lda b ldb m = Ok m' /\
    combined d (if is_conj t then hc else h) (kept up NonUnit) rows cols (stored ColMajor t a lda) (cell ColMajor b ldb) m m'.
Proof.
  intros Hl Ht Hin Hs. pose proof (mode_acts d plain cj h hc Hp Hc t) as Hf. unfold trap. set (f := if is_conj t then cj else plain) in *. set (g := if is_conj t then hc else h) in *.
  assert (Hinj : forall i j i' j', 0 <= i < rows -> 0 <= j < cols -> kept up NonUnit i j = true -> 0 <= i' < rows -> 0 <= j' < cols -> kept up NonUnit i' j' = true ->
    cell ColMajor b ldb i j = cell ColMajor b ldb i' j' -> i = i' /\ j = j').
  { intros i j i' j' Hi Hj K Hi' Hj' K'. now apply (col_inj b ldb rows (kept up NonUnit)). }
  destruct up.
  - rewrite (repeat_ext cols _ (fun j m => f (Z.min (j + 1) rows) (if is_trans t then a + j else a + j * lda) (if is_trans t then lda else 1) (b + j * ldb) 1 m)) by (intros; now destruct (is_trans t)).
    apply (matrix_ok d (kept Upper NonUnit) rows cols (stored ColMajor t a lda) (cell ColMajor b ldb) m cols (fun j => Z.min (j + 1) rows)
      (fun j => if is_trans t then a + j else a + j * lda) (fun j => b + j * ldb) (if is_trans t then lda else 1) 1 (fun l k => k) (fun l k => l)) with (h := g); auto; try lia.
    + intros l k (H1 & H2). repeat split; try lia; [unfold kept; lia|cbn [cell]; lia].
    + intros i j Hi Hj K. exists j, i. unfold kept in K. lia.
    + destruct (is_trans t); [auto|lia].
    + intros l k _. unfold stored. destruct (is_trans t); cbn [cell]; lia.
  - apply (matrix_ok d (kept Lower NonUnit) rows cols (stored ColMajor t a lda) (cell ColMajor b ldb) m (Z.min rows cols) (fun j => rows - j)
      (fun j => a + j * (lda + 1)) (fun j => b + j * (ldb + 1)) (if is_trans t then lda else 1) 1 (fun l k => l + k) (fun l k => l)) with (h := g); auto; try lia.
    + intros l k (H1 & H2). repeat split; try lia; [unfold kept; lia|cbn [cell]; lia].
    + intros i j Hi Hj K. exists j, (i - j). unfold kept in K. lia.
    + destruct (is_trans t); [auto|lia].
    + intros l k _. unfold stored. destruct (is_trans t); cbn [cell]; lia.
Qed.
Lemma kept_turn up dg i j : kept (other up) dg i j = kept up dg j i.
Proof. apply kept_other. Qed.
(** either order *)
Definition turn_trap (o : order) (up : uplo) (t : trans) (rows cols a lda b ldb : Z) (m : list A) : outcome (list A) :=
  let '(up, r, c) := match o with RowMajor => (other up, cols, rows) | ColMajor => (up, rows, cols) end in trap plain cj up t r c a lda b ldb m.
Lemma turn_trap_ok o up t rows cols a lda b ldb (m : list A) : leading o rows cols ldb -> (is_trans t = true -> 0 <= lda) ->
  held_inside (kept up NonUnit) (cell o b ldb) m rows cols ->
  source m (kept up NonUnit) rows cols (stored o t a lda) (cell o b ldb) ->
  exists m', turn_trap o up t rows cols a lda b ldb m = Ok m' /\
    combined d (if is_conj t then hc else h) (kept up NonUnit) rows cols (stored o t a lda) (cell o b ldb) m m'.
Proof.
  intros Hl Ht Hin Hs. unfold turn_trap. destruct o; cbn [leading] in Hl; [|now apply trap_ok].
  destruct (trap_ok (other up) t cols rows a lda b ldb m Hl Ht) as (m' & E & C).
  - intros i j Hi Hj K. rewrite kept_turn in K. now apply (Hin j i).
  - intros i j Hi Hj K. rewrite kept_turn in K. rewrite stored_col. destruct (Hs j i Hj Hi K) as (H1 & H2). split; [exact H1|].
    intros (i' & j' & Hi' & Hj' & K' & E'). apply H2. rewrite kept_turn in K'. exists j', i'. auto.
  - exists m'. split; [exact E|]. apply combined_swap. eapply combined_ext; [reflexivity| | |exact C].
    + intros i j _ _. apply kept_turn.
    + intros i j _ _ _. now rewrite stored_col.
Qed.
End Trap.
Lemma traxpy_ok {A} (d : A) add mul conj asserts alpha o up t rows cols a lda b ldb (m : list A) : leading o rows cols ldb -> (is_trans t = true -> 0 <= lda) ->
  held_inside (kept up NonUnit) (cell o b ldb) m rows cols -> source m (kept up NonUnit) rows cols (stored o t a lda) (cell o b ldb) ->
  exists m', traxpy add mul conj asserts alpha o up t NonUnit rows cols a lda b ldb m = Ok m' /\
    combined d (fun u v => add v (mul alpha (by_mode conj t u))) (kept up NonUnit) rows cols (stored o t a lda) (cell o b ldb) m m'.
Proof.
  intros. destruct (turn_trap_ok d (axpy_op add mul alpha) (acxpy add mul conj alpha) _ _ (axpy_acts d add mul alpha) (acxpy_acts d add mul conj alpha) o up t rows cols a lda b ldb m) as (m' & E & C); auto.
  exists m'. split; [unfold traxpy, turn_trap in *; destruct o; exact E|]. eapply combined_ext; [|reflexivity|auto|exact C]. intros u v. unfold by_mode. now destruct (is_conj t).
Qed.
Lemma traxpby_ok {A} (d zero one : A) add mul conj is_zero asserts alpha beta o up t rows cols a lda b ldb (m : list A) :
  semi_ring_theory zero one add mul eq -> (forall v, is_zero v = true <-> v = zero) -> leading o rows cols ldb -> (is_trans t = true -> 0 <= lda) ->
  held_inside (kept up NonUnit) (cell o b ldb) m rows cols -> source m (kept up NonUnit) rows cols (stored o t a lda) (cell o b ldb) ->
  exists m', traxpby zero add mul conj is_zero asserts alpha beta o up t NonUnit rows cols a lda b ldb m = Ok m' /\
    combined d (fun u v => add (mul beta v) (mul alpha (by_mode conj t u))) (kept up NonUnit) rows cols (stored o t a lda) (cell o b ldb) m m'.
Proof.
  intros SR HZ Hl Ht Hin Hs. destruct (turn_trap_ok d (axpby zero add mul is_zero alpha beta) (acxpby zero add mul conj is_zero alpha beta) _ _ (axpby_acts d zero one add mul is_zero alpha beta SR HZ) (acxpby_acts d zero one add mul conj is_zero alpha beta SR HZ) o up t rows cols a lda b ldb m) as (m' & E & C); auto.
  exists m'. split; [unfold traxpby, turn_trap in *; destruct o; exact E|]. eapply combined_ext; [|reflexivity|auto|exact C]. intros u v. unfold by_mode. now destruct (is_conj t).
Qed.
Section Copy.
Context {A : Type} (d : A) (conj : A -> A).
Notation hold t := (fun u (_ : A) => by_mode conj t u).
Lemma copies t u v : (if is_conj t then (fun u (_ : A) => conj u) else (fun u _ => u)) u v = hold t u v.
Proof. unfold by_mode. now destruct (is_conj t). Qed.
Lemma trcopy_ok o up t rows cols a lda b ldb (m : list A) : leading o rows cols ldb -> (is_trans t = true -> 0 <= lda) ->
  held_inside (kept up NonUnit) (cell o b ldb) m rows cols -> source m (kept up NonUnit) rows cols (stored o t a lda) (cell o b ldb) ->
  exists m', trcopy conj o up t NonUnit rows cols a lda b ldb m = Ok m' /\
    combined d (hold t) (kept up NonUnit) rows cols (stored o t a lda) (cell o b ldb) m m'.
Proof.
  intros. destruct (turn_trap_ok d copy_op (ccopy conj) _ _ (copy_acts d) (ccopy_acts d conj) o up t rows cols a lda b ldb m) as (m' & E & C); auto.
  exists m'. split; [unfold trcopy, turn_trap in *; destruct o; exact E|]. eapply combined_ext; [|reflexivity|auto|exact C]. apply copies.
Qed.
(** the strict triangle is a triangle one line further *)
Lemma trcopy_unit_col up t rows cols a lda b ldb (m : list A) : rows <= ldb -> (is_trans t = true -> 0 <= lda) ->
  match up with Upper => cols <= rows | Lower => rows <= cols end ->
  held_inside (kept up Unit) (cell ColMajor b ldb) m rows cols -> source m (kept up Unit) rows cols (stored ColMajor t a lda) (cell ColMajor b ldb) ->
  exists m', trcopy conj ColMajor up t Unit rows cols a lda b ldb m = Ok m' /\
    combined d (hold t) (kept up Unit) rows cols (stored ColMajor t a lda) (cell ColMajor b ldb) m m'.
Proof.
  intros Hl Ht Hsz Hin Hs. unfold trcopy.
  set (i1 := match up with Upper => 0 | Lower => 1 end). set (j1 := 1 - i1).
  set (a' := match up with Upper => if is_trans t then a + 1 else a + lda | Lower => if is_trans t then a + lda else a + 1 end).
  set (b' := match up with Upper => b + ldb | Lower => b + 1 end).
  assert (Ed : forall i j, cell ColMajor b' ldb i j = cell ColMajor b ldb (i + i1) (j + j1)) by (subst i1 j1 b'; destruct up; intros; cbn [cell]; lia).
  assert (Es : forall i j, stored ColMajor t a' lda i j = stored ColMajor t a lda (i + i1) (j + j1)).
  { subst i1 j1 a'. unfold stored. destruct up, (is_trans t); intros; cbn [cell]; lia. }
  assert (Ek : forall i j, kept up NonUnit i j = kept up Unit (i + i1) (j + j1)) by (subst i1 j1; destruct up; intros; unfold kept; lia).
  assert (R : forall i j, 0 <= i < rows - 1 -> 0 <= j < cols - 1 -> 0 <= i + i1 < rows /\ 0 <= j + j1 < cols) by (subst i1 j1; destruct up; lia).
  assert (CI : forall p, held_cells (kept up NonUnit) (cell ColMajor b' ldb) (rows - 1) (cols - 1) p -> held_cells (kept up Unit) (cell ColMajor b ldb) rows cols p).
  { intros p (i & j & Hi & Hj & K & ->). destruct (R i j Hi Hj). exists (i + i1), (j + j1). rewrite <- Ek, <- Ed. auto. }
  destruct (trap_ok d copy_op (ccopy conj) _ _ (copy_acts d) (ccopy_acts d conj) up t (rows - 1) (cols - 1) a' lda b' ldb m) as (m' & E & C & V); auto.
  - lia.
  - intros i j Hi Hj K. destruct (R i j Hi Hj). rewrite Ek in K. rewrite Ed. now apply Hin.
  - intros i j Hi Hj K. destruct (R i j Hi Hj). rewrite Ek in K. rewrite Es. destruct (Hs (i + i1) (j + j1)) as (H1 & H2); auto.
  - exists m'. split; [subst a' b'; destruct up; exact E|]. split; [eapply changes_weaken; [apply CI|exact C]|].
    intros i j Hi Hj K. specialize (V (i - i1) (j - j1)). rewrite Ek, Ed, Es in V. replace (i - i1 + i1) with i in V by lia. replace (j - j1 + j1) with j in V by lia.
    rewrite V; auto; [apply copies|..]; subst i1 j1; destruct up; unfold kept in K; lia.
Qed.
Lemma trcopy_unit_ok o up t rows cols a lda b ldb (m : list A) : leading o rows cols ldb -> (is_trans t = true -> 0 <= lda) ->
  match up with Upper => cols <= rows | Lower => rows <= cols end ->
  held_inside (kept up Unit) (cell o b ldb) m rows cols -> source m (kept up Unit) rows cols (stored o t a lda) (cell o b ldb) ->
  exists m', trcopy conj o up t Unit rows cols a lda b ldb m = Ok m' /\
    combined d (hold t) (kept up Unit) rows cols (stored o t a lda) (cell o b ldb) m m'.
Proof.
  intros Hl Ht Hsz Hin Hs. destruct o; cbn [leading] in Hl; [|now apply trcopy_unit_col].
  destruct (trcopy_unit_col (other up) t cols rows a lda b ldb m Hl Ht) as (m' & E & C).
  - destruct up; exact Hsz.
  - intros i j Hi Hj K. rewrite kept_turn in K. now apply (Hin j i).
  - intros i j Hi Hj K. rewrite kept_turn in K. rewrite stored_col. destruct (Hs j i Hj Hi K) as (H1 & H2). split; [exact H1|].
    intros (i' & j' & Hi' & Hj' & K' & E'). apply H2. rewrite kept_turn in K'. exists j', i'. auto.
  - exists m'. split; [exact E|]. apply combined_swap. eapply combined_ext; [reflexivity| | |exact C].
    + intros i j _ _. apply kept_turn.
    + intros i j _ _ _. now rewrite stored_col.
Qed.
End Copy.
Section Trscal.
Context {A : Type} (d : A) (mul : A -> A -> A) (is_one : A -> bool).
Lemma trscal_row up rows cols alpha a lda (m : list A) : (is_one alpha = true -> forall v, mul v alpha = v) -> cols <= lda ->
  held_inside (kept up NonUnit) (cell RowMajor a lda) m rows cols ->
  exists m', trscal mul is_one RowMajor up rows cols alpha a lda m = Ok m' /\
    combined d (fun _ v => mul v alpha) (kept up NonUnit) rows cols (cell RowMajor a lda) (cell RowMajor a lda) m m'.
Proof.
  intros H1 Hl Hin. unfold trscal. destruct (is_one alpha).
  { exists m. split; [reflexivity|]. split; [apply changes_refl|]. intros i j _ _ _. now rewrite H1. }
  assert (Hinj : forall i j i' j', 0 <= i < rows -> 0 <= j < cols -> kept up NonUnit i j = true -> 0 <= i' < rows -> 0 <= j' < cols -> kept up NonUnit i' j' = true ->
    cell RowMajor a lda i j = cell RowMajor a lda i' j' -> i = i' /\ j = j').
  { intros i j i' j' Hi Hj _ Hi' Hj' _ E. cbn [cell] in E. apply (row_inj a lda cols); auto; lia. }
  destruct up.
  - apply (matrix1_ok d (kept Upper NonUnit) rows cols (cell RowMajor a lda) (cell RowMajor a lda) m (Z.min rows cols) (fun i => cols - i) (fun i => i) (fun i => a + i * (lda + 1)) 1 (fun l k => l) (fun l k => l + k)) with (f := fun n y iy m => scal mul n alpha y iy m) (h := fun v => mul v alpha); auto; try lia.
    + intros l k (G1 & G2). repeat split; try lia; [unfold kept; lia|cbn [cell]; lia].
    + intros i j Hi Hj K. exists i, (j - i). unfold kept in K. lia.
    + apply scal_acts.
  - apply (matrix1_ok d (kept Lower NonUnit) rows cols (cell RowMajor a lda) (cell RowMajor a lda) m rows (fun i => Z.min (i + 1) cols) (fun i => i) (fun i => a + i * lda) 1 (fun l k => l) (fun l k => k)) with (f := fun n y iy m => scal mul n alpha y iy m) (h := fun v => mul v alpha); auto; try lia.
    + intros l k (G1 & G2). repeat split; try lia; [unfold kept; lia|cbn [cell]; lia].
    + intros i j Hi Hj K. exists i, j. unfold kept in K. lia.
    + apply scal_acts.
Qed.
Lemma trscal_ok o up rows cols alpha a lda (m : list A) : (is_one alpha = true -> forall v, mul v alpha = v) -> leading o rows cols lda ->
  (o = ColMajor -> rows = cols) -> held_inside (kept up NonUnit) (cell o a lda) m rows cols ->
  exists m', trscal mul is_one o up rows cols alpha a lda m = Ok m' /\
    combined d (fun _ v => mul v alpha) (kept up NonUnit) rows cols (cell o a lda) (cell o a lda) m m'.
Proof.
  intros H1 Hl Hsq Hin. destruct o; [now apply trscal_row|]. cbn [leading] in Hl. pose proof (Hsq eq_refl). subst cols.
  destruct (trscal_row (other up) rows rows alpha a lda m H1 Hl) as (m' & E & C).
  - intros i j Hi Hj K. rewrite kept_turn in K. now apply (Hin j i).
  - exists m'. split; [exact E|]. apply combined_swap. eapply combined_ext; [reflexivity| | |exact C].
    + intros i j _ _. apply kept_turn.
    + auto.
Qed.
End Trscal.
