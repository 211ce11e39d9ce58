(** Proofs about band matrices: copies, sums, transposes and scaling. *)
From Coq Require Import ZArith Ring_theory Ring.
From Verif Require Import Base BaseProofs MatmulModel MatmulSpec BlasModel BlasSpec BlasProofs TriModel TriSpec TriProofs SymSpec PackSpec PackSym ExtModel ExtSpec ExtProofs ExtTri.
From Coq Require Import ZifyNat ZifyN ZifyBool.
Ltac Zify.zify_post_hook ::= idtac.
Local Open Scope Z_scope.

Lemma gband_inj kl ku b ldb i j i' j' : kl + ku + 1 <= ldb -> gband_kept kl ku i j = true -> gband_kept kl ku i' j' = true ->
  gband_cell RowMajor kl ku b ldb i j = gband_cell RowMajor kl ku b ldb i' j' -> i = i' /\ j = j'.
Proof.
  intros Hl K K' E. cbn [gband_cell] in E. unfold gband_kept in *. destruct (row_inj b ldb (kl + ku + 1) i (kl + j - i) i' (kl + j' - i')); lia.
Qed.
Lemma stored_band_flip t kl ku a lda i j : stored_band ColMajor t kl ku a lda i j = stored_band RowMajor t ku kl a lda j i.
Proof. unfold stored_band. now destruct (is_trans t). Qed.
(** the cell of the k-th element of diagonal e *)
Notation drow e k := (Z.max (- e) 0 + k).
Notation dcol e k := (Z.max e 0 + k).
Lemma on_diagonal rows cols e k : 0 <= k < diagonal rows cols e -> 0 <= drow e k < rows /\ 0 <= dcol e k < cols.
Proof. unfold diagonal. destruct (e <? 0) eqn:E; lia. Qed.
Lemma diagonal_all rows cols i j : 0 <= i < rows -> 0 <= j < cols -> 0 <= Z.min i j < diagonal rows cols (j - i) /\ drow (j - i) (Z.min i j) = i /\ dcol (j - i) (Z.min i j) = j.
Proof. unfold diagonal. intros Hi Hj. destruct (j - i <? 0) eqn:E; lia. Qed.
Lemma diag_diff e k : dcol e k - drow e k = e.
Proof. lia. Qed.
Section Band.
Context {A : Type} (d : A).
Variables (plain cj : @vop A) (h hc : A -> A -> A).
Hypothesis Hp : acts d plain h.
Hypothesis Hc : acts d cj hc.
(** the sizes are those of A, [kl] and [ku] the widths of op(A) *)
Lemma banded_row t rows cols kl ku a lda b ldb (m : list A) : 0 <= kl -> 0 <= ku -> 0 <= lda -> kl + ku + 1 <= ldb ->
  let '(r, c) := if is_trans t then (cols, rows) else (rows, cols) in
  held_inside (gband_kept kl ku) (gband_cell RowMajor kl ku b ldb) m r c ->
  source m (gband_kept kl ku) r c (stored_band RowMajor t kl ku a lda) (gband_cell RowMajor kl ku b ldb) ->
  exists m', banded plain cj t rows cols kl ku a lda b ldb m = Ok m' /\
    combined d (if is_conj t then hc else h) (gband_kept kl ku) r c (stored_band RowMajor t kl ku a lda) (gband_cell RowMajor kl ku b ldb) m m'.
Proof.
  intros Hkl Hku Hla Hlb. pose proof (mode_acts d plain cj h hc Hp Hc t) as Hf. unfold banded. set (f := if is_conj t then cj else plain) in *. set (g := if is_conj t then hc else h) in *.
  destruct (is_trans t) eqn:T; intros Hin Hs; cbv zeta.
  - apply (matrix_ok d (gband_kept kl ku) cols rows (stored_band RowMajor t kl ku a lda) (gband_cell RowMajor kl ku b ldb) m (kl + ku + 1) (fun l => diagonal rows cols (l - ku))
      (fun l => a + l + Z.max (- (l - ku)) 0 * lda) (fun l => b + (kl + ku - l) + Z.max (l - ku) 0 * ldb) lda ldb (fun l k => dcol (l - ku) k) (fun l k => drow (l - ku) k)) with (h := g); auto; try lia.
    + intros i j i' j' _ _ K _ _ K'. now apply gband_inj.
    + intros l k (H1 & H2). destruct (on_diagonal rows cols (l - ku) k H2). split; [auto|]. split; [auto|]. pose proof (diag_diff (l - ku) k). split; [unfold gband_kept; lia|cbn [gband_cell]; lia].
    + intros i j Hi Hj K. destruct (diagonal_all rows cols j i Hj Hi) as (H1 & H2 & H3). exists (i - j + ku), (Z.min j i). replace (i - j + ku - ku) with (i - j) by lia. unfold gband_kept in K. repeat split; try lia.
    + intros l k (H1 & H2). unfold stored_band. rewrite T. cbn [gband_cell]. lia.
  - apply (matrix_ok d (gband_kept kl ku) rows cols (stored_band RowMajor t kl ku a lda) (gband_cell RowMajor kl ku b ldb) m (kl + ku + 1) (fun l => diagonal rows cols (l - kl))
      (fun l => a + l + Z.max (- (l - kl)) 0 * lda) (fun l => b + l + Z.max (- (l - kl)) 0 * ldb) lda ldb (fun l k => drow (l - kl) k) (fun l k => dcol (l - kl) k)) with (h := g); auto; try lia.
    + intros i j i' j' _ _ K _ _ K'. now apply gband_inj.
    + intros l k (H1 & H2). destruct (on_diagonal rows cols (l - kl) k H2). split; [auto|]. split; [auto|]. pose proof (diag_diff (l - kl) k). split; [unfold gband_kept; lia|cbn [gband_cell]; lia].
    + intros i j Hi Hj K. destruct (diagonal_all rows cols i j Hi Hj) as (H1 & H2 & H3). exists (j - i + kl), (Z.min i j). replace (j - i + kl - kl) with (j - i) by lia. unfold gband_kept in K. repeat split; try lia.
    + intros l k (H1 & H2). unfold stored_band. rewrite T. cbn [gband_cell]. lia.
Qed.
Lemma banded_ok o t rows cols kl ku a lda b ldb (m : list A) : 0 <= kl -> 0 <= ku -> 0 <= lda -> kl + ku + 1 <= ldb ->
  let '(r, c) := if is_trans t then (cols, rows) else (rows, cols) in
  held_inside (gband_kept kl ku) (gband_cell o kl ku b ldb) m r c ->
  source m (gband_kept kl ku) r c (stored_band o t kl ku a lda) (gband_cell o kl ku b ldb) ->
  exists m', by_order o rows cols kl ku (fun r c kl ku => banded plain cj t r c kl ku a lda b ldb m) = Ok m' /\
    combined d (if is_conj t then hc else h) (gband_kept kl ku) r c (stored_band o t kl ku a lda) (gband_cell o kl ku b ldb) m m'.
Proof.
  intros Hkl Hku Hla Hlb. destruct o; cbn [by_order]; [now apply banded_row|].
  pose proof (banded_row t cols rows ku kl a lda b ldb m Hku Hkl Hla ltac:(lia)) as R.
  set (r := if is_trans t then cols else rows). set (c := if is_trans t then rows else cols).
  replace (if is_trans t then (rows, cols) else (cols, rows)) with (c, r) in R by (subst r c; now destruct (is_trans t)).
  replace (if is_trans t then (cols, rows) else (rows, cols)) with (r, c) by (subst r c; now destruct (is_trans t)).
  intros Hin Hs. destruct R as (m' & E & C).
  - intros i j Hi Hj K. rewrite gband_kept_flip in K. now apply (Hin j i).
  - intros i j Hi Hj K. rewrite gband_kept_flip in K. rewrite <- stored_band_flip. destruct (Hs j i Hj Hi K) as (H1 & H2). split; [exact H1|].
    intros (i' & j' & Hi' & Hj' & K' & E'). apply H2. rewrite gband_kept_flip in K'. exists j', i'. auto.
  - exists m'. split; [exact E|]. apply combined_swap. eapply combined_ext; [reflexivity| | |exact C].
    + intros i j _ _. apply gband_kept_flip.
    + intros i j _ _ _. now rewrite stored_band_flip.
Qed.
End Band.
Section Scal.
Context {A : Type} (d : A) (mul : A -> A -> A).
Lemma gbscal_row rows cols kl ku alpha a lda (m : list A) : 0 <= kl -> 0 <= ku -> kl + ku + 1 <= lda ->
  held_inside (gband_kept kl ku) (gband_cell RowMajor kl ku a lda) m rows cols ->
  exists m', gbscal mul RowMajor rows cols kl ku alpha a lda m = Ok m' /\
    combined d (fun _ v => mul v alpha) (gband_kept kl ku) rows cols (gband_cell RowMajor kl ku a lda) (gband_cell RowMajor kl ku a lda) m m'.
Proof.
  intros Hkl Hku Hl Hin. unfold gbscal. cbn [by_order]. cbv zeta.
  apply (matrix1_ok d (gband_kept kl ku) rows cols (gband_cell RowMajor kl ku a lda) (gband_cell RowMajor kl ku a lda) m (kl + ku + 1) (fun l => diagonal rows cols (l - kl))
    (fun l => l) (fun l => a + l + Z.max (- (l - kl)) 0 * lda) lda (fun l k => drow (l - kl) k) (fun l k => dcol (l - kl) k)) with (f := fun n y iy m => scal mul n alpha y iy m) (h := fun v => mul v alpha); auto; try lia.
  - intros i j i' j' _ _ K _ _ K'. now apply gband_inj.
  - intros l k (H1 & H2). destruct (on_diagonal rows cols (l - kl) k H2). split; [auto|]. split; [auto|]. pose proof (diag_diff (l - kl) k). split; [unfold gband_kept; lia|cbn [gband_cell]; lia].
  - intros i j Hi Hj K. destruct (diagonal_all rows cols i j Hi Hj) as (H1 & H2 & H3). exists (j - i + kl), (Z.min i j). replace (j - i + kl - kl) with (j - i) by lia. unfold gband_kept in K. repeat split; try lia.
  - apply scal_acts.
Qed.
Lemma gbscal_ok o rows cols kl ku alpha a lda (m : list A) : 0 <= kl -> 0 <= ku -> kl + ku + 1 <= lda ->
  held_inside (gband_kept kl ku) (gband_cell o kl ku a lda) m rows cols ->
  exists m', gbscal mul o rows cols kl ku alpha a lda m = Ok m' /\
    combined d (fun _ v => mul v alpha) (gband_kept kl ku) rows cols (gband_cell o kl ku a lda) (gband_cell o kl ku a lda) m m'.
Proof.
  intros Hkl Hku Hl Hin. destruct o; [now apply gbscal_row|].
  destruct (gbscal_row cols rows ku kl alpha a lda m) as (m' & E & C); try lia.
  - intros i j Hi Hj K. rewrite gband_kept_flip in K. now apply (Hin j i).
  - exists m'. split; [exact E|]. apply combined_swap. eapply combined_ext; [reflexivity| | |exact C].
    + intros i j _ _. apply gband_kept_flip.
    + intros i j _ _ _. now rewrite gband_cell_flip.
Qed.
End Scal.

Section Cotr.
Context {A : Type} (d : A) (conj : A -> A).
Notation at_ kl ku a lda := (gband_cell RowMajor kl ku a lda).
Lemma band_conj rows cols kl ku a lda (m : list A) : 0 <= kl -> 0 <= ku -> kl + ku + 1 <= lda -> held_inside (gband_kept kl ku) (at_ kl ku a lda) m rows cols ->
  exists m', TriModel.repeat (kl + ku + 1) (fun j m => let i := j - kl in TriModel.repeat (diagonal rows cols i) (fun k m => conj_at conj (a + j + Z.max (- i) 0 * lda + k * lda) m) m) m = Ok m' /\
    changes d m m' (held_cells (gband_kept kl ku) (at_ kl ku a lda) rows cols) /\
    forall i j, 0 <= i < rows -> 0 <= j < cols -> gband_kept kl ku i j = true -> val d m' (at_ kl ku a lda i j) = conj (val d m (at_ kl ku a lda i j)).
Proof.
  intros Hkl Hku Hl Hin. cbv zeta.
  assert (Q : forall l k, a + l + Z.max (- (l - kl)) 0 * lda + k * lda = at_ kl ku a lda (drow (l - kl) k) (dcol (l - kl) k)) by (intros; cbn [gband_cell]; lia).
  assert (K1 : forall l k, 0 <= l < kl + ku + 1 -> gband_kept kl ku (drow (l - kl) k) (dcol (l - kl) k) = true) by (intros; unfold gband_kept; lia).
  destruct (grid_ok d (kl + ku + 1) (fun l => diagonal rows cols (l - kl)) (fun l k (_ : unit) => at_ kl ku a lda (drow (l - kl) k) (dcol (l - kl) k))
    (fun l k _ => conj (val d m (at_ kl ku a lda (drow (l - kl) k) (dcol (l - kl) k)))) m (fun l k m => conj_at conj (a + l + Z.max (- (l - kl)) 0 * lda + k * lda) m)) as (m' & E & C & V).
  - intros l k _ (H1 & H2). destruct (on_diagonal _ _ _ _ H2). apply Hin; auto.
  - intros l k _ l' k' _ (H1 & H2) (H3 & H4) E. apply gband_inj in E; auto. lia.
  - intros l k s (H1 & H2) L Vs _. rewrite Q. destruct (on_diagonal _ _ _ _ H2).
    destruct (conj_at_ok d conj (at_ kl ku a lda (drow (l - kl) k) (dcol (l - kl) k)) s) as (s' & E & C & V1); [rewrite L; apply Hin; auto|].
    exists s'. split; [exact E|]. split; [|intros x; rewrite V1; f_equal; exact (Vs x)].
    eapply changes_weaken; [|exact C]. intros p ->. now exists tt.
  - exists m'. split; [exact E|]. split.
    + eapply changes_weaken; [|exact C]. intros p (l & k & _ & (H1 & H2) & ->). destruct (on_diagonal _ _ _ _ H2). exists (drow (l - kl) k), (dcol (l - kl) k). auto.
    + intros i j Hi Hj K. destruct (diagonal_all rows cols i j Hi Hj) as (H1 & H2 & H3). specialize (V (j - i + kl) (Z.min i j) tt). replace (j - i + kl - kl) with (j - i) in V by lia.
      rewrite H2, H3 in V. apply V. unfold gband_kept in K. lia.
Qed.
(** exchange of the entries across the diagonal, each changed by [f]; [last] more diagonals: the main one or none *)
Lemma band_cross (f : A -> A) (body : Z -> Z -> list A -> outcome (list A)) (last : Z) n k1 a lda (m : list A) : 0 <= k1 -> 2 * k1 + 1 <= lda ->
  held_inside (gband_kept k1 k1) (at_ k1 k1 a lda) m n n -> (last = 0 /\ (forall u, f u = u) \/ last = 1) ->
  (forall p q s, 0 <= p < Z.of_nat (length s) -> 0 <= q < Z.of_nat (length s) -> exists s', body p q s = Ok s' /\
    changes d s s' (fun r => r = p \/ r = q) /\ val d s' p = f (val d s q) /\ val d s' q = f (val d s p)) ->
  exists m', TriModel.repeat (k1 + last) (fun j m => let i := j - k1 in TriModel.repeat (diagonal n n i) (fun k m =>
      body (a + j + Z.max (- i) 0 * lda + k * lda) (a + (k1 + k1 - j) + Z.max i 0 * lda + k * lda) m) m) m = Ok m' /\
    changes d m m' (held_cells (gband_kept k1 k1) (at_ k1 k1 a lda) n n) /\
    forall i j, 0 <= i < n -> 0 <= j < n -> gband_kept k1 k1 i j = true -> val d m' (at_ k1 k1 a lda i j) = f (val d m (at_ k1 k1 a lda j i)).
Proof.
  intros Hk Hl Hin Hlast Hb. cbv zeta.
  assert (L01 : 0 <= last <= 1) by lia.
  assert (Q : forall l k, a + l + Z.max (- (l - k1)) 0 * lda + k * lda = at_ k1 k1 a lda (drow (l - k1) k) (dcol (l - k1) k)) by (intros; cbn [gband_cell]; lia).
  assert (Q' : forall l k, a + (k1 + k1 - l) + Z.max (l - k1) 0 * lda + k * lda = at_ k1 k1 a lda (dcol (l - k1) k) (drow (l - k1) k)) by (intros; cbn [gband_cell]; lia).
  assert (K1 : forall l k, 0 <= l < k1 + last -> gband_kept k1 k1 (drow (l - k1) k) (dcol (l - k1) k) = true) by (intros; unfold gband_kept; lia).
  assert (K2 : forall l k, 0 <= l < k1 + last -> gband_kept k1 k1 (dcol (l - k1) k) (drow (l - k1) k) = true) by (intros; unfold gband_kept; lia).
  destruct (grid_ok d (k1 + last) (fun l => diagonal n n (l - k1))
    (fun l k (x : bool) => if x then at_ k1 k1 a lda (drow (l - k1) k) (dcol (l - k1) k) else at_ k1 k1 a lda (dcol (l - k1) k) (drow (l - k1) k))
    (fun l k x => f (val d m (if x then at_ k1 k1 a lda (dcol (l - k1) k) (drow (l - k1) k) else at_ k1 k1 a lda (drow (l - k1) k) (dcol (l - k1) k)))) m
    (fun l k m => body (a + l + Z.max (- (l - k1)) 0 * lda + k * lda) (a + (k1 + k1 - l) + Z.max (l - k1) 0 * lda + k * lda) m)) as (m' & E & C & V).
  - intros l k x (H1 & H2). destruct (on_diagonal _ _ _ _ H2). destruct x; apply Hin; auto.
  - intros l k x l' k' x' (H1 & H2) (H3 & H4) E. destruct x, x'; apply gband_inj in E; auto; lia.
  - intros l k s (H1 & H2) L Vs _. rewrite Q, Q'. destruct (on_diagonal _ _ _ _ H2).
    destruct (Hb (at_ k1 k1 a lda (drow (l - k1) k) (dcol (l - k1) k)) (at_ k1 k1 a lda (dcol (l - k1) k) (drow (l - k1) k)) s) as (s' & E & C & V1 & V2); [rewrite L; apply Hin; auto..|].
    exists s'. split; [exact E|]. split.
    + eapply changes_weaken; [|exact C]. intros p [->| ->]; [now exists true|now exists false].
    + intros [|]; [rewrite V1; f_equal; apply (Vs false)|rewrite V2; f_equal; apply (Vs true)].
  - exists m'. split; [exact E|]. split.
    + eapply changes_weaken; [|exact C]. intros p (l & k & x & (H1 & H2) & ->). destruct (on_diagonal _ _ _ _ H2). destruct x; [exists (drow (l - k1) k), (dcol (l - k1) k)|exists (dcol (l - k1) k), (drow (l - k1) k)]; auto.
    + intros i j Hi Hj K. unfold gband_kept in K. destruct (Z.eq_dec last 0) as [L0|L0]; [destruct (Z.eq_dec i j) as [->|N]|].
      * destruct Hlast as [(_ & If)|]; [|lia]. rewrite If. destruct C as [_ C]. apply C; [apply Hin; auto; unfold gband_kept; lia|].
        intros (l & k & x & (H1 & H2) & E'). destruct x; apply gband_inj in E'; auto; (unfold gband_kept; lia).
      * destruct (Z_lt_ge_dec j i) as [Lt|Ge].
        -- destruct (diagonal_all n n i j Hi Hj) as (H1 & H2 & H3). specialize (V (j - i + k1) (Z.min i j) true). cbv iota in V. replace (j - i + k1 - k1) with (j - i) in V by lia. rewrite H2, H3 in V. apply V. lia.
        -- destruct (diagonal_all n n j i Hj Hi) as (H1 & H2 & H3). specialize (V (i - j + k1) (Z.min j i) false). cbv iota in V. replace (i - j + k1 - k1) with (i - j) in V by lia. rewrite H2, H3 in V. apply V. lia.
      * destruct (Z_le_gt_dec j i) as [Lt|Ge].
        -- destruct (diagonal_all n n i j Hi Hj) as (H1 & H2 & H3). specialize (V (j - i + k1) (Z.min i j) true). cbv iota in V. replace (j - i + k1 - k1) with (j - i) in V by lia. rewrite H2, H3 in V. apply V. lia.
        -- destruct (diagonal_all n n j i Hj Hi) as (H1 & H2 & H3). specialize (V (i - j + k1) (Z.min j i) false). cbv iota in V. replace (i - j + k1 - k1) with (i - j) in V by lia. rewrite H2, H3 in V. apply V. lia.
Qed.
Lemma gbcotr_row asserts t rows cols kl ku a lda (m : list A) : 0 <= kl -> 0 <= ku -> kl + ku + 1 <= lda -> (is_trans t = true -> rows = cols /\ kl = ku) ->
  held_inside (gband_kept kl ku) (at_ kl ku a lda) m rows cols ->
  exists m', gbcotr conj asserts RowMajor t rows cols kl ku a lda m = Ok m' /\ changes d m m' (held_cells (gband_kept kl ku) (at_ kl ku a lda) rows cols) /\
    forall i j, 0 <= i < rows -> 0 <= j < cols -> gband_kept kl ku i j = true -> val d m' (at_ kl ku a lda i j) = op conj t (fun i j => val d m (at_ kl ku a lda i j)) i j.
Proof.
  intros Hkl Hku Hl Hsq Hin. unfold gbcotr. cbn [by_order]. destruct t; cbn [op].
  - exists m. split; [reflexivity|]. split; [apply changes_refl|]. reflexivity.
  - apply band_conj; auto.
  - destruct (Hsq eq_refl) as (-> & ->). unfold assertion. rewrite !Z.eqb_refl. cbn [negb]. rewrite Bool.andb_false_r. cbn [bind].
    destruct (band_cross (fun u => u) exchange 0 cols ku a lda m) as (m' & E & C & V); auto; try lia; [intros p q s H1 H2; now apply exchange_ok|].
    rewrite Z.add_0_r in E. exists m'. auto.
  - destruct (Hsq eq_refl) as (-> & ->). unfold assertion. rewrite !Z.eqb_refl. cbn [negb]. rewrite Bool.andb_false_r. cbn [bind]. cbv zeta.
    destruct (band_cross conj (fun p q m => do tmp <- load m p; do v <- load m q; do m1 <- store m p (conj v); store m1 q (conj tmp)) 1 cols ku a lda m) as (m' & E & C & V); auto; try lia.
    + intros p q s H1 H2. apply (pair_ok d (fun u v => conj v) (fun u v => conj u)); auto. now intros ->.
    + exists m'. auto.
Qed.
Lemma gbcotr_ok asserts o t rows cols kl ku a lda (m : list A) : 0 <= kl -> 0 <= ku -> kl + ku + 1 <= lda -> (is_trans t = true -> rows = cols /\ kl = ku) ->
  held_inside (gband_kept kl ku) (gband_cell o kl ku a lda) m rows cols ->
  exists m', gbcotr conj asserts o t rows cols kl ku a lda m = Ok m' /\ changes d m m' (held_cells (gband_kept kl ku) (gband_cell o kl ku a lda) rows cols) /\
    forall i j, 0 <= i < rows -> 0 <= j < cols -> gband_kept kl ku i j = true -> val d m' (gband_cell o kl ku a lda i j) = op conj t (fun i j => val d m (gband_cell o kl ku a lda i j)) i j.
Proof.
  intros Hkl Hku Hl Hsq Hin. destruct o; [now apply gbcotr_row|].
  destruct (gbcotr_row asserts t cols rows ku kl a lda m) as (m' & E & C & V); try lia.
  - intros i j Hi Hj K. rewrite gband_kept_flip in K. now apply (Hin j i).
  - exists m'. split; [exact E|]. split.
    + eapply changes_weaken; [|exact C]. intros p (i & j & Hi & Hj & K & ->). rewrite gband_kept_flip in K. exists j, i. auto.
    + intros i j Hi Hj K. rewrite <- gband_kept_flip in K. specialize (V j i Hj Hi K). rewrite gband_cell_flip. rewrite V. now destruct t.
Qed.
End Cotr.
