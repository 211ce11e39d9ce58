(** C98: products with banded matrices, line after line. *)
From Coq Require Import ZArith Ring_theory Ring.
From Verif Require Import Base BaseProofs MatmulModel MatmulSpec BlasModel BlasSpec BlasProofs TriModel TriSpec TriProofs
  SymModel SymSpec SymProofs PackModel PackSpec PackLinear PackSolve PackTri PackProofs PackSym BndModel BndSpec.
From Coq Require Import ZifyNat ZifyN ZifyBool.
Ltac Zify.zify_post_hook ::= idtac.
Local Open Scope Z_scope.

(** Line [l] of a block: where it starts, and the distance of its elements. *)
Definition lbase (o : order) (sd : side) (b ld l : Z) : Z := match o, sd with RowMajor, Left | ColMajor, Right => b + l | _, _ => b + l * ld end.
Definition linc (o : order) (sd : side) (ld : Z) : Z := match o, sd with RowMajor, Left | ColMajor, Right => ld | _, _ => 1 end.
Definition lcell (o : order) (sd : side) (b ld l k : Z) : Z := match sd with Left => cell o b ld k l | Right => cell o b ld l k end.
Lemma elt_line o sd b ld l n k : 0 <= ld -> elt (lbase o sd b ld l) (linc o sd ld) n k = lcell o sd b ld l k.
Proof. intros H. destruct o, sd; unfold lbase, linc, lcell, cell; rewrite elt_pos by lia; lia. Qed.
Lemma line_in_block o sd b ld l n lines p : 0 <= ld -> 0 <= l < lines -> in_vector (lbase o sd b ld l) (linc o sd ld) n p ->
  block o b ld (lines_rows sd n lines) (lines_cols sd n lines) p.
Proof.
  intros H Hl (k & Hk & ->). rewrite elt_line by exact H. destruct sd; unfold lcell, lines_rows, lines_cols; [exists k, l|exists l, k]; auto.
Qed.
Lemma in_block_line o sd b ld n lines p : block o b ld (lines_rows sd n lines) (lines_cols sd n lines) p ->
  exists l k, 0 <= l < lines /\ 0 <= k < n /\ p = lcell o sd b ld l k.
Proof. destruct sd; unfold lcell, lines_rows, lines_cols; intros (i & j & Hi & Hj & ->); [exists j, i|exists i, j]; auto. Qed.
Lemma lcell_inj o sd b ld n lines l l' k k' : leading o (lines_rows sd n lines) (lines_cols sd n lines) ld -> 0 <= l < lines -> 0 <= l' < lines -> 0 <= k < n -> 0 <= k' < n ->
  lcell o sd b ld l k = lcell o sd b ld l' k' -> l = l' /\ k = k'.
Proof.
  intros L Hl Hl' Hk Hk' E. destruct o, sd; unfold leading, lines_rows, lines_cols, lcell in *; rewrite ?cell_col in E.
  all: first [apply (cell_inj b ld lines) in E; lia|apply (cell_inj b ld n) in E; lia].
Qed.
Lemma linc_pos o sd n lines ld : leading o (lines_rows sd n lines) (lines_cols sd n lines) ld -> 0 < lines -> 0 < n -> linc o sd ld <> 0.
Proof. intros L. destruct o, sd; unfold leading, lines_rows, lines_cols, linc in *; lia. Qed.
Lemma leading_pos o sd n lines ld : leading o (lines_rows sd n lines) (lines_cols sd n lines) ld -> 0 <= lines -> 0 <= n -> 0 <= ld.
Proof. intros L. destruct o, sd; unfold leading, lines_rows, lines_cols, linc in *; lia. Qed.

Section Lines.
Context {A : Type} (d : A).
Lemma lines_update (G : Z -> Z -> A) body o sd b ld n lines (m : list A) : 0 <= lines -> 0 <= n ->
  let cells := block o b ld (lines_rows sd n lines) (lines_cols sd n lines) in
  leading o (lines_rows sd n lines) (lines_cols sd n lines) ld -> block_inside m o b ld (lines_rows sd n lines) (lines_cols sd n lines) ->
  (forall l t, 0 <= l < lines -> changes d m t cells -> (forall k, 0 <= k < n -> val d t (lcell o sd b ld l k) = val d m (lcell o sd b ld l k)) ->
     exists t', body l t = Ok t' /\ changes d t t' (in_vector (lbase o sd b ld l) (linc o sd ld) n) /\
       forall k, 0 <= k < n -> val d t' (lcell o sd b ld l k) = G l k) ->
  exists m', TriModel.repeat lines body m = Ok m' /\ changes d m m' cells /\ forall l k, 0 <= l < lines -> 0 <= k < n -> val d m' (lcell o sd b ld l k) = G l k.
Proof.
  intros HL HN cells Hld Hin Hb. pose proof (leading_pos o sd n lines ld Hld HL HN) as Hp.
  assert (Hcell : forall l k, 0 <= l < lines -> 0 <= k < n -> 0 <= lcell o sd b ld l k < Z.of_nat (length m)).
  { intros l k Hl Hk. destruct sd; unfold lcell; apply Hin; unfold lines_rows, lines_cols; lia. }
  destruct (repeat_inv (fun q t => changes d m t cells /\ (forall l k, 0 <= l < q -> 0 <= k < n -> val d t (lcell o sd b ld l k) = G l k) /\
      (forall l k, q <= l < lines -> 0 <= k < n -> val d t (lcell o sd b ld l k) = val d m (lcell o sd b ld l k))) lines body m) as (m' & E & C & V & _); [| |exact HL|].
  - split; [apply changes_refl|]. split; [intros; lia|auto].
  - intros q t Hq (C & V & W). destruct (Hb q t Hq C) as (t' & E & C' & R); [intros k Hk; apply W; lia|]. exists t'. split; [exact E|].
    assert (L1 : length t = length m) by apply C.
    assert (Keep : forall l k, 0 <= l < lines -> 0 <= k < n -> l <> q -> val d t' (lcell o sd b ld l k) = val d t (lcell o sd b ld l k)).
    { intros l k Hl Hk Hne. apply (changes_val d t t' _ _ C'); [rewrite L1; now apply Hcell|].
      intros (k' & Hk' & E'). rewrite elt_line in E' by exact Hp. apply (lcell_inj o sd b ld n lines) in E'; auto. lia. }
    split; [|split].
    + apply (changes_weaken d m t' (fun p => cells p \/ in_vector (lbase o sd b ld q) (linc o sd ld) n p)).
      * intros p [H|H]; [exact H|]. now apply (line_in_block o sd b ld q n lines).
      * now apply changes_trans with t.
    + intros l k Hl Hk. destruct (Z.eq_dec l q) as [->|Hne]; [now apply R|]. rewrite Keep by lia. apply V; lia.
    + intros l k Hl Hk. rewrite Keep by lia. apply W; lia.
  - exists m'. split; [exact E|]. now split.
Qed.
Lemma held_now held at_ (m t : list A) r c (cells cells' : Z -> Prop) : held_apart held at_ m r c cells -> changes d m t cells ->
  (forall p, cells' p -> cells p) -> held_apart held at_ t r c cells'.
Proof. intros H (L & _) W i j Hi Hj K. destruct (H i j Hi Hj K). rewrite L. split; [auto|]. intros Q. now apply W in Q. Qed.
Lemma held_val held at_ (m t : list A) r c cells i j : held_apart held at_ m r c cells -> changes d m t cells ->
  0 <= i < r -> 0 <= j < c -> held i j = true -> val d t (at_ i j) = val d m (at_ i j).
Proof. intros H C Hi Hj K. destruct (H i j Hi Hj K). now apply (changes_val d m t cells). Qed.
End Lines.

Lemma flip_flip t : flip (flip t) = t. Proof. now destruct t. Qed.
Lemma is_trans_flip t : is_trans (flip t) = negb (is_trans t). Proof. now destruct t. Qed.
Definition turn (o : order) : order := match o with RowMajor => ColMajor | ColMajor => RowMajor end.
Lemma band_turn o up k a lda i j : band_cell (turn o) (other up) k a lda i j = band_cell o up k a lda j i.
Proof. destruct o, up; cbn; lia. Qed.
Lemma kept_turn up dg k i j : band_kept (other up) dg k i j = band_kept up dg k j i.
Proof. unfold band_kept, kept. destruct up, dg; cbn [other]; destruct (Z.eqb_spec i j), (Z.eqb_spec j i); destruct (Z.leb_spec (Z.abs (i - j)) k), (Z.leb_spec (Z.abs (j - i)) k); lia. Qed.

Lemma rounds_same {St} q (f g : Z -> Z -> St -> outcome St) : (forall i j t, f i j t = g i j t) -> forall a ia b ib s, rounds q a ia b ib f s = rounds q a ia b ib g s.
Proof. intros H. induction q as [|q IH]; intros a ia b ib s; cbn [rounds]; [reflexivity|]. rewrite H. destruct (g a b s) as [t|e|]; cbn [bind]; [apply IH|reflexivity|reflexivity]. Qed.
Lemma repeat_same {St} k (f g : Z -> St -> outcome St) s : (forall i t, f i t = g i t) -> TriModel.repeat k f s = TriModel.repeat k g s.
Proof. intros H. apply rounds_same. intros; apply H. Qed.

Section Products.
Context {A : Type} (d zero one : A) (add mul : A -> A -> A).
Hypothesis SR : semi_ring_theory zero one add mul eq.
Local Notation zs := (zsum zero add).
Lemma mul_comm u v : mul u v = mul v u. Proof. apply (SRmul_comm SR). Qed.

(** A line of C plus a multiple of a matrix applied to a line of B. *)
Lemma lines_product (mv : Z -> Z -> Z -> Z -> list A -> outcome (list A)) held at_ hr hc (T : list A -> Z -> Z -> A) (f : A -> A)
    o sd sB b ldb c ldc nx ny lines alpha beta (m : list A) :
  0 <= nx -> 0 <= ny -> 0 <= lines -> 0 <= ldb ->
  let cells := block o c ldc (lines_rows sd ny lines) (lines_cols sd ny lines) in
  leading o (lines_rows sd ny lines) (lines_cols sd ny lines) ldc -> block_inside m o c ldc (lines_rows sd ny lines) (lines_cols sd ny lines) ->
  block_apart m o b ldb (lines_rows sB nx lines) (lines_cols sB nx lines) cells ->
  held_apart held at_ m hr hc cells ->
  (forall t i j, changes d m t cells -> 0 <= i < ny -> 0 <= j < nx -> T t i j = T m i j) ->
  (forall x incX y incY (t : list A), incY <> 0 -> inside t y incY ny -> vector_apart t x incX nx (in_vector y incY ny) -> held_apart held at_ t hr hc (in_vector y incY ny) ->
     exists t', mv x incX y incY t = Ok t' /\ changes d t t' (in_vector y incY ny) /\
       forall i, 0 <= i < ny -> val d t' (elt y incY ny i) = add (mul beta (val d t (elt y incY ny i))) (mul alpha (zs nx (fun j => mul (T t i j) (f (val d t (elt x incX nx j))))))) ->
  exists m', TriModel.repeat lines (fun l t => mv (lbase o sB b ldb l) (linc o sB ldb) (lbase o sd c ldc l) (linc o sd ldc) t) m = Ok m' /\ changes d m m' cells /\
    forall l k, 0 <= l < lines -> 0 <= k < ny -> val d m' (lcell o sd c ldc l k) =
      add (mul beta (val d m (lcell o sd c ldc l k))) (mul alpha (zs nx (fun j => mul (T m k j) (f (val d m (lcell o sB b ldb l j)))))).
Proof.
  intros Hnx Hny HL Hldb cells Hld Hin Hb Ha HT Hmv. pose proof (leading_pos o sd ny lines ldc Hld HL Hny) as Hp.
  apply (lines_update d); auto. intros l t Hl C W. assert (LT : length t = length m) by apply C.
  assert (BL : forall j, 0 <= j < nx -> 0 <= lcell o sB b ldb l j < Z.of_nat (length m) /\ ~ cells (lcell o sB b ldb l j)).
  { intros j Hj. destruct sB; unfold lcell; apply Hb; unfold lines_rows, lines_cols; lia. }
  destruct (Z.eq_dec ny 0) as [->|Ny].
  { destruct (Hmv (lbase o sB b ldb l) (linc o sB ldb) (lbase o sd c ldc l) 1 t) as (t' & E & C' & V); [lia|intros i Hi; lia| | |].
    - intros j Hj. rewrite elt_line by exact Hldb. rewrite LT. split; [apply BL; auto|]. intros (i & Hi & _). lia.
    - intros i j Hi Hj K. rewrite LT. split; [now apply Ha|]. intros (q & Hq & _). lia.
    - assert (linc o sd ldc = 1 \/ linc o sd ldc <> 0 \/ linc o sd ldc = 0) as Hc by lia.
      destruct (Z.eq_dec (linc o sd ldc) 0) as [Z0|Z0].
      + exfalso. clear - Z0 Hld Hl. destruct o, sd; unfold leading, lines_rows, lines_cols, linc in *; lia.
      + destruct (Hmv (lbase o sB b ldb l) (linc o sB ldb) (lbase o sd c ldc l) (linc o sd ldc) t Z0) as (t2 & E2 & C2 & V2); [intros i Hi; lia| | |].
        * intros j Hj. rewrite elt_line by exact Hldb. rewrite LT. split; [apply BL; auto|]. intros (i & Hi & _). lia.
        * intros i j Hi Hj K. rewrite LT. split; [now apply Ha|]. intros (q & Hq & _). lia.
        * exists t2. split; [exact E2|]. split; [exact C2|]. intros; lia. }
  destruct (Hmv (lbase o sB b ldb l) (linc o sB ldb) (lbase o sd c ldc l) (linc o sd ldc) t) as (t' & E & C' & V).
  - apply (linc_pos o sd ny lines); auto; lia.
  - intros k Hk. rewrite elt_line by exact Hp. rewrite LT. destruct sd; unfold lcell; apply Hin; unfold lines_rows, lines_cols; lia.
  - intros j Hj. rewrite elt_line by exact Hldb. rewrite LT. split; [apply BL; auto|]. intros Q. apply (BL j Hj). now apply (line_in_block o sd c ldc l ny lines).
  - apply (held_now d held at_ m t hr hc cells); auto. intros p Q. now apply (line_in_block o sd c ldc l ny lines).
  - exists t'. split; [exact E|]. split; [exact C'|]. intros k Hk. pose proof (V k Hk) as V1. rewrite elt_line in V1 by exact Hp. rewrite V1, W by exact Hk.
    f_equal. f_equal. apply zsum_ext. intros j Hj. rewrite elt_line by exact Hldb. rewrite HT by auto. f_equal. f_equal.
    apply (changes_val d m t cells); auto; apply BL; auto.
Qed.

Variables (conj : A -> A) (is_zero : A -> bool).
Hypothesis IZ : forall v, is_zero v = true <-> v = zero.
(** ** gbmm *)
Lemma gbmm_lines_eq o sd tA tB m n kl ku l alpha a lda b ldb beta c ldc (s : list A) :
  gbmm zero add mul conj is_zero o sd tA tB m n kl ku l alpha a lda b ldb beta c ldc s =
  TriModel.repeat (gbmm_lines sd tB m n l) (fun i t => gbmv zero add mul conj is_zero o (match sd with Left => tA | Right => flip tA end) (is_conj tB)
    (gbmm_rows sd tB m n) (gbmm_cols sd n l) kl ku alpha a lda
    (lbase o (if is_trans tB then opposite sd else sd) b ldb i) (linc o (if is_trans tB then opposite sd else sd) ldb) beta (lbase o sd c ldc i) (linc o sd ldc) t) s.
Proof.
  assert (X : forall t cx r q k1 k2 x ix y iy (t' : list A), gbmv zero add mul conj is_zero RowMajor (flip t) cx r q k1 k2 alpha a lda x ix beta y iy t' =
    gbmv zero add mul conj is_zero ColMajor t cx q r k2 k1 alpha a lda x ix beta y iy t') by (intros; unfold gbmv; now rewrite orb_comm).
  unfold gbmm, gbmm_lines, gbmm_rows, gbmm_cols, lbase, linc. destruct o, sd; destruct (is_trans tB); cbn [opposite]; try reflexivity.
  all: apply repeat_same; intros; rewrite <- X; now rewrite ?flip_flip.
Qed.
Hypothesis CZ : conj zero = zero.
Hypothesis CA : forall u v, conj (add u v) = add (conj u) (conj v).
Hypothesis CM : forall u v, conj (mul u v) = mul (conj u) (conj v).
Lemma sparse_now held at_ (m t : list A) r c cells i j : held_apart held at_ m r c cells -> changes d m t cells -> 0 <= i < r -> 0 <= j < c ->
  sparse_of d zero held at_ t i j = sparse_of d zero held at_ m i j.
Proof. intros H C Hi Hj. unfold sparse_of. destruct (held i j) eqn:K; [|reflexivity]. now apply (held_val d held at_ m t r c cells). Qed.
Lemma op_now t r c (M M' : Z -> Z -> A) i j : (forall i j, 0 <= i < r -> 0 <= j < c -> M i j = M' i j) -> 0 <= i < op_rows t r c -> 0 <= j < op_cols t r c -> op conj t M i j = op conj t M' i j.
Proof. intros H. unfold op_rows, op_cols. destruct t; cbn [is_trans op]; intros Hi Hj; rewrite H by auto; reflexivity. Qed.
Lemma gbmm_ok o sd tA tB m n kl ku l alpha a lda b ldb beta c ldc (s : list A) :
  let r := gbmm_rows sd tB m n in let q := gbmm_cols sd n l in let lines := gbmm_lines sd tB m n l in
  let ny := match sd with Left => op_rows tA r q | Right => op_cols tA r q end in let nx := match sd with Left => op_cols tA r q | Right => op_rows tA r q end in
  let cells := block o c ldc (lines_rows sd ny lines) (lines_cols sd ny lines) in let sB := if is_trans tB then opposite sd else sd in
  0 < r -> 0 < q -> 0 <= lines -> 0 <= ldb ->
  leading o (lines_rows sd ny lines) (lines_cols sd ny lines) ldc -> block_inside s o c ldc (lines_rows sd ny lines) (lines_cols sd ny lines) ->
  block_apart s o b ldb (lines_rows sB nx lines) (lines_cols sB nx lines) cells ->
  held_apart (gband_kept kl ku) (gband_cell o kl ku a lda) s r q cells ->
  exists s', gbmm zero add mul conj is_zero o sd tA tB m n kl ku l alpha a lda b ldb beta c ldc s = Ok s' /\ changes d s s' cells /\
    forall i j, 0 <= i < lines_rows sd ny lines -> 0 <= j < lines_cols sd ny lines -> entry d o c ldc s' i j =
      add (mul beta (entry d o c ldc s i j))
          (mul alpha (applied zero add mul sd nx nx (op conj tA (sparse_of d zero (gband_kept kl ku) (gband_cell o kl ku a lda) s)) (op conj tB (entry d o b ldb s)) i j)).
Proof.
  intros r q lines ny nx cells sB Hr Hq HL Hldb Hld Hin Hb Ha. rewrite gbmm_lines_eq. fold r q lines sB.
  set (t := match sd with Left => tA | Right => flip tA end).
  assert (Ty : (if is_trans t then q else r) = ny) by (unfold t, ny, op_rows, op_cols; destruct sd, tA; reflexivity).
  assert (Tx : (if is_trans t then r else q) = nx) by (unfold t, nx, op_rows, op_cols; destruct sd, tA; reflexivity).
  assert (PR : op_rows t r q = ny /\ op_cols t r q = nx) by (unfold op_rows, op_cols; rewrite Ty, Tx; auto). destruct PR as (PR & PC).
  assert (Ny : 0 < ny) by (rewrite <- Ty; destruct (is_trans t); lia). assert (Nx : 0 < nx) by (rewrite <- Tx; destruct (is_trans t); lia).
  destruct (lines_product (fun x incX y incY t0 => gbmv zero add mul conj is_zero o t (is_conj tB) r q kl ku alpha a lda x incX beta y incY t0)
    (gband_kept kl ku) (gband_cell o kl ku a lda) r q (fun s => op conj t (sparse_of d zero (gband_kept kl ku) (gband_cell o kl ku a lda) s)) (fun v => if is_conj tB then conj v else v)
    o sd sB b ldb c ldc nx ny lines alpha beta s) as (s' & E & C & V); auto; try lia.
  - intros t0 i j C Hi Hj. apply (op_now t r q); [|rewrite PR; auto|rewrite PC; auto]. intros i' j' Hi' Hj'. now apply (sparse_now _ _ s t0 r q cells).
  - intros x incX y incY t0 Hinc Hy Hx Hh. pose proof (gbmv_ok d zero one add mul conj is_zero SR IZ CZ CA CM o t (is_conj tB) r q kl ku alpha a lda x incX beta y incY t0) as G. cbv zeta in G. rewrite Ty, Tx in G.
    destruct G as (t' & G1 & G2 & G3); auto; try lia. exists t'. split; [exact G1|]. split; [exact G2|]. intros i Hi. rewrite G3 by auto. reflexivity.
  - exists s'. split; [exact E|]. split; [exact C|]. intros i j Hi Hj.
    assert (OB : forall u w, op conj tB (entry d o b ldb s) u w = let v := val d s (if is_trans tB then cell o b ldb w u else cell o b ldb u w) in if is_conj tB then conj v else v) by (intros; destruct tB; reflexivity).
    destruct sd; unfold lines_rows, lines_cols, lcell, applied in *.
    + unfold entry at 1 2. rewrite (V j i) by auto. f_equal. f_equal. apply zsum_ext. intros k Hk. rewrite OB. unfold sB. destruct (is_trans tB); cbn [opposite lcell]; reflexivity.
    + unfold entry at 1 2. rewrite (V i j) by auto. f_equal. f_equal. apply zsum_ext. intros k Hk. rewrite OB. unfold t. rewrite op_flip. rewrite mul_comm. unfold sB. destruct (is_trans tB); cbn [opposite lcell]; reflexivity.
Qed.

Variable re : A -> A.
(** ** hbmm and sbmm *)
Lemma symmetric_now held at_ (m t : list A) n cells i j : held_apart held at_ m n n cells -> changes d m t cells -> 0 <= i < n -> 0 <= j < n ->
  symmetric_of d zero held at_ t i j = symmetric_of d zero held at_ m i j.
Proof.
  intros H C Hi Hj. unfold symmetric_of. destruct (held i j) eqn:K; [now apply (held_val d held at_ m t n n cells)|]. destruct (held j i) eqn:K2; [|reflexivity]. now apply (held_val d held at_ m t n n cells).
Qed.
Lemma hermitian_now held at_ (m t : list A) n cells i j : (forall i, held i i = true) -> held_apart held at_ m n n cells -> changes d m t cells -> 0 <= i < n -> 0 <= j < n ->
  hermitian_of d zero conj re held at_ t i j = hermitian_of d zero conj re held at_ m i j.
Proof.
  intros D H C Hi Hj. unfold hermitian_of. destruct (i =? j); [f_equal; now apply (held_val d held at_ m t n n cells)|].
  destruct (held i j) eqn:K; [now apply (held_val d held at_ m t n n cells)|]. destruct (held j i) eqn:K2; [|reflexivity]. f_equal. now apply (held_val d held at_ m t n n cells).
Qed.
Lemma turn_apart o up dg k a lda n (s : list A) cells : held_apart (band_kept up dg k) (band_cell o up k a lda) s n n cells ->
  held_apart (band_kept (other up) dg k) (band_cell (turn o) (other up) k a lda) s n n cells.
Proof. intros H i j Hi Hj K. rewrite band_turn. rewrite kept_turn in K. now apply H. Qed.
Lemma symmetric_turn o up k a lda (s : list A) i j :
  symmetric_of d zero (band_kept (other up) NonUnit k) (band_cell (turn o) (other up) k a lda) s i j = symmetric_of d zero (band_kept up NonUnit k) (band_cell o up k a lda) s j i.
Proof. unfold symmetric_of. now rewrite !kept_turn, !band_turn. Qed.
Lemma hermitian_turn o up k a lda (s : list A) i j :
  hermitian_of d zero conj re (band_kept (other up) NonUnit k) (band_cell (turn o) (other up) k a lda) s i j = hermitian_of d zero conj re (band_kept up NonUnit k) (band_cell o up k a lda) s j i.
Proof. unfold hermitian_of. rewrite !kept_turn, !band_turn. destruct (Z.eqb_spec i j) as [->|N]; [now rewrite Z.eqb_refl|]. now replace (j =? i) with false by lia. Qed.
Lemma diagonal_kept up k i : 0 <= k -> band_kept up NonUnit k i i = true.
Proof. intros. unfold band_kept, kept. destruct up; lia. Qed.

Section Half.
(** [mv] is sbmv or hbmv, [M] the matrix meant *)
Variables (mv : order -> uplo -> Z -> Z -> A -> Z -> Z -> Z -> Z -> A -> Z -> Z -> list A -> outcome (list A)) (M : order -> uplo -> Z -> Z -> Z -> list A -> Z -> Z -> A).
Hypothesis mv_ok : forall o up n k alpha a lda x incX beta y incY (m : list A), incY <> 0 -> 0 <= k -> inside m y incY n ->
  vector_apart m x incX n (in_vector y incY n) -> held_apart (band_kept up NonUnit k) (band_cell o up k a lda) m n n (in_vector y incY n) ->
  exists m', mv o up n k alpha a lda x incX beta y incY m = Ok m' /\ changes d m m' (in_vector y incY n) /\
    forall i, 0 <= i < n -> val d m' (elt y incY n i) = add (mul beta (val d m (elt y incY n i))) (mul alpha (zs n (fun j => mul (M o up k a lda m i j) (val d m (elt x incX n j))))).
Hypothesis M_now : forall o up k a lda (m t : list A) n cells i j, 0 <= k -> held_apart (band_kept up NonUnit k) (band_cell o up k a lda) m n n cells -> changes d m t cells -> 0 <= i < n -> 0 <= j < n ->
  M o up k a lda t i j = M o up k a lda m i j.
Hypothesis M_turn : forall o up k a lda (m : list A) i j, M (turn o) (other up) k a lda m i j = M o up k a lda m j i.
Definition half_mm (o : order) (sd : side) (up : uplo) (m k l : Z) (alpha : A) (a lda b ldb : Z) (beta : A) (c ldc : Z) (s : list A) : outcome (list A) :=
  match sd with
  | Left => TriModel.repeat l (fun i t => mv o up m k alpha a lda (lbase o sd b ldb i) (linc o sd ldb) beta (lbase o sd c ldc i) (linc o sd ldc) t) s
  | Right => TriModel.repeat m (fun i t => mv (turn o) (other up) l k alpha a lda (lbase o sd b ldb i) (linc o sd ldb) beta (lbase o sd c ldc i) (linc o sd ldc) t) s
  end.
Lemma half_mm_ok o sd up m k l alpha a lda b ldb beta c ldc (s : list A) : 0 <= m -> 0 <= l -> 0 <= k -> 0 <= ldb -> leading o m l ldc -> block_inside s o c ldc m l ->
  block_apart s o b ldb m l (block o c ldc m l) -> held_apart (band_kept up NonUnit k) (band_cell o up k a lda) s (order_of sd m l) (order_of sd m l) (block o c ldc m l) ->
  exists s', half_mm o sd up m k l alpha a lda b ldb beta c ldc s = Ok s' /\ changes d s s' (block o c ldc m l) /\
    forall i j, 0 <= i < m -> 0 <= j < l -> entry d o c ldc s' i j =
      add (mul beta (entry d o c ldc s i j)) (mul alpha (applied zero add mul sd m l (M o up k a lda s) (entry d o b ldb s) i j)).
Proof.
  intros Hm Hl Hk Hldb Hld Hin Hb Ha. unfold half_mm. destruct sd; cbn [order_of] in Ha.
  - destruct (lines_product (fun x incX y incY t => mv o up m k alpha a lda x incX beta y incY t) (band_kept up NonUnit k) (band_cell o up k a lda) m m (M o up k a lda) (fun v => v)
      o Left Left b ldb c ldc m m l alpha beta s) as (s' & E & C & V); auto.
    + intros t i j C Hi Hj. now apply (M_now o up k a lda s t m (block o c ldc m l)).
    + exists s'. split; [exact E|]. split; [exact C|]. intros i j Hi Hj. unfold entry. apply (V j i); auto.
  - destruct (lines_product (fun x incX y incY t => mv (turn o) (other up) l k alpha a lda x incX beta y incY t) (band_kept (other up) NonUnit k) (band_cell (turn o) (other up) k a lda) l l (M (turn o) (other up) k a lda) (fun v => v)
      o Right Right b ldb c ldc l l m alpha beta s) as (s' & E & C & V); auto.
    + now apply turn_apart.
    + intros t i j C Hi Hj. apply (M_now (turn o) (other up) k a lda s t l (block o c ldc m l)); auto. now apply turn_apart.
    + exists s'. split; [exact E|]. split; [exact C|]. intros i j Hi Hj. pose proof (V i j Hi Hj) as V1. cbn [lcell] in V1. unfold entry, applied. rewrite V1. f_equal. f_equal. apply zsum_ext. intros q Hq. rewrite M_turn. apply mul_comm.
Qed.
End Half.
Lemma sbmm_ok o sd up m k l alpha a lda b ldb beta c ldc (s : list A) : 0 <= m -> 0 <= l -> 0 <= k -> 0 <= ldb -> leading o m l ldc -> block_inside s o c ldc m l ->
  block_apart s o b ldb m l (block o c ldc m l) -> held_apart (band_kept up NonUnit k) (band_cell o up k a lda) s (order_of sd m l) (order_of sd m l) (block o c ldc m l) ->
  exists s', sbmm zero add mul conj is_zero o sd up m k l alpha a lda b ldb beta c ldc s = Ok s' /\ changes d s s' (block o c ldc m l) /\
    forall i j, 0 <= i < m -> 0 <= j < l -> entry d o c ldc s' i j =
      add (mul beta (entry d o c ldc s i j)) (mul alpha (applied zero add mul sd m l (symmetric_of d zero (band_kept up NonUnit k) (band_cell o up k a lda) s) (entry d o b ldb s) i j)).
Proof.
  intros. replace (sbmm zero add mul conj is_zero o sd up m k l alpha a lda b ldb beta c ldc s) with (half_mm (sbmv zero add mul conj is_zero) o sd up m k l alpha a lda b ldb beta c ldc s) by (destruct o, sd; reflexivity).
  apply (half_mm_ok _ (fun o up k a lda s => symmetric_of d zero (band_kept up NonUnit k) (band_cell o up k a lda) s)); auto.
  - intros. now apply (sbmv_ok d zero one add mul conj is_zero SR IZ).
  - intros. now apply (symmetric_now _ _ m0 t n cells).
  - intros. apply symmetric_turn.
Qed.
Lemma hbmm_ok o sd up m k l alpha a lda b ldb beta c ldc (s : list A) : 0 <= m -> 0 <= l -> 0 <= k -> 0 <= ldb -> leading o m l ldc -> block_inside s o c ldc m l ->
  block_apart s o b ldb m l (block o c ldc m l) -> held_apart (band_kept up NonUnit k) (band_cell o up k a lda) s (order_of sd m l) (order_of sd m l) (block o c ldc m l) ->
  exists s', hbmm zero add mul conj re is_zero o sd up m k l alpha a lda b ldb beta c ldc s = Ok s' /\ changes d s s' (block o c ldc m l) /\
    forall i j, 0 <= i < m -> 0 <= j < l -> entry d o c ldc s' i j =
      add (mul beta (entry d o c ldc s i j)) (mul alpha (applied zero add mul sd m l (hermitian_of d zero conj re (band_kept up NonUnit k) (band_cell o up k a lda) s) (entry d o b ldb s) i j)).
Proof.
  intros. replace (hbmm zero add mul conj re is_zero o sd up m k l alpha a lda b ldb beta c ldc s) with (half_mm (hbmv zero add mul conj re is_zero) o sd up m k l alpha a lda b ldb beta c ldc s) by (destruct o, sd; reflexivity).
  apply (half_mm_ok _ (fun o up k a lda s => hermitian_of d zero conj re (band_kept up NonUnit k) (band_cell o up k a lda) s)); auto.
  - intros. now apply (hbmv_ok d zero one add mul conj re is_zero SR IZ).
  - intros. apply (hermitian_now _ _ m0 t n cells); auto. intros; now apply diagonal_kept.
  - intros. apply hermitian_turn.
Qed.
End Products.

(** ** tbmm *)
Section Triangular.
Context {A : Type} (d zero one : A) (add mul : A -> A -> A) (conj : A -> A).
Hypothesis SR : semi_ring_theory zero one add mul eq.
Hypothesis CJ : conjugate zero one conj.
Lemma tbmm_lines_eq o sd up tA dg m n k alpha a lda b ldb (s : list A) :
  tbmm zero add mul conj o sd up tA dg m n k alpha a lda b ldb s =
  TriModel.repeat (order_of (opposite sd) m n) (fun i t =>
    do t1 <- tbmv zero add mul conj o up (match sd with Left => tA | Right => flip tA end) dg (order_of sd m n) k a lda (lbase o sd b ldb i) (linc o sd ldb) t;
    scal mul (order_of sd m n) alpha (lbase o sd b ldb i) ldb t1) s.
Proof. destruct o, sd; reflexivity. Qed.
Lemma triangular_now held at_ (m t : list A) n cells i j : held_apart held at_ m n n cells -> changes d m t cells -> 0 <= i < n -> 0 <= j < n ->
  triangular_of d zero one held at_ t i j = triangular_of d zero one held at_ m i j.
Proof. intros H C Hi Hj. unfold triangular_of. destruct (held i j) eqn:K; [|reflexivity]. now apply (held_val d held at_ m t n n cells). Qed.
Lemma tbmm_ok o sd up tA dg m n k alpha a lda b ldb (s : list A) : 0 <= m -> 0 <= n -> 0 <= k -> leading o m n ldb -> scales_line o sd m n ldb -> block_inside s o b ldb m n ->
  held_apart (band_kept up dg k) (band_cell o up k a lda) s (order_of sd m n) (order_of sd m n) (block o b ldb m n) ->
  exists s', tbmm zero add mul conj o sd up tA dg m n k alpha a lda b ldb s = Ok s' /\ changes d s s' (block o b ldb m n) /\
    forall i j, 0 <= i < m -> 0 <= j < n -> entry d o b ldb s' i j =
      mul (applied zero add mul sd m n (op conj tA (triangular_of d zero one (band_kept up dg k) (band_cell o up k a lda) s)) (entry d o b ldb s) i j) alpha.
Proof.
  intros Hm Hn Hk Hld Hsc Hin Ha. rewrite tbmm_lines_eq. set (N := order_of sd m n) in *. set (L := order_of (opposite sd) m n).
  assert (DR : lines_rows sd N L = m) by (destruct sd; reflexivity). assert (DC : lines_cols sd N L = n) by (destruct sd; reflexivity).
  assert (N0 : 0 <= N) by (destruct sd; auto). assert (L0 : 0 <= L) by (destruct sd; auto).
  set (t := match sd with Left => tA | Right => flip tA end). set (T := triangular_of d zero one (band_kept up dg k) (band_cell o up k a lda)).
  destruct (lines_update d (fun l q => mul (zsum zero add N (fun j => mul (op conj t (T s) q j) (val d s (lcell o sd b ldb l j)))) alpha)
    (fun i t0 => do t1 <- tbmv zero add mul conj o up t dg N k a lda (lbase o sd b ldb i) (linc o sd ldb) t0; scal mul N alpha (lbase o sd b ldb i) ldb t1)
    o sd b ldb N L s) as (s' & E & C & V); auto; rewrite ?DR, ?DC in *; auto.
  - intros l t0 Hl C W. assert (LT : length t0 = length s) by apply C.
    assert (Hp : 0 <= ldb) by (apply (leading_pos o sd N L); auto; rewrite DR, DC; auto).
    destruct (Z.eq_dec N 0) as [ZN|NZ].
    { rewrite ZN. exists t0. split; [|split; [apply changes_refl|intros; lia]]. unfold tbmv. cbn [Z.eqb bind]. reflexivity. }
    assert (Hinc : linc o sd ldb <> 0) by (apply (linc_pos o sd N L); try lia; rewrite DR, DC; auto).
    assert (Hcell : forall q, 0 <= q < N -> 0 <= lcell o sd b ldb l q < Z.of_nat (length s)).
    { intros q Hq. destruct sd; unfold lcell; apply Hin; unfold N, L, order_of, opposite in *; lia. }
    destruct (tbmv_ok d zero one add mul conj SR CJ o up t dg N k a lda (lbase o sd b ldb l) (linc o sd ldb) t0 Hinc Hk) as (t1 & E1 & C1 & V1).
    + intros q Hq. rewrite elt_line by exact Hp. rewrite LT. auto.
    + apply (held_now d _ _ s t0 N N (block o b ldb m n)); auto. intros p Q. rewrite <- DR, <- DC. now apply (line_in_block o sd b ldb l N L).
    + rewrite E1. cbn [bind]. assert (L1 : length t1 = length s) by (rewrite <- LT; apply C1).
      assert (SL : linc o sd ldb = ldb \/ N <= 1) by (clear - Hsc; unfold scales_line, linc, N in *; destruct o, sd; auto; destruct Hsc; auto).
      assert (SE : forall q, 0 <= q < N -> elt (lbase o sd b ldb l) ldb N q = lcell o sd b ldb l q).
      { intros q Hq. rewrite <- (elt_line o sd b ldb l N) by exact Hp. destruct SL as [Q|Q]; [now rewrite Q|]. assert (q = 0) by lia. subst q.
        rewrite !elt_pos; [lia| |]; [destruct o, sd; cbn; lia|exact Hp]. }
      destruct (scal_ok d mul N alpha (lbase o sd b ldb l) ldb t1) as (t2 & E2 & V2 & C2).
      { intros q Hq. rewrite SE by auto. rewrite L1. auto. }
      { destruct SL as [Q|Q]; [left; congruence|right; exact Q]. }
      exists t2. split; [exact E2|]. split.
      * apply (changes_weaken d t0 t2 (fun p => in_vector (lbase o sd b ldb l) (linc o sd ldb) N p \/ in_vector (lbase o sd b ldb l) ldb N p)).
        -- intros p [Q|(q & Hq & ->)]; [exact Q|]. exists q. split; [exact Hq|]. rewrite SE by auto. now rewrite elt_line.
        -- now apply changes_trans with t1.
      * intros q Hq. rewrite <- SE by auto. rewrite V2 by auto. rewrite SE by auto. f_equal. rewrite <- (elt_line o sd b ldb l N) by exact Hp. rewrite V1 by auto.
        apply zsum_ext. intros j Hj. rewrite elt_line by exact Hp. rewrite W by auto. f_equal.
        apply (op_now conj t N N); [intros i' j' Hi' Hj'; now apply (triangular_now _ _ s t0 N (block o b ldb m n))| |]; unfold op_rows, op_cols; destruct (is_trans t); auto.
  - exists s'. split; [exact E|]. split; [exact C|]. intros i j Hi Hj. unfold entry, N, L, t in *. destruct sd; cbn [order_of opposite lcell applied] in *.
    + now rewrite (V j i).
    + rewrite (V i j) by auto. f_equal. apply zsum_ext. intros q Hq. rewrite op_flip. apply (SRmul_comm SR).
Qed.

(** The other branches leave the matrix: an access outside the memory when nothing follows B. *)
Lemma rounds_ub (I : list A -> Prop) body q : forall a ia b ib s, I s ->
  (forall j s, 0 <= j < Z.of_nat q -> I s -> body (a + j * ia) (b + j * ib) s = UB \/ exists s', body (a + j * ia) (b + j * ib) s = Ok s' /\ I s') ->
  (exists j, 0 <= j < Z.of_nat q /\ forall s, I s -> body (a + j * ia) (b + j * ib) s = UB) -> rounds q a ia b ib body s = UB.
Proof.
  induction q as [|q IH]; intros a ia b ib s Is Hs (j & Hj & Hu); [lia|]. cbn [rounds].
  destruct (Hs 0 s ltac:(lia) Is) as [E|(s1 & E & I1)]; rewrite ?Z.mul_0_l, ?Z.add_0_r in E; rewrite E; cbn [bind]; [reflexivity|].
  apply IH; [exact I1| |].
  - intros i t Hi It. destruct (Hs (i + 1) t ltac:(lia) It) as [Q|(t1 & Q & It1)]; replace (a + (i + 1) * ia) with (a + ia + i * ia) in Q by lia; replace (b + (i + 1) * ib) with (b + ib + i * ib) in Q by lia; [now left|right; eauto].
  - destruct (Z.eq_dec j 0) as [->|Nj].
    + rewrite ?Z.mul_0_l, ?Z.add_0_r in Hu. rewrite Hu in E by exact Is. discriminate.
    + exists (j - 1). split; [lia|]. intros t It. specialize (Hu t It). replace (a + j * ia) with (a + ia + (j - 1) * ia) in Hu by lia. now replace (b + j * ib) with (b + ib + (j - 1) * ib) in Hu by lia.
Qed.
Lemma load_cases (t : list A) p : (0 <= p < Z.of_nat (length t) -> exists v, load t p = Ok v) /\ (~ 0 <= p < Z.of_nat (length t) -> load t p = UB).
Proof.
  split; intros H; [exists (val d t p); now apply load_ok|]. unfold load. destruct (p <? 0) eqn:E; [reflexivity|]. unfold rd.
  destruct (nth_error t (Z.to_nat p)) eqn:Q; [|reflexivity]. assert (nth_error t (Z.to_nat p) <> None) as Q2 by congruence. apply nth_error_Some in Q2. lia.
Qed.
Lemma scal_cases n alpha x inc (t : list A) : 0 <= inc ->
  (exists t', scal mul n alpha x inc t = Ok t' /\ length t' = length t) \/ scal mul n alpha x inc t = UB.
Proof.
  intros Hi. unfold scal, scal_from, walk1, walk. generalize (start x inc n) as y. intros y.
  assert (G : forall q p ip r ir (t : list A), let b := fun (iX _ : Z) (m : list A) => do v <- load m (y + iX); store m (y + iX) (mul v alpha) in
    (exists t', rounds q p ip r ir b t = Ok t' /\ length t' = length t) \/ rounds q p ip r ir b t = UB); [|apply G].
  clear t. induction q as [|q IH]; intros p ip r ir t b; cbn [rounds]; [left; eauto|]. unfold b at 1 3.
  destruct (Z_lt_le_dec (y + p) 0) as [L|L]; [right; rewrite (proj2 (load_cases t _)) by lia; reflexivity|].
  destruct (Z_lt_le_dec (y + p) (Z.of_nat (length t))) as [L2|L2]; [|right; rewrite (proj2 (load_cases t _)) by lia; reflexivity].
  rewrite (load_ok d) by lia. cbn [bind]. destruct (store_ok d t (y + p) (mul (val d t (y + p)) alpha)) as (t1 & E & L1 & _); [lia|]. rewrite E. cbn [bind].
  destruct (IH (p + ip) ip (r + ir) ir t1) as [(t' & Q & L3)|Q]; [left; exists t'; split; [exact Q|congruence]|now right].
Qed.
Lemma scal_out n alpha x inc (t : list A) : 0 <= inc -> 0 < n -> 0 <= x -> Z.of_nat (length t) <= x + (n - 1) * inc -> scal mul n alpha x inc t = UB.
Proof.
  intros Hi Hn Hx Ho. unfold scal, scal_from, walk1, walk, start. replace (inc <? 0) with false by lia.
  apply (rounds_ub (fun s => length s = length t)); [reflexivity| |].
  - intros j s Hj Ls. rewrite Z.add_0_l. destruct (Z_lt_le_dec (x + j * inc) (Z.of_nat (length s))) as [L|L].
    + assert (0 <= j * inc) by (apply Z.mul_nonneg_nonneg; lia). rewrite (load_ok d) by lia. cbn [bind]. destruct (store_ok d s (x + j * inc) (mul (val d s (x + j * inc)) alpha)) as (t1 & E & L1 & _); [lia|].
      right. exists t1. split; [exact E|congruence].
    + left. rewrite (proj2 (load_cases s _)) by lia. reflexivity.
  - exists (n - 1). split; [lia|]. intros s Ls. rewrite Z.add_0_l. rewrite (proj2 (load_cases s _)) by lia. reflexivity.
Qed.
Lemma tbmm_out o sd up tA dg m n k alpha a lda b ldb (s : list A) : (o = RowMajor /\ sd = Right) \/ (o = ColMajor /\ sd = Left) -> 0 < order_of (opposite sd) m n -> 2 <= order_of sd m n -> 0 <= k -> 0 <= b -> leading o m n ldb ->
  block_inside s o b ldb m n -> held_apart (band_kept up dg k) (band_cell o up k a lda) s (order_of sd m n) (order_of sd m n) (block o b ldb m n) ->
  Z.of_nat (length s) <= b + order_of (opposite sd) m n * ldb -> tbmm zero add mul conj o sd up tA dg m n k alpha a lda b ldb s = UB.
Proof.
  intros Hos HL HN Hk Hb Hld Hin Ha Hlen. rewrite tbmm_lines_eq. set (N := order_of sd m n) in *. set (L := order_of (opposite sd) m n) in *.
  assert (DR : lines_rows sd N L = m) by (destruct sd; reflexivity). assert (DC : lines_cols sd N L = n) by (destruct sd; reflexivity).
  assert (NL : N <= ldb) by (unfold N; destruct Hos as [(-> & ->)|(-> & ->)]; cbn in *; lia).
  assert (LI : linc o sd ldb = 1 /\ forall i, lbase o sd b ldb i = b + i * ldb) by (destruct Hos as [(-> & ->)|(-> & ->)]; cbn; auto). destruct LI as (LI & LB).
  set (t := match sd with Left => tA | Right => flip tA end).
  unfold TriModel.repeat, walk1, walk.
  assert (TB : forall i s', 0 <= i < L -> length s' = length s -> exists t1, tbmv zero add mul conj o up t dg N k a lda (lbase o sd b ldb i) (linc o sd ldb) s' = Ok t1 /\ length t1 = length s).
  { intros i s' Hi Ls. destruct (tbmv_ok d zero one add mul conj SR CJ o up t dg N k a lda (lbase o sd b ldb i) (linc o sd ldb) s') as (t1 & E1 & C1 & _).
    - rewrite LI. lia.
    - exact Hk.
    - intros q Hq. rewrite elt_line by lia. rewrite Ls. destruct sd; unfold lcell; apply Hin; unfold N, L, order_of, opposite in *; lia.
    - intros i' j' Hi' Hj' K. rewrite Ls. destruct (Ha i' j' Hi' Hj' K) as (H1 & H2). split; [exact H1|]. intros Q. apply H2. rewrite <- DR, <- DC. apply (line_in_block o sd b ldb i N L); auto. lia.
    - exists t1. split; [exact E1|]. destruct C1 as (C1 & _). congruence. }
  apply (rounds_ub (fun s' => length s' = length s)); [reflexivity| |].
  - intros j s' Hj Ls. rewrite Z.add_0_l, Z.mul_1_r. destruct (TB j s') as (t1 & E1 & L1); [lia|exact Ls|]. rewrite E1. cbn [bind].
    destruct (scal_cases N alpha (lbase o sd b ldb j) ldb t1) as [(t2 & E2 & L2)|E2]; [lia| |now left]. right. exists t2. split; [exact E2|congruence].
  - exists (L - 1). split; [lia|]. intros s' Ls. rewrite Z.add_0_l, Z.mul_1_r. destruct (TB (L - 1) s') as (t1 & E1 & L1); [lia|exact Ls|]. rewrite E1. cbn [bind].
    assert (0 <= (L - 1) * ldb) by (apply Z.mul_nonneg_nonneg; lia). assert (1 * ldb <= (N - 1) * ldb) by (apply Z.mul_le_mono_nonneg_r; lia).
    apply scal_out; try lia; rewrite LB; lia.
Qed.
End Triangular.
