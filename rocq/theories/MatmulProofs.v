(** Proofs about matrix products. *)
From Coq Require Import Permutation Ring.
From Verif Require Import Base BaseProofs ShapeModel ShapeSpec ShapeProofs ViewModel ViewSpec ViewProofs TransposeModel TransposeSpec TransposeProofs.
From Verif Require Import MatmulModel MatmulSpec.
From Coq Require Import ZifyNat ZifyN ZifyBool.
Ltac Zify.zify_post_hook ::= idtac.

(** ** Loops of steps that each change one cell *)
Lemma for_list_cells {A O} (body : O -> list A -> outcome (list A)) (loc : O -> nat) (fn : O -> A -> A) n sched :
  (forall o out, In o sched -> length out = n -> exists v, nth_error out (loc o) = Some v /\ body o out = Ok (upd out (loc o) (fn o v))) ->
  forall out, length out = n -> exists out', for_list sched body out = Ok out' /\ length out' = n /\
    forall p, nth_error out' p = option_map (fun v => fold_left (fun v o => fn o v) (filter (fun o => loc o =? p) sched) v) (nth_error out p).
Proof.
  induction sched as [|o sched IH]; intros H out Hn.
  - exists out. split; [auto|]. split; [auto|]. intros p. cbn. destruct (nth_error out p); auto.
  - destruct (H o out (or_introl eq_refl) Hn) as (v & Ev & Eb). cbn [for_list]. rewrite Eb. cbn [bind].
    destruct (IH (fun o' out' Ho => H o' out' (or_intror Ho)) (upd out (loc o) (fn o v))) as (o2 & E2 & L2 & P2).
    { rewrite upd_length. auto. }
    exists o2. split; [auto|]. split; [auto|]. intros p. rewrite P2, nth_error_upd. cbn [filter].
    assert (HL : loc o < length out) by (apply nth_error_Some; congruence).
    destruct (Nat.eqb_spec (loc o) p) as [<-|N].
    + replace (loc o <? length out) with true by (symmetry; apply Nat.ltb_lt; auto).
      cbn [andb fold_left]. rewrite Ev. reflexivity.
    + cbn [andb]. reflexivity.
Qed.

Lemma for_list_flat {I J S} (l : list I) (g : I -> list J) (body : I -> J -> S -> outcome S) s :
  for_list l (fun x => for_list (g x) (body x)) s
  = for_list (flat_map (fun x => map (pair x) (g x)) l) (fun xy => body (fst xy) (snd xy)) s.
Proof.
  revert s. induction l as [|x l IH]; intros s; auto. cbn [for_list flat_map]. rewrite for_list_app.
  replace (for_list (map (pair x) (g x)) (fun xy => body (fst xy) (snd xy)) s) with (for_list (g x) (body x) s).
  - destruct (for_list (g x) (body x) s); cbn [bind]; auto.
  - generalize (g x). intros gl. revert s. induction gl as [|y gl IHg]; intros s; auto. cbn [for_list map fst snd].
    destruct (body x y s); cbn [bind]; auto.
Qed.

Lemma for_list_ext {I S} (l : list I) (f g : I -> S -> outcome S) s :
  (forall i s, In i l -> f i s = g i s) -> for_list l f s = for_list l g s.
Proof.
  revert s. induction l as [|x l IH]; intros s H; auto. cbn [for_list]. rewrite (H x s (or_introl eq_refl)).
  destruct (g x s); cbn [bind]; auto. apply IH. intros. apply H. right; auto.
Qed.

Lemma filter_unique {O} (loc : O -> nat) sched o : NoDup (map loc sched) -> In o sched ->
  filter (fun o' => loc o' =? loc o) sched = [o].
Proof.
  induction sched as [|x sched IH]; intros HN HI; [destruct HI|]. cbn [map] in HN. inversion HN as [|? ? H1 H2]; subst.
  cbn [filter]. destruct HI as [->|HI].
  - rewrite Nat.eqb_refl. f_equal. clear IH HN H2. induction sched as [|y sched IHs]; auto. cbn [filter].
    destruct (Nat.eqb_spec (loc y) (loc o)) as [E|E]; [exfalso; apply H1; left; auto|]. apply IHs. intros C; apply H1; right; auto.
  - destruct (Nat.eqb_spec (loc x) (loc o)) as [E|E]; [|auto]. exfalso. apply H1. rewrite E. apply in_map. auto.
Qed.
Lemma filter_none {O} (f : O -> bool) sched : (forall o, In o sched -> f o = false) -> filter f sched = [].
Proof. induction sched as [|x l IH]; intros H; auto. cbn [filter]. rewrite (H x (or_introl eq_refl)). apply IH. intros; apply H; right; auto. Qed.

Lemma filter_seq_eq i : forall n a, filter (fun x => x =? i) (seq a n) = if (a <=? i) && (i <? a + n) then [i] else [].
Proof.
  induction n as [|n IH]; intros a; cbn [seq filter].
  - destruct (Nat.leb_spec a i); destruct (Nat.ltb_spec i (a + 0)); auto; lia.
  - rewrite IH. destruct (Nat.eqb_spec a i) as [->|N].
    + replace (S i <=? i) with false by lia. replace (i <=? i) with true by lia. replace (i <? i + S n) with true by lia. reflexivity.
    + replace (S a <=? i) with (a <=? i) by lia. replace (i <? S a + n) with (i <? a + S n) by lia. reflexivity.
Qed.
Lemma filter_map_comm {O P} (f : P -> bool) (g : O -> P) l : filter f (map g l) = map g (filter (fun x => f (g x)) l).
Proof. induction l as [|x l IH]; auto. cbn [map filter]. rewrite IH. destruct (f (g x)); auto. Qed.
Lemma filter_filter {O} (f g : O -> bool) l : filter f (filter g l) = filter (fun x => g x && f x) l.
Proof. induction l as [|x l IH]; auto. cbn [filter]. destruct (g x); cbn [filter andb]; [destruct (f x)|]; rewrite IH; auto. Qed.
Lemma filter_ext_in' {O} (f g : O -> bool) l : (forall x, In x l -> f x = g x) -> filter f l = filter g l.
Proof. induction l as [|x l IH]; intros H; auto. cbn [filter]. rewrite (H x (or_introl eq_refl)), IH; auto. intros; apply H; right; auto. Qed.

Definition sidx (s : mvstep) : nat := match s with Scal i | Acc i => i end.
Lemma steps_at m i : i < m -> filter (fun s => sidx s =? i) (mv_steps m) = [Scal i; Acc i].
Proof.
  intros H. unfold mv_steps. rewrite filter_app, !filter_map_comm. cbn [sidx]. rewrite !filter_seq_eq.
  replace ((0 <=? i) && (i <? 0 + m)) with true by lia. reflexivity.
Qed.
Lemma steps_in m s : In s (mv_steps m) -> sidx s < m.
Proof.
  unfold mv_steps. rewrite in_app_iff, !in_map_iff. intros [(x & <- & H)|(x & <- & H)]; apply in_seq in H; cbn [sidx]; lia.
Qed.

(** The serial schedule is an interleaving. *)
Lemma serial_interleaving m n k : interleaving n (column_program m k) (serial_schedule m n k).
Proof.
  unfold serial_schedule. split.
  - intros ls H. apply in_flat_map in H. destruct H as (l & Hl & H). apply in_map_iff in H. destruct H as (s & <- & _). apply in_seq in Hl. cbn [fst]. lia.
  - intros l Hl. generalize (column_program m k). intros prog.
    assert (G : forall n a, map snd (filter (fun ls : nat * mvstep => fst ls =? l) (flat_map (fun l0 => map (pair l0) prog) (seq a n)))
                = if (a <=? l) && (l <? a + n) then prog else []).
    { clear. induction n as [|n IH]; intros a; cbn [seq flat_map].
      - replace ((a <=? l) && (l <? a + 0)) with false by lia. reflexivity.
      - rewrite filter_app, map_app, IH, filter_map_comm. cbn [fst]. destruct (Nat.eqb_spec a l) as [->|N].
        + replace (S l <=? l) with false by lia. cbn [andb]. rewrite app_nil_r. replace ((l <=? l) && (l <? l + S n)) with true by lia.
          rewrite map_map. cbn [snd]. rewrite map_id. clear. induction prog as [|x p IH]; auto. cbn [filter]. f_equal. exact IH.
        + rewrite filter_none; auto. cbn [map app]. replace (S a <=? l) with (a <=? l) by lia. replace (l <? S a + n) with (l <? a + S n) by lia. reflexivity. }
    rewrite G. replace ((0 <=? l) && (l <? 0 + n)) with true by lia. reflexivity.
Qed.

Lemma pairs_at m n i j : i < m -> j < n ->
  filter (fun ij : nat * nat => (fst ij =? i) && (snd ij =? j)) (flat_map (fun i => map (pair i) (seq 0 n)) (seq 0 m)) = [(i, j)].
Proof.
  intros Hi Hj.
  assert (G : forall k a, filter (fun ij : nat * nat => (fst ij =? i) && (snd ij =? j)) (flat_map (fun i => map (pair i) (seq 0 n)) (seq a k))
              = if (a <=? i) && (i <? a + k) then [(i, j)] else []).
  { induction k as [|k IH]; intros a; cbn [seq flat_map].
    - replace ((a <=? i) && (i <? a + 0)) with false by lia. reflexivity.
    - rewrite filter_app, IH, filter_map_comm. cbn [fst snd]. destruct (Nat.eqb_spec a i) as [->|N]; cbn [andb].
      + rewrite filter_seq_eq. replace ((0 <=? j) && (j <? 0 + n)) with true by lia. replace (S i <=? i) with false by lia.
        replace ((i <=? i) && (i <? i + S k)) with true by lia. reflexivity.
      + rewrite filter_none; auto. cbn [map app]. replace (S a <=? i) with (a <=? i) by lia. replace (i <? S a + k) with (i <? a + S k) by lia. reflexivity. }
  rewrite G. replace ((0 <=? i) && (i <? 0 + m)) with true by lia. reflexivity.
Qed.
Lemma cell_inj ld n i j i' j' : n <= ld -> j < n -> j' < n -> i * ld + j = i' * ld + j' -> i = i' /\ j = j'.
Proof. intros. assert (i = i') by nia. subst. lia. Qed.

Lemma kernel_ignores_transA {A} (zero : A) (add mul : A -> A -> A) TS tiles tb M N K alpha a lda b ldb beta ldc items c :
  gemm_kernel zero add mul TS tiles true tb M N K alpha a lda b ldb beta ldc items c
  = gemm_kernel zero add mul TS tiles false tb M N K alpha a lda b ldb beta ldc items c.
Proof.
  assert (EA : forall gy t iby ibx, asub zero TS true M K a lda gy t iby ibx = asub zero TS false M K a lda gy t iby ibx).
  { intros. unfold asub. match goal with |- (if ?c then _ else _) = _ => destruct c end; auto. f_equal. lia. }
  unfold gemm_kernel. apply for_list_ext. intros w s _. unfold gemm_item.
  replace (gemm_acc zero add mul TS tiles true tb M N K a lda b ldb (gx w) (gy w) (lx w) (ly w))
    with (gemm_acc zero add mul TS tiles false tb M N K a lda b ldb (gx w) (gy w) (lx w) (ly w)); auto.
  unfold gemm_acc. rewrite !for_range_list. apply for_list_ext. intros t acc _.
  replace (load_tiles zero TS true tb M N K a lda b ldb (gx w) (gy w) t) with (load_tiles zero TS false tb M N K a lda b ldb (gx w) (gy w) t).
  - destruct (load_tiles _ _ _ _ _ _ _ _ _ _ _ _ _ _); cbn [bind]; auto. rewrite !for_range_list. apply for_list_ext. intros j acc' _.
    destruct (_ <? K); auto. rewrite EA. auto.
  - unfold load_tiles. rewrite !for_range_list. apply for_list_ext. intros iby ? _. rewrite !for_range_list. apply for_list_ext. intros ibx ? _.
    rewrite EA. auto.
Qed.

Section Ring.
Context {A : Type} (zero one : A) (add mul : A -> A -> A) (is_zero : A -> bool).
Hypothesis SR : semi_ring_theory zero one add mul eq.
Hypothesis ZT : forall x, is_zero x = true <-> x = zero.
Add Ring Ar : SR.
Local Infix "+!" := add (at level 50, left associativity).
Local Infix "*!" := mul (at level 40, left associativity).
Local Notation Sum := (sum zero add).

Lemma sum_ext n f g : (forall i, i < n -> f i = g i) -> Sum n f = Sum n g.
Proof. induction n as [|n IH]; intros H; auto. cbn [sum]. rewrite IH, H; auto. Qed.
Lemma sum_scale n c f : Sum n (fun i => c *! f i) = c *! Sum n f.
Proof. induction n as [|n IH]; cbn [sum]; [|rewrite IH]; ring. Qed.
Lemma sum_conj conj n f : conjugation zero add mul conj -> Sum n (fun i => conj (f i)) = conj (Sum n f).
Proof. intros (C0 & C1 & _). induction n as [|n IH]; cbn [sum]; auto. rewrite IH, C1. auto. Qed.

Lemma dot_generic_ok conj c n x px ix y py iy f g :
  (forall i, i < n -> nth_error x (px + i * ix) = Some (f i)) ->
  (forall i, i < n -> nth_error y (py + i * iy) = Some (g i)) ->
  dot_generic zero add mul conj c n x px ix y py iy = Ok (Sum n (fun i => mul (if c then conj (f i) else f i) (g i))).
Proof.
  intros HX HY. unfold dot_generic.
  destruct (for_range_inv (fun k s => s = Sum k (fun i => mul (if c then conj (f i) else f i) (g i)))
    (fun i r => do a <- rd x (px + i * ix); do b <- rd y (py + i * iy); Ok (add r (mul (if c then conj a else a) b))) 0 n zero) as (s & E & Hs).
  - lia.
  - intros k s Hk ->. exists (Sum (S k) (fun i => mul (if c then conj (f i) else f i) (g i))). split; auto.
    unfold rd. rewrite HX, HY by lia. reflexivity.
  - reflexivity.
  - rewrite E, Hs. reflexivity.
Qed.

Lemma scal_cell_ok alpha p y v : nth_error y p = Some v -> scal_cell zero mul is_zero alpha p y = Ok (upd y p (alpha *! v)).
Proof.
  intros E. assert (L : p < length y) by (apply nth_error_Some; congruence). unfold scal_cell, rd. rewrite E. cbn [bind].
  destruct (is_zero alpha) eqn:Z; rewrite wr_Ok by auto; do 2 f_equal; [|ring]. apply ZT in Z. subst. ring.
Qed.

Lemma gescal_ok m n alpha c ldc : n <= ldc -> (forall i j, i < m -> j < n -> i * ldc + j < length c) ->
  exists c', gescal_init zero mul is_zero m n alpha c ldc = Ok c' /\ length c' = length c /\
    (forall i j, i < m -> j < n -> nth_error c' (i * ldc + j) = option_map (mul alpha) (nth_error c (i * ldc + j))) /\
    outside_kept RowMajor ldc m n c c'.
Proof.
  intros HL HB.
  set (loc := fun ij : nat * nat => fst ij * ldc + snd ij).
  set (ops := flat_map (fun i => map (pair i) (seq 0 n)) (seq 0 m)).
  assert (EQ : gescal_init zero mul is_zero m n alpha c ldc = for_list ops (fun ij y => scal_cell zero mul is_zero alpha (loc ij) y) c).
  { unfold gescal_init. destruct (Nat.eqb_spec ldc n) as [->|N].
    - unfold scal_init. rewrite for_range_list, Nat.sub_0_r.
      assert (E : seq 0 (m * n) = map loc ops).
      { unfold ops. clear HB. induction m as [|m' IH]; auto. replace (S m' * n) with (m' * n + n) by lia.
        rewrite seq_app, seq_S, flat_map_app, map_app, <- IH. f_equal. cbn [flat_map plus]. rewrite app_nil_r, map_map. unfold loc. cbn [fst snd].
        generalize n at 2 4. intros k. apply nth_ext with (d := 0) (d' := 0); [rewrite map_length, !seq_length; auto|].
        intros i Hi. rewrite seq_length in Hi. rewrite seq_nth by auto. erewrite nth_indep with (d' := m' * n + 0) by (rewrite map_length, seq_length; auto).
        rewrite (map_nth (fun x => m' * n + x)), seq_nth by auto. lia. }
      rewrite E. clear. generalize c. induction ops as [|o l IH]; intros c0; auto. cbn [map for_list].
      replace (0 + loc o * 1) with (loc o) by lia. destruct (scal_cell zero mul is_zero alpha (loc o) c0); cbn [bind]; auto.
    - rewrite for_range_list, Nat.sub_0_r. unfold ops.
      etransitivity; [|exact (for_list_flat (seq 0 m) (fun _ => seq 0 n) (fun i j y => scal_cell zero mul is_zero alpha (i * ldc + j) y) c)].
      apply for_list_ext. intros i s _. unfold scal_init. rewrite for_range_list, Nat.sub_0_r. apply for_list_ext. intros j s' _.
        f_equal. lia. }
  assert (IN : forall i j, In (i, j) ops <-> i < m /\ j < n).
  { intros i j. unfold ops. rewrite in_flat_map. split.
    - intros (x & Hx & H). apply in_map_iff in H. destruct H as (y & E & Hy). injection E as <- <-. apply in_seq in Hx, Hy. lia.
    - intros (Hi & Hj). exists i. split; [apply in_seq; lia|]. apply in_map. apply in_seq. lia. }
  rewrite EQ.
  destruct (for_list_cells (fun ij y => scal_cell zero mul is_zero alpha (loc ij) y) loc (fun _ v => alpha *! v) (length c) ops) with (out := c)
    as (c' & E & L & P); auto.
  { intros [i j] out Ho Lo. apply IN in Ho. destruct (nth_error out (loc (i, j))) as [v|] eqn:Ev.
    - exists v. split; auto. apply scal_cell_ok; auto.
    - apply nth_error_None in Ev. unfold loc in Ev. cbn [fst snd] in Ev. specialize (HB i j (proj1 Ho) (proj2 Ho)). lia. }
  exists c'. split; [auto|]. split; [auto|]. split.
  - intros i j Hi Hj. rewrite P.
    rewrite (filter_ext_in' _ (fun ij : nat * nat => (fst ij =? i) && (snd ij =? j))).
    + unfold ops. rewrite pairs_at by auto. reflexivity.
    + intros [i' j'] H. apply IN in H. unfold loc. cbn [fst snd].
      destruct (Nat.eqb_spec i' i) as [->|Ni]; cbn [andb]; [destruct (Nat.eqb_spec j' j); lia|]. apply Nat.eqb_neq. intros C. apply Ni.
      apply (cell_inj ldc n i' j' i j); lia.
  - intros p Hp. rewrite P, filter_none.
    + destruct (nth_error c p); auto.
    + intros [i j] H. apply IN in H. apply Nat.eqb_neq. intros C. apply (Hp i j); try lia. rewrite <- C. reflexivity.
Qed.

(** ** gemv *)
Section Conj.
Variable conj : A -> A.
Hypothesis CJ : conjugation zero add mul conj.

(** The stored value behind an element of op(M) *)
Lemma mat_raw o t ld p m i j x : mat conj o t ld p m i j = Some x ->
  exists y, nth_error m (p + match o with RowMajor => if is_trans t then j * ld + i else i * ld + j
                                     | ColMajor => if is_trans t then i * ld + j else j * ld + i end) = Some y /\
  x = if is_conj t then conj y else y.
Proof.
  unfold mat. intros H. destruct (is_trans t), o.
  all: match goal with H : match ?e with _ => _ end = _ |- _ => destruct e as [y|] eqn:E; [|discriminate] end; injection H as <-; eauto.
Qed.

Lemma row_dot_ok t (cx : bool) len alpha a pa lda x px ix beta py iy i f g :
  (forall k, k < len -> mat conj RowMajor t lda pa a i k = Some (f k)) ->
  (forall k, k < len -> exists y, nth_error x (px + k * ix) = Some y /\ g k = if cx then conj y else y) ->
  row_dot zero add mul conj (MV t cx len alpha a pa lda x px ix beta py iy) i = Ok (Sum len (fun k => f k *! g k)).
Proof.
  intros HA HX. destruct CJ as (C0 & C1 & C2).
  set (pr := pa + (if is_trans t then i else i * lda)). set (ir := if is_trans t then lda else 1).
  set (fa := fun k => nth (pr + k * ir) a zero). set (fx := fun k => nth (px + k * ix) x zero).
  assert (HA' : forall k, k < len -> nth_error a (pr + k * ir) = Some (fa k) /\ f k = if is_conj t then conj (fa k) else fa k).
  { intros k Hk. destruct (mat_raw _ _ _ _ _ _ _ _ (HA k Hk)) as (y & Ey & ->).
    assert (E : nth_error a (pr + k * ir) = Some y).
    { rewrite <- Ey. f_equal. unfold pr, ir. destruct (is_trans t); lia. }
    unfold fa. rewrite (nth_error_nth _ _ _ E). auto. }
  assert (HX' : forall k, k < len -> nth_error x (px + k * ix) = Some (fx k) /\ g k = if cx then conj (fx k) else fx k).
  { intros k Hk. destruct (HX k Hk) as (y & Ey & ->). unfold fx. rewrite (nth_error_nth _ _ _ Ey). auto. }
  unfold row_dot. cbn [v_t v_cx v_len v_a v_pa v_lda v_x v_px v_ix]. fold pr ir. destruct cx.
  - destruct (is_conj t) eqn:T.
    + rewrite (dot_generic_ok conj false len a pr ir x px ix fa fx); [|firstorder|firstorder]. cbn [bind]. f_equal.
      rewrite <- sum_conj by exact CJ. apply sum_ext. intros k Hk. rewrite C2, (proj2 (HA' k Hk)), (proj2 (HX' k Hk)). reflexivity.
    + rewrite (dot_generic_ok conj true len x px ix a pr ir fx fa); [|firstorder|firstorder]. f_equal.
      apply sum_ext. intros k Hk. rewrite (proj2 (HA' k Hk)), (proj2 (HX' k Hk)). ring.
  - rewrite (dot_generic_ok conj (is_conj t) len a pr ir x px ix fa fx); [|firstorder|firstorder]. f_equal.
    apply sum_ext. intros k Hk. rewrite (proj2 (HA' k Hk)), (proj2 (HX' k Hk)). reflexivity.
Qed.

(** The effect of one step *)
Lemma mv_step_ok (q : mv) s y d v : row_dot zero add mul conj q (sidx s) = Ok d -> nth_error y (v_py q + sidx s * v_iy q) = Some v ->
  mv_step zero add mul is_zero conj q s y
  = Ok (upd y (v_py q + sidx s * v_iy q) (match s with Scal _ => v_beta q *! v | Acc _ => v +! v_alpha q *! d end)).
Proof.
  intros ED EV. destruct s as [i|i]; cbn [mv_step sidx] in *.
  - apply scal_cell_ok; auto.
  - rewrite ED. unfold rd. cbn [bind]. rewrite EV. cbn [bind]. rewrite wr_Ok; auto. apply nth_error_Some. congruence.
Qed.

Lemma gemv_generic_ok o t (cx : bool) m n alpha a lda x px ix beta y py iy f g :
  let rows := if is_trans t then n else m in
  let len := if is_trans t then m else n in
  (forall i k, i < rows -> k < len -> mat conj o t lda 0 a i k = Some (f i k)) ->
  (forall k, k < len -> exists v, nth_error x (px + k * ix) = Some v /\ g k = if cx then conj v else v) ->
  0 < iy -> (forall i, i < rows -> py + i * iy < length y) ->
  exists y', gemv_generic zero add mul is_zero conj o t cx m n alpha a 0 lda x px ix beta y py iy = Ok y' /\ length y' = length y /\
    (forall i, i < rows -> nth_error y' (py + i * iy) = option_map (fun v => beta *! v +! alpha *! Sum len (fun k => f i k *! g k)) (nth_error y (py + i * iy))) /\
    (forall p, (forall i, i < rows -> p <> py + i * iy) -> nth_error y' p = nth_error y p).
Proof.
  intros rows len HA HX HI HY.
  set (t' := match o with RowMajor => t | ColMajor => flip t end).
  set (q := MV t' cx len alpha a 0 lda x px ix beta py iy).
  assert (EQ : gemv_generic zero add mul is_zero conj o t cx m n alpha a 0 lda x px ix beta y py iy
    = for_list (mv_steps rows) (mv_step zero add mul is_zero conj q) y).
  { unfold gemv_generic, q, t', rows, len. destruct o, t; reflexivity. }
  assert (RD : forall i, i < rows -> row_dot zero add mul conj q i = Ok (Sum len (fun k => f i k *! g k))).
  { intros i Hi. apply (row_dot_ok t' cx len alpha a 0 lda x px ix beta py iy i (f i) g); auto.
    intros k Hk. rewrite <- (HA i k Hi Hk). unfold mat, t'. destruct o, t; reflexivity. }
  rewrite EQ.
  set (fn := fun (s : mvstep) v => match s with Scal _ => beta *! v | Acc i => v +! alpha *! Sum len (fun k => f i k *! g k) end).
  destruct (for_list_cells (mv_step zero add mul is_zero conj q) (fun s => py + sidx s * iy) fn (length y) (mv_steps rows)) with (out := y)
    as (y' & E & L & P); auto.
  { intros s out Hs Lo. apply steps_in in Hs. destruct (nth_error out (py + sidx s * iy)) as [v|] eqn:Ev.
    - exists v. split; auto. rewrite (mv_step_ok q s out _ v (RD _ Hs) Ev). destruct s; reflexivity.
    - apply nth_error_None in Ev. specialize (HY _ Hs). lia. }
  exists y'. split; [auto|]. split; [auto|]. split.
  - intros i Hi. rewrite P, (filter_ext_in' _ (fun s => sidx s =? i)).
    + rewrite steps_at by auto. reflexivity.
    + intros s _. destruct (Nat.eqb_spec (sidx s) i) as [->|N]; [apply Nat.eqb_refl|]. apply Nat.eqb_neq. nia.
  - intros p Hp. rewrite P, filter_none; [destruct (nth_error y p); auto|]. intros s Hs. apply steps_in in Hs. apply Nat.eqb_neq.
    intros C. apply (Hp (sidx s) Hs). auto.
Qed.

(** ** gemm *)
Lemma gemm_body_ok ta tb m n k alpha a lda b ldb beta c ldc sched f g :
  gemm_right ta tb \/ (forall x, conj x = x) ->
  is_matrix conj RowMajor ta lda a m k f -> is_matrix conj RowMajor tb ldb b k n g ->
  n <= ldc -> (forall i j, i < m -> j < n -> i * ldc + j < length c) ->
  interleaving n (column_program m k) sched ->
  exists c', gemm_body zero one add mul is_zero conj ta tb m n k alpha a lda b ldb beta c ldc sched = Ok c' /\ length c' = length c /\
    (forall i j, i < m -> j < n -> nth_error c' (i * ldc + j)
       = option_map (fun v => beta *! v +! alpha *! Sum k (fun h => f i h *! g h j)) (nth_error c (i * ldc + j))) /\
    outside_kept RowMajor ldc m n c c'.
Proof.
  intros HR HA HB HL HC (HS1 & HS2). unfold gemm_body.
  destruct (gescal_ok m n beta c ldc HL HC) as (c1 & E1 & L1 & P1 & O1). rewrite E1. cbn [bind].
  destruct (is_zero alpha) eqn:Z.
  { apply ZT in Z. subst alpha. exists c1. split; [auto|]. split; [auto|]. split; [|auto]. intros i j Hi Hj. rewrite (P1 i j Hi Hj).
    destruct (nth_error c (i * ldc + j)); auto. cbn [option_map]. f_equal. ring. }
  set (q := column one ta tb k alpha a lda b ldb ldc).
  assert (Q : forall l, v_py (q l) = l /\ v_iy (q l) = ldc /\ v_beta (q l) = one /\ v_alpha (q l) = alpha).
  { intros l. unfold q, column. destruct (gemm_call ta tb). auto. }
  assert (RD : forall l i, l < n -> i < m -> row_dot zero add mul conj (q l) i = Ok (Sum k (fun h => f i h *! g h l))).
  { intros l i Hl Hi. unfold q, column. destruct (gemm_call ta tb) as [t cx] eqn:EC.
    assert (G1 : forall h, h < k -> mat conj RowMajor t lda 0 a i h = Some (f i h)).
    { intros h Hh. rewrite <- (HA i h Hi Hh). unfold gemm_call in EC.
      destruct HR as [[R1 R2]|R].
      - destruct ta, tb; injection EC as <- <-; auto. exfalso; auto.
      - unfold mat. destruct ta, tb; injection EC as <- <-; auto. cbn [is_trans is_conj]. destruct (nth_error a _); rewrite ?R; auto. }
    apply (row_dot_ok t cx k alpha a 0 lda b _ _ one l ldc i (f i) (fun h => g h l)); auto.
    intros h Hh. destruct (mat_raw _ _ _ _ _ _ _ _ (HB h l Hh Hl)) as (y & Ey & ->). exists y. split.
    - rewrite <- Ey. f_equal. destruct (is_trans tb); lia.
    - unfold gemm_call in EC. destruct HR as [[R1 R2]|R].
      + destruct ta, tb; injection EC as <- <-; auto. exfalso; auto.
      + destruct cx, (is_conj tb); rewrite ?R; auto. }
  set (loc := fun ls : nat * mvstep => fst ls + sidx (snd ls) * ldc).
  set (fn := fun (ls : nat * mvstep) v => match snd ls with Scal _ => one *! v | Acc i => v +! alpha *! Sum k (fun h => f i h *! g h (fst ls)) end).
  assert (IN : forall ls, In ls sched -> fst ls < n /\ sidx (snd ls) < m /\ k <> 0).
  { intros ls H. specialize (HS1 ls H). split; auto. specialize (HS2 (fst ls) HS1).
    assert (H' : In (snd ls) (column_program m k)).
    { rewrite <- HS2. apply in_map. apply filter_In. split; auto. apply Nat.eqb_refl. }
    unfold column_program in H'. destruct ((m =? 0) || (k =? 0)) eqn:C; [destruct H'|]. split; [apply steps_in; auto|lia]. }
  destruct (for_list_cells (fun ls c => mv_step zero add mul is_zero conj (q (fst ls)) (snd ls) c) loc fn (length c1) sched) with (out := c1)
    as (c' & E & L & P); auto.
  { intros [l s] out Ho Lo. apply IN in Ho. cbn [fst snd] in *. destruct Ho as (Hl & Hs & _). destruct (Q l) as (Q1 & Q2 & Q3 & Q4).
    destruct (nth_error out (loc (l, s))) as [v|] eqn:Ev.
    - exists v. split; auto. rewrite (mv_step_ok (q l) s out _ v (RD _ _ Hl Hs)) by (rewrite Q1, Q2; exact Ev).
      rewrite Q1, Q2, Q3, Q4. destruct s; reflexivity.
    - apply nth_error_None in Ev. unfold loc in Ev. cbn [fst snd] in Ev. specialize (HC _ _ Hs Hl). lia. }
  fold q. rewrite E. exists c'. split; [auto|]. split; [lia|]. split.
  - intros i j Hi Hj. rewrite P, (P1 i j Hi Hj). destruct (nth_error c (i * ldc + j)) as [v|]; auto. cbn [option_map]. f_equal.
    rewrite (filter_ext_in' _ (fun ls : nat * mvstep => (fst ls =? j) && (sidx (snd ls) =? i))).
    2:{ intros [l s] H. apply IN in H. cbn [fst snd] in *. unfold loc. cbn [fst snd].
        destruct (Nat.eqb_spec l j) as [->|Nl]; cbn [andb].
        - destruct (Nat.eqb_spec (sidx s) i) as [->|Ni]; [apply Nat.eqb_eq; lia|]. apply Nat.eqb_neq. intros C. apply Ni.
          apply (cell_inj ldc n (sidx s) j i j); lia.
        - apply Nat.eqb_neq. intros C. apply Nl. apply (cell_inj ldc n (sidx s) l i j); lia. }
    rewrite <- filter_filter.
    assert (FM : map snd (filter (fun ls : nat * mvstep => sidx (snd ls) =? i) (filter (fun ls => fst ls =? j) sched))
             = filter (fun s => sidx s =? i) (column_program m k)).
    { rewrite <- (HS2 j Hj), filter_map_comm. reflexivity. }
    assert (FJ : forall ls, In ls (filter (fun ls : nat * mvstep => sidx (snd ls) =? i) (filter (fun ls => fst ls =? j) sched)) -> fst ls = j).
    { intros ls H. apply filter_In in H. destruct H as (H & _). apply filter_In in H. destruct H as (_ & H). apply Nat.eqb_eq; auto. }
    revert FM FJ. generalize (filter (fun ls : nat * mvstep => sidx (snd ls) =? i) (filter (fun ls => fst ls =? j) sched)). intros fl FM FJ.
    unfold column_program in FM. destruct ((m =? 0) || (k =? 0)) eqn:C.
    + replace k with 0 by lia. cbn [filter] in FM. destruct fl; [|discriminate]. cbn [fold_left sum]. ring.
    + rewrite steps_at in FM by auto. destruct fl as [|[l1 s1] [|[l2 s2] [|]]]; try discriminate. cbn [map snd] in FM. injection FM as -> ->.
      pose proof (FJ _ (or_introl eq_refl)) as J1. pose proof (FJ _ (or_intror (or_introl eq_refl))) as J2. cbn [fst] in J1, J2. subst l1 l2.
      cbn [fold_left fn fst snd]. ring.
  - intros p Hp. rewrite P, filter_none; [rewrite (O1 p Hp); destruct (nth_error c p); auto|].
    intros [l s] H. apply IN in H. cbn [fst snd] in *. apply Nat.eqb_neq. unfold loc. cbn [fst snd]. intros C.
    apply (Hp (sidx s) l); try lia.
Qed.

Lemma mat_flip o t ld m i j : mat conj o t ld 0 m i j = mat conj (match o with RowMajor => ColMajor | ColMajor => RowMajor end) t ld 0 m j i.
Proof. unfold mat. destruct o, (is_trans t); reflexivity. Qed.

Lemma gemm_ok o ta tb m n k alpha a lda b ldb beta c ldc sched f g :
  match o with RowMajor => gemm_right ta tb | ColMajor => gemm_right tb ta end \/ (forall x, conj x = x) ->
  is_matrix conj o ta lda a m k f -> is_matrix conj o tb ldb b k n g ->
  match o with RowMajor => n | ColMajor => m end <= ldc ->
  (forall i j, i < m -> j < n -> match o with RowMajor => i * ldc + j | ColMajor => j * ldc + i end < length c) ->
  interleaving (match o with RowMajor => n | ColMajor => m end) (column_program (match o with RowMajor => m | ColMajor => n end) k) sched ->
  exists c', gemm zero one add mul is_zero conj o ta tb m n k alpha a lda b ldb beta c ldc sched = Ok c' /\ length c' = length c /\
    (forall i j, i < m -> j < n -> nth_error c' (match o with RowMajor => i * ldc + j | ColMajor => j * ldc + i end)
       = option_map (fun v => beta *! v +! alpha *! Sum k (fun h => f i h *! g h j)) (nth_error c (match o with RowMajor => i * ldc + j | ColMajor => j * ldc + i end))) /\
    outside_kept o ldc m n c c'.
Proof.
  intros HR HA HB HL HC HS. unfold gemm. destruct ((m =? 0) || (n =? 0)) eqn:Z.
  { exists c. split; [auto|]. split; [auto|]. split; [intros; lia|]. intros p _. reflexivity. }
  destruct o.
  - apply gemm_body_ok; auto.
  - destruct (gemm_body_ok tb ta n m k alpha b ldb a lda beta c ldc sched (fun j h => g h j) (fun h i => f i h)) as (c' & E & L & P & O); auto.
    + intros i j Hi Hj. rewrite mat_flip. apply HB; auto.
    + intros i j Hi Hj. rewrite mat_flip. apply HA; auto.
    + exists c'. split; [auto|]. split; [auto|]. split.
      * intros i j Hi Hj. rewrite (P j i Hj Hi). destruct (nth_error c (j * ldc + i)); auto. cbn [option_map]. do 3 f_equal.
        apply sum_ext. intros h _. ring.
      * intros p Hp. apply O. intros i j Hi Hj. apply (Hp j i Hj Hi).
Qed.
End Conj.

(** ** ArrayMultiply and dot *)
Local Notation product := (product one mul).
Lemma dotHelper_fold e : dotHelper one mul e = (Nat.odd (transposes e), product (factors e), base e).
Proof.
  induction e as [a|e IH f|e IH f]; cbn [dotHelper transposes factors base]; auto; rewrite IH; auto.
  rewrite Nat.odd_succ, <- Nat.negb_odd. destruct (Nat.odd (transposes e)); reflexivity.
Qed.
Lemma lshape_fold (e : @lexpr A) : lshape e = if Nat.odd (transposes e) then rev (fst (base e)) else fst (base e).
Proof.
  induction e as [a|e IH f|e IH f]; cbn [lshape transposes base]; auto. rewrite IH, Nat.odd_succ, <- Nat.negb_odd.
  destruct (Nat.odd (transposes e)); cbn [negb]; auto. apply rev_involutive.
Qed.
Lemma lvalue_fold e idx : lvalue mul e idx
  = option_map (mul (product (factors e))) (element (fst (base e)) (snd (base e)) (if Nat.odd (transposes e) then rev idx else idx)).
Proof.
  revert idx. induction e as [a|e IH f|e IH f]; intros idx; cbn [lvalue transposes base factors].
  - cbn [Nat.odd Nat.even negb product fold_right]. destruct (element _ _ idx); auto. cbn [option_map]. f_equal. ring.
  - rewrite IH, Nat.odd_succ, <- Nat.negb_odd. destruct (Nat.odd (transposes e)); cbn [negb]; rewrite ?rev_involutive.
    all: change (product (f :: factors e)) with (f *! product (factors e)); destruct (element _ _ _); auto; cbn [option_map]; f_equal; ring.
  - rewrite IH. change (product (f :: factors e)) with (f *! product (factors e)). destruct (element _ _ _); auto; cbn [option_map]; f_equal; ring.
Qed.

Lemma ext0 asserts x l : extent asserts (x :: l) 0 = Ok x.
Proof. destruct asserts; reflexivity. Qed.
Lemma ext1 asserts x y l : extent asserts (x :: y :: l) 1 = Ok y.
Proof.
  unfold extent. replace (1 <? Z.of_nat (length (x :: y :: l)))%Z with true by (cbn [length]; lia). rewrite !check_true. reflexivity.
Qed.
Lemma ext1_short asserts x : extent asserts [x] 1 = if asserts then Throw OutOfRange else UB.
Proof. destruct asserts; reflexivity. Qed.

Local Notation sh t x y := (if t return list N then [y; x] else [x; y])%N (only parsing).
Lemma ext_r asserts (t : bool) x y : extent asserts (sh t x y) (if t then 1 else 0)%Z = Ok x.
Proof. destruct t; rewrite ?ext0, ?ext1; auto. Qed.
Lemma ext_c asserts (t : bool) x y : extent asserts (sh t x y) (1 - (if t then 1 else 0))%Z = Ok y.
Proof. destruct t; [apply ext0|apply ext1]. Qed.
Lemma ext_l asserts (t : bool) x y : extent asserts (sh t x y) 1%Z = Ok (if t then x else y).
Proof. destruct t; rewrite ?ext0, ?ext1; auto. Qed.

(** What a matrix operand boils down to *)
Lemma lmatrix_raw e rows cols f : lmatrix mul e rows cols f ->
  let t := Nat.odd (transposes e) in
  fst (base e) = (if t then [cols; rows] else [rows; cols]) /\ (rows * cols < 2 ^ 32)%N /\
  length (snd (base e)) = N.to_nat rows * N.to_nat cols /\
  exists g, is_matrix (fun x => x) RowMajor (if t then Trans else NoTrans) (N.to_nat (if t then rows else cols)) (snd (base e)) (N.to_nat rows) (N.to_nat cols) g /\
    forall i j, i < N.to_nat rows -> j < N.to_nat cols -> f i j = product (factors e) *! g i j.
Proof.
  intros ((W1 & W2) & HS & HV) t.
  assert (SH : fst (base e) = if t then [cols; rows] else [rows; cols]).
  { rewrite lshape_fold in HS. unfold t. destruct (Nat.odd (transposes e)); auto. rewrite <- (rev_involutive (fst (base e))), HS. reflexivity. }
  assert (PR : prod (fst (base e)) = (rows * cols)%N) by (rewrite SH; destruct t; cbn [prod]; lia).
  split; [exact SH|]. split; [lia|]. split; [lia|].
  exists (fun i j => nth (if t then j * N.to_nat rows + i else i * N.to_nat cols + j) (snd (base e)) zero).
  assert (G : forall i j, i < N.to_nat rows -> j < N.to_nat cols ->
    nth_error (snd (base e)) (if t then j * N.to_nat rows + i else i * N.to_nat cols + j)
    = Some (nth (if t then j * N.to_nat rows + i else i * N.to_nat cols + j) (snd (base e)) zero)).
  { intros i j Hi Hj. apply nth_error_nth'. destruct t; nia. }
  split.
  - intros i j Hi Hj. specialize (G i j Hi Hj). unfold mat. destruct t; cbn [is_trans is_conj]; rewrite Nat.add_0_l, G; reflexivity.
  - intros i j Hi Hj. specialize (HV (N.of_nat i) (N.of_nat j) ltac:(lia) ltac:(lia)). rewrite lvalue_fold in HV. fold t in HV.
    rewrite SH in HV. unfold element in HV. specialize (G i j Hi Hj).
    replace (N.to_nat (position (if t then rev [N.of_nat i; N.of_nat j] else [N.of_nat i; N.of_nat j]) (if t then [cols; rows] else [rows; cols])))
      with (if t then j * N.to_nat rows + i else i * N.to_nat cols + j) in HV by (destruct t; cbn [rev app position prod]; lia).
    rewrite G in HV. cbn [option_map] in HV. injection HV as HV. rewrite HV. f_equal; lia.
Qed.
Lemma lvector_raw e n f : lvector mul e n f ->
  fst (base e) = [n] /\ (n < 2 ^ 32)%N /\ length (snd (base e)) = N.to_nat n /\
  exists g, (forall i, i < N.to_nat n -> nth_error (snd (base e)) i = Some (g i)) /\
    forall i, i < N.to_nat n -> f i = product (factors e) *! g i.
Proof.
  intros ((W1 & W2) & HS & HV).
  assert (SH : fst (base e) = [n]).
  { rewrite lshape_fold in HS. destruct (Nat.odd (transposes e)); auto. rewrite <- (rev_involutive (fst (base e))), HS. reflexivity. }
  assert (PR : prod (fst (base e)) = n) by (rewrite SH; cbn [prod]; lia).
  split; [exact SH|]. split; [lia|]. split; [lia|]. exists (fun i => nth i (snd (base e)) zero).
  assert (G : forall i, i < N.to_nat n -> nth_error (snd (base e)) i = Some (nth i (snd (base e)) zero)) by (intros; apply nth_error_nth'; lia).
  split; auto. intros i Hi. specialize (HV (N.of_nat i) ltac:(lia)). rewrite lvalue_fold, SH in HV. unfold element in HV.
  replace (N.to_nat (position (if Nat.odd (transposes e) then rev [N.of_nat i] else [N.of_nat i]) [n])) with i in HV
    by (destruct (Nat.odd (transposes e)); cbn [rev app position prod]; lia).
  rewrite G in HV by auto. cbn [option_map] in HV. injection HV as HV. rewrite HV. f_equal; lia.
Qed.

Lemma class_mm asserts (ta tb : bool) m k k' n :
  matmulClass asserts ta tb (if ta then [k; m] else [m; k])%N (if tb then [n; k'] else [k'; n])%N
  = do _ <- check asserts RuntimeError (k =? k')%N; Ok GEMM.
Proof. unfold matmulClass. destruct ta, tb; cbn [length Nat.eqb andb negb]; rewrite ?ext0, ?ext1; cbn [bind]; rewrite ?ext0, ?ext1; reflexivity. Qed.
Lemma shape_mm asserts (ta tb : bool) m k k' n :
  calculateShape asserts ta tb (if ta then [k; m] else [m; k])%N (if tb then [n; k'] else [k'; n])%N
  = do _ <- check asserts RuntimeError (k =? k')%N; Ok [m; n].
Proof.
  unfold calculateShape. rewrite class_mm. destruct (check asserts RuntimeError (k =? k')%N); cbn [bind]; auto.
  destruct ta, tb; cbn [negb]; rewrite ?ext0, ?ext1; cbn [bind]; rewrite ?ext0, ?ext1; reflexivity.
Qed.

Lemma dot_mm asserts sched junk e1 e2 m k n f g :
  (forall m n k, interleaving n (column_program m k) (sched m n k)) ->
  lmatrix mul e1 m k f -> lmatrix mul e2 k n g -> (m * n < 2 ^ 32)%N ->
  exists out, dot zero one add mul is_zero asserts sched junk e1 e2 = Ok ([m; n], out) /\ length out = N.to_nat m * N.to_nat n /\
    forall i j, (i < m)%N -> (j < n)%N ->
      element [m; n] out [i; j] = Some (Sum (N.to_nat k) (fun h => f (N.to_nat i) h *! g h (N.to_nat j))).
Proof.
  intros HS H1 H2 HN. unfold dot. rewrite !dotHelper_fold.
  destruct (lmatrix_raw _ _ _ _ H1) as (S1 & B1 & L1 & f' & M1 & F1). destruct (lmatrix_raw _ _ _ _ H2) as (S2 & B2 & L2 & g' & M2 & F2).
  clear H1 H2. set (ta := Nat.odd (transposes e1)) in *. set (tb := Nat.odd (transposes e2)) in *.
  rewrite S1, S2, shape_mm, N.eqb_refl, check_true. cbn [bind].
  assert (SZ : size [m; n] = (m * n)%N).
  { rewrite size_exact; cbn [prod]; [lia|]. eapply N.lt_trans; [|exact (eq_refl : (2 ^ 32 < 2 ^ 64)%N)]. lia. }
  rewrite SZ. set (out := map junk (seq 0 (N.to_nat (m * n)))).
  assert (LO : length out = N.to_nat m * N.to_nat n) by (unfold out; rewrite map_length, seq_length; lia).
  match goal with |- context [sched ?x ?y ?z] => set (sc := sched x y z) end.
  assert (HSC : interleaving (N.to_nat n) (column_program (N.to_nat m) (N.to_nat k)) sc) by (unfold sc; cbn [nth]; destruct ta; apply HS).
  unfold applyTo. cbn [fst snd]. rewrite S1, S2, shape_mm, N.eqb_refl, check_true. cbn [bind].
  rewrite (proj2 (shape_eqb_spec [m; n] [m; n]) eq_refl), check_true. cbn [bind].
  rewrite class_mm, N.eqb_refl, check_true. cbn [bind].
  rewrite (ext_r asserts ta m k). cbn [bind]. rewrite (ext_c asserts tb k n). cbn [bind]. rewrite (ext_c asserts ta m k). cbn [bind].
  rewrite (ext_l asserts ta m k). cbn [bind]. rewrite (ext_l asserts tb k n). cbn [bind]. rewrite ext1. cbn [bind].
  destruct (gemm_ok (fun x => x) (conj eq_refl (conj (fun _ _ => eq_refl) (fun _ _ => eq_refl))) RowMajor (if ta then Trans else NoTrans) (if tb then Trans else NoTrans)
    (N.to_nat m) (N.to_nat n) (N.to_nat k) (product (factors e1) *! product (factors e2)) (snd (base e1)) (N.to_nat (if ta then m else k))
    (snd (base e2)) (N.to_nat (if tb then k else n)) zero out (N.to_nat n)
    sc f' g')
    as (c' & E & L & P & _); auto.
  - intros i j Hi Hj. rewrite LO. nia.
  - rewrite E. cbn [bind]. exists c'. split; [auto|]. split; [lia|]. intros i j Hi Hj. unfold element. cbn [position prod].
    replace (N.to_nat (i * (n * 1) + (j * 1 + 0))) with (N.to_nat i * N.to_nat n + N.to_nat j) by lia.
    rewrite (P (N.to_nat i) (N.to_nat j)) by lia.
    assert (LT : N.to_nat i * N.to_nat n + N.to_nat j < length out) by (rewrite LO; nia).
    destruct (nth_error out _) as [v|] eqn:Ev; [|apply nth_error_None in Ev; lia]. cbn [option_map]. f_equal.
    transitivity (product (factors e1) *! product (factors e2) *! Sum (N.to_nat k) (fun h => f' (N.to_nat i) h *! g' h (N.to_nat j))); [ring|].
    rewrite <- sum_scale. apply sum_ext. intros h Hh. rewrite F1, F2 by lia. ring.
Qed.

Lemma dot_mm_reject sched junk e1 e2 m k k' n f g : lmatrix mul e1 m k f -> lmatrix mul e2 k' n g -> k <> k' ->
  dot zero one add mul is_zero true sched junk e1 e2 = Throw RuntimeError.
Proof.
  intros H1 H2 HK. unfold dot. rewrite !dotHelper_fold.
  destruct (lmatrix_raw _ _ _ _ H1) as (S1 & _). destruct (lmatrix_raw _ _ _ _ H2) as (S2 & _).
  rewrite S1, S2, shape_mm. apply N.eqb_neq in HK. rewrite HK. reflexivity.
Qed.

(** *** Matrix times vector *)
Lemma class_mv asserts (ta tb : bool) m k k' :
  matmulClass asserts ta tb (if ta then [k; m] else [m; k])%N [k']
  = do _ <- check asserts RuntimeError (k =? k')%N; Ok GEMV.
Proof. unfold matmulClass. destruct ta; cbn [length Nat.eqb andb negb]; rewrite ?ext0, ?ext1; cbn [bind]; rewrite ?ext0, ?ext1; reflexivity. Qed.
Lemma shape_mv asserts (ta tb : bool) m k k' :
  calculateShape asserts ta tb (if ta then [k; m] else [m; k])%N [k']
  = do _ <- check asserts RuntimeError (k =? k')%N; Ok [m].
Proof.
  unfold calculateShape. rewrite class_mv. destruct (check asserts RuntimeError (k =? k')%N); cbn [bind]; auto.
  destruct ta; cbn [negb]; rewrite ?ext0, ?ext1; reflexivity.
Qed.

Lemma dot_mv asserts sched junk e1 e2 m k f g :
  lmatrix mul e1 m k f -> lvector mul e2 k g -> (0 < k)%N -> Nat.odd (transposes e1) = false \/ m = k ->
  (m < 2 ^ 32)%N ->
  exists out, dot zero one add mul is_zero asserts sched junk e1 e2 = Ok ([m], out) /\ length out = N.to_nat m /\
    forall i, (i < m)%N -> element [m] out [i] = Some (Sum (N.to_nat k) (fun h => f (N.to_nat i) h *! g h)).
Proof.
  intros H1 H2 HK HT HM. unfold dot. rewrite !dotHelper_fold.
  destruct (lmatrix_raw _ _ _ _ H1) as (S1 & B1 & L1 & f' & M1 & F1). destruct (lvector_raw _ _ _ H2) as (S2 & B2 & L2 & g' & M2 & F2).
  clear H1 H2. set (ta := Nat.odd (transposes e1)) in *. set (tb := Nat.odd (transposes e2)) in *.
  rewrite S1, S2, shape_mv, N.eqb_refl, check_true. cbn [bind].
  assert (SZ : size [m] = m).
  { rewrite size_exact; cbn [prod]; [lia|]. eapply N.lt_trans; [|exact (eq_refl : (2 ^ 32 < 2 ^ 64)%N)]. lia. }
  rewrite SZ. set (out := map junk (seq 0 (N.to_nat m))).
  assert (LO : length out = N.to_nat m) by (unfold out; rewrite map_length, seq_length; lia).
  unfold applyTo. cbn [fst snd]. rewrite S1, S2, shape_mv, N.eqb_refl, check_true. cbn [bind].
  rewrite (proj2 (shape_eqb_spec [m] [m]) eq_refl), check_true. cbn [bind].
  rewrite class_mv, N.eqb_refl, check_true. cbn [bind].
  rewrite (ext_r asserts ta m k). cbn [bind]. rewrite (ext_c asserts ta m k). cbn [bind]. rewrite (ext_l asserts ta m k).
  cbn [bind]. unfold gemv.
  destruct ((N.to_nat m =? 0) || (N.to_nat k =? 0)) eqn:Z.
  { assert (m = 0%N) by lia. subst m. exists out. split; [reflexivity|]. split; [auto|]. intros; lia. }
  destruct (gemv_generic_ok (fun x => x) (conj eq_refl (conj (fun _ _ => eq_refl) (fun _ _ => eq_refl))) RowMajor (if ta then Trans else NoTrans) false
    (N.to_nat m) (N.to_nat k) (product (factors e1) *! product (factors e2)) (snd (base e1)) (N.to_nat (if ta then m else k))
    (snd (base e2)) 0 1 zero out 0 1 f' g') as (y' & E & L & P & _).
  - intros i h Hi Hh. apply M1; destruct ta; cbn [is_trans] in *; destruct HT; try congruence; subst; auto.
  - intros h Hh. exists (g' h). split; auto. rewrite Nat.mul_1_r. apply M2. destruct ta; cbn [is_trans] in *; destruct HT; try congruence; subst; auto.
  - lia.
  - intros i Hi. rewrite LO. destruct ta; cbn [is_trans] in *; destruct HT; try congruence; subst; lia.
  - rewrite E. cbn [bind]. exists y'. split; [auto|]. split; [lia|]. intros i Hi. unfold element. cbn [position prod].
    replace (N.to_nat (i * 1 + 0)) with (0 + N.to_nat i * 1) by lia. rewrite P by (destruct ta; cbn [is_trans] in *; destruct HT; try congruence; subst; lia).
    destruct (nth_error out _) as [v|] eqn:Ev; [|apply nth_error_None in Ev; lia]. cbn [option_map]. f_equal.
    replace (if is_trans (if ta then Trans else NoTrans) then N.to_nat m else N.to_nat k) with (N.to_nat k)
      by (destruct ta; cbn [is_trans] in *; destruct HT; try congruence; subst; auto).
    transitivity (product (factors e1) *! product (factors e2) *! Sum (N.to_nat k) (fun h => f' (N.to_nat i) h *! g' h)); [ring|].
    rewrite <- sum_scale. apply sum_ext. intros h Hh. rewrite F1, F2 by lia. ring.
Qed.
Lemma dot_mv_reject sched junk e1 e2 m k k' f g : lmatrix mul e1 m k f -> lvector mul e2 k' g -> k <> k' ->
  dot zero one add mul is_zero true sched junk e1 e2 = Throw RuntimeError.
Proof.
  intros H1 H2 HK. unfold dot. rewrite !dotHelper_fold.
  destruct (lmatrix_raw _ _ _ _ H1) as (S1 & _). destruct (lvector_raw _ _ _ H2) as (S2 & _).
  rewrite S1, S2, shape_mv. apply N.eqb_neq in HK. rewrite HK. reflexivity.
Qed.
(** vector times matrix and vector times vector never return *)
Lemma dot_vm_never asserts sched junk e1 e2 m k n f g : lvector mul e1 m f -> lmatrix mul e2 k n g ->
  forall r, dot zero one add mul is_zero asserts sched junk e1 e2 <> Ok r.
Proof.
  intros H1 H2 r. unfold dot. rewrite !dotHelper_fold.
  destruct (lvector_raw _ _ _ H1) as (S1 & _). destruct (lmatrix_raw _ _ _ _ H2) as (S2 & _). rewrite S1, S2.
  unfold calculateShape, matmulClass.
  destruct (Nat.odd (transposes e1)), (Nat.odd (transposes e2)); cbn [length Nat.eqb andb negb]; rewrite ?ext0, ?ext1; cbn [bind];
    (match goal with |- context [check asserts RuntimeError ?c] => destruct (check asserts RuntimeError c) as [[]| |] eqn:C; cbn [bind]; try discriminate end);
    rewrite ?ext1_short, ?ext0; cbn [bind]; try (destruct asserts; discriminate);
    unfold applyTo, calculateShape, matmulClass; cbn [fst snd]; rewrite S1, S2; cbn [length Nat.eqb andb negb]; rewrite ?ext0, ?ext1, ?C; cbn [bind]; rewrite ?C; cbn [bind];
    rewrite ?ext0; cbn [bind]; rewrite (proj2 (shape_eqb_spec [m] [m]) eq_refl), check_true; cbn [bind]; rewrite ?C; cbn [bind];
    rewrite ?ext0; cbn [bind Z.sub Z.opp Z.add]; rewrite ext1_short; destruct asserts; discriminate.
Qed.
Lemma dot_vv_never asserts sched junk e1 e2 m k f g : lvector mul e1 m f -> lvector mul e2 k g ->
  forall r, dot zero one add mul is_zero asserts sched junk e1 e2 <> Ok r.
Proof.
  intros H1 H2 r. unfold dot. rewrite !dotHelper_fold.
  destruct (lvector_raw _ _ _ H1) as (S1 & _). destruct (lvector_raw _ _ _ H2) as (S2 & _). rewrite S1, S2.
  unfold calculateShape, matmulClass. cbn [length Nat.eqb andb negb]. rewrite ?ext0; cbn [bind].
  destruct (check asserts RuntimeError (m =? k)%N) as [[]| |] eqn:C; cbn [bind]; try discriminate.
  unfold applyTo, calculateShape, matmulClass. cbn [fst snd]. rewrite S1, S2. cbn [length Nat.eqb andb negb]. rewrite ?ext0; cbn [bind]. rewrite C. cbn [bind].
  rewrite (proj2 (shape_eqb_spec [1%N] [1%N]) eq_refl), check_true. cbn [bind]. rewrite ?C. discriminate.
Qed.

(** *** Folding: dot of lazy operands is dot of the evaluated operands *)
Local Notation evaluated := (evaluated mul).
Lemma evaluated_matrix e a rows cols f : evaluated e a -> lmatrix mul e rows cols f -> lmatrix mul (LArr a) rows cols f.
Proof.
  intros (W & S1 & V) (_ & S2 & F). split; [exact W|]. split; [cbn [lshape]; congruence|]. intros i j Hi Hj. cbn [lvalue].
  rewrite V; auto. rewrite S1, S2. repeat constructor; auto.
Qed.
Lemma lmatrix_exists e rows cols : array (base e) -> lshape e = [rows; cols] -> exists f, lmatrix mul e rows cols f.
Proof.
  intros W SH. exists (fun i j => match lvalue mul e [N.of_nat i; N.of_nat j] with Some x => x | None => zero end).
  split; [auto|]. split; [auto|]. intros i j Hi Hj. rewrite !N2Nat.id. destruct (lvalue mul e [i; j]) eqn:E; auto. exfalso.
  rewrite lvalue_fold in E. destruct W as (W1 & W2). rewrite lshape_fold in SH.
  destruct (element (fst (base e)) (snd (base e)) (if Nat.odd (transposes e) then rev [i; j] else [i; j])) eqn:E'; [discriminate|].
  unfold element in E'. apply nth_error_None in E'. revert W1 E'. destruct (Nat.odd (transposes e)).
  - assert (SB : fst (base e) = [cols; rows]) by (rewrite <- (rev_involutive (fst (base e))), SH; reflexivity). rewrite SB. cbn [prod rev app position]. nia.
  - rewrite SH. cbn [prod position]. nia.
Qed.

Lemma dot_folds asserts sched junk e1 e2 a1 a2 m k n :
  (forall m n k, interleaving n (column_program m k) (sched m n k)) ->
  array (base e1) -> lshape e1 = [m; k] -> array (base e2) -> lshape e2 = [k; n] -> (m * n < 2 ^ 32)%N ->
  evaluated e1 a1 -> evaluated e2 a2 ->
  dot zero one add mul is_zero asserts sched junk e1 e2 = dot zero one add mul is_zero asserts sched junk (LArr a1) (LArr a2).
Proof.
  intros HS W1 S1 W2 S2 HN E1 E2. destruct (lmatrix_exists e1 m k W1 S1) as (f & F). destruct (lmatrix_exists e2 k n W2 S2) as (g & G).
  destruct (dot_mm asserts sched junk e1 e2 m k n f g HS F G HN) as (o1 & -> & L1 & P1).
  destruct (dot_mm asserts sched junk (LArr a1) (LArr a2) m k n f g HS (evaluated_matrix _ _ _ _ _ E1 F) (evaluated_matrix _ _ _ _ _ E2 G) HN) as (o2 & -> & L2 & P2).
  do 2 f_equal. apply (list_eq_nth zero); [congruence|]. intros p Hp. rewrite L1 in Hp.
  assert (n <> 0%N) by nia.
  set (i := (N.of_nat p / n)%N). set (j := (N.of_nat p mod n)%N).
  assert (DM : N.of_nat p = (n * i + j)%N) by (apply N.div_mod'; auto).
  assert (Hj : (j < n)%N) by (apply N.mod_lt; auto). assert (Hi : (i < m)%N) by nia.
  specialize (P1 i j Hi Hj). specialize (P2 i j Hi Hj). unfold element in P1, P2. cbn [position prod] in P1, P2.
  replace (N.to_nat (i * (n * 1) + (j * 1 + 0))) with p in P1, P2 by lia.
  apply nth_error_nth with (d := zero) in P1. apply nth_error_nth with (d := zero) in P2. congruence.
Qed.

(** ** The gemv kernel *)
Lemma gemv_kernel_ok tr M N alpha a lda x ix beta iy items y f g :
  is_matrix (fun x => x) RowMajor (if tr : bool then Trans else NoTrans) lda a M N f ->
  (forall j, j < N -> nth_error x (j * ix) = Some (g j)) -> 0 < iy -> (forall i, i < M -> i * iy < length y) ->
  NoDup items -> (forall i, i < M -> In i items) ->
  exists y', gemv_kernel zero add mul tr M N alpha a lda x ix beta iy items y = Ok y' /\ length y' = length y /\
    (forall i, i < M -> nth_error y' (i * iy) = option_map (fun v => alpha *! Sum N (fun h => f i h *! g h) +! beta *! v) (nth_error y (i * iy))) /\
    (forall p, (forall i, i < M -> p <> i * iy) -> nth_error y' p = nth_error y p).
Proof.
  intros HA HX HI HY ND HM. unfold gemv_kernel.
  assert (EQ : forall items y, for_list items (gemv_item zero add mul tr M N alpha a lda x ix beta iy) y
    = for_list (filter (fun i => i <? M) items) (gemv_item zero add mul tr M N alpha a lda x ix beta iy) y).
  { clear. induction items as [|i l IH]; intros y; auto. cbn [for_list filter]. destruct (i <? M) eqn:E; cbn [for_list]; [|unfold gemv_item at 1; rewrite E; cbn [bind]; auto].
    destruct (gemv_item _ _ _ _ _ _ _ _ _ _ _ _ _ i y); cbn [bind]; auto. }
  rewrite EQ. clear EQ.
  destruct (for_list_cells (gemv_item zero add mul tr M N alpha a lda x ix beta iy) (fun i => i * iy)
     (fun i v => alpha *! Sum N (fun h => f i h *! g h) +! beta *! v) (length y) (filter (fun i => i <? M) items)) with (out := y) as (y' & E & L & P); auto.
  { intros i out Hi Lo. apply filter_In in Hi. destruct Hi as (_ & Hi). assert (Hi' : i < M) by lia.
    destruct (nth_error out (i * iy)) as [v|] eqn:Ev; [|apply nth_error_None in Ev; specialize (HY i Hi'); lia]. exists v. split; auto.
    unfold gemv_item. rewrite Hi.
    destruct (for_range_inv (fun k s => s = Sum k (fun h => f i h *! g h))
      (fun j acc => do u <- rd a (if tr then j * lda + i else i * lda + j); do v0 <- rd x (j * ix); Ok (acc +! u *! v0)) 0 N zero) as (s & Es & Hs); [lia| |reflexivity|].
    - intros h s Hh ->. exists (Sum (S h) (fun h => f i h *! g h)). split; auto. unfold rd.
      pose proof (HA i h Hi' ltac:(lia)) as HH. apply mat_raw in HH. destruct HH as (u & Eu & Ef).
      replace (nth_error a (if tr then h * lda + i else i * lda + h)) with (Some u) by (rewrite <- Eu; destruct tr; reflexivity).
      rewrite HX by lia. cbn [bind sum]. rewrite Ef. destruct tr; reflexivity.
    - rewrite Es. cbn [bind]. subst s. unfold rd. rewrite Ev. cbn [bind]. rewrite wr_Ok; auto. apply nth_error_Some. congruence. }
  exists y'. split; [auto|]. split; [auto|].
  assert (NF : NoDup (filter (fun i => i <? M) items)) by (apply NoDup_filter; auto).
  split.
  - intros i Hi. rewrite P.
    rewrite (filter_ext_in' _ (fun o => o =? i)) by (intros o _; destruct (Nat.eqb_spec o i) as [->|]; [apply Nat.eqb_refl|apply Nat.eqb_neq; nia]).
    rewrite (filter_unique (fun o => o)); [reflexivity|rewrite map_id; auto|]. apply filter_In. split; auto. lia.
  - intros p Hp. rewrite P, filter_none; [destruct (nth_error y p); auto|]. intros o Ho. apply filter_In in Ho. destruct Ho as (_ & Ho).
    apply Nat.eqb_neq. intros C. apply (Hp o); [lia|auto].
Qed.

(** ** The gemm kernel *)
Lemma load_ok TS M N a lda b ldb t f g : M <= TS -> N <= TS ->
  is_matrix (fun x => x) RowMajor NoTrans lda a M TS f -> is_matrix (fun x => x) RowMajor NoTrans ldb b TS N g ->
  load_tiles zero TS false false M N TS a lda b ldb 0 0 t = Ok tt.
Proof.
  intros HM HN HA HB. unfold load_tiles.
  assert (G : forall n body, (forall i, i < n -> body i tt = Ok tt) -> for_range 0 n body tt = Ok tt).
  { intros n body H. destruct (for_range_inv (fun _ (_ : unit) => True) body 0 n tt) as ([] & E & _); auto; [lia|].
    intros i [] Hi _. exists tt. split; auto. apply H. lia. }
  apply G. intros iby Hy. apply G. intros ibx Hx. unfold asub, bsub. cbn [Nat.mul Nat.add].
  destruct ((t * TS + ibx <? TS) && (iby <? M)) eqn:E1.
  - assert (t = 0) by nia. subst t. cbn [Nat.mul Nat.add] in *. pose proof (HA iby ibx ltac:(lia) ltac:(lia)) as H1. apply mat_raw in H1. destruct H1 as (u & Eu & _).
    cbn [is_trans Nat.add] in Eu. unfold rd at 1. rewrite Eu. cbn [bind].
    destruct ((ibx <? TS) && (ibx <? N)) eqn:E2; auto. pose proof (HB iby ibx ltac:(lia) ltac:(lia)) as H2. apply mat_raw in H2. destruct H2 as (v & Ev & _).
    cbn [is_trans Nat.add] in Ev. unfold rd. rewrite Ev. reflexivity.
  - cbn [bind]. destruct ((t * TS + ibx <? TS) && (ibx <? N)) eqn:E2; auto. assert (t = 0) by nia. subst t. cbn [Nat.mul Nat.add] in *.
    pose proof (HB iby ibx ltac:(lia) ltac:(lia)) as H2. apply mat_raw in H2. destruct H2 as (v & Ev & _). cbn [is_trans Nat.add] in Ev. unfold rd. rewrite Ev. reflexivity.
Qed.

Lemma acc_ok TS tiles M N a lda b ldb lx ly f g : 0 < tiles -> M <= TS -> N <= TS -> ly < TS -> lx < TS ->
  is_matrix (fun x => x) RowMajor NoTrans lda a M TS f -> is_matrix (fun x => x) RowMajor NoTrans ldb b TS N g ->
  exists acc, gemm_acc zero add mul TS tiles false false M N TS a lda b ldb 0 0 lx ly = Ok acc /\
    (ly < M -> lx < N -> acc = Sum TS (fun h => f ly h *! g h lx)).
Proof.
  intros HT HM HN Hy Hx HA HB. unfold gemm_acc.
  set (u := fun h => if ly <? M then f ly h else zero). set (v := fun h => if lx <? N then g h lx else zero).
  match goal with |- context [for_range 0 tiles ?b zero] => destruct (for_range_inv (fun t s => s = if t =? 0 then zero else Sum TS (fun h => u h *! v h)) b 0 tiles zero) as (s & E & Hs); [lia| |reflexivity|] end.
  - intros t s Ht ->. exists (Sum TS (fun h => u h *! v h)). split; auto. rewrite (load_ok TS M N a lda b ldb t f g) by auto. cbn [bind].
    destruct (Nat.eqb_spec t 0) as [->|Nt].
    + match goal with |- for_range 0 TS ?b zero = _ => destruct (for_range_inv (fun k s => s = Sum k (fun h => u h *! v h)) b 0 TS zero) as (s & E & Hs); [lia| |reflexivity|rewrite E, Hs; auto] end.
      intros j s Hj ->. exists (Sum (S j) (fun h => u h *! v h)). split; auto. cbn [Nat.mul Nat.add]. replace (j <? TS) with true by lia.
      unfold asub, bsub. cbn [Nat.mul Nat.add]. replace (j <? TS) with true by lia. replace (lx <? TS) with true by lia. cbn [andb].
      replace (if ly <? M then rd a (ly * lda + j) else Ok zero) with (Ok (u j)).
      2:{ unfold u. destruct (ly <? M) eqn:C; auto. pose proof (HA ly j ltac:(lia) ltac:(lia)) as H1. apply mat_raw in H1. destruct H1 as (w & Ew & ->).
          cbn [is_trans Nat.add] in Ew. unfold rd. rewrite Ew. reflexivity. }
      cbn [bind]. replace (if lx <? N then rd b (j * ldb + lx) else Ok zero) with (Ok (v j)); [reflexivity|].
      unfold v. destruct (lx <? N) eqn:C; auto. pose proof (HB j lx ltac:(lia) ltac:(lia)) as H1. apply mat_raw in H1. destruct H1 as (w & Ew & ->).
      cbn [is_trans Nat.add] in Ew. unfold rd. rewrite Ew. reflexivity.
    + match goal with |- for_range 0 TS ?b ?z = _ => destruct (for_range_inv (fun k s => s = z) b 0 TS z) as (s & E & Hs); [lia| |reflexivity|rewrite E, Hs; auto] end.
      intros j s Hj ->. eexists. split; [|reflexivity]. replace (t * TS + j <? TS) with false by nia. reflexivity.
  - rewrite E. exists s. split; auto. intros H1 H2. rewrite Hs. replace (tiles =? 0) with false by lia. apply sum_ext. intros h _. unfold u, v.
    replace (ly <? M) with true by lia. replace (lx <? N) with true by lia. reflexivity.
Qed.

Lemma in_gemm_items TS M N gx gy lx ly : In (Item gx gy lx ly) (gemm_items TS M N)
  <-> gx < (N - 1) / TS + 1 /\ gy < (M - 1) / TS + 1 /\ lx < TS /\ ly < TS.
Proof.
  unfold gemm_items. rewrite in_flat_map. split.
  - intros (x1 & H1 & H). apply in_flat_map in H. destruct H as (x2 & H2 & H). apply in_flat_map in H. destruct H as (x3 & H3 & H).
    apply in_map_iff in H. destruct H as (x4 & E & H4). injection E as -> -> -> ->. apply in_seq in H1, H2, H3, H4. lia.
  - intros (H1 & H2 & H3 & H4). exists gx. split; [apply in_seq; lia|]. apply in_flat_map. exists gy. split; [apply in_seq; lia|].
    apply in_flat_map. exists lx. split; [apply in_seq; lia|]. apply in_map. apply in_seq; lia.
Qed.

Lemma gemm_kernel_one_tile TS tiles M N alpha a lda b ldb beta ldc c f g items :
  0 < TS -> 0 < tiles -> M <= TS -> N <= TS -> N <= ldc ->
  is_matrix (fun x => x) RowMajor NoTrans lda a M TS f -> is_matrix (fun x => x) RowMajor NoTrans ldb b TS N g ->
  (forall i j, i < M -> j < N -> i * ldc + j < length c) -> NoDup items -> (forall w, In w items <-> In w (gemm_items TS M N)) ->
  exists c', gemm_kernel zero add mul TS tiles false false M N TS alpha a lda b ldb beta ldc items c = Ok c' /\ length c' = length c /\
    (forall i j, i < M -> j < N -> nth_error c' (i * ldc + j)
      = option_map (fun v => alpha *! Sum TS (fun h => f i h *! g h j) +! beta *! v) (nth_error c (i * ldc + j))) /\
    outside_kept RowMajor ldc M N c c'.
Proof.
  intros HT HTi HM HN HL HA HB HC ND HI. unfold gemm_kernel.
  set (body := gemm_item zero add mul TS tiles false false M N TS alpha a lda b ldb beta ldc).
  assert (IT : forall w, In w items -> gx w = 0 /\ gy w = 0 /\ lx w < TS /\ ly w < TS).
  { intros [x1 x2 x3 x4] H. apply HI, in_gemm_items in H. cbn [gx gy lx ly].
    assert ((N - 1) / TS = 0) by (destruct N; [apply Nat.div_small; lia|apply Nat.div_small; lia]).
    assert ((M - 1) / TS = 0) by (destruct M; [apply Nat.div_small; lia|apply Nat.div_small; lia]). lia. }
  assert (EQ : forall y, for_list items body y = for_list (filter (fun w => (ly w <? M) && (lx w <? N)) items) body y).
  { clear ND HI. induction items as [|w l IH]; intros y; auto. specialize (IH (fun w H => IT w (or_intror H))).
    cbn [for_list filter]. destruct (IT w (or_introl eq_refl)) as (G1 & G2 & G3 & G4).
    destruct ((ly w <? M) && (lx w <? N)) eqn:E; cbn [for_list].
    - destruct (body w y); cbn [bind]; auto.
    - unfold body at 1. unfold gemm_item. rewrite G1, G2. cbn [Nat.mul Nat.add].
      destruct (acc_ok TS tiles M N a lda b ldb (lx w) (ly w) f g) as (acc & -> & _); auto. cbn [bind]. rewrite E. cbn [bind]. auto. }
  rewrite EQ. clear EQ.
  destruct (for_list_cells body (fun w => ly w * ldc + lx w) (fun w v => alpha *! Sum TS (fun h => f (ly w) h *! g h (lx w)) +! beta *! v)
    (length c) (filter (fun w => (ly w <? M) && (lx w <? N)) items)) with (out := c) as (c' & E & L & P); auto.
  { intros w out Hw Lo. apply filter_In in Hw. destruct Hw as (Hw & Hg). destruct (IT w Hw) as (G1 & G2 & G3 & G4).
    assert (H1 : ly w < M) by lia. assert (H2 : lx w < N) by lia.
    destruct (nth_error out (ly w * ldc + lx w)) as [v|] eqn:Ev; [|apply nth_error_None in Ev; specialize (HC _ _ H1 H2); lia]. exists v. split; auto.
    unfold body, gemm_item. rewrite G1, G2. cbn [Nat.mul Nat.add]. destruct (acc_ok TS tiles M N a lda b ldb (lx w) (ly w) f g) as (acc & -> & Ha); auto.
    cbn [bind]. rewrite Hg, (Ha H1 H2). unfold rd. rewrite Ev. cbn [bind]. rewrite wr_Ok; auto. apply nth_error_Some. congruence. }
  exists c'. split; [auto|]. split; [auto|]. split.
  - intros i j Hi Hj. rewrite P.
    replace (filter _ (filter _ items)) with [Item 0 0 j i]; [reflexivity|]. symmetry.
    rewrite (filter_filter (fun o => ly o * ldc + lx o =? i * ldc + j)).
    assert (IN : In (Item 0 0 j i) items) by (apply HI, in_gemm_items; rewrite !Nat.add_1_r; repeat split; try apply Nat.lt_0_succ; lia).
    clear - ND IN IT Hi Hj HL. revert IN IT. induction ND as [|w l Hn ND IH]; intros IN IT; [destruct IN|]. cbn [filter].
    destruct (IT w (or_introl eq_refl)) as (G1 & G2 & G3 & G4). destruct w as [w1 w2 w3 w4]. cbn [gx gy lx ly] in *. subst w1 w2.
    destruct ((w4 <? M) && (w3 <? N) && (w4 * ldc + w3 =? i * ldc + j)) eqn:C.
    + assert (w4 = i /\ w3 = j) as (-> & ->) by (apply (cell_inj ldc N); lia). f_equal. apply filter_none. intros [o1 o2 o3 o4] Ho.
      destruct (IT _ (or_intror Ho)) as (O1 & O2 & O3 & O4). cbn [gx gy lx ly] in *. subst o1 o2.
      destruct ((o4 <? M) && (o3 <? N) && (o4 * ldc + o3 =? i * ldc + j)) eqn:C2; auto. exfalso. apply Hn.
      assert (o4 = i /\ o3 = j) as (-> & ->) by (apply (cell_inj ldc N); lia). auto.
    + apply IH; [|intros; apply IT; right; auto]. destruct IN as [E|IN]; auto. injection E as -> ->. lia.
  - intros p Hp. rewrite P, filter_none; [destruct (nth_error c p); auto|]. intros w Hw. apply filter_In in Hw. destruct Hw as (_ & Hw).
    apply Nat.eqb_neq. intros C. apply (Hp (ly w) (lx w)); [lia|lia|auto].
Qed.

(** ** geam *)
Local Notation gmatrix := (gmatrix mul).
Lemma map2_nth (h : A -> A -> A) l1 l2 p : length l1 = length l2 ->
  nth_error (map2 h l1 l2) p = match nth_error l1 p, nth_error l2 p with Some x, Some y => Some (h x y) | _, _ => None end.
Proof.
  unfold map2. revert l2 p. induction l1 as [|x l1 IH]; intros [|y l2] p H; cbn [length] in H; try lia; cbn [combine map].
  - destruct p; reflexivity.
  - destruct p; cbn [nth_error]; auto.
Qed.
Lemma map2_length (h : A -> A -> A) l1 l2 : length l1 = length l2 -> length (map2 h l1 l2) = length l1.
Proof. intros H. unfold map2. rewrite map_length, combine_length. lia. Qed.

Lemma geam_ok asserts impl junk a alpha b beta c rows cols f g : good_impl mul impl ->
  gmatrix a rows cols f -> gmatrix b rows cols g -> fst c = [rows; cols] ->
  (match a with GTrans _ own => own = one | _ => True end) -> (match b with GTrans _ own => own = one | _ => True end) ->
  exists out, geam one add mul asserts impl junk a alpha b beta c = Ok ([rows; cols], out) /\ length out = N.to_nat (rows * cols) /\
    forall i j, (i < rows)%N -> (j < cols)%N -> element [rows; cols] out [i; j] = Some (alpha *! f i j +! beta *! g i j).
Proof.
  intros HI (WA & SA & FA) (WB & SB & FB) SC OA OB. unfold geam.
  assert (GS : forall (q : @gop A), fst (gop_array q) = match q with GArr _ => [rows; cols] | GTrans _ _ => [cols; rows] end -> gshape asserts q = Ok [rows; cols]).
  { intros [q|q own] H; cbn [gop_array gshape] in *; rewrite H; auto. unfold output_shape. cbn [length Nat.eqb permute]. rewrite check_true. cbn [bind].
    change (Z.of_N 1) with 1%Z. change (Z.of_N 0) with 0%Z. rewrite ext1. cbn [bind]. rewrite ext0. reflexivity. }
  rewrite (GS a SA), (GS b SB). cbn [bind]. rewrite SC, (proj2 (shape_eqb_spec [rows; cols] [rows; cols]) eq_refl), !check_true. cbn [bind length Nat.eqb]. rewrite ?check_true. cbn [bind].
  assert (LN : forall (q : @gop A), array (gop_array q) -> fst (gop_array q) = match q with GArr _ => [rows; cols] | GTrans _ _ => [cols; rows] end ->
    length (snd (gop_array q)) = N.to_nat (rows * cols)).
  { intros q (W & _) H. rewrite H in W. destruct q; cbn [prod] in W; lia. }
  pose proof (LN a WA SA) as LA. pose proof (LN b WB SB) as LB.
  assert (POS : forall i j r s, N.to_nat (position [i; j] [r; s]) = N.to_nat i * N.to_nat s + N.to_nat j) by (intros; cbn [position prod]; lia).
  (* the value of a scaled operand at (i, j) *)
  assert (SCL : forall (l : list A) k p x, nth_error l p = Some x -> nth_error (map (fun v => v *! k) l) p = Some (k *! x)).
  { intros l k p x H. rewrite nth_error_map, H. cbn [option_map]. f_equal. ring. }
  assert (TRA : forall q k h, array q -> fst q = [cols; rows] -> (forall i j, (i < rows)%N -> (j < cols)%N -> element (fst q) (snd q) [j; i] = Some (h i j)) ->
    exists t, eval_transpose asserts impl junk q [1; 0]%N k = Ok t /\ fst t = [rows; cols] /\ length (snd t) = N.to_nat (rows * cols) /\
      forall i j, (i < rows)%N -> (j < cols)%N -> nth_error (snd t) (N.to_nat i * N.to_nat cols + N.to_nat j) = Some (k *! h i j)).
  { intros q k h W S H. destruct (eval_transpose_ok mul asserts impl junk q k cols rows HI W S) as (t & E & _ & (Wt & _) & (T1 & T2) & St).
    exists t. split; [auto|]. split; [auto|]. split; [lia|]. intros i j Hi Hj. specialize (H i j Hi Hj). rewrite S in H. unfold element in H. rewrite POS in H.
    destruct (T2 (N.to_nat j) (N.to_nat i)) as (x & E1 & E2); [lia|lia|]. rewrite E2. unfold shape in *. rewrite E1 in H. injection H as <-. f_equal. ring. }
  assert (CELL : forall i j, (i < rows)%N -> (j < cols)%N -> N.to_nat i * N.to_nat cols + N.to_nat j < N.to_nat (rows * cols)) by (intros; nia).
  destruct a as [a|a oa], b as [b|b ob]; cbn [gop_array] in *.
  - eexists. split; [reflexivity|]. split; [rewrite map2_length; rewrite !map_length; lia|]. intros i j Hi Hj.
    specialize (FA i j Hi Hj). specialize (FB i j Hi Hj). rewrite SA in FA. rewrite SB in FB. unfold element in *. rewrite POS in *.
    rewrite map2_nth by (rewrite !map_length; lia). rewrite (SCL _ alpha _ _ FA), (SCL _ beta _ _ FB). reflexivity.
  - destruct (TRA b beta g WB SB) as (t & -> & St & Lt & Pt).
    { intros i j Hi Hj. specialize (FB i j Hi Hj). destruct (element (fst b) (snd b) [j; i]); cbn [option_map] in FB; [|discriminate]. injection FB as <-. subst ob. f_equal. ring. }
    cbn [bind]. eexists. split; [reflexivity|]. split; [rewrite map2_length; rewrite !map_length; lia|]. intros i j Hi Hj.
    specialize (FA i j Hi Hj). rewrite SA in FA. unfold element in *. rewrite POS in *.
    rewrite map2_nth by (rewrite !map_length; lia). rewrite (SCL _ alpha _ _ FA), (Pt i j Hi Hj). reflexivity.
  - destruct (TRA a alpha f WA SA) as (t & -> & St & Lt & Pt).
    { intros i j Hi Hj. specialize (FA i j Hi Hj). destruct (element (fst a) (snd a) [j; i]); cbn [option_map] in FA; [|discriminate]. injection FA as <-. subst oa. f_equal. ring. }
    cbn [bind]. eexists. split; [reflexivity|]. split; [rewrite map2_length; rewrite ?map_length; lia|]. intros i j Hi Hj.
    specialize (FB i j Hi Hj). rewrite SB in FB. unfold element in *. rewrite POS in *.
    rewrite map2_nth by (rewrite ?map_length; lia). rewrite (SCL _ beta _ _ FB), (Pt i j Hi Hj). reflexivity.
  - destruct (TRA (fst a, map2 add (map (fun v => v *! alpha) (snd a)) (map (fun v => v *! beta) (snd b))) one
       (fun i j => alpha *! f i j +! beta *! g i j)) as (t & -> & St & Lt & Pt).
    + destruct WA as (W1 & W2). split; cbn [fst snd]; auto. rewrite map2_length, map_length by (rewrite !map_length; lia). auto.
    + auto.
    + intros i j Hi Hj. specialize (FA i j Hi Hj). specialize (FB i j Hi Hj). cbn [fst snd]. rewrite SA in *. rewrite SB in *. unfold element in *. rewrite POS in *.
      rewrite map2_nth by (rewrite !map_length; lia).
      destruct (nth_error (snd a) _) as [x|] eqn:X; [|discriminate]. destruct (nth_error (snd b) _) as [y|] eqn:Y; [|discriminate].
      cbn [option_map] in FA, FB. injection FA as <-. injection FB as <-. subst oa ob. rewrite (SCL _ alpha _ _ X), (SCL _ beta _ _ Y). f_equal. ring.
    + destruct t as [ts td]. cbn [fst snd] in *. subst ts. exists td. split; [auto|]. split; [auto|]. intros i j Hi Hj. unfold element. rewrite POS.
      rewrite (Pt i j Hi Hj). f_equal. ring.
Qed.
End Ring.

Lemma gshape_cases {A} (g : @gop A) :
  (exists s, gshape true g = Ok s /\ forall r c, s = [r; c] -> op_shape g r c) \/ gshape true g = Throw RuntimeError.
Proof.
  destruct g as [[s d]|[s d] own]; cbn [gshape fst].
  - left. exists s. split; [reflexivity|]. intros r c ->. reflexivity.
  - unfold output_shape. destruct s as [|x [|y [|z s]]]; try (right; reflexivity).
    left. exists [y; x]. split; [reflexivity|]. intros r c [= -> ->]. reflexivity.
Qed.
Lemma geam_checks {A} (one : A) add mul impl junk (a : @gop A) alpha b beta c :
  (exists rows cols, op_shape a rows cols /\ op_shape b rows cols /\ fst c = [rows; cols])
  \/ geam one add mul true impl junk a alpha b beta c = Throw RuntimeError.
Proof.
  unfold geam. destruct (gshape_cases a) as [(sa & Ea & Ha)|Ea]; rewrite Ea; cbn [bind]; [|now right].
  destruct (gshape_cases b) as [(sb & Eb & Hb)|Eb]; rewrite Eb; cbn [bind]; [|now right].
  destruct (shape_eqb sa sb) eqn:E1; [|now right]. apply shape_eqb_spec in E1. subst sb. cbn [check bind].
  destruct (length sa =? 2) eqn:E2; [|now right]. cbn [bind].
  destruct (shape_eqb sa (fst c)) eqn:E3; [|now right]. apply shape_eqb_spec in E3.
  left. destruct sa as [|r [|cc [|z s]]]; try discriminate E2. exists r, cc. auto.
Qed.
