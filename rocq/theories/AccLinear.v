(** Matrix products and vector sums over a type whose addition and multiplication satisfy no laws
    except those of the neutral elements: the value of every element, in the order it is computed. *)
From Coq Require Import Permutation.
From Verif Require Import Base BaseProofs ShapeModel ShapeSpec ShapeProofs ViewModel ViewSpec ViewProofs.
From Verif Require Import MatmulModel MatmulSpec MatmulProofs AccSpec.
From Verif Require VectorModel VectorSpec VectorProofs.
From Coq Require Import ZifyNat ZifyN ZifyBool.
Ltac Zify.zify_post_hook ::= idtac.
Local Open Scope nat_scope.

Section LawFree.
Context {A : Type} (zero one : A) (add mul : A -> A -> A) (is_zero : A -> bool).
Local Notation Sum := (sum zero add).
Local Notation id := (fun x : A => x).

Lemma lf_dot n x px ix y py iy f g :
  (forall i, i < n -> nth_error x (px + i * ix) = Some (f i)) ->
  (forall i, i < n -> nth_error y (py + i * iy) = Some (g i)) ->
  dot_generic zero add mul id false n x px ix y py iy = Ok (Sum n (fun i => mul (f i) (g i))).
Proof.
  intros HX HY. unfold dot_generic.
  destruct (for_range_inv (fun k s => s = Sum k (fun i => mul (f i) (g i)))
    (fun i r => do a <- rd x (px + i * ix); do b <- rd y (py + i * iy); Ok (add r (mul a b))) 0 n zero) as (s & E & Hs).
  - lia.
  - intros k s Hk ->. exists (Sum (S k) (fun i => mul (f i) (g i))). split; auto.
    unfold rd. rewrite HX, HY by lia. reflexivity.
  - reflexivity.
  - rewrite E, Hs. reflexivity.
Qed.

Definition scaled (alpha v : A) : A := if is_zero alpha then zero else mul v alpha.
Lemma lf_scal_cell alpha p y v : nth_error y p = Some v -> scal_cell zero mul is_zero alpha p y = Ok (upd y p (scaled alpha v)).
Proof.
  intros E. assert (L : p < length y) by (apply nth_error_Some; congruence). unfold scal_cell, scaled, rd. rewrite E. cbn [bind].
  destruct (is_zero alpha); rewrite wr_Ok by auto; reflexivity.
Qed.

Lemma lf_gescal m n alpha c ldc : n <= ldc -> (forall i j, i < m -> j < n -> i * ldc + j < length c) ->
  exists c', gescal_init zero mul is_zero m n alpha c ldc = Ok c' /\ length c' = length c /\
    (forall i j, i < m -> j < n -> nth_error c' (i * ldc + j) = option_map (scaled alpha) (nth_error c (i * ldc + j))).
Proof.
  intros HL HB.
  set (loc := fun ij : nat * nat => fst ij * ldc + snd ij).
  set (ops := flat_map (fun i => map (pair i) (seq 0 n)) (seq 0 m)).
  assert (EQ : gescal_init zero mul is_zero m n alpha c ldc = for_list ops (fun ij y => scal_cell zero mul is_zero alpha (loc ij) y) c).
  { unfold gescal_init. destruct (Nat.eqb_spec ldc n) as [->|N].
    - unfold scal_init. rewrite for_range_list, Nat.sub_0_r.
      assert (E : seq 0 (m * n) = map loc ops).
      { unfold ops. clear HB. induction m as [|m' IH]; auto. replace (S m' * n) with (m' * n + n) by lia.
        rewrite seq_app, seq_S, flat_map_app, map_app, <- IH. f_equal. cbn [flat_map plus]. rewrite app_nil_r, map_map. unfold loc. cbn [fst snd].
        generalize n at 2 4. intros k. apply nth_ext with (d := 0) (d' := 0); [rewrite map_length, !seq_length; auto|].
        intros i Hi. rewrite seq_length in Hi. rewrite seq_nth by auto. erewrite nth_indep with (d' := m' * n + 0) by (rewrite map_length, seq_length; auto).
        rewrite (map_nth (fun x => m' * n + x)), seq_nth by auto. lia. }
      rewrite E. clear. generalize c. induction ops as [|o l IH]; intros c0; auto. cbn [map for_list].
      replace (0 + loc o * 1) with (loc o) by lia. destruct (scal_cell zero mul is_zero alpha (loc o) c0); cbn [bind]; auto.
    - rewrite for_range_list, Nat.sub_0_r. unfold ops.
      etransitivity; [|exact (for_list_flat (seq 0 m) (fun _ => seq 0 n) (fun i j y => scal_cell zero mul is_zero alpha (i * ldc + j) y) c)].
      apply for_list_ext. intros i s _. unfold scal_init. rewrite for_range_list, Nat.sub_0_r. apply for_list_ext. intros j s' _.
        f_equal. lia. }
  assert (IN : forall i j, In (i, j) ops <-> i < m /\ j < n).
  { intros i j. unfold ops. rewrite in_flat_map. split.
    - intros (x & Hx & H). apply in_map_iff in H. destruct H as (y & E & Hy). injection E as <- <-. apply in_seq in Hx, Hy. lia.
    - intros (Hi & Hj). exists i. split; [apply in_seq; lia|]. apply in_map. apply in_seq. lia. }
  rewrite EQ.
  destruct (for_list_cells (fun ij y => scal_cell zero mul is_zero alpha (loc ij) y) loc (fun _ v => scaled alpha v) (length c) ops) with (out := c)
    as (c' & E & L & P); auto.
  { intros [i j] out Ho Lo. apply IN in Ho. destruct (nth_error out (loc (i, j))) as [v|] eqn:Ev.
    - exists v. split; auto. apply lf_scal_cell; auto.
    - apply nth_error_None in Ev. unfold loc in Ev. cbn [fst snd] in Ev. specialize (HB i j (proj1 Ho) (proj2 Ho)). lia. }
  exists c'. split; [auto|]. split; [auto|].
  intros i j Hi Hj. rewrite P.
  rewrite (filter_ext_in' _ (fun ij : nat * nat => (fst ij =? i) && (snd ij =? j))).
  - unfold ops. rewrite pairs_at by auto. reflexivity.
  - intros [i' j'] H. apply IN in H. unfold loc. cbn [fst snd].
    destruct (Nat.eqb_spec i' i) as [->|Ni]; cbn [andb]; [destruct (Nat.eqb_spec j' j); lia|]. apply Nat.eqb_neq. intros C. apply Ni.
    apply (cell_inj ldc n i' j' i j); lia.
Qed.

Lemma lf_row_dot t len alpha a pa lda x px ix beta py iy i f g : is_conj t = false ->
  (forall k, k < len -> mat id RowMajor t lda pa a i k = Some (f k)) ->
  (forall k, k < len -> nth_error x (px + k * ix) = Some (g k)) ->
  row_dot zero add mul id (MV t false len alpha a pa lda x px ix beta py iy) i = Ok (Sum len (fun k => mul (f k) (g k))).
Proof.
  intros T HA HX. unfold row_dot. cbn [v_t v_cx v_len v_a v_pa v_lda v_x v_px v_ix]. rewrite T.
  apply lf_dot; auto. intros k Hk. destruct (mat_raw id _ _ _ _ _ _ _ _ (HA k Hk)) as (y & Ey & E). rewrite T in E. subst y.
  rewrite <- Ey. f_equal. destruct (is_trans t); lia.
Qed.
Lemma lf_step (q : mv) s y d v : row_dot zero add mul id q (sidx s) = Ok d -> nth_error y (v_py q + sidx s * v_iy q) = Some v ->
  mv_step zero add mul is_zero id q s y
  = Ok (upd y (v_py q + sidx s * v_iy q) (match s with Scal _ => scaled (v_beta q) v | Acc _ => add v (mul (v_alpha q) d) end)).
Proof.
  intros ED EV. destruct s as [i|i]; cbn [mv_step sidx] in *.
  - apply lf_scal_cell; auto.
  - rewrite ED. unfold rd. cbn [bind]. rewrite EV. cbn [bind]. rewrite wr_Ok; auto. apply nth_error_Some. congruence.
Qed.

(** The matrix-vector product *)
Lemma lf_gemv t m n alpha a lda x beta y f g : is_conj t = false ->
  let rows := if is_trans t then n else m in
  let len := if is_trans t then m else n in
  (forall i k, i < rows -> k < len -> mat id RowMajor t lda 0 a i k = Some (f i k)) ->
  (forall k, k < len -> nth_error x k = Some (g k)) ->
  (forall i, i < rows -> i < length y) ->
  exists y', gemv_generic zero add mul is_zero id RowMajor t false m n alpha a 0 lda x 0 1 beta y 0 1 = Ok y' /\ length y' = length y /\
    (forall i, i < rows -> nth_error y' i = option_map (fun v => add (scaled beta v) (mul alpha (Sum len (fun k => mul (f i k) (g k))))) (nth_error y i)).
Proof.
  intros T rows len HA HX HY.
  set (q := MV t false len alpha a 0 lda x 0 1 beta 0 1).
  assert (EQ : gemv_generic zero add mul is_zero id RowMajor t false m n alpha a 0 lda x 0 1 beta y 0 1
    = for_list (mv_steps rows) (mv_step zero add mul is_zero id q) y) by reflexivity.
  assert (RD : forall i, i < rows -> row_dot zero add mul id q i = Ok (Sum len (fun k => mul (f i k) (g k)))).
  { intros i Hi. apply (lf_row_dot t len alpha a 0 lda x 0 1 beta 0 1 i (f i) g); auto.
    intros k Hk. rewrite Nat.mul_1_r. apply HX. auto. }
  rewrite EQ.
  set (fn := fun (s : mvstep) v => match s with Scal _ => scaled beta v | Acc i => add v (mul alpha (Sum len (fun k => mul (f i k) (g k)))) end).
  destruct (for_list_cells (mv_step zero add mul is_zero id q) (fun s => sidx s) fn (length y) (mv_steps rows)) with (out := y)
    as (y' & E & L & P); auto.
  { intros s out Hs Lo. apply steps_in in Hs. destruct (nth_error out (sidx s)) as [v|] eqn:Ev.
    - exists v. split; auto. assert (Q : v_py q + sidx s * v_iy q = sidx s) by (cbn; lia).
      rewrite (lf_step q s out _ v (RD _ Hs)) by (rewrite Q; exact Ev). rewrite Q. destruct s; reflexivity.
    - apply nth_error_None in Ev. specialize (HY _ Hs). lia. }
  exists y'. split; [auto|]. split; [auto|].
  intros i Hi. rewrite P, steps_at by auto. reflexivity.
Qed.

(** The matrix product *)
Lemma lf_gemm (ta tb : bool) m n k alpha a lda b ldb beta c ldc sched f g :
  is_matrix id RowMajor (if ta then Trans else NoTrans) lda a m k f -> is_matrix id RowMajor (if tb then Trans else NoTrans) ldb b k n g ->
  n <= ldc -> (forall i j, i < m -> j < n -> i * ldc + j < length c) -> is_zero alpha = false ->
  interleaving n (column_program m k) sched ->
  exists c', gemm_body zero one add mul is_zero id (if ta then Trans else NoTrans) (if tb then Trans else NoTrans) m n k alpha a lda b ldb beta c ldc sched = Ok c' /\
    length c' = length c /\
    (forall i j, i < m -> j < n -> nth_error c' (i * ldc + j)
       = option_map (fun v => if k =? 0 then scaled beta v
                              else add (scaled one (scaled beta v)) (mul alpha (Sum k (fun h => mul (f i h) (g h j))))) (nth_error c (i * ldc + j))).
Proof.
  intros HA HB HL HC Z (HS1 & HS2). unfold gemm_body.
  destruct (lf_gescal m n beta c ldc HL HC) as (c1 & E1 & L1 & P1). rewrite E1. cbn [bind]. rewrite Z.
  set (Ta := if ta then Trans else NoTrans) in *. set (Tb := if tb then Trans else NoTrans) in *.
  set (q := column one Ta Tb k alpha a lda b ldb ldc).
  assert (EC : gemm_call Ta Tb = (Ta, false)) by (unfold Ta, Tb; destruct ta, tb; reflexivity).
  assert (CA : is_conj Ta = false) by (unfold Ta; destruct ta; reflexivity).
  assert (CB : is_conj Tb = false) by (unfold Tb; destruct tb; reflexivity).
  assert (Q : forall l, v_py (q l) = l /\ v_iy (q l) = ldc /\ v_beta (q l) = one /\ v_alpha (q l) = alpha).
  { intros l. unfold q, column. rewrite EC. auto. }
  assert (RD : forall l i, l < n -> i < m -> row_dot zero add mul id (q l) i = Ok (Sum k (fun h => mul (f i h) (g h l)))).
  { intros l i Hl Hi. unfold q, column. rewrite EC.
    apply (lf_row_dot Ta k alpha a 0 lda b _ _ one l ldc i (f i) (fun h => g h l)); auto.
    intros h Hh. destruct (mat_raw id _ _ _ _ _ _ _ _ (HB h l Hh Hl)) as (y & Ey & E). rewrite CB in E. subst y. rewrite <- Ey.
    f_equal. destruct (is_trans Tb); lia. }
  set (loc := fun ls : nat * mvstep => fst ls + sidx (snd ls) * ldc).
  set (fn := fun (ls : nat * mvstep) v => match snd ls with Scal _ => scaled one v | Acc i => add v (mul alpha (Sum k (fun h => mul (f i h) (g h (fst ls))))) end).
  assert (IN : forall ls, In ls sched -> fst ls < n /\ sidx (snd ls) < m /\ k <> 0).
  { intros ls H. specialize (HS1 ls H). split; auto. specialize (HS2 (fst ls) HS1).
    assert (H' : In (snd ls) (column_program m k)).
    { rewrite <- HS2. apply in_map. apply filter_In. split; auto. apply Nat.eqb_refl. }
    unfold column_program in H'. destruct ((m =? 0) || (k =? 0)) eqn:C; [destruct H'|]. split; [apply steps_in; auto|lia]. }
  destruct (for_list_cells (fun ls c => mv_step zero add mul is_zero id (q (fst ls)) (snd ls) c) loc fn (length c1) sched) with (out := c1)
    as (c' & E & L & P); auto.
  { intros [l s] out Ho Lo. apply IN in Ho. cbn [fst snd] in *. destruct Ho as (Hl & Hs & _). destruct (Q l) as (Q1 & Q2 & Q3 & Q4).
    destruct (nth_error out (loc (l, s))) as [v|] eqn:Ev.
    - exists v. split; auto. rewrite (lf_step (q l) s out _ v (RD _ _ Hl Hs)) by (rewrite Q1, Q2; exact Ev).
      rewrite Q1, Q2, Q3, Q4. destruct s; reflexivity.
    - apply nth_error_None in Ev. unfold loc in Ev. cbn [fst snd] in Ev. specialize (HC _ _ Hs Hl). lia. }
  fold q. rewrite E. exists c'. split; [auto|]. split; [lia|].
  intros i j Hi Hj. rewrite P, (P1 i j Hi Hj). destruct (nth_error c (i * ldc + j)) as [v|]; auto. cbn [option_map]. f_equal.
  rewrite (filter_ext_in' _ (fun ls : nat * mvstep => (fst ls =? j) && (sidx (snd ls) =? i))).
  2:{ intros [l s] H. apply IN in H. cbn [fst snd] in *. unfold loc. cbn [fst snd].
      destruct (Nat.eqb_spec l j) as [->|Nl]; cbn [andb].
      - destruct (Nat.eqb_spec (sidx s) i) as [->|Ni]; [apply Nat.eqb_eq; lia|]. apply Nat.eqb_neq. intros C. apply Ni.
        apply (cell_inj ldc n (sidx s) j i j); lia.
      - apply Nat.eqb_neq. intros C. apply Nl. apply (cell_inj ldc n (sidx s) l i j); lia. }
  rewrite <- filter_filter.
  assert (FM : map snd (filter (fun ls : nat * mvstep => sidx (snd ls) =? i) (filter (fun ls => fst ls =? j) sched))
           = filter (fun s => sidx s =? i) (column_program m k)).
  { rewrite <- (HS2 j Hj), filter_map_comm. reflexivity. }
  assert (FJ : forall ls, In ls (filter (fun ls : nat * mvstep => sidx (snd ls) =? i) (filter (fun ls => fst ls =? j) sched)) -> fst ls = j).
  { intros ls H. apply filter_In in H. destruct H as (H & _). apply filter_In in H. destruct H as (_ & H). apply Nat.eqb_eq; auto. }
  revert FM FJ. generalize (filter (fun ls : nat * mvstep => sidx (snd ls) =? i) (filter (fun ls => fst ls =? j) sched)). intros fl FM FJ.
  unfold column_program in FM. destruct ((m =? 0) || (k =? 0)) eqn:C.
  - assert (k = 0) by lia. subst k. cbn [filter] in FM. destruct fl; [|discriminate]. reflexivity.
  - destruct (Nat.eqb_spec k 0) as [->|_]; [lia|].
    rewrite steps_at in FM by auto. destruct fl as [|[l1 s1] [|[l2 s2] [|]]]; try discriminate. cbn [map snd] in FM. injection FM as -> ->.
    pose proof (FJ _ (or_introl eq_refl)) as J1. pose proof (FJ _ (or_intror (or_introl eq_refl))) as J2. cbn [fst] in J1, J2. subst l1 l2.
    reflexivity.
Qed.

(** ** The lazy operands of dot, without factors *)
Hypothesis Z0 : is_zero zero = true.
Hypothesis Z1 : is_zero one = false.
Hypothesis M1 : forall x, mul one x = x.
Hypothesis M0 : mul zero one = zero.
Hypothesis A0 : add zero zero = zero.

Lemma lf_product l : Forall (eq one) l -> product one mul l = one.
Proof. unfold product. induction 1 as [|x l E H IH]; cbn [fold_right]; [auto|]. rewrite <- E, IH. apply M1. Qed.
Lemma lf_lvalue e idx : unscaled one e -> lvalue mul e idx
  = element (fst (base e)) (snd (base e)) (if Nat.odd (transposes e) then rev idx else idx).
Proof.
  unfold unscaled. revert idx. induction e as [a|e IH f|e IH f]; intros idx U; cbn [lvalue transposes base factors] in *; auto.
  - inversion U as [|? ? E U']; subst. rewrite IH by auto. rewrite Nat.odd_succ, <- Nat.negb_odd.
    destruct (Nat.odd (transposes e)); cbn [negb]; rewrite ?rev_involutive; destruct (element _ _ _); cbn [option_map]; rewrite ?M1; auto.
  - inversion U as [|? ? E U']; subst. rewrite IH by auto. destruct (element _ _ _); cbn [option_map]; rewrite ?M1; auto.
Qed.
Lemma lf_matrix e rows cols f : unscaled one e -> lmatrix mul e rows cols f ->
  let t := Nat.odd (transposes e) in
  fst (base e) = (if t then [cols; rows] else [rows; cols]) /\
  is_matrix id RowMajor (if t then Trans else NoTrans) (N.to_nat (if t then rows else cols)) (snd (base e)) (N.to_nat rows) (N.to_nat cols) f.
Proof.
  intros U ((W1 & W2) & HS & HV) t.
  assert (SH : fst (base e) = if t then [cols; rows] else [rows; cols]).
  { rewrite lshape_fold in HS. unfold t. destruct (Nat.odd (transposes e)); auto. rewrite <- (rev_involutive (fst (base e))), HS. reflexivity. }
  assert (PR : prod (fst (base e)) = (rows * cols)%N) by (rewrite SH; destruct t; cbn [prod]; lia).
  split; [exact SH|]. intros i j Hi Hj. specialize (HV (N.of_nat i) (N.of_nat j) ltac:(lia) ltac:(lia)). rewrite lf_lvalue in HV by auto. fold t in HV.
  rewrite SH in HV. unfold element in HV.
  replace (N.to_nat (position (if t then rev [N.of_nat i; N.of_nat j] else [N.of_nat i; N.of_nat j]) (if t then [cols; rows] else [rows; cols])))
    with (if t then j * N.to_nat rows + i else i * N.to_nat cols + j) in HV by (destruct t; cbn [rev app position prod]; lia).
  rewrite !Nat2N.id in HV. unfold mat. destruct t; cbn [is_trans is_conj]; rewrite Nat.add_0_l, HV; reflexivity.
Qed.
Lemma lf_vector e n f : unscaled one e -> lvector mul e n f ->
  fst (base e) = [n] /\ forall i, i < N.to_nat n -> nth_error (snd (base e)) i = Some (f i).
Proof.
  intros U ((W1 & W2) & HS & HV).
  assert (SH : fst (base e) = [n]).
  { rewrite lshape_fold in HS. destruct (Nat.odd (transposes e)); auto. rewrite <- (rev_involutive (fst (base e))), HS. reflexivity. }
  split; [exact SH|]. intros i Hi. specialize (HV (N.of_nat i) ltac:(lia)). rewrite lf_lvalue, SH in HV by auto. unfold element in HV.
  replace (N.to_nat (position (if Nat.odd (transposes e) then rev [N.of_nat i] else [N.of_nat i]) [n])) with i in HV
    by (destruct (Nat.odd (transposes e)); cbn [rev app position prod]; lia).
  rewrite Nat2N.id in HV. exact HV.
Qed.

Let nz : forall x, (x =? 0) = true <-> x = 0 := fun x => Nat.eqb_eq x 0.
Local Notation s_mm := (@shape_mm nat 0 0 (fun x => x =? 0) nz).
Local Notation c_mm := (@class_mm nat 0 0 (fun x => x =? 0) nz).
Local Notation s_mv := (@shape_mv nat 0 0 (fun x => x =? 0) nz).
Local Notation c_mv := (@class_mv nat 0 0 (fun x => x =? 0) nz).
Local Notation x_r := (@ext_r nat 0 0 (fun x => x =? 0) nz).
Local Notation x_c := (@ext_c nat 0 0 (fun x => x =? 0) nz).
Local Notation x_l := (@ext_l nat 0 0 (fun x => x =? 0) nz).
Local Notation x_1 := (@ext1 nat 0 0 (fun x => x =? 0) nz).

(** Every element of a product is the sum of the rounded products in order, added to zero. *)
Lemma lf_dot_mm asserts sched junk e1 e2 m k n f g :
  (forall m n k, interleaving n (column_program m k) (sched m n k)) ->
  unscaled one e1 -> unscaled one e2 -> lmatrix mul e1 m k f -> lmatrix mul e2 k n g -> (m * n < 2 ^ 32)%N ->
  exists out, dot zero one add mul is_zero asserts sched junk e1 e2 = Ok ([m; n], out) /\
    forall i j, (i < m)%N -> (j < n)%N ->
      element [m; n] out [i; j] = Some (add zero (Sum (N.to_nat k) (fun h => mul (f (N.to_nat i) h) (g h (N.to_nat j))))).
Proof using Z0 Z1 M1 M0 A0.
  intros HS U1 U2 H1 H2 HN. unfold dot. rewrite !dotHelper_fold.
  destruct (lf_matrix _ _ _ _ U1 H1) as (S1 & MA). destruct (lf_matrix _ _ _ _ U2 H2) as (S2 & MB).
  rewrite (lf_product _ U1), (lf_product _ U2), M1.
  clear H1 H2. set (ta := Nat.odd (transposes e1)) in *. set (tb := Nat.odd (transposes e2)) in *.
  rewrite S1, S2, s_mm, N.eqb_refl, check_true. cbn [bind].
  assert (SZ : size [m; n] = (m * n)%N).
  { rewrite size_exact; cbn [prod]; [lia|]. eapply N.lt_trans; [|exact (eq_refl : (2 ^ 32 < 2 ^ 64)%N)]. lia. }
  rewrite SZ. set (out := map junk (seq 0 (N.to_nat (m * n)))).
  assert (LO : length out = N.to_nat m * N.to_nat n) by (unfold out; rewrite map_length, seq_length; lia).
  match goal with |- context [sched ?x ?y ?z] => set (sc := sched x y z) end.
  assert (HSC : interleaving (N.to_nat n) (column_program (N.to_nat m) (N.to_nat k)) sc) by (unfold sc; cbn [nth]; destruct ta; apply HS).
  unfold applyTo. cbn [fst snd]. rewrite S1, S2, s_mm, N.eqb_refl, check_true. cbn [bind].
  rewrite (proj2 (shape_eqb_spec [m; n] [m; n]) eq_refl), check_true. cbn [bind].
  rewrite c_mm, N.eqb_refl, check_true. cbn [bind].
  rewrite (x_r asserts ta m k). cbn [bind]. rewrite (x_c asserts tb k n). cbn [bind]. rewrite (x_c asserts ta m k). cbn [bind].
  rewrite (x_l asserts ta m k). cbn [bind]. rewrite (x_l asserts tb k n). cbn [bind]. rewrite x_1. cbn [bind].
  unfold gemm. destruct ((N.to_nat m =? 0) || (N.to_nat n =? 0)) eqn:Z.
  { cbn [bind]. eexists. split; [reflexivity|]. intros; lia. }
  destruct (lf_gemm ta tb (N.to_nat m) (N.to_nat n) (N.to_nat k) one (snd (base e1)) (N.to_nat (if ta then m else k))
    (snd (base e2)) (N.to_nat (if tb then k else n)) zero out (N.to_nat n) sc f g) as (c' & E & L & P); auto.
  { intros i j Hi Hj. rewrite LO. nia. }
  rewrite E. cbn [bind]. exists c'. split; [auto|]. intros i j Hi Hj. unfold element. cbn [position prod].
  replace (N.to_nat (i * (n * 1) + (j * 1 + 0))) with (N.to_nat i * N.to_nat n + N.to_nat j) by lia.
  rewrite (P (N.to_nat i) (N.to_nat j)) by lia.
  assert (LT : N.to_nat i * N.to_nat n + N.to_nat j < length out) by (rewrite LO; nia).
  destruct (nth_error out _) as [v|] eqn:Ev; [|apply nth_error_None in Ev; lia]. cbn [option_map]. f_equal.
  unfold scaled. rewrite Z0, Z1, M0, M1. destruct (Nat.eqb_spec (N.to_nat k) 0) as [->|_]; auto.
Qed.
Lemma lf_dot_mv asserts sched junk e1 e2 m k f g :
  unscaled one e1 -> unscaled one e2 -> lmatrix mul e1 m k f -> lvector mul e2 k g ->
  (0 < k)%N -> Nat.odd (transposes e1) = false \/ m = k -> (m < 2 ^ 32)%N ->
  exists out, dot zero one add mul is_zero asserts sched junk e1 e2 = Ok ([m], out) /\
    forall i, (i < m)%N -> element [m] out [i] = Some (add zero (Sum (N.to_nat k) (fun h => mul (f (N.to_nat i) h) (g h)))).
Proof using Z0 Z1 M1 M0 A0.
  intros U1 U2 H1 H2 HK HT HM. unfold dot. rewrite !dotHelper_fold.
  destruct (lf_matrix _ _ _ _ U1 H1) as (S1 & MA). destruct (lf_vector _ _ _ U2 H2) as (S2 & MB).
  rewrite (lf_product _ U1), (lf_product _ U2), M1.
  clear H1 H2. set (ta := Nat.odd (transposes e1)) in *. set (tb := Nat.odd (transposes e2)) in *.
  rewrite S1, S2, s_mv, N.eqb_refl, check_true. cbn [bind].
  assert (SZ : size [m] = m).
  { rewrite size_exact; cbn [prod]; [lia|]. eapply N.lt_trans; [|exact (eq_refl : (2 ^ 32 < 2 ^ 64)%N)]. lia. }
  rewrite SZ. set (out := map junk (seq 0 (N.to_nat m))).
  assert (LO : length out = N.to_nat m) by (unfold out; rewrite map_length, seq_length; lia).
  unfold applyTo. cbn [fst snd]. rewrite S1, S2, s_mv, N.eqb_refl, check_true. cbn [bind].
  rewrite (proj2 (shape_eqb_spec [m] [m]) eq_refl), check_true. cbn [bind].
  rewrite c_mv, N.eqb_refl, check_true. cbn [bind].
  rewrite (x_r asserts ta m k). cbn [bind]. rewrite (x_c asserts ta m k). cbn [bind]. rewrite (x_l asserts ta m k).
  cbn [bind]. unfold gemv.
  destruct ((N.to_nat m =? 0) || (N.to_nat k =? 0)) eqn:Z.
  { assert (m = 0%N) by lia. subst m. exists out. split; [reflexivity|]. intros; lia. }
  destruct (lf_gemv (if ta then Trans else NoTrans) (N.to_nat m) (N.to_nat k) one (snd (base e1)) (N.to_nat (if ta then m else k))
    (snd (base e2)) zero out f g) as (y' & E & L & P).
  - destruct ta; reflexivity.
  - intros i h Hi Hh. apply MA; destruct ta; cbn [is_trans] in *; destruct HT; try congruence; subst; auto.
  - intros h Hh. apply MB. destruct ta; cbn [is_trans] in *; destruct HT; try congruence; subst; auto.
  - intros i Hi. rewrite LO. destruct ta; cbn [is_trans] in *; destruct HT; try congruence; subst; lia.
  - rewrite E. cbn [bind]. exists y'. split; [auto|]. intros i Hi. unfold element. cbn [position prod].
    replace (N.to_nat (i * 1 + 0)) with (N.to_nat i) by lia. rewrite P by (destruct ta; cbn [is_trans] in *; destruct HT; try congruence; subst; lia).
    destruct (nth_error out _) as [v|] eqn:Ev; [|apply nth_error_None in Ev; lia]. cbn [option_map]. f_equal.
    replace (if is_trans (if ta then Trans else NoTrans) then N.to_nat m else N.to_nat k) with (N.to_nat k)
      by (destruct ta; cbn [is_trans] in *; destruct HT; try congruence; subst; auto).
    unfold scaled. rewrite Z0, M1. reflexivity.
Qed.
End LawFree.

(** ** Lane-wise sums of a Vector: [P l s] says that s is a result of adding up l. *)
Section Lanes.
Import VectorModel VectorSpec VectorProofs.
Context {A : Type} (w : nat) (zero : A) (add : A -> A -> A) (P : list A -> A -> Prop).
Hypothesis Hw : 0 < w.
Hypothesis P0 : P [] zero.
Hypothesis P1 : forall x, P [x] x.
Hypothesis P2 : forall l1 l2 s1 s2, P l1 s1 -> P l2 s2 -> P (l1 ++ l2) (add s1 s2).
Hypothesis P3 : forall l l' s, Permutation l l' -> P l s -> P l' s.

Lemma lanes_step ls s p : Forall2 P ls s -> length p = length s ->
  exists ls', Forall2 P ls' (plus2 add s p) /\ Permutation (concat ls') (concat ls ++ p).
Proof using P1 P2.
  intros H. revert p. induction H as [|l x ls s Hx HF IH]; intros p Hp.
  - destruct p; [|discriminate]. exists []. split; constructor.
  - destruct p as [|y p]; [discriminate|]. injection Hp as Hp. destruct (IH p Hp) as (ls' & F & E).
    exists ((l ++ [y]) :: ls'). split.
    + unfold plus2. cbn [combine map]. constructor; [apply P2; auto|exact F].
    + cbn [concat]. rewrite E. rewrite <- !app_assoc. apply Permutation_app_head. cbn [app]. apply Permutation_middle.
Qed.
Lemma lanes_zero : exists ls, Forall2 P ls (repeat zero w) /\ concat ls = [].
Proof using P0.
  exists (repeat [] w). clear - P0. induction w as [|k (F & E)]; cbn [repeat concat]; auto.
Qed.
Lemma lanes_reduce ls s : Forall2 P ls s -> forall l x, P l x -> P (l ++ concat ls) (fold_left add s x).
Proof using P2.
  induction 1 as [|l1 y ls s Hy HF IH]; intros l x Hx; cbn [concat fold_left]; [rewrite app_nil_r; auto|].
  rewrite app_assoc. apply IH. apply P2; auto.
Qed.
Lemma lanes_sum (g : list A -> list A) (v : vec A) :
  (forall p, length (g p) = length p) -> (forall p q, g (p ++ q) = g p ++ g q) -> storage w v ->
  exists r, (do s <- for_range 0 (packets w (dims v)) (fun i s => do p <- packet w v i; Ok (plus2 add s (g p))) (repeat zero w);
             Ok (reduce_add zero add s)) = Ok r /\ P (g (cells v)) r.
Proof using Hw P0 P1 P2 P3.
  intros Hg Hg' Hs.
  assert (Hg0 : g [] = []) by (specialize (Hg []); now destruct (g [])).
  edestruct (for_range_inv (fun k s => length s = w /\ exists ls, Forall2 P ls s /\ Permutation (concat ls) (g (firstn (k * w) (cells v)))))
    as (s & E & L & ls & F & T); [| | |exists (reduce_add zero add s); rewrite E; split; [reflexivity|]].
  - lia.
  - intros i s Hi (L & ls & F & T). unfold packet. destruct (Nat.ltb_spec i (packets w (dims v))); [|lia]. cbn [bind].
    pose proof (packet_length w Hw v i Hs ltac:(lia)) as Lp.
    eexists. split; [reflexivity|]. split; [rewrite (plus2_length w add Hw); rewrite ?Hg; lia|].
    destruct (lanes_step ls s (g (firstn w (skipn (i * w) (cells v)))) F) as (ls' & F' & T'); [rewrite Hg; lia|].
    exists ls'. split; [exact F'|]. rewrite T', T, <- Hg'. rewrite <- (firstn_more (cells v)).
    replace (i * w + w) with (S i * w) by lia. reflexivity.
  - split; [apply repeat_length|]. destruct lanes_zero as (ls & F & E). exists ls. split; auto. rewrite E. cbn [Nat.mul firstn]. rewrite Hg0. constructor.
  - unfold reduce_add. apply (P3 (concat ls)).
    + rewrite T, firstn_all2; [auto|]. rewrite Hs. lia.
    + apply (lanes_reduce ls s F [] zero P0).
Qed.
End Lanes.
