(** C90 to C92: copying, adding, exchanging, transposing and scaling whole matrices. *)
From Coq Require Import ZArith Ring_theory List.
From Verif Require Import Base MatmulModel MatmulSpec BlasModel BlasSpec BlasProofs TriModel TriSpec TriProofs SymSpec PackSpec ExtModel ExtSpec ExtProofs ExtTri ExtPack ExtBand.
From Coq Require Import ZifyNat ZifyN ZifyBool.
Ltac Zify.zify_post_hook ::= idtac.
Import ListNotations.
Local Open Scope Z_scope.

(** ** C90: vectors and dense matrices *)
(** The vector routines under the matrix routines do what their names say, for every length and stride. *)
Theorem C90_vectors : forall (A : Type) (d zero one : A) (add mul div : A -> A -> A) (conj : A -> A) (is_zero : A -> bool),
  semi_ring_theory zero one add mul eq -> (forall v, is_zero v = true <-> v = zero) -> forall alpha beta,
  pointwise d (ccopy conj) (fun u v => conj u) /\
  pointwise d (acxpy add mul conj alpha) (fun u v => add v (mul alpha (conj u))) /\
  pointwise d (axpby zero add mul is_zero alpha beta) (fun u v => add (mul beta v) (mul alpha u)) /\
  pointwise d (acxpby zero add mul conj is_zero alpha beta) (fun u v => add (mul beta v) (mul alpha (conj u))) /\
  pointwise d (raxpy add div alpha) (fun u v => add v (div u alpha)) /\
  pointwise d (racxpy add div conj alpha) (fun u v => add v (div (conj u) alpha)).
Proof.
  intros A d zero one add mul div conj is_zero SR HZ alpha beta. repeat split.
  - exact (ccopy_acts d conj).
  - exact (acxpy_acts d add mul conj alpha).
  - exact (axpby_acts d zero one add mul is_zero alpha beta SR HZ).
  - exact (acxpby_acts d zero one add mul conj is_zero alpha beta SR HZ).
  - exact (raxpy_acts d add div alpha).
  - exact (racxpy_acts d add div conj alpha).
Qed.
Print Assumptions C90_vectors.
Example C90_vectors_case : axpby 0 Z.add Z.mul (Z.eqb 0) 2 3 2 0 1 3 (-1) [1; 2; 0; 10; 20] = Ok [1; 2; 0; 34; 62].
Proof. vm_compute. reflexivity. Qed.

(** B := op(A): every entry of B, and only those. *)
Theorem C90_gecopy : forall (A : Type) (d : A) (conj : A -> A) o t rows cols a lda b ldb (m : list A),
  0 <= rows -> 0 <= cols -> leading o rows cols ldb -> (is_trans t = true -> leading o cols rows lda) ->
  held_inside all_held (cell o b ldb) m rows cols -> source m all_held rows cols (stored o t a lda) (cell o b ldb) ->
  exists m', gecopy conj o t rows cols a lda b ldb m = Ok m' /\
    combined d (fun u v => by_mode conj t u) all_held rows cols (stored o t a lda) (cell o b ldb) m m'.
Proof.
  intros A d conj o t rows cols a lda b ldb m Hr Hc Hl Ht Hin Hs.
  destruct (dense_ok d copy_op (ccopy conj) _ _ (copy_acts d) (ccopy_acts d conj) o t rows cols a lda b ldb m) as (m' & E & C); auto.
  exists m'. split; [exact E|]. eapply combined_ext; [|reflexivity|auto|exact C]. intros u v. unfold by_mode. now destruct (is_conj t).
Qed.
Print Assumptions C90_gecopy.
Example C90_gecopy_case : gecopy (fun v => v) RowMajor Trans 2 3 0 2 6 4 [1; 2; 3; 4; 5; 6; 0; 0; 0; 7; 0; 0; 0; 7] = Ok [1; 2; 3; 4; 5; 6; 1; 3; 5; 7; 2; 4; 6; 7].
Proof. vm_compute. reflexivity. Qed.

(** B := B + alpha op(A) *)
Theorem C90_geaxpy : forall (A : Type) (d : A) (add mul : A -> A -> A) (conj : A -> A) alpha o t rows cols a lda b ldb (m : list A),
  0 <= rows -> 0 <= cols -> leading o rows cols ldb -> (is_trans t = true -> leading o cols rows lda) ->
  held_inside all_held (cell o b ldb) m rows cols -> source m all_held rows cols (stored o t a lda) (cell o b ldb) ->
  exists m', geaxpy add mul conj alpha o t rows cols a lda b ldb m = Ok m' /\
    combined d (fun u v => add v (mul alpha (by_mode conj t u))) all_held rows cols (stored o t a lda) (cell o b ldb) m m'.
Proof.
  intros A d add mul conj alpha o t rows cols a lda b ldb m Hr Hc Hl Ht Hin Hs.
  destruct (dense_ok d (axpy_op add mul alpha) (acxpy add mul conj alpha) _ _ (axpy_acts d add mul alpha) (acxpy_acts d add mul conj alpha) o t rows cols a lda b ldb m) as (m' & E & C); auto.
  exists m'. split; [exact E|]. eapply combined_ext; [|reflexivity|auto|exact C]. intros u v. unfold by_mode. now destruct (is_conj t).
Qed.
Print Assumptions C90_geaxpy.
Example C90_geaxpy_case : geaxpy Z.add Z.mul Z.opp 2 ColMajor ConjTrans 2 1 0 1 2 2 [1; 2; 30; 40] = Ok [1; 2; 28; 36].
Proof. vm_compute. reflexivity. Qed.

(** B := beta B + alpha op(A); with beta = 0 the old entries do not count. *)
Theorem C90_geaxpby : forall (A : Type) (d zero one : A) (add mul : A -> A -> A) (conj : A -> A) (is_zero : A -> bool) alpha beta o t rows cols a lda b ldb (m : list A),
  semi_ring_theory zero one add mul eq -> (forall v, is_zero v = true <-> v = zero) ->
  0 <= rows -> 0 <= cols -> leading o rows cols ldb -> (is_trans t = true -> leading o cols rows lda) ->
  held_inside all_held (cell o b ldb) m rows cols -> source m all_held rows cols (stored o t a lda) (cell o b ldb) ->
  exists m', geaxpby zero add mul conj is_zero alpha beta o t rows cols a lda b ldb m = Ok m' /\
    combined d (fun u v => add (mul beta v) (mul alpha (by_mode conj t u))) all_held rows cols (stored o t a lda) (cell o b ldb) m m'.
Proof.
  intros A d zero one add mul conj is_zero alpha beta o t rows cols a lda b ldb m SR HZ Hr Hc Hl Ht Hin Hs.
  destruct (dense_ok d (axpby zero add mul is_zero alpha beta) (acxpby zero add mul conj is_zero alpha beta) _ _ (axpby_acts d zero one add mul is_zero alpha beta SR HZ)
    (acxpby_acts d zero one add mul conj is_zero alpha beta SR HZ) o t rows cols a lda b ldb m) as (m' & E & C); auto.
  exists m'. split; [exact E|]. eapply combined_ext; [|reflexivity|auto|exact C]. intros u v. unfold by_mode. now destruct (is_conj t).
Qed.
Print Assumptions C90_geaxpby.
Example C90_geaxpby_case : geaxpby 0 Z.add Z.mul Z.opp (Z.eqb 0) 2 0 RowMajor NoTrans 1 2 0 2 2 2 [1; 2; 30; 40] = Ok [1; 2; 2; 4].
Proof. vm_compute. reflexivity. Qed.

(** B := B + op(A) / alpha for the modes without conjugation. *)
Theorem C90_geraxpy_partial : forall (A : Type) (d : A) (add div : A -> A -> A) (conj : A -> A) asserts alpha o t rows cols a lda b ldb (m : list A), is_conj t = false ->
  0 <= rows -> 0 <= cols -> leading o rows cols ldb -> (is_trans t = true -> leading o cols rows lda) ->
  held_inside all_held (cell o b ldb) m rows cols -> source m all_held rows cols (stored o t a lda) (cell o b ldb) ->
  exists m', geraxpy add div conj asserts alpha o t rows cols a lda b ldb m = Ok m' /\
    combined d (fun u v => add v (div u alpha)) all_held rows cols (stored o t a lda) (cell o b ldb) m m'.
Proof.
  intros A d add div conj asserts alpha o t rows cols a lda b ldb m Hcj Hr Hc Hl Ht Hin Hs.
  destruct (dense_ok d (raxpy add div alpha) (racxpy add div conj alpha) _ _ (raxpy_acts d add div alpha) (racxpy_acts d add div conj alpha) o t rows cols a lda b ldb m) as (m' & E & C); auto.
  exists m'. unfold geraxpy. rewrite Hcj in *. split; [exact E|exact C].
Qed.
Print Assumptions C90_geraxpy_partial.
(** The conjugating modes stop the program, or do nothing at all when assertions are compiled out. *)
Theorem C90_geraxpy_refuted : forall (A : Type) (add div : A -> A -> A) (conj : A -> A) alpha o t rows cols a lda b ldb (m : list A), is_conj t = true ->
  geraxpy add div conj true alpha o t rows cols a lda b ldb m = Throw RuntimeError /\
  geraxpy add div conj false alpha o t rows cols a lda b ldb m = Ok m.
Proof. intros A add div conj alpha o t rows cols a lda b ldb m H. unfold geraxpy. rewrite H. split; reflexivity. Qed.
Print Assumptions C90_geraxpy_refuted.
Example C90_geraxpy_case : geraxpy Z.add Z.div Z.opp true 2 RowMajor Trans 1 2 0 1 2 2 [8; 6; 30; 40] = Ok [8; 6; 34; 43].
Proof. vm_compute. reflexivity. Qed.

(** A := A / alpha *)
Theorem C90_gerscal : forall (A : Type) (d : A) (div : A -> A -> A) o rows cols alpha a lda (m : list A),
  0 <= rows -> 0 <= cols -> leading o rows cols lda -> held_inside all_held (cell o a lda) m rows cols ->
  exists m', gerscal div o rows cols alpha a lda m = Ok m' /\
    combined d (fun _ v => div v alpha) all_held rows cols (cell o a lda) (cell o a lda) m m'.
Proof. intros A d div o rows cols alpha a lda m. apply gerscal_ok. Qed.
Print Assumptions C90_gerscal.
Example C90_gerscal_case : gerscal Z.div ColMajor 1 2 2 0 2 [8; 7; 6; 5] = Ok [4; 7; 3; 5].
Proof. vm_compute. reflexivity. Qed.

(** A and B are exchanged, each in its own order, unless A is kept by rows, B by columns and they are not square. *)
Theorem C90_geswap_partial : forall (A : Type) (d : A) oa ob rows cols a lda b ldb (m : list A),
  0 <= rows -> 0 <= cols -> leading oa rows cols lda -> leading ob rows cols ldb -> (oa = RowMajor -> ob = ColMajor -> rows = cols) ->
  held_inside all_held (cell oa a lda) m rows cols -> held_inside all_held (cell ob b ldb) m rows cols ->
  (forall p, held_cells all_held (cell oa a lda) rows cols p -> ~ held_cells all_held (cell ob b ldb) rows cols p) ->
  exists m', geswap oa ob rows cols a lda b ldb m = Ok m' /\
    changes d m m' (fun p => held_cells all_held (cell oa a lda) rows cols p \/ held_cells all_held (cell ob b ldb) rows cols p) /\
    forall i j, 0 <= i < rows -> 0 <= j < cols -> val d m' (cell oa a lda i j) = val d m (cell ob b ldb i j) /\ val d m' (cell ob b ldb i j) = val d m (cell oa a lda i j).
Proof. intros A d. apply geswap_ok. Qed.
Print Assumptions C90_geswap_partial.
Example C90_geswap_case : geswap ColMajor RowMajor 2 3 0 2 6 3 [1; 2; 3; 4; 5; 6; 10; 20; 30; 40; 50; 60] = Ok [10; 40; 20; 50; 30; 60; 1; 3; 5; 2; 4; 6].
Proof. vm_compute. reflexivity. Qed.
(** In that case the loop bounds are exchanged: a 1 x 2 matrix. *)
Theorem C90_geswap_refuted : exists rows cols a lda b ldb (m m' : list Z), leading RowMajor rows cols lda /\ leading ColMajor rows cols ldb /\
  held_inside all_held (cell RowMajor a lda) m rows cols /\ held_inside all_held (cell ColMajor b ldb) m rows cols /\
  (forall p, held_cells all_held (cell RowMajor a lda) rows cols p -> ~ held_cells all_held (cell ColMajor b ldb) rows cols p) /\
  geswap RowMajor ColMajor rows cols a lda b ldb m = Ok m' /\
  exists i j, 0 <= i < rows /\ 0 <= j < cols /\ val 0 m' (cell RowMajor a lda i j) <> val 0 m (cell ColMajor b ldb i j).
Proof.
  exists 1, 2, 0, 2, 2, 1, [1; 2; 3; 4], [3; 2; 4; 1]. split; [cbn; lia|]. split; [cbn; lia|].
  split; [intros i j Hi Hj _; cbn [cell gband_cell length]; lia|]. split; [intros i j Hi Hj _; cbn [cell gband_cell length]; lia|].
  split; [intros p (i & j & Hi & Hj & _ & ->) (i' & j' & Hi' & Hj' & _ & E); cbn [cell] in E; lia|].
  split; [vm_compute; reflexivity|]. exists 0, 1. repeat split; try lia. vm_compute. discriminate.
Qed.
Print Assumptions C90_geswap_refuted.

(** A is replaced by op(A) in place; it must be square to be transposed. *)
Theorem C90_gecotr : forall (A : Type) (d : A) (conj : A -> A) asserts o t rows cols a lda (m : list A),
  0 <= rows -> 0 <= cols -> leading o rows cols lda -> (is_trans t = true -> rows = cols) -> block_inside m o a lda rows cols ->
  exists m', gecotr conj asserts o t rows cols a lda m = Ok m' /\ changes d m m' (block o a lda rows cols) /\
    forall i j, 0 <= i < rows -> 0 <= j < cols -> entry d o a lda m' i j = op conj t (entry d o a lda m) i j.
Proof. intros A d conj. apply gecotr_ok. Qed.
Print Assumptions C90_gecotr.
Example C90_gecotr_case : gecotr Z.opp true RowMajor ConjTrans 2 2 0 3 [1; 2; 9; 3; 4] = Ok [-1; -3; 9; -2; -4].
Proof. vm_compute. reflexivity. Qed.
(** Otherwise the assertion fails. *)
Theorem C90_gecotr_square : forall (A : Type) (conj : A -> A) o t rows cols a lda (m : list A), is_trans t = true -> rows <> cols ->
  gecotr conj true o t rows cols a lda m = Throw RuntimeError.
Proof.
  intros A conj o t rows cols a lda m T N. unfold gecotr. rewrite T. unfold assertion. cbn [andb].
  destruct o; [replace (cols =? rows) with false by lia|replace (rows =? cols) with false by lia]; reflexivity.
Qed.
Print Assumptions C90_gecotr_square.

(** ** C91: triangular, trapezoidal and packed matrices *)
(** B := op(A) on the upper or lower trapezoid, with its diagonal. *)
Theorem C91_trcopy : forall (A : Type) (d : A) (conj : A -> A) o up t rows cols a lda b ldb (m : list A),
  leading o rows cols ldb -> (is_trans t = true -> 0 <= lda) ->
  held_inside (kept up NonUnit) (cell o b ldb) m rows cols -> source m (kept up NonUnit) rows cols (stored o t a lda) (cell o b ldb) ->
  exists m', trcopy conj o up t NonUnit rows cols a lda b ldb m = Ok m' /\
    combined d (fun u v => by_mode conj t u) (kept up NonUnit) rows cols (stored o t a lda) (cell o b ldb) m m'.
Proof. intros A d conj. apply trcopy_ok. Qed.
Print Assumptions C91_trcopy.
Example C91_trcopy_case : trcopy (fun v => v) RowMajor Lower Trans NonUnit 2 2 0 2 4 2 [1; 2; 3; 4; 7; 7; 7; 7] = Ok [1; 2; 3; 4; 1; 7; 2; 4].
Proof. vm_compute. reflexivity. Qed.
(** Without the diagonal (Unit): for square matrices, and for trapezoids that are not cut off by the diagonal. *)
Theorem C91_trcopy_unit_partial : forall (A : Type) (d : A) (conj : A -> A) o up t rows cols a lda b ldb (m : list A),
  leading o rows cols ldb -> (is_trans t = true -> 0 <= lda) -> match up with Upper => cols <= rows | Lower => rows <= cols end ->
  held_inside (kept up Unit) (cell o b ldb) m rows cols -> source m (kept up Unit) rows cols (stored o t a lda) (cell o b ldb) ->
  exists m', trcopy conj o up t Unit rows cols a lda b ldb m = Ok m' /\
    combined d (fun u v => by_mode conj t u) (kept up Unit) rows cols (stored o t a lda) (cell o b ldb) m m'.
Proof. intros A d conj. apply trcopy_unit_ok. Qed.
Print Assumptions C91_trcopy_unit_partial.
Example C91_trcopy_unit_case : trcopy (fun v => v) ColMajor Upper NoTrans Unit 2 2 0 2 4 2 [1; 2; 3; 4; 7; 7; 7; 7] = Ok [1; 2; 3; 4; 7; 7; 3; 7].
Proof. vm_compute. reflexivity. Qed.
(** Otherwise the last row (column) is left out. *)
Theorem C91_trcopy_unit_refuted : exists rows cols a lda b ldb (m m' : list Z), leading ColMajor rows cols ldb /\
  held_inside (kept Upper Unit) (cell ColMajor b ldb) m rows cols /\ source m (kept Upper Unit) rows cols (stored ColMajor NoTrans a lda) (cell ColMajor b ldb) /\
  trcopy (fun v => v) ColMajor Upper NoTrans Unit rows cols a lda b ldb m = Ok m' /\
  exists i j, 0 <= i < rows /\ 0 <= j < cols /\ i < j /\ val 0 m' (cell ColMajor b ldb i j) <> val 0 m (cell ColMajor a lda i j).
Proof.
  exists 1, 2, 0, 1, 2, 1, [1; 2; 3; 4], [1; 2; 3; 4]. split; [cbn; lia|]. split; [intros i j Hi Hj _; cbn [cell gband_cell length]; lia|]. split.
  - intros i j Hi Hj _. split; [unfold stored, stored_band; cbn [is_trans cell gband_cell length]; lia|]. intros (i' & j' & Hi' & Hj' & _ & E). unfold stored, stored_band in E; cbn [is_trans cell gband_cell] in E. lia.
  - split; [vm_compute; reflexivity|]. exists 0, 1. repeat split; try lia. vm_compute. discriminate.
Qed.
Print Assumptions C91_trcopy_unit_refuted.

(** B := B + alpha op(A) and B := beta B + alpha op(A) on the trapezoid. *)
Theorem C91_traxpy_partial : forall (A : Type) (d : A) (add mul : A -> A -> A) (conj : A -> A) asserts alpha o up t rows cols a lda b ldb (m : list A),
  leading o rows cols ldb -> (is_trans t = true -> 0 <= lda) ->
  held_inside (kept up NonUnit) (cell o b ldb) m rows cols -> source m (kept up NonUnit) rows cols (stored o t a lda) (cell o b ldb) ->
  exists m', traxpy add mul conj asserts alpha o up t NonUnit rows cols a lda b ldb m = Ok m' /\
    combined d (fun u v => add v (mul alpha (by_mode conj t u))) (kept up NonUnit) rows cols (stored o t a lda) (cell o b ldb) m m'.
Proof. intros A d add mul conj. apply traxpy_ok. Qed.
Print Assumptions C91_traxpy_partial.
Example C91_traxpy_case : traxpy Z.add Z.mul Z.opp true 10 RowMajor Upper Conj NonUnit 2 3 0 3 6 3 [1; 2; 3; 4; 5; 6; 100; 100; 100; 100; 100; 100] = Ok [1; 2; 3; 4; 5; 6; 90; 80; 70; 100; 50; 40].
Proof. vm_compute. reflexivity. Qed.
Theorem C91_traxpby_partial : forall (A : Type) (d zero one : A) (add mul : A -> A -> A) (conj : A -> A) (is_zero : A -> bool) asserts alpha beta o up t rows cols a lda b ldb (m : list A),
  semi_ring_theory zero one add mul eq -> (forall v, is_zero v = true <-> v = zero) -> leading o rows cols ldb -> (is_trans t = true -> 0 <= lda) ->
  held_inside (kept up NonUnit) (cell o b ldb) m rows cols -> source m (kept up NonUnit) rows cols (stored o t a lda) (cell o b ldb) ->
  exists m', traxpby zero add mul conj is_zero asserts alpha beta o up t NonUnit rows cols a lda b ldb m = Ok m' /\
    combined d (fun u v => add (mul beta v) (mul alpha (by_mode conj t u))) (kept up NonUnit) rows cols (stored o t a lda) (cell o b ldb) m m'.
Proof. intros A d zero one add mul conj is_zero. apply traxpby_ok. Qed.
Print Assumptions C91_traxpby_partial.
Example C91_traxpby_case : traxpby 0 Z.add Z.mul Z.opp (Z.eqb 0) true 10 2 ColMajor Lower NoTrans NonUnit 2 2 0 2 4 2 [1; 2; 3; 4; 100; 100; 100; 100] = Ok [1; 2; 3; 4; 210; 220; 100; 240].
Proof. vm_compute. reflexivity. Qed.
(** With a unit diagonal these two stop the program, or do nothing when assertions are compiled out. *)
Theorem C91_traxpy_unit_refuted : forall (A : Type) (zero : A) (add mul : A -> A -> A) (conj : A -> A) (is_zero : A -> bool) alpha beta o up t rows cols a lda b ldb (m : list A),
  traxpy add mul conj true alpha o up t Unit rows cols a lda b ldb m = Throw RuntimeError /\
  traxpby zero add mul conj is_zero true alpha beta o up t Unit rows cols a lda b ldb m = Throw RuntimeError /\
  traxpy add mul conj false alpha o up t Unit rows cols a lda b ldb m = Ok m /\
  traxpby zero add mul conj is_zero false alpha beta o up t Unit rows cols a lda b ldb m = Ok m.
Proof. intros. destruct o; repeat split; reflexivity. Qed.
Print Assumptions C91_traxpy_unit_refuted.

(** A := alpha A on the trapezoid, by rows; by columns only for square matrices. *)
Theorem C91_trscal_partial : forall (A : Type) (d : A) (mul : A -> A -> A) (is_one : A -> bool) o up rows cols alpha a lda (m : list A),
  (is_one alpha = true -> forall v, mul v alpha = v) -> leading o rows cols lda -> (o = ColMajor -> rows = cols) -> held_inside (kept up NonUnit) (cell o a lda) m rows cols ->
  exists m', trscal mul is_one o up rows cols alpha a lda m = Ok m' /\
    combined d (fun _ v => mul v alpha) (kept up NonUnit) rows cols (cell o a lda) (cell o a lda) m m'.
Proof. intros A d mul is_one. apply trscal_ok. Qed.
Print Assumptions C91_trscal_partial.
Example C91_trscal_case : trscal Z.mul (Z.eqb 1) RowMajor Upper 2 3 10 0 3 [1; 2; 3; 4; 5; 6] = Ok [10; 20; 30; 4; 50; 60].
Proof. vm_compute. reflexivity. Qed.
(** A 1 x 2 matrix by columns keeps an entry unscaled; for a 2 x 1 matrix an access outside it follows. *)
Theorem C91_trscal_refuted :
  (exists m' : list Z, trscal Z.mul (Z.eqb 1) ColMajor Upper 1 2 10 0 1 [1; 2] = Ok m' /\ kept Upper NonUnit 0 1 = true /\ val 0 m' (cell ColMajor 0 1 0 1) <> 2 * 10) /\
  trscal Z.mul (Z.eqb 1) ColMajor Upper 2 1 10 0 2 [1; 2] = UB.
Proof. split; [exists [10; 2]; repeat split; vm_compute; congruence|vm_compute; reflexivity]. Qed.
Print Assumptions C91_trscal_refuted.

(** Packed triangles: B := A or conj(A), both kept the same way. *)
Theorem C91_tpcopy : forall (A : Type) (d : A) (conj : A -> A) asserts o up t n a b (m : list A), is_trans t = false -> 0 <= n ->
  held_inside (kept up NonUnit) (packed_cell o up n b) m n n -> source m (kept up NonUnit) n n (packed_cell o up n a) (packed_cell o up n b) ->
  exists m', tpcopy conj asserts up t NonUnit n a b m = Ok m' /\
    combined d (fun u v => by_mode conj t u) (kept up NonUnit) n n (packed_cell o up n a) (packed_cell o up n b) m m'.
Proof.
  intros A d conj asserts o up t n a b m T Hn Hin Hs. destruct t; try discriminate; unfold tpcopy, assertion; cbn [negb]; rewrite Bool.andb_false_r; cbn [bind].
  - apply (packed_flat d copy_op (fun u _ => u)); auto. apply copy_acts.
  - apply (packed_flat d (ccopy conj) (fun u _ => conj u)); auto. apply ccopy_acts.
Qed.
Print Assumptions C91_tpcopy.
Example C91_tpcopy_case : tpcopy Z.opp true Lower Conj NonUnit 2 0 3 [1; 2; 3; 0; 0; 0] = Ok [1; 2; 3; -1; -2; -3].
Proof. vm_compute. reflexivity. Qed.
(** Transposed, from the other triangle, with or without the diagonal: to an upper triangle by columns or a lower one by rows. *)
Theorem C91_tpcopy_transposed_partial : forall (A : Type) (d : A) (conj : A -> A) asserts o t dg n a b (m : list A), is_trans t = true ->
  let up := match o with ColMajor => Upper | RowMajor => Lower end in
  held_inside (kept up dg) (packed_cell o up n b) m n n -> source m (kept up dg) n n (fun i j => packed_cell o (other up) n a j i) (packed_cell o up n b) ->
  exists m', tpcopy conj asserts up t dg n a b m = Ok m' /\
    combined d (fun u v => by_mode conj t u) (kept up dg) n n (fun i j => packed_cell o (other up) n a j i) (packed_cell o up n b) m m'.
Proof.
  intros A d conj asserts o t dg n a b m T up Hin Hs. destruct t; try discriminate; unfold tpcopy.
  - exact (tp_trans_ok d (fun u v => u) o dg n a b m Hin Hs).
  - exact (tp_trans_ok d (fun u v => conj u) o dg n a b m Hin Hs).
Qed.
Print Assumptions C91_tpcopy_transposed_partial.
Example C91_tpcopy_transposed_case : tpcopy Z.opp true Upper Trans NonUnit 3 0 6 [11; 21; 31; 22; 32; 33; 0; 0; 0; 0; 0; 0] = Ok [11; 21; 31; 22; 32; 33; 11; 21; 22; 31; 32; 33].
Proof. vm_compute. reflexivity. Qed.
(** The triangle asked for is not looked at: to a lower triangle by columns the entries go to wrong places. *)
Theorem C91_tpcopy_transposed_refuted : exists n a b (m m' : list Z),
  held_inside (kept Lower NonUnit) (packed_cell ColMajor Lower n b) m n n /\
  source m (kept Lower NonUnit) n n (fun i j => packed_cell ColMajor Upper n a j i) (packed_cell ColMajor Lower n b) /\
  tpcopy (fun v => v) true Lower Trans NonUnit n a b m = Ok m' /\
  exists i j, 0 <= i < n /\ 0 <= j < n /\ j <= i /\ val 0 m' (packed_cell ColMajor Lower n b i j) <> val 0 m (packed_cell ColMajor Upper n a j i).
Proof.
  exists 4, 0, 10, [0; 1; 2; 3; 4; 5; 6; 7; 8; 9; 0; 0; 0; 0; 0; 0; 0; 0; 0; 0], [0; 1; 2; 3; 4; 5; 6; 7; 8; 9; 0; 1; 4; 2; 5; 7; 3; 6; 8; 9].
  assert (R : forall i j, 0 <= i < 4 -> 0 <= j < 4 -> kept Lower NonUnit i j = true -> 10 <= packed_cell ColMajor Lower 4 10 i j < 20 /\ 0 <= packed_cell ColMajor Upper 4 0 j i < 10).
  { intros i j Hi Hj K. assert (Ci : i = 0 \/ i = 1 \/ i = 2 \/ i = 3) by lia. assert (Cj : j = 0 \/ j = 1 \/ j = 2 \/ j = 3) by lia.
    destruct Ci as [->|[->|[->| ->]]], Cj as [->|[->|[->| ->]]]; try discriminate K; cbn; lia. }
  split; [intros i j Hi Hj K; destruct (R i j Hi Hj K); cbn [length]; lia|]. split.
  - intros i j Hi Hj K. destruct (R i j Hi Hj K). split; [cbn [length]; lia|]. intros (i' & j' & Hi' & Hj' & K' & E). destruct (R i' j' Hi' Hj' K'). lia.
  - split; [vm_compute; reflexivity|]. exists 2, 0. repeat split; try lia. vm_compute. discriminate.
Qed.
Print Assumptions C91_tpcopy_transposed_refuted.

(** B := B + alpha op(A) for packed triangles by columns *)
Theorem C91_tpaxpy : forall (A : Type) (d : A) (add mul : A -> A -> A) (conj : A -> A) asserts up t n alpha a b (m : list A), is_trans t = false -> 0 <= n ->
  held_inside (kept up NonUnit) (packed_cell ColMajor up n b) m n n -> source m (kept up NonUnit) n n (packed_cell ColMajor up n a) (packed_cell ColMajor up n b) ->
  exists m', tpaxpy add mul conj asserts ColMajor up t NonUnit n alpha a b m = Ok m' /\
    combined d (fun u v => add v (mul alpha (by_mode conj t u))) (kept up NonUnit) n n (packed_cell ColMajor up n a) (packed_cell ColMajor up n b) m m'.
Proof.
  intros A d add mul conj asserts up t n alpha a b m T Hn Hin Hs. destruct t; try discriminate; unfold tpaxpy, assertion; cbn [negb]; rewrite Bool.andb_false_r; cbn [bind].
  - apply (packed_flat d (axpy_op add mul alpha) (fun u v => add v (mul alpha u))); auto. apply axpy_acts.
  - apply (packed_flat d (acxpy add mul conj alpha) (fun u v => add v (mul alpha (conj u)))); auto. apply acxpy_acts.
Qed.
Print Assumptions C91_tpaxpy.
Theorem C91_tpaxpy_transposed_partial : forall (A : Type) (d : A) (add mul : A -> A -> A) (conj : A -> A) asserts t n alpha a b (m : list A), is_trans t = true ->
  held_inside (kept Upper NonUnit) (packed_cell ColMajor Upper n b) m n n -> source m (kept Upper NonUnit) n n (fun i j => packed_cell ColMajor Lower n a j i) (packed_cell ColMajor Upper n b) ->
  exists m', tpaxpy add mul conj asserts ColMajor Upper t NonUnit n alpha a b m = Ok m' /\
    combined d (fun u v => add v (mul alpha (by_mode conj t u))) (kept Upper NonUnit) n n (fun i j => packed_cell ColMajor Lower n a j i) (packed_cell ColMajor Upper n b) m m'.
Proof.
  intros A d add mul conj asserts t n alpha a b m T Hin Hs. destruct t; try discriminate; unfold tpaxpy, assertion; cbn [negb]; rewrite Bool.andb_false_r; cbn [bind].
  - exact (tp_trans_ok d (fun u v => add v (mul alpha u)) ColMajor NonUnit n a b m Hin Hs).
  - exact (tp_trans_ok d (fun u v => add v (mul alpha (conj u))) ColMajor NonUnit n a b m Hin Hs).
Qed.
Print Assumptions C91_tpaxpy_transposed_partial.
Example C91_tpaxpy_case : tpaxpy Z.add Z.mul Z.opp true ColMajor Upper ConjTrans NonUnit 2 10 0 3 [1; 2; 3; 100; 100; 100] = Ok [1; 2; 3; 90; 80; 70].
Proof. vm_compute. reflexivity. Qed.
(** By rows, or with a unit diagonal, the program stops (when assertions are compiled in). *)
Theorem C91_tpaxpy_refuted : forall (A : Type) (add mul : A -> A -> A) (conj : A -> A) o up t dg n alpha a b (m : list A), o = RowMajor \/ dg = Unit ->
  tpaxpy add mul conj true o up t dg n alpha a b m = Throw RuntimeError.
Proof. intros A add mul conj o up t dg n alpha a b m [-> | ->]; [reflexivity|destruct o; reflexivity]. Qed.
Print Assumptions C91_tpaxpy_refuted.

(** B := beta B + alpha op(A) for packed triangles *)
Theorem C91_tpaxpby : forall (A : Type) (d zero one : A) (add mul : A -> A -> A) (conj : A -> A) (is_zero : A -> bool) o up t n alpha a beta b (m : list A),
  semi_ring_theory zero one add mul eq -> (forall v, is_zero v = true <-> v = zero) -> is_trans t = false -> 0 <= n ->
  held_inside (kept up NonUnit) (packed_cell o up n b) m n n -> source m (kept up NonUnit) n n (packed_cell o up n a) (packed_cell o up n b) ->
  exists m', tpaxpby zero add mul conj is_zero o up t NonUnit n alpha a beta b m = Ok m' /\
    combined d (fun u v => add (mul beta v) (mul alpha (by_mode conj t u))) (kept up NonUnit) n n (packed_cell o up n a) (packed_cell o up n b) m m'.
Proof.
  intros A d zero one add mul conj is_zero o up t n alpha a beta b m SR HZ T Hn Hin Hs. destruct t; try discriminate; unfold tpaxpby.
  - apply (packed_flat d (axpby zero add mul is_zero alpha beta) (fun u v => add (mul beta v) (mul alpha u))); auto. now apply (axpby_acts d zero one).
  - apply (packed_flat d (acxpby zero add mul conj is_zero alpha beta) (fun u v => add (mul beta v) (mul alpha (conj u)))); auto. now apply (acxpby_acts d zero one).
Qed.
Print Assumptions C91_tpaxpby.
Theorem C91_tpaxpby_transposed_partial : forall (A : Type) (d zero : A) (add mul : A -> A -> A) (conj : A -> A) (is_zero : A -> bool) o t dg n alpha a beta b (m : list A), is_trans t = true ->
  let up := match o with ColMajor => Upper | RowMajor => Lower end in
  held_inside (kept up dg) (packed_cell o up n b) m n n -> source m (kept up dg) n n (fun i j => packed_cell o (other up) n a j i) (packed_cell o up n b) ->
  exists m', tpaxpby zero add mul conj is_zero o up t dg n alpha a beta b m = Ok m' /\
    combined d (fun u v => add (mul beta v) (mul alpha (by_mode conj t u))) (kept up dg) n n (fun i j => packed_cell o (other up) n a j i) (packed_cell o up n b) m m'.
Proof.
  intros A d zero add mul conj is_zero o t dg n alpha a beta b m T up Hin Hs. destruct t; try discriminate; unfold tpaxpby.
  - exact (tp_trans_ok d (fun u v => add (mul beta v) (mul alpha u)) o dg n a b m Hin Hs).
  - exact (tp_trans_ok d (fun u v => add (mul beta v) (mul alpha (conj u))) o dg n a b m Hin Hs).
Qed.
Print Assumptions C91_tpaxpby_transposed_partial.
Example C91_tpaxpby_case : tpaxpby 0 Z.add Z.mul Z.opp (Z.eqb 0) ColMajor Upper Trans Unit 3 1 0 2 6 [11; 21; 31; 22; 32; 33; 100; 100; 100; 100; 100; 100] = Ok [11; 21; 31; 22; 32; 33; 100; 221; 100; 231; 232; 100].
Proof. vm_compute. reflexivity. Qed.
(** With a unit diagonal and no transposition the diagonal, which does not belong to the matrix, is overwritten. *)
Theorem C91_tpaxpby_unit_refuted : exists m' : list Z, tpaxpby 0 Z.add Z.mul (fun v => v) (Z.eqb 0) ColMajor Upper NoTrans Unit 1 1 0 1 1 [1; 5] = Ok m' /\
  kept Upper Unit 0 0 = false /\ val 0 m' (packed_cell ColMajor Upper 1 1 0 0) <> 5.
Proof. exists [1; 6]. repeat split. vm_compute. discriminate. Qed.
Print Assumptions C91_tpaxpby_unit_refuted.

(** A := alpha A for packed triangles *)
Theorem C91_tpscal : forall (A : Type) (d : A) (mul : A -> A -> A) o up n alpha a (m : list A), 0 <= n -> held_inside (kept up NonUnit) (packed_cell o up n a) m n n ->
  exists m', tpscal mul NonUnit n alpha a m = Ok m' /\ combined d (fun _ v => mul v alpha) (kept up NonUnit) n n (packed_cell o up n a) (packed_cell o up n a) m m'.
Proof. intros A d mul. apply tpscal_ok. Qed.
Print Assumptions C91_tpscal.
(** Without the diagonal: upper triangles by rows and lower ones by columns. *)
Theorem C91_tpscal_unit_partial : forall (A : Type) (d : A) (mul : A -> A -> A) o n alpha a (m : list A), let up := match o with RowMajor => Upper | ColMajor => Lower end in
  held_inside (kept up Unit) (packed_cell o up n a) m n n ->
  exists m', tpscal mul Unit n alpha a m = Ok m' /\ combined d (fun _ v => mul v alpha) (kept up Unit) n n (packed_cell o up n a) (packed_cell o up n a) m m'.
Proof. intros A d mul. apply tpscal_unit_ok. Qed.
Print Assumptions C91_tpscal_unit_partial.
Example C91_tpscal_case : tpscal Z.mul Unit 3 10 0 [1; 2; 3; 4; 5; 6] = Ok [1; 20; 30; 4; 50; 6].
Proof. vm_compute. reflexivity. Qed.
(** For an upper triangle by columns a diagonal entry is scaled and another entry is not. *)
Theorem C91_tpscal_unit_refuted : exists n (m m' : list Z), held_inside (kept Upper Unit) (packed_cell ColMajor Upper n 0) m n n /\ tpscal Z.mul Unit n 10 0 m = Ok m' /\
  (exists i, 0 <= i < n /\ val 0 m' (packed_cell ColMajor Upper n 0 i i) <> val 0 m (packed_cell ColMajor Upper n 0 i i)) /\
  exists i j, 0 <= i < j /\ j < n /\ val 0 m' (packed_cell ColMajor Upper n 0 i j) <> val 0 m (packed_cell ColMajor Upper n 0 i j) * 10.
Proof.
  exists 3, [1; 2; 3; 4; 5; 6], [1; 20; 30; 4; 50; 6]. split.
  - intros i j Hi Hj K. assert (Ci : i = 0 \/ i = 1 \/ i = 2) by lia. assert (Cj : j = 0 \/ j = 1 \/ j = 2) by lia. destruct Ci as [->|[->| ->]], Cj as [->|[->| ->]]; cbn; lia.
  - split; [vm_compute; reflexivity|]. split; [exists 1; split; [lia|vm_compute; discriminate]|]. exists 0, 2. split; [lia|]. split; [lia|]. vm_compute. discriminate.
Qed.
Print Assumptions C91_tpscal_unit_refuted.

(** ** C92: band matrices *)
(** B := op(A), B := B + alpha op(A) and B := beta B + alpha op(A) inside the band.  [rows] and [cols] must be the
    sizes of A, [kl] and [ku] the widths of the band of B. *)
Theorem C92_gbcopy_partial : forall (A : Type) (d : A) (conj : A -> A) o t rows cols kl ku a lda b ldb (m : list A), 0 <= kl -> 0 <= ku -> 0 <= lda -> kl + ku + 1 <= ldb ->
  let '(r, c) := if is_trans t then (cols, rows) else (rows, cols) in
  held_inside (gband_kept kl ku) (gband_cell o kl ku b ldb) m r c -> source m (gband_kept kl ku) r c (stored_band o t kl ku a lda) (gband_cell o kl ku b ldb) ->
  exists m', gbcopy conj o t rows cols kl ku a lda b ldb m = Ok m' /\
    combined d (fun u v => by_mode conj t u) (gband_kept kl ku) r c (stored_band o t kl ku a lda) (gband_cell o kl ku b ldb) m m'.
Proof.
  intros A d conj o t rows cols kl ku a lda b ldb m Hkl Hku Ha Hb.
  pose proof (banded_ok d copy_op (ccopy conj) _ _ (copy_acts d) (ccopy_acts d conj) o t rows cols kl ku a lda b ldb m Hkl Hku Ha Hb) as H.
  destruct (if is_trans t then (cols, rows) else (rows, cols)) as [r c]. intros Hin Hs. destruct (H Hin Hs) as (m' & E & C).
  exists m'. split; [exact E|]. eapply combined_ext; [|reflexivity|auto|exact C]. intros u v. unfold by_mode. now destruct (is_conj t).
Qed.
Print Assumptions C92_gbcopy_partial.
(** A is 2 x 3 with one line above the diagonal, B its transpose *)
Example C92_gbcopy_case : gbcopy (fun v => v) RowMajor Trans 2 3 1 0 0 2 4 2 [11; 12; 22; 23; 0; 0; 0; 0; 0; 0] = Ok [11; 12; 22; 23; 0; 11; 12; 22; 23; 0].
Proof. vm_compute. reflexivity. Qed.
Theorem C92_gbaxpy_partial : forall (A : Type) (d : A) (add mul : A -> A -> A) (conj : A -> A) alpha o t rows cols kl ku a lda b ldb (m : list A), 0 <= kl -> 0 <= ku -> 0 <= lda -> kl + ku + 1 <= ldb ->
  let '(r, c) := if is_trans t then (cols, rows) else (rows, cols) in
  held_inside (gband_kept kl ku) (gband_cell o kl ku b ldb) m r c -> source m (gband_kept kl ku) r c (stored_band o t kl ku a lda) (gband_cell o kl ku b ldb) ->
  exists m', gbaxpy add mul conj alpha o t rows cols kl ku a lda b ldb m = Ok m' /\
    combined d (fun u v => add v (mul alpha (by_mode conj t u))) (gband_kept kl ku) r c (stored_band o t kl ku a lda) (gband_cell o kl ku b ldb) m m'.
Proof.
  intros A d add mul conj alpha o t rows cols kl ku a lda b ldb m Hkl Hku Ha Hb.
  pose proof (banded_ok d (axpy_op add mul alpha) (acxpy add mul conj alpha) _ _ (axpy_acts d add mul alpha) (acxpy_acts d add mul conj alpha) o t rows cols kl ku a lda b ldb m Hkl Hku Ha Hb) as H.
  destruct (if is_trans t then (cols, rows) else (rows, cols)) as [r c]. intros Hin Hs. destruct (H Hin Hs) as (m' & E & C).
  exists m'. split; [exact E|]. eapply combined_ext; [|reflexivity|auto|exact C]. intros u v. unfold by_mode. now destruct (is_conj t).
Qed.
Print Assumptions C92_gbaxpy_partial.
Theorem C92_gbaxpby_partial : forall (A : Type) (d zero one : A) (add mul : A -> A -> A) (conj : A -> A) (is_zero : A -> bool) alpha beta o t rows cols kl ku a lda b ldb (m : list A),
  semi_ring_theory zero one add mul eq -> (forall v, is_zero v = true <-> v = zero) -> 0 <= kl -> 0 <= ku -> 0 <= lda -> kl + ku + 1 <= ldb ->
  let '(r, c) := if is_trans t then (cols, rows) else (rows, cols) in
  held_inside (gband_kept kl ku) (gband_cell o kl ku b ldb) m r c -> source m (gband_kept kl ku) r c (stored_band o t kl ku a lda) (gband_cell o kl ku b ldb) ->
  exists m', gbaxpby zero add mul conj is_zero alpha beta o t rows cols kl ku a lda b ldb m = Ok m' /\
    combined d (fun u v => add (mul beta v) (mul alpha (by_mode conj t u))) (gband_kept kl ku) r c (stored_band o t kl ku a lda) (gband_cell o kl ku b ldb) m m'.
Proof.
  intros A d zero one add mul conj is_zero alpha beta o t rows cols kl ku a lda b ldb m SR HZ Hkl Hku Ha Hb.
  pose proof (banded_ok d (axpby zero add mul is_zero alpha beta) (acxpby zero add mul conj is_zero alpha beta) _ _ (axpby_acts d zero one add mul is_zero alpha beta SR HZ)
    (acxpby_acts d zero one add mul conj is_zero alpha beta SR HZ) o t rows cols kl ku a lda b ldb m Hkl Hku Ha Hb) as H.
  destruct (if is_trans t then (cols, rows) else (rows, cols)) as [r c]. intros Hin Hs. destruct (H Hin Hs) as (m' & E & C).
  exists m'. split; [exact E|]. eapply combined_ext; [|reflexivity|auto|exact C]. intros u v. unfold by_mode. now destruct (is_conj t).
Qed.
Print Assumptions C92_gbaxpby_partial.
Example C92_gbaxpby_case : gbaxpby 0 Z.add Z.mul Z.opp (Z.eqb 0) 1 2 ColMajor Conj 2 2 0 1 0 2 4 2 [0; 11; 12; 22; 7; 100; 100; 100] = Ok [0; 11; 12; 22; 7; 189; 188; 178].
Proof. vm_compute. reflexivity. Qed.
(** With [rows] and [cols] the sizes of B, as for dense matrices, entries of B are left out. *)
Theorem C92_gbcopy_refuted : exists rows cols kl ku a lda b ldb (m m' : list Z), kl + ku + 1 <= lda /\ kl + ku + 1 <= ldb /\
  held_inside (gband_kept kl ku) (gband_cell RowMajor kl ku b ldb) m rows cols /\ source m (gband_kept kl ku) rows cols (stored_band RowMajor Trans kl ku a lda) (gband_cell RowMajor kl ku b ldb) /\
  gbcopy (fun v => v) RowMajor Trans rows cols kl ku a lda b ldb m = Ok m' /\
  exists i j, 0 <= i < rows /\ 0 <= j < cols /\ gband_kept kl ku i j = true /\
    val 0 m' (gband_cell RowMajor kl ku b ldb i j) <> val 0 m (stored_band RowMajor Trans kl ku a lda i j).
Proof.
  exists 1, 2, 0, 1, 0, 2, 4, 2, [0; 11; 21; 0; 7; 7], [0; 11; 21; 0; 11; 7]. split; [lia|]. split; [lia|].
  split; [intros i j Hi Hj _; cbn [cell gband_cell length]; lia|]. split.
  - intros i j Hi Hj _. split; [unfold stored, stored_band; cbn [is_trans cell gband_cell length]; lia|]. intros (i' & j' & Hi' & Hj' & _ & E). unfold stored, stored_band in E; cbn [is_trans cell gband_cell] in E. lia.
  - split; [vm_compute; reflexivity|]. exists 0, 1. repeat split; try lia. vm_compute. discriminate.
Qed.
Print Assumptions C92_gbcopy_refuted.

(** A := alpha A inside the band *)
Theorem C92_gbscal : forall (A : Type) (d : A) (mul : A -> A -> A) o rows cols kl ku alpha a lda (m : list A), 0 <= kl -> 0 <= ku -> kl + ku + 1 <= lda ->
  held_inside (gband_kept kl ku) (gband_cell o kl ku a lda) m rows cols ->
  exists m', gbscal mul o rows cols kl ku alpha a lda m = Ok m' /\
    combined d (fun _ v => mul v alpha) (gband_kept kl ku) rows cols (gband_cell o kl ku a lda) (gband_cell o kl ku a lda) m m'.
Proof. intros A d mul. apply gbscal_ok. Qed.
Print Assumptions C92_gbscal.
Example C92_gbscal_case : gbscal Z.mul RowMajor 2 2 1 0 10 0 2 [7; 1; 2; 3] = Ok [7; 10; 20; 30].
Proof. vm_compute. reflexivity. Qed.

(** A is replaced by op(A) in place; to be transposed it must be square with a band as wide below the diagonal as above. *)
Theorem C92_gbcotr : forall (A : Type) (d : A) (conj : A -> A) asserts o t rows cols kl ku a lda (m : list A), 0 <= kl -> 0 <= ku -> kl + ku + 1 <= lda -> (is_trans t = true -> rows = cols /\ kl = ku) ->
  held_inside (gband_kept kl ku) (gband_cell o kl ku a lda) m rows cols ->
  exists m', gbcotr conj asserts o t rows cols kl ku a lda m = Ok m' /\ changes d m m' (held_cells (gband_kept kl ku) (gband_cell o kl ku a lda) rows cols) /\
    forall i j, 0 <= i < rows -> 0 <= j < cols -> gband_kept kl ku i j = true -> val d m' (gband_cell o kl ku a lda i j) = op conj t (fun i j => val d m (gband_cell o kl ku a lda i j)) i j.
Proof. intros A d conj. apply gbcotr_ok. Qed.
Print Assumptions C92_gbcotr.
Example C92_gbcotr_case : gbcotr Z.opp true RowMajor ConjTrans 2 2 1 1 0 3 [9; 11; 12; 21; 22; 9] = Ok [9; -11; -21; -12; -22; 9].
Proof. vm_compute. reflexivity. Qed.
(** Otherwise the assertion fails. *)
Theorem C92_gbcotr_square : forall (A : Type) (conj : A -> A) o t rows cols kl ku a lda (m : list A), is_trans t = true -> rows <> cols \/ kl <> ku ->
  gbcotr conj true o t rows cols kl ku a lda m = Throw RuntimeError.
Proof.
  intros A conj o t rows cols kl ku a lda m T N. unfold gbcotr, assertion. cbn [andb].
  destruct o, t; try discriminate T; cbn [by_order]; destruct (rows =? cols) eqn:E1, (kl =? ku) eqn:E2; rewrite 1?(Z.eqb_sym cols), 1?(Z.eqb_sym ku), ?E1, ?E2; try reflexivity; lia.
Qed.
Print Assumptions C92_gbcotr_square.
