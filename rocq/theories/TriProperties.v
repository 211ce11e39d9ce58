(** C76, C77: products with triangular matrices and triangular systems.  Every order of storage, triangle,
    operation (plain, conjugated, transposed, both), implicit or stored diagonal, size, leading dimension and
    increment.  [triangle], [op] and [applied] are in TriSpec, [elt] and [inside] in BlasSpec. *)
From Coq Require Import ZArith Ring_theory Field_theory QArith Qcanon.
From Verif Require Import Base BaseProofs MatmulModel MatmulSpec BlasModel BlasSpec TriModel TriSpec TriProofs.
From Coq Require Import ZifyNat ZifyN ZifyBool.
Ltac Zify.zify_post_hook ::= idtac.
Local Open Scope Z_scope.

(** trmv replaces x by op(T) x and touches nothing else.  Only the kept triangle is read: the other half (and
    the diagonal, when it is implicitly one) may hold anything, overlap x or lie outside memory. *)
Theorem C76_trmv : forall A (d zero one : A) (add mul : A -> A -> A) conj o up t dg n a lda x inc (m : list A),
  semi_ring_theory zero one add mul eq -> conjugate zero one conj ->
  inc <> 0 -> inside m x inc n -> kept_apart m o up dg n a lda (in_vector x inc n) ->
  exists m', trmv zero add mul conj o up t dg n a lda x inc m = Ok m' /\
    changes d m m' (in_vector x inc n) /\
    forall i, 0 <= i < n -> val d m' (elt x inc n i) =
      zsum zero add n (fun j => mul (op conj t (triangle d zero one o up dg a lda m) i j) (val d m (elt x inc n j))).
Proof. intros. now apply (trmv_ok d zero one conj). Qed.
Print Assumptions C76_trmv.

(** A lower triangle with 9s in the half that is not read; the vector runs backwards with stride 2. *)
Example C76_trmv_ex :
  let m := [1; 9; 9; 2; 3; 9; 4; 5; 6; 7; 0; 8; 0; 10] in
  inside m 9 (-2) 3 /\ kept_apart m RowMajor Lower NonUnit 3 0 3 (in_vector 9 (-2) 3) /\
  trmv 0 Z.add Z.mul (fun v => v) RowMajor Lower NoTrans NonUnit 3 0 3 9 (-2) m =
    Ok [1; 9; 9; 2; 3; 9; 4; 5; 6; 122; 0; 44; 0; 10] /\
  trmv 0 Z.add Z.mul (fun v => v) ColMajor Upper ConjTrans Unit 3 0 3 9 (-2) m =
    Ok [1; 9; 9; 2; 3; 9; 4; 5; 6; 87; 0; 28; 0; 10].
Proof.
  split; [|split; [|now split]].
  - intros i Hi. unfold elt. change (-2 <? 0) with true. cbn [length]. lia.
  - intros i j Hi Hj K. cbn [cell]. assert (j <= i) by (destruct (j <=? i) eqn:E; [lia|]; unfold kept in K; lia).
    split; [cbn [length]; lia|]. intros (k & Hk & E). unfold elt in E. change (-2 <? 0) with true in E. cbv iota in E. lia.
Qed.

(** trmm replaces B by alpha op(T) B or alpha B op(T). *)
Theorem C76_trmm : forall A (d zero one : A) (add mul : A -> A -> A) conj is_zero o sd up t dg rows cols alpha a lda b ldb (m : list A),
  semi_ring_theory zero one add mul eq -> (forall x, is_zero x = true <-> x = zero) -> conjugate zero one conj ->
  0 <= rows -> 0 <= cols -> leading o rows cols ldb -> block_inside m o b ldb rows cols ->
  kept_apart m o up dg (order_of sd rows cols) a lda (block o b ldb rows cols) ->
  exists m', trmm zero add mul conj is_zero o sd up t dg rows cols alpha a lda b ldb m = Ok m' /\
    changes d m m' (block o b ldb rows cols) /\
    forall i j, 0 <= i < rows -> 0 <= j < cols -> entry d o b ldb m' i j =
      mul alpha (applied zero add mul sd rows cols (op conj t (triangle d zero one o up dg a lda m)) (entry d o b ldb m) i j).
Proof. intros. now apply (trmm_ok d zero one conj add add mul add (fun v => v) (fun v => v)). Qed.
Print Assumptions C76_trmm.

(** T = (2 3; 0 5), B = (1 2 3; 4 5 6) with leading dimension 4; then B T' for the transpose of a 3 x 3 T. *)
Example C76_trmm_ex :
  let m := [2; 3; 9; 5; 1; 2; 3; 0; 4; 5; 6; 0] in
  block_inside m RowMajor 4 4 2 3 /\ kept_apart m RowMajor Upper NonUnit 2 0 2 (block RowMajor 4 4 2 3) /\
  trmm 0 Z.add Z.mul (fun v => v) (Z.eqb 0) RowMajor Left Upper NoTrans NonUnit 2 3 10 0 2 4 4 m =
    Ok [2; 3; 9; 5; 140; 190; 240; 0; 200; 250; 300; 0] /\
  trmm 0 Z.add Z.mul (fun v => v) (Z.eqb 0) RowMajor Right Lower Trans Unit 1 2 1 0 2 4 4 m =
    Ok [2; 3; 9; 5; 1; 11; 3; 0; 4; 5; 6; 0].
Proof.
  split; [|split; [|now split]].
  - intros i j Hi Hj. cbn [cell length]. lia.
  - intros i j Hi Hj K. cbn [cell]. split; [cbn [length]; lia|]. intros (k & l & Hk & Hl & E). cbn [cell] in E. lia.
Qed.

(** trsv replaces x by the solution of op(T) x' = x. *)
Theorem C77_trsv : forall A (d zero one : A) (add sub mul div : A -> A -> A) opp inv conj o up t dg n a lda x inc (m : list A),
  field_theory zero one add mul sub opp div inv eq -> conjugate zero one conj ->
  inc <> 0 -> inside m x inc n -> kept_apart m o up dg n a lda (in_vector x inc n) ->
  invertible zero conj n (triangle d zero one o up dg a lda m) ->
  exists m', trsv zero add sub mul div conj o up t dg n a lda x inc m = Ok m' /\
    changes d m m' (in_vector x inc n) /\
    forall i, 0 <= i < n ->
      zsum zero add n (fun j => mul (op conj t (triangle d zero one o up dg a lda m) i j) (val d m' (elt x inc n j))) = val d m (elt x inc n i).
Proof. intros. now apply (trsv_ok d zero one conj) with (opp := opp) (inv := inv). Qed.
Print Assumptions C77_trsv.

(** Solving undoes multiplying, and the other way round: the whole memory is restored. *)
Theorem C77_round_trip : forall A (d zero one : A) (add sub mul div : A -> A -> A) opp inv conj o up t dg n a lda x inc (m : list A),
  field_theory zero one add mul sub opp div inv eq -> conjugate zero one conj ->
  inc <> 0 -> inside m x inc n -> kept_apart m o up dg n a lda (in_vector x inc n) ->
  invertible zero conj n (triangle d zero one o up dg a lda m) ->
  (exists m1, trmv zero add mul conj o up t dg n a lda x inc m = Ok m1 /\
              trsv zero add sub mul div conj o up t dg n a lda x inc m1 = Ok m) /\
  (exists m1, trsv zero add sub mul div conj o up t dg n a lda x inc m = Ok m1 /\
              trmv zero add mul conj o up t dg n a lda x inc m1 = Ok m).
Proof. intros. now apply (there_and_back d zero one conj) with (opp := opp) (inv := inv). Qed.
Print Assumptions C77_round_trip.

(** trsm replaces B by the X with op(T) X = alpha B, or X op(T) = alpha B. *)
Theorem C77_trsm : forall A (d zero one : A) (add sub mul div : A -> A -> A) opp inv conj o sd up t dg rows cols alpha a lda b ldb (m : list A),
  field_theory zero one add mul sub opp div inv eq -> conjugate zero one conj ->
  0 <= rows -> 0 <= cols -> leading o rows cols ldb -> block_inside m o b ldb rows cols ->
  kept_apart m o up dg (order_of sd rows cols) a lda (block o b ldb rows cols) ->
  invertible zero conj (order_of sd rows cols) (triangle d zero one o up dg a lda m) ->
  exists m', trsm zero add sub mul div conj o sd up t dg rows cols alpha a lda b ldb m = Ok m' /\
    changes d m m' (block o b ldb rows cols) /\
    forall i j, 0 <= i < rows -> 0 <= j < cols ->
      applied zero add mul sd rows cols (op conj t (triangle d zero one o up dg a lda m)) (entry d o b ldb m') i j =
      mul alpha (entry d o b ldb m i j).
Proof. intros. now apply (trsm_ok d zero one conj) with (opp := opp) (inv := inv). Qed.
Print Assumptions C77_trsm.

(** The rationals: (2 3; 0 5) x = (4, 10) has the solution (-1, 2); and its transpose; two right-hand sides. *)
Definition C77_q (z : Z) : Qc := Q2Qc (inject_Z z).
Example C77_trsv_ex :
  let q0 := C77_q 0 in let q1 := C77_q 1 in
  let m := map C77_q [2; 3; 9; 5; 4; 10; 7; 7] in
  field_theory q0 q1 Qcplus Qcmult Qcminus Qcopp Qcdiv Qcinv eq /\ conjugate q0 q1 (fun v => v) /\
  inside m 4 1 2 /\ kept_apart m RowMajor Upper NonUnit 2 0 2 (in_vector 4 1 2) /\
  invertible q0 (fun v => v) 2 (triangle q0 q0 q1 RowMajor Upper NonUnit 0 2 m) /\
  omap (map this) (trsv q0 Qcplus Qcminus Qcmult Qcdiv (fun v => v) RowMajor Upper NoTrans NonUnit 2 0 2 4 1 m) =
    Ok [2; 3; 9; 5; -1; 2; 7; 7]%Q /\
  omap (map this) (trsv q0 Qcplus Qcminus Qcmult Qcdiv (fun v => v) RowMajor Upper Trans NonUnit 2 0 2 4 1 m) =
    Ok [2; 3; 9; 5; 2; 4 # 5; 7; 7]%Q /\
  omap (map this) (trsm q0 Qcplus Qcminus Qcmult Qcdiv (fun v => v) ColMajor Left Lower NoTrans Unit 2 2 (C77_q 3) 0 2 4 2 m) =
    Ok [2; 3; 9; 5; 12; -6; 21; -42]%Q.
Proof.
  cbv zeta. split; [exact Qcft|]. split; [now split|]. split; [|split; [|split]].
  - intros i Hi. unfold elt. change (1 <? 0) with false. cbn [length map]. lia.
  - intros i j Hi Hj K. cbn [cell]. assert (i <= j) by (destruct (i <=? j) eqn:E; [lia|]; unfold kept in K; lia).
    split; [cbn [length map]; lia|]. intros (k & Hk & E). unfold elt in E. change (1 <? 0) with false in E. cbv iota in E. lia.
  - intros i Hi. assert (Hc : i = 0 \/ i = 1) by lia. destruct Hc as [-> | ->];
      (split; intros E; apply (f_equal this) in E; vm_compute in E; discriminate E).
  - vm_compute. repeat split.
Qed.
