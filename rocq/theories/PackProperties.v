(** C85, C86: packed and banded matrices.  Every order of storage, triangle, operation, implicit or stored
    diagonal, size, band width, leading dimension and increment.  Where the entries are kept and which matrices
    they mean is in PackSpec; [op] and [invertible] in TriSpec, [elt] and [inside] in BlasSpec. *)
From Coq Require Import ZArith Ring_theory Field_theory QArith Qcanon.
From Verif Require Import Base BaseProofs MatmulModel MatmulSpec BlasModel BlasSpec TriModel TriSpec TriProofs SymModel SymSpec
  SymProperties PackModel PackSpec PackProofs PackSym PackRank TriProperties.
From Coq Require Import ZifyNat ZifyN ZifyBool.
Ltac Zify.zify_post_hook ::= idtac.
Local Open Scope Z_scope.

(** Packed storage has no gaps and no overlaps: the n (n + 1) / 2 cells from [a] on hold the kept entries, each
    once. *)
Theorem C85_cells : forall o up n a, 0 <= n ->
  (forall p, a <= p < a + n * (n + 1) / 2 <->
     exists i j, 0 <= i < n /\ 0 <= j < n /\ kept up NonUnit i j = true /\ packed_cell o up n a i j = p) /\
  (forall i j i' j', 0 <= i < n -> 0 <= j < n -> 0 <= i' < n -> 0 <= j' < n ->
     kept up NonUnit i j = true -> kept up NonUnit i' j' = true -> packed_cell o up n a i j = packed_cell o up n a i' j' -> i = i' /\ j = j').
Proof. intros o up n a Hn. split; [intros p; now apply packed_cells|]. intros. now apply (packed_inj o up n a). Qed.
Print Assumptions C85_cells.

(** (1 2 3; . 4 5; . . 6) by rows and by columns. *)
Example C85_cells_ex :
  map (fun ij => packed_cell RowMajor Upper 3 10 (fst ij) (snd ij)) [(0, 0); (0, 1); (0, 2); (1, 1); (1, 2); (2, 2)] = [10; 11; 12; 13; 14; 15] /\
  map (fun ij => packed_cell ColMajor Upper 3 10 (fst ij) (snd ij)) [(0, 0); (0, 1); (1, 1); (0, 2); (1, 2); (2, 2)] = [10; 11; 12; 13; 14; 15] /\
  map (fun ij => packed_cell ColMajor Lower 3 10 (fst ij) (snd ij)) [(0, 0); (1, 0); (2, 0); (1, 1); (2, 1); (2, 2)] = [10; 11; 12; 13; 14; 15].
Proof. now repeat split. Qed.

(** tpmv replaces x by op(T) x. *)
Theorem C85_tpmv : forall A (d zero one : A) (add mul : A -> A -> A) conj o up t dg n a x inc (m : list A),
  semi_ring_theory zero one add mul eq -> conjugate zero one conj ->
  inc <> 0 -> inside m x inc n -> held_apart (kept up dg) (packed_cell o up n a) m n n (in_vector x inc n) ->
  exists m', tpmv zero add mul conj o up t dg n a x inc m = Ok m' /\
    changes d m m' (in_vector x inc n) /\
    forall i, 0 <= i < n -> val d m' (elt x inc n i) =
      zsum zero add n (fun j => mul (op conj t (triangular_of d zero one (kept up dg) (packed_cell o up n a) m) i j) (val d m (elt x inc n j))).
Proof. intros. now apply (tpmv_ok d zero one add mul conj). Qed.
Print Assumptions C85_tpmv.

(** tpsv replaces x by the solution of op(T) x' = x. *)
Theorem C85_tpsv : forall A (d zero one : A) (add sub mul div : A -> A -> A) opp inv conj o up t dg n a x inc (m : list A),
  field_theory zero one add mul sub opp div inv eq -> conjugate zero one conj ->
  inc <> 0 -> inside m x inc n -> held_apart (kept up dg) (packed_cell o up n a) m n n (in_vector x inc n) ->
  invertible zero conj n (triangular_of d zero one (kept up dg) (packed_cell o up n a) m) ->
  exists m', tpsv zero add sub mul div opp conj o up t dg n a x inc m = Ok m' /\
    changes d m m' (in_vector x inc n) /\
    forall i, 0 <= i < n ->
      zsum zero add n (fun j => mul (op conj t (triangular_of d zero one (kept up dg) (packed_cell o up n a) m) i j) (val d m' (elt x inc n j)))
      = val d m (elt x inc n i).
Proof. intros. now apply (tpsv_ok d zero one add sub mul div opp inv conj). Qed.
Print Assumptions C85_tpsv.

(** Solving undoes multiplying, and the other way round. *)
Theorem C85_round_trip : forall A (d zero one : A) (add sub mul div : A -> A -> A) opp inv conj o up t dg n a x inc (m : list A),
  field_theory zero one add mul sub opp div inv eq -> conjugate zero one conj ->
  inc <> 0 -> inside m x inc n -> held_apart (kept up dg) (packed_cell o up n a) m n n (in_vector x inc n) ->
  invertible zero conj n (triangular_of d zero one (kept up dg) (packed_cell o up n a) m) ->
  (exists m1, tpmv zero add mul conj o up t dg n a x inc m = Ok m1 /\
              tpsv zero add sub mul div opp conj o up t dg n a x inc m1 = Ok m) /\
  (exists m1, tpsv zero add sub mul div opp conj o up t dg n a x inc m = Ok m1 /\
              tpmv zero add mul conj o up t dg n a x inc m1 = Ok m).
Proof.
  intros A d zero one add sub mul div opp inv conj o up t dg n a x inc m FT CJ Hinc.
  apply (packed_back d zero one add sub mul div opp inv conj FT CJ up t n x inc (kept up dg) (packed_cell o up n a)).
  - intros i j K. unfold kept in *. destruct dg, up; lia.
  - intros. now apply (tpmv_ok d zero one add mul conj (field_semi zero one add sub mul div opp inv FT)).
  - intros. now apply (tpsv_ok d zero one add sub mul div opp inv conj).
Qed.
Print Assumptions C85_round_trip.

(** (1 . .; 2 3 .; 4 5 6) packed by rows, the vector backwards with stride 2, then the same cells as an upper
    triangle by columns, with an implicit diagonal.  The system (2 3; 0 5) x = (4, 10). *)
Example C85_tpmv_ex :
  let m := [1; 2; 3; 4; 5; 6; 7; 0; 8; 0; 10] in
  inside m 6 (-2) 3 /\ held_apart (kept Lower NonUnit) (packed_cell RowMajor Lower 3 0) m 3 3 (in_vector 6 (-2) 3) /\
  tpmv 0 Z.add Z.mul (fun v => v) RowMajor Lower NoTrans NonUnit 3 0 6 (-2) m = Ok [1; 2; 3; 4; 5; 6; 122; 0; 44; 0; 10] /\
  tpmv 0 Z.add Z.mul (fun v => v) ColMajor Upper ConjTrans Unit 3 0 6 (-2) m = Ok [1; 2; 3; 4; 5; 6; 87; 0; 28; 0; 10].
Proof.
  split; [|split; [|now split]].
  - intros i Hi. unfold elt. change (-2 <? 0) with true. cbn [length]. lia.
  - intros i j Hi Hj K. assert (B : 0 <= packed_cell RowMajor Lower 3 0 i j < 0 + 3 * (3 + 1) / 2) by (apply (packed_cells RowMajor Lower 3 0 (packed_cell RowMajor Lower 3 0 i j)); [lia|]; now exists i, j).
    change (0 + 3 * (3 + 1) / 2) with 6 in B. split; [cbn [length]; lia|]. intros (k & Hk & E). unfold elt in E. change (-2 <? 0) with true in E. cbv iota in E. lia.
Qed.
Example C85_tpsv_ex :
  let q0 := C77_q 0 in let q1 := C77_q 1 in let m := map C77_q [2; 3; 5; 4; 10] in
  inside m 3 1 2 /\ held_apart (kept Upper NonUnit) (packed_cell RowMajor Upper 2 0) m 2 2 (in_vector 3 1 2) /\
  invertible q0 (fun v => v) 2 (triangular_of q0 q0 q1 (kept Upper NonUnit) (packed_cell RowMajor Upper 2 0) m) /\
  omap (map this) (tpsv q0 Qcplus Qcminus Qcmult Qcdiv Qcopp (fun v => v) RowMajor Upper NoTrans NonUnit 2 0 3 1 m) = Ok [2; 3; 5; -1; 2]%Q /\
  omap (map this) (tpsv q0 Qcplus Qcminus Qcmult Qcdiv Qcopp (fun v => v) RowMajor Upper Trans NonUnit 2 0 3 1 m) = Ok [2; 3; 5; 2; 4 # 5]%Q.
Proof.
  cbv zeta. split; [|split; [|split]].
  - intros i Hi. unfold elt. change (1 <? 0) with false. cbn [length map]. lia.
  - intros i j Hi Hj K. assert (B : 0 <= packed_cell RowMajor Upper 2 0 i j < 0 + 2 * (2 + 1) / 2) by (apply (packed_cells RowMajor Upper 2 0 (packed_cell RowMajor Upper 2 0 i j)); [lia|]; now exists i, j).
    change (0 + 2 * (2 + 1) / 2) with 3 in B. split; [cbn [length map]; lia|]. intros (k & Hk & E). unfold elt in E. change (1 <? 0) with false in E. cbv iota in E. lia.
  - intros i Hi. assert (Hc : i = 0 \/ i = 1) by lia. destruct Hc as [-> | ->];
      (split; intros E; apply (f_equal this) in E; vm_compute in E; discriminate E).
  - vm_compute. repeat split.
Qed.

(** spmv and hpmv: y := beta y + alpha S x, y := beta y + alpha H x. *)
Theorem C85_spmv : forall A (d zero one : A) (add mul : A -> A -> A) conj is_zero o up n alpha a x incX beta y incY (m : list A),
  semi_ring_theory zero one add mul eq -> (forall v, is_zero v = true <-> v = zero) ->
  incY <> 0 -> inside m y incY n -> vector_apart m x incX n (in_vector y incY n) ->
  held_apart (kept up NonUnit) (packed_cell o up n a) m n n (in_vector y incY n) ->
  exists m', spmv zero add mul conj is_zero o up n alpha a x incX beta y incY m = Ok m' /\
    changes d m m' (in_vector y incY n) /\
    forall i, 0 <= i < n -> val d m' (elt y incY n i) =
      add (mul beta (val d m (elt y incY n i)))
          (mul alpha (zsum zero add n (fun j => mul (symmetric_of d zero (kept up NonUnit) (packed_cell o up n a) m i j) (val d m (elt x incX n j))))).
Proof. intros. now apply (spmv_ok d zero one add mul). Qed.
Print Assumptions C85_spmv.
Theorem C85_hpmv : forall A (d zero one : A) (add mul : A -> A -> A) conj re is_zero o up n alpha a x incX beta y incY (m : list A),
  semi_ring_theory zero one add mul eq -> (forall v, is_zero v = true <-> v = zero) ->
  incY <> 0 -> inside m y incY n -> vector_apart m x incX n (in_vector y incY n) ->
  held_apart (kept up NonUnit) (packed_cell o up n a) m n n (in_vector y incY n) ->
  exists m', hpmv zero add mul conj re is_zero o up n alpha a x incX beta y incY m = Ok m' /\
    changes d m m' (in_vector y incY n) /\
    forall i, 0 <= i < n -> val d m' (elt y incY n i) =
      add (mul beta (val d m (elt y incY n i)))
          (mul alpha (zsum zero add n (fun j => mul (hermitian_of d zero conj re (kept up NonUnit) (packed_cell o up n a) m i j) (val d m (elt x incX n j))))).
Proof. intros. now apply (hpmv_ok d zero one add mul). Qed.
Print Assumptions C85_hpmv.

(** (2 3; 3 5), and the Hermitian matrix with 3 - i above the diagonal, in both orders. *)
Example C85_spmv_ex :
  let m := [2; 3; 5; 1; 10; 100; 200] in
  inside m 5 1 2 /\ vector_apart m 3 (-1) 2 (in_vector 5 1 2) /\ held_apart (kept Upper NonUnit) (packed_cell RowMajor Upper 2 0) m 2 2 (in_vector 5 1 2) /\
  spmv 0 Z.add Z.mul (fun v => v) (Z.eqb 0) RowMajor Upper 2 1 0 3 1 1 5 1 m = Ok [2; 3; 5; 1; 10; 132; 253] /\
  spmv 0 Z.add Z.mul (fun v => v) (Z.eqb 0) ColMajor Upper 2 1 0 3 (-1) 0 5 1 m = Ok [2; 3; 5; 1; 10; 23; 35].
Proof.
  split; [|split; [|split; [|now repeat split]]].
  - intros i Hi. unfold elt. change (1 <? 0) with false. cbn [length]. lia.
  - intros i Hi. unfold elt. change (-1 <? 0) with true. cbn [length]. split; [lia|]. intros (k & Hk & E). unfold elt in E. change (1 <? 0) with false in E. cbv iota in E. lia.
  - intros i j Hi Hj K. assert (B : 0 <= packed_cell RowMajor Upper 2 0 i j < 0 + 2 * (2 + 1) / 2) by (apply (packed_cells RowMajor Upper 2 0 (packed_cell RowMajor Upper 2 0 i j)); [lia|]; now exists i, j).
    change (0 + 2 * (2 + 1) / 2) with 3 in B. split; [cbn [length]; lia|]. intros (k & Hk & E). unfold elt in E. change (1 <? 0) with false in E. cbv iota in E. lia.
Qed.
Example C85_hpmv_ex :
  let m := [(2, 7); (3, -1); (5, 8); (1, 0); (0, 1); (0, 0); (0, 0)] in
  hpmv (0, 0) C78_add C78_mul C78_conj C78_re C78_is_zero RowMajor Upper 2 (1, 0) 0 3 1 (0, 0) 5 1 m =
    Ok [(2, 7); (3, -1); (5, 8); (1, 0); (0, 1); (3, 3); (3, 6)] /\
  hpmv (0, 0) C78_add C78_mul C78_conj C78_re C78_is_zero ColMajor Lower 2 (1, 0) 0 3 1 (0, 0) 5 1 m =
    Ok [(2, 7); (3, -1); (5, 8); (1, 0); (0, 1); (1, 3); (3, 4)] /\
  hermitian_of (0, 0) (0, 0) C78_conj C78_re (kept Upper NonUnit) (packed_cell RowMajor Upper 2 0) m 1 0 = (3, 1) /\
  hermitian_of (0, 0) (0, 0) C78_conj C78_re (kept Lower NonUnit) (packed_cell ColMajor Lower 2 0) m 1 0 = (3, -1).
Proof. now repeat split. Qed.

(** spr, spr2: the kept half of S + alpha x x^T, S + alpha (x y^T + y x^T). *)
Theorem C85_spr : forall A (d zero one : A) (add mul : A -> A -> A) conj o up n alpha x incX a (m : list A),
  semi_ring_theory zero one add mul eq ->
  held_inside (kept up NonUnit) (packed_cell o up n a) m n n ->
  vector_apart m x incX n (held_cells (kept up NonUnit) (packed_cell o up n a) n n) ->
  exists m', spr add mul conj o up n alpha x incX a m = Ok m' /\
    changes d m m' (held_cells (kept up NonUnit) (packed_cell o up n a) n n) /\
    forall i j, 0 <= i < n -> 0 <= j < n -> kept up NonUnit i j = true ->
      val d m' (packed_cell o up n a i j) =
      add (val d m (packed_cell o up n a i j)) (mul alpha (mul (val d m (elt x incX n i)) (val d m (elt x incX n j)))).
Proof. intros. now apply (spr_ok d zero one add mul). Qed.
Print Assumptions C85_spr.
Theorem C85_spr2 : forall A (d zero one : A) (add mul : A -> A -> A) conj o up n alpha x incX y incY a (m : list A),
  semi_ring_theory zero one add mul eq ->
  held_inside (kept up NonUnit) (packed_cell o up n a) m n n ->
  vector_apart m x incX n (held_cells (kept up NonUnit) (packed_cell o up n a) n n) ->
  vector_apart m y incY n (held_cells (kept up NonUnit) (packed_cell o up n a) n n) ->
  exists m', spr2 add mul conj o up n alpha x incX y incY a m = Ok m' /\
    changes d m m' (held_cells (kept up NonUnit) (packed_cell o up n a) n n) /\
    forall i j, 0 <= i < n -> 0 <= j < n -> kept up NonUnit i j = true ->
      val d m' (packed_cell o up n a i j) =
      add (val d m (packed_cell o up n a i j))
          (mul alpha (add (mul (val d m (elt x incX n i)) (val d m (elt y incY n j))) (mul (val d m (elt y incY n i)) (val d m (elt x incX n j))))).
Proof. intros. now apply (spr2_ok d zero one add mul). Qed.
Print Assumptions C85_spr2.

(** hpr, hpr2: H + alpha x x^H, H + alpha x y^H + conj(alpha) y x^H with the diagonal made real; nothing at all for
    alpha = 0. *)
Theorem C85_hpr : forall A (d zero one : A) (add mul : A -> A -> A) conj re is_zero o up n alpha x incX a (m : list A),
  semi_ring_theory zero one add mul eq ->
  held_inside (kept up NonUnit) (packed_cell o up n a) m n n ->
  vector_apart m x incX n (held_cells (kept up NonUnit) (packed_cell o up n a) n n) ->
  (is_zero alpha = true -> hpr add mul conj re is_zero o up n alpha x incX a m = Ok m) /\
  (is_zero alpha = false ->
   exists m', hpr add mul conj re is_zero o up n alpha x incX a m = Ok m' /\
    changes d m m' (held_cells (kept up NonUnit) (packed_cell o up n a) n n) /\
    forall i j, 0 <= i < n -> 0 <= j < n -> kept up NonUnit i j = true ->
      val d m' (packed_cell o up n a i j) = (if i =? j then re else fun v => v)
        (add (val d m (packed_cell o up n a i j)) (mul alpha (mul (val d m (elt x incX n i)) (conj (val d m (elt x incX n j))))))).
Proof. intros. split; [intros E; unfold hpr; now rewrite E|]. intros. now apply (hpr_ok d zero one add mul). Qed.
Print Assumptions C85_hpr.
Theorem C85_hpr2 : forall A (d zero one : A) (add mul : A -> A -> A) conj re is_zero o up n alpha x incX y incY a (m : list A),
  semi_ring_theory zero one add mul eq -> (forall u v, conj (mul u v) = mul (conj u) (conj v)) ->
  held_inside (kept up NonUnit) (packed_cell o up n a) m n n ->
  vector_apart m x incX n (held_cells (kept up NonUnit) (packed_cell o up n a) n n) ->
  vector_apart m y incY n (held_cells (kept up NonUnit) (packed_cell o up n a) n n) ->
  (is_zero alpha = true -> hpr2 add mul conj re is_zero o up n alpha x incX y incY a m = Ok m) /\
  (is_zero alpha = false ->
   exists m', hpr2 add mul conj re is_zero o up n alpha x incX y incY a m = Ok m' /\
    changes d m m' (held_cells (kept up NonUnit) (packed_cell o up n a) n n) /\
    forall i j, 0 <= i < n -> 0 <= j < n -> kept up NonUnit i j = true ->
      val d m' (packed_cell o up n a i j) = (if i =? j then re else fun v => v)
        (add (val d m (packed_cell o up n a i j))
          (add (mul alpha (mul (val d m (elt x incX n i)) (conj (val d m (elt y incY n j)))))
               (mul (conj alpha) (mul (val d m (elt y incY n i)) (conj (val d m (elt x incX n j)))))))).
Proof. intros. split; [intros E; unfold hpr2; now rewrite E|]. intros. now apply (hpr2_ok d zero one add mul). Qed.
Print Assumptions C85_hpr2.

(** A 2 x 2 half at 0, the vectors behind it. *)
Example C85_spr_ex :
  let m := [1; 2; 3; 10; 20; 5; 7] in
  held_inside (kept Upper NonUnit) (packed_cell RowMajor Upper 2 0) m 2 2 /\
  vector_apart m 3 1 2 (held_cells (kept Upper NonUnit) (packed_cell RowMajor Upper 2 0) 2 2) /\
  spr Z.add Z.mul (fun v => v) RowMajor Upper 2 2 3 1 0 m = Ok [201; 402; 803; 10; 20; 5; 7] /\
  spr Z.add Z.mul (fun v => v) ColMajor Lower 2 2 3 (-1) 0 m = Ok [801; 402; 203; 10; 20; 5; 7] /\
  spr2 Z.add Z.mul (fun v => v) ColMajor Upper 2 1 3 1 5 1 0 m = Ok [101; 172; 283; 10; 20; 5; 7].
Proof.
  assert (B : forall i j, 0 <= i < 2 -> 0 <= j < 2 -> kept Upper NonUnit i j = true -> 0 <= packed_cell RowMajor Upper 2 0 i j < 3).
  { intros i j Hi Hj K. change 3 with (0 + 2 * (2 + 1) / 2). apply (packed_cells RowMajor Upper 2 0 (packed_cell RowMajor Upper 2 0 i j)); [lia|]. now exists i, j. }
  split; [|split; [|now repeat split]].
  - intros i j Hi Hj K. specialize (B i j Hi Hj K). cbn [length]. lia.
  - intros i Hi. unfold elt. change (1 <? 0) with false. split; [cbn [length]; lia|]. intros (k & l & Hk & Hl & K & E). specialize (B k l Hk Hl K). lia.
Qed.
Example C85_hpr_ex :
  let m := [(1, 9); (2, 1); (3, 9); (1, 1); (0, 2); (3, 0); (1, 0)] in
  hpr C78_add C78_mul C78_conj C78_re C78_is_zero RowMajor Upper 2 (1, 0) 3 1 0 m =
    Ok [(3, 0); (4, -1); (7, 0); (1, 1); (0, 2); (3, 0); (1, 0)] /\
  hpr C78_add C78_mul C78_conj C78_re C78_is_zero RowMajor Upper 2 (0, 0) 3 1 0 m = Ok m /\
  hpr2 C78_add C78_mul C78_conj C78_re C78_is_zero ColMajor Upper 2 (0, 1) 3 1 5 1 0 m =
    Ok [(-5, 0); (-5, 2); (-1, 0); (1, 1); (0, 2); (3, 0); (1, 0)].
Proof. now repeat split. Qed.

(** tbmv and tbsv: triangular band matrices, with k lines beside the diagonal. *)
Theorem C86_tbmv : forall A (d zero one : A) (add mul : A -> A -> A) conj o up t dg n k a lda x inc (m : list A),
  semi_ring_theory zero one add mul eq -> conjugate zero one conj -> 0 <= k ->
  inc <> 0 -> inside m x inc n -> held_apart (band_kept up dg k) (band_cell o up k a lda) m n n (in_vector x inc n) ->
  exists m', tbmv zero add mul conj o up t dg n k a lda x inc m = Ok m' /\
    changes d m m' (in_vector x inc n) /\
    forall i, 0 <= i < n -> val d m' (elt x inc n i) =
      zsum zero add n (fun j => mul (op conj t (triangular_of d zero one (band_kept up dg k) (band_cell o up k a lda) m) i j) (val d m (elt x inc n j))).
Proof. intros. now apply (tbmv_ok d zero one add mul conj). Qed.
Print Assumptions C86_tbmv.
Theorem C86_tbsv : forall A (d zero one : A) (add sub mul div : A -> A -> A) opp inv conj o up t dg n k a lda x inc (m : list A),
  field_theory zero one add mul sub opp div inv eq -> conjugate zero one conj -> 0 <= k ->
  inc <> 0 -> inside m x inc n -> held_apart (band_kept up dg k) (band_cell o up k a lda) m n n (in_vector x inc n) ->
  invertible zero conj n (triangular_of d zero one (band_kept up dg k) (band_cell o up k a lda) m) ->
  exists m', tbsv zero add sub mul div opp conj o up t dg n k a lda x inc m = Ok m' /\
    changes d m m' (in_vector x inc n) /\
    forall i, 0 <= i < n ->
      zsum zero add n (fun j => mul (op conj t (triangular_of d zero one (band_kept up dg k) (band_cell o up k a lda) m) i j) (val d m' (elt x inc n j)))
      = val d m (elt x inc n i).
Proof. intros. now apply (tbsv_ok d zero one add sub mul div opp inv conj). Qed.
Print Assumptions C86_tbsv.
Theorem C86_round_trip : forall A (d zero one : A) (add sub mul div : A -> A -> A) opp inv conj o up t dg n k a lda x inc (m : list A),
  field_theory zero one add mul sub opp div inv eq -> conjugate zero one conj -> 0 <= k ->
  inc <> 0 -> inside m x inc n -> held_apart (band_kept up dg k) (band_cell o up k a lda) m n n (in_vector x inc n) ->
  invertible zero conj n (triangular_of d zero one (band_kept up dg k) (band_cell o up k a lda) m) ->
  (exists m1, tbmv zero add mul conj o up t dg n k a lda x inc m = Ok m1 /\
              tbsv zero add sub mul div opp conj o up t dg n k a lda x inc m1 = Ok m) /\
  (exists m1, tbsv zero add sub mul div opp conj o up t dg n k a lda x inc m = Ok m1 /\
              tbmv zero add mul conj o up t dg n k a lda x inc m1 = Ok m).
Proof.
  intros A d zero one add sub mul div opp inv conj o up t dg n k a lda x inc m FT CJ Hk Hinc.
  apply (packed_back d zero one add sub mul div opp inv conj FT CJ up t n x inc (band_kept up dg k) (band_cell o up k a lda)).
  - intros i j K. unfold band_kept, kept in *. destruct dg, up; lia.
  - intros. now apply (tbmv_ok d zero one add mul conj (field_semi zero one add sub mul div opp inv FT)).
  - intros. now apply (tbsv_ok d zero one add sub mul div opp inv conj).
Qed.
Print Assumptions C86_round_trip.

(** (1 2 .; . 3 4; . . 5) in rows of two; the last cell of the third row is not used.  The transpose by columns. *)
Example C86_tbmv_ex :
  let m := [1; 2; 3; 4; 5; 9; 1; 10; 100] in
  inside m 6 1 3 /\ held_apart (band_kept Upper NonUnit 1) (band_cell RowMajor Upper 1 0 2) m 3 3 (in_vector 6 1 3) /\
  tbmv 0 Z.add Z.mul (fun v => v) RowMajor Upper NoTrans NonUnit 3 1 0 2 6 1 m = Ok [1; 2; 3; 4; 5; 9; 21; 430; 500] /\
  tbmv 0 Z.add Z.mul (fun v => v) RowMajor Upper Trans NonUnit 3 1 0 2 6 1 m = Ok [1; 2; 3; 4; 5; 9; 1; 32; 540] /\
  tbmv 0 Z.add Z.mul (fun v => v) ColMajor Lower NoTrans Unit 3 1 0 2 6 (-1) m = Ok [1; 2; 3; 4; 5; 9; 41; 210; 100].
Proof.
  split; [|split; [|now repeat split]].
  - intros i Hi. unfold elt. change (1 <? 0) with false. cbn [length]. lia.
  - intros i j Hi Hj K. unfold band_kept, kept in K. cbn [band_cell]. split; [cbn [length]; lia|].
    intros (l & Hl & E). unfold elt in E. change (1 <? 0) with false in E. cbv iota in E. lia.
Qed.
Example C86_tbsv_ex :
  let q0 := C77_q 0 in let q1 := C77_q 1 in let m := map C77_q [2; 3; 5; 9; 4; 10] in
  inside m 4 1 2 /\ held_apart (band_kept Upper NonUnit 1) (band_cell RowMajor Upper 1 0 2) m 2 2 (in_vector 4 1 2) /\
  invertible q0 (fun v => v) 2 (triangular_of q0 q0 q1 (band_kept Upper NonUnit 1) (band_cell RowMajor Upper 1 0 2) m) /\
  omap (map this) (tbsv q0 Qcplus Qcminus Qcmult Qcdiv Qcopp (fun v => v) RowMajor Upper NoTrans NonUnit 2 1 0 2 4 1 m) = Ok [2; 3; 5; 9; -1; 2]%Q /\
  omap (map this) (tbsv q0 Qcplus Qcminus Qcmult Qcdiv Qcopp (fun v => v) RowMajor Upper Trans NonUnit 2 1 0 2 4 1 m) = Ok [2; 3; 5; 9; 2; 4 # 5]%Q.
Proof.
  cbv zeta. split; [|split; [|split]].
  - intros i Hi. unfold elt. change (1 <? 0) with false. cbn [length map]. lia.
  - intros i j Hi Hj K. unfold band_kept, kept in K. cbn [band_cell]. split; [cbn [length map]; lia|].
    intros (l & Hl & E). unfold elt in E. change (1 <? 0) with false in E. cbv iota in E. lia.
  - intros i Hi. assert (Hc : i = 0 \/ i = 1) by lia. destruct Hc as [-> | ->];
      (split; intros E; apply (f_equal this) in E; vm_compute in E; discriminate E).
  - vm_compute. repeat split.
Qed.

(** sbmv and hbmv: symmetric and Hermitian band matrices. *)
Theorem C86_sbmv : forall A (d zero one : A) (add mul : A -> A -> A) conj is_zero o up n k alpha a lda x incX beta y incY (m : list A),
  semi_ring_theory zero one add mul eq -> (forall v, is_zero v = true <-> v = zero) -> 0 <= k ->
  incY <> 0 -> inside m y incY n -> vector_apart m x incX n (in_vector y incY n) ->
  held_apart (band_kept up NonUnit k) (band_cell o up k a lda) m n n (in_vector y incY n) ->
  exists m', sbmv zero add mul conj is_zero o up n k alpha a lda x incX beta y incY m = Ok m' /\
    changes d m m' (in_vector y incY n) /\
    forall i, 0 <= i < n -> val d m' (elt y incY n i) =
      add (mul beta (val d m (elt y incY n i)))
          (mul alpha (zsum zero add n (fun j => mul (symmetric_of d zero (band_kept up NonUnit k) (band_cell o up k a lda) m i j) (val d m (elt x incX n j))))).
Proof. intros. now apply (sbmv_ok d zero one add mul). Qed.
Print Assumptions C86_sbmv.
Theorem C86_hbmv : forall A (d zero one : A) (add mul : A -> A -> A) conj re is_zero o up n k alpha a lda x incX beta y incY (m : list A),
  semi_ring_theory zero one add mul eq -> (forall v, is_zero v = true <-> v = zero) -> 0 <= k ->
  incY <> 0 -> inside m y incY n -> vector_apart m x incX n (in_vector y incY n) ->
  held_apart (band_kept up NonUnit k) (band_cell o up k a lda) m n n (in_vector y incY n) ->
  exists m', hbmv zero add mul conj re is_zero o up n k alpha a lda x incX beta y incY m = Ok m' /\
    changes d m m' (in_vector y incY n) /\
    forall i, 0 <= i < n -> val d m' (elt y incY n i) =
      add (mul beta (val d m (elt y incY n i)))
          (mul alpha (zsum zero add n (fun j => mul (hermitian_of d zero conj re (band_kept up NonUnit k) (band_cell o up k a lda) m i j) (val d m (elt x incX n j))))).
Proof. intros. now apply (hbmv_ok d zero one add mul). Qed.
Print Assumptions C86_hbmv.
Example C86_sbmv_ex :
  let m := [9; 1; 2; 3; 4; 5; 1; 10; 100; 0; 0; 1000] in
  inside m 9 1 3 /\ vector_apart m 6 1 3 (in_vector 9 1 3) /\ held_apart (band_kept Lower NonUnit 1) (band_cell RowMajor Lower 1 0 2) m 3 3 (in_vector 9 1 3) /\
  sbmv 0 Z.add Z.mul (fun v => v) (Z.eqb 0) RowMajor Lower 3 1 1 0 2 6 1 1 9 1 m = Ok [9; 1; 2; 3; 4; 5; 1; 10; 100; 21; 432; 1540] /\
  sbmv 0 Z.add Z.mul (fun v => v) (Z.eqb 0) ColMajor Upper 3 1 1 0 2 6 1 0 9 (-1) m = Ok [9; 1; 2; 3; 4; 5; 1; 10; 100; 540; 432; 21].
Proof.
  split; [|split; [|split; [|now repeat split]]].
  - intros i Hi. unfold elt. change (1 <? 0) with false. cbn [length]. lia.
  - intros i Hi. unfold elt. change (1 <? 0) with false. cbn [length]. split; [lia|]. intros (k & Hk & E). unfold elt in E. change (1 <? 0) with false in E. cbv iota in E. lia.
  - intros i j Hi Hj K. unfold band_kept, kept in K. cbn [band_cell]. split; [cbn [length]; lia|].
    intros (l & Hl & E). unfold elt in E. change (1 <? 0) with false in E. cbv iota in E. lia.
Qed.
Example C86_hbmv_ex :
  let m := [(2, 7); (3, -1); (5, 8); (9, 9); (1, 0); (0, 1); (0, 0); (0, 0)] in
  hbmv (0, 0) C78_add C78_mul C78_conj C78_re C78_is_zero RowMajor Upper 2 1 (1, 0) 0 2 4 1 (0, 0) 6 1 m =
    Ok [(2, 7); (3, -1); (5, 8); (9, 9); (1, 0); (0, 1); (3, 3); (3, 6)] /\
  hbmv (0, 0) C78_add C78_mul C78_conj C78_re C78_is_zero ColMajor Lower 2 1 (1, 0) 0 2 4 1 (0, 0) 6 1 m =
    Ok [(2, 7); (3, -1); (5, 8); (9, 9); (1, 0); (0, 1); (1, 3); (3, 4)].
Proof. now repeat split. Qed.

(** gbmv: y := beta y + alpha op(M) x, or conj(x) instead of x, for a matrix with kl lines below the diagonal and ku
    above.  A matrix without rows or columns leaves y alone: it is not even scaled by beta. *)
Theorem C86_gbmv : forall A (d zero one : A) (add mul : A -> A -> A) conj is_zero o t cx rows cols kl ku alpha a lda x incX beta y incY (m : list A),
  semi_ring_theory zero one add mul eq -> (forall v, is_zero v = true <-> v = zero) ->
  conj zero = zero -> (forall u v, conj (add u v) = add (conj u) (conj v)) -> (forall u v, conj (mul u v) = mul (conj u) (conj v)) ->
  let ny := if is_trans t then cols else rows in let nx := if is_trans t then rows else cols in
  rows <> 0 -> cols <> 0 -> incY <> 0 -> inside m y incY ny -> vector_apart m x incX nx (in_vector y incY ny) ->
  held_apart (gband_kept kl ku) (gband_cell o kl ku a lda) m rows cols (in_vector y incY ny) ->
  exists m', gbmv zero add mul conj is_zero o t cx rows cols kl ku alpha a lda x incX beta y incY m = Ok m' /\
    changes d m m' (in_vector y incY ny) /\
    forall i, 0 <= i < ny -> val d m' (elt y incY ny i) =
      add (mul beta (val d m (elt y incY ny i)))
          (mul alpha (zsum zero add nx (fun j => mul (op conj t (sparse_of d zero (gband_kept kl ku) (gband_cell o kl ku a lda) m) i j)
                                                  (if cx then conj (val d m (elt x incX nx j)) else val d m (elt x incX nx j))))).
Proof. intros. now apply (gbmv_ok d zero one add mul conj is_zero). Qed.
Print Assumptions C86_gbmv.
Theorem C86_gbmv_empty : forall A (zero : A) (add mul : A -> A -> A) conj is_zero o t cx rows cols kl ku alpha a lda x incX beta y incY (m : list A),
  rows = 0 \/ cols = 0 -> gbmv zero add mul conj is_zero o t cx rows cols kl ku alpha a lda x incX beta y incY m = Ok m.
Proof. intros. unfold gbmv. now replace ((rows =? 0) || (cols =? 0)) with true by lia. Qed.
Print Assumptions C86_gbmv_empty.

(** (1 2 . .; 3 4 5 .; . 6 7 8) with one line on either side; its transpose. *)
Example C86_gbmv_ex :
  let m := [9; 1; 2; 3; 4; 5; 6; 7; 8; 1; 10; 100; 1000; 0; 0; 0] in
  inside m 13 1 3 /\ vector_apart m 9 1 4 (in_vector 13 1 3) /\ held_apart (gband_kept 1 1) (gband_cell RowMajor 1 1 0 3) m 3 4 (in_vector 13 1 3) /\
  gbmv 0 Z.add Z.mul (fun v => v) (Z.eqb 0) RowMajor NoTrans false 3 4 1 1 1 0 3 9 1 0 13 1 m =
    Ok [9; 1; 2; 3; 4; 5; 6; 7; 8; 1; 10; 100; 1000; 21; 543; 8760] /\
  gbmv 0 Z.add Z.mul (fun v => v) (Z.eqb 0) ColMajor Trans false 4 3 1 1 1 0 3 9 1 0 13 1 m =
    Ok [9; 1; 2; 3; 4; 5; 6; 7; 8; 1; 10; 100; 1000; 21; 543; 8760] /\
  gbmv 0 Z.add Z.mul (fun v => v) (Z.eqb 0) RowMajor Trans false 3 4 1 1 1 0 3 13 1 1 9 1 (firstn 13 m ++ [1; 10; 100]) =
    Ok [9; 1; 2; 3; 4; 5; 6; 7; 8; 32; 652; 850; 1800; 1; 10; 100] /\
  gbmv (0, 0) C78_add C78_mul C78_conj C78_is_zero RowMajor Conj true 1 2 0 1 (1, 0) 0 2 2 1 (0, 0) 4 1 [(1, 1); (0, 1); (1, 0); (2, 1); (5, 5)] =
    Ok [(1, 1); (0, 1); (1, 0); (2, 1); (0, -3)].
Proof.
  split; [|split; [|split; [|now repeat split]]].
  - intros i Hi. unfold elt. change (1 <? 0) with false. cbn [length]. lia.
  - intros i Hi. unfold elt. change (1 <? 0) with false. cbn [length]. split; [lia|]. intros (k & Hk & E). unfold elt in E. change (1 <? 0) with false in E. cbv iota in E. lia.
  - intros i j Hi Hj K. unfold gband_kept in K. cbn [gband_cell]. split; [cbn [length]; lia|].
    intros (l & Hl & E). unfold elt in E. change (1 <? 0) with false in E. cbv iota in E. lia.
Qed.
