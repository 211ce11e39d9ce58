(** C89: products with sparse matrices in compressed storage.  [compressed], [crs_entry], [triangle_only], [mirrored],
    [conj_mirrored] and [segment] are in CrsSpec, [zsum], [op], [block] and [entry] in TriSpec, [changes] in BlasSpec. *)
From Coq Require Import ZArith Ring_theory.
From Verif Require Import Base BaseProofs MatmulModel MatmulSpec BlasModel BlasSpec TriModel TriSpec TriProofs SymSpec CrsModel CrsSpec CrsProofs.
From Coq Require Import ZifyNat ZifyN ZifyBool.
Ltac Zify.zify_post_hook ::= idtac.
Local Open Scope Z_scope.

Ltac numbers H := repeat match type of H with context [first_of ?p ?i] => let v := eval vm_compute in (first_of p i) in change (first_of p i) with v in H end.

(** gecrsmv: y := beta y + alpha op(M) x for all four modes, reading each stored entry and nothing else of M. *)
Theorem C89_general : forall A (d zero one : A) (add mul : A -> A -> A) conj is_zero is_one t rows cols alpha a ia ja x beta y (m : list A),
  semi_ring_theory zero one add mul eq -> (forall v, is_zero v = true <-> v = zero) -> (forall v, is_one v = true <-> v = one) ->
  (is_conj t = true -> additive zero add conj) -> 0 <= cols -> compressed rows cols ia ja ->
  let ny := if is_trans t then cols else rows in let nx := if is_trans t then rows else cols in
  segment_inside m y ny -> segment_apart m x nx (segment y ny) -> segment_apart m a (first_of ia rows) (segment y ny) ->
  exists m', gecrsmv zero add mul conj is_zero is_one t rows cols alpha a ia ja x beta y m = Ok m' /\ changes d m m' (segment y ny) /\
    forall i, 0 <= i < ny -> val d m' (y + i) =
      add (mul beta (val d m (y + i)))
          (mul alpha (zsum zero add nx (fun j => mul (op conj t (crs_entry d zero add a ia ja m) i j) (val d m (x + j))))).
Proof. intros. now apply (gecrsmv_ok d zero one add mul conj (fun v => v)). Qed.
Print Assumptions C89_general.

(** gecrsmm: C := beta C + alpha op(M) B. *)
Theorem C89_general_columns : forall A (d zero one : A) (add mul : A -> A -> A) conj is_zero is_one t rows n cols alpha a ia ja b ldb beta c ldc (m : list A),
  semi_ring_theory zero one add mul eq -> (forall v, is_zero v = true <-> v = zero) -> (forall v, is_one v = true <-> v = one) ->
  (is_conj t = true -> additive zero add conj) -> 0 <= n -> 0 <= cols -> compressed rows cols ia ja ->
  let nc := if is_trans t then cols else rows in let nb := if is_trans t then rows else cols in
  nc <= ldc -> block_inside m ColMajor c ldc nc n -> block_apart m ColMajor b ldb nb n (block ColMajor c ldc nc n) ->
  segment_apart m a (first_of ia rows) (block ColMajor c ldc nc n) ->
  exists m', gecrsmm zero add mul conj is_zero is_one t rows n cols alpha a ia ja b ldb beta c ldc m = Ok m' /\
    changes d m m' (block ColMajor c ldc nc n) /\
    forall i j, 0 <= i < nc -> 0 <= j < n -> entry d ColMajor c ldc m' i j =
      add (mul beta (entry d ColMajor c ldc m i j))
          (mul alpha (zsum zero add nb (fun k => mul (op conj t (crs_entry d zero add a ia ja m) i k) (entry d ColMajor b ldb m k j)))).
Proof. intros. now apply (gecrsmm_ok d zero one add mul conj (fun v => v)). Qed.
Print Assumptions C89_general_columns.

(** The number of the first row and column does not matter. *)
Theorem C89_base : forall A (d zero one : A) (add mul : A -> A -> A) conj is_zero is_one t rows cols alpha a ia ja x beta y (m : list A) shift,
  semi_ring_theory zero one add mul eq -> (forall v, is_zero v = true <-> v = zero) -> (forall v, is_one v = true <-> v = one) ->
  (is_conj t = true -> additive zero add conj) -> 0 <= cols -> compressed rows cols ia ja ->
  let ny := if is_trans t then cols else rows in let nx := if is_trans t then rows else cols in
  segment_inside m y ny -> segment_apart m x nx (segment y ny) -> segment_apart m a (first_of ia rows) (segment y ny) ->
  gecrsmv zero add mul conj is_zero is_one t rows cols alpha a (map (Z.add shift) ia) (map (Z.add shift) ja) x beta y m =
  gecrsmv zero add mul conj is_zero is_one t rows cols alpha a ia ja x beta y m.
Proof.
  intros. apply (gecrsmv_any d zero one add mul conj (fun v => v)); auto.
  - now apply shift_compressed.
  - intros i Hi. now apply (shift_first rows cols shift ia ja).
  - intros i j Hi Hj. now apply (shift_entry d zero add rows cols).
Qed.
Print Assumptions C89_base.

(** sycrsmv: y := beta y + alpha S x, where S is symmetric and one triangle of it is stored by rows. *)
Theorem C89_symmetric_rows : forall A (d zero one : A) (add mul : A -> A -> A) is_zero is_one up n alpha a ia ja x beta y (m : list A),
  semi_ring_theory zero one add mul eq -> (forall v, is_zero v = true <-> v = zero) -> (forall v, is_one v = true <-> v = one) ->
  compressed n n ia ja -> triangle_only up n ia ja ->
  segment_inside m y n -> segment_apart m x n (segment y n) -> segment_apart m a (first_of ia n) (segment y n) ->
  exists m', sycrsmv zero add mul is_zero is_one up n alpha a ia ja x beta y m = Ok m' /\ changes d m m' (segment y n) /\
    forall i, 0 <= i < n -> val d m' (y + i) =
      add (mul beta (val d m (y + i)))
          (mul alpha (zsum zero add n (fun j => mul (mirrored up (crs_entry d zero add a ia ja m) i j) (val d m (x + j))))).
Proof.
  intros. destruct (half_product_ok d zero one add mul (fun v => v) (fun v => v) is_zero is_one H H0 H1 up (fun v => v) (fun v => v) (fun v => v) n alpha a ia ja x y m) with (beta := beta) as (m' & E & C & V); auto using additive_same.
  exists m'. split; [exact E|]. split; [exact C|]. intros i Hi. rewrite V by exact Hi. do 2 f_equal. apply zsum_ext. intros j Hj. f_equal. apply mirrored_rows.
Qed.
Print Assumptions C89_symmetric_rows.

(** syccsmv: the same, stored by columns: entry (i, j) is in column j at row i. *)
Theorem C89_symmetric_columns : forall A (d zero one : A) (add mul : A -> A -> A) is_zero is_one up n alpha a ia ja x beta y (m : list A),
  semi_ring_theory zero one add mul eq -> (forall v, is_zero v = true <-> v = zero) -> (forall v, is_one v = true <-> v = one) ->
  compressed n n ja ia -> triangle_only (other up) n ja ia ->
  segment_inside m y n -> segment_apart m x n (segment y n) -> segment_apart m a (first_of ja n) (segment y n) ->
  exists m', syccsmv zero add mul is_zero is_one up n alpha a ia ja x beta y m = Ok m' /\ changes d m m' (segment y n) /\
    forall i, 0 <= i < n -> val d m' (y + i) =
      add (mul beta (val d m (y + i)))
          (mul alpha (zsum zero add n (fun j => mul (mirrored up (fun i j => crs_entry d zero add a ja ia m j i) i j) (val d m (x + j))))).
Proof.
  intros. destruct (half_product_ok d zero one add mul (fun v => v) (fun v => v) is_zero is_one H H0 H1 (other up) (fun v => v) (fun v => v) (fun v => v) n alpha a ja ia x y m) with (beta := beta) as (m' & E & C & V); auto using additive_same.
  exists m'. split; [exact E|]. split; [exact C|]. intros i Hi. rewrite V by exact Hi. do 2 f_equal. apply zsum_ext. intros j Hj. f_equal. apply mirrored_columns.
Qed.
Print Assumptions C89_symmetric_columns.

(** hecrsmv: y := beta y + alpha H x, where H is Hermitian and one triangle of it is stored by rows. *)
Theorem C89_hermitian_rows : forall A (d zero one : A) (add mul : A -> A -> A) conj re is_zero is_one up n alpha a ia ja x beta y (m : list A),
  semi_ring_theory zero one add mul eq -> (forall v, is_zero v = true <-> v = zero) -> (forall v, is_one v = true <-> v = one) ->
  additive zero add conj -> additive zero add re -> compressed n n ia ja -> triangle_only up n ia ja ->
  segment_inside m y n -> segment_apart m x n (segment y n) -> segment_apart m a (first_of ia n) (segment y n) ->
  exists m', hecrsmv zero add mul conj re is_zero is_one up n alpha a ia ja x beta y m = Ok m' /\ changes d m m' (segment y n) /\
    forall i, 0 <= i < n -> val d m' (y + i) =
      add (mul beta (val d m (y + i)))
          (mul alpha (zsum zero add n (fun j => mul (conj_mirrored conj re up (crs_entry d zero add a ia ja m) i j) (val d m (x + j))))).
Proof.
  intros. destruct (half_product_ok d zero one add mul (fun v => v) (fun v => v) is_zero is_one H H0 H1 up (fun v => v) conj re n alpha a ia ja x y m) with (beta := beta) as (m' & E & C & V); auto using additive_same.
  exists m'. split; [exact E|]. split; [exact C|]. exact V.
Qed.
Print Assumptions C89_hermitian_rows.

(** heccsmv: the same, stored by columns. *)
Theorem C89_hermitian_columns : forall A (d zero one : A) (add mul : A -> A -> A) conj re is_zero is_one up n alpha a ia ja x beta y (m : list A),
  semi_ring_theory zero one add mul eq -> (forall v, is_zero v = true <-> v = zero) -> (forall v, is_one v = true <-> v = one) ->
  additive zero add conj -> additive zero add re -> compressed n n ja ia -> triangle_only (other up) n ja ia ->
  segment_inside m y n -> segment_apart m x n (segment y n) -> segment_apart m a (first_of ja n) (segment y n) ->
  exists m', heccsmv zero add mul conj re is_zero is_one up n alpha a ia ja x beta y m = Ok m' /\ changes d m m' (segment y n) /\
    forall i, 0 <= i < n -> val d m' (y + i) =
      add (mul beta (val d m (y + i)))
          (mul alpha (zsum zero add n (fun j => mul (conj_mirrored conj re up (fun i j => crs_entry d zero add a ja ia m j i) i j) (val d m (x + j))))).
Proof.
  intros. destruct (half_product_ok d zero one add mul (fun v => v) (fun v => v) is_zero is_one H H0 H1 (other up) conj (fun v => v) re n alpha a ja ia x y m) with (beta := beta) as (m' & E & C & V); auto using additive_same.
  exists m'. split; [exact E|]. split; [exact C|]. intros i Hi. rewrite V by exact Hi. do 2 f_equal. apply zsum_ext. intros j Hj. f_equal. apply conj_mirrored_columns.
Qed.
Print Assumptions C89_hermitian_columns.

(** sycrsmm and hecrsmm: C := beta C + alpha S B. *)
Theorem C89_half_rows_columns : forall A (d zero one : A) (add mul : A -> A -> A) conj re is_zero is_one up n cols alpha a ia ja b ldb beta c ldc (m : list A),
  semi_ring_theory zero one add mul eq -> (forall v, is_zero v = true <-> v = zero) -> (forall v, is_one v = true <-> v = one) ->
  0 <= cols -> n <= ldc -> compressed n n ia ja -> triangle_only up n ia ja ->
  block_inside m ColMajor c ldc n cols -> block_apart m ColMajor b ldb n cols (block ColMajor c ldc n cols) ->
  segment_apart m a (first_of ia n) (block ColMajor c ldc n cols) ->
  (exists m', sycrsmm zero add mul is_zero is_one up n cols alpha a ia ja b ldb beta c ldc m = Ok m' /\ changes d m m' (block ColMajor c ldc n cols) /\
     forall i j, 0 <= i < n -> 0 <= j < cols -> entry d ColMajor c ldc m' i j =
       add (mul beta (entry d ColMajor c ldc m i j))
           (mul alpha (zsum zero add n (fun k => mul (mirrored up (crs_entry d zero add a ia ja m) i k) (entry d ColMajor b ldb m k j))))) /\
  (additive zero add conj -> additive zero add re ->
   exists m', hecrsmm zero add mul conj re is_zero is_one up n cols alpha a ia ja b ldb beta c ldc m = Ok m' /\ changes d m m' (block ColMajor c ldc n cols) /\
     forall i j, 0 <= i < n -> 0 <= j < cols -> entry d ColMajor c ldc m' i j =
       add (mul beta (entry d ColMajor c ldc m i j))
           (mul alpha (zsum zero add n (fun k => mul (conj_mirrored conj re up (crs_entry d zero add a ia ja m) i k) (entry d ColMajor b ldb m k j))))).
Proof.
  intros. split.
  - destruct (half_columns_ok d zero one add mul (fun v => v) (fun v => v) is_zero is_one H H0 H1 up (fun v => v) (fun v => v) (fun v => v) n cols alpha a ia ja b ldb c ldc m) with (beta := beta) as (m' & E & C & V); auto using additive_same.
    exists m'. split; [exact E|]. split; [exact C|]. intros i j Hi Hj. rewrite V by auto. do 2 f_equal. apply zsum_ext. intros k Hk. f_equal. apply mirrored_rows.
  - intros. apply (half_columns_ok d zero one add mul (fun v => v) (fun v => v) is_zero is_one H H0 H1 up (fun v => v) conj re n cols alpha a ia ja b ldb c ldc m); auto using additive_same.
Qed.
Print Assumptions C89_half_rows_columns.

(** syccsmm and heccsmm *)
Theorem C89_half_columns_columns : forall A (d zero one : A) (add mul : A -> A -> A) conj re is_zero is_one up n cols alpha a ia ja b ldb beta c ldc (m : list A),
  semi_ring_theory zero one add mul eq -> (forall v, is_zero v = true <-> v = zero) -> (forall v, is_one v = true <-> v = one) ->
  0 <= cols -> n <= ldc -> compressed n n ja ia -> triangle_only (other up) n ja ia ->
  block_inside m ColMajor c ldc n cols -> block_apart m ColMajor b ldb n cols (block ColMajor c ldc n cols) ->
  segment_apart m a (first_of ja n) (block ColMajor c ldc n cols) ->
  let M := fun i j => crs_entry d zero add a ja ia m j i in
  (exists m', syccsmm zero add mul is_zero is_one up n cols alpha a ia ja b ldb beta c ldc m = Ok m' /\ changes d m m' (block ColMajor c ldc n cols) /\
     forall i j, 0 <= i < n -> 0 <= j < cols -> entry d ColMajor c ldc m' i j =
       add (mul beta (entry d ColMajor c ldc m i j))
           (mul alpha (zsum zero add n (fun k => mul (mirrored up M i k) (entry d ColMajor b ldb m k j))))) /\
  (additive zero add conj -> additive zero add re ->
   exists m', heccsmm zero add mul conj re is_zero is_one up n cols alpha a ia ja b ldb beta c ldc m = Ok m' /\ changes d m m' (block ColMajor c ldc n cols) /\
     forall i j, 0 <= i < n -> 0 <= j < cols -> entry d ColMajor c ldc m' i j =
       add (mul beta (entry d ColMajor c ldc m i j))
           (mul alpha (zsum zero add n (fun k => mul (conj_mirrored conj re up M i k) (entry d ColMajor b ldb m k j))))).
Proof.
  intros. split.
  - destruct (half_columns_ok d zero one add mul (fun v => v) (fun v => v) is_zero is_one H H0 H1 (other up) (fun v => v) (fun v => v) (fun v => v) n cols alpha a ja ia b ldb c ldc m) with (beta := beta) as (m' & E & C & V); auto using additive_same.
    exists m'. split; [exact E|]. split; [exact C|]. intros i j Hi Hj. rewrite V by auto. do 2 f_equal. apply zsum_ext. intros k Hk. f_equal. apply mirrored_columns.
  - intros. destruct (half_columns_ok d zero one add mul (fun v => v) (fun v => v) is_zero is_one H H0 H1 (other up) conj (fun v => v) re n cols alpha a ja ia b ldb c ldc m) with (beta := beta) as (m' & E & C & V); auto using additive_same.
    exists m'. split; [exact E|]. split; [exact C|]. intros i j Hi Hj. rewrite V by auto. do 2 f_equal. apply zsum_ext. intros k Hk. f_equal. apply conj_mirrored_columns.
Qed.
Print Assumptions C89_half_columns_columns.

(** Lines in increasing order inside the triangle have the diagonal entry where the routines look for it. *)
Theorem C89_sorted : forall up n ptr idx, increasing n ptr idx -> inside_triangle up n ptr idx -> triangle_only up n ptr idx.
Proof. intros up n ptr idx. apply sorted_triangle. Qed.
Print Assumptions C89_sorted.

(** Without that order the claim is false for the symmetric routines: a diagonal entry that is not first (or is
    stored in two parts) is counted twice, while gecrsmv adds the parts up. *)
Theorem C89_unsorted_refuted :
  (let ia := [0; 2] in let ja := [0; 0] in let m := [2; 3; 1; 100] in
   compressed 1 1 ia ja /\ inside_triangle Upper 1 ia ja /\ crs_entry 0 0 Z.add 0 ia ja m 0 0 = 5 /\
   gecrsmv 0 Z.add Z.mul (fun v => v) (Z.eqb 0) (Z.eqb 1) NoTrans 1 1 1 0 ia ja 2 0 3 m = Ok [2; 3; 1; 5] /\
   sycrsmv 0 Z.add Z.mul (Z.eqb 0) (Z.eqb 1) Upper 1 1 0 ia ja 2 0 3 m = Ok [2; 3; 1; 8]) /\
  (let ia := [0; 2; 2] in let ja := [1; 0] in let m := [7; 3; 1; 0; 0; 0] in
   compressed 2 2 ia ja /\ inside_triangle Upper 2 ia ja /\ crs_entry 0 0 Z.add 0 ia ja m 0 0 = 3 /\
   sycrsmv 0 Z.add Z.mul (Z.eqb 0) (Z.eqb 1) Upper 2 1 0 ia ja 2 0 4 m = Ok [7; 3; 1; 0; 6; 7]).
Proof.
  split; cbv zeta; (split; [|split; [|now repeat split]]).
  - split; [cbn [length]; lia|]. split; [intros i Hi; replace i with 0 by lia; cbv; discriminate|].
    intros k Hk. assert (K : k = 0 \/ k = 1) by (numbers Hk; lia). destruct K as [-> | ->]; cbv; repeat split; discriminate.
  - intros i k Hi Hk. unfold in_line in Hk. replace i with 0 in * by lia. assert (K : k = 0 \/ k = 1) by (numbers Hk; lia). destruct K as [-> | ->]; cbv; discriminate.
  - split; [cbn [length]; lia|]. split; [intros i Hi; assert (I : i = 0 \/ i = 1) by lia; destruct I as [-> | ->]; cbv; discriminate|].
    intros k Hk. assert (K : k = 0 \/ k = 1) by (numbers Hk; lia). destruct K as [-> | ->]; cbv; repeat split; discriminate.
  - intros i k Hi Hk. unfold in_line in Hk. assert (I : i = 0 \/ i = 1) by lia. destruct I as [-> | ->].
    + assert (K : k = 0 \/ k = 1) by (numbers Hk; lia). destruct K as [-> | ->]; cbv; discriminate.
    + numbers Hk. lia.
Qed.
Print Assumptions C89_unsorted_refuted.

(** The matrix (5 0 6; 0 7 0) numbered from 1, times (1 10 100) and transposed times (1 10); x at 3, y at 6 *)
Example C89_example :
  let ia := [1; 3; 4] in let ja := [1; 3; 2] in let m := [5; 6; 7; 1; 10; 100; 1000; 2000; 3000] in
  let ge t := gecrsmv 0 Z.add Z.mul (fun v => v) (Z.eqb 0) (Z.eqb 1) t 2 3 2 0 ia ja 3 in
  compressed 2 3 ia ja /\ segment_inside m 6 2 /\ segment_apart m 3 3 (segment 6 2) /\ segment_apart m 0 (first_of ia 2) (segment 6 2) /\
  ge NoTrans 1 6 m = Ok [5; 6; 7; 1; 10; 100; 2210; 2140; 3000] /\
  ge NoTrans 0 6 m = Ok [5; 6; 7; 1; 10; 100; 1210; 140; 3000] /\
  ge NoTrans 3 6 m = Ok [5; 6; 7; 1; 10; 100; 4210; 6140; 3000] /\
  ge Trans 1 6 m = Ok [5; 6; 7; 1; 10; 100; 1010; 2140; 3012] /\
  gecrsmm 0 Z.add Z.mul (fun v => v) (Z.eqb 0) (Z.eqb 1) NoTrans 2 2 3 1 0 ia ja 3 0 0 6 1 (m ++ [0]) = Ok [5; 6; 7; 1; 10; 100; 605; 605; 70; 0].
Proof.
  cbv zeta. split; [|split; [|split; [|split; [|now repeat split]]]].
  - split; [cbn [length]; lia|]. split; [intros i Hi; assert (I : i = 0 \/ i = 1) by lia; destruct I as [-> | ->]; cbv; discriminate|].
    intros k Hk. assert (K : k = 0 \/ k = 1 \/ k = 2) by (numbers Hk; lia). destruct K as [-> | [-> | ->]]; cbv; repeat split; discriminate.
  - intros p Hp. unfold segment in Hp. cbn [length]. lia.
  - intros p Hp. unfold segment in *. cbn [length]. lia.
  - intros p Hp. unfold segment in *. numbers Hp. cbn [length]. lia.
Qed.
(** The symmetric matrix (2 3; 3 0) from its upper triangle by rows, its lower triangle by rows, and by columns *)
Example C89_symmetric_example :
  let m := [2; 3; 1; 10; 0; 0] in
  triangle_only Upper 2 [0; 2; 2] [0; 1] /\
  sycrsmv 0 Z.add Z.mul (Z.eqb 0) (Z.eqb 1) Upper 2 1 0 [0; 2; 2] [0; 1] 2 0 4 m = Ok [2; 3; 1; 10; 32; 3] /\
  sycrsmv 0 Z.add Z.mul (Z.eqb 0) (Z.eqb 1) Lower 2 1 0 [0; 1; 2] [0; 0] 2 0 4 m = Ok [2; 3; 1; 10; 32; 3] /\
  syccsmv 0 Z.add Z.mul (Z.eqb 0) (Z.eqb 1) Lower 2 1 0 [0; 1] [0; 2; 2] 2 0 4 m = Ok [2; 3; 1; 10; 32; 3] /\
  syccsmv 0 Z.add Z.mul (Z.eqb 0) (Z.eqb 1) Upper 2 1 0 [1; 1] [1; 2; 3] 2 0 4 m = Ok [2; 3; 1; 10; 32; 3].
Proof.
  cbv zeta. split; [|now repeat split]. intros i k Hi Hk. unfold in_line in Hk. assert (I : i = 0 \/ i = 1) by lia. destruct I as [-> | ->].
  - assert (K : k = 0 \/ k = 1) by (numbers Hk; lia). destruct K as [-> | ->]; cbv; split; congruence.
  - numbers Hk. lia.
Qed.
(** The Hermitian matrix (2 1+3i; 1-3i 0), stored with a diagonal entry 2+9i, times (1, i): by rows and by columns *)
Definition C89_add (u v : Z * Z) : Z * Z := (fst u + fst v, snd u + snd v).
Definition C89_mul (u v : Z * Z) : Z * Z := (fst u * fst v - snd u * snd v, fst u * snd v + snd u * fst v).
Definition C89_conj (u : Z * Z) : Z * Z := (fst u, - snd u).
Definition C89_re (u : Z * Z) : Z * Z := (fst u, 0).
Definition C89_is (w u : Z * Z) : bool := (fst u =? fst w) && (snd u =? snd w).
Example C89_hermitian_example :
  let m := [(2, 9); (1, 3); (1, 0); (0, 1); (0, 0); (0, 0)] in let up := [(1, -3); (1, 0); (0, 1); (0, 0); (0, 0)] in
  (forall w u, C89_is w u = true <-> u = w) /\ additive (0, 0) C89_add C89_conj /\ additive (0, 0) C89_add C89_re /\
  hecrsmv (0, 0) C89_add C89_mul C89_conj C89_re (C89_is (0, 0)) (C89_is (1, 0)) Upper 2 (1, 0) 0 [0; 2; 2] [0; 1] 2 (0, 0) 4 m =
    Ok [(2, 9); (1, 3); (1, 0); (0, 1); (-1, 1); (1, -3)] /\
  heccsmv (0, 0) C89_add C89_mul C89_conj C89_re (C89_is (0, 0)) (C89_is (1, 0)) Lower 2 (1, 0) 0 [0; 1] [0; 2; 2] 2 (0, 0) 4
    [(2, 9); (1, -3); (1, 0); (0, 1); (0, 0); (0, 0)] = Ok [(2, 9); (1, -3); (1, 0); (0, 1); (-1, 1); (1, -3)] /\
  hecrsmm (0, 0) C89_add C89_mul C89_conj C89_re (C89_is (0, 0)) (C89_is (1, 0)) Lower 2 1 (1, 0) 0 [0; 0; 1] [0] 1 2 (0, 0) 3 2 up =
    Ok [(1, -3); (1, 0); (0, 1); (-3, 1); (1, -3)].
Proof.
  cbv zeta. split; [|split; [|split; [|now repeat split]]].
  - intros [a b] [c e]. unfold C89_is. cbn [fst snd]. split.
    + intros H. apply Bool.andb_true_iff in H. destruct H as [H1 H2]. apply Z.eqb_eq in H1, H2. now subst.
    + intros H. injection H as -> ->. now rewrite !Z.eqb_refl.
  - split; [reflexivity|]. intros [a b] [c e]. unfold C89_conj, C89_add. cbn [fst snd]. f_equal. lia.
  - split; [reflexivity|]. intros [a b] [c e]. reflexivity.
Qed.
