(** C78, C79: products with symmetric and Hermitian matrices kept in one triangle, and rank updates.  Every order
    of storage, triangle, side, size, leading dimension and increment.  [symmetric], [hermitian], [half] and
    [stored] are in SymSpec, [zsum], [cell], [entry] and [applied] in TriSpec, [elt] and [changes] in BlasSpec. *)
From Coq Require Import ZArith Ring_theory.
From Verif Require Import Base BaseProofs MatmulModel MatmulSpec BlasModel BlasSpec TriModel TriSpec SymModel SymSpec SymProofs.
From Coq Require Import ZifyNat ZifyN ZifyBool.
Ltac Zify.zify_post_hook ::= idtac.
Local Open Scope Z_scope.

(** symv: y := beta y + alpha S x, reading only the kept triangle of S. *)
Theorem C78_symv : forall A (d zero one : A) (add mul : A -> A -> A) conj is_zero o up n alpha a lda x incX beta y incY (m : list A),
  semi_ring_theory zero one add mul eq -> (forall v, is_zero v = true <-> v = zero) ->
  incY <> 0 -> inside m y incY n -> vector_apart m x incX n (in_vector y incY n) ->
  kept_apart m o up NonUnit n a lda (in_vector y incY n) ->
  exists m', symv zero add mul conj is_zero o up n alpha a lda x incX beta y incY m = Ok m' /\
    changes d m m' (in_vector y incY n) /\
    forall i, 0 <= i < n -> val d m' (elt y incY n i) =
      add (mul beta (val d m (elt y incY n i)))
          (mul alpha (zsum zero add n (fun j => mul (symmetric d o up a lda m i j) (val d m (elt x incX n j))))).
Proof. intros. now apply (symv_ok d zero one add mul). Qed.
Print Assumptions C78_symv.

(** hemv: y := beta y + alpha H x. *)
Theorem C78_hemv : forall A (d zero one : A) (add mul : A -> A -> A) conj re is_zero o up n alpha a lda x incX beta y incY (m : list A),
  semi_ring_theory zero one add mul eq -> (forall v, is_zero v = true <-> v = zero) ->
  incY <> 0 -> inside m y incY n -> vector_apart m x incX n (in_vector y incY n) ->
  kept_apart m o up NonUnit n a lda (in_vector y incY n) ->
  exists m', hemv zero add mul conj re is_zero o up n alpha a lda x incX beta y incY m = Ok m' /\
    changes d m m' (in_vector y incY n) /\
    forall i, 0 <= i < n -> val d m' (elt y incY n i) =
      add (mul beta (val d m (elt y incY n i)))
          (mul alpha (zsum zero add n (fun j => mul (hermitian d conj re o up a lda m i j) (val d m (elt x incX n j))))).
Proof. intros. now apply (hemv_ok d zero one add mul). Qed.
Print Assumptions C78_hemv.

(** symm: C := beta C + alpha S B, or beta C + alpha B S. *)
Theorem C78_symm : forall A (d zero one : A) (add mul : A -> A -> A) conj is_zero o sd up rows cols alpha a lda b ldb beta c ldc (m : list A),
  semi_ring_theory zero one add mul eq -> (forall v, is_zero v = true <-> v = zero) ->
  0 <= rows -> 0 <= cols -> leading o rows cols ldc -> 0 <= ldb -> block_inside m o c ldc rows cols ->
  kept_apart m o up NonUnit (order_of sd rows cols) a lda (block o c ldc rows cols) ->
  block_apart m o b ldb rows cols (block o c ldc rows cols) ->
  exists m', symm zero one add mul conj is_zero o sd up rows cols alpha a lda b ldb beta c ldc m = Ok m' /\
    changes d m m' (block o c ldc rows cols) /\
    forall i j, 0 <= i < rows -> 0 <= j < cols -> entry d o c ldc m' i j =
      add (mul beta (entry d o c ldc m i j))
          (mul alpha (applied zero add mul sd rows cols (symmetric d o up a lda m) (entry d o b ldb m) i j)).
Proof. intros. now apply (symm_ok d zero one add mul H conj is_zero (fun _ => false)). Qed.
Print Assumptions C78_symm.

(** Gaussian integers, for the examples. *)
Definition C78_add (u v : Z * Z) : Z * Z := (fst u + fst v, snd u + snd v).
Definition C78_mul (u v : Z * Z) : Z * Z := (fst u * fst v - snd u * snd v, fst u * snd v + snd u * fst v).
Definition C78_conj (u : Z * Z) : Z * Z := (fst u, - snd u).
Definition C78_re (u : Z * Z) : Z * Z := (fst u, 0).
Definition C78_is_zero (u : Z * Z) : bool := (fst u =? 0) && (snd u =? 0).
Example C78_gauss : semi_ring_theory (0, 0) (1, 0) C78_add C78_mul eq /\ (forall v, C78_is_zero v = true <-> v = (0, 0)) /\
  forall u v, C78_conj (C78_mul u v) = C78_mul (C78_conj u) (C78_conj v).
Proof.
  unfold C78_add, C78_mul, C78_conj, C78_is_zero. split; [|split].
  - split; intros; repeat match goal with p : (Z * Z)%type |- _ => destruct p end; cbn [fst snd]; f_equal; ring.
  - intros [p q]. cbn [fst snd]. split; intros H; [f_equal; lia|]. injection H as -> ->. reflexivity.
  - intros [p q] [r s]. cbn [fst snd]. f_equal; ring.
Qed.

(** The upper triangle of (2 3; 3 5) with a 9 in the other half; the same memory read as a Hermitian matrix
    with 3 - i above the diagonal, in both orders of storage. *)
Example C78_symv_ex :
  let m := [2; 3; 9; 5; 1; 10; 100; 200] in
  inside m 6 1 2 /\ vector_apart m 4 (-1) 2 (in_vector 6 1 2) /\ kept_apart m RowMajor Upper NonUnit 2 0 2 (in_vector 6 1 2) /\
  symv 0 Z.add Z.mul (fun v => v) (Z.eqb 0) RowMajor Upper 2 1 0 2 4 1 1 6 1 m = Ok [2; 3; 9; 5; 1; 10; 132; 253] /\
  symv 0 Z.add Z.mul (fun v => v) (Z.eqb 0) ColMajor Lower 2 1 0 2 4 (-1) 0 6 1 m = Ok [2; 3; 9; 5; 1; 10; 23; 35] /\
  symm 0 1 Z.add Z.mul (fun v => v) (Z.eqb 0) RowMajor Right Upper 1 2 2 0 2 4 2 3 6 2 m = Ok [2; 3; 9; 5; 1; 10; 364; 706].
Proof.
  split; [|split; [|split; [|now repeat split]]].
  - intros i Hi. unfold elt. change (1 <? 0) with false. cbn [length]. lia.
  - intros i Hi. unfold elt. change (-1 <? 0) with true. cbn [length]. split; [lia|]. intros (k & Hk & E). unfold elt in E. change (1 <? 0) with false in E. cbv iota in E. lia.
  - intros i j Hi Hj K. cbn [cell]. split; [cbn [length]; lia|]. intros (k & Hk & E). unfold elt in E. change (1 <? 0) with false in E. cbv iota in E. lia.
Qed.
Example C78_hemv_ex :
  let m := [(2, 7); (3, -1); (9, 9); (5, 8); (1, 0); (0, 1); (0, 0); (0, 0)] in
  hemv (0, 0) C78_add C78_mul C78_conj C78_re C78_is_zero RowMajor Upper 2 (1, 0) 0 2 4 1 (0, 0) 6 1 m =
    Ok [(2, 7); (3, -1); (9, 9); (5, 8); (1, 0); (0, 1); (3, 3); (3, 6)] /\
  hemv (0, 0) C78_add C78_mul C78_conj C78_re C78_is_zero ColMajor Lower 2 (1, 0) 0 2 4 1 (0, 0) 6 1 m =
    Ok [(2, 7); (3, -1); (9, 9); (5, 8); (1, 0); (0, 1); (1, 3); (3, 4)] /\
  hermitian (0, 0) C78_conj C78_re RowMajor Upper 0 2 m 1 0 = (3, 1) /\
  hermitian (0, 0) C78_conj C78_re ColMajor Lower 0 2 m 1 0 = (3, -1).
Proof. now repeat split. Qed.

(** geru: A := A + alpha x y^T; gerc: A := A + alpha x y^H. *)
Theorem C79_geru : forall A (d zero one : A) (add mul : A -> A -> A) conj o rows cols alpha x incX y incY a lda (m : list A),
  semi_ring_theory zero one add mul eq ->
  leading o rows cols lda -> block_inside m o a lda rows cols ->
  vector_apart m x incX rows (block o a lda rows cols) -> vector_apart m y incY cols (block o a lda rows cols) ->
  exists m', geru add mul conj o rows cols alpha x incX y incY a lda m = Ok m' /\ changes d m m' (block o a lda rows cols) /\
    forall i j, 0 <= i < rows -> 0 <= j < cols -> entry d o a lda m' i j =
      add (entry d o a lda m i j) (mul alpha (mul (val d m (elt x incX rows i)) (val d m (elt y incY cols j)))).
Proof. intros. now apply (geru_ok d zero one add mul). Qed.
Print Assumptions C79_geru.

Theorem C79_gerc : forall A (d zero one : A) (add mul : A -> A -> A) conj o rows cols alpha x incX y incY a lda (m : list A),
  semi_ring_theory zero one add mul eq ->
  leading o rows cols lda -> block_inside m o a lda rows cols ->
  vector_apart m x incX rows (block o a lda rows cols) -> vector_apart m y incY cols (block o a lda rows cols) ->
  exists m', gerc add mul conj o rows cols alpha x incX y incY a lda m = Ok m' /\ changes d m m' (block o a lda rows cols) /\
    forall i j, 0 <= i < rows -> 0 <= j < cols -> entry d o a lda m' i j =
      add (entry d o a lda m i j) (mul alpha (mul (val d m (elt x incX rows i)) (conj (val d m (elt y incY cols j))))).
Proof. intros. now apply (gerc_ok d zero one add mul). Qed.
Print Assumptions C79_gerc.

Example C79_ger_ex :
  let m := [(0, 0); (0, 0); (0, 0); (1, 1); (2, 0); (0, 1); (1, 0)] in
  block_inside m RowMajor 0 2 1 2 /\ vector_apart m 3 1 1 (block RowMajor 0 2 1 2) /\ vector_apart m 4 (-1) 2 (block RowMajor 0 2 1 2) /\
  geru C78_add C78_mul C78_conj RowMajor 1 2 (1, 0) 3 1 4 (-1) 0 2 m = Ok [(-1, 1); (2, 2); (0, 0); (1, 1); (2, 0); (0, 1); (1, 0)] /\
  gerc C78_add C78_mul C78_conj RowMajor 1 2 (1, 0) 3 1 4 1 0 2 m = Ok [(2, 2); (1, -1); (0, 0); (1, 1); (2, 0); (0, 1); (1, 0)] /\
  gerc C78_add C78_mul C78_conj ColMajor 2 1 (1, 0) 4 1 3 1 0 2 m = Ok [(2, -2); (1, 1); (0, 0); (1, 1); (2, 0); (0, 1); (1, 0)].
Proof.
  split; [|split; [|split; [|now repeat split]]].
  - intros i j Hi Hj. cbn [cell length]. lia.
  - intros i Hi. unfold elt. change (1 <? 0) with false. cbn [length]. split; [lia|]. intros (k & l & Hk & Hl & E). cbn [cell] in E. lia.
  - intros i Hi. unfold elt. change (-1 <? 0) with true. cbn [length]. split; [lia|]. intros (k & l & Hk & Hl & E). cbn [cell] in E. lia.
Qed.

(** syr: the kept triangle of S + alpha x x^T; syr2: of S + alpha (x y^T + y x^T).  Nothing else changes. *)
Theorem C79_syr : forall A (d zero one : A) (add mul : A -> A -> A) conj o up n alpha x incX a lda (m : list A),
  semi_ring_theory zero one add mul eq -> n <= lda -> half_inside m o up n a lda ->
  vector_apart m x incX n (half o up n a lda) ->
  exists m', syr add mul conj o up n alpha x incX a lda m = Ok m' /\ changes d m m' (half o up n a lda) /\
    forall i j, 0 <= i < n -> 0 <= j < n -> kept up NonUnit i j = true ->
      entry d o a lda m' i j = add (entry d o a lda m i j) (mul alpha (mul (val d m (elt x incX n i)) (val d m (elt x incX n j)))).
Proof. intros. now apply (syr_ok d zero one add mul). Qed.
Print Assumptions C79_syr.

Theorem C79_syr2 : forall A (d zero one : A) (add mul : A -> A -> A) conj o up n alpha x incX y incY a lda (m : list A),
  semi_ring_theory zero one add mul eq -> n <= lda -> half_inside m o up n a lda ->
  vector_apart m x incX n (half o up n a lda) -> vector_apart m y incY n (half o up n a lda) ->
  exists m', syr2 add mul conj o up n alpha x incX y incY a lda m = Ok m' /\ changes d m m' (half o up n a lda) /\
    forall i j, 0 <= i < n -> 0 <= j < n -> kept up NonUnit i j = true ->
      entry d o a lda m' i j = add (entry d o a lda m i j)
        (mul alpha (add (mul (val d m (elt x incX n i)) (val d m (elt y incY n j))) (mul (val d m (elt y incY n i)) (val d m (elt x incX n j))))).
Proof. intros. now apply (syr2_ok d zero one add mul). Qed.
Print Assumptions C79_syr2.

(** her: the kept triangle of H + alpha x x^H, with the diagonal made real; nothing at all for alpha = 0, so that
    a diagonal entry that was not real stays so. *)
Theorem C79_her : forall A (d zero one : A) (add mul : A -> A -> A) conj re is_zero o up n alpha x incX a lda (m : list A),
  semi_ring_theory zero one add mul eq -> n <= lda -> half_inside m o up n a lda ->
  vector_apart m x incX n (half o up n a lda) ->
  (is_zero alpha = true -> her add mul conj re is_zero o up n alpha x incX a lda m = Ok m) /\
  (is_zero alpha = false ->
   exists m', her add mul conj re is_zero o up n alpha x incX a lda m = Ok m' /\ changes d m m' (half o up n a lda) /\
    forall i j, 0 <= i < n -> 0 <= j < n -> kept up NonUnit i j = true ->
      entry d o a lda m' i j = (if i =? j then re else fun v => v)
        (add (entry d o a lda m i j) (mul alpha (mul (val d m (elt x incX n i)) (conj (val d m (elt x incX n j))))))).
Proof.
  intros. split; [intros E; unfold her, her_gen; now rewrite E|]. intros. now apply (her_ok d zero one add mul).
Qed.
Print Assumptions C79_her.

(** her2: the kept triangle of H + alpha x y^H + conj(alpha) y x^H, with the diagonal made real. *)
Theorem C79_her2 : forall A (d zero one : A) (add mul : A -> A -> A) conj re is_zero o up n alpha x incX y incY a lda (m : list A),
  semi_ring_theory zero one add mul eq -> (forall u v, conj (mul u v) = mul (conj u) (conj v)) ->
  n <= lda -> half_inside m o up n a lda ->
  vector_apart m x incX n (half o up n a lda) -> vector_apart m y incY n (half o up n a lda) ->
  (is_zero alpha = true -> her2 add mul conj re is_zero o up n alpha x incX y incY a lda m = Ok m) /\
  (is_zero alpha = false ->
   exists m', her2 add mul conj re is_zero o up n alpha x incX y incY a lda m = Ok m' /\ changes d m m' (half o up n a lda) /\
    forall i j, 0 <= i < n -> 0 <= j < n -> kept up NonUnit i j = true ->
      entry d o a lda m' i j = (if i =? j then re else fun v => v)
        (add (entry d o a lda m i j)
          (add (mul alpha (mul (val d m (elt x incX n i)) (conj (val d m (elt y incY n j)))))
               (mul (conj alpha) (mul (val d m (elt y incY n i)) (conj (val d m (elt x incX n j)))))))).
Proof.
  intros. split; [intros E; unfold her2, her2_gen; now rewrite E|]. intros. now apply (her2_ok d zero one add mul).
Qed.
Print Assumptions C79_her2.

(** A 2 x 2 matrix, lower triangle in column-major order: the 9 in the other half stays. *)
Example C79_her_ex :
  let m := [(1, 5); (0, 0); (9, 9); (1, 0); (1, 1); (0, 2)] in
  half_inside m ColMajor Lower 2 0 2 /\ vector_apart m 4 1 2 (half ColMajor Lower 2 0 2) /\
  her C78_add C78_mul C78_conj C78_re C78_is_zero ColMajor Lower 2 (3, 0) 4 1 0 2 m = Ok [(7, 0); (6, 6); (9, 9); (13, 0); (1, 1); (0, 2)] /\
  her2 C78_add C78_mul C78_conj C78_re C78_is_zero RowMajor Upper 2 (0, 1) 4 1 4 (-1) 0 2 m = Ok [(5, 0); (0, -2); (9, 9); (-3, 0); (1, 1); (0, 2)] /\
  syr C78_add C78_mul C78_conj RowMajor Lower 2 (1, 0) 4 1 0 2 m = Ok [(1, 7); (0, 0); (7, 11); (-3, 0); (1, 1); (0, 2)].
Proof.
  split; [|split; [|now repeat split]].
  - intros i j Hi Hj K. cbn [cell length]. lia.
  - intros i Hi. unfold elt. change (1 <? 0) with false. cbn [length]. split; [lia|]. intros (k & l & Hk & Hl & K & E). cbn [cell] in E. lia.
Qed.

(** syrk: the kept triangle of beta C + alpha op(A) op(A)^T; syr2k: of beta C + alpha (op(A) op(B)^T + op(B) op(A)^T).
    op is transposition or nothing: the conjugating modes do not conjugate. *)
Theorem C79_syrk : forall A (d zero one : A) (add mul : A -> A -> A) conj is_zero is_one o up t n k alpha a lda beta c ldc (m : list A),
  semi_ring_theory zero one add mul eq -> (forall v, is_zero v = true <-> v = zero) -> (forall v, is_one v = true -> v = one) ->
  0 <= lda -> n <= ldc -> half_inside m o up n c ldc -> stored_apart m o t a lda n k (half o up n c ldc) ->
  exists m', syrk zero add mul conj is_zero is_one o up t n k alpha a lda beta c ldc m = Ok m' /\
    changes d m m' (half o up n c ldc) /\
    forall i j, 0 <= i < n -> 0 <= j < n -> kept up NonUnit i j = true ->
      entry d o c ldc m' i j = add (mul beta (entry d o c ldc m i j))
        (mul alpha (zsum zero add k (fun l => mul (val d m (stored o t a lda i l)) (val d m (stored o t a lda j l))))).
Proof. intros. now apply (syrk_ok d zero one add mul). Qed.
Print Assumptions C79_syrk.

Theorem C79_syr2k : forall A (d zero one : A) (add mul : A -> A -> A) conj is_zero is_one o up t n k alpha a lda b ldb beta c ldc (m : list A),
  semi_ring_theory zero one add mul eq -> (forall v, is_zero v = true <-> v = zero) -> (forall v, is_one v = true -> v = one) ->
  0 <= lda -> 0 <= ldb -> n <= ldc -> half_inside m o up n c ldc ->
  stored_apart m o t a lda n k (half o up n c ldc) -> stored_apart m o t b ldb n k (half o up n c ldc) ->
  exists m', syr2k zero add mul conj is_zero is_one o up t n k alpha a lda b ldb beta c ldc m = Ok m' /\
    changes d m m' (half o up n c ldc) /\
    forall i j, 0 <= i < n -> 0 <= j < n -> kept up NonUnit i j = true ->
      entry d o c ldc m' i j = add (mul beta (entry d o c ldc m i j))
        (mul alpha (zsum zero add k (fun l => add (mul (val d m (stored o t a lda i l)) (val d m (stored o t b ldb j l)))
                                                 (mul (val d m (stored o t b ldb i l)) (val d m (stored o t a lda j l)))))).
Proof. intros. now apply (syr2k_ok d zero one add mul). Qed.
Print Assumptions C79_syr2k.

(** A = (1 2 3; 4 5 6), C = 10 in every entry. *)
Example C79_syrk_ex :
  let m := [1; 2; 3; 4; 5; 6; 10; 10; 10; 10] in
  half_inside m RowMajor Upper 2 6 2 /\ stored_apart m RowMajor NoTrans 0 3 2 3 (half RowMajor Upper 2 6 2) /\
  syrk 0 Z.add Z.mul (fun v => v) (Z.eqb 0) (Z.eqb 1) RowMajor Upper NoTrans 2 3 1 0 3 2 6 2 m = Ok [1; 2; 3; 4; 5; 6; 34; 52; 10; 97] /\
  syrk 0 Z.add Z.mul (fun v => v) (Z.eqb 0) (Z.eqb 1) ColMajor Upper Trans 2 3 1 0 3 1 6 2 m = Ok [1; 2; 3; 4; 5; 6; 24; 10; 42; 87] /\
  syr2k 0 Z.add Z.mul (fun v => v) (Z.eqb 0) (Z.eqb 1) RowMajor Lower Trans 2 1 1 0 2 2 2 0 6 2 m = Ok [1; 2; 3; 4; 5; 6; 6; 10; 10; 16].
Proof.
  split; [|split; [|now repeat split]].
  - intros i j Hi Hj K. cbn [cell length]. lia.
  - intros i l Hi Hl. unfold stored. cbn [is_trans cell length]. split; [lia|]. intros (u & v & Hu & Hv & K & E). cbn [cell] in E. lia.
Qed.
