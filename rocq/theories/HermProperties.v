(** C78, C79: hemm, herk and her2k.  [hermitian], [half] and [stored_apart] are in SymSpec, [op_entry] and
    [on_diagonal] in HermSpec. *)
From Coq Require Import ZArith Ring_theory.
From Verif Require Import Base BaseProofs MatmulModel MatmulSpec BlasModel BlasSpec TriModel TriSpec SymModel SymSpec SymProperties HermModel HermSpec HermProofs.
From Coq Require Import ZifyNat ZifyN ZifyBool.
Ltac Zify.zify_post_hook ::= idtac.
Local Open Scope Z_scope.

(** hemm: C := beta C + alpha H B, or beta C + alpha B H. *)
Theorem C78_hemm : forall A (d zero one : A) (add mul : A -> A -> A) conj re is_zero o sd up rows cols alpha a lda b ldb beta c ldc (m : list A),
  semi_ring_theory zero one add mul eq -> (forall v, is_zero v = true <-> v = zero) ->
  0 <= rows -> 0 <= cols -> leading o rows cols ldc -> 0 <= ldb -> block_inside m o c ldc rows cols ->
  kept_apart m o up NonUnit (order_of sd rows cols) a lda (block o c ldc rows cols) ->
  block_apart m o b ldb rows cols (block o c ldc rows cols) ->
  exists m', hemm zero one add mul conj re is_zero o sd up rows cols alpha a lda b ldb beta c ldc m = Ok m' /\
    changes d m m' (block o c ldc rows cols) /\
    forall i j, 0 <= i < rows -> 0 <= j < cols -> entry d o c ldc m' i j =
      add (mul beta (entry d o c ldc m i j))
          (mul alpha (applied zero add mul sd rows cols (hermitian d conj re o up a lda m) (entry d o b ldb m) i j)).
Proof. intros. now apply (hemm_ok d zero one add mul). Qed.
Print Assumptions C78_hemm.

(** herk: the kept triangle of beta C + alpha op(A) op(A)^H with a real diagonal, for op(A) = A or A^H; nothing
    at all when beta = 1 and alpha = 0 or k = 0. *)
Theorem C79_herk : forall A (d zero one : A) (add mul : A -> A -> A) conj re is_zero is_one asserts o up t n k alpha a lda beta c ldc (m : list A),
  semi_ring_theory zero one add mul eq -> (forall v, is_zero v = true <-> v = zero) -> (forall v, is_one v = true -> v = one) ->
  (forall u v, re (add u v) = add (re u) (re v)) -> (forall u, re (re u) = re u) -> (forall u, conj (conj u) = u) ->
  hermitian_mode t -> 0 <= k -> 0 <= lda -> n <= ldc ->
  half_inside m o up n c ldc -> stored_apart m o t a lda n k (half o up n c ldc) ->
  (is_one beta && (is_zero alpha || (k =? 0)) = true ->
   herk add mul conj re is_zero is_one asserts o up t n k alpha a lda beta c ldc m = Ok m) /\
  (is_one beta && (is_zero alpha || (k =? 0)) = false ->
   exists m', herk add mul conj re is_zero is_one asserts o up t n k alpha a lda beta c ldc m = Ok m' /\
    changes d m m' (half o up n c ldc) /\
    forall i j, 0 <= i < n -> 0 <= j < n -> kept up NonUnit i j = true ->
      entry d o c ldc m' i j = on_diagonal re i j (add (mul beta (entry d o c ldc m i j))
        (mul alpha (zsum zero add k (fun l => mul (op_entry d conj o t a lda m i l) (conj (op_entry d conj o t a lda m j l))))))).
Proof.
  intros. split.
  - intros Q. unfold herk, herk_row. rewrite andb_comm in Q. rewrite Q, orb_true_r. now destruct o.
  - intros. now apply (herk_ok d zero one add mul).
Qed.
Print Assumptions C79_herk.

(** her2k: the kept triangle of beta C + alpha op(A) op(B)^H + conj(alpha) op(B) op(A)^H with a real diagonal. *)
Theorem C79_her2k : forall A (d zero one : A) (add mul : A -> A -> A) conj re is_zero is_one asserts o up t n k alpha a lda b ldb beta c ldc (m : list A),
  semi_ring_theory zero one add mul eq -> (forall v, is_zero v = true <-> v = zero) -> (forall v, is_one v = true -> v = one) ->
  (forall u v, re (add u v) = add (re u) (re v)) -> (forall u, re (re u) = re u) -> (forall u, conj (conj u) = u) ->
  (forall u v, conj (mul u v) = mul (conj u) (conj v)) ->
  hermitian_mode t -> 0 <= k -> 0 <= lda -> 0 <= ldb -> n <= ldc ->
  half_inside m o up n c ldc -> stored_apart m o t a lda n k (half o up n c ldc) -> stored_apart m o t b ldb n k (half o up n c ldc) ->
  (is_one beta && (is_zero alpha || (k =? 0)) = true ->
   her2k add mul conj re is_zero is_one asserts o up t n k alpha a lda b ldb beta c ldc m = Ok m) /\
  (is_one beta && (is_zero alpha || (k =? 0)) = false ->
   exists m', her2k add mul conj re is_zero is_one asserts o up t n k alpha a lda b ldb beta c ldc m = Ok m' /\
    changes d m m' (half o up n c ldc) /\
    forall i j, 0 <= i < n -> 0 <= j < n -> kept up NonUnit i j = true ->
      entry d o c ldc m' i j = on_diagonal re i j (add (mul beta (entry d o c ldc m i j))
        (add (mul alpha (zsum zero add k (fun l => mul (op_entry d conj o t a lda m i l) (conj (op_entry d conj o t b ldb m j l)))))
             (mul (conj alpha) (zsum zero add k (fun l => mul (op_entry d conj o t b ldb m i l) (conj (op_entry d conj o t a lda m j l)))))))).
Proof.
  intros A d zero one add mul conj re is_zero is_one asserts o up t n k alpha a lda b ldb beta c ldc m SR IZ IO Ra Rr Cc Cm Ht Hk Hl Hl2 Hld Hin HA HB. split.
  - intros Q. unfold her2k, her2k_row. rewrite (zero_conj d zero one add mul SR conj re is_zero is_one IZ IO Ra Rr Cc Cm). rewrite andb_comm in Q. rewrite Q, orb_true_r. now destruct o.
  - intros. now apply (her2k_ok d zero one add mul).
Qed.
Print Assumptions C79_her2k.

(** Trans and Conj make no sense for a Hermitian update: with assertions compiled in herk and her2k stop the
    program, whenever there is anything to add. *)
Theorem C79_hermitian_modes : forall A (d zero one : A) (add mul : A -> A -> A) conj re is_zero is_one o up t n k alpha a lda b ldb beta c ldc (m : list A),
  semi_ring_theory zero one add mul eq -> (forall v, is_zero v = true <-> v = zero) -> (forall v, is_one v = true -> v = one) ->
  (forall u v, re (add u v) = add (re u) (re v)) -> (forall u, re (re u) = re u) -> (forall u, conj (conj u) = u) ->
  (forall u v, conj (mul u v) = mul (conj u) (conj v)) ->
  ~ hermitian_mode t -> n <> 0 -> k <> 0 -> alpha <> zero -> n <= ldc -> half_inside m o up n c ldc ->
  herk add mul conj re is_zero is_one true o up t n k alpha a lda beta c ldc m = Throw RuntimeError /\
  her2k add mul conj re is_zero is_one true o up t n k alpha a lda b ldb beta c ldc m = Throw RuntimeError.
Proof.
  intros A d zero one add mul conj re is_zero is_one o up t n k alpha a lda b ldb beta c ldc m SR IZ IO Ra Rr Cc Cm Ht Hn Hk Ha Hld Hin.
  assert (Z0 : is_zero alpha = false) by (destruct (is_zero alpha) eqn:E; [apply IZ in E; now destruct Ha|reflexivity]).
  assert (Z1 : is_zero (conj alpha) = false) by (now rewrite (zero_conj d zero one add mul SR conj re is_zero is_one IZ IO Ra Rr Cc Cm)).
  assert (S : forall up', half_inside m RowMajor up' n c ldc -> exists m0, hescal mul re is_one up' n beta c ldc m = Ok m0).
  { intros up' H. destruct (is_one beta) eqn:E; [exists m; unfold hescal; now rewrite E|].
    destruct (hescal_ok d zero one add mul SR conj re is_zero is_one IZ IO Ra Rr up' n beta c ldc m Hld H E) as (m0 & E0 & _). now exists m0. }
  assert (Q : (n =? 0) || ((false || (k =? 0)) && is_one beta) = false) by (destruct (is_one beta); lia).
  destruct o.
  - destruct (S up Hin) as (m0 & E0). unfold herk, her2k, herk_row, her2k_row. rewrite Z0, Q, E0. cbn [bind].
    destruct t; first [(split; reflexivity) | exfalso; apply Ht; unfold hermitian_mode; tauto].
  - destruct (S (other up) (inside_flip m up n c ldc Hin)) as (m0 & E0). unfold herk, her2k, herk_row, her2k_row. rewrite Z0, Z1, Q, E0. cbn [bind].
    destruct t; cbn [conj_flip]; first [(split; reflexivity) | exfalso; apply Ht; unfold hermitian_mode; tauto].
Qed.
Print Assumptions C79_hermitian_modes.

(** Gaussian integers: their real part is additive and idempotent. *)
Definition C79_is_one (u : Z * Z) : bool := (fst u =? 1) && (snd u =? 0).
Example C79_gauss : (forall v, C79_is_one v = true -> v = (1, 0)) /\ (forall u v, C78_re (C78_add u v) = C78_add (C78_re u) (C78_re v)) /\
  (forall u, C78_re (C78_re u) = C78_re u) /\ forall u, C78_conj (C78_conj u) = u.
Proof.
  unfold C78_add, C78_re, C78_conj, C79_is_one. split; [|split; [|split]].
  - intros [p q] H. cbn [fst snd] in H. f_equal; lia.
  - now intros [p q] [r s].
  - now intros [p q].
  - intros [p q]. cbn [fst snd]. f_equal. lia.
Qed.
(** A = (1+i, 2; 0, i), C with 5i on the diagonal and a 9 in the other half. *)
Example C79_herk_ex :
  let m := [(1, 1); (2, 0); (0, 0); (0, 1); (1, 5); (0, 0); (9, 9); (1, 0)] in
  half_inside m RowMajor Upper 2 4 2 /\ stored_apart m RowMajor ConjTrans 0 2 2 2 (half RowMajor Upper 2 4 2) /\
  herk C78_add C78_mul C78_conj C78_re C78_is_zero C79_is_one true RowMajor Upper NoTrans 2 2 (1, 0) 0 2 (1, 0) 4 2 m =
    Ok [(1, 1); (2, 0); (0, 0); (0, 1); (7, 0); (0, -2); (9, 9); (2, 0)] /\
  herk C78_add C78_mul C78_conj C78_re C78_is_zero C79_is_one true RowMajor Upper ConjTrans 2 2 (1, 0) 0 2 (2, 0) 4 2 m =
    Ok [(1, 1); (2, 0); (0, 0); (0, 1); (4, 0); (2, -2); (9, 9); (7, 0)] /\
  herk C78_add C78_mul C78_conj C78_re C78_is_zero C79_is_one true ColMajor Lower NoTrans 2 2 (1, 0) 0 2 (0, 0) 4 2 m =
    Ok [(1, 1); (2, 0); (0, 0); (0, 1); (2, 0); (2, -2); (9, 9); (5, 0)] /\
  her2k C78_add C78_mul C78_conj C78_re C78_is_zero C79_is_one true RowMajor Upper NoTrans 2 1 (0, 1) 0 2 1 2 (0, 0) 4 2 m =
    Ok [(1, 1); (2, 0); (0, 0); (0, 1); (-4, 0); (1, 1); (9, 9); (0, 0)] /\
  herk C78_add C78_mul C78_conj C78_re C78_is_zero C79_is_one true RowMajor Upper Trans 2 2 (1, 0) 0 2 (2, 0) 4 2 m = Throw RuntimeError.
Proof.
  split; [|split; [|now repeat split]].
  - intros i j Hi Hj K. cbn [cell length]. lia.
  - intros i l Hi Hl. unfold stored. cbn [is_trans cell length]. split; [lia|]. intros (u & v & Hu & Hv & K & E). cbn [cell] in E. lia.
Qed.
(** H = (2, 3-i; ., 5) on either side of a row or column (1, i). *)
Example C78_hemm_ex :
  let m := [(2, 7); (3, -1); (9, 9); (5, 8); (1, 0); (0, 1); (0, 0); (0, 0)] in
  block_inside m RowMajor 6 2 1 2 /\ kept_apart m RowMajor Upper NonUnit 2 0 2 (block RowMajor 6 2 1 2) /\
  block_apart m RowMajor 4 2 1 2 (block RowMajor 6 2 1 2) /\
  hemm (0, 0) (1, 0) C78_add C78_mul C78_conj C78_re C78_is_zero RowMajor Right Upper 1 2 (1, 0) 0 2 4 2 (0, 0) 6 2 m =
    Ok [(2, 7); (3, -1); (9, 9); (5, 8); (1, 0); (0, 1); (1, 3); (3, 4)] /\
  hemm (0, 0) (1, 0) C78_add C78_mul C78_conj C78_re C78_is_zero RowMajor Left Upper 2 1 (1, 0) 0 2 4 1 (0, 0) 6 1 m =
    Ok [(2, 7); (3, -1); (9, 9); (5, 8); (1, 0); (0, 1); (3, 3); (3, 6)] /\
  hemm (0, 0) (1, 0) C78_add C78_mul C78_conj C78_re C78_is_zero ColMajor Left Lower 2 1 (1, 0) 0 2 4 2 (0, 0) 6 2 m =
    Ok [(2, 7); (3, -1); (9, 9); (5, 8); (1, 0); (0, 1); (1, 3); (3, 4)].
Proof.
  split; [|split; [|split; [|now repeat split]]].
  - intros i j Hi Hj. cbn [cell length]. lia.
  - intros i j Hi Hj K. cbn [cell length]. split; [lia|]. intros (k & l & Hk & Hl & E). cbn [cell] in E. lia.
  - intros i j Hi Hj. cbn [cell length]. split; [lia|]. intros (k & l & Hk & Hl & E). cbn [cell] in E. lia.
Qed.
