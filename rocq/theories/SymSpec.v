(** What symmetric and Hermitian matrices kept in one triangle, and rank updates, mean. *)
From Coq Require Import ZArith.
From Verif Require Import Base MatmulModel MatmulSpec BlasModel BlasSpec TriModel TriSpec.
Local Open Scope Z_scope.

(** The symmetric matrix at [a] of which one triangle is kept. *)
Definition symmetric {A} (d : A) (o : order) (up : uplo) (a lda : Z) (m : list A) (i j : Z) : A :=
  if kept up NonUnit i j then val d m (cell o a lda i j) else val d m (cell o a lda j i).
(** The Hermitian matrix: the other triangle is conjugated, and only the real part of the diagonal counts. *)
Definition hermitian {A} (d : A) (conj re : A -> A) (o : order) (up : uplo) (a lda : Z) (m : list A) (i j : Z) : A :=
  if i =? j then re (val d m (cell o a lda i i))
  else if kept up NonUnit i j then val d m (cell o a lda i j) else conj (val d m (cell o a lda j i)).
(** The cells of the kept triangle. *)
Definition half (o : order) (up : uplo) (n a lda p : Z) : Prop :=
  exists i j, 0 <= i < n /\ 0 <= j < n /\ kept up NonUnit i j = true /\ p = cell o a lda i j.
Definition half_inside {A} (m : list A) (o : order) (up : uplo) (n a lda : Z) : Prop :=
  forall i j, 0 <= i < n -> 0 <= j < n -> kept up NonUnit i j = true -> 0 <= cell o a lda i j < Z.of_nat (length m).
(** The vector lies in memory, outside the given cells. *)
Definition vector_apart {A} (m : list A) (x inc n : Z) (cells : Z -> Prop) : Prop :=
  forall i, 0 <= i < n -> 0 <= elt x inc n i < Z.of_nat (length m) /\ ~ cells (elt x inc n i).
(** The rows x cols matrix lies in memory, outside the given cells. *)
Definition block_apart {A} (m : list A) (o : order) (b ldb rows cols : Z) (cells : Z -> Prop) : Prop :=
  forall i j, 0 <= i < rows -> 0 <= j < cols -> 0 <= cell o b ldb i j < Z.of_nat (length m) /\ ~ cells (cell o b ldb i j).
(** The n x k matrix op(A): stored as it is, or transposed. *)
Definition stored (o : order) (t : trans) (a lda i l : Z) : Z :=
  if is_trans t then cell o a lda l i else cell o a lda i l.
Definition stored_apart {A} (m : list A) (o : order) (t : trans) (a lda n k : Z) (cells : Z -> Prop) : Prop :=
  forall i l, 0 <= i < n -> 0 <= l < k -> 0 <= stored o t a lda i l < Z.of_nat (length m) /\ ~ cells (stored o t a lda i l).
