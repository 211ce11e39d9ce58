(** What packed and banded matrices are: where the entry (i, j) is kept, and the matrix it is an entry of. *)
From Coq Require Import ZArith.
From Verif Require Import Base MatmulModel MatmulSpec BlasModel BlasSpec TriModel TriSpec.
Local Open Scope Z_scope.

(** Packed storage of one triangle of an n x n matrix at [a]: its rows (or columns) one after the other, without
    gaps. *)
Definition packed_cell (o : order) (up : uplo) (n a i j : Z) : Z :=
  match o, up with
  | RowMajor, Upper => a + i * (2 * n - i - 1) / 2 + j
  | RowMajor, Lower => a + i * (i + 1) / 2 + j
  | ColMajor, Upper => a + j * (j + 1) / 2 + i
  | ColMajor, Lower => a + j * (2 * n - j - 1) / 2 + i
  end.
(** Band storage: the diagonal and [k] lines beside it; every row (or column) starts [lda] cells after the
    previous one and holds the band's k + 1 entries. *)
Definition band_cell (o : order) (up : uplo) (k a lda i j : Z) : Z :=
  match o, up with
  | RowMajor, Upper => a + i * lda + (j - i)
  | RowMajor, Lower => a + i * lda + (k + j - i)
  | ColMajor, Upper => a + j * lda + (k + i - j)
  | ColMajor, Lower => a + j * lda + (i - j)
  end.
(** Kept by band storage: in the triangle, and at most k away from the diagonal. *)
Definition band_kept (up : uplo) (dg : diag) (k i j : Z) : bool := kept up dg i j && (Z.abs (i - j) <=? k).
(** A general band matrix: [kl] lines below the diagonal and [ku] above it. *)
Definition gband_cell (o : order) (kl ku a lda i j : Z) : Z :=
  match o with
  | RowMajor => a + i * lda + (kl + j - i)
  | ColMajor => a + j * lda + (ku + i - j)
  end.
Definition gband_kept (kl ku i j : Z) : bool := (i - j <=? kl) && (j - i <=? ku).

(** The matrices: entry (i, j) is kept at [at_ i j] when [held i j]. *)
Section Kept.
Context {A : Type} (d zero one : A) (conj re : A -> A).
Variables (held : Z -> Z -> bool) (at_ : Z -> Z -> Z) (m : list A).
(** zero elsewhere *)
Definition sparse_of (i j : Z) : A := if held i j then val d m (at_ i j) else zero.
(** a triangular matrix: one on the diagonal if that is not kept *)
Definition triangular_of (i j : Z) : A := if held i j then val d m (at_ i j) else if i =? j then one else zero.
(** a symmetric matrix, given by one half *)
Definition symmetric_of (i j : Z) : A :=
  if held i j then val d m (at_ i j) else if held j i then val d m (at_ j i) else zero.
(** a Hermitian one: only the real part of the diagonal counts *)
Definition hermitian_of (i j : Z) : A :=
  if i =? j then re (val d m (at_ i i))
  else if held i j then val d m (at_ i j) else if held j i then conj (val d m (at_ j i)) else zero.
(** The kept entries lie in memory. *)
Definition held_inside (rows cols : Z) : Prop :=
  forall i j, 0 <= i < rows -> 0 <= j < cols -> held i j = true -> 0 <= at_ i j < Z.of_nat (length m).
(** And outside the given cells. *)
Definition held_apart (rows cols : Z) (cells : Z -> Prop) : Prop :=
  forall i j, 0 <= i < rows -> 0 <= j < cols -> held i j = true ->
    0 <= at_ i j < Z.of_nat (length m) /\ ~ cells (at_ i j).
(** The kept cells. *)
Definition held_cells (rows cols p : Z) : Prop :=
  exists i j, 0 <= i < rows /\ 0 <= j < cols /\ held i j = true /\ p = at_ i j.
End Kept.
