(** What a sparse matrix in compressed storage is. *)
From Coq Require Import ZArith.
From Verif Require Import Base MatmulModel MatmulSpec BlasModel BlasSpec TriModel TriSpec.
Local Open Scope Z_scope.

(** Compressed storage of a matrix of [lines] lines of [width] entries (rows for compressed rows, columns for
    compressed columns): ptr[i] - ptr[0] is the position where line i starts, and idx[k] - ptr[0] the place in its
    line of the entry at position k.  ptr[0] is the number of the first line and entry, usually 0 or 1. *)
Definition first_of (ptr : list Z) (i : Z) : Z := val 0 ptr i - val 0 ptr 0.
Definition place (ptr idx : list Z) (k : Z) : Z := val 0 idx k - val 0 ptr 0.
Definition compressed (lines width : Z) (ptr idx : list Z) : Prop :=
  0 <= lines < Z.of_nat (length ptr) /\
  (forall i, 0 <= i < lines -> val 0 ptr i <= val 0 ptr (i + 1)) /\
  forall k, 0 <= k < first_of ptr lines -> k < Z.of_nat (length idx) /\ 0 <= place ptr idx k < width.
(** Position k is in line i *)
Definition in_line (ptr : list Z) (i k : Z) : Prop := first_of ptr i <= k < first_of ptr (i + 1).

(** The entry in place j of line i: the sum of what is stored for it, zero if there is nothing *)
Definition crs_entry {A} (d zero : A) (add : A -> A -> A) (a : Z) (ptr idx : list Z) (m : list A) (i j : Z) : A :=
  zsum zero add (first_of ptr (i + 1) - first_of ptr i) (fun t =>
    let k := first_of ptr i + t in if place ptr idx k =? j then val d m (a + k) else zero).

(** Only one triangle is stored, and the diagonal entry comes first in its line (last when the lines end there) *)
Definition triangle_only (up : uplo) (n : Z) (ptr idx : list Z) : Prop :=
  forall i k, 0 <= i < n -> in_line ptr i k ->
    match up with
    | Upper => i <= place ptr idx k /\ (place ptr idx k = i -> k = first_of ptr i)
    | Lower => place ptr idx k <= i /\ (place ptr idx k = i -> k = first_of ptr (i + 1) - 1)
    end.
(** The entries of each line are in increasing order *)
Definition increasing (n : Z) (ptr idx : list Z) : Prop :=
  forall i k k', 0 <= i < n -> in_line ptr i k -> in_line ptr i k' -> k < k' -> place ptr idx k < place ptr idx k'.
Definition inside_triangle (up : uplo) (n : Z) (ptr idx : list Z) : Prop :=
  forall i k, 0 <= i < n -> in_line ptr i k ->
    match up with Upper => i <= place ptr idx k | Lower => place ptr idx k <= i end.

(** The matrix of which a triangle M is stored: symmetric, and Hermitian *)
Definition mirrored {A} (up : uplo) (M : Z -> Z -> A) (i j : Z) : A := if kept up NonUnit i j then M i j else M j i.
Definition conj_mirrored {A} (conj re : A -> A) (up : uplo) (M : Z -> Z -> A) (i j : Z) : A :=
  if i =? j then re (M i i) else if kept up NonUnit i j then M i j else conj (M j i).

(** The [n] cells from [x] on *)
Definition segment (x n p : Z) : Prop := x <= p < x + n.
Definition segment_inside {A} (m : list A) (x n : Z) : Prop := forall p, segment x n p -> 0 <= p < Z.of_nat (length m).
Definition segment_apart {A} (m : list A) (x n : Z) (cells : Z -> Prop) : Prop :=
  forall p, segment x n p -> 0 <= p < Z.of_nat (length m) /\ ~ cells p.
(** f respects sums *)
Definition additive {A} (zero : A) (add : A -> A -> A) (f : A -> A) : Prop := f zero = zero /\ forall u v, f (add u v) = add (f u) (f v).
