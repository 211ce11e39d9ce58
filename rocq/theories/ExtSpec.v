(** What copying, adding, exchanging, transposing and scaling a matrix mean.  [held] says which entries of a matrix
    are kept in memory and [at_] where (see PackSpec); [stored] (SymSpec) is the address of entry (i, j) of op(A). *)
From Coq Require Import ZArith.
From Verif Require Import Base MatmulModel MatmulSpec BlasModel BlasSpec TriModel TriSpec SymSpec PackSpec.
Local Open Scope Z_scope.

(** A vector routine that replaces each element v of y by [h u v], u being the element of x, and changes nothing
    else, for all strides, when the vectors lie in memory and apart. *)
Definition pointwise {A} (d : A) (f : Z -> Z -> Z -> Z -> Z -> list A -> outcome (list A)) (h : A -> A -> A) : Prop :=
  forall n x incX y incY m, inside m x incX n -> inside m y incY n -> incY <> 0 \/ n <= 1 -> disjoint x incX y incY n ->
  exists m', f n x incX y incY m = Ok m' /\
    (forall i, 0 <= i < n -> val d m' (elt y incY n i) = h (val d m (elt x incX n i)) (val d m (elt y incY n i))) /\
    changes d m m' (in_vector y incY n).
(** conj or nothing, by mode *)
Definition by_mode {A} (conj : A -> A) (t : trans) (v : A) : A := if is_conj t then conj v else v.
(** Every held entry (i, j) at [dst] becomes [h u v], where u is the element at [src i j] and v the old entry;
    nothing else changes. *)
Definition combined {A} (d : A) (h : A -> A -> A) (held : Z -> Z -> bool) (rows cols : Z) (src dst : Z -> Z -> Z) (m m' : list A) : Prop :=
  changes d m m' (held_cells held dst rows cols) /\
  forall i j, 0 <= i < rows -> 0 <= j < cols -> held i j = true -> val d m' (dst i j) = h (val d m (src i j)) (val d m (dst i j)).
(** The source lies in memory, outside the entries that are written. *)
Definition source {A} (m : list A) (held : Z -> Z -> bool) (rows cols : Z) (src dst : Z -> Z -> Z) : Prop :=
  forall i j, 0 <= i < rows -> 0 <= j < cols -> held i j = true ->
    0 <= src i j < Z.of_nat (length m) /\ ~ held_cells held dst rows cols (src i j).
(** All entries *)
Definition all_held (i j : Z) : bool := true.
(** The address of entry (i, j) of op(A) for a band matrix A of which [kl] and [ku] describe op(A) *)
Definition stored_band (o : order) (t : trans) (kl ku a lda i j : Z) : Z :=
  if is_trans t then gband_cell o ku kl a lda j i else gband_cell o kl ku a lda i j.
