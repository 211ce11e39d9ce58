(** Specification for C117: what it means that an element was computed accurately, for vectors and for matrices. *)
From Coq Require Import ZArith Reals List.
From Flocq Require Import Core BinarySingleNaN.
From Verif Require Import Base MatmulModel BlasModel BlasSpec TriModel TriSpec SymSpec PackSpec ExtSpec AccSpec.
Local Open Scope R_scope.

Section Accurate.
Context {prec emax : Z}.
Local Notation num := (binary_float prec emax).
(** r is x up to one rounding, if x is not too large *)
Definition value_of (r : num) (x : R) : Prop := Rabs x <= bpow radix2 (emax - 2) ->
  is_finite r = true /\ Rabs (B2R r - x) <= unit_roundoff prec * Rabs x + underflow_unit prec emax.
(** r is x + y up to three unit roundoffs of |x| + |y| and three underflow units, if that is not too large *)
Definition sum_of (r : num) (x y : R) : Prop := Rabs x + Rabs y <= bpow radix2 (emax - 2) ->
  is_finite r = true /\ Rabs (B2R r - (x + y)) <= 3 * unit_roundoff prec * (Rabs x + Rabs y) + 3 * underflow_unit prec emax.
End Accurate.

(** [f] replaces each element y_i of y by an element related to x_i and y_i by P, and changes nothing else. *)
Definition each_pair {A} (d : A) (f : Z -> Z -> Z -> Z -> Z -> list A -> outcome (list A)) (P : A -> A -> A -> Prop) : Prop :=
  forall n x incX y incY m, inside m x incX n -> inside m y incY n -> incY <> 0%Z \/ (n <= 1)%Z -> disjoint x incX y incY n ->
  exists m', f n x incX y incY m = Ok m' /\ changes d m m' (in_vector y incY n) /\
    forall i, (0 <= i < n)%Z -> P (val d m (elt x incX n i)) (val d m (elt y incY n i)) (val d m' (elt y incY n i)).
(** The same for a routine with one vector *)
Definition each_element {A} (d : A) (f : Z -> Z -> Z -> list A -> outcome (list A)) (P : A -> A -> Prop) : Prop :=
  forall n y incY m, inside m y incY n -> incY <> 0%Z \/ (n <= 1)%Z ->
  exists m', f n y incY m = Ok m' /\ changes d m m' (in_vector y incY n) /\
    forall i, (0 <= i < n)%Z -> P (val d m (elt y incY n i)) (val d m' (elt y incY n i)).
(** [f] replaces each entry of the rows x cols matrix B by one related by P to the entry of op(A) and to the old one, and changes nothing
    else; A and B lie in memory and apart. *)
Definition each_entry {A} (d : A) (f : order -> trans -> Z -> Z -> Z -> Z -> Z -> Z -> list A -> outcome (list A)) (t : trans) (P : A -> A -> A -> Prop) : Prop :=
  forall o rows cols a lda b ldb m, (0 <= rows)%Z -> (0 <= cols)%Z -> leading o rows cols ldb -> (is_trans t = true -> leading o cols rows lda) ->
  held_inside all_held (cell o b ldb) m rows cols -> source m all_held rows cols (stored o t a lda) (cell o b ldb) ->
  exists m', f o t rows cols a lda b ldb m = Ok m' /\ changes d m m' (held_cells all_held (cell o b ldb) rows cols) /\
    forall i j, (0 <= i < rows)%Z -> (0 <= j < cols)%Z -> P (val d m (stored o t a lda i j)) (val d m (cell o b ldb i j)) (val d m' (cell o b ldb i j)).
