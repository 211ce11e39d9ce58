(** What C95 means: how far a computed vector may be from solving the system. *)
From Coq Require Import ZArith Reals.
From Flocq Require Import Core BinarySingleNaN.
From Verif Require Import Base MatmulModel MatmulSpec BlasModel BlasSpec TriModel TriSpec AccSpec.
Open Scope R_scope.

(** Sum of t(0), ..., t(n-1) in the real numbers. *)
Definition rsum (n : Z) (t : Z -> R) : R := zsum 0 Rplus n t.
(** Row i of T v. *)
Definition row (n : Z) (T : Z -> Z -> R) (v : Z -> R) (i : Z) : R := rsum n (fun j => T i j * v j).
(** The same with moduli: row i of |T| |v|. *)
Definition row_size (n : Z) (T : Z -> Z -> R) (v : Z -> R) (i : Z) : R := rsum n (fun j => Rabs (T i j * v j)).

(** The real numbers behind the triangle op(T) and the vector in memory. *)
Definition real_triangle {prec emax : Z} (one : binary_float prec emax) (o : order) (up : uplo) (t : trans) (dg : diag) (a lda : Z)
    (m : list (binary_float prec emax)) (i j : Z) : R :=
  B2R (op (fun v => v) t (triangle (B754_zero false) (B754_zero false) one o up dg a lda m) i j).
Definition real_vector {prec emax : Z} (x inc n : Z) (m : list (binary_float prec emax)) (i : Z) : R :=
  B2R (val (B754_zero false) m (elt x inc n i)).
Definition finite_vector {prec emax : Z} (x inc n : Z) (m : list (binary_float prec emax)) : Prop :=
  forall i, (0 <= i < n)%Z -> is_finite (val (B754_zero false) m (elt x inc n i)) = true.
Definition finite_triangle {prec emax : Z} (o : order) (up : uplo) (dg : diag) (n a lda : Z) (m : list (binary_float prec emax)) : Prop :=
  forall i j, (0 <= i < n)%Z -> (0 <= j < n)%Z -> kept up dg i j = true ->
    is_finite (val (B754_zero false) m (cell o a lda i j)) = true.

(** One unit roundoff per other entry of the row, and two (and their product) for the entry on the diagonal. *)
Definition solve_unit (prec n : Z) : R :=
  IZR (Z.max (n - 1) 2) * unit_roundoff prec + unit_roundoff prec * unit_roundoff prec.
(** Underflow: of the products, and of the quotient by the diagonal entry [e]. *)
Definition solve_slack (prec emax n : Z) (e : R) : R :=
  (IZR n * (1 + IZR n * unit_roundoff prec) + (1 + unit_roundoff prec) * Rabs e) * underflow_unit prec emax.
(** The most by which row i of T v may differ from the right-hand side. *)
Definition solve_bound (prec emax n : Z) (T : Z -> Z -> R) (v : Z -> R) (i : Z) : R :=
  solve_unit prec n * row_size n T v i + solve_slack prec emax n (T i i).
