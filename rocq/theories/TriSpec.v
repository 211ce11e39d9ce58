(** What products with a triangular matrix, and triangular systems, mean. *)
From Coq Require Import ZArith.
From Verif Require Import Base MatmulModel MatmulSpec BlasModel BlasSpec TriModel.
Local Open Scope Z_scope.

(** Sum of t(0), ..., t(n-1). *)
Definition zsum {A} (zero : A) (add : A -> A -> A) (n : Z) (t : Z -> A) : A :=
  sum zero add (Z.to_nat n) (fun i => t (Z.of_nat i)).
(** Address of entry (i, j) of a matrix. *)
Definition cell (o : order) (a lda i j : Z) : Z :=
  match o with RowMajor => a + i * lda + j | ColMajor => a + j * lda + i end.
(** Is entry (i, j) kept in memory?  Only one triangle is, and not its diagonal when that is implicitly one. *)
Definition kept (up : uplo) (dg : diag) (i j : Z) : bool :=
  match up with Upper => i <? j | Lower => j <? i end || (i =? j) && match dg with Unit => false | NonUnit => true end.
(** The triangular matrix at [a]. *)
Definition triangle {A} (d zero one : A) (o : order) (up : uplo) (dg : diag) (a lda : Z) (m : list A) (i j : Z) : A :=
  if kept up dg i j then val d m (cell o a lda i j) else if i =? j then one else zero.
(** op(M) *)
Definition op {A} (conj : A -> A) (t : trans) (M : Z -> Z -> A) (i j : Z) : A :=
  match t with NoTrans => M i j | Conj => conj (M i j) | Trans => M j i | ConjTrans => conj (M j i) end.
(** The kept entries lie in memory, outside the given cells. *)
Definition kept_apart {A} (m : list A) (o : order) (up : uplo) (dg : diag) (n a lda : Z) (cells : Z -> Prop) : Prop :=
  forall i j, 0 <= i < n -> 0 <= j < n -> kept up dg i j = true ->
    0 <= cell o a lda i j < Z.of_nat (length m) /\ ~ cells (cell o a lda i j).
(** Conjugation: the identity for real types. *)
Definition conjugate {A} (zero one : A) (conj : A -> A) : Prop := conj zero = zero /\ conj one = one.
(** No zero on the diagonal. *)
Definition invertible {A} (zero : A) (conj : A -> A) (n : Z) (M : Z -> Z -> A) : Prop :=
  forall i, 0 <= i < n -> M i i <> zero /\ conj (M i i) <> zero.

(** A rows x cols matrix at [b]. *)
Definition block (o : order) (b ldb rows cols p : Z) : Prop :=
  exists i j, 0 <= i < rows /\ 0 <= j < cols /\ p = cell o b ldb i j.
Definition block_inside {A} (m : list A) (o : order) (b ldb rows cols : Z) : Prop :=
  forall i j, 0 <= i < rows -> 0 <= j < cols -> 0 <= cell o b ldb i j < Z.of_nat (length m).
(** The leading dimension is at least the length of a line. *)
Definition leading (o : order) (rows cols ld : Z) : Prop := match o with RowMajor => cols <= ld | ColMajor => rows <= ld end.
Definition entry {A} (d : A) (o : order) (b ldb : Z) (m : list A) (i j : Z) : A := val d m (cell o b ldb i j).
(** Entry (i, j) of T B, or of B T. *)
Definition applied {A} (zero : A) (add mul : A -> A -> A) (sd : side) (rows cols : Z) (T B : Z -> Z -> A) (i j : Z) : A :=
  match sd with
  | Left => zsum zero add rows (fun k => mul (T i k) (B k j))
  | Right => zsum zero add cols (fun k => mul (B i k) (T k j))
  end.
(** The size of the triangular matrix. *)
Definition order_of (sd : side) (rows cols : Z) : Z := match sd with Left => rows | Right => cols end.
