(** What matrix products should produce. *)
From Coq Require Export Ring_theory.
From Verif Require Import Base ShapeModel ShapeSpec ViewSpec MatmulModel.

(** Sums of the first n values of a function. *)
Fixpoint sum {A} (zero : A) (add : A -> A -> A) (n : nat) (f : nat -> A) : A :=
  match n with O => zero | S n' => add (sum zero add n' f) (f n') end.

(** Element (i, j) of op(M) for a matrix stored at [p] with leading dimension [ld], in row or column order. *)
Definition mat {A} (conj : A -> A) (o : order) (t : trans) (ld p : nat) (m : list A) (i j : nat) : option A :=
  let (r, c) := if is_trans t then (j, i) else (i, j) in
  match nth_error m (p + match o with RowMajor => r * ld + c | ColMajor => c * ld + r end) with
  | Some x => Some (if is_conj t then conj x else x)
  | None => None
  end.
(** op(M) is the matrix of the values f. *)
Definition is_matrix {A} (conj : A -> A) (o : order) (t : trans) (ld : nat) (m : list A) (rows cols : nat) (f : nat -> nat -> A) : Prop :=
  forall i j, i < rows -> j < cols -> mat conj o t ld 0 m i j = Some (f i j).

(** Everything outside the m x n block at the start of C is untouched. *)
Definition outside_kept {A} (o : order) (ld m n : nat) (c c' : list A) : Prop :=
  forall p, (forall i j, i < m -> j < n -> p <> match o with RowMajor => i * ld + j | ColMajor => j * ld + i end) ->
  nth_error c' p = nth_error c p.

(** An interleaving of the column programs: the steps of each column appear in program order. *)
Definition interleaving (n : nat) (program : list mvstep) (sched : list (nat * mvstep)) : Prop :=
  (forall ls, In ls sched -> fst ls < n) /\
  forall l, l < n -> map snd (filter (fun ls => fst ls =? l) sched) = program.

(** A commutative (semi)ring with a test for zero. *)
Definition semiring {A} (zero one : A) (add mul : A -> A -> A) (is_zero : A -> bool) : Prop :=
  semi_ring_theory zero one add mul eq /\ forall x, is_zero x = true <-> x = zero.
Definition conjugation {A} (zero : A) (add mul : A -> A -> A) (conj : A -> A) : Prop :=
  conj zero = zero /\ (forall x y, conj (add x y) = add (conj x) (conj y)) /\ (forall x y, conj (mul x y) = mul (conj x) (conj y)).

(** An array: the data has one value per index. *)
Definition array {A} (a : list N * list A) : Prop := N.of_nat (length (snd a)) = prod (fst a) /\ (prod (fst a) < 2 ^ 32)%N.

(** The array a lazy expression stands for: transposing reverses the index, scaling multiplies. *)
Fixpoint lshape {A} (e : @lexpr A) : list N :=
  match e with LArr a => fst a | LTrans e' _ => rev (lshape e') | LScale e' _ => lshape e' end.
Fixpoint lvalue {A} (mul : A -> A -> A) (e : @lexpr A) (idx : list N) : option A :=
  match e with
  | LArr a => element (fst a) (snd a) idx
  | LTrans e' f => option_map (mul f) (lvalue mul e' (rev idx))
  | LScale e' f => option_map (mul f) (lvalue mul e' idx)
  end.
Fixpoint base {A} (e : @lexpr A) : list N * list A :=
  match e with LArr a => a | LTrans e' _ => base e' | LScale e' _ => base e' end.
Fixpoint transposes {A} (e : @lexpr A) : nat :=
  match e with LArr _ => 0 | LTrans e' _ => S (transposes e') | LScale e' _ => transposes e' end.
Fixpoint factors {A} (e : @lexpr A) : list A :=
  match e with LArr _ => [] | LTrans e' f => f :: factors e' | LScale e' f => f :: factors e' end.
(** [e] stands for the rows x cols matrix f / the vector f. *)
Definition lmatrix {A} (mul : A -> A -> A) (e : @lexpr A) (rows cols : N) (f : nat -> nat -> A) : Prop :=
  array (base e) /\ lshape e = [rows; cols] /\
  forall i j, (i < rows)%N -> (j < cols)%N -> lvalue mul e [i; j] = Some (f (N.to_nat i) (N.to_nat j)).
Definition lvector {A} (mul : A -> A -> A) (e : @lexpr A) (n : N) (f : nat -> A) : Prop :=
  array (base e) /\ lshape e = [n] /\ forall i, (i < n)%N -> lvalue mul e [i] = Some (f (N.to_nat i)).
(** The array holding the values of a lazy expression. *)
Definition evaluated {A} (mul : A -> A -> A) (e : @lexpr A) (a : list N * list A) : Prop :=
  array a /\ fst a = lshape e /\ forall idx, in_range idx (fst a) -> element (fst a) (snd a) idx = lvalue mul e idx.
Definition product {A} (one : A) (mul : A -> A -> A) (l : list A) : A := fold_right mul one l.

(** The operation modes of cxxblas gemm that are right for complex elements. *)
Definition gemm_right (ta tb : trans) : Prop := ~ (ta = Conj /\ tb = NoTrans) /\ ~ (ta = ConjTrans /\ tb = Conj).

(** Operands of geam: the array behind one, and the rows x cols matrix f it stands for (a lazy transpose
    carries a factor of its own). *)
Definition gop_array {A} (g : @gop A) : list N * list A := match g with GArr a => a | GTrans a _ => a end.
Definition op_shape {A} (g : @gop A) (rows cols : N) : Prop :=
  match g with GArr a => fst a = [rows; cols] | GTrans a _ => fst a = [cols; rows] end.
Definition gmatrix {A} (mul : A -> A -> A) (g : @gop A) (rows cols : N) (f : N -> N -> A) : Prop :=
  array (gop_array g) /\ fst (gop_array g) = match g with GArr _ => [rows; cols] | GTrans _ _ => [cols; rows] end /\
  forall i j, (i < rows)%N -> (j < cols)%N ->
  match g with
  | GArr a => element (fst a) (snd a) [i; j]
  | GTrans a own => option_map (mul own) (element (fst a) (snd a) [j; i])
  end = Some (f i j).
