(** The sizes of the matrices in products with banded matrices. *)
From Coq Require Import ZArith.
From Verif Require Import Base MatmulModel BlasModel TriModel TriSpec.
Local Open Scope Z_scope.

(** gbmm(m, n, l): on the left, A is m x n and C has l columns; on the right, B is stored as an m x n matrix when A
    is not transposed, and A has l columns.  So A is: *)
Definition gbmm_rows (sd : side) (tB : trans) (m n : Z) : Z := match sd with Left => m | Right => if is_trans tB then m else n end.
Definition gbmm_cols (sd : side) (n l : Z) : Z := match sd with Left => n | Right => l end.
(** the columns (left) or rows (right) of C *)
Definition gbmm_lines (sd : side) (tB : trans) (m n l : Z) : Z := match sd with Left => l | Right => if is_trans tB then n else m end.
(** op(M) of an r x c matrix *)
Definition op_rows (t : trans) (r c : Z) : Z := if is_trans t then c else r.
Definition op_cols (t : trans) (r c : Z) : Z := if is_trans t then r else c.
(** A block of [lines] lines of length [len]: columns (left) or rows (right). *)
Definition lines_rows (sd : side) (len lines : Z) : Z := match sd with Left => len | Right => lines end.
Definition lines_cols (sd : side) (len lines : Z) : Z := match sd with Left => lines | Right => len end.
(** tbmm scales the line it has just computed: the elements of a line are ldB apart, or there is only one. *)
Definition scales_line (o : order) (sd : side) (rows cols ldb : Z) : Prop :=
  match o, sd with RowMajor, Left | ColMajor, Right => True | _, _ => order_of sd rows cols <= 1 \/ ldb = 1 end.
