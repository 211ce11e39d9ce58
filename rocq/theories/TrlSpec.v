(** What C113 means: how far a computed block X may be from op(T) X = alpha B or X op(T) = alpha B. *)
From Coq Require Import ZArith Reals.
From Flocq Require Import Core BinarySingleNaN.
From Verif Require Import Base MatmulModel MatmulSpec BlasModel BlasSpec TriModel TriSpec AccSpec SolSpec.
Open Scope R_scope.

(** The real numbers behind a block in memory. *)
Definition real_block {prec emax : Z} (o : order) (b ldb : Z) (m : list (binary_float prec emax)) (i j : Z) : R :=
  B2R (entry (B754_zero false) o b ldb m i j).
(** T B (on the left) or B T (on the right), and the same with moduli: |T| |B| or |B| |T|. *)
Definition block_product (sd : side) (rows cols : Z) (T B : Z -> Z -> R) (i j : Z) : R := applied 0 Rplus Rmult sd rows cols T B i j.
Definition block_size (sd : side) (rows cols : Z) (T B : Z -> Z -> R) (i j : Z) : R :=
  block_product sd rows cols (fun p q => Rabs (T p q)) (fun p q => Rabs (B p q)) i j.
(** The equation that gives entry (i, j): its number, which is also the row of the diagonal entry it divides by. *)
Definition equation (sd : side) (i j : Z) : Z := match sd with Left => i | Right => j end.
(** The most by which entry (i, j) of the product may differ from the right-hand side: as for one right-hand side (C95). *)
Definition system_bound (prec emax : Z) (sd : side) (rows cols : Z) (T X : Z -> Z -> R) (i j : Z) : R :=
  solve_unit prec (order_of sd rows cols) * block_size sd rows cols T X i j +
  solve_slack prec emax (order_of sd rows cols) (T (equation sd i j) (equation sd i j)).

(** One rounding. *)
Definition rounding (prec emax : Z) (x : R) : R := unit_roundoff prec * Rabs x + underflow_unit prec emax.
(** The unit of the bound when a rounded multiplication by alpha follows the solve. *)
Definition scaled_unit (prec n : Z) : R := (solve_unit prec n + unit_roundoff prec) / (1 - unit_roundoff prec).
Definition scaled_bound (prec emax : Z) (sd : side) (rows cols : Z) (alpha : R) (T X : Z -> Z -> R) (i j : Z) : R :=
  let n := order_of sd rows cols in
  scaled_unit prec n * block_size sd rows cols T X i j
  + Rabs alpha * solve_slack prec emax n (T (equation sd i j) (equation sd i j))
  + (1 + scaled_unit prec n) * block_size sd rows cols T (fun _ _ => 1) i j * underflow_unit prec emax.
