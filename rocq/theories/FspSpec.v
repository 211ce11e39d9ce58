(** Specification for C118: the exact product of a sparse matrix and a vector, and the size of the rounding errors. *)
From Coq Require Import ZArith Reals List.
From Flocq Require Import Core BinarySingleNaN.
From Verif Require Import Base BlasSpec TriSpec CrsSpec AccSpec.
Local Open Scope R_scope.

Section Product.
Context {prec emax : Z}.
Local Notation num := (binary_float prec emax).
Variables (d : num) (a : Z) (ia ja : list Z) (x : Z) (m : list num).
(** The number of stored entries of line i, the q-th of them, and the element of x that it is multiplied by *)
Definition entries (i : Z) : Z := first_of ia (i + 1) - first_of ia i.
Definition nth_entry (i q : Z) : R := B2R (val d m (a + (first_of ia i + q))).
Definition nth_factor (i q : Z) : R := B2R (val d m (x + place ia ja (first_of ia i + q))).
(** Entry (i, j) of the matrix as a real number: the exact sum of what is stored for it, zero if there is nothing *)
Definition real_entry (i j : Z) : R := crs_entry 0 0 Rplus a ia ja (map B2R m) i j.
(** Element i of beta y + alpha M x without rounding *)
Definition exact_product (cols : Z) (alpha beta : num) (y i : Z) : R :=
  B2R beta * B2R (val d m (y + i)) + B2R alpha * zsum 0 Rplus cols (fun j => real_entry i j * B2R (val d m (x + j))).
(** The sum of the moduli of its terms *)
Definition product_moduli (alpha beta : num) (y i : Z) : R :=
  Rabs (B2R beta * B2R (val d m (y + i))) + zsum 0 Rplus (entries i) (fun q => Rabs (B2R alpha * nth_entry i q * nth_factor i q)).
(** Rounding: K + 3 unit roundoffs of the moduli for K entries, and the underflow of the products *)
Definition product_error (alpha beta : num) (y i : Z) : R :=
  (1 + unit_roundoff prec) ^ Z.to_nat (entries i) *
  ((IZR (entries i) + 3) * unit_roundoff prec * product_moduli alpha beta y i +
   underflow_unit prec emax * (1 + zsum 0 Rplus (entries i) (fun q => 2 * (1 + Rabs (nth_factor i q))))).
(** The numbers that matter for element i are finite (the old y only if beta is not zero), and alpha times an entry does not overflow *)
Definition product_operands (alpha beta : num) (y i : Z) : Prop :=
  is_finite alpha = true /\ is_finite beta = true /\ (B2R beta = 0 \/ is_finite (val d m (y + i)) = true) /\
  forall q, (0 <= q < entries i)%Z ->
    is_finite (val d m (a + (first_of ia i + q))) = true /\ is_finite (val d m (x + place ia ja (first_of ia i + q))) = true /\
    Rabs (B2R alpha * nth_entry i q) <= bpow radix2 (emax - 2).
(** They are integers, and alpha times an entry is at most 2^prec *)
Definition integer_operands (alpha beta : num) (y i : Z) : Prop :=
  integral (B2R alpha) /\ integral (B2R beta) /\ integral (B2R (val d m (y + i))) /\
  forall q, (0 <= q < entries i)%Z -> integral (nth_entry i q) /\ integral (nth_factor i q) /\
    Rabs (B2R alpha * nth_entry i q) <= bpow radix2 prec.
End Product.

(** ** The transposed matrix *)
(** The stored entries of column r in the order of storage, as pairs of line and position: the first [n] entries of line i, and those of
    the first [l] lines *)
Definition line_hits (ia ja : list Z) (r i : Z) (n : nat) : list (Z * Z) :=
  filter (fun p => Z.eqb (place ia ja (snd p)) r) (map (fun t => (i, first_of ia i + Z.of_nat t)%Z) (seq 0 n)).
Definition column_hits (ia ja : list Z) (r : Z) (l : nat) : list (Z * Z) :=
  flat_map (fun i => line_hits ia ja r (Z.of_nat i) (Z.to_nat (entries ia (Z.of_nat i)))) (seq 0 l).
Section Transposed.
Context {prec emax : Z}.
Local Notation num := (binary_float prec emax).
Variables (d : num) (a : Z) (ia ja : list Z) (x rows : Z) (m : list num).
Local Notation hits r := (column_hits ia ja r (Z.to_nat rows)).
(** Element r of beta y + alpha M^T x without rounding, its moduli and its error *)
Definition exact_transposed (alpha beta : num) (y r : Z) : R :=
  B2R beta * B2R (val d m (y + r)) + B2R alpha * zsum 0 Rplus rows (fun i => real_entry a ia ja m i r * B2R (val d m (x + i))).
Definition transposed_moduli (alpha beta : num) (y r : Z) : R :=
  Rabs (B2R beta * B2R (val d m (y + r))) +
  exact_sum (map (fun p => Rabs (B2R alpha * B2R (val d m (a + snd p)) * B2R (val d m (x + fst p)))) (hits r)).
Definition transposed_error (alpha beta : num) (y r : Z) : R :=
  (1 + unit_roundoff prec) ^ length (hits r) *
  ((INR (length (hits r)) + 3) * unit_roundoff prec * transposed_moduli alpha beta y r +
   underflow_unit prec emax * (1 + exact_sum (map (fun p => 2 * (1 + Rabs (B2R (val d m (x + fst p))))) (hits r)))).
Definition transposed_operands (alpha beta : num) (y r : Z) : Prop :=
  is_finite alpha = true /\ is_finite beta = true /\ (B2R beta = 0 \/ is_finite (val d m (y + r)) = true) /\
  forall p, In p (hits r) -> is_finite (val d m (a + snd p)) = true /\ is_finite (val d m (x + fst p)) = true /\
    Rabs (B2R alpha * B2R (val d m (a + snd p))) <= bpow radix2 (emax - 2).
End Transposed.
