(** What C80 means: how far a computed sum may be from the exact one. *)
From Coq Require Import ZArith Reals List Permutation.
From Flocq Require Import Core BinarySingleNaN.
From Verif Require Import MatmulSpec.
Import ListNotations.
Open Scope R_scope.

(** The unit roundoff 2^-prec, and half of the smallest positive number 2^(3 - emax - prec). *)
Definition unit_roundoff (prec : Z) : R := bpow radix2 (- prec).
Definition underflow_unit (prec emax : Z) : R := / 2 * bpow radix2 (3 - emax - prec).

(** Exact sums of real numbers. *)
Definition total (n : nat) (f : nat -> R) : R := sum 0 Rplus n f.
Definition exact_sum (l : list R) : R := fold_right Rplus 0 l.
Definition size_sum (l : list R) : R := exact_sum (map Rabs l).

(** The bound for a sum of [n] numbers of total modulus [s]: every addition may contribute one unit
    roundoff of the total modulus, and nothing else. *)
Definition sum_bound (prec : Z) (n : nat) (s : R) : R := INR (n - 1) * unit_roundoff prec * s.
(** The bound for a sum of [n] products: one unit roundoff per product, and the underflow of the products. *)
Definition dot_bound (prec emax : Z) (n : nat) (s : R) : R :=
  INR n * unit_roundoff prec * s + INR n * (1 + INR n * unit_roundoff prec) * underflow_unit prec emax.

(** The nearest number of the format (ties to even), ignoring overflow. *)
Definition nearest (prec emax : Z) (x : R) : R := round radix2 (FLT_exp (3 - emax - prec) prec) ZnearestE x.
(** [s] is a result of adding up the numbers of the list in some order with some bracketing, each
    addition rounded. *)
Inductive added (prec emax : Z) : list R -> R -> Prop :=
| added_none : added prec emax [] 0
| added_one x : added prec emax [x] x
| added_both l1 l2 s1 s2 : added prec emax l1 s1 -> added prec emax l2 s2 ->
    added prec emax (l1 ++ l2) (nearest prec emax (s1 + s2))
| added_perm l l' s : Permutation l l' -> added prec emax l s -> added prec emax l' s.

(** A real number that is an integer. *)
Definition integral (x : R) : Prop := exists z, x = IZR z.
(** A lazy operand without scaling: every factor is one. *)
Definition unscaled {A} (one : A) (e : @MatmulModel.lexpr A) : Prop := Forall (eq one) (factors e).

(** [r] is a good result for the sum of the n products a_i b_i:
    - if it is finite, so are the operands, and it is within the bound of the exact sum;
    - it is finite if the operands are and the sum of the moduli stays below the overflow threshold;
    - it is exact for integers as long as the sum of the moduli is at most 2^prec. *)
Definition accurate {prec emax : Z} (n : nat) (a b : nat -> binary_float prec emax) (r : binary_float prec emax) : Prop :=
  let exact := total n (fun i => B2R (a i) * B2R (b i)) in
  let moduli := total n (fun i => Rabs (B2R (a i) * B2R (b i))) in
  (is_finite r = true ->
    (forall i, (i < n)%nat -> is_finite (a i) = true /\ is_finite (b i) = true) /\
    Rabs (B2R r - exact) <= dot_bound prec emax n moduli) /\
  ((forall i, (i < n)%nat -> is_finite (a i) = true /\ is_finite (b i) = true) ->
    moduli + dot_bound prec emax n moduli < bpow radix2 emax -> is_finite r = true) /\
  ((forall i, (i < n)%nat -> is_finite (a i) = true /\ is_finite (b i) = true /\ integral (B2R (a i)) /\ integral (B2R (b i))) ->
    moduli <= bpow radix2 prec -> is_finite r = true /\ B2R r = exact).
