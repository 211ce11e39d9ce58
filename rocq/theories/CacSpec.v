(** What C106 means: how far a computed sum of complex products may be from the exact one. *)
From Coq Require Import ZArith Reals Bool List.
From Flocq Require Import Core BinarySingleNaN.
From Verif Require Import MatmulModel MatmulSpec AccSpec NumSpec.
Local Open Scope R_scope.

Section Spec.
Context {prec emax : Z}.
Local Notation complex := (binary_float prec emax * binary_float prec emax)%type.

(** The moduli of the real products that make up the parts of a complex product *)
Definition size_re (z w : complex) : R := Rabs (B2R (fst z) * B2R (fst w)) + Rabs (B2R (snd z) * B2R (snd w)).
Definition size_im (z w : complex) : R := Rabs (B2R (fst z) * B2R (snd w)) + Rabs (B2R (snd z) * B2R (fst w)).
(** Both parts are integers *)
Definition gaussian (z : complex) : Prop := integral (B2R (fst z)) /\ integral (B2R (snd z)).

(** [r] is a good result for the sum of the n complex products a_i b_i.  Each part is a sum of 2 n real products:
    - if both parts are finite, so are the operands, and each part is within the bound for 2 n products of the exact part;
    - both are finite if the operands are and the sums of the moduli stay below the overflow threshold;
    - both are exact for Gaussian integers as long as the sums of the moduli are at most 2^prec. *)
Definition caccurate (n : nat) (a b : nat -> complex) (r : complex) : Prop :=
  let re := total n (fun i => rmul_re (a i) (b i)) in
  let im := total n (fun i => rmul_im (a i) (b i)) in
  let sre := total n (fun i => size_re (a i) (b i)) in
  let sim := total n (fun i => size_im (a i) (b i)) in
  let operands := forall i, (i < n)%nat -> cfinite (a i) = true /\ cfinite (b i) = true in
  (cfinite r = true -> operands /\
    Rabs (B2R (fst r) - re) <= dot_bound prec emax (2 * n) sre /\ Rabs (B2R (snd r) - im) <= dot_bound prec emax (2 * n) sim) /\
  (operands -> sre + dot_bound prec emax (2 * n) sre < bpow radix2 emax -> sim + dot_bound prec emax (2 * n) sim < bpow radix2 emax ->
    cfinite r = true) /\
  (operands -> (forall i, (i < n)%nat -> gaussian (a i) /\ gaussian (b i)) -> sre <= bpow radix2 prec -> sim <= bpow radix2 prec ->
    cfinite r = true /\ B2R (fst r) = re /\ B2R (snd r) = im).
End Spec.

(** The matrix and the vector of a lazy operand whose factors are disregarded. *)
Definition bare_matrix {A} (e : @lexpr A) := lmatrix (fun _ x => x) e.
Definition bare_vector {A} (e : @lexpr A) := lvector (fun _ x => x) e.
