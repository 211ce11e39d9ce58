(** What C105 means: the error of a scaled product that is added to a scaled old value. *)
From Coq Require Import ZArith Reals List.
From Flocq Require Import Core BinarySingleNaN.
From Verif Require Import MatmulModel MatmulSpec AccModel AccSpec.
Import ListNotations.
Local Open Scope R_scope.

Section Update.
Context {prec emax : Z}.
Local Notation num := (binary_float prec emax).

(** beta times the old value, on reals; a beta of zero means that the old value does not count, whatever it is *)
Definition old_part (beta c : num) : R := if fis_zero prec emax beta then 0 else B2R beta * B2R c.
Definition old_finite (beta c : num) : Prop := fis_zero prec emax beta = false -> is_finite beta = true /\ is_finite c = true.

(** Three roundings (product with alpha, product with beta, addition) on top of the error of the sum of products. [s] is the sum of the
    moduli of the products, [o] the modulus of the old part. *)
Definition update_size (n : nat) (alpha s o : R) : R := Rabs alpha * (s + dot_bound prec emax n s) + o.
Definition update_bound (n : nat) (alpha s o : R) : R :=
  let u := unit_roundoff prec in
  Rabs alpha * dot_bound prec emax n s + u * (2 + u) * update_size n alpha s o + 2 * (1 + u) * underflow_unit prec emax.

(** [r] is a good result for alpha * (a_0 b_0 + ... + a_{n-1} b_{n-1}) + beta * c. *)
Definition updated (n : nat) (alpha : num) (a b : nat -> num) (beta c r : num) : Prop :=
  let exact := B2R alpha * total n (fun i => B2R (a i) * B2R (b i)) + old_part beta c in
  let s := total n (fun i => Rabs (B2R (a i) * B2R (b i))) in
  let o := Rabs (old_part beta c) in
  let operands := (forall i, (i < n)%nat -> is_finite (a i) = true /\ is_finite (b i) = true) /\ old_finite beta c in
  (is_finite r = true ->
    operands /\ ((0 < n)%nat -> is_finite alpha = true) /\ Rabs (B2R r - exact) <= update_bound n (B2R alpha) s o) /\
  (operands -> is_finite alpha = true -> s + dot_bound prec emax n s < bpow radix2 emax ->
    update_size n (B2R alpha) s o + update_bound n (B2R alpha) s o < bpow radix2 emax -> is_finite r = true) /\
  (operands -> is_finite alpha = true -> integral (B2R alpha) -> integral (old_part beta c) ->
    (forall i, (i < n)%nat -> integral (B2R (a i)) /\ integral (B2R (b i))) ->
    s <= bpow radix2 prec -> Rabs (B2R alpha) * s + o <= bpow radix2 prec -> is_finite r = true /\ B2R r = exact).

(** A list of factors: the exact product, and none of its partial products is near the underflow threshold. *)
Definition real_product (l : list num) : R := fold_right Rmult 1 (map B2R l).
Fixpoint large_products (l : list num) : Prop :=
  match l with
  | [] => True
  | x :: l' => bpow radix2 (3 - emax) <= Rabs (real_product (x :: l')) /\ large_products l'
  end.
End Update.

(** A lazy operand without its factors. *)
Fixpoint plain {A} (one : A) (e : @lexpr A) : @lexpr A :=
  match e with LArr a => LArr a | LTrans e' _ => LTrans (plain one e') one | LScale e' _ => LScale (plain one e') one end.
