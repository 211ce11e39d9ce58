(** What C107 means: the logarithm of the modulus. *)
From Coq Require Import ZArith Reals.
From Flocq Require Import Core.
From Verif Require Import EftModel EftSpec LghModel.
Local Open Scope R_scope.

(** ln |x + iy| *)
Definition log_modulus (x y : R) : R := ln (sqrt (x * x + y * y)).
(** The 64 bits of a double of any kind, of an infinity, of a NaN *)
Definition any64 (b : Z) : Prop := (0 <= b < 2 ^ 64)%Z.
Definition infinity (negative : bool) : Z := (if negative then 4095 * 2 ^ 52 else 2047 * 2 ^ 52)%Z.
Definition nan64 (b : Z) : Prop := any64 b /\ (b mod 2 ^ 63 > 2047 * 2 ^ 52)%Z.
(** The bits with the sign set or cleared *)
Definition same_magnitude (b c : Z) : Prop := (b mod 2 ^ 63 = c mod 2 ^ 63)%Z.
(** Close to the exact value *)
Definition close (r m : R) : Prop := Rabs (r - m) <= bpow radix2 (-44) * Rabs m + bpow radix2 (-95).
