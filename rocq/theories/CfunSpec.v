(** What C68 - C70 mean. *)
From Coq Require Import Reals ZArith.
From Verif Require Import ComplexModel CfunModel.
Local Open Scope R_scope.
(** the sign bit of a number: free for zero *)
Definition bit_ok (bit : bool) (x : R) : Prop := (x < 0 -> bit = true) /\ (0 < x -> bit = false).
(** component types: [digits] of the significand positive, logP1 exact *)
Definition good_num (n : num) : Prop := (0 < n_digits n)%Z /\ 0 < n_arcBig n /\ (forall x, -1 < x -> n_logP1 n x = ln (1 + x)).
(** no intermediate result is scaled down: the roots taken are at most [arcBig] in modulus *)
Definition moderate (n : num) (z : cx) : Prop := cabs z + 1 <= n_arcBig n * n_arcBig n.
(** z is the product of k copies of w *)
Fixpoint cpow (w : cx) (k : nat) : cx := match k with O => mk 1 0 | S k => mul w (cpow w k) end.
