(** Specification vocabulary for rounding. *)
From Coq Require Import QArith Qabs Qpower.
From Verif Require Import Base.
Local Open Scope Q_scope.

Definition multiple_of (v r : Q) : Prop := exists k : Z, r == inject_Z k * v.
(** r is a multiple of v and no multiple of v is closer to x. *)
Definition nearest_multiple (v x r : Q) : Prop :=
  multiple_of v r /\ forall k : Z, Qabs (r - x) <= Qabs (inject_Z k * v - x).
(** x lies exactly half way between two multiples of v. *)
Definition tie (v x : Q) : Prop := exists k : Z, x == (inject_Z k + (1 # 2)) * v.
(** A tie went to the multiple farther from zero / to the even multiple. *)
Definition tie_away (v x r : Q) : Prop :=
  forall k : Z, Qabs (r - x) == Qabs (inject_Z k * v - x) -> Qabs (inject_Z k * v) <= Qabs r.
Definition tie_even (v x r : Q) : Prop :=
  forall k k' : Z, r == inject_Z k * v -> Qabs (r - x) == Qabs (inject_Z k' * v - x) -> k' <> k -> Z.even k = true.
(** r is the multiple of v next to x on the side of zero / on the other side. *)
Definition towards_zero (v x r : Q) : Prop :=
  multiple_of v r /\ Qabs r <= Qabs x /\ Qabs x < Qabs r + v /\ 0 <= r * x.
Definition away_from_zero (v x r : Q) : Prop :=
  multiple_of v r /\ Qabs x <= Qabs r /\ Qabs r < Qabs x + v /\ 0 <= r * x.
(** r is the least multiple of v that is not below x. *)
Definition ceil_multiple (v x r : Q) : Prop :=
  multiple_of v r /\ x <= r /\ forall k : Z, x <= inject_Z k * v -> r <= inject_Z k * v.

Definition ten_to (e : Z) : Q := (10 # 1) ^ e.
(** 10^e is the weight of the first significant digit of x. *)
Definition leading_digit (x : Q) (e : Z) : Prop := ten_to e <= Qabs x /\ Qabs x < ten_to (e + 1).
