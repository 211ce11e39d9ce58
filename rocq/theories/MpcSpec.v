(** What C101 means: what is expected of the number types of GMP and MPFR. *)
From Coq Require Import ZArith QArith Qabs List.
From Verif Require Import MpfModel.
Import ListNotations.
Local Open Scope Q_scope.

(** 2^-p *)
Definition bit (p : Z) : Q := / inject_Z (2 ^ p).
(** An mpf of at least p bits holds the leading bits of a number: a number not larger in modulus, with a relative error of at most
    2^-p; integers of p bits exactly. *)
Record good_fit (p : Z) (fit : Q -> Q) : Prop := {
  fit_compat : forall x y, x == y -> fit x == fit y;
  fit_below : forall x, (0 <= x -> 0 <= fit x <= x) /\ (x <= 0 -> x <= fit x <= 0);
  fit_close : forall x, Qabs (fit x - x) <= bit p * Qabs x;
  fit_integer : forall z, (Z.abs z <= 2 ^ p)%Z -> fit (inject_Z z) == inject_Z z }.
(** An mpfr of p bits holds a number with a relative error of at most 2^-p; integers of p bits exactly. *)
Record good_near (p : Z) (near : Q -> Q) : Prop := {
  near_compat : forall x y, x == y -> near x == near y;
  near_close : forall x, Qabs (near x - x) <= bit p * Qabs x;
  near_integer : forall z, (Z.abs z <= 2 ^ p)%Z -> near (inject_Z z) == inject_Z z }.
(** The integer part of a number: the integer next to it on the side of 0. *)
Definition integer_part (x : Q) (z : Z) : Prop :=
  (0 <= x -> inject_Z z <= x < inject_Z z + 1) /\ (x <= 0 -> inject_Z z - 1 < x <= inject_Z z).
(** 10^-d *)
Definition decimal (d : Z) : Q := / inject_Z (10 ^ d).
(** A decimal text: an optional minus sign, at least one digit, and optionally a point followed by digits *)
Definition decimal_text (t : list chr) : Prop := exists sign i whole rest,
  t = sign ++ Dig i :: map Dig whole ++ rest /\ (sign = [] \/ sign = [Minus]) /\ (rest = [] \/ exists fraction, rest = Dot :: map Dig fraction).
