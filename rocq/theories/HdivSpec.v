(** What the bit patterns of half, float and double mean as real numbers, and correct rounding. *)
From Coq Require Import ZArith Reals.
From Flocq Require Import Core.
From Verif Require Import HalfModel HalfSpec.
Local Open Scope R_scope.

(** The value of a finite half. *)
Definition half_real (h : Z) : R := IZR (half_units h) / 2 ^ 24.
Definition float_real (f : Z) : R := IZR (float_units f) / 2 ^ 149.
(** The same for double: sign, 11 bits of exponent, 52 of fraction; in units of 2^-1074. *)
Definition dsign (d : Z) : Z := (d / 2 ^ 63)%Z.
Definition dexp (d : Z) : Z := (d / 2 ^ 52 mod 2 ^ 11)%Z.
Definition dfrac (d : Z) : Z := (d mod 2 ^ 52)%Z.
Definition double_units (d : Z) : Z :=
  (let m := if dexp d =? 0 then dfrac d else (2 ^ 52 + dfrac d) * 2 ^ (dexp d - 1) in if dsign d =? 0 then m else - m)%Z.
Definition double_finite (d : Z) : Prop := dexp d <> 2047%Z.
Definition double_real (d : Z) : R := IZR (double_units d) / 2 ^ 1074.
(** The finite halfs: the numbers with 11 bits that are multiples of 2^-24, up to 65504.  [half_rounded pick x]:
    the half nearest to x; [pick] breaks ties (see Znearest in Flocq). *)
Definition half_rounded (pick : Z -> bool) (x : R) : R := round radix2 (FLT_exp (-24) 11) (Znearest pick) x.
(** The largest half not above x, and the smallest not below. *)
Definition half_below (x : R) : R := round radix2 (FLT_exp (-24) 11) Zfloor x.
Definition half_above (x : R) : R := round radix2 (FLT_exp (-24) 11) Zceil x.
(** A quiet NaN of float *)
Definition quiet_nan (f : Z) : Prop := bits32 f /\ float_nan f /\ (2 ^ 22 <= ffrac f)%Z.
(** What the machine returns for 2^23 shifted right by 113 places, which half(float) computes for a zero: small enough
    on x86, where the distance is taken modulo 32, and where such a shift gives 0. *)
Definition small_shift (j : Z -> Z -> Z) : Prop := (0 <= j (2 ^ 23) 113 < 2 ^ 13)%Z.
Definition bits64 (d : Z) : Prop := (0 <= d < 2 ^ 64)%Z.
Definition double_inf (d : Z) : Prop := dexp d = 2047%Z /\ dfrac d = 0%Z.
Definition double_nan (d : Z) : Prop := dexp d = 2047%Z /\ dfrac d <> 0%Z.
