(** Specification vocabulary for [half]: what a bit pattern denotes, written from IEEE 754.

    A finite binary16 number is an integer multiple of 2^-24 and a finite binary32 number an integer
    multiple of 2^-149, so values are given exactly, as integers in those units. *)
From Verif Require Import Base HalfModel.
Local Open Scope Z_scope.

Definition bits16 (h : Z) : Prop := 0 <= h < 2 ^ 16.
Definition bits32 (f : Z) : Prop := 0 <= f < 2 ^ 32.

Definition hsign (h : Z) : Z := h / 2 ^ 15.
Definition hexp (h : Z) : Z := h / 2 ^ 10 mod 2 ^ 5.
Definition hfrac (h : Z) : Z := h mod 2 ^ 10.
Definition half_nan (h : Z) : Prop := hexp h = 31 /\ hfrac h <> 0.
Definition half_inf (h : Z) : Prop := hexp h = 31 /\ hfrac h = 0.
Definition half_finite (h : Z) : Prop := hexp h <> 31.
Definition half_zero (h : Z) : Prop := hexp h = 0 /\ hfrac h = 0.
Definition half_normal (h : Z) : Prop := 1 <= hexp h <= 30.

(** The value of a finite half, times 2^24. *)
Definition half_magnitude (h : Z) : Z :=
  if hexp h =? 0 then hfrac h else (2 ^ 10 + hfrac h) * 2 ^ (hexp h - 1).
Definition half_units (h : Z) : Z := if hsign h =? 0 then half_magnitude h else - half_magnitude h.

Definition fsign (f : Z) : Z := f / 2 ^ 31.
Definition fexp (f : Z) : Z := f / 2 ^ 23 mod 2 ^ 8.
Definition ffrac (f : Z) : Z := f mod 2 ^ 23.
Definition float_nan (f : Z) : Prop := fexp f = 255 /\ ffrac f <> 0.
Definition float_inf (f : Z) : Prop := fexp f = 255 /\ ffrac f = 0.
Definition float_finite (f : Z) : Prop := fexp f <> 255.

(** The value of a finite float, times 2^149. *)
Definition float_magnitude (f : Z) : Z :=
  if fexp f =? 0 then ffrac f else (2 ^ 23 + ffrac f) * 2 ^ (fexp f - 1).
Definition float_units (f : Z) : Z := if fsign f =? 0 then float_magnitude f else - float_magnitude f.

(** The sign field of a product. *)
Definition product_sign (x y : Z) : Z := if hsign x =? hsign y then 0 else 1.

(** [nearest scale h S]: [h] is finite and no finite half lies closer to S / scale units. *)
Definition nearest (scale h x : Z) : Prop :=
  bits16 h /\ half_finite h /\
  forall h', bits16 h' -> half_finite h' ->
    Z.abs (half_units h * scale - x) <= Z.abs (half_units h' * scale - x).
(** How a tie was broken: towards the larger magnitude, or towards an even fraction field. *)
Definition ties_away (scale h x : Z) : Prop :=
  forall h', bits16 h' -> half_finite h' ->
    Z.abs (half_units h * scale - x) = Z.abs (half_units h' * scale - x) ->
    half_magnitude h' <= half_magnitude h.
Definition ties_to_even (scale h x : Z) : Prop :=
  forall h', bits16 h' -> half_finite h' -> half_units h' <> half_units h ->
    Z.abs (half_units h * scale - x) = Z.abs (half_units h' * scale - x) -> hfrac h mod 2 = 0.

(** 2^24 * 65520: from here on IEEE round-to-nearest gives infinity. *)
Definition overflow_threshold : Z := 4095 * 2 ^ 28.

(** IEEE comparison of two halfs that are not NaN: infinities lie outside all finite numbers. *)
Definition order_key (h : Z) : Z :=
  let m := if hexp h =? 31 then 2 ^ 41 else half_magnitude h in
  if hsign h =? 0 then m else - m.
