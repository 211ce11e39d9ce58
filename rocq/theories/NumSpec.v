(** What C81-C84 mean: exact values next to computed ones. *)
From Coq Require Import ZArith Reals Bool.
From Flocq Require Import Core BinarySingleNaN.
From Verif Require Import AccSpec.
Open Scope R_scope.

(** The exact i-th of the points dividing [start, stop] into [den] equal parts. *)
Definition evenly (start stop : R) (den : Z) (i : nat) : R := start + (stop - start) * INR i / IZR den.
(** The exact point at [t] between [lower] and [upper]. *)
Definition along (t lower upper : R) : R := lower + t * (upper - lower).
(** x lies between a and b, in either order *)
Definition between (a b x : R) : Prop := Rmin a b <= x <= Rmax a b.
(** Perlin's polynomial *)
Definition perlin (t : R) : R := 6 * t ^ 5 - 15 * t ^ 4 + 10 * t ^ 3.
(** A value moved into [0, 1], and how far t is on the way from l to h *)
Definition unit_clamp (x : R) : R := Rmax 0 (Rmin x 1).
Definition ratio (t l h : R) : R := (t - l) / (h - l).
(** How far apart two numbers may be: a fraction of the larger one, or a fixed distance *)
Definition tolerance (a b absTol relTol : R) : R := Rmax (relTol * Rmax (Rabs a) (Rabs b)) absTol.
(** The smallest positive normal number *)
Definition normal_min (emax : Z) : R := bpow radix2 (2 - emax).
(** The modulus of a complex number *)
Definition modulus (re im : R) : R := sqrt (re ^ 2 + im ^ 2).
(** The quotient of complex numbers, (a + bi) / (c + di) *)
Definition quot_re (a b c d : R) : R := (a * c + b * d) / (c ^ 2 + d ^ 2).
Definition quot_im (a b c d : R) : R := (b * c - a * d) / (c ^ 2 + d ^ 2).

(** Complex numbers are pairs (real part, imaginary part) of floating-point numbers. *)
Section Pairs.
Context {prec emax : Z}.
Local Notation complex := (binary_float prec emax * binary_float prec emax)%type.
Definition cfinite (z : complex) : bool := is_finite (fst z) && is_finite (snd z).
Definition cmodulus (z : complex) : R := modulus (B2R (fst z)) (B2R (snd z)).
(** Their exact products and quotients *)
Definition rmul_re (z w : complex) : R := B2R (fst z) * B2R (fst w) - B2R (snd z) * B2R (snd w).
Definition rmul_im (z w : complex) : R := B2R (fst z) * B2R (snd w) + B2R (snd z) * B2R (fst w).
Definition rdiv_re (z w : complex) : R := quot_re (B2R (fst z)) (B2R (snd z)) (B2R (fst w)) (B2R (snd w)).
Definition rdiv_im (z w : complex) : R := quot_im (B2R (fst z)) (B2R (snd z)) (B2R (fst w)) (B2R (snd w)).
(** A divisor that is neither too large nor too small: its larger part is a normal number and is at
    most a quarter of the overflow threshold. *)
Definition divisor (w : complex) : Prop :=
  normal_min emax <= Rmax (Rabs (B2R (fst w))) (Rabs (B2R (snd w))) <= bpow radix2 (emax - 2).
End Pairs.
