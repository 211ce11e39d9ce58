(** What C88 means: the discrete Fourier transform. *)
From Coq Require Import Reals List.
Local Open Scope R_scope.

(** f 0 + ... + f (n-1) *)
Fixpoint sum_to (n : nat) (f : nat -> R) : R :=
  match n with
  | O => 0
  | S m => sum_to m f + f m
  end.
(** The angle of j k n-ths of a full turn *)
Definition turn (n j k : nat) : R := 2 * PI * (INR j * INR k) / INR n.
(** Complex numbers as pairs *)
Definition cpair : Type := (R * R)%type.
Definition conjugate (z : cpair) : cpair := (fst z, - snd z).
(** The k-th coefficient of the transform of x_0 ... x_(n-1): the sum of x_j exp(-2 pi i j k / n) *)
Definition dft (n : nat) (x : nat -> R) (k : nat) : cpair :=
  (sum_to n (fun j => x j * cos (turn n j k)), - sum_to n (fun j => x j * sin (turn n j k))).
(** All n coefficients from the first n/2+1 *)
Definition spectrum (n : nat) (half : nat -> cpair) (k : nat) : cpair :=
  if Nat.leb k (Nat.div n 2) then half k else conjugate (half (n - k)%nat).
(** The inverse transform, real part: one n-th of the sum of X_k exp(2 pi i j k / n) *)
Definition inverse (n : nat) (X : nat -> cpair) (j : nat) : R :=
  sum_to n (fun k => fst (X k) * cos (turn n j k) - snd (X k) * sin (turn n j k)) / INR n.
(** The squared modulus *)
Definition power (z : cpair) : R := fst z * fst z + snd z * snd z.
(** The numbers of an array as a sequence; only the first [length data] matter *)
Definition signal (data : list R) (j : nat) : R := nth j data 0.
