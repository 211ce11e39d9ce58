(** The real Fourier transform: array/fourierTransform.hpp on CPU arrays. Elements are real numbers.
    The transform itself is done by an external library (pocketfft, or FFTW when it is configured);
    [r2c] is what its documentation promises and is trusted. *)
From Coq Require Import Reals ZArith List Arith.
From Verif Require Import Base ShapeModel FftSpec.
Import ListNotations.

(** pocketfft::r2c on one axis of length n, contiguous, forward, factor 1: reads the n numbers at
    [input] and writes the coefficients 0 ... n/2 to [output]; with n = 0 it returns at once.
    Reading or writing outside the two buffers is undefined. *)
Definition r2c (n : nat) (input : list R) (output : list cpair) : outcome (list cpair) :=
  if n =? 0 then Ok output
  else if length input <? n then UB
  else for_range 0 (n / 2 + 1) (fun k out => wr out k (dft n (fun j => nth j input 0%R) k)) output.
(** fftw_plan_dft_r2c_1d and fftw_execute with the length converted to int: there is no plan for a
    length that is not positive, and executing a null plan is undefined *)
Definition to_int (n : nat) : Z := (Z.of_nat n + 2 ^ 31) mod 2 ^ 32 - 2 ^ 31.
Definition fftw_r2c (n : nat) (input : list R) (output : list cpair) : outcome (list cpair) :=
  if (to_int n <=? 0)%Z then UB else r2c (Z.to_nat (to_int n)) input output.

(** array/fourierTransform.hpp l.99-109: rfft on a CPU array of the given shape whose storage is
    [data]. [plan] is detail::cpu::rfft of l.7-25 (pocketfft) or l.27-64 (FFTW). The shape of an array
    of no dimensions has no first entry: reading it is undefined. Complex has a default constructor, so
    array/storage.hpp l.386-389 sets the elements of the result to zero (math/complex.hpp l.430). *)
Definition rfft_with (plan : nat -> list R -> list cpair -> outcome (list cpair)) (asserts : bool) (shape : list nat) (data : list R) : outcome (list cpair) :=
  do _ <- check asserts RuntimeError (length shape =? 1);
  do n <- rd shape 0;
  let outSize := n / 2 + 1 in
  let res := repeat (0%R, 0%R) outSize in
  plan n data res.
Definition rfft := rfft_with r2c.
Definition rfft_fftw := rfft_with fftw_r2c.
