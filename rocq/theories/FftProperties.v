(** C88: the real Fourier transform of an array. *)
From Coq Require Import Reals ZArith List Arith Lia Lra.
From Verif Require Import Base ShapeModel FftSpec FftModel FftProofs.
Import ListNotations.
From Coq Require Import ZifyNat ZifyN ZifyBool.
Ltac Zify.zify_post_hook ::= idtac.
Open Scope nat_scope.

(** C88: for every one-dimensional array of n numbers, with and without assertions, the result has
    n/2+1 elements and element k is the k-th Fourier coefficient. *)
Theorem C88_rfft asserts data :
  exists out, rfft asserts [length data] data = Ok out /\ length out = length data / 2 + 1 /\
    forall k, k <= length data / 2 -> nth_error out k = Some (dft (length data) (signal data) k).
Proof. apply rfft_ok. Qed.
Print Assumptions C88_rfft.

(** C88: the coefficients that are not returned are the conjugates of those that are, in reverse. *)
Theorem C88_rest asserts data out : rfft asserts [length data] data = Ok out ->
  forall k, k < length data ->
    spectrum (length data) (fun i => nth i out (0%R, 0%R)) k = dft (length data) (signal data) k.
Proof.
  intros E k Hk. destruct (rfft_ok asserts data) as (out' & E' & L & H). rewrite E in E'. injection E' as <-.
  apply spectrum_dft; [lia|exact Hk|]. intros i Hi. apply nth_error_nth, H, Hi.
Qed.
Print Assumptions C88_rest.

(** C88: nothing is lost: the inverse transform of the result is the array. *)
Theorem C88_inverse asserts data out : rfft asserts [length data] data = Ok out ->
  forall j, j < length data ->
    nth_error data j = Some (inverse (length data) (spectrum (length data) (fun i => nth i out (0%R, 0%R))) j).
Proof.
  intros E j Hj. rewrite (inverse_ext _ _ (dft (length data) (signal data))).
  - rewrite inverse_dft by exact Hj. unfold signal. apply nth_error_nth'. exact Hj.
  - intros k Hk. apply (C88_rest asserts data out E k Hk).
Qed.
Print Assumptions C88_inverse.

(** C88: two arrays of one length with the same transform are equal. *)
Theorem C88_injective asserts data data' : length data = length data' ->
  rfft asserts [length data] data = rfft asserts [length data'] data' -> data = data'.
Proof.
  intros L E. destruct (rfft_ok asserts data) as (out & E1 & _ & _). apply (nth_ext _ _ 0%R 0%R L). intros j C. assert (C' : j < length data') by lia.
  pose proof (C88_inverse asserts data out E1 j C) as H1. pose proof (C88_inverse asserts data' out ltac:(congruence) j C') as H2.
  rewrite L in H1. rewrite <- H2 in H1. rewrite (nth_error_nth' data 0%R C), (nth_error_nth' data' 0%R C') in H1. congruence.
Qed.
Print Assumptions C88_injective.

(** C88: the transform is linear: scaling and adding arrays scales and adds the results. *)
Theorem C88_linear asserts c x y sum X Y S :
  length x = length y -> length sum = length x -> (forall j, j < length x -> nth j sum 0%R = (c * nth j x 0 + nth j y 0)%R) ->
  rfft asserts [length x] x = Ok X -> rfft asserts [length y] y = Ok Y -> rfft asserts [length sum] sum = Ok S ->
  length S = length X /\ length Y = length X /\
  forall k a b, nth_error X k = Some a -> nth_error Y k = Some b ->
    nth_error S k = Some ((c * fst a + fst b)%R, (c * snd a + snd b)%R).
Proof.
  intros L Ls H EX EY ES.
  destruct (rfft_ok asserts x) as (X' & EX' & LX & HX). rewrite EX in EX'. injection EX' as <-.
  destruct (rfft_ok asserts y) as (Y' & EY' & LY & HY). rewrite EY in EY'. injection EY' as <-.
  destruct (rfft_ok asserts sum) as (S' & ES' & LS & HS). rewrite ES in ES'. injection ES' as <-.
  rewrite LX, LY, LS, Ls, L. split; [reflexivity|]. split; [reflexivity|]. intros k a b Ha Hb.
  assert (Hk : k <= length x / 2). { apply Nat.lt_succ_r. rewrite <- Nat.add_1_r, <- LX. apply nth_error_Some. congruence. }
  rewrite HX in Ha by exact Hk. rewrite HY in Hb by (rewrite <- L; exact Hk). injection Ha as <-. injection Hb as <-.
  rewrite HS by (rewrite Ls; exact Hk). rewrite <- L, Ls, <- dft_linear. f_equal. unfold dft.
  f_equal; [|f_equal]; apply sum_ext; intros j Hj; unfold signal; rewrite H by exact Hj; reflexivity.
Qed.
Print Assumptions C88_linear.

(** C88: the energy of the coefficients is n times the energy of the array (Parseval). *)
Theorem C88_energy asserts data out : data <> [] -> rfft asserts [length data] data = Ok out ->
  sum_to (length data) (fun k => power (spectrum (length data) (fun i => nth i out (0%R, 0%R)) k)) =
  (INR (length data) * sum_to (length data) (fun j => signal data j * signal data j))%R.
Proof.
  intros N E. rewrite <- parseval by (destruct data; [congruence|cbn [length]; lia]). apply sum_ext. intros k Hk.
  rewrite (C88_rest asserts data out E k Hk). reflexivity.
Qed.
Print Assumptions C88_energy.

(** C88: the first coefficient is the sum of the numbers and has no imaginary part; with an even
    number of numbers so has the last, the alternating sum. *)
Theorem C88_ends asserts data out : rfft asserts [length data] data = Ok out ->
  nth_error out 0 = Some (sum_to (length data) (signal data), 0%R) /\
  (forall m, length data = 2 * m -> 0 < m ->
     nth_error out m = Some (sum_to (length data) (fun j => if Nat.even j then signal data j else - signal data j)%R, 0%R)).
Proof.
  intros E. destruct (rfft_ok asserts data) as (out' & E' & L & H). rewrite E in E'. injection E' as <-. split.
  - rewrite H by lia. f_equal. apply dft_zero.
  - intros m Hm P. rewrite H; [|rewrite Hm, Nat.mul_comm, Nat.div_mul; lia]. f_equal. rewrite Hm. apply dft_middle. exact P.
Qed.
Print Assumptions C88_ends.

(** C88: with assertions an array that is not one-dimensional is refused. *)
Theorem C88_dims shape data : length shape <> 1 -> rfft true shape data = Throw RuntimeError.
Proof. apply rfft_dims. Qed.
Print Assumptions C88_dims.

(** C88: without assertions it is not, and only its first shape[0] numbers are transformed. *)
Theorem C88_dims_unchecked n m rest data : 0 < n -> n <= length data ->
  exists out, rfft false (n :: m :: rest) data = Ok out /\ length out = n / 2 + 1 /\
    forall k, k <= n / 2 -> nth_error out k = Some (dft n (signal data) k).
Proof.
  intros Hn Hl. destruct (r2c_long n data (repeat (0%R, 0%R) (n / 2 + 1)) Hn Hl) as (out & E & L & H).
  - rewrite repeat_length. lia.
  - exists out. rewrite repeat_length in L. auto.
Qed.
Print Assumptions C88_dims_unchecked.

(** C88: with FFTW the result is the same for every array of 1 to 2^31-1 numbers. *)
Theorem C88_fftw asserts data : data <> [] -> (Z.of_nat (length data) < 2 ^ 31)%Z ->
  rfft_fftw asserts [length data] data = rfft asserts [length data] data.
Proof. apply fftw_same. Qed.
Print Assumptions C88_fftw.

(** C88 is false with FFTW for other lengths: an empty array or one of 2^31 to 2^32 numbers executes a
    plan that does not exist, and a longer one (shown to 2^32+2^31-1) is taken for a shorter one. *)
Theorem C88_fftw_refuted asserts data :
  (data = [] \/ (2 ^ 31 <= Z.of_nat (length data) <= 2 ^ 32)%Z -> rfft_fftw asserts [length data] data = UB) /\
  ((2 ^ 32 < Z.of_nat (length data) < 2 ^ 32 + 2 ^ 31)%Z ->
     exists out m, Z.of_nat m = (Z.of_nat (length data) - 2 ^ 32)%Z /\ rfft_fftw asserts [length data] data = Ok out /\
       nth_error out 0 = Some (dft m (signal data) 0)).
Proof.
  split; [apply fftw_bad|]. intros H. destruct (fftw_long asserts data H) as (out & m & E & H1).
  exists out, m. split; [|exact H1]. rewrite E. apply Z2Nat.id. lia.
Qed.
Print Assumptions C88_fftw_refuted.

(** The transform of [3; 1] is [4; 2]; that of [1; 0; 0; 0] is [1; 1; 1] *)
Example C88_example : rfft true [2] [3; 1]%R = Ok [(4, 0); (2, 0)]%R.
Proof.
  destruct (rfft_ok true [3; 1]%R) as (out & E & L & H). cbn [length] in *. rewrite E. f_equal.
  destruct (C88_ends true [3; 1]%R out E) as (H0 & H1). specialize (H1 1 eq_refl ltac:(lia)).
  destruct out as [|a [|b [|c out]]]; cbn in L; try discriminate L. cbn in H0, H1.
  injection H0 as ->. injection H1 as ->. unfold signal. cbn. repeat f_equal; lra.
Qed.
Example C88_impulse : rfft true [4] [1; 0; 0; 0]%R = Ok [(1, 0); (1, 0); (1, 0)]%R.
Proof.
  destruct (rfft_ok true [1; 0; 0; 0]%R) as (out & E & L & H). cbn [length] in *. rewrite E. f_equal.
  assert (D : forall k, dft 4 (signal [1; 0; 0; 0]%R) k = (1, 0)%R).
  { intros k. unfold dft, signal. cbn [sum_to nth]. rewrite turn_first, cos_0, sin_0. f_equal; ring. }
  change (4 / 2 + 1) with 3 in L. change (4 / 2) with 2 in H.
  pose proof (H 0 ltac:(lia)) as H0. pose proof (H 1 ltac:(lia)) as H1. pose proof (H 2 ltac:(lia)) as H2. rewrite D in H0, H1, H2.
  destruct out as [|a [|b [|c [|d out]]]]; cbn in L; try discriminate L. cbn in H0, H1, H2.
  injection H0 as ->. injection H1 as ->. injection H2 as ->. reflexivity.
Qed.
Example C88_empty : rfft true [0] [] = Ok [(0, 0)]%R.
Proof. reflexivity. Qed.
Example C88_matrix : rfft true [2; 2] [1; 2; 3; 4]%R = Throw RuntimeError.
Proof. reflexivity. Qed.
Example C88_lengths : to_int 3 = 3%Z.
Proof. reflexivity. Qed.
