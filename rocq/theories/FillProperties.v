(** C71 range of random fills, C72 reproducible and non-repeating random fills. *)
From Coq Require Import ZArith QArith SpecFloat Lia.
From Verif Require Import Base DeviceModel RandomModel FillModel FillSpec FillProofs.
From Coq Require Import ZifyNat ZifyN ZifyBool.
Ltac Zify.zify_post_hook ::= idtac.
Local Open Scope nat_scope.

(** * C71 *)

(** fillRandom on a device: with the generator of the kernels, for every size, number of threads, seeds, previous contents, order of
    the two calls in mt19937_ulong and schedule, nothing is accessed out of range, elements beyond the array (padding) are kept,
    and once all threads have ended every element lies in [lower, upper).  Exact arithmetic. *)
Theorem C71_device_range :
  forall (junk : list N) swap (lower upper : Q) numSeeds n threads (data : list Q) (seeds : list Z) sched,
  length junk = 624 -> (lower < upper)%Q -> 0 < threads -> 0 < numSeeds -> length seeds = numSeeds -> n <= length data ->
  of_threads threads sched ->
  exists st, krun (mt_start junk) (mt_ulong swap) (mt_next_seed swap) (fill_real lower upper) numSeeds n threads data seeds sched = Ok st /\
    length (k_data st) = length data /\ length (k_seeds st) = numSeeds /\
    (forall i, n <= i -> nth i (k_data st) 0%Q = nth i data 0%Q) /\
    (all_ended threads st -> forall i, i < n -> (lower <= nth i (k_data st) 0%Q /\ nth i (k_data st) 0%Q < upper)%Q).
Proof.
  intros junk swap lower upper numSeeds n threads data seeds sched Lj Lu Ht Hm Ls Hd Hs.
  destruct (krun_ok (mt_start junk) (mt_ulong swap) (mt_next_seed swap) (fill_real lower upper) numSeeds n threads 0%Q 0%Z
              data seeds sched Ht Hm Ls Hd Hs) as (st & E & A & B & C & D).
  exists st. split; [|split; [|split; [|split]]]; auto. intros End i Hi. destruct (D End i Hi) as (u & (s & k & ->) & ->).
  apply fill_real_ok; auto. apply mt_ulong_good.
  induction k; cbn [after]. now apply mt_start_good. now apply mt_ulong_good.
Qed.
Print Assumptions C71_device_range.

(** Integral element types: the value is truncated, so it lies in [lower, upper], and below upper if lower >= 0. *)
Theorem C71_device_range_integral :
  forall (junk : list N) swap (lower upper : Z) numSeeds n threads (data : list Z) (seeds : list Z) sched,
  length junk = 624 -> (lower < upper)%Z -> 0 < threads -> 0 < numSeeds -> length seeds = numSeeds -> n <= length data ->
  of_threads threads sched ->
  exists st, krun (mt_start junk) (mt_ulong swap) (mt_next_seed swap) (fill_integral lower upper) numSeeds n threads data seeds sched = Ok st /\
    length (k_data st) = length data /\
    (forall i, n <= i -> nth i (k_data st) 0%Z = nth i data 0%Z) /\
    (all_ended threads st -> forall i, i < n ->
       (lower <= nth i (k_data st) 0 <= upper)%Z /\ ((0 <= lower)%Z -> (nth i (k_data st) 0 < upper)%Z)).
Proof.
  intros junk swap lower upper numSeeds n threads data seeds sched Lj Lu Ht Hm Ls Hd Hs.
  destruct (krun_ok (mt_start junk) (mt_ulong swap) (mt_next_seed swap) (fill_integral lower upper) numSeeds n threads 0%Z 0%Z
              data seeds sched Ht Hm Ls Hd Hs) as (st & E & A & B & C & D).
  exists st. split; [|split; [|split]]; auto. intros End i Hi. destruct (D End i Hi) as (u & (s & k & ->) & ->).
  assert (U : (fst (mt_ulong swap (after (mt_ulong swap) k (mt_start junk s))) < 2 ^ 64)%N).
  { apply mt_ulong_good. induction k; cbn [after]. now apply mt_start_good. now apply mt_ulong_good. }
  split. now apply fill_integral_ok. intro. apply fill_integral_below; auto.
Qed.
Print Assumptions C71_device_range_integral.
Example C71_range_example :
  (fill_real (-1) 3 (2 ^ 63) == 1)%Q /\ fill_integral (-5) 10 (2 ^ 64 - 1) = 9%Z /\ fill_integral (-5) 0 (2 ^ 64 - 1) = 0%Z.
Proof. vm_compute. auto. Qed.

(** In binary64 the upper bound itself can come out: numbers within 2^10 of 2^64 are rounded to 2^64 before they are scaled. *)
Theorem C71_upper_bound_refuted :
  fill_double (f64 0) (f64 1) (2 ^ 64 - 1) = f64 1 /\ fill_double (f64 0) (f64 1) (2 ^ 64 - 1024) = f64 1 /\
  fill_double (f64 5) (f64 7) (2 ^ 64 - 1) = f64 7.
Proof. vm_compute. auto. Qed.
Print Assumptions C71_upper_bound_refuted.

(** The same on the host, by one thread or by any interleaving of the iterations: every element written is in [lower, upper)
    as long as the generator's numbers are in [0, 1). *)
Theorem C71_host_range : forall (G : Type) (mkgen : N -> G) (draw : G -> Q * G) i lower upper (data : list Q) r sched,
  (forall g, (0 <= fst (draw g) /\ fst (draw g) < 1)%Q) -> (lower < upper)%Q -> of_threads (length data) sched ->
  exists st, hrun mkgen draw i lower upper data r sched = Ok st /\ length (h_data st) = length data /\
    forall k, k < length data -> h_phase st k = HEnded ->
      (lower <= nth k (h_data st) 0%Q /\ nth k (h_data st) 0%Q < upper)%Q.
Proof.
  intros G mkgen draw i lower upper data r sched Hd L Hs.
  destruct (hrun_ok mkgen draw i lower upper data r sched Hs) as (st & E & A & B). exists st. split; [|split]; auto.
  intros k Hk He. destruct (B k Hk He) as (g & ->). destruct (Hd g). now apply RandomProofs.random_real_ok.
Qed.
Print Assumptions C71_host_range.

(** * C72 *)

(** Up to 1024 elements no two threads share a seed: whatever the schedule, element i is the first number of seed i, and
    each seed used is replaced by its successor.  [threads] is the number the back end starts (next theorem). *)
Theorem C72_device_small_partial :
  forall (Sd G U V : Type) (start : Sd -> G) (draw : G -> U * G) (next_seed : G -> Sd) (val : U -> V) d0 s0
         numSeeds n threads (data : list V) (seeds : list Sd) sched,
  n <= threads <= numSeeds -> length seeds = numSeeds -> n <= length data -> of_threads threads sched ->
  exists st, krun start draw next_seed val numSeeds n threads data seeds sched = Ok st /\
    (all_ended threads st ->
       (forall i, i < n -> nth i (k_data st) d0 = val (first_number start draw (nth i seeds s0))) /\
       (forall i, i < n -> nth i (k_seeds st) s0 = seed_after_one start draw next_seed (nth i seeds s0))).
Proof. intros. apply krun_small; lia || auto. Qed.
Print Assumptions C72_device_small_partial.
Theorem C72_threads : forall n, n <= NUM_SEEDS ->
  n <= opencl_threads n <= NUM_SEEDS /\ n <= cuda_threads n <= NUM_SEEDS.
Proof.
  intros n H. unfold opencl_threads, cuda_threads, blocksPerGrid, threadsPerBlock, NUM_SEEDS in *.
  split; [lia|]. destruct (Nat.ltb_spec n 512); [lia|].
  assert ((n + 511) / 512 = 1 /\ n = 512 \/ (n + 511) / 512 = 2).
  { destruct (Nat.eq_dec n 512) as [->|N]; [left; split; reflexivity|right].
    symmetry. apply (Nat.div_unique _ 512 2 (n - 513)); lia. }
  lia.
Qed.
Print Assumptions C72_threads.

(** In general, element i is the first number of a seed that descends from the seed in slot i mod 1024: from which one depends
    on the schedule. *)
Theorem C72_device_descent :
  forall (Sd G U V : Type) (start : Sd -> G) (draw : G -> U * G) (next_seed : G -> Sd) (val : U -> V) d0 s0
         numSeeds n threads (data : list V) (seeds : list Sd) sched,
  0 < numSeeds -> n <= threads -> length seeds = numSeeds -> n <= length data -> of_threads threads sched ->
  exists st, krun start draw next_seed val numSeeds n threads data seeds sched = Ok st /\
    (all_ended threads st -> forall i, i < n ->
       exists s, descends start draw next_seed (nth (i mod numSeeds) seeds s0) s /\
                 nth i (k_data st) d0 = val (first_number start draw s)).
Proof. intros. now apply krun_descends. Qed.
Print Assumptions C72_device_descent.

(** Two schedules, for every size, generator and seeds: if the threads take turns, the elements that share a slot come from
    successive seeds; if all threads read their seeds before one of them ends, they are all the same number, so the
    array repeats with period 1024. *)
Theorem C72_device_repeats_refuted :
  forall (Sd G U V : Type) (start : Sd -> G) (draw : G -> U * G) (next_seed : G -> Sd) (val : U -> V) d0 s0
         numSeeds n threads (data : list V) (seeds : list Sd),
  0 < numSeeds -> n <= threads -> length seeds = numSeeds -> n <= length data ->
  (exists sched st, of_threads threads sched /\ krun start draw next_seed val numSeeds n threads data seeds sched = Ok st /\
     all_ended threads st /\
     forall i, i < n -> nth i (k_data st) d0 =
       val (first_number start draw (Nat.iter (i / numSeeds) (seed_after_one start draw next_seed) (nth (i mod numSeeds) seeds s0)))) /\
  (exists sched st, of_threads threads sched /\ krun start draw next_seed val numSeeds n threads data seeds sched = Ok st /\
     all_ended threads st /\
     forall i, i + numSeeds < n -> nth (i + numSeeds) (k_data st) d0 = nth i (k_data st) d0).
Proof.
  intros Sd G U V start draw next_seed val d0 s0 numSeeds n threads data seeds Hm Ht Ls Hd. split.
  - now apply turns_run.
  - destruct (lockstep_run start draw next_seed val numSeeds n threads d0 s0 data seeds Hm Ls Ht Hd) as (sched & st & A & B & C & D).
    exists sched, st. split; [|split; [|split]]; auto. intros i Hi. rewrite !D by lia.
    replace ((i + numSeeds) mod numSeeds) with (i mod numSeeds); auto.
    rewrite <- (Nat.mul_1_l numSeeds) at 2. rewrite Nat.mod_add by lia. reflexivity.
Qed.
Print Assumptions C72_device_repeats_refuted.
(** A toy generator (state n, number n, successor 3n + 1) and one seed: the two schedules of three threads differ. *)
Example C72_repeats_example :
  omap k_data (krun (fun s : N => s) (fun n => (n, 3 * n + 1)%N) (fun n => n) (fun u => u) 1 3 3 [9; 9; 9]%N [5%N] [0; 0; 0; 1; 1; 1; 2; 2; 2]) = Ok [5; 16; 49]%N /\
  omap k_data (krun (fun s : N => s) (fun n => (n, 3 * n + 1)%N) (fun n => n) (fun u => u) 1 3 3 [9; 9; 9]%N [5%N] [0; 1; 2; 0; 0; 1; 1; 2; 2]) = Ok [5; 5; 5]%N.
Proof. split; reflexivity. Qed.

(** The first number of every thread is the seed itself, tempered: its upper 32 bits do not depend on the generator. *)
Theorem C72_first_number_is_seed_refuted : forall junk s, length junk = 624 ->
  (fst (mt_ulong false (mt_start junk s)) / 2 ^ 32)%N = temper (Z.to_N (s mod 2 ^ 32)).
Proof. exact mt_first_high. Qed.
Print Assumptions C72_first_number_is_seed_refuted.

(** The seed stored back is the drawn 64-bit number as a signed 64-bit one, after any number of draws. *)
Theorem C72_stored_seed : forall junk swap s k, length junk = 624 ->
  let g := Nat.iter k (fun g => snd (mt_ulong swap g)) (mt_start junk s) in
  (- 2 ^ 63 <= mt_next_seed swap g < 2 ^ 63)%Z /\ (mt_next_seed swap g mod 2 ^ 64 = Z.of_N (fst (mt_ulong swap g)))%Z.
Proof.
  intros junk swap s k Lj g.
  assert (U : (fst (mt_ulong swap g) < 2 ^ 64)%N).
  { apply mt_ulong_good. subst g. induction k; cbn [Nat.iter]. now apply mt_start_good. now apply mt_ulong_good. }
  unfold mt_next_seed. cbv zeta. set (u := Z.of_N (fst (mt_ulong swap g))).
  assert (0 <= u < 2 ^ 64)%Z by (unfold u; lia). destruct (Z.ltb_spec u (2 ^ 63)%Z).
  - split; [lia|]. apply Z.mod_small. lia.
  - split; [lia|]. symmetry. apply (Z.mod_unique _ _ (-1)); lia.
Qed.
Print Assumptions C72_stored_seed.
Example C72_stored_seed_example : mt_next_seed false (mt_start (repeat 0%N 624) 2147483648) = (-8642370282908806140)%Z.
Proof. vm_compute. reflexivity. Qed.

(** Reproducible: on the host (one thread) the elements after setSeed are the numbers of the standard generator for that seed,
    whatever happened before. *)
Theorem C72_host_reproducible : forall (G : Type) (mkgen : N -> G) (draw : G -> Q * G) i n lower upper s (r : rstate G),
  fst (host_fill mkgen draw i n lower upper (setSeed s r)) =
  map (random_real lower upper) (stream draw (mkgen (s mod 2 ^ 32)%N) n).
Proof. intros. apply host_fill_seeded. Qed.
Print Assumptions C72_host_reproducible.
(** The seeds of the device are those of the new seed if fillRandom is the first random function called after setSeed. *)
Theorem C72_device_reproducible_partial : forall (G : Type) (mkgen : N -> G) (draw : G -> Q * G) old s (r : rstate G),
  fst (prepare mkgen draw old (setSeed s r)) =
  map (randint 0 (2 ^ 63 - 1)) (stream draw (mkgen (s mod 2 ^ 32)%N) 1024).
Proof. intros. apply prepare_seeded. Qed.
Print Assumptions C72_device_reproducible_partial.
(** But after any host call of random in between, the old seeds are used: setSeed has no effect on the device. *)
Theorem C72_device_not_reseeded_refuted : forall (G : Type) (mkgen : N -> G) (draw : G -> Q * G) i old s (r : rstate G),
  fst (prepare mkgen draw (Some old) (snd (next mkgen draw i (setSeed s r)))) = old.
Proof.
  intros. destruct (next_fresh mkgen draw i s r) as (r' & -> & E & _). unfold prepare. cbn [snd]. now rewrite E.
Qed.
Print Assumptions C72_device_not_reseeded_refuted.
(** In parallel (more than 5000 elements) the host's iterations share the generator: all elements can be equal. *)
Theorem C72_host_parallel_refuted : forall (G : Type) (mkgen : N -> G) (draw : G -> Q * G) i lower upper (data : list Q) s (r : rstate G),
  exists sched st, of_threads (length data) sched /\ hrun mkgen draw i lower upper data (setSeed s r) sched = Ok st /\
    forall k, k < length data -> h_phase st k = HEnded /\
      nth k (h_data st) 0%Q = random_real lower upper (fst (draw (mkgen (s mod 2 ^ 32)%N))).
Proof. intros. apply hrun_repeats. Qed.
Print Assumptions C72_host_parallel_refuted.
Example C72_host_example :
  fst (host_fill (fun n => n) (fun n => (Z.of_N (n mod 10) # 10, 3 * n + 1)%N) 0 3 0 1 (setSeed 4 (RState 0 false (fun _ => None) (fun _ => None)))) =
    map (random_real 0 1) [4 # 10; 3 # 10; 0 # 10] /\
  omap h_data (hrun (fun n => n) (fun n => (Z.of_N (n mod 10) # 10, 3 * n + 1)%N) 0 0 1 [0; 0; 0]%Q (setSeed 4 (RState 0 false (fun _ => None) (fun _ => None)))
    [0; 0; 1; 1; 2; 2]) = Ok (map (random_real 0 1) [4 # 10; 3 # 10; 0 # 10]).
Proof. split; reflexivity. Qed.
