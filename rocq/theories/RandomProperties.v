(** C42 randint bounds, C43 reproducible seeding, C53 device MT19937. *)
From Coq Require Import QArith SpecFloat Lia.
From Verif Require Import Base RoundModel RandomModel RandomSpec RandomProofs.
From Coq Require Import ZifyNat ZifyN ZifyBool.
Ltac Zify.zify_post_hook ::= idtac.

(** * C42 *)
Section C42.
Local Open Scope Q_scope.

(** Non-negative bounds, exact arithmetic: every draw gives a value in range and every value can occur. *)
Theorem C42_randint_nonnegative_partial : forall lo hi, (0 <= lo <= hi)%Z ->
  (forall u, 0 <= u -> u < 1 -> (lo <= randint lo hi u <= hi)%Z) /\
  (forall n, (lo <= n <= hi)%Z -> exists u, 0 <= u /\ u < 1 /\ randint lo hi u = n).
Proof.
  intros. split; intros. now apply randint_nonneg_ok. now apply randint_nonneg_onto.
Qed.
Print Assumptions C42_randint_nonnegative_partial.
(** lo < 0 <= hi: the same unless the generator returns exactly 0. *)
Theorem C42_randint_mixed_signs_partial : forall lo hi, (lo < 0 <= hi)%Z ->
  (forall u, 0 < u -> u < 1 -> (lo <= randint lo hi u <= hi)%Z) /\
  (forall n, (lo <= n <= hi)%Z -> exists u, 0 < u /\ u < 1 /\ randint lo hi u = n).
Proof.
  intros. split; intros. now apply randint_mixed_ok. now apply randint_mixed_onto.
Qed.
Print Assumptions C42_randint_mixed_signs_partial.
Example C42_example : randint 3 7 (1 # 2) = 5%Z /\ randint (-3) 4 (1 # 10) = (-3)%Z.
Proof. split; reflexivity. Qed.

(** The generator's output 0 gives lo - 1 for every negative lo. *)
Theorem C42_randint_zero_refuted : forall lo hi, (lo < 0)%Z -> randint lo hi 0 = (lo - 1)%Z.
Proof. exact randint_zero. Qed.
Print Assumptions C42_randint_zero_refuted.
(** With both bounds negative, hi + 1 can be returned, whatever the bounds. *)
Theorem C42_randint_negative_refuted : forall lo hi, (lo <= hi < 0)%Z ->
  exists u, 0 < u /\ u < 1 /\ randint lo hi u = (hi + 1)%Z.
Proof. exact randint_negative_escapes. Qed.
Print Assumptions C42_randint_negative_refuted.
Example C42_randint_negative_example : randint (-5) (-3) (9 # 10) = (-2)%Z.
Proof. reflexivity. Qed.

(** In binary64 the sum is rounded: with the largest generator output below 1, 1 - 2^-53, randint(1, 1) is 2 and
    random(1., 2.) is 2. *)
Theorem C42_randint_double_rounding_refuted :
  let u := S754_finite false (2 ^ 53 - 1) (-53) in
  SFltb u (f64 1) = true /\ randint64 1 1 u = Ok 2%Z /\ random64 (f64 1) (f64 2) u = f64 2.
Proof. vm_compute. auto. Qed.
Print Assumptions C42_randint_double_rounding_refuted.

(** random(lo, hi) is in [lo, hi) and reaches every value of it (exact arithmetic). *)
Theorem C42_random_range : forall lo hi, lo < hi ->
  (forall u, 0 <= u -> u < 1 -> lo <= random_real lo hi u /\ random_real lo hi u < hi) /\
  (forall x, lo <= x -> x < hi -> exists u, 0 <= u /\ u < 1 /\ random_real lo hi u == x).
Proof. intros. split; intros. now apply random_real_ok. now apply random_real_onto. Qed.
Print Assumptions C42_random_range.
Theorem C42_random_integral : forall lo hi u, (0 <= lo < hi)%Z -> 0 <= u -> u < 1 ->
  (lo <= random_integral lo hi u < hi)%Z.
Proof. exact random_integral_ok. Qed.
Print Assumptions C42_random_integral.
Example C42_random_example : random_real (-1) 1 (3 # 4) == 1 # 2 /\ random_integral 2 9 (1 # 2) = 5%Z.
Proof. split; reflexivity. Qed.
End C42.

(** * C43 *)

(** If all draws after setSeed go through one instantiation random<L, U> (randint counts as <double, double>,
    randomGaussian as <double, int>) and no half of a gaussian pair is pending (or the same one is), the results
    depend only on the seed and the later calls: two arbitrary earlier histories lead to the same results. *)
Theorem C43_one_instantiation_partial :
  forall (G : Type) (mkgen : N -> G) (draw : G -> Q * G) gauss1 gauss2 fuel i s calls (st1 st2 : rstate G),
  (forall t, pending st1 t = pending st2 t) -> Forall (uses i) calls ->
  option_map fst (run mkgen draw gauss1 gauss2 fuel (SetSeed s :: calls) st1) =
  option_map fst (run mkgen draw gauss1 gauss2 fuel (SetSeed s :: calls) st2).
Proof.
  intros. apply (run_agree mkgen draw gauss1 gauss2 fuel i (SetSeed s :: calls)
    (RState (randomSeed st1) true (gens st1) (pending st1)) (RState (randomSeed st1) true (gens st2) (pending st2))).
  - constructor; auto. exact I.
  - split; [|split; [|split]]; auto.
Qed.
Print Assumptions C43_one_instantiation_partial.
(** A small generator: state n, output (n mod 10) / 10, next state 3n + 1. *)
Definition toy_draw (n : N) : Q * N := (Z.of_N (n mod 10) # 10, (3 * n + 1)%N)%N.
Example C43_one_instantiation_example :
  option_map fst (run (fun n => n) toy_draw (fun a _ => a) (fun _ b => b) 10
    [SetSeed 4; Randint 0 9; Randint 0 9] (fresh 77)) = Some [None; Some (4 # 1); Some (3 # 1)] /\
  option_map fst (run (fun n => n) toy_draw (fun a _ => a) (fun _ b => b) 10
    [Randint 0 9; Random 3 0 1; SetSeed 4; Randint 0 9; Randint 0 9] (fresh 77)) =
    Some [Some (7 # 1); Some (7 # 10); None; Some (4 # 1); Some (3 # 1)].
Proof. vm_compute. split; reflexivity. Qed.

(** Two instantiations: only the first one called after setSeed is reseeded.  With nothing called before, random<j>
    returns the first draw of the new seed; if random<j> had been called before, it continues its old stream. *)
Theorem C43_mixed_instantiations_refuted :
  forall (G : Type) (mkgen : N -> G) (draw : G -> Q * G) gauss1 gauss2 fuel s_init s0 s i j, i <> j ->
  let after := [SetSeed s; Random i 0 1; Random j 0 1] in
  let before := [SetSeed s0; Random j 0 1] in
  exists st1 st2 r1 r2,
    run mkgen draw gauss1 gauss2 fuel after (fresh s_init) =
      Some ([None; Some r1; Some (random_real 0 1 (first mkgen draw s))], st1) /\
    run mkgen draw gauss1 gauss2 fuel (before ++ after) (fresh s_init) =
      Some ([None; Some r2; None; Some r1; Some (random_real 0 1 (second mkgen draw s0))], st2).
Proof. intros G mkgen draw g1 g2. exact (mixing mkgen draw g1 g2). Qed.
Print Assumptions C43_mixed_instantiations_refuted.
Example C43_mixed_example : ~ (random_real 0 1 (first (fun n => n) toy_draw 4) == random_real 0 1 (second (fun n => n) toy_draw 7))%Q.
Proof. vm_compute. discriminate. Qed.

(** After one randomGaussian call, the next one returns the value left over from the old stream, whatever seed is
    set in between. *)
Theorem C43_gaussian_leftover_refuted :
  forall (G : Type) (mkgen : N -> G) (draw : G -> Q * G) gauss1 gauss2 fuel t (st : rstate G) q st',
  randomGaussian mkgen draw gauss1 gauss2 fuel t st = Some (q, st') -> pending st t = None ->
  exists q2, forall s, exists st'', randomGaussian mkgen draw gauss1 gauss2 fuel t (setSeed s st') = Some (q2, st'').
Proof. intros G mkgen draw g1 g2. exact (gaussian_leftover mkgen draw g1 g2). Qed.
Print Assumptions C43_gaussian_leftover_refuted.
Example C43_gaussian_example :
  option_map fst (run (fun n => n) toy_draw (fun a _ => a) (fun _ b => b) 10
    [SetSeed 4; Gaussian 0; SetSeed 7; Gaussian 0] (fresh 77)) = Some [None; Some (- (2 # 10)); None; Some (- (4 # 10))] /\
  option_map fst (run (fun n => n) toy_draw (fun a _ => a) (fun _ b => b) 10
    [SetSeed 7; Gaussian 0] (fresh 77)) = Some [None; Some (4 # 10)].
Proof. vm_compute. split; reflexivity. Qed.

(** * C53 *)
Local Open Scope nat_scope.

(** The batch function is MT19937: for every seed, number of draws and sequence satisfying the published
    initialisation and recurrence, the k-th draw is the tempered word 624 + k; no access leaves the array. *)
Theorem C53_batch_is_mt19937_partial : forall s x junk n,
  mt_initial s x -> mt_recurrence x -> length junk = MT_N ->
  exists st st', mt_seed junk s = Ok st /\
    draws mt_loop_uint n st = Ok (map (fun k => temper (x (624 + k))) (seq 0 n), st').
Proof. intros s x junk n I R L. exact (mt_stream_ok x R s junk n I L). Qed.
Print Assumptions C53_batch_is_mt19937_partial.
Theorem C53_sequence_exists : forall s, exists x, mt_initial s x /\ mt_recurrence x.
Proof. intro s. exists (mtx s). split. apply mtx_initial. apply mtx_recurrence. Qed.
Print Assumptions C53_sequence_exists.
(** The published first output of MT19937 for its default seed 5489. *)
Example C53_batch_example : temper (twist_word (iw 5489 0) (iw 5489 1) (iw 5489 397)) = 3499211612%N.
Proof. vm_compute. reflexivity. Qed.

(** The incremental function, the one the kernels use, returns the tempered seed itself at draws 0, 623, 1246, ...,
    for every seed: it never replaces the first word. *)
Theorem C53_incremental_repeats_refuted : forall s junk n, length junk = MT_N ->
  exists st out st', mt_seed junk s = Ok st /\ draws mt_uint n st = Ok (out, st') /\ length out = n /\
    forall q, 623 * q < n -> nth (623 * q) out 0%N = temper (w32 s).
Proof. exact inc_stream. Qed.
Print Assumptions C53_incremental_repeats_refuted.
