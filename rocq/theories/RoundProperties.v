(** C39 rounding, C40 clamp/lerp/smoothStep/map/isClose, C41 pow10.

    Numbers are rationals with exact arithmetic; a finite float is one (see RoundModel). *)
From Coq Require Import QArith Qabs Qpower Qround Lqa Lia.
From Verif Require Import Base RoundModel RoundSpec RoundProofs.
Local Open Scope Q_scope.

(** * C39 *)

(** "Nearest" mode: for every number of decimals except ±7, the result is a multiple of 10^-dp, no multiple is
    nearer, and a tie goes away from zero.  dp = ±7 is excluded because of the table entry refuted in C41. *)
Theorem C39_round_nearest_partial : forall x dp, dp <> 7%Z -> dp <> (-7)%Z ->
  exists r, round x dp MATH = Ok r /\ nearest_multiple (ten_to (- dp)) x r /\ tie_away (ten_to (- dp)) x r.
Proof. exact round_math_ok. Qed.
Print Assumptions C39_round_nearest_partial.
Example C39_round_nearest_example : round (- (12345 # 1000)) 2 MATH = Ok (- (1235 # 100)).
Proof. vm_compute. reflexivity. Qed.

Theorem C39_round_integer_partial : forall x dp, dp <> 7%Z -> dp <> (-7)%Z ->
  exists r, round_int x dp MATH = Ok r /\ nearest_multiple (ten_to (- dp)) (inject_Z x) (inject_Z r) /\
    tie_away (ten_to (- dp)) (inject_Z x) (inject_Z r) /\ ((0 <= dp)%Z -> r = x).
Proof. exact round_int_ok. Qed.
Print Assumptions C39_round_integer_partial.
Example C39_round_integer_example : round_int (-1250) (-2) MATH = Ok (-1300)%Z.
Proof. vm_compute. reflexivity. Qed.

(** Truncation; DOWN is the same number in the enumeration, so it also goes towards zero. *)
Theorem C39_round_truncate_partial : forall x dp, dp <> 7%Z -> dp <> (-7)%Z ->
  exists r, round x dp TRUNC = Ok r /\ towards_zero (ten_to (- dp)) x r.
Proof. exact round_trunc_ok. Qed.
Print Assumptions C39_round_truncate_partial.
Example C39_round_truncate_example : round (- (17 # 10)) 0 TRUNC = Ok (- 1) /\ DOWN = TRUNC.
Proof. vm_compute. auto. Qed.

(** Half-even is honoured at ties only: any other number is truncated. *)
Theorem C39_round_half_even_partial : forall x dp, dp <> 7%Z -> dp <> (-7)%Z ->
  Qabs x < ten_to (- dp) * inject_Z (2 ^ 64) ->
  exists r, round x dp HALF_EVEN = Ok r /\
    (tie (ten_to (- dp)) x -> nearest_multiple (ten_to (- dp)) x r /\ tie_even (ten_to (- dp)) x r) /\
    (~ tie (ten_to (- dp)) x -> towards_zero (ten_to (- dp)) x r).
Proof. exact round_even_ok. Qed.
Print Assumptions C39_round_half_even_partial.
Example C39_round_half_even_example : round (5 # 2) 0 HALF_EVEN = Ok 2 /\ round (7 # 2) 0 HALF_EVEN = Ok 4.
Proof. vm_compute. auto. Qed.

(** round(1.7, 0, HALF_EVEN) is 1, farther from 1.7 than 2. *)
Theorem C39_round_half_even_refuted :
  round (17 # 10) 0 HALF_EVEN = Ok 1 /\ ~ nearest_multiple (ten_to 0) (17 # 10) 1.
Proof. split. vm_compute. reflexivity. intros [_ N]. specialize (N 2%Z). vm_compute in N. now apply N. Qed.
Print Assumptions C39_round_half_even_refuted.

(** UP never differs from MATH, so it does not round up: round(1.2, 0, UP) is 1. *)
Theorem C39_round_up_refuted :
  (forall x dp, round x dp UP = round x dp MATH) /\
  round (12 # 10) 0 UP = Ok 1 /\ ~ away_from_zero (ten_to 0) (12 # 10) 1 /\ ~ ceil_multiple (ten_to 0) (12 # 10) 1.
Proof.
  split. exact round_up_is_math. split. vm_compute. reflexivity. split.
  - intros (_ & A & _). vm_compute in A. now apply A.
  - intros (_ & A & _). vm_compute in A. now apply A.
Qed.
Print Assumptions C39_round_up_refuted.

(** round(0.12345678, 7) is 0.0123457. *)
Theorem C39_round_seven_decimals_refuted :
  exists r, round (12345678 # 100000000) 7 MATH = Ok r /\ r == 123457 # 10000000 /\
    ~ nearest_multiple (ten_to (-7)) (12345678 # 100000000) r.
Proof.
  eexists. split. vm_compute. reflexivity. split. reflexivity.
  intros [_ N]. specialize (N 1234568%Z). vm_compute in N. now apply N.
Qed.
Print Assumptions C39_round_seven_decimals_refuted.

(** roundTo is right for x >= 0; for x < 0 exactly when |x| rounds up or is already a multiple. *)
Theorem C39_roundTo_partial : forall x v, 0 < v ->
  0 <= x \/ fmod (Qabs x) v == 0 \/ v / (2 # 1) <= fmod (Qabs x) v ->
  nearest_multiple v x (roundTo x v) /\ tie_away v x (roundTo x v).
Proof. exact roundTo_ok. Qed.
Print Assumptions C39_roundTo_partial.
Example C39_roundTo_example : roundTo (73 # 10) (25 # 10) == 75 # 10 /\ roundTo (- (73 # 10)) (25 # 10) == - (75 # 10).
Proof. split; reflexivity. Qed.

(** roundTo(-6., 5.) is -7. *)
Theorem C39_roundTo_negative_refuted : roundTo (- (6 # 1)) (5 # 1) == - (7 # 1) /\ ~ multiple_of (5 # 1) (- (7 # 1)).
Proof. split. reflexivity. intros [k K]. unfold Qeq in K. cbn in K. lia. Qed.
Print Assumptions C39_roundTo_negative_refuted.

Theorem C39_roundTo_integer_partial : forall x v, (0 <= x)%Z -> (0 < v)%Z -> Z.even v = true ->
  (exists k, roundTo_int x v = k * v)%Z /\ forall k, (Z.abs (roundTo_int x v - x) <= Z.abs (k * v - x))%Z.
Proof. exact roundTo_int_ok. Qed.
Print Assumptions C39_roundTo_integer_partial.
Example C39_roundTo_integer_example : roundTo_int 7 4 = 8%Z.
Proof. reflexivity. Qed.

(** With integers the threshold val / 2 is truncated: roundTo(7, 5) is 10 although 5 is nearer. *)
Theorem C39_roundTo_integer_refuted :
  roundTo_int 7 5 = 10%Z /\ (Z.abs (1 * 5 - 7) < Z.abs (10 - 7))%Z.
Proof. split; reflexivity. Qed.
Print Assumptions C39_roundTo_integer_refuted.

Theorem C39_roundUpTo_partial : forall x v, 0 <= x -> 0 < v -> ceil_multiple v x (roundUpTo x v).
Proof. exact roundUpTo_ok. Qed.
Print Assumptions C39_roundUpTo_partial.
Theorem C39_roundUpTo_integer_partial : forall x v, (0 <= x)%Z -> (0 < v)%Z ->
  (exists k, roundUpTo_int x v = k * v)%Z /\ (x <= roundUpTo_int x v)%Z /\
  forall k, (x <= k * v -> roundUpTo_int x v <= k * v)%Z.
Proof. exact roundUpTo_int_ok. Qed.
Print Assumptions C39_roundUpTo_integer_partial.
Example C39_roundUpTo_example : roundUpTo (73 # 10) (25 # 10) == 75 # 10 /\ roundUpTo_int 6 5 = 10%Z.
Proof. split; reflexivity. Qed.

(** For negative numbers it adds one step too many: roundUpTo(-6, 5) is 0 although -5 >= -6. *)
Theorem C39_roundUpTo_negative_refuted :
  roundUpTo_int (-6) 5 = 0%Z /\ roundUpTo (- (6 # 1)) (5 # 1) == 0 /\ ~ ceil_multiple (5 # 1) (- (6 # 1)) 0.
Proof.
  split; [reflexivity|split; [reflexivity|]]. intros (_ & _ & N). specialize (N (-1)%Z).
  assert (L : - (6 # 1) <= inject_Z (-1) * (5 # 1)) by (vm_compute; discriminate).
  apply N in L. vm_compute in L. now apply L.
Qed.
Print Assumptions C39_roundUpTo_negative_refuted.

(** roundSigFig keeps figs significant figures of every non-zero number, provided the two wrong uses of pow10(7)
    are avoided: figs <> 8 and the number is not in [10^7, 10^8].  The loops terminate. *)
Theorem C39_roundSigFig_partial : forall asserts x figs e,
  leading_digit x e -> (0 < figs)%Z -> figs <> 8%Z -> e <> 7%Z -> ~ Qabs x == ten_to 8 ->
  exists N r, (forall fuel, (N <= fuel)%nat -> roundSigFig asserts fuel x figs = Some (Ok r)) /\
    nearest_multiple (ten_to (e - figs + 1)) x r /\ tie_away (ten_to (e - figs + 1)) x r.
Proof. exact roundSigFig_ok. Qed.
Print Assumptions C39_roundSigFig_partial.
Theorem C39_leading_digit_exists : forall x, ~ x == 0 -> exists e, leading_digit x e.
Proof. exact leading_exists. Qed.
Print Assumptions C39_leading_digit_exists.
Example C39_roundSigFig_example :
  leading_digit (- (123456 # 1)) 5 /\ exists r, roundSigFig true 20 (- (123456 # 1)) 3 = Some (Ok r) /\ r == - (123000 # 1).
Proof. split. split; vm_compute; intuition discriminate. eexists. split. vm_compute. reflexivity. reflexivity. Qed.

(** roundSigFig(12345678., 3) is 1230000. *)
Theorem C39_roundSigFig_seven_refuted :
  exists r, roundSigFig true 20 (12345678 # 1) 3 = Some (Ok r) /\ r == 1230000 # 1 /\
    ~ nearest_multiple (ten_to 5) (12345678 # 1) r.
Proof.
  eexists. split. vm_compute. reflexivity. split. reflexivity.
  intros [_ N]. specialize (N 123%Z). vm_compute in N. now apply N.
Qed.
Print Assumptions C39_roundSigFig_seven_refuted.

(** On integers the scaling loop divides integers: roundSigFig(123, 3) is 100. *)
Theorem C39_roundSigFig_integer_refuted : roundSigFig_int 20 123 3 = Some (Ok 100%Z).
Proof. vm_compute. reflexivity. Qed.
Print Assumptions C39_roundSigFig_integer_refuted.

(** * C40 *)
Theorem C40_clamp_partial : forall asserts x lo hi, lo < hi ->
  exists r, clamp asserts x lo hi = Ok r /\ lo <= r <= hi /\ (lo <= x <= hi -> r == x) /\
    (x < lo -> r == lo) /\ (hi < x -> r == hi).
Proof. exact clamp_ok. Qed.
Print Assumptions C40_clamp_partial.
Example C40_clamp_example : clamp true (12 # 1) 0 (10 # 1) = Ok (10 # 1).
Proof. reflexivity. Qed.

(** The documentation promises clamp(5, 10, 0) = 5; it throws, or with assertions off returns 10. *)
Theorem C40_clamp_swapped_refuted :
  clamp true (5 # 1) (10 # 1) 0 = Throw RuntimeError /\ clamp false (5 # 1) (10 # 1) 0 = Ok (10 # 1).
Proof. split; reflexivity. Qed.
Print Assumptions C40_clamp_swapped_refuted.

Theorem C40_lerp : forall t a b, lerp t a b == a + t * (b - a) /\ lerp_mixed t a b == a + t * (b - a).
Proof. intros. split. apply lerp_ok. apply lerp_mixed_ok. Qed.
Print Assumptions C40_lerp.
Example C40_lerp_example : lerp (5 # 2) (1 # 1) (3 # 1) == 6 # 1 /\ lerp (- (1 # 1)) (1 # 1) (3 # 1) == - (1 # 1).
Proof. split; reflexivity. Qed.

Theorem C40_smoothStep : forall asserts lo hi, lo < hi ->
  exists f, (forall t, smoothStep asserts t lo hi = Ok (f t)) /\
    (forall t, t <= lo -> f t == 0) /\ (forall t, hi <= t -> f t == 1) /\
    (forall t, lo <= t <= hi ->
       let x := (t - lo) / (hi - lo) in f t == (6 # 1) * x ^ 5 - (15 # 1) * x ^ 4 + (10 # 1) * x ^ 3) /\
    (forall t1 t2, t1 <= t2 -> f t1 <= f t2).
Proof. exact smoothStep_ok. Qed.
Print Assumptions C40_smoothStep.
Example C40_smoothStep_example : exists r, smoothStep true (3 # 1) (1 # 1) (5 # 1) = Ok r /\ r == 1 # 2.
Proof. eexists. split. vm_compute. reflexivity. reflexivity. Qed.

(** map is the affine function through the end points; it sends the interval into the interval. *)
Theorem C40_map : forall s1 e1 s2 e2, ~ s1 == e1 ->
  qmap s1 s1 e1 s2 e2 == s2 /\ qmap e1 s1 e1 s2 e2 == e2 /\
  (forall x, (s1 < e1 -> s1 <= x <= e1) -> (e1 < s1 -> e1 <= x <= s1) ->
     (s2 <= e2 -> s2 <= qmap x s1 e1 s2 e2 <= e2) /\ (e2 <= s2 -> e2 <= qmap x s1 e1 s2 e2 <= s2)) /\
  (forall x, qmap x s1 e1 s2 e2 == s2 + (x - s1) * ((e2 - s2) / (e1 - s1))).
Proof. exact qmap_ok. Qed.
Print Assumptions C40_map.
Theorem C40_map_integer : forall s1 e1 s2 e2, (s1 < e1)%Z ->
  zmap s1 s1 e1 s2 e2 = s2 /\ zmap e1 s1 e1 s2 e2 = e2 /\
  forall x, (s1 <= x <= e1)%Z -> (s2 <= e2)%Z -> (s2 <= zmap x s1 e1 s2 e2 <= e2)%Z.
Proof.
  intros. destruct (zmap_ok s1 e1 s2 e2 ltac:(lia)). repeat split; auto; now apply zmap_interval.
Qed.
Print Assumptions C40_map_integer.
Example C40_map_example : qmap (3 # 1) (1 # 1) (5 # 1) (10 # 1) (30 # 1) == 20 # 1 /\ zmap 3 1 6 10 30 = 18%Z.
Proof. split; reflexivity. Qed.

Theorem C40_isClose_symmetric : forall a b absTol relTol, isClose a b absTol relTol = isClose b a absTol relTol.
Proof. exact isClose_sym. Qed.
Print Assumptions C40_isClose_symmetric.
Theorem C40_isClose_reflexive : forall a absTol relTol, 0 <= absTol -> isClose a a absTol relTol = true.
Proof. exact isClose_refl. Qed.
Print Assumptions C40_isClose_reflexive.
Theorem C40_isClose_spec : forall a b absTol relTol, 0 <= relTol ->
  (isClose a b absTol relTol = true <->
   (Qabs (a - b) <= absTol \/ Qabs (a - b) <= relTol * Qabs a \/ Qabs (a - b) <= relTol * Qabs b)).
Proof. exact isClose_spec. Qed.
Print Assumptions C40_isClose_spec.
Example C40_isClose_example :
  isClose (1000 # 1) (1001 # 1) (1 # 100) (1 # 100) = true /\ isClose (1 # 1) (2 # 1) (1 # 100) (1 # 100) = false.
Proof. split; reflexivity. Qed.

(** min and max of any argument list return an argument that bounds all the others. *)
Theorem C40_min_max : forall v vs,
  (In (vmin v vs) (v :: vs) /\ forall w, In w (v :: vs) -> vmin v vs <= w) /\
  (In (vmax v vs) (v :: vs) /\ forall w, In w (v :: vs) -> w <= vmax v vs).
Proof. intros. split. apply vmin_ok. apply vmax_ok. Qed.
Print Assumptions C40_min_max.
Example C40_min_max_example : vmin (3 # 1) [1 # 1; 2 # 1] = 1 # 1 /\ vmax (3 # 1) [5 # 1; 2 # 1] = 5 # 1.
Proof. split; reflexivity. Qed.

(** * C41 *)
Theorem C41_pow10_partial : forall e, e <> 7%Z -> pow10 e == ten_to e.
Proof. exact pow10_ok. Qed.
Print Assumptions C41_pow10_partial.
Example C41_pow10_example : pow10 (-9) == 1 # 1000000000 /\ pow10 6 == 1000000 # 1.
Proof. split; reflexivity. Qed.

(** The table's entry for 10^7 is 10^6. *)
Theorem C41_pow10_seven_refuted : pow10 7 == ten_to 6 /\ ~ pow10 7 == ten_to 7.
Proof. split. reflexivity. vm_compute. discriminate. Qed.
Print Assumptions C41_pow10_seven_refuted.
