(** C81-C84: sequences, interpolation, random numbers and complex arithmetic of float and double. *)
From Coq Require Import ZArith Reals List Lia Lra Bool.
From Flocq Require Import Core BinarySingleNaN.
From Verif Require Import Base AccModel AccSpec AccProofs NumModel NumSpec NumBasics NumSequence NumRandom NumInterp NumSmooth NumComplex.
Import ListNotations.
Open Scope R_scope.

Local Notation binary64 := (binary_float 53 1024).
Local Notation dbl := (fint 53 1024 eq_refl eq_refl).
Local Notation "x ./ y" := (fdiv 53 1024 eq_refl eq_refl x y) (at level 40).

(** ** C81 *)
(** linspace: as many elements as asked for; those that did not overflow start with start, are ordered,
    and lie within a few roundings of the exact points. *)
Theorem C81_linspace : forall prec emax (Hp : Prec_gt_0 prec) (Hm : Prec_lt_emax prec emax) asserts (start stop : binary_float prec emax) n (includeEnd : bool),
  let den := (n - (if includeEnd then 1 else 0))%Z in
  (0 < den)%Z -> (n <= 2 ^ prec)%Z ->
  exists l, flinspace prec emax Hp Hm asserts start stop n includeEnd = Ok l /\ length l = Z.to_nat n /\
  (forall i x, nth_error l i = Some x -> is_finite x = true ->
     (i = 0%nat -> B2R x = B2R start) /\
     Rabs (B2R x - evenly (B2R start) (B2R stop) den i)
       <= unit_roundoff prec * Rabs (evenly (B2R start) (B2R stop) den i)
          + 4 * unit_roundoff prec * (Rabs (B2R stop - B2R start) * INR i / IZR den) + 4 * underflow_unit prec emax) /\
  (forall i j x y, (i <= j)%nat -> nth_error l i = Some x -> nth_error l j = Some y -> is_finite x = true -> is_finite y = true ->
     (B2R start <= B2R stop -> B2R x <= B2R y) /\ (B2R stop <= B2R start -> B2R y <= B2R x)).
Proof.
  intros prec emax Hp Hm asserts a b n inc den D L.
  assert (N : (0 < n)%Z) by (unfold den in D; destruct inc; lia).
  assert (DL : (den <= n)%Z) by (unfold den; destruct inc; lia).
  unfold flinspace, ShapeModel.check. replace (0 <? n)%Z with true by (symmetry; apply Z.ltb_lt; lia). rewrite andb_false_r. cbn [bind].
  eexists. split; [reflexivity|]. split; [rewrite map_length, seq_length; reflexivity|]. fold den.
  assert (V : forall i x, nth_error (map (linspace_at prec emax Hp Hm a b (fint prec emax Hp Hm den)) (seq 0 (Z.to_nat n))) i = Some x -> is_finite x = true ->
     B2R x = lin prec emax (B2R a) (B2R b) (IZR den) (INR i)).
  { intros i x E F. rewrite nth_error_map in E. assert (Hi : (i < Z.to_nat n)%nat).
    { destruct (Nat.lt_ge_cases i (Z.to_nat n)) as [|K]; auto. rewrite (proj2 (nth_error_None (seq 0 (Z.to_nat n)) i)) in E by (rewrite seq_length; auto). discriminate E. }
    rewrite (nth_error_nth' _ 0%nat) in E by (rewrite seq_length; auto). rewrite seq_nth in E by auto. cbn in E. inversion E; subst x.
    apply linspace_finite; auto; lia. }
  assert (D1 : 1 <= IZR den) by (apply IZR_le; lia). split.
  - intros i x E F. rewrite (V i x E F). split.
    + intros ->. apply lin_first; auto. apply num_format.
    + apply lin_error; auto; try apply num_format. apply pos_INR.
  - intros i j x y H Ex Ey Fx Fy. rewrite (V i x Ex Fx), (V j y Ey Fy). apply le_INR in H. split; intros K; [apply lin_mono|apply lin_anti]; auto; lra.
Qed.
Print Assumptions C81_linspace.
Example C81_linspace_ex : omap (map B2SF) (flinspace 53 1024 eq_refl eq_refl true (dbl 0) (dbl 1) 5 true)
  = Ok (map B2SF [dbl 0; dbl 1 ./ dbl 4; dbl 1 ./ dbl 2; dbl 3 ./ dbl 4; dbl 1]).
Proof. vm_compute. reflexivity. Qed.

(** No element overflows if (|start| + |stop|) * den stays three binary orders below the limit. *)
Theorem C81_linspace_no_overflow : forall prec emax (Hp : Prec_gt_0 prec) (Hm : Prec_lt_emax prec emax) asserts (start stop : binary_float prec emax) n (includeEnd : bool) l x,
  let den := (n - (if includeEnd then 1 else 0))%Z in
  (3 <= emax)%Z -> (0 < den)%Z -> (n <= 2 ^ prec)%Z -> is_finite start = true -> is_finite stop = true ->
  (Rabs (B2R start) + Rabs (B2R stop)) * IZR den <= bpow radix2 (emax - 3) ->
  flinspace prec emax Hp Hm asserts start stop n includeEnd = Ok l -> In x l -> is_finite x = true.
Proof.
  intros prec emax Hp Hm asserts a b n inc l x den E3 D L Fa Fb B E I.
  unfold flinspace, ShapeModel.check in E. assert (N : (0 < n)%Z) by (unfold den in D; destruct inc; lia).
  replace (0 <? n)%Z with true in E by (symmetry; apply Z.ltb_lt; lia). rewrite andb_false_r in E. cbn [bind] in E. inversion E; subst l.
  apply in_map_iff in I. destruct I as (i & <- & I). apply in_seq in I. fold den.
  assert (DL : (den <= n <= den + 1)%Z) by (unfold den; destruct inc; lia).
  assert (IL : (Z.of_nat i <= den)%Z) by (unfold den; destruct inc; lia).
  apply (linspace_small prec emax Hp Hm a b den i (emax - 3)); auto; try lia.
  unfold Prec_gt_0 in Hp. lia.
Qed.
Print Assumptions C81_linspace_no_overflow.

(** Integers in, integers out: exact whenever the points are integers and nothing exceeds the precision. *)
Theorem C81_linspace_integers : forall prec emax (Hp : Prec_gt_0 prec) (Hm : Prec_lt_emax prec emax) asserts (start stop : binary_float prec emax) n (includeEnd : bool) step,
  let den := (n - (if includeEnd then 1 else 0))%Z in
  (0 < den)%Z -> (n <= 2 ^ prec)%Z -> is_finite start = true -> is_finite stop = true -> integral (B2R start) ->
  B2R stop = B2R start + IZR den * IZR step ->
  Rabs (B2R start) <= bpow radix2 prec -> Rabs (B2R stop) <= bpow radix2 prec -> Rabs (B2R stop - B2R start) * IZR den <= bpow radix2 prec ->
  exists l, flinspace prec emax Hp Hm asserts start stop n includeEnd = Ok l /\
    map B2R l = map (fun i => B2R start + INR i * IZR step) (seq 0 (Z.to_nat n)).
Proof.
  intros prec emax Hp Hm asserts a b n inc s den D L Fa Fb Ia Es Ba Bb Bd. unfold flinspace, ShapeModel.check.
  assert (N : (0 < n)%Z) by (unfold den in D; destruct inc; lia).
  replace (0 <? n)%Z with true by (symmetry; apply Z.ltb_lt; lia). rewrite andb_false_r. cbn [bind].
  eexists. split; [reflexivity|]. rewrite map_map. apply map_ext_in. intros i I. apply in_seq in I. fold den.
  assert (DL : (den <= n)%Z) by (unfold den; destruct inc; lia). assert (IL : (Z.of_nat i <= den)%Z) by (unfold den; destruct inc; lia).
  apply linspace_integers; auto. lia.
Qed.
Print Assumptions C81_linspace_integers.
Example C81_linspace_integers_ex : omap (map B2SF) (flinspace 53 1024 eq_refl eq_refl true (dbl 10) (dbl (-20)) 4 true)
  = Ok (map B2SF [dbl 10; dbl 0; dbl (-10); dbl (-20)]).
Proof. vm_compute. reflexivity. Qed.

(** The last element of linspace(start, stop, n) need not be stop, and may lie beyond it. *)
Theorem C81_linspace_end_refuted : ~ forall (start stop x : binary64) n l,
  is_finite start = true -> is_finite stop = true -> fle 53 1024 start stop = true -> (1 < n)%nat ->
  flinspace 53 1024 eq_refl eq_refl true start stop (Z.of_nat n) true = Ok l -> nth_error l (n - 1) = Some x -> fle 53 1024 x stop = true.
Proof.
  intros H. specialize (H (dbl 0) (dbl 1 ./ dbl 10) (linspace_at 53 1024 eq_refl eq_refl (dbl 0) (dbl 1 ./ dbl 10) (dbl 3) 3) 4%nat _
    ltac:(vm_compute; reflexivity) ltac:(vm_compute; reflexivity) ltac:(vm_compute; reflexivity) ltac:(lia) eq_refl eq_refl).
  vm_compute in H. discriminate H.
Qed.
Print Assumptions C81_linspace_end_refuted.

(** linspace overflows although every exact point is representable: (stop - start) * i is computed first. *)
Theorem C81_linspace_overflow_refuted : ~ forall (start stop x : binary64) n l i,
  is_finite start = true -> is_finite stop = true -> (1 < n)%nat ->
  flinspace 53 1024 eq_refl eq_refl true start stop (Z.of_nat n) true = Ok l -> nth_error l i = Some x -> is_finite x = true.
Proof.
  intros H. specialize (H (dbl 0) (dbl (2 ^ 1023)) (linspace_at 53 1024 eq_refl eq_refl (dbl 0) (dbl (2 ^ 1023)) (dbl 2) 2) 3%nat _ 2%nat
    ltac:(vm_compute; reflexivity) ltac:(vm_compute; reflexivity) ltac:(lia) eq_refl eq_refl).
  vm_compute in H. discriminate H.
Qed.
Print Assumptions C81_linspace_overflow_refuted.

(** linspace(start, stop, 1) is a single NaN. *)
Theorem C81_linspace_one_refuted : ~ forall (start stop : binary64),
  is_finite start = true -> is_finite stop = true ->
  exists x, flinspace 53 1024 eq_refl eq_refl true start stop 1 true = Ok [x] /\ is_nan x = false.
Proof.
  intros H. destruct (H (dbl 0) (dbl 1) ltac:(vm_compute; reflexivity) ltac:(vm_compute; reflexivity)) as (x & E & N).
  apply (f_equal (omap (map B2SF))) in E. vm_compute in E. destruct x; discriminate.
Qed.
Print Assumptions C81_linspace_one_refuted.

(** arange: if it returns, the step is not zero and points from start to stop; the number of elements is
    the exact ratio rounded down, up to the roundings of the ratio; if the number of elements is at most
    a sixteenth of 2^prec, all of them are numbers between start and stop, within a few roundings of the
    exact points, and the first is start. *)
Theorem C81_arange : forall prec emax (Hp : Prec_gt_0 prec) (Hm : Prec_lt_emax prec emax) (start stop step : binary_float prec emax) l,
  (3 <= emax)%Z -> is_finite start = true -> is_finite stop = true -> is_finite step = true ->
  farange prec emax Hp Hm true start stop step = Ok l ->
  let r := (B2R stop - B2R start) / B2R step in
  let u := unit_roundoff prec in
  B2R step <> 0 /\ 0 < r /\ r * (1 - u) ^ 2 - 1 < INR (length l) <= r * (1 + u) ^ 2 /\
  ((16 * Z.of_nat (length l) <= 2 ^ prec)%Z -> forall i x, nth_error l i = Some x ->
     is_finite x = true /\ (i = 0%nat -> B2R x = B2R start) /\ between (B2R start) (B2R stop) (B2R x) /\
     Rabs (B2R x - (B2R start + INR i * B2R step))
       <= u * Rabs (B2R start + INR i * B2R step) + 2 * u * (INR i * Rabs (B2R step)) + 2 * underflow_unit prec emax).
Proof.
  intros prec emax Hp Hm a b s l E3 Fa Fb Fs E r u. destruct (arange_ok prec emax Hp Hm a b s l E3 Fa Fb Fs E) as (N & P & C & Q).
  split; [exact N|]. split; [exact P|]. split; [exact C|]. intros S i x I. destruct (Q S i x I) as (F & V & B). split; [exact F|]. split; [|split; [exact B|]].
  - intros ->. rewrite V. apply ari_first; auto. apply num_format.
  - rewrite V. apply ari_error; auto; [apply num_format|apply pos_INR].
Qed.
Print Assumptions C81_arange.
Example C81_arange_ex : omap (map B2SF) (farange 53 1024 eq_refl eq_refl true (dbl 5) (dbl 1) (dbl (-1))) = Ok (map B2SF [dbl 5; dbl 4; dbl 3; dbl 2]).
Proof. vm_compute. reflexivity. Qed.
Example C81_arange_zero_ex : farange 53 1024 eq_refl eq_refl true (dbl 5) (dbl 1) (dbl 0) = Throw InvalidArgument.
Proof. vm_compute. reflexivity. Qed.

(** The number of elements is not the floor of the exact ratio. *)
Theorem C81_arange_count_refuted : ~ forall (start stop step : binary64) l,
  is_finite start = true -> is_finite stop = true -> is_finite step = true ->
  farange 53 1024 eq_refl eq_refl true start stop step = Ok l ->
  INR (length l) <= (B2R stop - B2R start) / B2R step.
Proof.
  intros H.
  assert (E : exists l, farange 53 1024 eq_refl eq_refl true (dbl 0) (dbl 1) (dbl 1 ./ dbl 10) = Ok l /\ length l = 10%nat).
  { assert (C : omap (@length _) (farange 53 1024 eq_refl eq_refl true (dbl 0) (dbl 1) (dbl 1 ./ dbl 10)) = Ok 10%nat) by (vm_compute; reflexivity).
    destruct (farange 53 1024 eq_refl eq_refl true (dbl 0) (dbl 1) (dbl 1 ./ dbl 10)) as [l|e|]; try discriminate C. exists l. split; auto. inversion C. auto. }
  destruct E as (l & E & L). specialize (H (dbl 0) (dbl 1) (dbl 1 ./ dbl 10) l ltac:(vm_compute; reflexivity) ltac:(vm_compute; reflexivity) ltac:(vm_compute; reflexivity) E). rewrite L in H.
  assert (V0 : B2R (dbl 0) = 0) by reflexivity.
  assert (V1 : B2R (dbl 1) = 1) by (apply (fint_exact 53 1024 eq_refl eq_refl 1); vm_compute; discriminate).
  assert (V2 : / 10 < B2R (dbl 1 ./ dbl 10)).
  { rewrite <- SF2R_B2SF. replace (B2SF (dbl 1 ./ dbl 10)) with (SpecFloat.S754_finite false 7205759403792794 (-56)) by (vm_compute; reflexivity).
    cbn -[IZR bpow]. unfold F2R. cbn [Fnum Fexp]. change (bpow radix2 (-56)) with (/ IZR 72057594037927936). lra. }
  rewrite V0, V1 in H. replace ((1 - 0) / B2R (dbl 1 ./ dbl 10)) with (/ B2R (dbl 1 ./ dbl 10)) in H by (field; lra).
  replace (INR 10) with 10 in H by (cbn; ring). apply Rinv_lt_contravar in V2; [rewrite Rinv_inv in V2; lra|]. apply Rmult_lt_0_compat; lra.
Qed.
Print Assumptions C81_arange_count_refuted.

(** ** C82 *)
(** lerp on t in [0, 1]: exact at both ends, never outside the two values, monotone in t, and accurate,
    provided that upper - lower does not overflow (or the values have signs for which it is not used). *)
Theorem C82_lerp : forall prec emax (Hp : Prec_gt_0 prec) (Hm : Prec_lt_emax prec emax) (t lower upper : binary_float prec emax),
  (3 <= emax)%Z -> is_finite t = true -> is_finite lower = true -> is_finite upper = true -> 0 <= B2R t <= 1 ->
  (Rabs (nearest prec emax (B2R upper - B2R lower)) < bpow radix2 emax \/ (0 <= B2R lower /\ B2R upper <= 0)) ->
  let x := flerp prec emax Hp Hm t lower upper in
  is_finite x = true /\ between (B2R lower) (B2R upper) (B2R x) /\
  (B2R t = 0 -> B2R x = B2R lower) /\ (B2R t = 1 -> B2R x = B2R upper) /\
  Rabs (B2R x - along (B2R t) (B2R lower) (B2R upper))
    <= 3 * unit_roundoff prec * (Rabs (B2R lower) + Rabs (B2R upper)) + 4 * underflow_unit prec emax /\
  (forall t' : binary_float prec emax, is_finite t' = true -> B2R t <= B2R t' <= 1 ->
     (B2R lower <= B2R upper -> B2R x <= B2R (flerp prec emax Hp Hm t' lower upper)) /\
     (B2R upper <= B2R lower -> B2R (flerp prec emax Hp Hm t' lower upper) <= B2R x)).
Proof.
  intros prec emax Hp Hm t lo hi E3 Ft Fl Fh T O x. destruct (lerp_val prec emax Hp Hm t lo hi E3 Ft Fl Fh T O) as (F & V). fold x in F, V.
  pose proof (num_format _ _ t) as Gt. pose proof (num_format _ _ lo) as Gl. pose proof (num_format _ _ hi) as Gh.
  split; [exact F|]. rewrite V. split; [|split; [|split; [|split]]].
  - unfold lerpR. destruct (Rle_dec 0 (B2R lo)); [destruct (Rle_dec (B2R hi) 0)|]; try (apply lerp1_between; auto).
    unfold between. rewrite Rmin_right, Rmax_left by lra. apply lerp2_between; auto.
  - intros ->. unfold lerpR. destruct (Rle_dec 0 (B2R lo)); [destruct (Rle_dec (B2R hi) 0)|]; try (apply lerp1_zero; auto; lra). apply lerp2_ends; auto.
  - intros ->. unfold lerpR. assert (L : lerp1 prec emax 1 (B2R lo) (B2R hi) = B2R hi) by (unfold lerp1; destruct (Req_EM_T 1 1); congruence).
    destruct (Rle_dec 0 (B2R lo)); [destruct (Rle_dec (B2R hi) 0)|]; auto. apply lerp2_ends; auto.
  - unfold lerpR. destruct (Rle_dec 0 (B2R lo)); [destruct (Rle_dec (B2R hi) 0)|]; try (apply lerp1_error; auto). apply lerp2_error; auto.
  - intros t' Ft' T'. destruct (lerp_val prec emax Hp Hm t' lo hi E3 Ft' Fl Fh ltac:(lra) O) as (F' & V'). rewrite V'.
    pose proof (num_format _ _ t') as Gt'. unfold lerpR.
    destruct (Rle_dec 0 (B2R lo)); [destruct (Rle_dec (B2R hi) 0)|]; try (apply lerp1_mono; auto; lra). split; intros K.
    + assert (Z1 : B2R lo = 0) by lra. assert (Z2 : B2R hi = 0) by lra.
      destruct (lerp2_between prec emax Hp (B2R t) (B2R lo) (B2R hi)) as (B1 & B2); auto; try lra.
      destruct (lerp2_between prec emax Hp (B2R t') (B2R lo) (B2R hi)) as (B3 & B4); auto; lra.
    + apply lerp2_anti; auto; lra.
Qed.
Print Assumptions C82_lerp.
Example C82_lerp_ex : B2SF (flerp 53 1024 eq_refl eq_refl (dbl 1 ./ dbl 4) (dbl 2) (dbl 10)) = B2SF (dbl 4) /\
  B2SF (flerp 53 1024 eq_refl eq_refl (dbl 1 ./ dbl 4) (dbl 2) (dbl (-10))) = B2SF (dbl (-1)).
Proof. split; vm_compute; reflexivity. Qed.

Theorem C82_lerp_nan : forall prec emax (Hp : Prec_gt_0 prec) (Hm : Prec_lt_emax prec emax) (t lower upper : binary_float prec emax),
  is_nan t = true \/ is_nan lower = true \/ is_nan upper = true -> is_nan (flerp prec emax Hp Hm t lower upper) = true.
Proof.
  intros prec emax Hp Hm t lo hi H. unfold flerp. replace (is_nan t || is_nan lo || is_nan hi) with true; [reflexivity|].
  destruct H as [-> | [-> | ->]]; rewrite ?orb_true_r; reflexivity.
Qed.
Print Assumptions C82_lerp_nan.

(** Without the condition on upper - lower the result can be wrong by the whole distance:
    half way between -2^1023 and 2^1023 lerp returns 2^1023. *)
Theorem C82_lerp_overflow_refuted : ~ forall (t lower upper : binary64),
  is_finite t = true -> is_finite lower = true -> is_finite upper = true -> 0 <= B2R t <= 1 ->
  Rabs (B2R (flerp 53 1024 eq_refl eq_refl t lower upper) - along (B2R t) (B2R lower) (B2R upper))
    <= 3 * unit_roundoff 53 * (Rabs (B2R lower) + Rabs (B2R upper)) + 4 * underflow_unit 53 1024.
Proof.
  intros H.
  assert (V : forall (y : binary64) m e, B2SF y = SpecFloat.S754_finite false m e -> B2R y = IZR (Zpos m) * bpow radix2 e).
  { intros y m e K. rewrite <- SF2R_B2SF, K. reflexivity. }
  set (t := dbl 1 ./ dbl 2). set (hi := dbl (2 ^ 1023)). set (lo := fneg 53 1024 hi).
  assert (Vt : B2R t = / 2). { rewrite (V t 4503599627370496%positive (-53)%Z) by (vm_compute; reflexivity). change (bpow radix2 (-53)) with (/ IZR 9007199254740992). lra. }
  assert (Vh : B2R hi = bpow radix2 1023).
  { rewrite (V hi 4503599627370496%positive 971%Z) by (vm_compute; reflexivity). change (IZR 4503599627370496) with (bpow radix2 52). rewrite <- bpow_plus. reflexivity. }
  assert (Vl : B2R lo = - bpow radix2 1023) by (unfold lo, fneg; rewrite B2R_Bopp, Vh; reflexivity).
  specialize (H t lo hi ltac:(vm_compute; reflexivity) ltac:(vm_compute; reflexivity) ltac:(vm_compute; reflexivity) ltac:(rewrite Vt; lra)).
  replace (B2R (flerp 53 1024 eq_refl eq_refl t lo hi)) with (B2R hi) in H.
  2:{ assert (Q : B2SF hi = B2SF (flerp 53 1024 eq_refl eq_refl t lo hi)) by (vm_compute; reflexivity). rewrite <- !SF2R_B2SF, Q. reflexivity. }
  unfold along in H. rewrite Vt, Vh, Vl in H. replace (- bpow radix2 1023 + / 2 * (bpow radix2 1023 - - bpow radix2 1023)) with 0 in H by field.
  rewrite Rminus_0_r, Rabs_Ropp in H. assert (B1 : 1 <= bpow radix2 1023) by (change 1 with (bpow radix2 0); apply bpow_le; lia).
  rewrite Rabs_pos_eq in H by lra. set (B := bpow radix2 1023) in *.
  assert (U : unit_roundoff 53 <= / 256) by (unfold unit_roundoff; change (/ 256) with (bpow radix2 (-8)); apply bpow_le; lia).
  assert (E : underflow_unit 53 1024 <= / 256).
  { unfold underflow_unit. assert (bpow radix2 (3 - 1024 - 53) <= bpow radix2 (-8)) by (apply bpow_le; lia). change (bpow radix2 (-8)) with (/ 256) in H0. lra. }
  assert (UB : unit_roundoff 53 * B <= / 256 * B) by (apply Rmult_le_compat_r; lra). lra.
Qed.
Print Assumptions C82_lerp_overflow_refuted.

(** clamp: throws unless lower < upper (when assertions are on); otherwise the nearest value in range;
    NaN stays NaN. *)
Theorem C82_clamp : forall prec emax asserts (x lower upper : binary_float prec emax), is_finite lower = true -> is_finite upper = true ->
  (asserts = true -> ~ B2R lower < B2R upper -> fclamp prec emax asserts x lower upper = Throw RuntimeError) /\
  (B2R lower < B2R upper -> is_finite x = true ->
     exists y, fclamp prec emax asserts x lower upper = Ok y /\ is_finite y = true /\ B2R y = Rmax (B2R lower) (Rmin (B2R x) (B2R upper))) /\
  (B2R lower < B2R upper -> is_nan x = true -> exists y, fclamp prec emax asserts x lower upper = Ok y /\ is_nan y = true) /\
  (B2R lower < B2R upper -> fclamp prec emax asserts (B754_infinity true) lower upper = Ok lower /\
     fclamp prec emax asserts (B754_infinity false) lower upper = Ok upper).
Proof. exact clamp_ok. Qed.
Print Assumptions C82_clamp.
Example C82_clamp_ex : omap B2SF (fclamp 53 1024 true (dbl 7) (dbl 1) (dbl 5)) = Ok (B2SF (dbl 5)).
Proof. vm_compute. reflexivity. Qed.

(** smoothStep: exactly 0 up to the lower edge, exactly 1 from the upper edge on, and within 108 unit
    roundoffs of Perlin's polynomial in between. *)
Theorem C82_smoothStep : forall prec emax (Hp : Prec_gt_0 prec) (Hm : Prec_lt_emax prec emax) asserts (t lower upper : binary_float prec emax),
  (8 <= prec)%Z -> is_finite t = true -> is_finite lower = true -> is_finite upper = true -> B2R lower < B2R upper ->
  nearest prec emax (B2R upper - B2R lower) < bpow radix2 emax ->
  exists r, fsmoothStep prec emax Hp Hm asserts t lower upper = Ok r /\ is_finite r = true /\ 0 <= B2R r /\
    Rabs (B2R r - perlin (unit_clamp (ratio (B2R t) (B2R lower) (B2R upper)))) <= 108 * unit_roundoff prec /\
    (B2R t <= B2R lower -> B2R r = 0) /\ (B2R upper <= B2R t -> B2R r = 1).
Proof. exact smoothStep_ok. Qed.
Print Assumptions C82_smoothStep.
Example C82_smoothStep_ex : omap B2SF (fsmoothStep 53 1024 eq_refl eq_refl true (dbl 1) (dbl 0) (dbl 2)) = Ok (B2SF (dbl 1 ./ dbl 2)).
Proof. vm_compute. reflexivity. Qed.

(** The result is not confined to [0, 1]. *)
Theorem C82_smoothStep_above_one_refuted : ~ forall (t r : binary64),
  is_finite t = true -> fsmoothStep 53 1024 eq_refl eq_refl true t (dbl 0) (dbl 1) = Ok r -> fle 53 1024 r (dbl 1) = true.
Proof.
  intros H. set (t := fsub 53 1024 eq_refl eq_refl (dbl 1) (dbl 1 ./ dbl (2 ^ 53))).
  destruct (fsmoothStep 53 1024 eq_refl eq_refl true t (dbl 0) (dbl 1)) as [r|e|] eqn:E.
  - pose proof (H t r ltac:(vm_compute; reflexivity) E) as K. apply (f_equal (omap (fun x => fle 53 1024 x (dbl 1)))) in E. cbn [omap bind] in E. rewrite K in E.
    vm_compute in E. discriminate E.
  - apply (f_equal (omap B2SF)) in E. vm_compute in E. discriminate E.
  - apply (f_equal (omap B2SF)) in E. vm_compute in E. discriminate E.
Qed.
Print Assumptions C82_smoothStep_above_one_refuted.

(** isClose of finite values, when neither the difference nor the tolerance overflows: true whenever the
    exact difference is within the exact tolerance, and only if it is within three roundings of it;
    symmetric; false on NaN. *)
Theorem C82_isClose : forall prec emax (Hp : Prec_gt_0 prec) (Hm : Prec_lt_emax prec emax) (a b absTol relTol : binary_float prec emax),
  is_finite a = true -> is_finite b = true -> is_finite absTol = true -> is_finite relTol = true ->
  Rabs (nearest prec emax (B2R b - B2R a)) < bpow radix2 emax ->
  Rabs (nearest prec emax (B2R relTol * Rmax (Rabs (B2R a)) (Rabs (B2R b)))) < bpow radix2 emax ->
  let tol := tolerance (B2R a) (B2R b) (B2R absTol) (B2R relTol) in
  (Rabs (B2R b - B2R a) <= tol -> fisClose prec emax Hp Hm a b absTol relTol = true) /\
  (fisClose prec emax Hp Hm a b absTol relTol = true -> 0 <= tol ->
     Rabs (B2R b - B2R a) <= tol * (1 + 3 * unit_roundoff prec) + 2 * underflow_unit prec emax) /\
  fisClose prec emax Hp Hm a b absTol relTol = fisClose prec emax Hp Hm b a absTol relTol.
Proof.
  intros prec emax Hp Hm a b t r Fa Fb Ft Fr D M tol. destruct (isClose_sound prec emax Hp Hm a b t r Fa Fb Ft Fr D M) as (H1 & H2).
  split; [exact H1|]. split; [exact H2|]. apply isClose_sym; auto.
Qed.
Print Assumptions C82_isClose.
Example C82_isClose_ex : fisClose 53 1024 eq_refl eq_refl (dbl 10) (dbl 11) (dbl 1) (dbl 0) = true /\ fisClose 53 1024 eq_refl eq_refl (dbl 10) (dbl 12) (dbl 1) (dbl 0) = false.
Proof. split; vm_compute; reflexivity. Qed.
Theorem C82_isClose_nan : forall prec emax (Hp : Prec_gt_0 prec) (Hm : Prec_lt_emax prec emax) (a b absTol relTol : binary_float prec emax),
  is_nan a = true \/ is_nan b = true -> fisClose prec emax Hp Hm a b absTol relTol = false.
Proof. exact isClose_nan. Qed.
Print Assumptions C82_isClose_nan.
(** isClose(x, x) is false for an infinite x. *)
Theorem C82_isClose_infinite_refuted : ~ forall (x absTol relTol : binary64),
  is_nan x = false -> fle 53 1024 (dbl 0) absTol = true -> fle 53 1024 (dbl 0) relTol = true -> fisClose 53 1024 eq_refl eq_refl x x absTol relTol = true.
Proof. intros H. specialize (H (B754_infinity false) (dbl 1) (dbl 1) eq_refl eq_refl eq_refl). vm_compute in H. discriminate H. Qed.
Print Assumptions C82_isClose_infinite_refuted.

(** ** C83 *)
(** random(lower, upper) from a generated w in [0, 1): a number in the closed interval. *)
Theorem C83_random : forall prec emax (Hp : Prec_gt_0 prec) (Hm : Prec_lt_emax prec emax) (lower upper w : binary_float prec emax),
  (3 <= emax)%Z -> is_finite lower = true -> is_finite upper = true -> is_finite w = true ->
  B2R lower <= B2R upper -> 0 <= B2R w < 1 -> Rabs (nearest prec emax (B2R upper - B2R lower)) < bpow radix2 emax ->
  let x := frandom prec emax Hp Hm lower upper w in
  is_finite x = true /\ B2R lower <= B2R x <= B2R upper.
Proof.
  intros prec emax Hp Hm lo hi w E3 Fl Fh Fw L W O x.
  pose proof (below_one prec emax Hp (B2R w) E3 (num_format _ _ w) ltac:(lra)) as W1.
  destruct (random_ok prec emax Hp Hm lo hi w Fl Fh Fw L ltac:(lra) O) as (F & _ & B). split; [exact F|exact B].
Qed.
Print Assumptions C83_random.
Example C83_random_ex : B2SF (frandom 53 1024 eq_refl eq_refl (dbl (-3)) (dbl 5) (dbl 3 ./ dbl 4)) = B2SF (dbl 3).
Proof. vm_compute. reflexivity. Qed.

(** The upper end itself can be returned. *)
Theorem C83_random_half_open_refuted : ~ forall (lower upper w : binary64),
  is_finite lower = true -> is_finite upper = true -> is_finite w = true ->
  flt 53 1024 lower upper = true -> fle 53 1024 (dbl 0) w = true -> flt 53 1024 w (dbl 1) = true ->
  flt 53 1024 (frandom 53 1024 eq_refl eq_refl lower upper w) upper = true.
Proof.
  intros H. specialize (H (dbl 1) (dbl 2) (fsub 53 1024 eq_refl eq_refl (dbl 1) (dbl 1 ./ dbl (2 ^ 53))) eq_refl eq_refl
    ltac:(vm_compute; reflexivity) eq_refl ltac:(vm_compute; reflexivity) ltac:(vm_compute; reflexivity)).
  vm_compute in H. discriminate H.
Qed.
Print Assumptions C83_random_half_open_refuted.

(** With float bounds (the sum is computed in double from a difference rounded to float) the result can
    exceed the upper bound: random(-2^24, 3). *)
Theorem C83_random_float_refuted : ~ forall (lower upper : binary_float 24 128) (w : binary64),
  is_finite lower = true -> is_finite upper = true -> is_finite w = true ->
  flt 24 128 lower upper = true -> fle 53 1024 (dbl 0) w = true -> flt 53 1024 w (dbl 1) = true ->
  fle 24 128 (frandom_float eq_refl eq_refl eq_refl eq_refl lower upper w) upper = true.
Proof.
  intros H. specialize (H (fint 24 128 eq_refl eq_refl (- 2 ^ 24)) (fint 24 128 eq_refl eq_refl 3)
    (fsub 53 1024 eq_refl eq_refl (dbl 1) (dbl 1 ./ dbl (2 ^ 53))) eq_refl eq_refl
    ltac:(vm_compute; reflexivity) eq_refl ltac:(vm_compute; reflexivity) ltac:(vm_compute; reflexivity)).
  vm_compute in H. discriminate H.
Qed.
Print Assumptions C83_random_float_refuted.

(** randint(0, upper) always lies in its range, for every generated w in [0, 1). *)
Theorem C83_randint_zero : forall prec emax (Hp : Prec_gt_0 prec) (Hm : Prec_lt_emax prec emax) upper (w : binary_float prec emax),
  (0 <= upper)%Z -> (upper + 1 <= 2 ^ prec)%Z -> (prec <= 62)%Z -> (3 <= emax)%Z -> is_finite w = true -> 0 <= B2R w < 1 ->
  exists z, frandint prec emax Hp Hm 0 upper w = Ok z /\ (0 <= z <= upper)%Z.
Proof.
  intros prec emax Hp Hm upper w U1 U2 P E3 F W.
  pose proof (below_one prec emax Hp (B2R w) E3 (num_format _ _ w) ltac:(lra)) as W1. apply randint_zero; auto. lra.
Qed.
Print Assumptions C83_randint_zero.
Example C83_randint_zero_ex : frandint 53 1024 eq_refl eq_refl 0 5 (fsub 53 1024 eq_refl eq_refl (dbl 1) (dbl 1 ./ dbl (2 ^ 53))) = Ok 5%Z.
Proof. vm_compute. reflexivity. Qed.
(** For other lower ends it does if w is not within a few roundings of 1. *)
Theorem C83_randint_partial : forall prec emax (Hp : Prec_gt_0 prec) (Hm : Prec_lt_emax prec emax) lower upper (w : binary_float prec emax),
  (0 <= lower <= upper)%Z -> (upper + 1 <= 2 ^ prec)%Z -> (prec <= 62)%Z -> (3 <= emax)%Z -> is_finite w = true -> 0 <= B2R w ->
  unit_roundoff prec * (IZR (upper + 1 - lower) + IZR (upper + 1)) < (1 - B2R w) * IZR (upper + 1 - lower) ->
  exists z, frandint prec emax Hp Hm lower upper w = Ok z /\ (lower <= z <= upper)%Z.
Proof. exact randint_margin. Qed.
Print Assumptions C83_randint_partial.
Example C83_randint_partial_ex : frandint 53 1024 eq_refl eq_refl 3 9 (dbl 1 ./ dbl 2) = Ok 6%Z.
Proof. vm_compute. reflexivity. Qed.
(** randint(1, 1) can return 2. *)
Theorem C83_randint_refuted : ~ forall lower upper (w : binary64) z,
  (0 <= lower <= upper)%Z -> (upper < 2 ^ 52)%Z -> is_finite w = true -> fle 53 1024 (dbl 0) w = true -> flt 53 1024 w (dbl 1) = true ->
  frandint 53 1024 eq_refl eq_refl lower upper w = Ok z -> (lower <= z <= upper)%Z.
Proof.
  intros H. specialize (H 1%Z 1%Z (fsub 53 1024 eq_refl eq_refl (dbl 1) (dbl 1 ./ dbl (2 ^ 53))) 2%Z ltac:(lia) ltac:(lia)
    ltac:(vm_compute; reflexivity) ltac:(vm_compute; reflexivity) ltac:(vm_compute; reflexivity) ltac:(vm_compute; reflexivity)). lia.
Qed.
Print Assumptions C83_randint_refuted.

(** ** C84 *)
(** Products: each part is within two unit roundoffs of |z| |w| of the exact part; no part overflows if
    |z| |w| is at most a quarter of the limit; the product with the conjugate is real. *)
Theorem C84_mul : forall prec emax (Hp : Prec_gt_0 prec) (Hm : Prec_lt_emax prec emax) (z w : fcomplex prec emax),
  let p := cmul prec emax Hp Hm z w in
  let e := 2 * unit_roundoff prec * (cmodulus z * cmodulus w) + 4 * underflow_unit prec emax in
  (is_finite (fst p) = true -> Rabs (B2R (fst p) - rmul_re z w) <= e) /\
  (is_finite (snd p) = true -> Rabs (B2R (snd p) - rmul_im z w) <= e) /\
  (cfinite z = true -> cfinite w = true -> cmodulus z * cmodulus w <= bpow radix2 (emax - 2) -> cfinite p = true) /\
  (w = (fst z, fneg prec emax (snd z)) -> is_finite (snd p) = true -> B2R (snd p) = 0).
Proof.
  intros prec emax Hp Hm z w p e. split; [apply mul_re|]. split; [apply mul_im|]. split; [apply mul_safe|].
  intros E F. unfold p in *. subst w. destruct z as [a b]. apply mul_conj. exact F.
Qed.
Print Assumptions C84_mul.
Example C84_mul_ex : let p := cmul 53 1024 eq_refl eq_refl (dbl 1, dbl 2) (dbl 3, dbl (-4)) in B2SF (fst p) = B2SF (dbl 11) /\ B2SF (snd p) = B2SF (dbl 2).
Proof. split; vm_compute; reflexivity. Qed.

(** Quotients by a finite w whose larger part is a normal number, at most a quarter of the limit: each
    part is within eight unit roundoffs of |z| / |w| of the exact part, plus what underflow loses; no
    part overflows if the parts of z and |z| / |w| are at most a quarter of the limit. *)
Theorem C84_div : forall prec emax (Hp : Prec_gt_0 prec) (Hm : Prec_lt_emax prec emax) (z w : fcomplex prec emax),
  (8 <= prec)%Z -> cfinite w = true -> divisor w ->
  let q := cdiv prec emax Hp Hm z w in
  let e := 8 * unit_roundoff prec * (cmodulus z / cmodulus w) + (2 / cmodulus w + 1) * underflow_unit prec emax in
  (is_finite (fst q) = true -> Rabs (B2R (fst q) - rdiv_re z w) <= e) /\
  (is_finite (snd q) = true -> Rabs (B2R (snd q) - rdiv_im z w) <= e) /\
  (cfinite z = true -> Rabs (B2R (fst z)) <= bpow radix2 (emax - 2) -> Rabs (B2R (snd z)) <= bpow radix2 (emax - 2) ->
     cmodulus z / cmodulus w <= bpow radix2 (emax - 2) -> cfinite q = true).
Proof.
  intros prec emax Hp Hm z w P F D q e. destruct (div_error prec emax Hp Hm P z w F D) as (H1 & H2).
  split; [exact H1|]. split; [exact H2|]. intros Fz Ba Bb G. apply div_safe; auto.
Qed.
Print Assumptions C84_div.
Example C84_div_ex : let q := cdiv 53 1024 eq_refl eq_refl (dbl 11, dbl 2) (dbl 3, dbl (-4)) in
  B2SF (fst q) = B2SF (dbl 1) /\ B2SF (snd q) = B2SF (dbl 2) /\ divisor (dbl 3, dbl (-4)) /\ cfinite (dbl 3, dbl (-4)) = true.
Proof.
  split; [vm_compute; reflexivity|]. split; [vm_compute; reflexivity|]. split; [|vm_compute; reflexivity]. unfold divisor. cbn [fst snd].
  rewrite (proj2 (fint_exact 53 1024 eq_refl eq_refl 3 ltac:(vm_compute; discriminate))), (proj2 (fint_exact 53 1024 eq_refl eq_refl (-4) ltac:(vm_compute; discriminate))).
  rewrite (Rabs_left (-4)), (Rabs_pos_eq 3), Rmax_right by lra. replace (- -4) with (bpow radix2 2) by (cbn; lra). unfold normal_min. split; apply bpow_le; lia.
Qed.

(** z / z: the real part is exactly 1. *)
Theorem C84_div_self : forall prec emax (Hp : Prec_gt_0 prec) (Hm : Prec_lt_emax prec emax) (z : fcomplex prec emax),
  (8 <= prec)%Z -> cfinite z = true -> divisor z ->
  cfinite (cdiv prec emax Hp Hm z z) = true /\ B2R (fst (cdiv prec emax Hp Hm z z)) = 1.
Proof. intros prec emax Hp Hm z P. apply (div_self prec emax Hp Hm P). Qed.
Print Assumptions C84_div_self.
(** Its imaginary part need not be 0: (49 + i) / (49 + i). *)
Theorem C84_div_self_imag_refuted : ~ forall (z : fcomplex 53 1024), cfinite z = true -> divisor z ->
  feq 53 1024 (snd (cdiv 53 1024 eq_refl eq_refl z z)) (dbl 0) = true.
Proof.
  intros H. specialize (H (dbl 49, dbl 1) ltac:(vm_compute; reflexivity)). assert (D : divisor (dbl 49, dbl 1)).
  { unfold divisor. cbn [fst snd].
    rewrite (proj2 (fint_exact 53 1024 eq_refl eq_refl 49 ltac:(vm_compute; discriminate))), (proj2 (fint_exact 53 1024 eq_refl eq_refl 1 ltac:(vm_compute; discriminate))).
    rewrite (Rabs_pos_eq 49), (Rabs_pos_eq 1), Rmax_left by lra. unfold normal_min. split.
    - apply Rle_trans with (bpow radix2 0); [apply bpow_le; lia|cbn; lra].
    - apply Rle_trans with (bpow radix2 6); [cbn; lra|apply bpow_le; lia]. }
  specialize (H D). vm_compute in H. discriminate H.
Qed.
Print Assumptions C84_div_self_imag_refuted.
(** For a large z even z / z is NaN: the denominator overflows. *)
Theorem C84_div_overflow_refuted : ~ forall (z : fcomplex 53 1024), cfinite z = true -> feq 53 1024 (fst z) (dbl 0) = false ->
  is_nan (fst (cdiv 53 1024 eq_refl eq_refl z z)) = false.
Proof.
  intros H. specialize (H (dbl (2 ^ 1023), dbl (2 ^ 1023)) ltac:(vm_compute; reflexivity) ltac:(vm_compute; reflexivity)). vm_compute in H. discriminate H.
Qed.
Print Assumptions C84_div_overflow_refuted.
(** The error is relative to the modulus, not to each part: the imaginary part of
    2^1023 / (2^677 + 2^-677 i) is about -2^-1008, a normal number, and 0 is computed. *)
Theorem C84_div_part_refuted : ~ forall (z w : fcomplex 53 1024), cfinite z = true -> cfinite w = true -> divisor w ->
  is_finite (snd (cdiv 53 1024 eq_refl eq_refl z w)) = true -> normal_min 1024 <= Rabs (rdiv_im z w) ->
  B2R (snd (cdiv 53 1024 eq_refl eq_refl z w)) <> 0.
Proof.
  intros H.
  assert (V : forall (y : binary64) m e k, B2SF y = SpecFloat.S754_finite false m e -> IZR (Zpos m) = bpow radix2 k -> B2R y = bpow radix2 (k + e)).
  { intros y m e k K E. rewrite <- SF2R_B2SF, K. cbn -[IZR bpow]. unfold F2R. cbn [Fnum Fexp]. rewrite E, <- bpow_plus. reflexivity. }
  set (a := dbl (2 ^ 1023)). set (c := dbl (2 ^ 677)). set (q := dbl 1 ./ dbl (2 ^ 677)).
  assert (Va : B2R a = bpow radix2 1023) by (apply (V a 4503599627370496%positive 971%Z 52%Z); vm_compute; reflexivity).
  assert (Vc : B2R c = bpow radix2 677) by (apply (V c 4503599627370496%positive 625%Z 52%Z); vm_compute; reflexivity).
  assert (Vq : B2R q = bpow radix2 (-677)) by (apply (V q 4503599627370496%positive (-729)%Z 52%Z); vm_compute; reflexivity).
  assert (P : bpow radix2 (-677) <= bpow radix2 677) by (apply bpow_le; lia).
  pose proof (bpow_gt_0 radix2 (-677)) as P1. pose proof (bpow_gt_0 radix2 677) as P2.
  assert (Vz : B2R (dbl 0) = 0) by reflexivity.
  apply (H (a, dbl 0) (c, q)).
  - vm_compute; reflexivity.
  - vm_compute; reflexivity.
  - unfold divisor. cbn [fst snd]. rewrite Vc, Vq, !Rabs_pos_eq, Rmax_left by lra. unfold normal_min. split; apply bpow_le; lia.
  - vm_compute; reflexivity.
  - unfold rdiv_im, quot_im. cbn [fst snd]. rewrite Va, Vc, Vq, Vz, Rmult_0_l, Rminus_0_l. unfold Rdiv. rewrite Rabs_mult, Rabs_Ropp.
    rewrite <- bpow_plus, (Rabs_pos_eq (bpow radix2 _)) by apply bpow_ge_0. cbn [pow]. rewrite !Rmult_1_r, <- !bpow_plus.
    assert (Q : bpow radix2 (-677 + -677) <= bpow radix2 (677 + 677)) by (apply bpow_le; lia).
    pose proof (bpow_gt_0 radix2 (-677 + -677)) as Q1. pose proof (bpow_gt_0 radix2 (677 + 677)) as Q2.
    rewrite Rabs_pos_eq by (left; apply Rinv_0_lt_compat; lra).
    apply Rmult_le_reg_r with (bpow radix2 (677 + 677) + bpow radix2 (-677 + -677)); [lra|]. rewrite Rmult_assoc, Rinv_l, Rmult_1_r by lra.
    unfold normal_min. apply Rle_trans with (bpow radix2 (2 - 1024) * bpow radix2 (1 + (677 + 677))).
    + apply Rmult_le_compat_l; [apply bpow_ge_0|]. rewrite (bpow_plus radix2 1). change (bpow radix2 1) with 2. lra.
    + rewrite <- bpow_plus. apply bpow_le. lia.
  - rewrite <- SF2R_B2SF. replace (B2SF (snd (cdiv 53 1024 eq_refl eq_refl (a, dbl 0) (c, q)))) with (SpecFloat.S754_zero false) by (vm_compute; reflexivity). reflexivity.
Qed.
Print Assumptions C84_div_part_refuted.
(** Any division by zero is NaN + NaN i. *)
Theorem C84_div_zero : forall prec emax (Hp : Prec_gt_0 prec) (Hm : Prec_lt_emax prec emax) (z : fcomplex prec emax) s1 s2,
  cdiv prec emax Hp Hm z (B754_zero s1, B754_zero s2) = (B754_nan, B754_nan).
Proof. exact div_zero. Qed.
Print Assumptions C84_div_zero.
