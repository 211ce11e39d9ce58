(** C110: exponential, sines, cosines and polar coordinates of complex numbers over float and double. *)
From Coq Require Import ZArith Reals Lia Lra Bool.
From Flocq Require Import Core BinarySingleNaN.
From Verif Require Import AccModel AccSpec AccProofs NumModel NumBasics NrmModel NrmFloat CsqModel CsqFinal TnhProofs TnhFinal SigExp CfunProofs CexModel CexSpec CexProofs.
From Coq Require Import ZifyNat ZifyN ZifyBool.
Ltac Zify.zify_post_hook ::= idtac.
Local Open Scope R_scope.

Local Notation num64 := (binary_float 53 1024).
Local Notation dbl := (fint 53 1024 eq_refl eq_refl).
Local Notation rounded f := (fun x : num64 => rounded_number 53 1024 eq_refl eq_refl (f (B2R x))).
Local Notation inf := (@B754_infinity 53 1024 false).

(** Functions as accurate as the theorems below ask for exist: every real function, rounded; sines and cosines stay in [-1, 1]. *)
Theorem C110_library : forall prec emax (Hp : Prec_gt_0 prec) (Hm : Prec_lt_emax prec emax) (f : R -> R), (0 < emax)%Z ->
  exists lib, accurate prec emax (unit_roundoff prec) (underflow_unit prec emax) f lib /\
    ((forall x, Rabs (f x) <= 1) -> bounded prec emax lib).
Proof.
  intros prec emax Hp Hm f E. exists (fun x => rounded_number prec emax Hp Hm (f (B2R x))).
  split; [now apply rounded_accurate|intros B; now apply rounded_bounded].
Qed.
Print Assumptions C110_library.
Example C110_library_ex : accurate 53 1024 (unit_roundoff 53) (underflow_unit 53 1024) exp (rounded exp) /\
  bounded 53 1024 (rounded sin) /\ bounded 53 1024 (rounded cos).
Proof.
  split; [apply rounded_accurate|split; apply rounded_bounded; try lia; intros x; apply Rabs_le; [apply SIN_bound|apply COS_bound]].
Qed.

(** Every finite argument: each part of the exponential that does not overflow is e^x cos y and e^x sin y, up to the errors of
    the two real functions and one rounding.  [h] is the absolute error of the real exponential, [h'] that of sine and cosine. *)
Theorem C110_exp : forall prec emax (Hp : Prec_gt_0 prec) (Hm : Prec_lt_emax prec emax) libExp libSin libCos d h h' (x y : binary_float prec emax),
  0 <= d -> 0 <= h -> 0 <= h' -> accurate prec emax d h exp libExp -> accurate prec emax d h' sin libSin -> accurate prec emax d h' cos libCos ->
  is_finite x = true -> is_finite y = true ->
  let z := fcexp prec emax Hp Hm libExp libSin libCos x y in
  product_of prec emax d h h' (fst z) (exp (B2R x)) (cos (B2R y)) /\
  product_of prec emax d h h' (snd z) (exp (B2R x)) (sin (B2R y)).
Proof.
  intros prec emax Hp Hm libExp libSin libCos d h h' x y D H H' AE AS AC FX FY. cbv zeta. rewrite exp_finite_eq by exact FX. cbn [fst snd].
  split; now apply product_ok.
Qed.
Print Assumptions C110_exp.
Example C110_exp_ex : let z := fcexp 53 1024 eq_refl eq_refl (rounded exp) (rounded sin) (rounded cos) (dbl 1) (dbl 2) in
  is_finite (fst z) = true /\ is_finite (snd z) = true.
Proof.
  cbv zeta. assert (F : is_finite (rounded exp (dbl 1)) = true).
  { apply (rounded_value 53 1024 eq_refl eq_refl). apply (rn_small 53 1024 eq_refl _ 2); try lia.
    rewrite (proj2 (fint_exact 53 1024 eq_refl eq_refl 1 ltac:(lia))). rewrite Rabs_pos_eq by (left; apply exp_pos). pose proof exp_le_3. cbn. lra. }
  destruct C110_library_ex as (_ & S & C).
  destruct (exp_bounded 53 1024 eq_refl eq_refl (rounded exp) (rounded sin) (rounded cos) (dbl 1) (dbl 2) eq_refl eq_refl F S C) as (A & B & _). auto.
Qed.

(** The same for the hyperbolic functions *)
Theorem C110_hyperbolic : forall prec emax (Hp : Prec_gt_0 prec) (Hm : Prec_lt_emax prec emax) libSin libCos libSinh libCosh d h h' (x y : binary_float prec emax),
  0 <= d -> 0 <= h -> 0 <= h' -> accurate prec emax d h sinh libSinh -> accurate prec emax d h cosh libCosh ->
  accurate prec emax d h' sin libSin -> accurate prec emax d h' cos libCos -> is_finite x = true -> is_finite y = true ->
  let s := fcsinh prec emax Hp Hm libSin libCos libSinh libCosh x y in
  let c := fccosh prec emax Hp Hm libSin libCos libSinh libCosh x y in
  product_of prec emax d h h' (fst s) (sinh (B2R x)) (cos (B2R y)) /\
  product_of prec emax d h h' (snd s) (cosh (B2R x)) (sin (B2R y)) /\
  product_of prec emax d h h' (fst c) (cosh (B2R x)) (cos (B2R y)) /\
  product_of prec emax d h h' (snd c) (sinh (B2R x)) (sin (B2R y)).
Proof. intros. cbv zeta. repeat split; now apply product_ok. Qed.
Print Assumptions C110_hyperbolic.
Example C110_hyperbolic_ex : let libs := fcsinh 53 1024 eq_refl eq_refl (fun x => x) (fun _ => dbl 1) (fun x => x) (fun _ => dbl 1) in
  B2SF (fst (libs (dbl 0) (dbl 0))) = B2SF (dbl 0) /\ is_finite (snd (libs (dbl 0) (dbl 0))) = true.
Proof. split; vm_compute; reflexivity. Qed.

(** and for sine and cosine: sin (x + yi) = sin x cosh y + i cos x sinh y, cos (x + yi) = cos x cosh y - i sin x sinh y. *)
Theorem C110_trigonometric : forall prec emax (Hp : Prec_gt_0 prec) (Hm : Prec_lt_emax prec emax) libSin libCos libSinh libCosh d h h' (x y : binary_float prec emax),
  0 <= d -> 0 <= h -> 0 <= h' -> accurate prec emax d h sinh libSinh -> accurate prec emax d h cosh libCosh ->
  accurate prec emax d h' sin libSin -> accurate prec emax d h' cos libCos -> is_finite x = true -> is_finite y = true ->
  let s := fcsin prec emax Hp Hm libSin libCos libSinh libCosh x y in
  let c := fccos prec emax Hp Hm libSin libCos libSinh libCosh x y in
  product_of prec emax d h h' (fst s) (cosh (B2R y)) (sin (B2R x)) /\
  product_of prec emax d h h' (snd s) (sinh (B2R y)) (cos (B2R x)) /\
  product_of prec emax d h h' (fst c) (cosh (B2R y)) (cos (B2R x)) /\
  product_of prec emax d h h' (snd c) (- sinh (B2R y)) (sin (B2R x)).
Proof.
  intros prec emax Hp Hm libSin libCos libSinh libCosh d h h' x y D H H' ASH ACH AS AC FX FY. cbv zeta.
  split; [|split; [|split]]; try now apply product_ok. cbn [fccos snd].
  apply (product_ok prec emax Hp Hm d h h' (fun v => - sinh v) sin (fun v => Bopp (libSinh v)) libSin y x); auto.
  intros v FV F. rewrite is_finite_Bopp in F. rewrite B2R_Bopp, Rabs_Ropp. replace (- B2R (libSinh v) - - sinh (B2R v)) with (- (B2R (libSinh v) - sinh (B2R v))) by ring.
  rewrite Rabs_Ropp. now apply ASH.
Qed.
Print Assumptions C110_trigonometric.
Example C110_trigonometric_ex : let c := fccos 53 1024 eq_refl eq_refl (fun x => x) (fun _ => dbl 1) (fun x => x) (fun _ => dbl 1) (dbl 0) (dbl 0) in
  B2SF (fst c) = B2SF (dbl 1) /\ is_finite (snd c) = true.
Proof. split; vm_compute; reflexivity. Qed.

(** polar (rho, theta) for finite rho other than 0 *)
Theorem C110_polar : forall prec emax (Hp : Prec_gt_0 prec) (Hm : Prec_lt_emax prec emax) libSin libCos d h (rho theta : binary_float prec emax),
  0 <= d -> 0 <= h -> accurate prec emax d h sin libSin -> accurate prec emax d h cos libCos ->
  is_finite rho = true -> is_finite theta = true ->
  let z := fpolar prec emax Hp Hm libSin libCos rho theta in
  product_of prec emax d 0 h (fst z) (B2R rho) (cos (B2R theta)) /\
  product_of prec emax d 0 h (snd z) (B2R rho) (sin (B2R theta)).
Proof.
  intros prec emax Hp Hm libSin libCos d h rho theta D H AS AC FR FT. cbv zeta.
  assert (P : forall (lib : binary_float prec emax -> binary_float prec emax) g, accurate prec emax d h g lib ->
    product_of prec emax d 0 h (fmul prec emax Hp Hm rho (lib theta)) (B2R rho) (g (B2R theta))).
  { intros lib g A. apply (product_ok prec emax Hp Hm d 0 h (fun v => v) g (fun v => v) lib rho theta); auto; [lra|].
    intros v _ _. rewrite Rminus_diag_eq, Rabs_R0 by reflexivity. pose proof (Rmult_le_pos _ _ D (Rabs_pos (B2R v))). lra. }
  pose proof (finite_branch prec emax rho FR) as FB. unfold fpolar. rewrite FB. cbn [andb].
  destruct (feq prec emax rho (fzero prec emax)) eqn:Z; cbn [negb]; [|split; apply P; assumption].
  assert (Z0 : exists s, rho = B754_zero s) by (destruct rho as [s|s| |s m e He]; try discriminate FR; [eexists; reflexivity|destruct s; discriminate Z]).
  assert (PE : forall c, 0 <= product_error prec emax d 0 h 0 c).
  { intros c. unfold product_error. rewrite Rabs_R0, Rmult_0_r, Rplus_0_l, !Rmult_0_l, Rmult_0_r. pose proof (eta_pos prec emax). lra. }
  assert (G : forall r c, (is_finite r = true -> B2R r = 0) -> product_of prec emax d 0 h r 0 c).
  { intros r c E F. rewrite (E F), Rmult_0_l, Rminus_0_r, Rabs_R0. apply PE. }
  assert (M : forall s (c : binary_float prec emax), is_finite (fmul prec emax Hp Hm (B754_zero s) c) = true -> B2R (fmul prec emax Hp Hm (B754_zero s) c) = 0).
  { intros s c F. destruct c; try discriminate F; reflexivity. }
  assert (V : forall t, t = B754_zero false -> let z := polar_special prec emax Hp Hm libSin libCos t theta in
    (is_finite (fst z) = true -> B2R (fst z) = 0) /\ (is_finite (snd z) = true -> B2R (snd z) = 0)).
  { intros t -> . unfold polar_special. destruct (is_nan theta || fisInf prec emax theta) eqn:N.
    - destruct theta; try discriminate FT; discriminate N.
    - destruct (feq prec emax theta (fzero prec emax)) eqn:T; cbn [fst snd]; [|split; apply M]. split; intros _; [reflexivity|].
      destruct theta as [s|s| |s m e He]; try discriminate FT; [reflexivity|destruct s; discriminate T]. }
  destruct Z0 as (s & ->). cbn [B2R Bsign]. destruct s.
  - change (Bopp (B754_zero true)) with (@B754_zero prec emax false). destruct (V _ eq_refl) as (V1 & V2). cbv zeta. cbn [fst snd].
    split; apply G; rewrite is_finite_Bopp, B2R_Bopp; intros F; [rewrite (V1 F)|rewrite (V2 F)]; lra.
  - destruct (V _ eq_refl) as (V1 & V2). split; apply G; assumption.
Qed.
Print Assumptions C110_polar.
Example C110_polar_ex : let z := fpolar 53 1024 eq_refl eq_refl (fun x => x) (fun _ => dbl 1) (dbl 7) (dbl 0) in
  B2SF (fst z) = B2SF (dbl 7) /\ B2SF (snd z) = B2SF (dbl 0).
Proof. split; vm_compute; reflexivity. Qed.

(** The bound in the usual form, for real functions accurate to two units in the last place *)
Theorem C110_bound : forall prec emax d h a b, (5 <= prec)%Z -> 0 <= d <= 4 * unit_roundoff prec -> 0 <= h <= underflow_unit prec emax ->
  (h = 0 \/ Rabs b <= 1) ->
  product_error prec emax d h 0 a b <= 10 * unit_roundoff prec * Rabs (a * b) + 3 * underflow_unit prec emax.
Proof. intros. now apply bound_ok. Qed.
Print Assumptions C110_bound.
Example C110_bound_ex : 0 <= 0 <= 4 * unit_roundoff 53 /\ 0 <= underflow_unit 53 1024 <= underflow_unit 53 1024.
Proof. pose proof (u_pos 53). pose proof (eta_pos 53 1024). lra. Qed.

(** Where the real exponential does not overflow, the complex one does not either. *)
Theorem C110_exp_finite : forall prec emax (Hp : Prec_gt_0 prec) (Hm : Prec_lt_emax prec emax) libExp libSin libCos (x y : binary_float prec emax),
  bounded prec emax libSin -> bounded prec emax libCos -> is_finite x = true -> is_finite y = true -> is_finite (libExp x) = true ->
  let z := fcexp prec emax Hp Hm libExp libSin libCos x y in is_finite (fst z) = true /\ is_finite (snd z) = true.
Proof. intros prec emax Hp Hm libExp libSin libCos x y BS BC FX FY FE. cbv zeta. destruct (exp_bounded prec emax Hp Hm libExp libSin libCos x y FX FY FE BS BC) as (A & B & _). auto. Qed.
Print Assumptions C110_exp_finite.
Example C110_exp_finite_ex : bounded 53 1024 (rounded sin) /\ is_finite (dbl 709) = true.
Proof. split; [apply C110_library_ex|reflexivity]. Qed.

(** Conjugating or negating the argument, infinities and signs of zeros included *)
Theorem C110_symmetric : forall prec emax (Hp : Prec_gt_0 prec) (Hm : Prec_lt_emax prec emax) libExp libSin libCos libSinh libCosh (x y : binary_float prec emax),
  odd prec emax libSin -> even prec emax libCos -> odd prec emax libSinh -> even prec emax libCosh ->
  (is_nan y = false -> fcexp prec emax Hp Hm libExp libSin libCos x (Bopp y) = cconj prec emax (fcexp prec emax Hp Hm libExp libSin libCos x y)) /\
  (is_nan y = false -> fpolar prec emax Hp Hm libSin libCos x (Bopp y) = cconj prec emax (fpolar prec emax Hp Hm libSin libCos x y)) /\
  (is_nan x = false -> fpolar prec emax Hp Hm libSin libCos (Bopp x) y = cneg prec emax (fpolar prec emax Hp Hm libSin libCos x y)) /\
  let sn := fcsin prec emax Hp Hm libSin libCos libSinh libCosh in let cs := fccos prec emax Hp Hm libSin libCos libSinh libCosh in
  let sh := fcsinh prec emax Hp Hm libSin libCos libSinh libCosh in let ch := fccosh prec emax Hp Hm libSin libCos libSinh libCosh in
  (sn x (Bopp y) = cconj prec emax (sn x y) /\ cs x (Bopp y) = cconj prec emax (cs x y) /\
   sh x (Bopp y) = cconj prec emax (sh x y) /\ ch x (Bopp y) = cconj prec emax (ch x y)) /\
  (sn (Bopp x) (Bopp y) = cneg prec emax (sn x y) /\ cs (Bopp x) (Bopp y) = cs x y /\
   sh (Bopp x) (Bopp y) = cneg prec emax (sh x y) /\ ch (Bopp x) (Bopp y) = ch x y) /\
  (* sin (iz) = i sinh z, cos (iz) = cosh z *)
  (sn (Bopp y) x = (let z := sh x y in (Bopp (snd z), fst z)) /\ cs (Bopp y) x = ch x y).
Proof.
  intros prec emax Hp Hm libExp libSin libCos libSinh libCosh x y OS EC OSH ECH.
  split; [intros N; now apply exp_conj|]. split; [intros N; now apply polar_conj|]. split; [intros N; now apply polar_opp|]. cbv zeta.
  unfold odd, even in *. unfold fcsin, fccos, fcsinh, fccosh, cconj, cneg. cbn [fst snd]. rewrite !OS, !EC, !OSH, !ECH, !mul_opp_r, !mul_opp_l, !opp_opp.
  repeat split.
Qed.
Print Assumptions C110_symmetric.
Example C110_symmetric_ex : odd 53 1024 (fun x => x) /\ even 53 1024 (fun _ => dbl 1) /\ is_nan (dbl 3) = false.
Proof. repeat split. Qed.

(** Infinite and undefined arguments of exp, as Annex G of the C standard has them *)
Theorem C110_special : forall prec emax (Hp : Prec_gt_0 prec) (Hm : Prec_lt_emax prec emax) libExp libSin libCos (y : binary_float prec emax),
  bounded prec emax libSin -> bounded prec emax libCos ->
  (forall v, is_finite v = false -> libSin v = B754_nan /\ libCos v = B754_nan) ->
  let e := fcexp prec emax Hp Hm libExp libSin libCos in
  (* minus infinity: zero for every imaginary part *)
  (is_zero prec emax (fst (e (B754_infinity true) y)) /\ is_zero prec emax (snd (e (B754_infinity true) y))) /\
  (* plus infinity *)
  (forall s, e (B754_infinity false) (B754_zero s) = (B754_infinity false, B754_zero s)) /\
  (is_finite y = true -> B2R y <> 0 -> B2R (libCos y) <> 0 -> B2R (libSin y) <> 0 ->
   e (B754_infinity false) y = (B754_infinity (Bsign (libCos y)), B754_infinity (Bsign (libSin y)))) /\
  (is_finite y = false -> e (B754_infinity false) y = (B754_infinity false, B754_nan)) /\
  (* NaN *)
  (forall s, e B754_nan (B754_zero s) = (B754_nan, B754_zero s)) /\
  (is_finite y = true -> B2R y <> 0 -> e B754_nan y = (B754_nan, B754_nan)) /\
  (is_finite y = false -> e B754_nan y = (B754_nan, B754_nan)) /\
  (* finite real part, infinite or undefined imaginary part *)
  (forall x, is_finite x = true -> is_finite y = false -> e x y = (B754_nan, B754_nan)).
Proof.
  intros prec emax Hp Hm libExp libSin libCos y BS BC NF. cbv zeta.
  assert (INF : forall v : binary_float prec emax, is_finite v = true -> B2R v <> 0 -> fmul prec emax Hp Hm (B754_infinity false) v = B754_infinity (Bsign v)).
  { intros v F N. destruct v as [s|s| |s m e He]; try discriminate F; [cbn in N; lra|]. now destruct s. }
  assert (NAN : forall v : binary_float prec emax, fmul prec emax Hp Hm v B754_nan = B754_nan) by (intros v; destruct v; reflexivity).
  split; [|split; [|split; [|split; [|split; [|split; [|split]]]]]].
  - unfold fcexp. cbn [is_nan fisInf negb andb flt]. change (flt prec emax (B754_infinity true) (fzero prec emax)) with true. cbv iota.
    unfold polar_special. destruct (is_nan y || fisInf prec emax y) eqn:N.
    + cbn [fisInf fst snd]. split; [eexists; reflexivity|]. unfold fcopySign. destruct (Bool.eqb _ _); eexists; reflexivity.
    + assert (F : is_finite y = true) by (destruct y; try discriminate N; reflexivity).
      destruct (feq prec emax y (fzero prec emax)) eqn:Z; cbn [fst snd].
      * split; [eexists; reflexivity|]. destruct y as [s|s| |s m e He]; try discriminate F; [eexists; reflexivity|destruct s; discriminate Z].
      * split; apply (zero_mul prec emax Hp Hm); [apply BC, F|apply BS, F].
  - intros s. reflexivity.
  - intros F N C S. unfold fcexp, polar_special. cbn [is_nan fisInf negb andb]. change (flt prec emax (B754_infinity false) (fzero prec emax)) with false. cbv iota.
    assert (NI : is_nan y || fisInf prec emax y = false) by (destruct y; try discriminate F; reflexivity). rewrite NI.
    assert (NZ : feq prec emax y (fzero prec emax) = false) by (destruct y as [s|s| |s m e He]; try discriminate F; [cbn in N; lra|destruct s; reflexivity]). rewrite NZ.
    rewrite !INF; auto; [apply BS, F|apply BC, F].
  - intros F. unfold fcexp, polar_special. cbn [is_nan fisInf negb andb]. change (flt prec emax (B754_infinity false) (fzero prec emax)) with false. cbv iota.
    assert (NI : is_nan y || fisInf prec emax y = true) by (destruct y; try discriminate F; reflexivity). rewrite NI. cbv iota. now rewrite (proj1 (NF y F)).
  - intros s. reflexivity.
  - intros F N. unfold fcexp, polar_special. cbn [is_nan fisInf negb andb vabs]. change (vabs prec emax B754_nan) with (@B754_nan prec emax).
    assert (NI : is_nan y || fisInf prec emax y = false) by (destruct y; try discriminate F; reflexivity). rewrite NI.
    assert (NZ : feq prec emax y (fzero prec emax) = false) by (destruct y as [s|s| |s m e He]; try discriminate F; [cbn in N; lra|destruct s; reflexivity]). rewrite NZ. reflexivity.
  - intros F. unfold fcexp, polar_special. cbn [is_nan fisInf negb andb]. change (vabs prec emax B754_nan) with (@B754_nan prec emax).
    assert (NI : is_nan y || fisInf prec emax y = true) by (destruct y; try discriminate F; reflexivity). rewrite NI. cbn [fisInf]. unfold fcopySign. now destruct (Bool.eqb _ _).
  - intros x FX F. rewrite exp_finite_eq by exact FX. destruct (NF y F) as (-> & ->). now rewrite !NAN.
Qed.
Print Assumptions C110_special.
Example C110_special_ex : exists libSin libCos, bounded 53 1024 libSin /\ bounded 53 1024 libCos /\
  (forall v, is_finite v = false -> libSin v = B754_nan /\ libCos v = B754_nan) /\ B2R (libCos (dbl 1)) <> 0 /\ B2R (libSin (dbl 1)) <> 0.
Proof.
  exists (fun v => if is_finite v then dbl 1 else B754_nan), (fun v => if is_finite v then dbl 1 else B754_nan).
  assert (B : bounded 53 1024 (fun v => if is_finite v then dbl 1 else B754_nan)).
  { intros v ->. split; [reflexivity|]. rewrite (proj2 (fint_exact 53 1024 eq_refl eq_refl 1 ltac:(lia))), Rabs_pos_eq; lra. }
  repeat split; try apply B; try (intros; now rewrite H); change (is_finite (dbl 1)) with true; cbv iota;
    rewrite (proj2 (fint_exact 53 1024 eq_refl eq_refl 1 ltac:(lia))); lra.
Qed.

(** Real arguments give the value of the real function and a zero, unless the real function overflows.  Missing: that case. *)
Theorem C110_real_axis_partial : forall prec emax (Hp : Prec_gt_0 prec) (Hm : Prec_lt_emax prec emax) libExp libSin libCos libSinh libCosh (x : binary_float prec emax) s,
  sine_at_zero prec emax libSin -> one_at_zero prec emax libCos -> sine_at_zero prec emax libSinh -> one_at_zero prec emax libCosh ->
  is_finite x = true ->
  let zero := B754_zero s in
  (is_finite (libExp x) = true ->
   let e := fcexp prec emax Hp Hm libExp libSin libCos x zero in fst e = libExp x /\ is_zero prec emax (snd e)) /\
  (is_finite (libSinh x) = true -> is_finite (libCosh x) = true ->
   let sh := fcsinh prec emax Hp Hm libSin libCos libSinh libCosh x zero in let ch := fccosh prec emax Hp Hm libSin libCos libSinh libCosh x zero in
   fst sh = libSinh x /\ is_zero prec emax (snd sh) /\ fst ch = libCosh x /\ is_zero prec emax (snd ch)) /\
  (is_finite (libSin x) = true -> is_finite (libCos x) = true ->
   let sn := fcsin prec emax Hp Hm libSin libCos libSinh libCosh x zero in let cs := fccos prec emax Hp Hm libSin libCos libSinh libCosh x zero in
   fst sn = libSin x /\ is_zero prec emax (snd sn) /\ fst cs = libCos x /\ is_zero prec emax (snd cs)).
Proof.
  intros prec emax Hp Hm libExp libSin libCos libSinh libCosh x s S0 C0 SH0 CH0 FX. cbv zeta. rewrite exp_finite_eq by exact FX.
  unfold fcsin, fccos, fcsinh, fccosh. cbn [fst snd]. rewrite (S0 s), (SH0 s), (is_one prec emax Hp Hm _ (proj1 (C0 s)) (proj2 (C0 s))), (is_one prec emax Hp Hm _ (proj1 (CH0 s)) (proj2 (CH0 s))).
  rewrite !mul_one, !one_mul. change (Bopp (B754_zero s)) with (@B754_zero prec emax (negb s)).
  split; [|split]; intros; repeat split; now apply (zero_mul prec emax Hp Hm).
Qed.
Print Assumptions C110_real_axis_partial.
Example C110_real_axis_ex : sine_at_zero 53 1024 (fun x => x) /\ one_at_zero 53 1024 (fun _ => dbl 1).
Proof. split; [intros s; reflexivity|intros s; split; [reflexivity|apply (fint_exact 53 1024 eq_refl eq_refl 1); lia]]. Qed.

(** When it overflows the other part is NaN, not zero: exp, sinh, cosh on the real axis, sin and cos on the imaginary axis, at
    finite arguments as well as at infinity (Annex G asks for infinity and zero). *)
Theorem C110_real_axis_refuted : forall prec emax (Hp : Prec_gt_0 prec) (Hm : Prec_lt_emax prec emax) libExp libSin libCos libSinh libCosh
    (x : binary_float prec emax),
  sine_at_zero prec emax libSin -> one_at_zero prec emax libCos ->
  libSinh x = B754_infinity false -> libCosh x = B754_infinity false ->
  let zero := B754_zero false in
  (is_finite x = true -> libExp x = B754_infinity false -> fcexp prec emax Hp Hm libExp libSin libCos x zero = (B754_infinity false, B754_nan)) /\
  fcsinh prec emax Hp Hm libSin libCos libSinh libCosh x zero = (B754_infinity false, B754_nan) /\
  fccosh prec emax Hp Hm libSin libCos libSinh libCosh x zero = (B754_infinity false, B754_nan) /\
  fcsin prec emax Hp Hm libSin libCos libSinh libCosh zero x = (B754_nan, B754_infinity false) /\
  fccos prec emax Hp Hm libSin libCos libSinh libCosh zero x = (B754_infinity false, B754_nan).
Proof.
  intros prec emax Hp Hm libExp libSin libCos libSinh libCosh x S0 C0 SI CI. cbv zeta.
  pose proof (is_one prec emax Hp Hm _ (proj1 (C0 false)) (proj2 (C0 false))) as C1.
  split; [intros FX EI; rewrite exp_finite_eq, EI by exact FX|unfold fcsin, fccos, fcsinh, fccosh; rewrite SI, CI]; rewrite C1, S0, ?mul_one; repeat split.
Qed.
Print Assumptions C110_real_axis_refuted.
Example C110_real_axis_refuted_ex : let libSin := fun x : num64 => x in let libCos := fun _ : num64 => dbl 1 in
  sine_at_zero 53 1024 libSin /\ one_at_zero 53 1024 libCos /\
  is_nan (snd (fcexp 53 1024 eq_refl eq_refl (fun _ => inf) libSin libCos (dbl 710) (dbl 0))) = true.
Proof. split; [apply C110_real_axis_ex|]. split; [apply C110_real_axis_ex|reflexivity]. Qed.

(** A part that is well inside the range can still come out infinite: e^710 overflows, e^710 cos 1 does not. *)
Theorem C110_overflow_refuted : forall libExp libSin libCos : num64 -> num64,
  (forall x, is_finite x = true -> bpow radix2 1024 <= exp (B2R x) -> libExp x = inf) ->
  accurate 53 1024 (/ 4) 0 cos libCos -> bounded 53 1024 libCos ->
  exists x y, is_finite x = true /\ is_finite y = true /\ 0 < exp (B2R x) * cos (B2R y) < 95 / 100 * bpow radix2 1024 /\
    fst (fcexp 53 1024 eq_refl eq_refl libExp libSin libCos x y) = inf.
Proof.
  intros libExp libSin libCos OV AC BC. exists (dbl 710), (dbl 1). split; [reflexivity|]. split; [reflexivity|].
  assert (V1 : B2R (dbl 1) = 1) by apply (fint_exact 53 1024 eq_refl eq_refl 1 ltac:(lia)).
  assert (V7 : B2R (dbl 710) = 710) by apply (fint_exact 53 1024 eq_refl eq_refl 710 ltac:(lia)).
  assert (L2 : 69314 / 100000 <= ln 2 <= 69315 / 100000).
  { pose proof ln2_literals as L. apply Rabs_le_inv in L. unfold cm_lit, cl_lit in L. lra. }
  assert (B : bpow radix2 1024 = exp (1024 * ln 2)) by (rewrite bpow_exp; f_equal; cbn [radix_val radix2]; ring).
  assert (P : exp 710 = bpow radix2 1024 * exp (710 - 1024 * ln 2)) by (rewrite B, <- exp_plus; f_equal; ring).
  assert (E1 : 1 <= exp (710 - 1024 * ln 2)). { pose proof (exp_ineq1_le (710 - 1024 * ln 2)). lra. }
  assert (E2 : exp (710 - 1024 * ln 2) <= 132 / 100).
  { pose proof (exp_ineq1_le (- (710 - 1024 * ln 2))) as Q. rewrite exp_Ropp in Q. set (t := exp (710 - 1024 * ln 2)) in *.
    assert (Q2 : 76 / 100 <= / t) by lra. apply Rinv_le_contravar in Q2; [|lra]. rewrite Rinv_inv in Q2. lra. }
  pose proof (bpow_gt_0 radix2 1024) as BP.
  assert (C1 : 0 < cos 1 <= 708 / 1000).
  { pose proof PI2_1. split; [apply cos_gt_0; lra|]. apply Rle_trans with (cos (PI / 4)).
    - apply cos_decr_1; pose proof PI_RGT_0; pose proof PI_4; lra.
    - rewrite cos_PI4. assert (S : 1413 / 1000 <= sqrt 2) by (rewrite <- (sqrt_square (1413 / 1000)) by lra; apply sqrt_le_1; lra).
      unfold Rdiv. rewrite Rmult_1_l. apply Rle_trans with (/ (1413 / 1000)); [apply Rinv_le_contravar; lra|lra]. }
  rewrite V1, V7. split.
  - split; [apply Rmult_lt_0_compat; [apply exp_pos|lra]|]. rewrite P.
    assert (exp (710 - 1024 * ln 2) * cos 1 <= 132 / 100 * (708 / 1000)) by (apply Rmult_le_compat; lra).
    rewrite Rmult_assoc, Rmult_comm. apply Rmult_lt_compat_r; lra.
  - rewrite exp_finite_eq by reflexivity. cbn [fst]. rewrite OV; [|reflexivity|rewrite V7, P; pose proof (Rmult_le_compat_l _ _ _ (Rlt_le _ _ BP) E1); lra].
    apply inf_mul. left. destruct (BC (dbl 1) eq_refl) as (F & _). split; [exact F|]. pose proof (AC (dbl 1) eq_refl F) as A. rewrite V1 in A.
    rewrite (Rabs_pos_eq (cos 1)) in A by lra. apply Rabs_le_inv in A. lra.
Qed.
Print Assumptions C110_overflow_refuted.
