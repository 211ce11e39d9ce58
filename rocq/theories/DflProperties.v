(** C108: dual numbers over float and double. *)
From Coq Require Import ZArith Reals List Lia Lra Bool.
From Flocq Require Import Core BinarySingleNaN.
From Verif Require Import DualModel DualSpec DualProofs AccModel AccSpec AccProofs NumModel NumBasics NrmModel NrmFloat DflModel DflSpec DflProofs.
From Coq Require Import ZifyNat ZifyN ZifyBool.
Ltac Zify.zify_post_hook ::= idtac.
Local Open Scope R_scope.
Local Notation num64 := (binary_float 53 1024).
Local Notation dbl := (fint 53 1024 eq_refl eq_refl).
(** [eval64]: the library functions play no part in the examples *)
Local Notation eval64 := (feval 53 1024 eq_refl eq_refl (fun _ => B754_nan) (fun _ _ => B754_nan) (fun _ _ => B754_nan)).
Local Notation two k := (binary_normalize 53 1024 eq_refl eq_refl mode_NE 1 k false).

(** Any program, any scalar type, any input (overflow and NaN included): the value component of the result
    is what the program computes on plain scalars. *)
Theorem C108_value : forall A (zero : A) int logInt add sub mul div opp lib power (e : gexpr A) (x d : A),
  gval (geval zero int logInt add sub mul div opp lib power e (gmk x d)) = plain add sub mul div opp lib power e x.
Proof. intros. apply (geval_value zero int logInt add sub mul div opp lib power e (gmk x d)). Qed.
Print Assumptions C108_value.
Example C108_value_ex :
  let e := GBin Div (GBinL Sub (dbl 7) GX) (GBin Mul GX GX) in
  B2SF (gval (eval64 e (gmk (dbl 3) (dbl 1)))) = B2SF (fdiv 53 1024 eq_refl eq_refl (dbl 4) (dbl 9)) /\
  B2SF (gval (eval64 e (gmk (dbl 0) (dbl 1)))) = SpecFloat.S754_infinity false.
Proof. split; vm_compute; reflexivity. Qed.

(** The same code over exact scalars, library functions and powers included: it computes the value of the
    program and its derivative multiplied by the seed wherever the program is smooth. *)
Theorem C108_exact_scalars : forall (e : gexpr R) (x s : R),
  let r := geval 0 IZR (fun k => std Log (IZR k)) Rplus Rminus Rmult Rdiv Ropp std cpow e (gmk x s) in
  let p := reval (exact (fun c => c) e) in
  smooth (exact (fun c => c) e) x ->
  gval r = p x /\ has_seeded_derivative p x s (gder r).
Proof.
  intros e x s r p Sm. pose proof (geval_reals e (mk x s)) as E. cbn [value derivative] in E. fold r in E.
  split; [change (gval r) with (value (mk (gval r) (gder r))); rewrite E; apply deval_value|].
  exists (derivative (deval (exact (fun c => c) e) (mk x 1))). split; [now apply deval_derivative|].
  change (gder r) with (derivative (mk (gval r) (gder r))). rewrite E. apply deval_seed.
Qed.
Print Assumptions C108_exact_scalars.
Example C108_exact_scalars_ex :
  let e := GBin Div (GFun Sin GX) (GPowL 3 (GFun Log GX)) in
  let r := geval 0 IZR (fun k => std Log (IZR k)) Rplus Rminus Rmult Rdiv Ropp std cpow e (gmk 1 5) in
  smooth (exact (fun c => c) e) 1 /\ gval r = sin 1 /\ gder r = 5 * cos 1 - 5 * ln 3 * sin 1.
Proof.
  assert (P : cpow 3 (ln 1) = 1) by (unfold cpow; destruct (Rlt_dec 0 3); [|lra]; rewrite ln_1; apply Rpower_O; lra).
  cbn [exact smooth reval arith std divisor_ok smooth_at geval gbin gfun gpow_l gval gder]. rewrite P. repeat split; try lra; field.
Qed.

(** Polynomials: if the computed value and derivative are finite they are close to the value of the real
    polynomial and to its derivative there, multiplied by the seed. *)
Theorem C108_polynomial : forall prec emax (Hp : Prec_gt_0 prec) (Hm : Prec_lt_emax prec emax) logInt lib power
    (e : gexpr (binary_float prec emax)) (x s : binary_float prec emax),
  polynomial e ->
  let r := feval prec emax Hp Hm logInt lib power e (gmk x s) in
  let p := reval (exact B2R e) in
  let size := sizes 0 e (B2R x) (B2R s) in
  let size' := sizes (underflow_unit prec emax) e (B2R x) (B2R s) in
  let growth := (1 + unit_roundoff prec) ^ roundings e in
  is_finite (gval r) = true -> is_finite (gder r) = true ->
  Rabs (B2R (gval r) - p (B2R x)) <= growth * fst size' - fst size /\
  exists d, has_derivative p (B2R x) d /\ Rabs (B2R (gder r) - d * B2R s) <= growth * snd size' - snd size.
Proof.
  intros prec emax Hp Hm logInt lib power e x s P r p size size' growth F1 F2.
  destruct (eval_close prec emax Hp Hm logInt lib power (gmk x s) e P (conj F1 F2)) as (Sm & (_ & C1) & (_ & C2)).
  cbn [gval gder] in *. rewrite deval_value in C1. cbn [value] in C1. rewrite deval_seed in C2. split; [exact C1|].
  exists (derivative (deval (exact B2R e) (mk (B2R x) 1))). split; [|exact C2]. apply deval_derivative, Sm.
Qed.
Print Assumptions C108_polynomial.
Example C108_polynomial_ex :
  let e := GBin Sub (GBin Mul GX (GBin Mul GX GX)) (GBinR Div GX (dbl 3)) in
  polynomial e /\ roundings e = 5%nat /\
  is_finite (gval (eval64 e (gmk (two (-4)) (dbl 1)))) = true /\ is_finite (gder (eval64 e (gmk (two (-4)) (dbl 1)))) = true /\
  sizes 0 e (B2R (two (-4))) (B2R (dbl 1)) =
    (/ 16 * (/ 16 * / 16) + / 16 * / 3, / 16 * / 16 + / 16 * (2 * / 16) + / 3).
Proof.
  assert (D : forall z, (Z.abs z <= 100)%Z -> B2R (dbl z) = IZR z) by (intros z Hz; apply (fint_exact 53 1024 eq_refl eq_refl z); lia).
  assert (T : B2R (two (-4)) = / 16) by (unfold B2R; vm_compute; lra).
  split; [cbn; repeat split; discriminate || reflexivity|]. split; [reflexivity|]. split; [vm_compute; reflexivity|]. split; [vm_compute; reflexivity|].
  cbn [sizes]. rewrite (D 3%Z), (D 1%Z), T by lia. rewrite !Rabs_pos_eq by lra. f_equal; lra.
Qed.

(** The bound in the usual form: with k roundings, 2 k u times the size, and what underflow adds. *)
Theorem C108_polynomial_bound : forall prec emax (e : gexpr (binary_float prec emax)) x s, Prec_gt_0 prec ->
  let u := unit_roundoff prec in let k := INR (roundings e) in k * u <= / 2 ->
  let size := sizes 0 e x s in let size' := sizes (underflow_unit prec emax) e x s in
  (1 + u) ^ roundings e * fst size' - fst size <= 2 * k * u * fst size + 2 * (fst size' - fst size) /\
  (1 + u) ^ roundings e * snd size' - snd size <= 2 * k * u * snd size + 2 * (snd size' - snd size).
Proof.
  intros prec emax e x s Hp u k K size size'. pose proof (u_pos prec) as U. fold u in U. pose proof (pow_up u (roundings e) ltac:(lra) K) as G. fold k in G.
  pose proof (eta_pos prec emax) as E0. destruct (sizes_mono prec emax e x s (underflow_unit prec emax) ltac:(lra)) as ((A1 & A2) & (B1 & B2)). fold size size' in A1, A2, B1, B2.
  assert (KU : 0 <= k * u) by (apply Rmult_le_pos; [apply pos_INR|lra]).
  split; [set (a := fst size) in *; set (b := fst size') in *|set (a := snd size) in *; set (b := snd size') in *].
  - pose proof (Rmult_le_compat_r b _ _ ltac:(lra) G). pose proof (Rmult_le_compat_r (b - a) _ _ ltac:(lra) K). lra.
  - pose proof (Rmult_le_compat_r b _ _ ltac:(lra) G). pose proof (Rmult_le_compat_r (b - a) _ _ ltac:(lra) K). lra.
Qed.
Print Assumptions C108_polynomial_bound.
Example C108_polynomial_bound_ex : let e := GBin Mul (@GX num64) GX in
  INR (roundings e) * unit_roundoff 53 <= / 2 /\ fst (sizes 0 e 3 1) = 9 /\ snd (sizes 0 e 3 1) = 6.
Proof.
  cbv zeta. split; [|cbn; rewrite !Rabs_pos_eq by lra; split; lra]. cbn [roundings Nat.add]. replace (INR 2) with (bpow radix2 1) by (cbn; lra).
  unfold unit_roundoff. change (/ 2) with (bpow radix2 (-1)). rewrite <- bpow_plus. apply bpow_le. lia.
Qed.

(** Polynomials with integer coefficients at integers: exact as long as no part exceeds 2^prec. *)
Theorem C108_integers : forall prec emax (Hp : Prec_gt_0 prec) (Hm : Prec_lt_emax prec emax) logInt lib power
    (e : gexpr (binary_float prec emax)) (x s : binary_float prec emax),
  is_finite x = true -> is_finite s = true -> integral (B2R x) -> integral (B2R s) ->
  small_integers e (B2R x) (B2R s) (bpow radix2 prec) ->
  let r := feval prec emax Hp Hm logInt lib power e (gmk x s) in
  is_finite (gval r) = true /\ B2R (gval r) = reval (exact B2R e) (B2R x) /\
  is_finite (gder r) = true /\ has_seeded_derivative (reval (exact B2R e)) (B2R x) (B2R s) (B2R (gder r)).
Proof.
  intros prec emax Hp Hm logInt lib power e x s Fx Fs Ix Is P r.
  destruct (eval_integers prec emax Hp Hm logInt lib power (gmk x s) e Fx Fs Ix Is P) as ((F1 & V1 & _) & (F2 & V2 & _)).
  cbn [gval gder] in *. fold r in F1, F2, V1, V2. rewrite deval_value in V1. split; [exact F1|]. split; [exact V1|]. split; [exact F2|].
  rewrite deval_seed in V2. exists (derivative (deval (exact B2R e) (mk (B2R x) 1))). split; [|exact V2].
  apply deval_derivative. eapply small_smooth; exact P.
Qed.
Print Assumptions C108_integers.
Example C108_integers_ex :
  let e := GBinR Add (GBin Mul (GBinR Sub GX (dbl 2)) (GBin Mul GX GX)) (dbl 5) in
  small_integers e (B2R (dbl 7)) (B2R (dbl 1)) (bpow radix2 53) /\
  B2SF (gval (eval64 e (gmk (dbl 7) (dbl 1)))) = B2SF (dbl 250) /\ B2SF (gder (eval64 e (gmk (dbl 7) (dbl 1)))) = B2SF (dbl 119).
Proof.
  assert (D : forall z, (Z.abs z <= 100)%Z -> B2R (dbl z) = IZR z) by (intros z Hz; apply (fint_exact 53 1024 eq_refl eq_refl z); lia).
  assert (T : bpow radix2 53 = 9007199254740992) by reflexivity.
  split; [|split; vm_compute; reflexivity]. unfold small_integers, both_le. cbn [sizes fst snd]. rewrite (D 7%Z), (D 5%Z), (D 2%Z), (D 1%Z), T by lia.
  rewrite !Rabs_pos_eq by lra. repeat split; try lra; try discriminate; try (vm_compute; reflexivity); eexists; reflexivity.
Qed.

(** A variable with a zero derivative is a constant: every polynomial of it whose value is finite has derivative zero. *)
Theorem C108_constant : forall prec emax (Hp : Prec_gt_0 prec) (Hm : Prec_lt_emax prec emax) logInt lib power
    (e : gexpr (binary_float prec emax)) (x s : binary_float prec emax),
  polynomial e -> is_finite s = true -> B2R s = 0 ->
  let r := feval prec emax Hp Hm logInt lib power e (gmk x s) in
  is_finite (gval r) = true -> is_finite (gder r) = true /\ B2R (gder r) = 0.
Proof. intros prec emax Hp Hm logInt lib power e x s P F V. cbv zeta. apply eval_constant; [exact P|split; assumption]. Qed.
Print Assumptions C108_constant.
Example C108_constant_ex :
  let e := GBin Mul GX (GBinL Sub (dbl 1) GX) in
  polynomial e /\ B2SF (gval (eval64 e (gmk (dbl 3) (dbl 0)))) = B2SF (dbl (-6)) /\ B2R (gder (eval64 e (gmk (dbl 3) (dbl 0)))) = 0.
Proof. split; [cbn; repeat split; discriminate || reflexivity|]. split; vm_compute; reflexivity. Qed.

(** Quotients of duals: the derivative is accurate as long as the square of the divisor neither overflows nor underflows. *)
Theorem C108_divide : forall prec emax (Hp : Prec_gt_0 prec) (Hm : Prec_lt_emax prec emax) (a b : gdual (binary_float prec emax)), (3 <= prec)%Z ->
  let r := fbin prec emax Hp Hm Div a b in
  let x := B2R (gval a) in let x' := B2R (gder a) in let y := B2R (gval b) in let y' := B2R (gder b) in
  is_finite (gder r) = true -> is_finite (fmul prec emax Hp Hm (gval b) (gval b)) = true -> bpow radix2 (2 - emax) <= y * y ->
  Rabs (B2R (gder r) - (x' * y - x * y') / (y * y)) <=
    6 * unit_roundoff prec * ((Rabs (x' * y) + Rabs (x * y')) / (y * y)) + 3 * (underflow_unit prec emax / (y * y)) + underflow_unit prec emax.
Proof. intros prec emax Hp Hm a b H3. cbv zeta. now apply divide_ok. Qed.
Print Assumptions C108_divide.
Example C108_divide_ex :
  let r := fbin 53 1024 eq_refl eq_refl Div (gmk (dbl 1) (dbl 2)) (gmk (dbl 4) (dbl 1)) in
  is_finite (gder r) = true /\ is_finite (fmul 53 1024 eq_refl eq_refl (dbl 4) (dbl 4)) = true /\ bpow radix2 (2 - 1024) <= B2R (dbl 4) * B2R (dbl 4) /\
  B2R (gder r) = 7 / 16.
Proof.
  split; [vm_compute; reflexivity|]. split; [vm_compute; reflexivity|].
  rewrite (proj2 (fint_exact 53 1024 eq_refl eq_refl 4 ltac:(lia))). split; [|unfold B2R; vm_compute; lra].
  apply Rle_trans with (bpow radix2 0); [apply bpow_le; lia|cbn; lra].
Qed.

(** The same for a scalar divided by a dual. *)
Theorem C108_divide_scalar : forall prec emax (Hp : Prec_gt_0 prec) (Hm : Prec_lt_emax prec emax) (c : binary_float prec emax) (b : gdual (binary_float prec emax)), (3 <= prec)%Z ->
  let r := fbin_l prec emax Hp Hm Div c b in
  let y := B2R (gval b) in let y' := B2R (gder b) in
  is_finite (gder r) = true -> is_finite (fmul prec emax Hp Hm (gval b) (gval b)) = true -> bpow radix2 (2 - emax) <= y * y ->
  Rabs (B2R (gder r) - - (B2R c * y') / (y * y)) <=
    6 * unit_roundoff prec * (Rabs (B2R c * y') / (y * y)) + 3 * (underflow_unit prec emax / (y * y)) + underflow_unit prec emax.
Proof. intros prec emax Hp Hm c b H3. cbv zeta. now apply divide_l_ok. Qed.
Print Assumptions C108_divide_scalar.
Example C108_divide_scalar_ex :
  let r := fbin_l 53 1024 eq_refl eq_refl Div (dbl 3) (gmk (dbl 2) (dbl 1)) in
  is_finite (gder r) = true /\ is_finite (fmul 53 1024 eq_refl eq_refl (dbl 2) (dbl 2)) = true /\ B2R (gder r) = - (3 / 4).
Proof. split; [vm_compute; reflexivity|]. split; [vm_compute; reflexivity|]. unfold B2R; vm_compute; lra. Qed.

(** Square roots of positive duals. *)
Theorem C108_sqrt : forall prec emax (Hp : Prec_gt_0 prec) (Hm : Prec_lt_emax prec emax) logInt lib (a : gdual (binary_float prec emax)), (3 <= prec)%Z ->
  let r := ffun prec emax Hp Hm logInt lib Sqrt a in
  let d := B2R (gder a) / (2 * sqrt (B2R (gval a))) in
  is_finite (gval a) = true -> 0 < B2R (gval a) -> is_finite (gder r) = true ->
  Rabs (B2R (gder r) - d) <= 3 * unit_roundoff prec * Rabs d + underflow_unit prec emax.
Proof. intros prec emax Hp Hm logInt lib a H3. cbv zeta. intros. now apply sqrt_ok. Qed.
Print Assumptions C108_sqrt.
Example C108_sqrt_ex :
  let r := ffun 53 1024 eq_refl eq_refl (fun _ => B754_nan) (fun _ _ => B754_nan) Sqrt (gmk (dbl 16) (dbl 1)) in
  B2SF (gval r) = B2SF (dbl 4) /\ B2R (gder r) = / 8.
Proof. split; [vm_compute; reflexivity|]. unfold B2R; vm_compute; lra. Qed.

(** Without the condition on the square of the divisor the derivative of a quotient is wrong, although value and derivative are ordinary doubles:
    x / y with the constants y = 2^600 and y = 2^-600 (exact derivatives 2^-600 and 2^600); dividing by the same numbers as scalars is exact. *)
Theorem C108_divide_refuted :
  let quotient (y : num64) := fbin 53 1024 eq_refl eq_refl Div (gmk (dbl 1) (dbl 1)) (gmk y (dbl 0)) in
  let scaled (y : num64) := fbin_r 53 1024 eq_refl eq_refl Div (gmk (dbl 1) (dbl 1)) y in
  B2SF (gder (scaled (two 600))) = B2SF (two (-600)) /\ B2R (gder (quotient (two 600))) = 0 /\
  B2SF (gder (scaled (two (-600)))) = B2SF (two 600) /\ B2SF (gder (quotient (two (-600)))) = SpecFloat.S754_infinity false /\
  B2SF (gval (quotient (two 600))) = B2SF (two (-600)) /\ B2SF (gval (quotient (two (-600)))) = B2SF (two 600).
Proof. repeat split; vm_compute; reflexivity. Qed.
Print Assumptions C108_divide_refuted.

(** Constants stop being constants under division: 1 / 2^-600 with zero derivatives on both sides has derivative NaN. *)
Theorem C108_constant_refuted :
  let r := fbin 53 1024 eq_refl eq_refl Div (gmk (dbl 1) (dbl 0)) (gmk (two (-600)) (dbl 0)) in
  is_finite (gval r) = true /\ is_nan (gder r) = true.
Proof. split; vm_compute; reflexivity. Qed.
Print Assumptions C108_constant_refuted.
