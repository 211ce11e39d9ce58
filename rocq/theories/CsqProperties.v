(** C102: the square root of complex numbers over float and double. *)
From Coq Require Import ZArith Reals Lia Lra.
From Flocq Require Import Core BinarySingleNaN.
From Verif Require Import AccModel AccSpec NumModel NumBasics NrmModel CsqModel CsqSpec CsqRoot CsqFinal.
From Coq Require Import ZifyNat ZifyN ZifyBool.
Ltac Zify.zify_post_hook ::= idtac.
Local Open Scope R_scope.

Local Notation dbl := (fint 53 1024 eq_refl eq_refl).
Local Notation flo := (fint 24 128 eq_refl eq_refl).
Local Notation pow2 k := (binary_normalize 53 1024 eq_refl eq_refl mode_NE 1 k false).
Local Notation out z := (B2SF (fst z), B2SF (snd z)).

(** A complex number has exactly one square root in the right half plane, once the sign bit of the imaginary part has chosen a side of the
    negative real axis. *)
Theorem C102_root_unique : forall x y neg p q p' q', root_of x y neg p q -> root_of x y neg p' q' -> p = p' /\ q = q'.
Proof. exact root_unique. Qed.
Print Assumptions C102_root_unique.
Example C102_root_unique_ex : root_of (-3) 4 false 1 2.
Proof. unfold root_of. lra. Qed.

(** The root of every finite complex number is finite and both parts are accurate to nine roundings: nothing overflows or underflows on
    the way, however large or small the parts are.  float (24, 128) and double (53, 1024) meet the conditions. *)
Theorem C102_accurate : forall prec emax (Hp : Prec_gt_0 prec) (Hm : Prec_lt_emax prec emax) (re im : binary_float prec emax),
  (24 <= prec <= 53)%Z -> (3 * prec + 8 <= emax)%Z -> is_finite re = true -> is_finite im = true ->
  exists p q, root_of (B2R re) (B2R im) (Bsign im) p q /\
    let '(a, b) := fcsqrt prec emax Hp Hm re im in
    is_finite a = true /\ is_finite b = true /\
    Rabs (B2R a - p) <= 9 * unit_roundoff prec * Rabs p + underflow_unit prec emax /\
    Rabs (B2R b - q) <= 9 * unit_roundoff prec * Rabs q + underflow_unit prec emax /\
    Bsign b = Bsign im /\ 0 <= B2R a.
Proof.
  intros prec emax Hp Hm re im P PE Fr Fi. destruct (fcsqrt_accurate prec emax Hp Hm (proj1 P) PE (proj2 P) re im Fr Fi) as (p & q & H). exists p, q.
  destruct (fcsqrt prec emax Hp Hm re im) as [a b]. exact H.
Qed.
Print Assumptions C102_accurate.
(** 3 + 4i, the largest numbers and the smallest ones *)
Example C102_accurate_ex :
  out (fcsqrt 53 1024 eq_refl eq_refl (dbl 3) (dbl 4)) = (B2SF (dbl 2), B2SF (dbl 1)) /\
  out (fcsqrt 24 128 eq_refl eq_refl (flo (-3)) (flo (-4))) = (B2SF (flo 1), B2SF (flo (-2))) /\
  out (fcsqrt 53 1024 eq_refl eq_refl (fzero 53 1024) (pow2 1023)) = (B2SF (pow2 511), B2SF (pow2 511)) /\
  out (fcsqrt 53 1024 eq_refl eq_refl (fzero 53 1024) (pow2 (-1073))) = (B2SF (pow2 (-537)), B2SF (pow2 (-537))).
Proof. vm_compute. repeat split. Qed.

(** On the real axis the root is the correctly rounded root of the real number, so the roots of squares are exact. *)
Theorem C102_real_axis : forall prec emax (Hp : Prec_gt_0 prec) (Hm : Prec_lt_emax prec emax) (x : binary_float prec emax) s,
  (24 <= prec <= 53)%Z -> (3 * prec + 8 <= emax)%Z -> is_finite x = true -> 0 < B2R x ->
  fcsqrt prec emax Hp Hm x (B754_zero s) = (fsqrt prec emax Hp Hm x, B754_zero s) /\
  B2R (snd (fcsqrt prec emax Hp Hm (Bopp x) (B754_zero s))) = (if s then - B2R (fsqrt prec emax Hp Hm x) else B2R (fsqrt prec emax Hp Hm x)) /\
  B2R (fst (fcsqrt prec emax Hp Hm (Bopp x) (B754_zero s))) = 0 /\
  B2R (fsqrt prec emax Hp Hm x) = nearest prec emax (sqrt (B2R x)).
Proof.
  intros prec emax Hp Hm x s P PE F X.
  assert (L : fle prec emax (fzero prec emax) x = true) by (rewrite (fle_val prec emax (fzero prec emax) x eq_refl F); apply Rle_bool_true; cbn; lra).
  assert (L' : fle prec emax (fzero prec emax) (Bopp x) = false) by (rewrite (fle_val prec emax (fzero prec emax) (Bopp x) eq_refl) by (now rewrite is_finite_Bopp); apply Rle_bool_false; rewrite B2R_Bopp; cbn; lra).
  rewrite !(axis prec emax Hp Hm (proj1 P) PE (proj2 P)) by (rewrite ?is_finite_Bopp, ?B2R_Bopp; auto; lra). rewrite L, L', Bopp_involutive. cbn [fst snd].
  split; [reflexivity|]. split; [destruct s; [apply B2R_Bopp|reflexivity]|]. split; [reflexivity|]. apply (NrmFloat.fsqrt_ok prec emax Hp Hm x F X).
Qed.
Print Assumptions C102_real_axis.
Example C102_real_axis_ex : out (fcsqrt 53 1024 eq_refl eq_refl (dbl 49) (fzero 53 1024)) = (B2SF (dbl 7), B2SF (fzero 53 1024)) /\
  out (fcsqrt 53 1024 eq_refl eq_refl (dbl (-49)) (fzero 53 1024)) = (B2SF (fzero 53 1024), B2SF (dbl 7)).
Proof. vm_compute. split; reflexivity. Qed.

(** Zero, infinite and undefined parts. *)
Theorem C102_special : forall prec emax (Hp : Prec_gt_0 prec) (Hm : Prec_lt_emax prec emax) (re im : binary_float prec emax),
  let root := fcsqrt prec emax Hp Hm in
  let inf := B754_infinity (prec := prec) (emax := emax) in
  let zero := B754_zero (prec := prec) (emax := emax) in
  let nan := B754_nan (prec := prec) (emax := emax) in
  (forall s s', root (zero s) (zero s') = (zero false, zero s')) /\
  (forall s, root re (inf s) = (inf false, inf s)) /\
  (is_finite im = true -> root (inf false) im = (inf false, zero (Bsign im)) /\ root (inf true) im = (zero false, inf (Bsign im))) /\
  root (inf false) nan = (inf false, nan) /\
  fst (root (inf true) nan) = nan /\ (exists s, snd (root (inf true) nan) = inf s) /\
  (is_finite im = true -> root nan im = (nan, nan)) /\
  (is_finite re = true -> root re nan = (nan, nan)) /\ root nan nan = (nan, nan).
Proof.
  intros prec emax Hp Hm re im root inf zero nan. destruct (special prec emax Hp Hm re im) as (A & B & C & D & E & F & G). repeat (split; [assumption|]). split; [|exact G].
  fold inf nan root in F. destruct (snd (root (inf true) nan)) as [s|s| |s m e H]; try discriminate F. now exists s.
Qed.
Print Assumptions C102_special.
Example C102_special_ex : out (fcsqrt 53 1024 eq_refl eq_refl (B754_infinity true) (dbl (-3))) = (B2SF (fzero 53 1024), SpecFloat.S754_infinity true).
Proof. vm_compute. reflexivity. Qed.

(** The root of the conjugate is the conjugate of the root, exactly, up to the sign of a zero real part. *)
Theorem C102_conjugate : forall prec emax (Hp : Prec_gt_0 prec) (Hm : Prec_lt_emax prec emax) (re im : binary_float prec emax),
  (24 <= prec <= 53)%Z -> (3 * prec + 8 <= emax)%Z -> is_nan im = false ->
  let z := fcsqrt prec emax Hp Hm re im in
  let w := fcsqrt prec emax Hp Hm re (Bopp im) in
  snd w = Bopp (snd z) /\ same_but_zero prec emax (fst w) (fst z) /\ (fle prec emax (fzero prec emax) re = true -> fst w = fst z).
Proof. intros prec emax Hp Hm re im P PE N. exact (conjugate prec emax Hp Hm (proj1 P) PE (proj2 P) re im N). Qed.
Print Assumptions C102_conjugate.
Example C102_conjugate_ex : out (fcsqrt 53 1024 eq_refl eq_refl (dbl (-5)) (dbl 12)) = (B2SF (dbl 2), B2SF (dbl 3)) /\
  out (fcsqrt 53 1024 eq_refl eq_refl (dbl (-5)) (dbl (-12))) = (B2SF (dbl 2), B2SF (dbl (-3))).
Proof. vm_compute. split; reflexivity. Qed.

(** The real part of a root may be -0, and then the conjugate of the root is not the root of the conjugate bit for bit: abs leaves -0
    as it is. *)
Theorem C102_zero_sign_refuted :
  ~ (forall re im : binary_float 53 1024, is_finite re = true -> is_finite im = true -> Bsign (fst (fcsqrt 53 1024 eq_refl eq_refl re im)) = false) /\
  ~ (forall re im : binary_float 53 1024, is_finite re = true -> is_finite im = true ->
       fst (fcsqrt 53 1024 eq_refl eq_refl re (Bopp im)) = fst (fcsqrt 53 1024 eq_refl eq_refl re im)).
Proof.
  split; intros H.
  - specialize (H (dbl (-4)) (B754_zero true) eq_refl eq_refl). vm_compute in H. discriminate H.
  - specialize (H (dbl (-4)) (B754_zero true) eq_refl eq_refl). apply (f_equal Bsign) in H. vm_compute in H. discriminate H.
Qed.
Print Assumptions C102_zero_sign_refuted.
