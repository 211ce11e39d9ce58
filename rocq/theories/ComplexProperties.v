(** C46 (field arithmetic), C47 (square root), C48 (elementary functions). *)
From Coq Require Import Reals Lra Lia ZArith.
From Coquelicot Require Import Complex.
From Verif Require Import ComplexModel ComplexSpec ComplexProofs.
Local Open Scope R_scope.

(** C46: the operators are the operations of the field of complex numbers. *)
Theorem C46_field_operations : forall z w : cx,
  toC (add z w) = Cplus (toC z) (toC w)
  /\ toC (sub z w) = Cminus (toC z) (toC w)
  /\ toC (mul z w) = Cmult (toC z) (toC w)
  /\ toC (neg z) = Copp (toC z)
  /\ (w <> zero -> exists r, div z w = Some r /\ toC r = Cdiv (toC z) (toC w))
  /\ (div z zero = None).
Proof.
  intros z w. repeat split; auto using add_C, sub_C, mul_C, neg_C, div_C.
  unfold div. now apply div_zero.
Qed.
Print Assumptions C46_field_operations.

(** The laws, stated on the operators themselves. *)
Theorem C46_field_laws : forall a b c : cx,
  add a b = add b a /\ add (add a b) c = add a (add b c) /\ add a zero = a
  /\ add a (neg a) = zero /\ sub a b = add a (neg b)
  /\ mul a b = mul b a /\ mul (mul a b) c = mul a (mul b c) /\ mul a one = a
  /\ mul a (add b c) = add (mul a b) (mul a c)
  /\ (b <> zero -> exists q, div a b = Some q /\ quotient a b q).
Proof.
  intros a b c.
  repeat split; try (apply cx_eq; unfold add, sub, mul, add_assign, sub_assign, mul_assign, one, neg, zero;
                     cbn [re im cread]; ring).
  intros H. destruct (div_correct (mk (re a) (im a)) (Other (mk (re b) (im b)))) as (q & E & M).
  - cbn [cread]. now rewrite cx_eta.
  - exists q. split; [exact E|]. cbn [cread] in M. rewrite !cx_eta in M. exact M.
Qed.
Print Assumptions C46_field_laws.

Example C46_example : mk 1 2 <> zero /\ mul (mk 1 2) (mk 3 4) = mk (-5) 10.
Proof.
  split; [intros E; apply (f_equal re) in E; cbn in E; lra|].
  apply cx_eq; unfold mul, mul_assign; cbn [re im cread]; ring.
Qed.

(** Mixed Complex/scalar operators agree with the scalar seen as Complex(c, 0). *)
Theorem C46_scalar_operations : forall (z : cx) (c : R),
  add_r z c = add z (of_real c) /\ sub_r z c = sub z (of_real c) /\ mul_r z c = mul z (of_real c)
  /\ (c <> 0 -> div z (of_real c) = Some (div_r z c))
  /\ add_l c z = add (of_real c) z /\ sub_l c z = sub (of_real c) z /\ mul_l c z = mul (of_real c) z
  /\ div_l c z = div (of_real c) z.
Proof. exact scalar_ops. Qed.
Print Assumptions C46_scalar_operations.

(** Compound assignment with a Complex: correct for any operand, also z op= z. *)
Theorem C46_compound_complex : forall (z : cx) (a : carg),
  add_assign z a = add z (cread z a) /\ sub_assign z a = sub z (cread z a)
  /\ mul_assign z a = mul z (cread z a) /\ div_assign z a = div z (cread z a).
Proof. exact compound_complex. Qed.
Print Assumptions C46_compound_complex.

(** Compound assignment with a scalar: += and -= for every aliasing pattern, *= and /= when
    the operand is not the real part of z itself. *)
Theorem C46_compound_scalar_partial : forall (z : cx) (a : sarg),
  add_scalar z a = add_r z (sread z a) /\ sub_scalar z a = sub_r z (sread z a)
  /\ (a <> OwnReal -> mul_scalar z a = mul_r z (sread z a) /\ div_scalar z a = div_r z (sread z a)).
Proof. exact compound_scalar. Qed.
Print Assumptions C46_compound_scalar_partial.

(** z *= z.real() and z /= z.real() are wrong; exactly when they happen to be right. *)
Theorem C46_compound_alias_refuted :
  (exists z, mul_scalar z OwnReal <> mul_r z (re z)) /\ (exists z, re z <> 0 /\ div_scalar z OwnReal <> div_r z (re z)).
Proof. exact compound_alias_refuted. Qed.
Print Assumptions C46_compound_alias_refuted.

Theorem C46_compound_alias_exact : forall z,
  (mul_scalar z OwnReal = mul_r z (re z) <-> im z = 0 \/ re z = 0 \/ re z = 1)
  /\ (re z <> 0 -> (div_scalar z OwnReal = div_r z (re z) <-> im z = 0 \/ re z = 1)).
Proof. exact compound_alias_exact. Qed.
Print Assumptions C46_compound_alias_exact.

(** Assignment from the same type copies; from another Complex type it loses the imaginary
    part (while the converting constructor is right). *)
Theorem C46_assignment_partial : forall z other : cx,
  assign_same z other = other /\ construct_other other = other
  /\ forall c, assign_scalar z c = of_real c.
Proof. intros z [r i]. repeat split. Qed.
Print Assumptions C46_assignment_partial.

Theorem C46_assignment_refuted : forall z other : cx,
  assign_other z other = other <-> im other = re other.
Proof. exact assign_other_exact. Qed.
Print Assumptions C46_assignment_refuted.

Theorem C46_equality : forall z w : cx, ceq z w = true <-> z = w.
Proof. exact ceq_ok. Qed.
Print Assumptions C46_equality.

(** C47 with the exact constants (the multi-precision variant): sqrt(z) is the principal
    root, for every z, whatever the limits of the component type are. *)
Theorem C47_principal_root : forall (legTiny : R) (digits : Z) (z : cx),
  (0 < digits)%Z -> principal_root z (sqrt_mp legTiny digits z).
Proof. exact csqrt_exact. Qed.
Print Assumptions C47_principal_root.

(** The principal root is unique, so C47_principal_root determines the function. *)
Theorem C47_root_unique : forall z w w' : cx, principal_root z w -> principal_root z w' -> w = w'.
Proof. exact root_unique. Qed.
Print Assumptions C47_root_unique.

(** C47 with the literals written in the source for floating types: the square is z up to
    10^-32 |z| in the real part (far below the rounding error of double); exactly z in the
    imaginary part. *)
Theorem C47_sqrt_float_partial : forall (legTiny : R) (digits : Z) (z : cx),
  (0 < digits)%Z ->
  let w := sqrt_float legTiny digits z in
  Rabs (re (mul w w) - re z) <= / 10 ^ 32 * cabs z /\ im (mul w w) = im z /\ 0 <= re w.
Proof. exact csqrt_float_error. Qed.
Print Assumptions C47_sqrt_float_partial.

Example C47_example : (0 < 53)%Z /\ principal_root (mk 3 4) (mk 2 1) /\ principal_root (mk (-4) 0) (mk 0 2).
Proof.
  split; [lia|]. split; (split; [apply cx_eq; unfold mul, mul_assign; cbn [re im cread]; ring|cbn [re im]; lra]).
Qed.

(** C48 *)
Theorem C48_exponential : forall a b : cx,
  cexp (add a b) = mul (cexp a) (cexp b) /\ cexp zero = one
  /\ cexp (of_real (re a)) = of_real (exp (re a))
  /\ cexp (mk 0 (im a)) = mk (cos (im a)) (sin (im a)).
Proof. intros. auto using cexp_plus, cexp_zero, cexp_real, cexp_imag. Qed.
Print Assumptions C48_exponential.

(** sinh, cosh, sin, cos are the usual combinations of exponentials. *)
Theorem C48_by_exponentials : forall z : cx,
  mul two (ccosh z) = add (cexp z) (cexp (neg z))
  /\ mul two (csinh z) = sub (cexp z) (cexp (neg z))
  /\ mul two (ccos z) = add (cexp (mul i_ z)) (cexp (neg (mul i_ z)))
  /\ mul (mul two i_) (csin z) = sub (cexp (mul i_ z)) (cexp (neg (mul i_ z))).
Proof. intros. auto using ccosh_exp, csinh_exp, ccos_exp, csin_exp. Qed.
Print Assumptions C48_by_exponentials.

Theorem C48_identities : forall a b : cx,
  sub (mul (ccosh a) (ccosh a)) (mul (csinh a) (csinh a)) = one
  /\ add (mul (ccos a) (ccos a)) (mul (csin a) (csin a)) = one
  /\ csin (add a b) = add (mul (csin a) (ccos b)) (mul (ccos a) (csin b))
  /\ ccos (add a b) = sub (mul (ccos a) (ccos b)) (mul (csin a) (csin b))
  /\ csinh (add a b) = add (mul (csinh a) (ccosh b)) (mul (ccosh a) (csinh b))
  /\ ccosh (add a b) = add (mul (ccosh a) (ccosh b)) (mul (csinh a) (csinh b)).
Proof. intros. auto 10 using ccosh_csinh, ccos_csin, csin_plus, ccos_plus, csinh_plus, ccosh_plus. Qed.
Print Assumptions C48_identities.

(** tanh = sinh / cosh and tan = sin / cos.  The code goes through the real tangent, so the
    points where the real tangent has no value are excluded. *)
Theorem C48_tangent_partial : forall z : cx,
  (cos (im z) <> 0 -> mul (ctanh z) (ccosh z) = csinh z)
  /\ (cos (re z) <> 0 -> mul (ctan z) (ccos z) = csin z).
Proof. intros. auto using ctanh_ok, ctan_ok. Qed.
Print Assumptions C48_tangent_partial.

Example C48_tangent_example : cos (im (mk 2 0)) <> 0.
Proof. cbn. rewrite cos_0. lra. Qed.

Theorem C48_reciprocals : forall z : cx,
  (csin z <> zero -> exists r, csc z = Some r /\ mul r (csin z) = of_real 1)
  /\ (ccos z <> zero -> exists r, sec z = Some r /\ mul r (ccos z) = of_real 1)
  /\ (ctan z <> zero -> exists r, cot z = Some r /\ mul r (ctan z) = of_real 1).
Proof. intros. repeat split; apply div_l_ok. Qed.
Print Assumptions C48_reciprocals.

Theorem C48_modulus : forall z w : cx,
  cabs z * cabs z = norm z /\ mul z (conj z) = of_real (norm z)
  /\ cabs (mul z w) = cabs z * cabs w /\ cabs (add z w) <= cabs z + cabs w
  /\ cabs (cexp z) = exp (re z) /\ conj (conj z) = z
  /\ conj (mul z w) = mul (conj z) (conj w) /\ conj (add z w) = add (conj z) (conj w).
Proof. exact modulus_laws. Qed.
Print Assumptions C48_modulus.

Theorem C48_polar : forall (z : cx) (rho theta : R),
  polar (cabs z) (arg z) = z /\ - PI < arg z <= PI
  /\ cabs (polar rho theta) = Rabs rho
  /\ polar rho theta = mul (of_real rho) (cexp (mk 0 theta)).
Proof. exact polar_laws. Qed.
Print Assumptions C48_polar.
