(** C44 (Dual numbers) and C45 (Sigmoid). *)
From Coq Require Import Reals Lra Lia List.
From Verif Require Import Base BaseProofs DualModel DualSpec DualProofs.
Import ListNotations.
Local Open Scope R_scope.

(** C44: evaluating any expression on Dual(x, 1) gives its value and its derivative at x. *)
Theorem C44_value_and_derivative : forall (e : expr) (x : R),
  smooth e x ->
  value (deval e (mk x 1)) = reval e x
  /\ has_derivative (reval e) x (derivative (deval e (mk x 1))).
Proof. intros e x H. split; [apply deval_value|now apply deval_derivative]. Qed.
Print Assumptions C44_value_and_derivative.

(** More generally a Dual whose fields are the value and derivative of some g at t is mapped
    to the value and derivative of (e o g) at t: Duals compose. *)
Theorem C44_chain_rule : forall (e : expr) (g : R -> R) (t d : R),
  has_derivative g t d -> smooth e (g t) ->
  value (deval e (mk (g t) d)) = reval e (g t)
  /\ has_derivative (fun s => reval e (g s)) t (derivative (deval e (mk (g t) d)))
  /\ derivative (deval e (mk (g t) d)) = derivative (deval e (mk (g t) 1)) * d.
Proof. intros e g t d Hg Hs. split; [apply deval_value|split; [now apply deval_curve|apply deval_seed]]. Qed.
Print Assumptions C44_chain_rule.

(** The hypotheses hold for  sin(x) * pow(x, x) + pow(x - 3, 2) / sqrt(x)  at x = 2. *)
Example C44_example :
  smooth (Bin Add (Bin Mul (Fun Sin X) (PowD X X)) (Bin Div (PowR (BinR Sub X 3) 2) (Fun Sqrt X))) 2.
Proof.
  cbn [smooth reval smooth_at divisor_ok arith std]. repeat split; try lra.
  - right. exists 2%Z. split; [reflexivity|left; lra].
  - apply Rgt_not_eq, sqrt_lt_R0. lra.
Qed.

(** Compound assignment: += and -= with a Dual, and all four with a scalar, agree with the
    binary operators. *)
Theorem C44_compound_partial : forall (a b : dual) (c : R) (o : op),
  assign Add a b = bin Add a b /\ assign Sub a b = bin Sub a b
  /\ assign_r o a c = bin_r o a c
  /\ value (assign o a b) = value (bin o a b).
Proof. intros a b c o. repeat split; destruct o; reflexivity. Qed.
Print Assumptions C44_compound_partial.

(** *= and /= with a Dual do not: they use the already updated value. *)
Theorem C44_compound_refuted :
  (exists a b, derivative (bin Mul a b) = 5 /\ derivative (assign Mul a b) = 9)
  /\ (exists a b, value b <> 0 /\ derivative (bin Div a b) <> derivative (assign Div a b)).
Proof.
  split.
  - exists (mk 2 1), (mk 3 1). cbn. lra.
  - exists (mk 4 1), (mk 2 1). cbn. lra.
Qed.
Print Assumptions C44_compound_refuted.

(** Exactly when x *= y and x /= y are right. *)
Theorem C44_compound_exact : forall a b : dual,
  (assign Mul a b = bin Mul a b <-> derivative b = 0 \/ value a = 0 \/ value b = 1)
  /\ (value b <> 0 ->
      (assign Div a b = bin Div a b <-> derivative b = 0 \/ value a = 0 \/ value b = 1)).
Proof. exact compound_exact. Qed.
Print Assumptions C44_compound_exact.

(** A work item of the OpenCL kernels computes the binary operator when the destination is a
    separate buffer, or, for + and -, also when it is one of the operands. *)
Theorem C44_device_kernel : forall o dst lhs rhs m lv ld rv rd_,
  (S dst < length m)%nat ->
  nth_error m lhs = Some lv -> nth_error m (S lhs) = Some ld ->
  nth_error m rhs = Some rv -> nth_error m (S rhs) = Some rd_ ->
  (S dst < lhs \/ S lhs < dst)%nat \/ (o = Add \/ o = Sub) /\ dst = lhs ->
  (S dst < rhs \/ S rhs < dst)%nat \/ (o = Add \/ o = Sub) /\ dst = rhs ->
  exists m', kernel_item o dst lhs rhs m = Ok m'
    /\ length m' = length m
    /\ nth_error m' dst = Some (value (bin o (mk lv ld) (mk rv rd_)))
    /\ nth_error m' (S dst) = Some (derivative (bin o (mk lv ld) (mk rv rd_)))
    /\ forall j, j <> dst -> j <> S dst -> nth_error m' j = nth_error m j.
Proof. exact kernel_item_ok. Qed.
Print Assumptions C44_device_kernel.

Example C44_device_example : let m := [2; 1; 3; 1; 0; 0] in
  (S 4 < length m)%nat /\ nth_error m 0 = Some 2 /\ nth_error m 1 = Some 1
  /\ nth_error m 2 = Some 3 /\ nth_error m 3 = Some 1 /\ (1 < 4)%nat /\ (3 < 4)%nat.
Proof. cbn. repeat split; lia. Qed.

(** a = a * b on the device, in place: the derivative is 9 instead of 5. *)
Theorem C44_device_in_place_refuted : exists m m',
  kernel_item Mul 0 0 2 m = Ok m' /\ m = [2; 1; 3; 1]
  /\ derivative (bin Mul (mk 2 1) (mk 3 1)) = 5
  /\ nth_error m' 1 = Some 9.
Proof. exact kernel_in_place. Qed.
Print Assumptions C44_device_in_place_refuted.

(** C45 *)
Theorem C45_sigmoid_backward : forall x : R,
  has_derivative forward x (backward (forward x)).
Proof. exact forward_deriv. Qed.
Print Assumptions C45_sigmoid_backward.

Theorem C45_sigmoid_range : forall x y : R,
  0 < forward x < 1 /\ (x < y -> forward x < forward y) /\ forward (- x) = 1 - forward x
  /\ 0 < backward (forward x) <= / 4.
Proof.
  intros x y. pose proof (forward_pos x). pose proof (forward_lt1 x).
  repeat split; auto using forward_incr, forward_sym; apply backward_bounds; auto.
Qed.
Print Assumptions C45_sigmoid_range.

Theorem C45_chain : forall (g : R -> R) (t d : R),
  has_derivative g t d ->
  has_derivative (fun s => forward (g s)) t (backward (forward (g t)) * d).
Proof. exact forward_chain. Qed.
Print Assumptions C45_chain.

(** any number of layers *)
Theorem C45_layers : forall (layers : list (R * R)) (x : R),
  has_derivative (network layers) x (gradient layers x).
Proof. intros; apply network_gradient. Qed.
Print Assumptions C45_layers.

(** The same derivative comes out of Dual arithmetic: 1 / (1 + exp(-x)). *)
Theorem C45_agrees_with_dual : forall x : R,
  deval (BinL Div 1 (BinL Add 1 (Fun Exp (Neg X)))) (mk x 1) = mk (forward x) (backward (forward x)).
Proof. exact sigmoid_dual. Qed.
Print Assumptions C45_agrees_with_dual.

(** Integer arrays: the stored activation is always 0 (and 1 never), so the backward pass
    gives 0 everywhere: the claim is about real elements only. *)
Theorem C45_integer_elements : forall x : Z, forward_int x = 0%Z.
Proof. exact forward_int_0. Qed.
Print Assumptions C45_integer_elements.

Example C45_example :
  has_derivative (fun s => s * 3) 1 (1 * 3)
  /\ network [(2, 1); (3, -1)] 0 = forward (3 * forward (2 * 0 + 1) + -1).
Proof.
  split; [|reflexivity].
  apply (proj2 (C44_value_and_derivative (BinR Mul X 3) 1 (conj I I))).
Qed.
