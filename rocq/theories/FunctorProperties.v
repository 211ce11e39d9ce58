(** C20 — the elementwise functions compute the function they are named after. *)
From Coq Require Import Reals Lra.
From Verif Require Import Base ShapeModel AssignModel AssignSpec AssignProofs AssignProperties FunctorModel FunctorSpec FunctorProofs.
Local Open Scope R_scope.

(** The specification pins the result down. *)
Theorem C20_spec_functional : forall f, functional f.
Proof. exact means_functional. Qed.
Print Assumptions C20_spec_functional.

(** Proved for nineteen of the twenty-four functions, all real arguments.  Missing: asinh, acosh, atanh,
    exp2 and exp10, for which the property is false. *)
Theorem C20_unary_partial : forall f x, misnamed f = false -> means f x (unary f (Some x)).
Proof. exact unary_means. Qed.
Print Assumptions C20_unary_partial.
Theorem C20_unary_int_partial : forall f n, misnamed f = false -> means_int f n (unary_int f n).
Proof. exact unary_int_means. Qed.
Print Assumptions C20_unary_int_partial.
Theorem C20_binary : forall o a b, bmeans o a b (binary o (Some a) (Some b)).
Proof. exact binary_means. Qed.
Print Assumptions C20_binary.
(** NaN operands ([None]): arithmetic gives NaN, every comparison is false except [!=], which is true. *)
Theorem C20_binary_nan : forall o a b, a = None \/ b = None ->
  binary o a b = match o with add | sub | mul | div => None | ne => Some 1 | lt | gt | le | ge | eq_ => Some 0 end.
Proof. intros o [a|] [b|] [H|H]; try discriminate; destruct o; reflexivity. Qed.
Print Assumptions C20_binary_nan.

(** The same for whole arrays, through the evaluation loops, for any packet width and any schedule. *)
Theorem C20_array_serial_partial : forall f (vectorise : bool) (w n lhs id : nat) (st : store (option R)),
  misnamed f = false -> (0 < w)%nat -> length (st lhs) = n -> length (st id) = n ->
  exists st', run_serial w lhs (EUn (unary f) (EArr id)) (loops vectorise n w) st = Ok st' /\
    forall i x, nth_error (st id) i = Some (Some x) -> exists r, nth_error (st' lhs) i = Some r /\ means f x r.
Proof.
  intros. destruct (C18_serial _ vectorise w n lhs (EUn (unary f) (EArr id)) st) as (st' & E & A); auto.
  exists st'. split; auto. eapply assigned_unary; eauto.
Qed.
Print Assumptions C20_array_serial_partial.
Theorem C20_array_parallel_partial : forall f (vectorise : bool) (w n lhs id : nat) (st : store (option R)) sched,
  misnamed f = false -> (0 < w)%nat -> length (st lhs) = n -> length (st id) = n ->
  complete w (EUn (unary f) (EArr id)) (fst (loops vectorise n w)) sched ->
  exists st', run_parallel w lhs (EUn (unary f) (EArr id)) (loops vectorise n w) sched st = Ok st' /\
    forall i x, nth_error (st id) i = Some (Some x) -> exists r, nth_error (st' lhs) i = Some r /\ means f x r.
Proof.
  intros. destruct (C18_parallel _ vectorise w n lhs (EUn (unary f) (EArr id)) st sched) as (st' & E & A); auto.
  exists st'. split; auto. eapply assigned_unary; eauto.
Qed.
Print Assumptions C20_array_parallel_partial.
(** operators between arrays and scalars, in either order, and between sub-expressions *)
Theorem C20_array_binary : forall o (vectorise : bool) (w n lhs : nat) e1 e2 (st : store (option R)),
  (0 < w)%nat -> length (st lhs) = n -> operands_have st e1 n -> operands_have st e2 n ->
  exists st', run_serial w lhs (EBin (binary o) e1 e2) (loops vectorise n w) st = Ok st' /\
    forall i x y, (i < n)%nat -> value st e1 i = Some (Some x) -> value st e2 i = Some (Some y) ->
      exists r, nth_error (st' lhs) i = Some r /\ bmeans o x y r.
Proof.
  intros. destruct (C18_serial _ vectorise w n lhs (EBin (binary o) e1 e2) st) as (st' & E & A); cbn; auto.
  exists st'. split; auto. intros i x y Hi Hx Hy. exact (assigned_binary o st lhs e1 e2 n st' H1 H2 A i x y Hi Hx Hy).
Qed.
Print Assumptions C20_array_binary.

(** Refuted: each of the five misbound functions has a wrong value at a point of its domain. *)
Theorem C20_misnamed_refuted : forall f, misnamed f = true ->
  exists x, (exists y, means f x (Some y)) /\ ~ means f x (unary f (Some x)).
Proof. exact misnamed_refuted. Qed.
Print Assumptions C20_misnamed_refuted.
Example C20_misnamed_which : filter misnamed
  [neg; sin_; cos_; tan_; asin_; acos_; atan_; sinh_; cosh_; tanh_; asinh_; acosh_; atanh_; exp_; exp2_; exp10_;
   log_; log10_; log2_; sqrt_; cbrt_; abs_; floor_; ceil_] = [asinh_; acosh_; atanh_; exp2_; exp10_].
Proof. reflexivity. Qed.

(** GPU: whenever the named kernel exists it computes the right function … *)
Theorem C20_gpu_partial : forall f c x,
  opencl_kernel (functor_of f) = Some c \/ cuda_kernel (functor_of f) = Some c -> means f x (std_fun c x).
Proof. intros f c x [H|H]; [apply opencl_own in H|apply cuda_own in H]; subst; apply own_core_means. Qed.
Print Assumptions C20_gpu_partial.
(** … but there is no exp2 or exp10 kernel, and with CUDA no asinh, acosh or atanh kernel. *)
Theorem C20_gpu_missing_refuted :
  (forall f, opencl_kernel (functor_of f) = None <-> f = exp2_ \/ f = exp10_) /\
  (forall f, cuda_kernel (functor_of f) = None <-> misnamed f = true).
Proof. split; intros f; destruct f; cbn; intuition congruence. Qed.
Print Assumptions C20_gpu_missing_refuted.

(** Satisfiable, and the values are the expected ones: sqrt 9 = 3, floor(-1/2) = -1, int sqrt(10) = 3. *)
Example C20_ex_sqrt : unary sqrt_ (Some 9) = Some 3.
Proof. apply (means_functional sqrt_ 9); [apply C20_unary_partial; reflexivity|]. cbn. lra. Qed.
Example C20_ex_floor : unary floor_ (Some (- / 2)) = Some (-1).
Proof.
  apply (means_functional floor_ (- / 2)); [apply C20_unary_partial; reflexivity|].
  cbn. split; auto. split; [exists (-1)%Z; reflexivity|lra].
Qed.
Example C20_ex_log_neg : unary log_ (Some (-1)) = None.
Proof. apply (means_functional log_ (-1)); [apply C20_unary_partial; reflexivity|]. cbn. lra. Qed.
Example C20_ex_lt : binary lt (Some 2) (Some 3) = Some 1.
Proof.
  pose proof (C20_binary lt 2 3) as H. destruct (binary lt (Some 2) (Some 3)); cbn in H; [|tauto].
  destruct H as [_ [[_ ->]|[H _]]]; [reflexivity|lra].
Qed.
