(** C112 — an assignment to a CUDA array stores the value of the expression in every element, whatever the element types
    of its operands and the packets in which they are read. *)
From Coq Require Import String Permutation.
From Verif Require Import Base CudaModel KnlModel KnlSpec CukModel CukSpec CukProofs CukPlan CukFinal.
Local Open Scope string_scope.

(** a memory for the examples: four arrays of 32 elements, 7 * array + index, and symbolic operations *)
Inductive sym := Num (k : nat) | Call (f : string) (d t : ety) (x : sym) | Oper (f : string) (d s t : ety) (x y : sym).
Definition mem : memory sym :=
  map (fun p => {| a_ty := snd p; a_data := map (fun i => Num (100 * fst p + i)) (seq 0 32) |}) [(0, F64); (1, F32); (2, I32); (3, F64)]%nat.
Definition forward (d k : nat) : list nat := seq 0 k.
Definition backward (d k : nat) : list nat := rev (seq 0 k).
Definition run (wf wd n : nat) (d : ety) (dst : nat) (e : expr sym) : option (outcome (memory sym)) :=
  assign wf wd Oper (fun f d t => Call f d t) (fun _ _ => Num 0) true n backward d dst e mem.
Lemma backward_schedule : schedule backward.
Proof. intros d k. apply Permutation_sym, Permutation_rev. Qed.

(** Names: a file has no two kernels of one name, and each lookup finds the kernel of that name. *)
Theorem C112_names_distinct : NoDup (map (fun k => (c_file k, c_name k)) cuda_program) /\
  (forall b s, exists k, find_cuda (binary_file b) (binary_kernel b s) = Some k /\ c_body k = COp (symbol b) 0 1 /\
     c_ptr k = match s with Arrays => [true; true] | ScalarRhs => [true; false] | ScalarLhs => [false; true] end) /\
  (forall u, find_cuda (unary_file u) (unary_kernel u) = None <-> absent u).
Proof.
  split; [|split].
  - assert (X : forall l : list (string * string),
       (fix nd l := match l with [] => true | x :: l => negb (existsb (fun y => String.eqb (fst x) (fst y) && String.eqb (snd x) (snd y)) l) && nd l end) l = true -> NoDup l).
    { induction l as [|x l IH]; intros E; [constructor|]. apply andb_prop in E. destruct E as (E & E'). constructor; [|auto].
      intros H. assert (Y : existsb (fun y => String.eqb (fst x) (fst y) && String.eqb (snd x) (snd y)) l = true).
      { apply existsb_exists. exists x. split; auto. now rewrite !String.eqb_refl. }
      rewrite Y in E. discriminate E. }
    apply X. vm_compute. reflexivity.
  - intros b s. destruct (find_binary b s) as (k & A & B & C). eauto.
  - intros u. split; [|apply find_absent]. intros H. destruct u; try discriminate H; cbn; tauto.
Qed.
Print Assumptions C112_names_distinct.
Example C112_names_distinct_ex : length cuda_program = 52 /\
  option_map c_body (find_cuda "arithmetic" "lessThanEqualArraysScalarLhs") = Some (COp "<=" 0 1).
Proof. split; vm_compute; reflexivity. Qed.

(** Assignments of expressions of integers, floats and doubles, of any shape, to arrays of any of these types: each
    element of the destination gets the value of the expression, every operation being applied to values of the types
    its operands have; nothing else that existed changes.  For every size, every order in which the packets of every
    kernel are treated, and all packet widths that divide the unit of allocation; the destination may be an operand.
    Missing: float and double in one assignment, functions without a kernel, packets of three, and bool, Complex, half
    and Dual arrays. *)
Theorem C112_assign_partial : forall {V} wf wd vop vcall (junk : nat -> nat -> V) asserts n order e d dst m t,
  even_width wf -> even_width wd -> schedule order -> 1 <= n ->
  supported e -> is_function e = true -> ty_of e = Some t -> numeric d -> d = t \/ ~ (floating d /\ floating t) ->
  arrays_in n m e -> holds n m d dst ->
  exists m', assign wf wd vop vcall junk asserts n order d dst e m = Some (Ok m') /\ assigned vop vcall n d dst e m m'.
Proof. intros. eapply assign_ok; eauto. Qed.
Print Assumptions C112_assign_partial.
(** d = sin(d) * 5 - d' on arrays of seven doubles, in packets of two, from the last packet to the first *)
Definition ex_e : expr sym := EBin Sub (EBin Multiply (EUn Sin (EArr F64 0)) (EScal F64 (Num 5))) (EArr F64 3).
Example C112_assign_ex : supported ex_e /\ is_function ex_e = true /\ ty_of ex_e = Some F64 /\ arrays_in 7 mem ex_e /\ holds 7 mem F64 0 /\
  match run 4 2 7 F64 0 ex_e with
  | Some (Ok m') => element m' 0 6 = Some (Oper "-" F64 F64 F64 (Oper "*" F64 F64 F64 (Call "sin" F64 F64 (Num 6)) (Num 5)) (Num 306))
  | _ => False
  end.
Proof.
  assert (A : ~ absent Sin) by (intros X; cbn in X; intuition discriminate).
  split; [unfold ex_e; cbn [supported is_scalar ty_of]; repeat split; auto; cbn; tauto|]. split; [reflexivity|]. split; [reflexivity|].
  assert (H : forall k, (k = 0 \/ k = 3)%nat -> holds 7 mem F64 k).
  { intros k [-> | ->]; eexists; (split; [reflexivity|]); (split; [reflexivity|]); cbn; lia. }
  split; [cbn [arrays_in ex_e]; repeat split; try apply H; auto|]. split; [apply H; auto|]. vm_compute. reflexivity.
Qed.
(** a double array times an int array, stored in the int array: element by element, each operand in its own type *)
Example C112_assign_ex2 : match run 4 4 7 I32 2 (EBin Multiply (EArr F64 0) (EArr I32 2)) with
  | Some (Ok m') => element m' 2 5 = Some (Oper "*" I32 F64 I32 (Num 5) (Num 205))
  | _ => False
  end.
Proof. vm_compute. reflexivity. Qed.

(** Refuted for float and double: with the usual packets, the result of an operation on double arrays cannot be
    assigned to a float array, nor the other way round.  The test that all types are the same compares each with
    itself, the kernel is instantiated with packets of both types, and its compilation fails at run time. *)
Theorem C112_mixed_refuted : forall {V} wf wd vop vcall (junk : nat -> nat -> V) asserts n order d t dst b a1 a2 m,
  3 <= wf <= 4 -> 2 <= wd <= 4 -> floating d -> floating t -> d <> t ->
  assign wf wd vop vcall junk asserts n order d dst (EBin b (EArr t a1) (EArr t a2)) m = Some (Throw RuntimeError).
Proof. intros. now apply mixed_throws. Qed.
Print Assumptions C112_mixed_refuted.
(** float = double + double throws with packets, and converts without *)
Example C112_mixed_ex : run 4 2 7 F32 1 (EBin Plus (EArr F64 0) (EArr F64 3)) = Some (Throw RuntimeError) /\
  match run 1 1 7 F32 1 (EBin Plus (EArr F64 0) (EArr F64 3)) with
  | Some (Ok m') => element m' 1 6 = Some (Oper "+" F32 F64 F64 (Num 6) (Num 306))
  | _ => False
  end.
Proof. split; vm_compute; reflexivity. Qed.

(** Refuted for asinh, acosh, atanh, exp2 and exp10: there is no such kernel. *)
Theorem C112_missing_refuted : forall {V} wf wd vop vcall (junk : nat -> nat -> V) asserts n order t u dst a m,
  even_width wf -> even_width wd -> floating t -> absent u ->
  assign wf wd vop vcall junk asserts n order t dst (EUn u (EArr t a)) m = Some (Throw RuntimeError).
Proof. intros. now apply missing_throws. Qed.
Print Assumptions C112_missing_refuted.
Example C112_missing_ex : run 4 2 7 F32 1 (EUn Atanh (EArr F32 1)) = Some (Throw RuntimeError).
Proof. vm_compute. reflexivity. Qed.

(** Refuted for bool and Complex: TypeInfo has no packet width for them, and no expression of them, or assigned to
    them, compiles. *)
Theorem C112_rejected_refuted : forall {V} wf wd vop vcall (junk : nat -> nat -> V) asserts n order d dst e t m,
  is_function e = true -> ty_of e = Some t -> In TBool [d; t] \/ (exists s, In (Cplx s) [d; t]) ->
  assign wf wd vop vcall junk asserts n order d dst e m = None.
Proof.
  intros V wf wd vop vcall junk asserts n order d dst e t m Fn Et H. apply (rejected _ _ _ _ _ _ _ _ _ _ _ t); auto.
  unfold widthless. destruct H as [[->|[->|[]]]|(s & [->|[->|[]]])]; eauto.
Qed.
Print Assumptions C112_rejected_refuted.
(** mask = a < b, with a bool array *)
Example C112_rejected_ex : run 4 2 7 TBool 1 (EBin LessThan (EArr F32 1) (EArr F32 1)) = None.
Proof. vm_compute. reflexivity. Qed.

(** Float packets of two are never used: the packet width of float2 is given as 1. *)
Theorem C112_float2 : forall {V} wd vop vcall (junk : nat -> nat -> V) asserts n order d dst e m,
  assign 2 wd vop vcall junk asserts n order d dst e m = assign 1 wd vop vcall junk asserts n order d dst e m.
Proof. intros. apply assign_same. Qed.
Print Assumptions C112_float2.
Example C112_float2_ex : make_plan 2 2 F32 (EUn Sin (EArr F32 1) : expr sym) [EArr F32 1] = Some {| p_dst := DS F32; p_args := [Some (DS F32)]; p_width := 1 |} /\
  make_plan 4 2 F32 (EUn Sin (EArr F32 1) : expr sym) [EArr F32 1] = Some {| p_dst := DV F32 4; p_args := [Some (DV F32 4)]; p_width := 4 |}.
Proof. split; reflexivity. Qed.

(** Refuted for packets of three: the last packet of 32 elements reaches past the allocation. *)
Theorem C112_width3_refuted : exists wf (e : expr sym) d dst, 1 <= wf <= 4 /\ supported e /\ ty_of e = Some d /\ floating d /\
  arrays_in 32 mem e /\ holds 32 mem d dst /\ run wf 2 32 d dst e = Some UB.
Proof.
  exists 3, (EBin Plus (EArr F32 1) (EArr F32 1)), F32, 1. split; [lia|]. split; [cbn; intuition auto|]. split; [reflexivity|].
  split; [now left|]. assert (H : holds 32 mem F32 1) by (eexists; (split; [reflexivity|]); (split; [reflexivity|]); cbn; lia).
  split; [now split|]. split; [exact H|]. vm_compute. reflexivity.
Qed.
Print Assumptions C112_width3_refuted.

(** An array without elements: the launch has no threads, which is an error reported when assertions are on. *)
Theorem C112_empty_refuted : exists (e : expr sym) m, supported e /\ arrays_in 0 mem e /\ holds 0 mem F32 1 /\ run 4 2 0 F32 1 e = Some (Throw RuntimeError) /\
  assign 4 2 Oper (fun f d t => Call f d t) (fun _ _ => Num 0) false 0 backward F32 1 e mem = Some (Ok m).
Proof.
  exists (EBin Plus (EArr F32 1) (EArr F32 1)), mem. split; [cbn; intuition auto|].
  assert (H : holds 0 mem F32 1) by (eexists; (split; [reflexivity|]); (split; [reflexivity|]); cbn; lia).
  split; [now split|]. split; [exact H|]. split; vm_compute; reflexivity.
Qed.
Print Assumptions C112_empty_refuted.

(** Matrix products: cuBLASLt is given the types of float, double and half matrices. *)
Theorem C112_gemm_library : forall t s,
  In (t, s) [(Half, "CUDA_R_16F"); (F32, "CUDA_R_32F"); (F64, "CUDA_R_64F")] -> cuda_gemm t t t = Cublas s s s.
Proof. intros t s [[= <- <-]|[[= <- <-]|[[= <- <-]|[]]]]; reflexivity. Qed.
Print Assumptions C112_gemm_library.
Example C112_gemm_library_ex : cuda_gemm F64 F64 F64 = Cublas "CUDA_R_64F" "CUDA_R_64F" "CUDA_R_64F".
Proof. reflexivity. Qed.

(** All other numeric types use the library's own kernel, which reads each argument as its type exactly when the
    product of two elements has the type of the right matrix: the template arguments for that matrix and for beta are
    given in the wrong order. *)
Theorem C112_gemm_fallback_partial : forall ta tb d, numeric ta -> numeric tb -> numeric d ->
  ~ (floating ta /\ floating tb /\ floating d) ->
  exists ok, cuda_gemm ta tb d = Fallback ok /\ (ok = true <-> product_type ta tb = Some tb).
Proof.
  intros ta tb d Ha Hb Hd N. assert (B : forall t, numeric t -> blas_type t = true -> floating t).
  { intros t Ht E. unfold floating. num Ht; try discriminate E; auto. }
  unfold cuda_gemm. destruct (product_numeric ta tb Ha Hb) as (s & -> & _).
  destruct (blas_type ta && blas_type tb && blas_type d) eqn:E.
  { apply andb_prop in E. destruct E as (E & E3). apply andb_prop in E. exfalso. apply N. repeat split; apply B; tauto. }
  eexists. split; [reflexivity|]. cbn. rewrite !ety_eqb_refl. cbn [andb]. split.
  - intros X. apply andb_prop in X. destruct X as (X & _). apply andb_prop in X. f_equal. symmetry. apply ety_eqb_eq. tauto.
  - intros [= ->]. now rewrite ety_eqb_refl.
Qed.
Print Assumptions C112_gemm_fallback_partial.
Example C112_gemm_fallback_ex : cuda_gemm I32 I32 I32 = Fallback true /\ cuda_gemm I64 I32 I64 = Fallback false.
Proof. split; reflexivity. Qed.

(** Refuted for matrices of small integers, whose products are ints: the right matrix is read as ints. *)
Theorem C112_gemm_narrow_refuted : forall t d, narrow t -> numeric d -> cuda_gemm t t d = Fallback false.
Proof. intros t d Ht Hd. num Ht; num Hd; reflexivity. Qed.
Print Assumptions C112_gemm_narrow_refuted.
Example C112_gemm_narrow_ex : cuda_gemm I8 I8 I32 = Fallback false /\ cuda_gemm U16 U16 U16 = Fallback false.
Proof. split; reflexivity. Qed.

(** Refuted for Complex<float>: the matrices are described as matrices of complex doubles. *)
Theorem C112_gemm_complex_refuted : cuda_gemm (Cplx F32) (Cplx F32) (Cplx F32) = Cublas "CUDA_C_64F" "CUDA_C_64F" "CUDA_C_64F".
Proof. reflexivity. Qed.
Print Assumptions C112_gemm_complex_refuted.
