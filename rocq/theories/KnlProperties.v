(** C111 — every operation on OpenCL arrays runs the kernel of that operation for the arrays' element type. *)
From Coq Require Import String.
From Verif Require Import Base KnlModel KnlSpec KnlProofs.
Local Open Scope string_scope.

(** No two kernels have one name: the program can be built, and a name selects one kernel. *)
Theorem C111_names_distinct : NoDup (map k_name program) /\
  forall k, In k program -> find_kernel (k_name k) = Some k.
Proof. split; [exact program_names|exact find_self]. Qed.
Print Assumptions C111_names_distinct.
Example C111_names_distinct_ex : length program = 696 /\ exists k, In k program /\ k_name k = "addArrays_float".
Proof. split; [vm_compute; reflexivity|]. exists (bk Plus Arrays F32). split; [|reflexivity].
  apply (find_some _ _ (binary_find Plus Arrays F32 ltac:(cbn; tauto))). Qed.

(** Arithmetic and comparisons: when the array operands and the destination have the type of the expression, which
    has at least four bytes, the kernel of that operator and type runs, with the operands in order; scalar operands of
    any type whose conversion leaves the arrays' type are converted to it.  Missing: arrays of small integers and
    operands of another type, for which the property is false. *)
Theorem C111_binary_partial : forall asserts b s ta tb t, wide t -> functor_type b ta tb = Some t ->
  (s <> ScalarLhs -> ta = t) -> (s <> ScalarRhs -> tb = t) ->
  runs_binary b s t (binary_op asserts b s ta tb t).
Proof. exact binary_ok. Qed.
Print Assumptions C111_binary_partial.
(** float array - int scalar; int64 >= uint8 scalar on the left *)
Example C111_binary_ex1 : runs_binary Sub ScalarRhs F32 (binary_op false Sub ScalarRhs F32 I32 F32).
Proof. apply C111_binary_partial; cbn; auto; tauto. Qed.
Example C111_binary_ex2 : runs_binary GreaterThanEqual ScalarLhs I64 (binary_op false GreaterThanEqual ScalarLhs U8 I64 I64).
Proof. apply C111_binary_partial; cbn; auto; tauto. Qed.

(** Refuted for every other combination: the kernel is chosen by the type of the expression alone, and reads or writes
    the buffers of another type as if they held it. *)
Theorem C111_binary_types_refuted : forall asserts b s ta tb d t, wide t -> functor_type b ta tb = Some t ->
  (s <> ScalarLhs /\ ta <> t) \/ (s <> ScalarRhs /\ tb <> t) \/ d <> t ->
  binary_op asserts b s ta tb d = Undefined.
Proof. exact binary_bad. Qed.
Print Assumptions C111_binary_types_refuted.
(** the sum of two int16 arrays (int + int is int), of an int32 array and the scalar 0.5, and of a float and a double array *)
Example C111_binary_types_ex : binary_op true Plus Arrays I16 I16 I16 = Undefined /\
  binary_op true Plus ScalarRhs I32 F64 F64 = Undefined /\ binary_op true Plus Arrays F32 F64 F64 = Undefined.
Proof. repeat split; vm_compute; reflexivity. Qed.

(** Elementwise functions on four- and eight-byte types.  Missing: exp2 and exp10. *)
Theorem C111_unary_partial : forall asserts u t, wide t -> u <> Exp2 -> u <> Exp10 ->
  runs_unary u t (unary_op asserts u t t).
Proof. exact unary_ok. Qed.
Print Assumptions C111_unary_partial.
Example C111_unary_ex : runs_unary Acosh F64 (unary_op true Acosh F64 F64).
Proof. apply C111_unary_partial; [cbn; tauto|discriminate..]. Qed.
(** exp2 and exp10 find no kernel: an assertion fails, and without assertions the destination keeps what it held *)
Theorem C111_unary_missing_refuted : forall u t d, wide t -> u = Exp2 \/ u = Exp10 ->
  unary_op true u t d = Raised /\ unary_op false u t d = Nothing.
Proof. intros u t d W E. split; [exact (unary_none true u t d W E)|exact (unary_none false u t d W E)]. Qed.
Print Assumptions C111_unary_missing_refuted.

(** Small integer types are refused when the program is compiled, except (above) where the expression has type int *)
Theorem C111_narrow : forall asserts u b s t d, narrow t ->
  unary_op asserts u t d = Rejected /\ fill_random asserts t = Rejected /\
  sigmoid_forward asserts t = Rejected /\ sigmoid_backward asserts t = Rejected /\
  (functor_type b t t = Some t -> binary_op asserts b s t t d = Rejected).
Proof. exact narrow_rejected. Qed.
Print Assumptions C111_narrow.
(** Operands of one type: the kernel of that type for four and eight bytes; for the small integers an arithmetic expression has
    type int, whose kernel misreads the arrays, and a comparison is refused. *)
Theorem C111_same_type_partial : forall asserts b s t,
  (wide t -> runs_binary b s t (binary_op asserts b s t t t)) /\
  (narrow t -> forall d, (arithmetic b -> binary_op asserts b s t t d = Undefined) /\ (~ arithmetic b -> binary_op asserts b s t t d = Rejected)).
Proof.
  intros asserts b s t. split.
  - intros W. apply binary_ok; auto. cbn in W. decompose [or] W; subst; try contradiction; destruct b; reflexivity.
  - intros N d. split; intros B.
    + apply binary_bad with (t := I32).
      * cbn. auto.
      * cbn in N, B. decompose [or] N; subst; try contradiction; decompose [or] B; subst; try contradiction; reflexivity.
      * assert (t <> I32) by (cbn in N; intros ->; intuition discriminate). destruct s; [left|left|right; left]; split; auto; discriminate.
    + destruct (narrow_rejected asserts Neg b s t d N) as (_ & _ & _ & _ & R). apply R. cbn in N. destruct b; try (exfalso; apply B; cbn; tauto); decompose [or] N; subst; try contradiction; reflexivity.
Qed.
Print Assumptions C111_same_type_partial.
Example C111_same_type_ex : arithmetic Divide /\ ~ arithmetic ElementWiseEqual /\ narrow U16 /\ binary_op true ElementWiseEqual Arrays U16 U16 U16 = Rejected.
Proof. split; [cbn; tauto|]. split; [cbn; intuition discriminate|]. split; [cbn; tauto|reflexivity]. Qed.
Example C111_narrow_ex : unary_op true Sin I8 I8 = Rejected /\ binary_op true LessThan Arrays U16 U16 U16 = Rejected.
Proof. split; reflexivity. Qed.

(** Random filling and the sigmoid *)
Theorem C111_fill : forall asserts t, wide t ->
  runs_named "random" t [("data", "array"); ("elements", "number of elements"); ("lower", "lower bound");
    ("upper", "upper bound"); ("seeds", "seeds"); ("numSeeds", "number of seeds")] (fill_random asserts t).
Proof. exact fill_ok. Qed.
Print Assumptions C111_fill.
Theorem C111_sigmoid : forall asserts t, wide t ->
  runs_named "sigmoid" t [("dst", "result"); ("data", "operand")] (sigmoid_forward asserts t) /\
  runs_named "sigmoid gradient" t [("dst", "result"); ("data", "operand")] (sigmoid_backward asserts t).
Proof. exact sigmoid_ok. Qed.
Print Assumptions C111_sigmoid.
Example C111_fill_ex : exists k bd, fill_random true F32 = Ran k bd /\ k_name k = "fillRandom_float".
Proof. do 2 eexists. split; vm_compute; reflexivity. Qed.
Example C111_sigmoid_ex : exists k bd, sigmoid_forward true F64 = Ran k bd /\ k_name k = "sigmoidActivationForward_double".
Proof. do 2 eexists. split; vm_compute; reflexivity. Qed.

(** Transposes of signed and floating types.  Missing: the unsigned types. *)
Theorem C111_transpose_partial : forall asserts t, numeric t -> ~ unsigned t ->
  runs_named "transpose" t [("out", "result"); ("in", "operand"); ("rows", "rows"); ("cols", "columns"); ("alpha", "factor")]
    (transpose asserts t).
Proof. exact transpose_ok. Qed.
Print Assumptions C111_transpose_partial.
Example C111_transpose_ex : numeric I64 /\ ~ unsigned I64.
Proof. split; cbn; [tauto|intuition discriminate]. Qed.
(** no unsigned matrix can be transposed: without assertions the result is left unwritten *)
Theorem C111_transpose_unsigned_refuted : forall t, unsigned t ->
  transpose true t = Raised /\ transpose false t = Nothing.
Proof. intros t U. split; [exact (transpose_none true t U)|exact (transpose_none false t U)]. Qed.
Print Assumptions C111_transpose_unsigned_refuted.

(** Matrix products: of equal four- or eight-byte types, into an array of that type, clblast is called for float and
    double and the gemm or gemv kernel for the integers, every argument bound to its own parameter. *)
Theorem C111_product_partial : forall asserts t, wide t ->
  ((t = F32 \/ t = F64) /\ gemm_op asserts t t t = Library t /\ gemv_op asserts t t t = Library t) \/
  (integral t /\
   runs_named "gemm" t [("transA", "transA"); ("transB", "transB"); ("M", "m"); ("N", "n"); ("K", "k"); ("alpha", "alpha");
     ("A", "a"); ("lda", "lda"); ("B", "b"); ("ldb", "ldb"); ("beta", "beta"); ("C", "c"); ("ldc", "ldc")] (gemm_op asserts t t t) /\
   runs_named "gemv" t [("trans", "trans"); ("M", "m"); ("N", "n"); ("alpha", "alpha"); ("A", "a"); ("lda", "lda");
     ("x", "x"); ("incX", "incX"); ("beta", "beta"); ("y", "y"); ("incy", "incY")] (gemv_op asserts t t t)).
Proof. exact product_all. Qed.
Print Assumptions C111_product_partial.
Example C111_product_ex : exists k bd, gemm_op true U32 U32 U32 = Ran k bd /\ k_name k = "gemm_uint32_t".
Proof. do 2 eexists. split; vm_compute; reflexivity. Qed.
(** Refuted for all other numeric types: products of small integers, of two types, or into another type *)
Theorem C111_product_types_refuted : forall asserts ta tb d, numeric ta -> numeric tb -> ~ (ta = tb /\ tb = d /\ wide d) ->
  gemm_op asserts ta tb d = Undefined /\ gemv_op asserts ta tb d = Undefined.
Proof. exact product_bad. Qed.
Print Assumptions C111_product_types_refuted.
Example C111_product_types_ex : gemm_op true I16 I16 I32 = Undefined /\ gemm_op true F32 F64 F64 = Undefined.
Proof. split; vm_compute; reflexivity. Qed.

(** Arrays of Dual and Complex: no elementwise operation finds a kernel, for a type of more than two bytes it
    fails when it is run — although the program has kernels for Dual arithmetic, under the names of the scalar types. *)
Theorem C111_class_types_refuted : forall e u b s t, (t = Dual e \/ t = Cplx e) -> (2 < tsize t)%nat ->
  unary_op false u t t = Nothing /\ binary_op false b s t t t = Nothing /\ fill_random false t = Nothing /\ transpose false t = Nothing.
Proof. exact class_nothing. Qed.
Print Assumptions C111_class_types_refuted.
Example C111_class_ex : binary_op false Plus Arrays (Dual F32) (Dual F32) (Dual F32) = Nothing /\
  exists k, find_kernel "addArrays_Dual_float" = Some k /\ k_params k = [PBuf "dst" (Dual F32); PBuf "lhs" (Dual F32); PBuf "rhs" (Dual F32)].
Proof. split; [vm_compute; reflexivity|]. eexists. split; vm_compute; reflexivity. Qed.

(** The name of a numeric type is the device's name for it, and names no other numeric type; bool and char have each
    other's name. *)
Theorem C111_type_names : forall t u, numeric t -> numeric u -> tname t = dname t /\ (tname t = tname u -> t = u).
Proof. exact names_ok. Qed.
Print Assumptions C111_type_names.
Example C111_type_names_ex : tname U16 = "uint16_t".
Proof. reflexivity. Qed.
Theorem C111_type_names_refuted : tname TBool = "char" /\ tname TChar = "bool" /\ tname (Cplx F32) = tname (Cplx F64) /\
  tname (Dual F32) = tname (Dual F64).
Proof. repeat split. Qed.
Print Assumptions C111_type_names_refuted.
