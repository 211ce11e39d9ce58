(** Proofs for kernel selection. *)
From Coq Require Import String.
From Verif Require Import Base KnlModel KnlSpec.
Local Open Scope string_scope.

Lemma ety_eqb_refl t : ety_eqb t t = true.
Proof. induction t; cbn; auto. Qed.
Lemma ety_eqb_eq a b : ety_eqb a b = true <-> a = b.
Proof.
  split.
  - revert b. induction a; intros [] H; cbn in H; try discriminate; auto; f_equal; auto.
  - intros ->. apply ety_eqb_refl.
Qed.
Lemma ety_eqb_neq a b : a <> b -> ety_eqb a b = false.
Proof. intros H. destruct (ety_eqb a b) eqn:E; auto. apply ety_eqb_eq in E. tauto. Qed.

(** no kernel name occurs twice *)
Fixpoint memb (x : string) (l : list string) : bool :=
  match l with [] => false | y :: l => String.eqb x y || memb x l end.
Fixpoint nodupb (l : list string) : bool :=
  match l with [] => true | x :: l => negb (memb x l) && nodupb l end.
Lemma memb_in x l : memb x l = false -> ~ In x l.
Proof.
  induction l as [|y l IH]; cbn; [tauto|]. intros H. apply orb_false_iff in H. destruct H as [E H].
  apply String.eqb_neq in E. intros [K|K]; [congruence|]. exact (IH H K).
Qed.
Lemma nodupb_ok l : nodupb l = true -> NoDup l.
Proof.
  induction l as [|x l IH]; cbn; [constructor|]. intros H. apply andb_true_iff in H. destruct H as [E H].
  constructor; [apply memb_in; now apply negb_true_iff|auto].
Qed.
Lemma program_names : NoDup (map k_name program).
Proof. apply nodupb_ok. vm_compute. reflexivity. Qed.

Ltac each H := cbn in H; repeat (destruct H as [<-|H]; [|]); [..|destruct H].

(** ** The kernels that are found *)
Definition bk (b : bname) (s : shape) (t : ety) : kernel :=
  {| k_name := binary_kernel b s ++ "_" ++ tname t;
     k_params := [PBuf "dst" t; (match s with ScalarLhs => PVal | _ => PBuf end) "lhs" t;
                  (match s with ScalarRhs => PVal | _ => PBuf end) "rhs" t];
     k_body := Binary (symbol b) ((match s with ScalarLhs => Val | _ => Elem end) "lhs")
                                 ((match s with ScalarRhs => Val | _ => Elem end) "rhs") |}.
Lemma binary_find b s t : numeric t -> find_kernel (binary_kernel b s ++ "_" ++ tname t) = Some (bk b s t).
Proof. intros H. each H; destruct b, s; vm_compute; reflexivity. Qed.
Definition ubody (u : uname) (t : ety) : body :=
  match u with
  | Neg => Minus (Elem "data") | Abs => AbsIf (Elem "data")
  | Floor | Ceil => match t with F32 | F64 => Call (math_name u) (Elem "data") | _ => Copy (Elem "data") end
  | _ => match t with F32 | F64 => Call (math_name u) (Elem "data") | _ => CallCast (math_name u) (Elem "data") end
  end.
Definition uk (u : uname) (t : ety) : kernel :=
  {| k_name := unary_kernel u ++ "_" ++ tname t; k_params := [PBuf "dst" t; PBuf "data" t]; k_body := ubody u t |}.
Lemma unary_find u t : numeric t -> u <> Exp2 -> u <> Exp10 ->
  find_kernel (unary_kernel u ++ "_" ++ tname t) = Some (uk u t).
Proof. intros H E1 E2. each H; destruct u; try congruence; vm_compute; reflexivity. Qed.
Lemma unary_missing u t : numeric t -> u = Exp2 \/ u = Exp10 -> find_kernel (unary_kernel u ++ "_" ++ tname t) = None.
Proof. intros H [-> | ->]; each H; vm_compute; reflexivity. Qed.

Lemma wide_numeric t : wide t -> numeric t.
Proof. unfold wide, numeric. cbn. tauto. Qed.
Lemma wide_size t : wide t -> Nat.leb (tsize t) 2 = false.
Proof. intros H. each H; reflexivity. Qed.
Lemma narrow_size t : narrow t -> Nat.leb (tsize t) 2 = true.
Proof. intros H. each H; reflexivity. Qed.

Lemma run_binary asserts b s t a1 a2 a3 : wide t ->
  run_linear asserts t false (binary_kernel b s) [a1; a2; a3] =
  let ps := k_params (bk b s t) in let l := map (cast_arg t) [a1; a2; a3] in
  if all2 fits ps l then
    if all2 same_type ps l then Ran (bk b s t) (combine (map pname ps) (map hname l)) else Undefined
  else failed asserts.
Proof.
  intros W. unfold run_linear. rewrite (wide_size _ W). unfold enqueue.
  rewrite (binary_find b s t (wide_numeric _ W)). reflexivity.
Qed.

Lemma binary_ok asserts b s ta tb t : wide t -> functor_type b ta tb = Some t ->
  (s <> ScalarLhs -> ta = t) -> (s <> ScalarRhs -> tb = t) ->
  runs_binary b s t (binary_op asserts b s ta tb t).
Proof.
  intros W F A B. unfold binary_op. rewrite F, (run_binary _ _ _ _ _ _ _ W).
  assert (E := ety_eqb_refl t).
  assert (N : Nat.eqb (tsize t) (tsize t) = true) by apply Nat.eqb_refl.
  destruct s; try rewrite (A ltac:(discriminate)); try rewrite (B ltac:(discriminate));
    cbn; rewrite ?E, ?N; cbn.
  1: exists (bk b Arrays t), [("dst", "result"); ("lhs", "left"); ("rhs", "right")], (Elem "lhs"), (Elem "rhs").
  2: exists (bk b ScalarRhs t), [("dst", "result"); ("lhs", "left"); ("rhs", "right")], (Elem "lhs"), (Val "rhs").
  3: exists (bk b ScalarLhs t), [("dst", "result"); ("lhs", "left"); ("rhs", "right")], (Val "lhs"), (Elem "rhs").
  all: split; [reflexivity|].
  all: split; [intros n u I; cbn in I; intuition congruence|].
  all: split; [reflexivity|]; cbn; repeat split; auto; discriminate.
Qed.
Lemma binary_bad asserts b s ta tb d t : wide t -> functor_type b ta tb = Some t ->
  (s <> ScalarLhs /\ ta <> t) \/ (s <> ScalarRhs /\ tb <> t) \/ d <> t ->
  binary_op asserts b s ta tb d = Undefined.
Proof.
  intros W F D. unfold binary_op. rewrite F, (run_binary _ _ _ _ _ _ _ W).
  assert (N : Nat.eqb (tsize t) (tsize t) = true) by apply Nat.eqb_refl.
  assert (G : all2 same_type (k_params (bk b s t)) (map (cast_arg t)
     [HBuf "result" d; (match s with ScalarLhs => HVal | _ => HBuf end) "left" ta;
      (match s with ScalarRhs => HVal | _ => HBuf end) "right" tb]) = false).
  { destruct D as [[S D]|[[S D]|D]].
    - pose proof (ety_eqb_neq t ta ltac:(congruence)) as E.
      destruct s; try congruence; cbn; rewrite E, ?andb_false_r; reflexivity.
    - pose proof (ety_eqb_neq t tb ltac:(congruence)) as E.
      destruct s; try congruence; cbn; rewrite E, ?andb_false_r; reflexivity.
    - pose proof (ety_eqb_neq t d ltac:(congruence)) as E. cbn. rewrite E. reflexivity. }
  cbv zeta. rewrite G. destruct s; cbn; rewrite ?N; reflexivity.
Qed.

Lemma integral_dec t : numeric t ->
  (integral t /\ t <> F32 /\ t <> F64) \/ (~ integral t /\ (t = F32 \/ t = F64)).
Proof. intros H. unfold integral. each H; cbn; first [left; split; [tauto|split; discriminate]|right; split; [intuition discriminate|tauto]]. Qed.
Lemma unary_ok asserts u t : wide t -> u <> Exp2 -> u <> Exp10 -> runs_unary u t (unary_op asserts u t t).
Proof.
  intros W E1 E2. unfold unary_op, run_linear. rewrite (wide_size _ W). unfold enqueue.
  rewrite (unary_find u t (wide_numeric _ W) E1 E2). cbn. rewrite (ety_eqb_refl t). cbn.
  exists (uk u t), [("dst", "result"); ("data", "operand")], "data". split; [reflexivity|].
  split; [intros n v I; cbn in I; intuition congruence|].
  split; [|split; reflexivity].
  destruct (integral_dec t (wide_numeric _ W)) as [(I & A & B)|(I & [-> | ->])].
  - destruct u; cbn; auto; left; split; auto; destruct t; congruence.
  - destruct u; cbn; auto.
  - destruct u; cbn; auto.
Qed.
Lemma unary_none asserts u t d : wide t -> u = Exp2 \/ u = Exp10 -> unary_op asserts u t d = failed asserts.
Proof.
  intros W E. unfold unary_op, run_linear. rewrite (wide_size _ W). unfold enqueue.
  rewrite (unary_missing u t (wide_numeric _ W) E). reflexivity.
Qed.

(** ** Random numbers, activations, transposes *)
Ltac named := do 2 eexists; repeat split; try (vm_compute; reflexivity); try (intros n u I; cbn in I; intuition congruence).
Definition fill_binding := [("data", "array"); ("elements", "number of elements"); ("lower", "lower bound");
  ("upper", "upper bound"); ("seeds", "seeds"); ("numSeeds", "number of seeds")].
Lemma fill_ok asserts t : wide t -> runs_named "random" t fill_binding (fill_random asserts t).
Proof. intros H. each H; named. Qed.
Lemma sigmoid_ok asserts t : wide t ->
  runs_named "sigmoid" t [("dst", "result"); ("data", "operand")] (sigmoid_forward asserts t) /\
  runs_named "sigmoid gradient" t [("dst", "result"); ("data", "operand")] (sigmoid_backward asserts t).
Proof. intros H. each H; split; named. Qed.
Definition transpose_binding := [("out", "result"); ("in", "operand"); ("rows", "rows"); ("cols", "columns"); ("alpha", "factor")].
Lemma transpose_ok asserts t : numeric t -> ~ unsigned t -> runs_named "transpose" t transpose_binding (transpose asserts t).
Proof. intros H U. each H; try (exfalso; apply U; cbn; tauto); named. Qed.
Lemma transpose_none asserts t : unsigned t -> transpose asserts t = failed asserts.
Proof. intros H. each H; destruct asserts; vm_compute; reflexivity. Qed.

(** ** Products *)
Definition gemm_binding := [("transA", "transA"); ("transB", "transB"); ("M", "m"); ("N", "n"); ("K", "k"); ("alpha", "alpha");
  ("A", "a"); ("lda", "lda"); ("B", "b"); ("ldb", "ldb"); ("beta", "beta"); ("C", "c"); ("ldc", "ldc")].
Definition gemv_binding := [("trans", "trans"); ("M", "m"); ("N", "n"); ("alpha", "alpha"); ("A", "a"); ("lda", "lda");
  ("x", "x"); ("incX", "incX"); ("beta", "beta"); ("y", "y"); ("incy", "incY")].
Definition product_ok (what : string) (t : ety) binding (r : result) : Prop :=
  (t = F32 \/ t = F64) /\ r = Library t \/ integral t /\ runs_named what t binding r.
Lemma gemm_ok asserts t : wide t -> product_ok "gemm" t gemm_binding (gemm_op asserts t t t).
Proof.
  intros H. each H; unfold product_ok; first [left; split; [tauto|reflexivity]|right; split; [unfold integral; cbn; tauto|named]].
Qed.
Lemma gemv_ok asserts t : wide t -> product_ok "gemv" t gemv_binding (gemv_op asserts t t t).
Proof.
  intros H. each H; unfold product_ok; first [left; split; [tauto|reflexivity]|right; split; [unfold integral; cbn; tauto|named]].
Qed.

Lemma product_numeric ta tb : numeric ta -> numeric tb -> exists t, product_type ta tb = Some t /\ wide t.
Proof.
  intros A B. unfold product_type.
  assert (L : forall t, numeric t -> exists n, level t = Some n) by (intros t H; each H; eexists; reflexivity).
  destruct (L _ A) as [m ->], (L _ B) as [n ->]. eexists. split; [reflexivity|].
  generalize (Nat.max m n). intros k. unfold wide. do 6 (destruct k as [|k]; [cbn; tauto|]). cbn. tauto.
Qed.
Lemma wide_self t : wide t -> product_type t t = Some t.
Proof. intros H. each H; reflexivity. Qed.
Definition gk what (t : ety) : kernel :=
  {| k_name := "gemm_" ++ what;
    k_params := [PVal "transA" I32; PVal "transB" I32; PVal "M" I32; PVal "N" I32; PVal "K" I32; PVal "alpha" t;
                 PBuf "A" t; PVal "lda" I32; PBuf "B" t; PVal "ldb" I32; PVal "beta" t; PBuf "C" t; PVal "ldc" I32];
    k_body := Named "gemm" |}.
Definition vk what (t : ety) : kernel :=
  {| k_name := "gemv_" ++ what;
    k_params := [PVal "trans" I32; PVal "M" I32; PVal "N" I32; PVal "alpha" t; PBuf "A" t; PVal "lda" I32;
                 PBuf "x" t; PVal "incX" I32; PVal "beta" t; PBuf "y" t; PVal "incy" I32];
    k_body := Named "gemv" |}.
Lemma gemm_find t : numeric t -> find_kernel ("gemm_" ++ tname t) = Some (gk (tname t) t).
Proof. intros H. each H; vm_compute; reflexivity. Qed.
Lemma gemv_find t : numeric t -> find_kernel ("gemv_" ++ tname t) = Some (vk (tname t) t).
Proof. intros H. each H; vm_compute; reflexivity. Qed.
Lemma product_bad asserts ta tb d : numeric ta -> numeric tb -> ~ (ta = tb /\ tb = d /\ wide d) ->
  gemm_op asserts ta tb d = Undefined /\ gemv_op asserts ta tb d = Undefined.
Proof.
  intros A B D. unfold gemm_op, gemv_op.
  destruct (product_numeric _ _ A B) as (t & E & W). rewrite E, (wide_self _ W).
  assert (X : t <> ta \/ t <> tb \/ t <> d).
  { destruct (ety_eqb t ta) eqn:E1; [|left; intros ->; rewrite ety_eqb_refl in E1; discriminate].
    destruct (ety_eqb t tb) eqn:E2; [|right; left; intros ->; rewrite ety_eqb_refl in E2; discriminate].
    destruct (ety_eqb t d) eqn:E3; [|right; right; intros ->; rewrite ety_eqb_refl in E3; discriminate].
    apply ety_eqb_eq in E1, E2, E3. subst. exfalso. apply D. auto. }
  assert (F : forall P Q R : bool, P && (ety_eqb t ta && (Q && (ety_eqb t tb && (R && ety_eqb t d)))) = false).
  { intros P Q R. destruct X as [X|[X|X]]; rewrite (ety_eqb_neq _ _ X), ?andb_false_r; reflexivity. }
  assert (L : library t [ta; tb; d] = Undefined).
  { unfold library. cbn. destruct X as [X|[X|X]]; rewrite (ety_eqb_neq _ _ X), ?andb_false_r; reflexivity. }
  rewrite L. destruct (blas_type t); [auto|]. unfold enqueue.
  rewrite (gemm_find _ (wide_numeric _ W)), (gemv_find _ (wide_numeric _ W)). cbn.
  rewrite Nat.eqb_refl, ety_eqb_refl. cbn.
  destruct X as [X|[X|X]]; rewrite (ety_eqb_neq _ _ X), ?andb_false_r; auto.
Qed.

(** ** Class types *)
Lemma class_missing base t : (exists e, t = Dual e) \/ (exists e, t = Cplx e) \/ t = Half ->
  In base (map unary_kernel [Neg; Sin; Cos; Tan; Asin; Acos; Atan; Sinh; Cosh; Tanh; Asinh; Acosh; Atanh; Exp; Exp2; Exp10;
    Log; Log2; Log10; Sqrt; Cbrt; Abs; Floor; Ceil]) \/ (exists b s, base = binary_kernel b s) \/
  In base ["fillRandom"; "sigmoidActivationForward"; "sigmoidActivationBackward"; "transpose"; "gemm"; "gemv"] ->
  find_kernel (base ++ "_" ++ tname t) = None.
Proof.
  intros T B.
  assert (N : In (tname t) ["Dual_T"; "Complex"; "half"]).
  { destruct T as [[e ->]|[[e ->]| ->]]; cbn; tauto. }
  destruct B as [B|[(b & s & ->)|B]].
  - each B; each N; vm_compute; reflexivity.
  - each N; destruct b, s; vm_compute; reflexivity.
  - each B; each N; vm_compute; reflexivity.
Qed.

Lemma find_self k : In k program -> find_kernel (k_name k) = Some k.
Proof.
  unfold find_kernel. pose proof program_names as N. revert N. generalize program. intros l N I.
  induction l as [|x l IH]; [destruct I|]. cbn. inversion N; subst.
  destruct (String.eqb (k_name x) (k_name k)) eqn:E.
  - destruct I as [->|I]; [reflexivity|]. apply String.eqb_eq in E. exfalso. apply H1. rewrite E. now apply in_map.
  - destruct I as [->|I]; [now rewrite String.eqb_refl in E|auto].
Qed.

Lemma narrow_rejected asserts u b s t d : narrow t ->
  unary_op asserts u t d = Rejected /\ fill_random asserts t = Rejected /\
  sigmoid_forward asserts t = Rejected /\ sigmoid_backward asserts t = Rejected /\
  (functor_type b t t = Some t -> binary_op asserts b s t t d = Rejected).
Proof.
  intros N. pose proof (narrow_size _ N) as S.
  unfold unary_op, fill_random, sigmoid_forward, sigmoid_backward, binary_op, run_linear. rewrite S.
  repeat split; auto. intros ->. now rewrite S.
Qed.

Lemma product_all asserts t : wide t ->
  ((t = F32 \/ t = F64) /\ gemm_op asserts t t t = Library t /\ gemv_op asserts t t t = Library t) \/
  (integral t /\ runs_named "gemm" t gemm_binding (gemm_op asserts t t t) /\ runs_named "gemv" t gemv_binding (gemv_op asserts t t t)).
Proof.
  intros W. destruct (gemm_ok asserts t W) as [[F A]|[I A]], (gemv_ok asserts t W) as [[G B]|[J B]]; auto.
  - exfalso. destruct F as [-> | ->]; cbn in J; intuition discriminate.
  - exfalso. destruct G as [-> | ->]; cbn in I; intuition discriminate.
Qed.

Lemma uname_all u : In (unary_kernel u) (map unary_kernel [Neg; Sin; Cos; Tan; Asin; Acos; Atan; Sinh; Cosh; Tanh; Asinh; Acosh; Atanh; Exp; Exp2; Exp10;
    Log; Log2; Log10; Sqrt; Cbrt; Abs; Floor; Ceil]).
Proof. apply in_map. destruct u; cbn; tauto. Qed.
Lemma class_nothing e u b s t : (t = Dual e \/ t = Cplx e) -> (2 < tsize t)%nat ->
  unary_op false u t t = Nothing /\ binary_op false b s t t t = Nothing /\ fill_random false t = Nothing /\ transpose false t = Nothing.
Proof.
  intros T S.
  assert (C : (exists e, t = Dual e) \/ (exists e, t = Cplx e) \/ t = Half) by (destruct T; eauto).
  assert (L : Nat.leb (tsize t) 2 = false) by (apply Nat.leb_gt; exact S).
  assert (P : product_type t t = Some t).
  { unfold product_type. replace (level t) with (@None nat) by (destruct T as [-> | ->]; reflexivity). now rewrite ety_eqb_refl. }
  assert (F : functor_type b t t = Some t).
  { destruct b; cbn; auto; unfold common_type; now rewrite ety_eqb_refl. }
  unfold unary_op, binary_op, fill_random, transpose, run_linear, enqueue. rewrite F, L.
  rewrite (class_missing (unary_kernel u) t C) by (left; apply uname_all).
  rewrite (class_missing (binary_kernel b s) t C) by (right; left; eauto).
  rewrite (class_missing "fillRandom" t C) by (right; right; cbn; tauto).
  change ("transpose_" ++ tname t) with ("transpose" ++ "_" ++ tname t).
  rewrite (class_missing "transpose" t C) by (right; right; cbn; tauto). auto.
Qed.

Lemma names_ok t u : numeric t -> numeric u -> tname t = dname t /\ (tname t = tname u -> t = u).
Proof. intros A B. split; [each A; reflexivity|]. intros E. each A; each B; try reflexivity; discriminate E. Qed.
