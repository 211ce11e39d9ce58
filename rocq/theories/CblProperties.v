(** C114: with an external BLAS library the routines have the same effect as without one. *)
From Coq Require Import ZArith Lia List Ring Ring_theory Field_theory Bool Ascii.
From Verif Require Import Base MatmulModel MatmulSpec MatmulProofs BlasModel BlasSpec BlasProofs TriModel TriSpec TriProofs SymSpec PackModel PackSpec
  CblModel CblSpec CblProofs.
From Coq Require Import ZifyNat ZifyN ZifyBool.
Ltac Zify.zify_post_hook ::= idtac.
Import ListNotations.
Local Open Scope Z_scope.

(** The characters of the Fortran interface: a round trip, and different values have different characters. *)
Theorem C114_chars :
  (forall t, char_trans (trans_char t) = Some t) /\ (forall dg, char_diag (diag_char dg) = Some dg) /\ (forall up, char_uplo (uplo_char up) = Some up) /\
  (forall s t, trans_char s = trans_char t -> s = t).
Proof.
  split; [intros []; reflexivity|]. split; [intros []; reflexivity|]. split; [intros []; reflexivity|].
  intros [] []; cbn; congruence.
Qed.
Print Assumptions C114_chars.
Example C114_chars_ex : char_trans "r" = Some Conj /\ trans_char Conj = "R"%char /\ char_trans "x" = None.
Proof. repeat split. Qed.

(** The contracts can be met: the generic routines do, read with the meaning of each code. *)
Theorem C114_contracts : forall A (d zero one : A) (add sub mul div : A -> A -> A) opp inv conj is_zero ext,
  field_theory zero one add mul sub opp div inv eq -> semiring zero one add mul is_zero -> conjugation zero add mul conj -> conjugate zero one conj ->
  gemv_contract zero add mul conj ext (fun o c m n alpha a lda x px ix beta y py iy =>
    gemv_generic zero add mul is_zero conj o (meaning c) false m n alpha a 0 lda x px ix beta y py iy) /\
  gbmv_contract d zero add mul conj ext (fun o c => gbmv zero add mul conj is_zero o (meaning c) false) /\
  trmv_contract d zero one add mul conj ext (fun o up c => trmv zero add mul conj o up (meaning c)) /\
  trsv_contract d zero one add mul conj ext (fun o up c => trsv zero add sub mul div conj o up (meaning c)) /\
  trmm_contract d zero one add mul conj ext (fun o sd up c => trmm zero add mul conj is_zero o sd up (meaning c)) /\
  trsm_contract d zero one add mul conj ext (fun o sd up c => trsm zero add sub mul div conj o sd up (meaning c)).
Proof.
  intros A d zero one add sub mul div opp inv conj is_zero ext F SR CJ C1. split; [|split; [|split; [|split; [|split]]]]; intros ? **.
  - now apply (gemv_generic_effect zero one).
  - now apply (gbmv_generic_effect d zero one).
  - apply trmv_generic_effect; [exact (proj1 SR)|auto].
  - now apply (trsv_generic_effect d zero one add sub mul div opp inv).
  - now apply trmm_generic_effect.
  - now apply (trsm_generic_effect d zero one add sub mul div opp inv).
Qed.
Print Assumptions C114_contracts.

(** Complex matrices: all four operations, every configuration, even if the library cannot conjugate without
    transposing. *)
Theorem C114_gemv : forall A (zero one : A) add mul conj is_zero mkl nt l o t m n alpha a lda x px ix beta y py iy,
  semiring zero one add mul is_zero -> conjugation zero add mul conj -> gemv_contract zero add mul conj false l ->
  gemv_effect zero add mul conj o t m n alpha a lda x px ix beta y py iy
    (gemv_complex zero add mul conj is_zero mkl nt l o t m n alpha a lda x px ix beta y py iy).
Proof. intros. now apply gemv_complex_ok with (one := one). Qed.
Print Assumptions C114_gemv.

Definition C114_zero : Z * Z := (0, 0).
Definition C114_one : Z * Z := (1, 0).
Definition C114_add := cadd Z.add.
Definition C114_mul := cmul Z.add Z.sub Z.mul.
Definition C114_conj := cconj Z.opp.
Definition C114_is_zero (v : Z * Z) : bool := (fst v =? 0) && (snd v =? 0).
Definition C114_lib : @gemv_fn (Z * Z) := fun o c m n alpha a lda x px ix beta y py iy =>
  gemv_generic C114_zero C114_add C114_mul C114_is_zero C114_conj o (meaning c) false m n alpha a 0 lda x px ix beta y py iy.
(** Gaussian integers: the conjugate of a 1 x 2 matrix, asked for in both orders. *)
Example C114_gemv_ex :
  semiring C114_zero C114_one C114_add C114_mul C114_is_zero /\ conjugation C114_zero C114_add C114_mul C114_conj /\
  gemv_contract C114_zero C114_add C114_mul C114_conj false C114_lib /\
  gemv_complex C114_zero C114_add C114_mul C114_conj C114_is_zero true false C114_lib RowMajor Conj 1 2 C114_one [(1, 1); (2, 3)] 2 [(1, 0); (0, 1)] 0 1 C114_one
    [(10, 0)] 0 1 = Ok [(14, 1)] /\
  gemv_complex C114_zero C114_add C114_mul C114_conj C114_is_zero true true C114_lib ColMajor Conj 1 2 C114_one [(1, 1); (2, 3)] 1 [(1, 0); (0, 1)] 0 1 C114_one
    [(10, 0)] 0 1 = Ok [(14, 1)].
Proof.
  assert (SR : semiring C114_zero C114_one C114_add C114_mul C114_is_zero).
  { split.
    - constructor; unfold C114_zero, C114_one, C114_add, C114_mul, cadd, cmul; cbn [fst snd]; intros; repeat match goal with v : (Z * Z)%type |- _ => destruct v end;
        cbn [fst snd]; f_equal; ring.
    - intros [u v]. unfold C114_is_zero, C114_zero. cbn [fst snd]. split; [intros H; f_equal; lia|]. intros H. injection H as -> ->. reflexivity. }
  assert (CJ : conjugation C114_zero C114_add C114_mul C114_conj).
  { split; [reflexivity|]. split; intros [u v] [w z]; unfold C114_conj, C114_add, C114_mul, cadd, cmul, cconj; cbn [fst snd]; f_equal; ring. }
  split; [exact SR|]. split; [exact CJ|]. split; [|split; vm_compute; reflexivity].
  intros ? **. now apply (gemv_generic_effect C114_zero C114_one).
Qed.

Theorem C114_gbmv : forall A (d zero one : A) add mul conj is_zero mkl nt l o t rows cols kl ku alpha a lda x incX beta y incY m,
  semiring zero one add mul is_zero -> conjugation zero add mul conj -> gbmv_contract d zero add mul conj false l ->
  gbmv_effect d zero add mul conj o t rows cols kl ku alpha a lda x incX beta y incY m
    (gbmv_complex zero add mul conj is_zero mkl nt l o t rows cols kl ku alpha a lda x incX beta y incY m).
Proof. intros. now apply gbmv_complex_ok with (one := one). Qed.
Print Assumptions C114_gbmv.
(** The conjugate of (1+i 2+3i; 0 i), kept as a band. *)
Example C114_gbmv_ex : forall mkl nt,
  gbmv_complex C114_zero C114_add C114_mul C114_conj C114_is_zero mkl nt (fun o c => gbmv C114_zero C114_add C114_mul C114_conj C114_is_zero o (meaning c) false)
    RowMajor Conj 2 2 0 1 C114_one 0 2 4 1 C114_zero 6 1 [(1, 1); (2, 3); (0, 1); (7, 7); (1, 0); (0, 1); (5, 5); (5, 5)] =
    Ok [(1, 1); (2, 3); (0, 1); (7, 7); (1, 0); (0, 1); (4, 1); (1, 0)].
Proof. intros [] []; vm_compute; reflexivity. Qed.

(** gemm: all but the combinations that the generic routine gets wrong (C57). *)
Theorem C114_gemm_partial : forall A (zero one : A) add mul conj is_zero mkl l o ta tb m n k alpha a lda b ldb beta c ldc sched,
  semiring zero one add mul is_zero -> conjugation zero add mul conj -> gemm_contract zero add mul conj false l ->
  match o with RowMajor => gemm_right ta tb | ColMajor => gemm_right tb ta end ->
  interleaving (match o with RowMajor => n | ColMajor => m end) (column_program (match o with RowMajor => m | ColMajor => n end) k) sched ->
  gemm_effect zero add mul conj o ta tb m n k alpha a lda b ldb beta c ldc
    (gemm_complex zero one add mul conj is_zero mkl l o ta tb m n k alpha a lda b ldb beta c ldc sched).
Proof. intros. now apply gemm_complex_ok. Qed.
Print Assumptions C114_gemm_partial.
Example C114_gemm_ex : forall l, gemm_right NoTrans Conj /\
  gemm_complex C114_zero C114_one C114_add C114_mul C114_conj C114_is_zero true l RowMajor NoTrans Conj 1 1 1 C114_one [(1, 1)] 1 [(2, 3)] 1 C114_zero [(9, 9)] 1
    (serial_schedule 1 1 1) = Ok [(5, -1)].
Proof. intros l. split; [split; intros [E F]; discriminate|vm_compute; reflexivity]. Qed.

(** Triangular matrices: the overloads that leave conjugation to the generic routine. *)
Theorem C114_triangular : forall A (d zero one : A) (add sub mul div : A -> A -> A) opp inv conj is_zero mkl l1 l2 l3 l4,
  field_theory zero one add mul sub opp div inv eq -> semiring zero one add mul is_zero -> conjugate zero one conj ->
  (trmv_contract d zero one add mul conj false l1 -> forall o up t dg n a lda x inc m,
     trmv_effect d zero one add mul conj o up t dg n a lda x inc m (trmv_guarded zero add mul conj mkl l1 o up t dg n a lda x inc m)) /\
  (trsv_contract d zero one add mul conj false l2 -> forall o up t dg n a lda x inc m,
     trsv_effect d zero one add mul conj o up t dg n a lda x inc m (trsv_guarded zero add sub mul div conj mkl l2 o up t dg n a lda x inc m)) /\
  (trmm_contract d zero one add mul conj false l3 -> forall o sd up t dg rows cols alpha a lda b ldb m,
     trmm_effect d zero one add mul conj o sd up t dg rows cols alpha a lda b ldb m
       (trmm_guarded zero add mul conj is_zero mkl l3 o sd up t dg rows cols alpha a lda b ldb m)) /\
  (trsm_contract d zero one add mul conj false l4 -> forall o sd up t dg rows cols alpha a lda b ldb m,
     trsm_effect d zero one add mul conj o sd up t dg rows cols alpha a lda b ldb m
       (trsm_guarded zero add sub mul div conj mkl l4 o sd up t dg rows cols alpha a lda b ldb m)).
Proof.
  intros A d zero one add sub mul div opp inv conj is_zero mkl l1 l2 l3 l4 F SR CJ. split; [|split; [|split]]; intros HL **.
  - apply trmv_guarded_ok; auto. exact (proj1 SR).
  - now apply (trsv_guarded_ok d zero one add sub mul div opp inv).
  - now apply trmm_guarded_ok.
  - now apply (trsm_guarded_ok d zero one add sub mul div opp inv).
Qed.
Print Assumptions C114_triangular.
Example C114_triangular_ex : forall mkl,
  trmv_guarded C114_zero C114_add C114_mul C114_conj mkl (fun o up c => trmv C114_zero C114_add C114_mul C114_conj o up (meaning c))
    RowMajor Upper Conj NonUnit 2 0 2 4 1 [(1, 1); (2, 3); (9, 9); (0, 1); (1, 0); (0, 1)] = Ok [(1, 1); (2, 3); (9, 9); (0, 1); (4, 1); (1, 0)].
Proof. intros []; vm_compute; reflexivity. Qed.

(** The overloads that pass the operation on (all real types, and ctrmv): right if the library has a code for it. *)
Theorem C114_plain_partial : forall A (d zero one : A) add mul conj mkl ext t lv lb l1 l2 l3 l4,
  (mkl = false /\ ext = true) \/ t <> Conj ->
  (gemv_contract zero add mul conj ext lv -> forall o m n alpha a lda x px ix beta y py iy,
     gemv_effect zero add mul conj o t m n alpha a lda x px ix beta y py iy (gemv_real mkl lv o t m n alpha a lda x px ix beta y py iy)) /\
  (gbmv_contract d zero add mul conj ext lb -> forall o rows cols kl ku alpha a lda x incX beta y incY m,
     gbmv_effect d zero add mul conj o t rows cols kl ku alpha a lda x incX beta y incY m
       (gbmv_real mkl lb o t rows cols kl ku alpha a lda x incX beta y incY m)) /\
  (trmv_contract d zero one add mul conj ext l1 -> forall o up dg n a lda x inc m,
     trmv_effect d zero one add mul conj o up t dg n a lda x inc m (trmv_plain mkl l1 o up t dg n a lda x inc m)) /\
  (trsv_contract d zero one add mul conj ext l2 -> forall o up dg n a lda x inc m,
     trsv_effect d zero one add mul conj o up t dg n a lda x inc m (trsv_plain mkl l2 o up t dg n a lda x inc m)) /\
  (trmm_contract d zero one add mul conj ext l3 -> forall o sd up dg rows cols alpha a lda b ldb m,
     trmm_effect d zero one add mul conj o sd up t dg rows cols alpha a lda b ldb m
       (trmm_plain mkl l3 o sd up t dg rows cols alpha a lda b ldb m)) /\
  (trsm_contract d zero one add mul conj ext l4 -> forall o sd up dg rows cols alpha a lda b ldb m,
     trsm_effect d zero one add mul conj o sd up t dg rows cols alpha a lda b ldb m
       (trsm_plain mkl l4 o sd up t dg rows cols alpha a lda b ldb m)).
Proof. intros. now apply plain_ok. Qed.
Print Assumptions C114_plain_partial.
Theorem C114_gemm_real_partial : forall A (zero : A) add mul conj mkl ext ta tb l,
  (mkl = false /\ ext = true) \/ (ta <> Conj /\ tb <> Conj) -> gemm_contract zero add mul conj ext l ->
  forall o m n k alpha a lda b ldb beta c ldc,
  gemm_effect zero add mul conj o ta tb m n k alpha a lda b ldb beta c ldc (gemm_real mkl l o ta tb m n k alpha a lda b ldb beta c ldc).
Proof. intros. now apply gemm_real_ok with (ext := ext). Qed.
Print Assumptions C114_gemm_real_partial.
(** (1 2; 3 4) (1, 0) and (1, 0) (1 2; 3 4) *)
Example C114_plain_ex :
  let lib : @gemv_fn Z := fun o c m n alpha a lda x px ix beta y py iy =>
    gemv_generic 0 Z.add Z.mul (Z.eqb 0) (fun v => v) o (meaning c) false m n alpha a 0 lda x px ix beta y py iy in
  gemv_real false lib RowMajor Conj 2 2 1 [1; 2; 3; 4] 2 [1; 0] 0 1 0 [0; 0] 0 1 = Ok [1; 3] /\
  gemv_real true lib RowMajor Trans 2 2 1 [1; 2; 3; 4] 2 [1; 0] 0 1 0 [0; 0] 0 1 = Ok [1; 2] /\
  gemm_real true (fun o ca cb m n k alpha a lda b ldb beta c ldc =>
      gemm 0 1 Z.add Z.mul (Z.eqb 0) (fun v => v) o (meaning ca) (meaning cb) m n k alpha a lda b ldb beta c ldc (serial_schedule n m k))
    RowMajor Trans NoTrans 1 1 2 1 [1; 2] 1 [3; 4] 1 10 [5] 1 = Ok [61].
Proof. cbv zeta. repeat split; vm_compute; reflexivity. Qed.

(** With MKL or Accelerate every library that keeps its contract transposes a real matrix that should be "conjugated": the
    generic routine does not. *)
Theorem C114_conj_refuted : forall l, gemv_contract 0 Z.add Z.mul (fun v => v) false l ->
  ~ gemv_effect 0 Z.add Z.mul (fun v => v) RowMajor Conj 2 2 1 [1; 2; 3; 4] 2 [1; 0] 0 1 0 [0; 0] 0 1
      (gemv_real true l RowMajor Conj 2 2 1 [1; 2; 3; 4] 2 [1; 0] 0 1 0 [0; 0] 0 1).
Proof.
  intros l HL HE. pose (a := [1; 2; 3; 4]). pose (g := fun k => nth k [1; 0] 0).
  destruct (HE (fun i k => nth (i * 2 + k) a 0) g) as (y1 & E1 & _ & V1 & _); try (unfold is_matrix; cbn [is_trans]; lia).
  { intros [|[|i]] [|[|k]] Hi Hk; cbn [is_trans] in *; try lia; reflexivity. }
  { intros [|[|k]] Hk; cbn [is_trans] in *; try lia; reflexivity. }
  { intros i Hi. cbn [is_trans length] in *. lia. }
  destruct (HL RowMajor CblasConjTrans 2%nat 2%nat 1 a 2%nat [1; 0] 0%nat 1%nat 0 [0; 0] 0%nat 1%nat) with (f := fun i k => nth (k * 2 + i) a 0) (g := g)
    as (y2 & E2 & _ & V2 & _); try (unfold is_matrix; cbn [is_trans meaning]; lia).
  { intros C. discriminate. }
  { intros [|[|i]] [|[|k]] Hi Hk; cbn [is_trans meaning] in *; try lia; reflexivity. }
  { intros [|[|k]] Hk; cbn [is_trans meaning] in *; try lia; reflexivity. }
  { intros i Hi. cbn [is_trans meaning length] in *. lia. }
  change (l RowMajor CblasConjTrans 2%nat 2%nat 1 a 2%nat [1; 0] 0%nat 1%nat 0 [0; 0] 0%nat 1%nat = Ok y1) in E1.
  rewrite E1 in E2. injection E2 as E. subst y2. specialize (V1 1%nat ltac:(cbn [is_trans]; lia)). specialize (V2 1%nat ltac:(cbn [is_trans meaning]; lia)).
  rewrite V1 in V2. vm_compute in V2. discriminate.
Qed.
Print Assumptions C114_conj_refuted.

(** ctrmv, unlike ztrmv, does the same to a complex triangular matrix. *)
Theorem C114_ctrmv_refuted : forall l, trmv_contract C114_zero C114_zero C114_one C114_add C114_mul C114_conj false l ->
  let m := [(1, 0); (2, 3); (9, 9); (0, 1); (1, 0); (0, 0)] in
  ~ trmv_effect C114_zero C114_zero C114_one C114_add C114_mul C114_conj RowMajor Upper Conj NonUnit 2 0 2 4 1 m
      (trmv_plain true l RowMajor Upper Conj NonUnit 2 0 2 4 1 m).
Proof.
  intros l HL m HE.
  assert (HI : inside m 4 1 2). { intros i Hi. unfold elt. change (1 <? 0) with false. cbn [length m]. lia. }
  assert (HK : kept_apart m RowMajor Upper NonUnit 2 0 2 (in_vector 4 1 2)).
  { intros i j Hi Hj _. cbn [cell]. split; [cbn [length m]; lia|]. intros (k & Hk & E). unfold elt in E. change (1 <? 0) with false in E. cbv iota in E. lia. }
  destruct (HE ltac:(lia) HI HK) as (m1 & E1 & _ & V1).
  destruct (HL RowMajor Upper CblasConjTrans NonUnit 2 0 2 4 1 m) as (m2 & E2 & _ & V2); auto; [discriminate|lia|].
  change (l RowMajor Upper CblasConjTrans NonUnit 2 0 2 4 1 m = Ok m1) in E1. rewrite E1 in E2. injection E2 as E. subst m2.
  specialize (V1 1 ltac:(lia)). specialize (V2 1 ltac:(lia)). rewrite V1 in V2. vm_compute in V2. discriminate.
Qed.
Print Assumptions C114_ctrmv_refuted.

(** With CXXBLAS_NO_TEMPORARY an empty matrix scales y, where the other configurations leave it alone. *)
Theorem C114_empty_refuted : forall l,
  gemv_complex 0 Z.add Z.mul (fun v => v) (Z.eqb 0) false true l RowMajor ConjTrans 0 1 1 [] 1 [] 0 1 2 [3] 0 1 <>
  gemv 0 Z.add Z.mul (Z.eqb 0) (fun v => v) RowMajor ConjTrans false 0 1 1 [] 0 1 [] 0 1 2 [3] 0 1.
Proof. intros l. vm_compute. discriminate. Qed.
Print Assumptions C114_empty_refuted.

(** ** Routines made of calls on the real and imaginary parts, any increments *)
Theorem C114_axpy : forall R (d zero one : R) (add sub mul : R -> R -> R) opp l n x incX y incY m,
  ring_theory zero one add mul sub opp eq -> axpy_contract d add mul l -> incY <> 0 ->
  cinside m y incY n -> vector_apart m x incX n (in_cvector y incY n) ->
  (forall alpha, exists m', axpy_mixed l n alpha x incX y incY m = Ok m' /\ changes d m m' (in_cvector y incY n) /\
    forall i, 0 <= i < n -> celt d m' y incY n i =
      cadd add (celt d m y incY n i) (cmul add sub mul alpha (creal zero (val d m (elt x incX n i))))) /\
  (forall alpha, exists m', axpy_real l n alpha x incX y incY m = Ok m' /\ changes d m m' (in_cvector y incY n) /\
    forall i, 0 <= i < n -> celt d m' y incY n i =
      cadd add (celt d m y incY n i) (cmul add sub mul (creal zero alpha) (creal zero (val d m (elt x incX n i))))).
Proof. intros. split; intros alpha; [now apply (axpy_mixed_ok d zero one add sub mul opp)|now apply (axpy_real_ok d zero one add sub mul opp)]. Qed.
Print Assumptions C114_axpy.

Theorem C114_acxpy : forall R (d zero one : R) (add sub mul : R -> R -> R) opp l n alpha x incX y incY m,
  ring_theory zero one add mul sub opp eq -> axpy_contract d add mul l -> incY <> 0 ->
  cinside m y incY n -> vector_apart m x (2 * incX) n (in_cvector y incY n) -> vector_apart m (x + 1) (2 * incX) n (in_cvector y incY n) ->
  exists m', acxpy_split opp l n alpha x incX y incY m = Ok m' /\ changes d m m' (in_cvector y incY n) /\
    forall i, 0 <= i < n -> celt d m' y incY n i =
      cadd add (celt d m y incY n i) (cmul add sub mul (creal zero alpha) (cconj opp (celt d m x incX n i))).
Proof. intros. now apply (acxpy_ok d zero one add sub mul opp). Qed.
Print Assumptions C114_acxpy.

Theorem C114_dot : forall R (d zero one : R) (add sub mul : R -> R -> R) opp l n x incX y incY m,
  ring_theory zero one add mul sub opp eq -> dot_contract d zero add mul l ->
  let X := fun i => val d m (elt x incX n i) in let Y := fun i => val d m (elt y incY n i) in
  let XC := celt d m x incX n in let YC := celt d m y incY n in
  (inside m x incX n -> cinside m y incY n ->
     dotu_rc l n x incX y incY m = Ok (zsum (czero zero) (cadd add) n (fun i => cmul add sub mul (creal zero (X i)) (YC i)))) /\
  (cinside m x incX n -> inside m y incY n ->
     dotu_cr l n x incX y incY m = Ok (zsum (czero zero) (cadd add) n (fun i => cmul add sub mul (XC i) (creal zero (Y i)))) /\
     dot_cr opp l n x incX y incY m = Ok (zsum (czero zero) (cadd add) n (fun i => cmul add sub mul (cconj opp (XC i)) (creal zero (Y i))))).
Proof.
  intros. split; [now apply (dotu_rc_ok d zero one add sub mul opp)|]. intros. split.
  - now apply (dotu_cr_ok d zero one add sub mul opp).
  - now apply (dot_cr_ok d zero one add sub mul opp).
Qed.
Print Assumptions C114_dot.
(** The library's part played by the generic routines; x = (1, 2) backwards, then the complex vector (3+4i, 5+6i). *)
Example C114_parts_ex :
  axpy_contract 0 Z.add Z.mul (axpy Z.add Z.mul) /\ dot_contract 0 0 Z.add Z.mul (dotu 0 Z.add Z.mul) /\
  cinside [1; 2; 3; 4; 5; 6] 2 1 2 /\ vector_apart [1; 2; 3; 4; 5; 6] 0 (-1) 2 (in_cvector 2 1 2) /\
  axpy_mixed (axpy Z.add Z.mul) 2 (10, 100) 0 (-1) 2 1 [1; 2; 3; 4; 5; 6] = Ok [1; 2; 23; 204; 15; 106] /\
  acxpy_split Z.opp (axpy Z.add Z.mul) 1 10 2 1 4 1 [1; 2; 3; 4; 5; 6] = Ok [1; 2; 3; 4; 35; -34] /\
  dotu_rc (dotu 0 Z.add Z.mul) 2 0 (-1) 2 1 [1; 2; 3; 4; 5; 6] = Ok (11, 14) /\
  dot_cr Z.opp (dotu 0 Z.add Z.mul) 2 2 1 0 (-1) [1; 2; 3; 4; 5; 6] = Ok (11, -14).
Proof.
  split; [|split; [|split; [|split; [|repeat split; vm_compute; reflexivity]]]].
  - intros n alpha x incX y incY m HY HI HX. destruct (axpy_ok 0 Z.add Z.mul n alpha x incX y incY m) as (m' & E & V & C); auto.
    + intros i Hi. apply HX, Hi.
    + intros i j Hi Hij Hj E. apply (proj2 (HX j ltac:(lia))). exists i. split; [lia|]. now symmetry.
    + exists m'. auto.
  - intros n x incX y incY m HX HY. unfold zsum. now apply (dotu_ok 0).
  - split; intros i Hi; unfold elt; change (2 * 1 <? 0) with false; cbn [length]; lia.
  - intros i Hi. unfold elt. change (-1 <? 0) with true. cbn [length]. split; [lia|].
    intros [(k & Hk & E)|(k & Hk & E)]; unfold elt in E; change (2 * 1 <? 0) with false in E; cbv iota in E; lia.
Qed.

(** hpr2 reads beyond its real argument alpha. *)
Theorem C114_hpr2_refuted : forall R lhpr2 (alpha : R) m, hpr2_wrapped lhpr2 alpha m = UB.
Proof. reflexivity. Qed.
Print Assumptions C114_hpr2_refuted.

(** ** Level 1, positive lengths and increments: the very result of the generic routines. *)
Theorem C114_level1_partial : forall A B (d zero : A) add mul abs1 (abs : A -> B) gt la ls li n x incX m,
  (forall a b, gt a b = true -> gt b a = false) -> (forall a b c, gt a b = false -> gt b c = false -> gt a c = false) ->
  asum_contract d zero add abs1 la -> scal_contract d mul ls -> iamax_contract d abs gt li ->
  0 < n -> 0 < incX -> inside m x incX n ->
  asum_wrapped la n x incX m = asum zero add abs1 n x incX m /\
  (forall alpha, scal_wrapped ls n alpha x incX m = scal mul n alpha x incX m) /\
  iamax_wrapped li n x incX m = iamax abs gt n x incX m.
Proof. intros. split; [now apply (asum_same d)|]. split; [intros; now apply (scal_same d)|now apply (iamax_same d)]. Qed.
Print Assumptions C114_level1_partial.
(** A library that returns early. *)
Example C114_level1_ex :
  asum_contract 0 0 Z.add Z.abs (fun n x incX m => if (n <? 1) || (incX <? 1) then Ok 0 else asum 0 Z.add Z.abs n x incX m) /\
  iamax_contract 0 Z.abs Z.gtb (fun n x incX m => if (n <? 1) || (incX <? 1) then Ok 0 else iamax Z.abs Z.gtb n x incX m) /\
  scal_contract 0 Z.mul (fun n alpha x incX m => if (n <? 1) || (incX <? 1) then Ok m else scal Z.mul n alpha x incX m) /\
  inside [3; 0; -4] 0 2 2 /\ asum 0 Z.add Z.abs 2 0 2 [3; 0; -4] = Ok 7 /\ iamax Z.abs Z.gtb 2 0 2 [3; 0; -4] = Ok 1.
Proof.
  split; [|split; [|split; [|split; [|split; vm_compute; reflexivity]]]].
  - intros n x incX m. split; intros I; unfold idle in I; [now replace ((n <? 1) || (incX <? 1)) with true by lia|].
    replace ((n <? 1) || (incX <? 1)) with false by lia. intros H. now apply (asum_ok 0).
  - intros n x incX m. split; intros I; unfold idle in I; [now replace ((n <? 1) || (incX <? 1)) with true by lia|].
    replace ((n <? 1) || (incX <? 1)) with false by lia. intros H. apply iamax_ok; auto; intros; lia.
  - intros n alpha x incX m. split; intros I; unfold idle in I; [now replace ((n <? 1) || (incX <? 1)) with true by lia|].
    replace ((n <? 1) || (incX <? 1)) with false by lia. intros H. destruct (scal_ok 0 Z.mul n alpha x incX m H) as (m' & E & V & C); [lia|]. eauto.
  - intros i Hi. unfold elt. change (2 <? 0) with false. cbn [length]. lia.
Qed.
(** The empty vector: index 0 with a library, -1 without. *)
Theorem C114_iamax_empty_refuted : forall l x incX (m : list Z), iamax_contract 0 Z.abs Z.gtb l ->
  iamax_wrapped l 0 x incX m = Ok 0 /\ iamax Z.abs Z.gtb 0 x incX m = Ok (-1).
Proof. intros l x incX m HL. split; [|reflexivity]. apply (proj1 (HL 0 x incX m)). unfold idle. lia. Qed.
Print Assumptions C114_iamax_empty_refuted.
(** Negative increments: the library does nothing, the generic routines walk backwards. *)
Theorem C114_negative_refuted : forall la ls li, asum_contract 0 0 Z.add Z.abs la -> scal_contract 0 Z.mul ls -> iamax_contract 0 Z.abs Z.gtb li ->
  asum_wrapped la 2 0 (-1) [9; 4] = Ok 0 /\ asum 0 Z.add Z.abs 2 0 (-1) [9; 4] = Ok 13 /\
  scal_wrapped ls 2 10 0 (-1) [9; 4] = Ok [9; 4] /\ scal Z.mul 2 10 0 (-1) [9; 4] = Ok [90; 40] /\
  iamax_wrapped li 2 0 (-1) [9; 4] = Ok 0 /\ iamax Z.abs Z.gtb 2 0 (-1) [9; 4] = Ok 1.
Proof.
  intros la ls li HA HS HI. assert (D : idle 2 (-1)) by (unfold idle; lia).
  split; [apply HA, D|]. split; [reflexivity|]. split; [apply HS, D|]. split; [reflexivity|]. split; [apply HI, D|reflexivity].
Qed.
Print Assumptions C114_negative_refuted.
