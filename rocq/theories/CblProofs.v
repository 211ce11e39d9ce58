(** Proofs about the overloads that call a BLAS library. *)
From Coq Require Import ZArith Lia List Ring Ring_theory Field_theory Bool Ascii.
From Verif Require Import Base MatmulModel MatmulSpec MatmulProofs BlasModel BlasSpec BlasProofs TriModel TriSpec TriProofs SymSpec PackModel PackSpec
  PackProofs PackSym CblModel CblSpec.
From Coq Require Import ZifyNat ZifyN ZifyBool.
Ltac Zify.zify_post_hook ::= idtac.
Import ListNotations.
Local Open Scope Z_scope.

(** The code is the requested one, and the library knows it. *)
Lemma code_right mkl ext t : (mkl = false /\ ext = true) \/ t <> Conj -> meaning (cblas_type mkl t) = t /\ accepted ext (cblas_type mkl t).
Proof.
  intros H. unfold accepted. destruct t, mkl, ext; cbn; split; try reflexivity; try congruence; destruct H as [[? ?]|?]; congruence.
Qed.

Lemma is_Conj_false t : is_Conj t = false -> t <> Conj.
Proof. destruct t; cbn; congruence. Qed.

Section Matrices.
Context {A : Type} (d zero one : A) (add sub mul div : A -> A -> A) (opp inv conj : A -> A) (is_zero : A -> bool).

Lemma mat_other o t ld p m i j : mat conj (other_order o) (flip t) ld p m i j = mat conj o t ld p m i j.
Proof. unfold mat. destruct o, t; reflexivity. Qed.

Lemma gemv_generic_effect o t m n alpha a lda x px ix beta y py iy :
  semiring zero one add mul is_zero -> conjugation zero add mul conj ->
  gemv_effect zero add mul conj o t m n alpha a lda x px ix beta y py iy
    (gemv_generic zero add mul is_zero conj o t false m n alpha a 0 lda x px ix beta y py iy).
Proof.
  intros (SR & ZT) CJ f g _ _ HA HX HI HY.
  apply (gemv_generic_ok zero one add mul is_zero SR ZT conj CJ); auto. intros k Hk. eauto.
Qed.

Lemma gemv_redirect o m n alpha a lda x px ix beta y py iy r :
  gemv_effect zero add mul conj (other_order o) ConjTrans n m alpha a lda x px ix beta y py iy r ->
  gemv_effect zero add mul conj o Conj m n alpha a lda x px ix beta y py iy r.
Proof.
  unfold gemv_effect. cbn [is_trans]. intros H f g Hm Hn HA. apply H; auto.
  intros i k Hi Hk. change ConjTrans with (flip Conj). rewrite mat_other. auto.
Qed.

Lemma gemv_straight_ok mkl nt l o t m n alpha a lda x px ix beta y py iy :
  semiring zero one add mul is_zero -> conjugation zero add mul conj -> gemv_contract zero add mul conj false l -> t <> Conj ->
  gemv_effect zero add mul conj o t m n alpha a lda x px ix beta y py iy
    (gemv_straight zero add mul conj is_zero mkl nt l o t m n alpha a lda x px ix beta y py iy).
Proof.
  intros SR CJ HL HT. destruct (code_right mkl false t (or_intror HT)) as [E AC].
  assert (HG : gemv_effect zero add mul conj o t m n alpha a lda x px ix beta y py iy (l o (cblas_type mkl t) m n alpha a lda x px ix beta y py iy)).
  { rewrite <- E at 1. apply HL, AC. }
  unfold gemv_straight. destruct nt; [|exact HG]. destruct o; [|exact HG]. destruct t; try exact HG. now apply gemv_generic_effect.
Qed.

Lemma gemv_complex_ok mkl nt l o t m n alpha a lda x px ix beta y py iy :
  semiring zero one add mul is_zero -> conjugation zero add mul conj -> gemv_contract zero add mul conj false l ->
  gemv_effect zero add mul conj o t m n alpha a lda x px ix beta y py iy
    (gemv_complex zero add mul conj is_zero mkl nt l o t m n alpha a lda x px ix beta y py iy).
Proof.
  intros SR CJ HL. unfold gemv_complex. destruct t; try (apply gemv_straight_ok; auto; discriminate).
  apply gemv_redirect. apply gemv_straight_ok; auto; discriminate.
Qed.

Lemma gemm_complex_ok mkl l o ta tb m n k alpha a lda b ldb beta c ldc sched :
  semiring zero one add mul is_zero -> conjugation zero add mul conj -> gemm_contract zero add mul conj false l ->
  match o with RowMajor => gemm_right ta tb | ColMajor => gemm_right tb ta end ->
  interleaving (match o with RowMajor => n | ColMajor => m end) (column_program (match o with RowMajor => m | ColMajor => n end) k) sched ->
  gemm_effect zero add mul conj o ta tb m n k alpha a lda b ldb beta c ldc
    (gemm_complex zero one add mul conj is_zero mkl l o ta tb m n k alpha a lda b ldb beta c ldc sched).
Proof.
  intros (SR & ZT) CJ HL HR HS. unfold gemm_complex. destruct (is_Conj ta || is_Conj tb) eqn:C.
  - intros f g HA HB HC HI. apply (gemm_ok zero one add mul is_zero SR ZT conj CJ); auto.
  - apply orb_false_iff in C. destruct C as [Ca Cb].
    destruct (code_right mkl false ta (or_intror (is_Conj_false _ Ca))) as [Ea Aa].
    destruct (code_right mkl false tb (or_intror (is_Conj_false _ Cb))) as [Eb Ab].
    rewrite <- Ea at 1. rewrite <- Eb at 1. now apply HL.
Qed.

Lemma gband_other o kl ku a lda i j : gband_cell (other_order o) ku kl a lda j i = gband_cell o kl ku a lda i j.
Proof. destruct o; cbn [other_order gband_cell]; lia. Qed.
Lemma gband_kept_other kl ku i j : gband_kept ku kl j i = gband_kept kl ku i j.
Proof. unfold gband_kept. apply andb_comm. Qed.

Lemma gbmv_generic_effect o t rows cols kl ku alpha a lda x incX beta y incY m :
  semiring zero one add mul is_zero -> conjugation zero add mul conj ->
  gbmv_effect d zero add mul conj o t rows cols kl ku alpha a lda x incX beta y incY m
    (gbmv zero add mul conj is_zero o t false rows cols kl ku alpha a lda x incX beta y incY m).
Proof.
  intros (SR & ZT) (C0 & C1 & C2). unfold gbmv_effect. intros Hr Hc HI HY HX HA. now apply (gbmv_ok d zero one add mul conj is_zero).
Qed.

Lemma gbmv_redirect o rows cols kl ku alpha a lda x incX beta y incY m r :
  gbmv_effect d zero add mul conj (other_order o) ConjTrans cols rows ku kl alpha a lda x incX beta y incY m r ->
  gbmv_effect d zero add mul conj o Conj rows cols kl ku alpha a lda x incX beta y incY m r.
Proof.
  unfold gbmv_effect. cbn [is_trans]. intros H Hr Hc HI HY HX HA. destruct H as (m' & E & CH & V); auto.
  { intros i j Hi Hj K. rewrite gband_kept_other in K. rewrite gband_other. apply HA; auto. }
  exists m'. split; [exact E|]. split; [exact CH|]. intros i Hi. rewrite (V i Hi). do 2 f_equal. apply zsum_ext. intros j Hj. f_equal.
  cbn [op]. unfold sparse_of. now rewrite gband_kept_other, gband_other.
Qed.

Lemma gbmv_straight_ok mkl nt l o t rows cols kl ku alpha a lda x incX beta y incY m :
  semiring zero one add mul is_zero -> conjugation zero add mul conj -> gbmv_contract d zero add mul conj false l -> t <> Conj ->
  gbmv_effect d zero add mul conj o t rows cols kl ku alpha a lda x incX beta y incY m
    (gbmv_straight zero add mul conj is_zero mkl nt l o t rows cols kl ku alpha a lda x incX beta y incY m).
Proof.
  intros SR CJ HL HT. destruct (code_right mkl false t (or_intror HT)) as [E AC].
  assert (HG : gbmv_effect d zero add mul conj o t rows cols kl ku alpha a lda x incX beta y incY m
    (l o (cblas_type mkl t) rows cols kl ku alpha a lda x incX beta y incY m)).
  { rewrite <- E at 1. apply HL, AC. }
  unfold gbmv_straight. destruct nt; [|exact HG]. destruct o; [|exact HG]. destruct t; try exact HG. now apply gbmv_generic_effect.
Qed.

Lemma gbmv_complex_ok mkl nt l o t rows cols kl ku alpha a lda x incX beta y incY m :
  semiring zero one add mul is_zero -> conjugation zero add mul conj -> gbmv_contract d zero add mul conj false l ->
  gbmv_effect d zero add mul conj o t rows cols kl ku alpha a lda x incX beta y incY m
    (gbmv_complex zero add mul conj is_zero mkl nt l o t rows cols kl ku alpha a lda x incX beta y incY m).
Proof.
  intros SR CJ HL. unfold gbmv_complex. destruct t; try (apply gbmv_straight_ok; auto; discriminate).
  apply gbmv_redirect. apply gbmv_straight_ok; auto; discriminate.
Qed.

(** The generic routines have the effects. *)
Lemma trmv_generic_effect o up t dg n a lda x inc m :
  semi_ring_theory zero one add mul eq -> conjugate zero one conj ->
  trmv_effect d zero one add mul conj o up t dg n a lda x inc m (trmv zero add mul conj o up t dg n a lda x inc m).
Proof. intros SR CJ. intros H1 H2 H3. now apply (trmv_ok d zero one conj). Qed.
Lemma trsv_generic_effect o up t dg n a lda x inc m :
  field_theory zero one add mul sub opp div inv eq -> conjugate zero one conj ->
  trsv_effect d zero one add mul conj o up t dg n a lda x inc m (trsv zero add sub mul div conj o up t dg n a lda x inc m).
Proof. intros F CJ. intros H1 H2 H3 H4. now apply (trsv_ok d zero one conj) with (opp := opp) (inv := inv). Qed.
Lemma trmm_generic_effect o sd up t dg rows cols alpha a lda b ldb m :
  semiring zero one add mul is_zero -> conjugate zero one conj ->
  trmm_effect d zero one add mul conj o sd up t dg rows cols alpha a lda b ldb m
    (trmm zero add mul conj is_zero o sd up t dg rows cols alpha a lda b ldb m).
Proof.
  intros (SR & ZT) CJ. intros H1 H2 H3 H4 H5. now apply (trmm_ok d zero one conj add add mul add (fun v => v) (fun v => v)).
Qed.
Lemma trsm_generic_effect o sd up t dg rows cols alpha a lda b ldb m :
  field_theory zero one add mul sub opp div inv eq -> conjugate zero one conj ->
  trsm_effect d zero one add mul conj o sd up t dg rows cols alpha a lda b ldb m
    (trsm zero add sub mul div conj o sd up t dg rows cols alpha a lda b ldb m).
Proof. intros F CJ. intros H1 H2 H3 H4 H5 H6. now apply (trsm_ok d zero one conj) with (opp := opp) (inv := inv). Qed.

(** The guarded overloads. *)
Lemma trmv_guarded_ok mkl l o up t dg n a lda x inc m :
  semi_ring_theory zero one add mul eq -> conjugate zero one conj -> trmv_contract d zero one add mul conj false l ->
  trmv_effect d zero one add mul conj o up t dg n a lda x inc m (trmv_guarded zero add mul conj mkl l o up t dg n a lda x inc m).
Proof.
  intros SR CJ HL. unfold trmv_guarded. destruct (is_Conj t) eqn:C; [now apply trmv_generic_effect|].
  destruct (code_right mkl false t (or_intror (is_Conj_false _ C))) as [E AC]. rewrite <- E at 1. now apply HL.
Qed.
Lemma trsv_guarded_ok mkl l o up t dg n a lda x inc m :
  field_theory zero one add mul sub opp div inv eq -> conjugate zero one conj -> trsv_contract d zero one add mul conj false l ->
  trsv_effect d zero one add mul conj o up t dg n a lda x inc m (trsv_guarded zero add sub mul div conj mkl l o up t dg n a lda x inc m).
Proof.
  intros SR CJ HL. unfold trsv_guarded. destruct (is_Conj t) eqn:C; [now apply trsv_generic_effect|].
  destruct (code_right mkl false t (or_intror (is_Conj_false _ C))) as [E AC]. rewrite <- E at 1. now apply HL.
Qed.
Lemma trmm_guarded_ok mkl l o sd up t dg rows cols alpha a lda b ldb m :
  semiring zero one add mul is_zero -> conjugate zero one conj -> trmm_contract d zero one add mul conj false l ->
  trmm_effect d zero one add mul conj o sd up t dg rows cols alpha a lda b ldb m
    (trmm_guarded zero add mul conj is_zero mkl l o sd up t dg rows cols alpha a lda b ldb m).
Proof.
  intros SR CJ HL. unfold trmm_guarded. destruct (is_Conj t) eqn:C; [now apply trmm_generic_effect|].
  destruct (code_right mkl false t (or_intror (is_Conj_false _ C))) as [E AC]. rewrite <- E at 1. now apply HL.
Qed.
Lemma trsm_guarded_ok mkl l o sd up t dg rows cols alpha a lda b ldb m :
  field_theory zero one add mul sub opp div inv eq -> conjugate zero one conj -> trsm_contract d zero one add mul conj false l ->
  trsm_effect d zero one add mul conj o sd up t dg rows cols alpha a lda b ldb m
    (trsm_guarded zero add sub mul div conj mkl l o sd up t dg rows cols alpha a lda b ldb m).
Proof.
  intros SR CJ HL. unfold trsm_guarded. destruct (is_Conj t) eqn:C; [now apply trsm_generic_effect|].
  destruct (code_right mkl false t (or_intror (is_Conj_false _ C))) as [E AC]. rewrite <- E at 1. now apply HL.
Qed.

(** The plain ones. *)
Lemma plain_ok mkl ext t (lv ls : @gemv_fn A) (lb : @gbmv_fn A) (l1 l2 : tri_fn) (l3 l4 : trl_fn) :
  (mkl = false /\ ext = true) \/ t <> Conj ->
  (gemv_contract zero add mul conj ext lv -> forall o m n alpha a lda x px ix beta y py iy,
     gemv_effect zero add mul conj o t m n alpha a lda x px ix beta y py iy (gemv_real mkl lv o t m n alpha a lda x px ix beta y py iy)) /\
  (gbmv_contract d zero add mul conj ext lb -> forall o rows cols kl ku alpha a lda x incX beta y incY m,
     gbmv_effect d zero add mul conj o t rows cols kl ku alpha a lda x incX beta y incY m
       (gbmv_real mkl lb o t rows cols kl ku alpha a lda x incX beta y incY m)) /\
  (trmv_contract d zero one add mul conj ext l1 -> forall o up dg n a lda x inc m,
     trmv_effect d zero one add mul conj o up t dg n a lda x inc m (trmv_plain mkl l1 o up t dg n a lda x inc m)) /\
  (trsv_contract d zero one add mul conj ext l2 -> forall o up dg n a lda x inc m,
     trsv_effect d zero one add mul conj o up t dg n a lda x inc m (trsv_plain mkl l2 o up t dg n a lda x inc m)) /\
  (trmm_contract d zero one add mul conj ext l3 -> forall o sd up dg rows cols alpha a lda b ldb m,
     trmm_effect d zero one add mul conj o sd up t dg rows cols alpha a lda b ldb m
       (trmm_plain mkl l3 o sd up t dg rows cols alpha a lda b ldb m)) /\
  (trsm_contract d zero one add mul conj ext l4 -> forall o sd up dg rows cols alpha a lda b ldb m,
     trsm_effect d zero one add mul conj o sd up t dg rows cols alpha a lda b ldb m
       (trsm_plain mkl l4 o sd up t dg rows cols alpha a lda b ldb m)).
Proof.
  intros HT. destruct (code_right mkl ext t HT) as [E AC].
  split; [|split; [|split; [|split; [|split]]]]; intros HL; intros.
  - unfold gemv_real. rewrite <- E at 1. now apply HL.
  - unfold gbmv_real. rewrite <- E at 1. now apply HL.
  - unfold trmv_plain. rewrite <- E at 1. now apply HL.
  - unfold trsv_plain. rewrite <- E at 1. now apply HL.
  - unfold trmm_plain. rewrite <- E at 1. now apply HL.
  - unfold trsm_plain. rewrite <- E at 1. now apply HL.
Qed.

Lemma gemm_real_ok mkl ext ta tb (l : @gemm_fn A) : (mkl = false /\ ext = true) \/ (ta <> Conj /\ tb <> Conj) ->
  gemm_contract zero add mul conj ext l -> forall o m n k alpha a lda b ldb beta c ldc,
  gemm_effect zero add mul conj o ta tb m n k alpha a lda b ldb beta c ldc (gemm_real mkl l o ta tb m n k alpha a lda b ldb beta c ldc).
Proof.
  intros HT HL. intros. destruct (code_right mkl ext ta) as [Ea Aa]; [tauto|]. destruct (code_right mkl ext tb) as [Eb Ab]; [tauto|].
  unfold gemm_real. rewrite <- Ea at 1. rewrite <- Eb at 1. now apply HL.
Qed.
End Matrices.

(** ** Parts of complex vectors *)
Section Parts.
Context {R : Type} (d zero one : R) (add sub mul : R -> R -> R) (opp : R -> R).
Variable RT : ring_theory zero one add mul sub opp eq.
Add Ring Rr : RT.
Infix "+!" := add (at level 50, left associativity).
Infix "*!" := mul (at level 40, left associativity).
Notation zs := (zsum zero add).

Lemma elt_succ y inc n i : elt (y + 1) inc n i = elt y inc n i + 1.
Proof. unfold elt. destruct (inc <? 0); lia. Qed.

(** Real and imaginary parts do not meet. *)
Lemma parts_apart y inc n i j : elt y (2 * inc) n i <> elt y (2 * inc) n j + 1.
Proof. unfold elt. destruct (2 * inc <? 0); nia. Qed.

Lemma real_not_imag y inc n i : ~ in_vector (y + 1) (2 * inc) n (elt y (2 * inc) n i).
Proof. intros (j & Hj & E). rewrite elt_succ in E. exact (parts_apart _ _ _ _ _ E). Qed.
Lemma imag_not_real y inc n i : ~ in_vector y (2 * inc) n (elt y (2 * inc) n i + 1).
Proof. intros (j & Hj & E). symmetry in E. exact (parts_apart _ _ _ _ _ E). Qed.

Lemma changes_inside m m' cells x inc n : changes d m m' cells -> inside m x inc n -> inside m' x inc n.
Proof. intros [L _] H i Hi. rewrite L. auto. Qed.

(** Two calls, on the real and on the imaginary parts of y. *)
Lemma two_axpys l n ar ai xr incr xi inci y incY m :
  axpy_contract d add mul l -> incY <> 0 -> cinside m y incY n ->
  vector_apart m xr incr n (in_cvector y incY n) -> vector_apart m xi inci n (in_cvector y incY n) ->
  exists m', (do m1 <- l n ar xr incr y (2 * incY) m; l n ai xi inci (y + 1) (2 * incY) m1) = Ok m' /\
    changes d m m' (in_cvector y incY n) /\
    forall i, 0 <= i < n -> celt d m' y incY n i =
      cadd add (celt d m y incY n i) (ar *! val d m (elt xr incr n i), ai *! val d m (elt xi inci n i)).
Proof.
  intros HL HI [I1 I2] HR HX.
  destruct (HL n ar xr incr y (2 * incY) m I1) as (m1 & E1 & C1 & V1); [lia| |].
  { intros i Hi. destruct (HR i Hi) as [B N]. split; [exact B|]. intros C. apply N. now left. }
  rewrite E1. cbn [bind].
  destruct (HL n ai xi inci (y + 1) (2 * incY) m1) as (m2 & E2 & C2 & V2); [now apply (changes_inside m m1 _ _ _ _ C1)|lia| |].
  { intros i Hi. destruct (HX i Hi) as [B N]. rewrite (proj1 C1). split; [exact B|]. intros C. apply N. now right. }
  exists m2. split; [exact E2|]. split.
  - split; [rewrite (proj1 C2); exact (proj1 C1)|]. intros p Hp N.
    rewrite (proj2 C2), (proj2 C1); auto; [intros C; apply N; now left|rewrite (proj1 C1); auto|intros C; apply N; now right].
  - intros i Hi. unfold celt, cadd. cbn [fst snd]. f_equal.
    + rewrite (proj2 C2), V1; auto; [rewrite (proj1 C1); apply I1; auto|apply real_not_imag].
    + rewrite <- elt_succ, (V2 i Hi). rewrite elt_succ.
      assert (B : 0 <= elt y (2 * incY) n i + 1 < Z.of_nat (length m)) by (rewrite <- elt_succ; apply I2; auto).
      rewrite (proj2 C1 _ B (imag_not_real _ _ _ _)). f_equal. f_equal. destruct (HX i Hi) as [B' N].
      apply (proj2 C1); auto. intros C. apply N. now left.
Qed.

Lemma axpy_mixed_ok l n alpha x incX y incY m :
  axpy_contract d add mul l -> incY <> 0 -> cinside m y incY n -> vector_apart m x incX n (in_cvector y incY n) ->
  exists m', axpy_mixed l n alpha x incX y incY m = Ok m' /\ changes d m m' (in_cvector y incY n) /\
    forall i, 0 <= i < n -> celt d m' y incY n i =
      cadd add (celt d m y incY n i) (cmul add sub mul alpha (creal zero (val d m (elt x incX n i)))).
Proof.
  intros HL HI HY HX. destruct (two_axpys l n (fst alpha) (snd alpha) x incX x incX y incY m) as (m' & E & C & V); auto.
  exists m'. split; [exact E|]. split; [exact C|]. intros i Hi. rewrite (V i Hi). f_equal. unfold cmul, creal. cbn [fst snd]. f_equal; ring.
Qed.

Lemma acxpy_ok l n alpha x incX y incY m :
  axpy_contract d add mul l -> incY <> 0 -> cinside m y incY n ->
  vector_apart m x (2 * incX) n (in_cvector y incY n) -> vector_apart m (x + 1) (2 * incX) n (in_cvector y incY n) ->
  exists m', acxpy_split opp l n alpha x incX y incY m = Ok m' /\ changes d m m' (in_cvector y incY n) /\
    forall i, 0 <= i < n -> celt d m' y incY n i =
      cadd add (celt d m y incY n i) (cmul add sub mul (creal zero alpha) (cconj opp (celt d m x incX n i))).
Proof.
  intros HL HI HY HX HX'. destruct (two_axpys l n alpha (opp alpha) x (2 * incX) (x + 1) (2 * incX) y incY m) as (m' & E & C & V); auto.
  exists m'. split; [exact E|]. split; [exact C|]. intros i Hi. rewrite (V i Hi). f_equal. unfold cmul, creal, cconj, celt. cbn [fst snd].
  rewrite elt_succ. f_equal; ring.
Qed.

Lemma axpy_real_ok l n alpha x incX y incY m :
  axpy_contract d add mul l -> incY <> 0 -> cinside m y incY n -> vector_apart m x incX n (in_cvector y incY n) ->
  exists m', axpy_real l n alpha x incX y incY m = Ok m' /\ changes d m m' (in_cvector y incY n) /\
    forall i, 0 <= i < n -> celt d m' y incY n i =
      cadd add (celt d m y incY n i) (cmul add sub mul (creal zero alpha) (creal zero (val d m (elt x incX n i)))).
Proof.
  intros HL HI [I1 I2] HX. destruct (HL n alpha x incX y (2 * incY) m I1) as (m1 & E1 & C1 & V1); [lia| |].
  { intros i Hi. destruct (HX i Hi) as [B N]. split; [exact B|]. intros C. apply N. now left. }
  exists m1. split; [exact E1|]. split.
  - split; [exact (proj1 C1)|]. intros p Hp N. apply (proj2 C1); auto. intros C. apply N. now left.
  - intros i Hi. unfold celt, cadd, cmul, creal. cbn [fst snd]. rewrite (V1 i Hi). f_equal; [ring|].
    rewrite (proj2 C1); [ring| |apply imag_not_real]. rewrite <- elt_succ. apply I2; auto.
Qed.

(** Sums of complex numbers. *)
Lemma csum_parts k f : sum (czero zero) (cadd add) k f = (sum zero add k (fun i => fst (f i)), sum zero add k (fun i => snd (f i))).
Proof. induction k as [|k IH]; cbn [sum]; [reflexivity|]. rewrite IH. reflexivity. Qed.
Lemma czsum_parts n f : zsum (czero zero) (cadd add) n f = (zs n (fun i => fst (f i)), zs n (fun i => snd (f i))).
Proof. apply csum_parts. Qed.
Lemma zsum_opp n f : opp (zs n f) = zs n (fun i => opp (f i)).
Proof. unfold zsum. induction (Z.to_nat n) as [|k IH]; cbn [sum]; [ring|]. rewrite <- IH. ring. Qed.

Lemma dotu_rc_ok l n x incX y incY m : dot_contract d zero add mul l -> inside m x incX n -> cinside m y incY n ->
  dotu_rc l n x incX y incY m = Ok (zsum (czero zero) (cadd add) n (fun i => cmul add sub mul (creal zero (val d m (elt x incX n i))) (celt d m y incY n i))).
Proof.
  intros HL HX [I1 I2]. unfold dotu_rc. rewrite (HL _ _ _ _ _ _ HX I1), (HL _ _ _ _ _ _ HX I2). cbn [bind]. f_equal. rewrite czsum_parts.
  f_equal; apply zsum_ext; intros i Hi; unfold cmul, creal, celt; cbn [fst snd]; [ring|]. rewrite elt_succ. ring.
Qed.
Lemma dotu_cr_ok l n x incX y incY m : dot_contract d zero add mul l -> cinside m x incX n -> inside m y incY n ->
  dotu_cr l n x incX y incY m = Ok (zsum (czero zero) (cadd add) n (fun i => cmul add sub mul (celt d m x incX n i) (creal zero (val d m (elt y incY n i))))).
Proof.
  intros HL HX HY. unfold dotu_cr. rewrite dotu_rc_ok by auto. f_equal. rewrite !czsum_parts.
  f_equal; apply zsum_ext; intros i Hi; unfold cmul, creal, celt; cbn [fst snd]; ring.
Qed.
Lemma dot_cr_ok l n x incX y incY m : dot_contract d zero add mul l -> cinside m x incX n -> inside m y incY n ->
  dot_cr opp l n x incX y incY m =
    Ok (zsum (czero zero) (cadd add) n (fun i => cmul add sub mul (cconj opp (celt d m x incX n i)) (creal zero (val d m (elt y incY n i))))).
Proof.
  intros HL [I1 I2] HY. unfold dot_cr. rewrite (HL _ _ _ _ _ _ HY I1), (HL _ _ _ _ _ _ HY I2). cbn [bind]. f_equal. rewrite czsum_parts.
  f_equal; [|rewrite zsum_opp]; apply zsum_ext; intros i Hi; unfold cmul, creal, cconj, celt; cbn [fst snd]; [ring|]. rewrite elt_succ. ring.
Qed.
End Parts.

(** ** Level 1 *)
Lemma not_idle n incX : 0 < n -> 0 < incX -> ~ idle n incX.
Proof. unfold idle. lia. Qed.

Lemma iamax_same {A B} (d : A) (abs : A -> B) gt l n x incX m :
  (forall a b, gt a b = true -> gt b a = false) -> (forall a b c, gt a b = false -> gt b c = false -> gt a c = false) ->
  iamax_contract d abs gt l -> 0 < n -> 0 < incX -> inside m x incX n -> iamax_wrapped l n x incX m = iamax abs gt n x incX m.
Proof.
  intros H1 H2 HL Hn HI HX. destruct (proj2 (HL n x incX m) (not_idle _ _ Hn HI) HX) as (i & E & Hi & M & F).
  destruct (iamax_ok d abs gt n x incX m) as (j & E' & Hj & M' & F'); auto. unfold iamax_wrapped. rewrite E, E'. f_equal.
  destruct (Z.lt_trichotomy i j) as [L|[L|L]]; auto.
  - specialize (F' i ltac:(lia)). rewrite M in F' by lia. discriminate.
  - specialize (F j ltac:(lia)). rewrite M' in F by lia. discriminate.
Qed.

Lemma asum_same {A} (d zero : A) add abs1 l n x incX m :
  asum_contract d zero add abs1 l -> 0 < n -> 0 < incX -> inside m x incX n -> asum_wrapped l n x incX m = asum zero add abs1 n x incX m.
Proof.
  intros HL Hn HI HX. unfold asum_wrapped. rewrite (proj2 (HL n x incX m) (not_idle _ _ Hn HI) HX). symmetry. now apply (asum_ok d).
Qed.

Lemma list_by_val {A} (d : A) (m m' : list A) : length m = length m' -> (forall p, 0 <= p < Z.of_nat (length m) -> val d m p = val d m' p) -> m = m'.
Proof.
  intros L H. apply (nth_ext _ _ d d L). intros k Hk. specialize (H (Z.of_nat k) ltac:(lia)). unfold val in H. now rewrite Nat2Z.id in H.
Qed.

Lemma scal_same {A} (d : A) mul l n alpha x incX m :
  scal_contract d mul l -> 0 < n -> 0 < incX -> inside m x incX n -> scal_wrapped l n alpha x incX m = scal mul n alpha x incX m.
Proof.
  intros HL Hn HI HX. destruct (proj2 (HL n alpha x incX m) (not_idle _ _ Hn HI) HX) as (m1 & E1 & [L1 C1] & V1).
  destruct (scal_ok d mul n alpha x incX m HX) as (m2 & E2 & V2 & [L2 C2]); [lia|].
  unfold scal_wrapped. rewrite E1, E2. f_equal. apply (list_by_val d); [congruence|]. rewrite L1. intros p Hp.
  assert (D : in_vector x incX n p \/ ~ in_vector x incX n p).
  { unfold in_vector, elt. replace (incX <? 0) with false by lia.
    destruct (Z.eq_dec ((p - x) mod incX) 0) as [E|E].
    - pose proof (Z.div_mod (p - x) incX ltac:(lia)) as DM. rewrite E in DM.
      destruct (Z_lt_dec ((p - x) / incX) 0) as [G|G]; [right; intros (i & Hi & E'); nia|].
      destruct (Z_lt_dec ((p - x) / incX) n) as [K|K]; [left; exists ((p - x) / incX); split; nia|right; intros (i & Hi & E'); nia].
    - right. intros (i & Hi & E'). apply E. replace (p - x) with (i * incX) by lia. apply Z.mod_mul. lia. }
  destruct D as [(i & Hi & ->)|D]; [rewrite V1, V2; auto|rewrite C1, C2; auto].
Qed.
