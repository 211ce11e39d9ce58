(** Products with packed and banded symmetric, Hermitian and general matrices. *)
From Coq Require Import ZArith Ring_theory Ring.
From Verif Require Import Base BaseProofs MatmulModel MatmulSpec BlasModel BlasSpec BlasProofs TriModel TriSpec TriProofs
  SymModel SymSpec SymProofs PackModel PackSpec PackLinear PackSolve PackTri PackProofs.
From Coq Require Import ZifyNat ZifyN ZifyBool.
Ltac Zify.zify_post_hook ::= idtac.
Local Open Scope Z_scope.

Section Windows.
Variables (up : uplo) (n : Z) (held : Z -> Z -> bool) (at_ : Z -> Z -> Z) (lo len p q : Z -> Z).
Hypothesis Hrow : rowed up true held at_ n lo len p q.
Definition wlo (i : Z) : Z := match up with Upper => i | Lower => lo i end.
Definition wp (i : Z) : Z := match up with Upper => q i | Lower => p i end.
Lemma whole_cell i k : 0 <= i < n -> 0 <= k < len i + 1 -> 0 <= wlo i + k < n /\ held i (wlo i + k) = true /\ at_ i (wlo i + k) = wp i + k.
Proof using Hrow.
  intros Hi Hk. destruct (Hrow i Hi) as (HL & HU & [Hq Hd] & Hs & _). unfold wlo, wp. destruct (up_dec up) as [Eu|Eu]; rewrite Eu in HU |- *.
  - split; [lia|]. destruct (Z.eq_dec k 0) as [->|Nk]; [rewrite !Z.add_0_r; auto|].
    destruct (Hs (k - 1) ltac:(lia)) as [K E]. replace (lo i + (k - 1)) with (i + k) in * by lia. split; [exact K|]. lia.
  - split; [lia|]. destruct (Z.eq_dec k (len i)) as [->|Nk]; [|apply Hs; lia]. replace (lo i + len i) with i by lia. split; [exact Hd|]. lia.
Qed.
Lemma held_once i j : 0 <= i < n -> 0 <= j < n -> held i j = true -> held j i = true -> i = j.
Proof using Hrow.
  intros Hi Hj K1 K2. destruct (Z.eq_dec i j) as [E|E]; [exact E|]. exfalso.
  destruct (Hrow i Hi) as (L1 & U1 & _ & _ & N1), (Hrow j Hj) as (L2 & U2 & _ & _ & N2).
  assert (X : lo i <= j < lo i + len i) by (destruct (Z_le_gt_dec (lo i) j), (Z_lt_ge_dec j (lo i + len i)); try lia; rewrite N1 in K1; (discriminate || lia)).
  assert (Y : lo j <= i < lo j + len j) by (destruct (Z_le_gt_dec (lo j) i), (Z_lt_ge_dec i (lo j + len j)); try lia; rewrite N2 in K2; (discriminate || lia)).
  destruct (up_dec up) as [Eu|Eu]; rewrite Eu in U1, U2; lia.
Qed.
Lemma window_out i j : 0 <= i < n -> 0 <= j < n -> ~ wlo i <= j < wlo i + (len i + 1) -> held i j = false.
Proof using Hrow.
  intros Hi Hj N. destruct (Hrow i Hi) as (HL & HU & _ & _ & Hn). apply Hn; [exact Hj| |];
    unfold wlo in N; destruct (up_dec up) as [Eu|Eu]; rewrite Eu in HU, N; lia.
Qed.
End Windows.

Section Rows.
Context {A : Type} (d zero one : A) (add mul : A -> A -> A) (conj : A -> A).
Hypothesis SR : semi_ring_theory zero one add mul eq.
Add Ring PackRing4 : SR.
Variables (up : uplo) (n : Z) (held : Z -> Z -> bool) (at_ : Z -> Z -> Z) (lo len p q : Z -> Z).
Hypothesis Hrow : rowed up true held at_ n lo len p q.
Variables (x incX y incY : Z) (m : list A).
Hypothesis HincY : incY <> 0.
Hypothesis HinY : inside m y incY n.
Hypothesis Hap : held_apart held at_ m n n (in_vector y incY n).
Hypothesis Hx : vector_apart m x incX n (in_vector y incY n).
Local Notation ye := (elt y incY n).
Local Notation xe := (elt x incX n).
Local Notation x0 := (start x incX n).
Local Notation y0 := (start y incY n).
Local Notation gain := (gain d add ye (line n)).
Local Notation region := (region ye (line n)).
Local Notation fixed := (fixed ye (line n) m).
Local Notation zs := (zsum zero add).
Local Notation wlo := (wlo up lo).
Local Notation wp := (wp up p q).
Local Notation xv := (fun j => val d m (xe j)).
(** the kept part of a row, and it without the diagonal *)
Definition whole (i j : Z) : A := if held i j then val d m (at_ i j) else zero.
Definition strict (c : bool) (i j : Z) : A := if i =? j then zero else if held i j then cj conj c (val d m (at_ i j)) else zero.
Lemma held_fixed i j : 0 <= i < n -> 0 <= j < n -> held i j = true -> fixed (at_ i j).
Proof using Hap. intros Hi Hj K. exact (Hap i j Hi Hj K). Qed.
Lemma now_fixed s w : changes d m s region -> fixed w -> 0 <= w < Z.of_nat (length s) /\ val d s w = val d m w.
Proof using Type. intros [L H] [P N]. rewrite L. split; [exact P|]. now apply H. Qed.
Lemma x_inside s : changes d m s region -> inside s x incX n.
Proof using Hx. intros [L H] i Hi. rewrite L. now apply Hx. Qed.
Lemma x_now s (W : Z -> A) : changes d m s region -> zs n (fun j => mul (W j) (val d s (xe j))) = zs n (fun j => mul (W j) (xv j)).
Proof using Hx. intros Cs. apply zsum_ext. intros j Hj. f_equal. destruct (Hx j Hj) as [P N]. now apply Cs. Qed.
Lemma x_load s i : 0 <= i < n -> changes d m s region -> load s (x0 + i * incX) = Ok (xv i).
Proof using Hx. intros Hi Cs. cbv beta. rewrite <- start_elt. exact (fixed_load d _ _ _ _ _ (fixed_x m x incX y incY n Hx i Hi) Cs). Qed.
Lemma strict_row_dot c i s : 0 <= i < n -> changes d m s region ->
  dot_gen zero add mul conj c (len i) (p i) 1 (x0 + lo i * incX) incX s = Ok (zs n (fun j => mul (strict c i j) (xv j))).
Proof using SR Hrow Hap Hx.
  intros Hi Cs. destruct (Hrow i Hi) as (HL & HU & _ & Hs & Hn). rewrite <- (x_now s) by exact Cs.
  apply (seg_dot d zero one add mul SR conj n x incX c (len i) (p i) (lo i) s (strict c i)).
  - now apply x_inside.
  - intros k Hk. destruct (Hs k Hk) as [K E]. split; [lia|]. rewrite <- E. destruct (now_fixed s (at_ i (lo i + k)) Cs) as [P1 P2]; [apply held_fixed; [exact Hi|lia|exact K]|].
    split; [exact P1|]. unfold strict. rewrite K, P2. replace (i =? lo i + k) with false by (destruct (up_dec up) as [Eu|Eu]; rewrite Eu in HU; lia). reflexivity.
  - intros j Hj N. unfold strict. destruct (i =? j) eqn:E; [reflexivity|]. rewrite Hn by (assumption || lia). reflexivity.
  - reflexivity.
Qed.
Lemma whole_out i j : 0 <= i < n -> 0 <= j < n -> ~ wlo i <= j < wlo i + (len i + 1) -> whole i j = zero.
Proof using Hrow. intros Hi Hj N. unfold whole. now rewrite (window_out up n held at_ lo len p q Hrow i j Hi Hj N). Qed.
Lemma whole_row_dot i s : 0 <= i < n -> changes d m s region ->
  dot_gen zero add mul conj false (len i + 1) (wp i) 1 (x0 + wlo i * incX) incX s = Ok (zs n (fun j => mul (whole i j) (xv j))).
Proof using SR Hrow Hap Hx.
  intros Hi Cs. rewrite <- (x_now s) by exact Cs.
  apply (seg_dot d zero one add mul SR conj n x incX false (len i + 1) (wp i) (wlo i) s (whole i)).
  - now apply x_inside.
  - intros k Hk. destruct (whole_cell up n held at_ lo len p q Hrow i k Hi Hk) as (B & K & E). split; [exact B|]. rewrite <- E.
    destruct (now_fixed s (at_ i (wlo i + k)) Cs (held_fixed _ _ Hi B K)) as [P1 P2]. split; [exact P1|]. unfold whole. now rewrite K, P2.
  - intros j Hj N. now apply whole_out.
  - reflexivity.
Qed.
Lemma strict_row_axpy c i al s : 0 <= i < n -> changes d m s region ->
  exists s', axpy_gen add mul conj c (len i) al (p i) 1 (y0 + lo i * incY) incY s = Ok s' /\ gain (fun l => mul al (strict c i l)) s s'.
Proof using SR Hrow Hap HincY HinY.
  intros Hi Cs. destruct (Hrow i Hi) as (HL & HU & _ & Hs & Hn).
  apply (seg_axpy d zero one add mul SR conj n y incY m HincY HinY c (len i) al (p i) (lo i) s (strict c i)).
  - exact Cs.
  - intros k Hk. destruct (Hs k Hk) as [K E]. split; [lia|]. rewrite <- E. split; [apply held_fixed; [exact Hi|lia|exact K]|].
    unfold strict. rewrite K. replace (i =? lo i + k) with false by (destruct (up_dec up) as [Eu|Eu]; rewrite Eu in HU; lia). reflexivity.
  - intros j Hj N. unfold strict. destruct (i =? j) eqn:E; [reflexivity|]. rewrite Hn by (assumption || lia). reflexivity.
  - reflexivity.
Qed.
Lemma whole_row_axpy i al s : 0 <= i < n -> changes d m s region ->
  exists s', axpy_gen add mul conj false (len i + 1) al (wp i) 1 (y0 + wlo i * incY) incY s = Ok s' /\ gain (fun l => mul al (whole i l)) s s'.
Proof using SR Hrow Hap HincY HinY.
  intros Hi Cs.
  apply (seg_axpy d zero one add mul SR conj n y incY m HincY HinY false (len i + 1) al (wp i) (wlo i) s (whole i)).
  - exact Cs.
  - intros k Hk. destruct (whole_cell up n held at_ lo len p q Hrow i k Hi Hk) as (B & K & E). split; [exact B|]. rewrite <- E. split; [now apply held_fixed|].
    unfold whole. now rewrite K.
  - intros j Hj N. now apply whole_out.
  - reflexivity.
Qed.
Lemma y_gain i v s : 0 <= i < n -> changes d m s region ->
  exists s', plus_at add s (y0 + i * incY) v = Ok s' /\ gain (fun l => if l =? i then v else zero) s s' /\ changes d m s' region.
Proof using SR HincY HinY.
  intros Hi Cs. rewrite start_elt.
  destruct (gain_one d zero one add mul SR ye (line n) m Z.eqb s i v ltac:(intros; apply Z.eqb_eq) (ye_inj n y incY HincY) (ye_in n y incY m HinY)) as (s' & E & G).
  - apply Cs.
  - exact Hi.
  - exists s'. split; [exact E|]. split; [exact G|]. apply (changes_then d ye (line n) m s s' Cs). apply G.
Qed.

(** one round of each loop *)
Variable alpha : A.
Definition sym_round (dots : bool) (i : Z) (s : list A) : outcome (list A) :=
  do r <- (if dots then dot_gen zero add mul conj false (len i + 1) (wp i) 1 (x0 + wlo i * incX) incX s
           else dot_gen zero add mul conj false (len i) (p i) 1 (x0 + lo i * incX) incX s);
  do s1 <- plus_at add s (y0 + i * incY) (mul alpha r);
  do u <- load s1 (x0 + i * incX);
  if dots then axpy_gen add mul conj false (len i) (mul alpha u) (p i) 1 (y0 + lo i * incY) incY s1
  else axpy_gen add mul conj false (len i + 1) (mul alpha u) (wp i) 1 (y0 + wlo i * incY) incY s1.
Lemma sym_round_ok dots i s : 0 <= i < n -> changes d m s region ->
  exists s', sym_round dots i s = Ok s' /\
    gain (fun l => add (if l =? i then mul alpha (zs n (fun j => mul ((if dots then whole else strict false) i j) (xv j))) else zero)
                       (mul (mul alpha (xv i)) ((if dots then strict false else whole) i l))) s s'.
Proof using SR Hrow Hap Hx HincY HinY.
  intros Hi Cs. unfold sym_round.
  replace (if dots then _ else _) with (Ok (zs n (fun j => mul ((if dots then whole else strict false) i j) (xv j))))
    by (destruct dots; [now rewrite whole_row_dot|now rewrite strict_row_dot]).
  cbn [bind]. destruct (y_gain i (mul alpha (zs n (fun j => mul ((if dots then whole else strict false) i j) (xv j)))) s Hi Cs) as (s1 & E1 & G1 & C1).
  rewrite E1. cbn [bind]. rewrite x_load by assumption. cbn [bind].
  assert (X : exists s2, (if dots then axpy_gen add mul conj false (len i) (mul alpha (xv i)) (p i) 1 (y0 + lo i * incY) incY s1
     else axpy_gen add mul conj false (len i + 1) (mul alpha (xv i)) (wp i) 1 (y0 + wlo i * incY) incY s1) = Ok s2 /\
     gain (fun l => mul (mul alpha (xv i)) ((if dots then strict false else whole) i l)) s1 s2)
    by (destruct dots; [now apply strict_row_axpy|now apply whole_row_axpy]).
  destruct X as (s2 & E2 & G2). exists s2. split; [exact E2|]. exact (gain_trans d zero one add mul SR _ _ _ _ _ _ _ G1 G2).
Qed.
Lemma sym_entry (dots : bool) l j : 0 <= l < n -> 0 <= j < n ->
  add ((if dots then whole else strict false) l j) ((if dots then strict false else whole) j l) = symmetric_of d zero held at_ m l j.
Proof using SR Hrow.
  intros Hl Hj. assert (add_zero : forall v, add v zero = v) by (intros; ring). assert (zero_add : forall v, add zero v = v) by (intros; ring).
  unfold symmetric_of, whole, strict. pose proof (held_once up n held at_ lo len p q Hrow l j Hl Hj) as O. destruct (Hrow l Hl) as (_ & _ & [_ D] & _).
  destruct dots; cbn [cj].
  - destruct (held l j) eqn:K1; destruct (j =? l) eqn:E; try apply add_zero.
    + destruct (held j l) eqn:K2; [|apply add_zero]. specialize (O eq_refl eq_refl). subst j. rewrite Z.eqb_refl in E. discriminate.
    + apply Z.eqb_eq in E. subst j. congruence.
    + destruct (held j l) eqn:K2; apply zero_add.
  - destruct (l =? j) eqn:E.
    + apply Z.eqb_eq in E. subst j. rewrite D. apply zero_add.
    + destruct (held l j) eqn:K1.
      * destruct (held j l) eqn:K2; [|apply add_zero]. specialize (O eq_refl eq_refl). subst j. rewrite Z.eqb_refl in E. discriminate.
      * apply zero_add.
Qed.
Lemma sym_loop (dots : bool) body : (forall i s, 0 <= i < n -> body i s = sym_round dots i s) ->
  exists m', repeat n body m = Ok m' /\ gain (fun l => mul alpha (zs n (fun j => mul (symmetric_of d zero held at_ m l j) (xv j)))) m m'.
Proof using SR Hrow Hap Hx HincY HinY.
  intros Hb.
  destruct (folded d zero one add mul SR n y incY m alpha xv body (if dots then whole else strict false) (if dots then strict false else whole) m) as (m' & E & G).
  - apply changes_refl.
  - intros i s Hi Cs. rewrite Hb by exact Hi. now apply sym_round_ok.
  - exists m'. split; [exact E|]. eapply gain_ext; [|exact G]. intros l Hl. cbv beta. f_equal. apply zsum_ext. intros j Hj. f_equal. now apply sym_entry.
Qed.

Variable re : A -> A.
Definition herm_round (c : bool) (i : Z) (s : list A) : outcome (list A) :=
  do e <- load s (q i);
  do u <- load s (x0 + i * incX);
  do s1 <- plus_at add s (y0 + i * incY) (mul (mul alpha (re e)) u);
  do r <- dot_gen zero add mul conj c (len i) (p i) 1 (x0 + lo i * incX) incX s1;
  do s2 <- plus_at add s1 (y0 + i * incY) (mul alpha r);
  do u <- load s2 (x0 + i * incX);
  axpy_gen add mul conj (negb c) (len i) (mul alpha u) (p i) 1 (y0 + lo i * incY) incY s2.
(** the diagonal made real *)
Definition with_diag (c : bool) (i j : Z) : A := if i =? j then re (val d m (q i)) else strict c i j.
Lemma herm_round_ok c i s : 0 <= i < n -> changes d m s region ->
  exists s', herm_round c i s = Ok s' /\
    gain (fun l => add (if l =? i then mul alpha (zs n (fun j => mul (with_diag c i j) (xv j))) else zero) (mul (mul alpha (xv i)) (strict (negb c) i l))) s s'.
Proof using SR Hrow Hap Hx HincY HinY.
  intros Hi Cs. unfold herm_round. destruct (Hrow i Hi) as (_ & _ & [Hq Hd] & _).
  assert (Fq : fixed (q i)) by (rewrite Hq; now apply held_fixed).
  rewrite (fixed_load d _ _ _ _ _ Fq Cs). cbn [bind]. rewrite x_load by assumption. cbn [bind].
  destruct (y_gain i (mul (mul alpha (re (val d m (q i)))) (xv i)) s Hi Cs) as (s1 & E1 & G1 & C1). rewrite E1. cbn [bind].
  rewrite strict_row_dot by assumption. cbn [bind].
  destruct (y_gain i (mul alpha (zs n (fun j => mul (strict c i j) (xv j)))) s1 Hi C1) as (s2 & E2 & G2 & C2). rewrite E2. cbn [bind].
  rewrite x_load by assumption. cbn [bind].
  destruct (strict_row_axpy (negb c) i (mul alpha (xv i)) s2 Hi C2) as (s3 & E3 & G3). exists s3. split; [exact E3|].
  eapply gain_ext; [|exact (gain_trans d zero one add mul SR _ _ _ _ _ _ _ (gain_trans d zero one add mul SR _ _ _ _ _ _ _ G1 G2) G3)].
  intros l Hl. cbv beta. f_equal. rewrite (if_add zero one add mul SR). destruct (l =? i); [|reflexivity].
  rewrite (zsum_diag zero one add mul SR n (with_diag c) i xv Hi).
  rewrite (zsum_ext zero add n (fun j => mul (off zero (with_diag c) i j) (xv j)) (fun j => mul (strict c i j) (xv j))).
  - replace (with_diag c i i) with (re (val d m (q i))) by (unfold with_diag; now rewrite Z.eqb_refl). ring.
  - intros j Hj. f_equal. unfold off, with_diag, strict. now destruct (i =? j).
Qed.
(** the matrix that the rows mean, and its conjugate *)
Definition hrow (c : bool) (i j : Z) : A :=
  if i =? j then re (val d m (at_ i i))
  else if held i j then cj conj c (val d m (at_ i j)) else if held j i then cj conj (negb c) (val d m (at_ j i)) else zero.
Lemma herm_entry c l j : 0 <= l < n -> 0 <= j < n -> add (with_diag c l j) (strict (negb c) j l) = hrow c l j.
Proof using SR Hrow.
  intros Hl Hj. assert (add_zero : forall v, add v zero = v) by (intros; ring). assert (zero_add : forall v, add zero v = v) by (intros; ring).
  unfold hrow, with_diag, strict. rewrite (Z.eqb_sym j l). pose proof (held_once up n held at_ lo len p q Hrow l j Hl Hj) as O. destruct (Hrow l Hl) as (_ & _ & [D _] & _).
  destruct (l =? j) eqn:E; [rewrite D; apply add_zero|]. destruct (held l j) eqn:K1.
  - destruct (held j l) eqn:K2; [|apply add_zero]. specialize (O eq_refl eq_refl). subst j. rewrite Z.eqb_refl in E. discriminate.
  - apply zero_add.
Qed.
Lemma herm_loop c body : (forall i s, 0 <= i < n -> body i s = herm_round c i s) ->
  exists m', repeat n body m = Ok m' /\ gain (fun l => mul alpha (zs n (fun j => mul (hrow c l j) (xv j)))) m m'.
Proof using SR Hrow Hap Hx HincY HinY.
  intros Hb.
  destruct (folded d zero one add mul SR n y incY m alpha xv body (with_diag c) (strict (negb c)) m) as (m' & E & G).
  - apply changes_refl.
  - intros i s Hi Cs. rewrite Hb by exact Hi. now apply herm_round_ok.
  - exists m'. split; [exact E|]. eapply gain_ext; [|exact G]. intros l Hl. cbv beta. f_equal. apply zsum_ext. intros j Hj. f_equal. now apply herm_entry.
Qed.
End Rows.

(** ** Scaling first *)
Section Scaled.
Context {A : Type} (d zero one : A) (add mul : A -> A -> A) (is_zero : A -> bool).
Hypothesis SR : semi_ring_theory zero one add mul eq.
Hypothesis IZ : forall v, is_zero v = true <-> v = zero.
Lemma after_scaling ny nx beta y incY (m : list A) (loop : list A -> outcome (list A)) (G : list A -> Z -> A) : incY <> 0 -> inside m y incY ny ->
  (forall m0, length m0 = length m -> changes d m m0 (in_vector y incY ny) -> exists m', loop m0 = Ok m' /\ gain d add (elt y incY ny) (line ny) (G m0) m0 m') ->
  (forall m0 i, 0 <= i < ny -> changes d m m0 (in_vector y incY ny) -> G m0 i = G m i) -> nx = ny ->
  exists m', (do m0 <- scal_init zero mul is_zero nx beta y incY m; loop m0) = Ok m' /\ changes d m m' (in_vector y incY ny) /\
    forall i, 0 <= i < ny -> val d m' (elt y incY ny i) = add (mul beta (val d m (elt y incY ny i))) (G m i).
Proof using SR IZ.
  intros HincY HinY Hl HG ->.
  destruct (scal_init_ok d zero mul is_zero ny beta y incY m HinY ltac:(left; exact HincY)) as (m0 & E0 & V0 & C0).
  rewrite E0. cbn [bind]. destruct (Hl m0 (proj1 C0) C0) as (m' & E & C & V). exists m'. split; [exact E|]. split.
  - pose proof (changes_iff d _ _ _ _ (region_vector ny y incY) C) as C'.
    eapply (changes_weaken d); [|exact (changes_trans d _ _ _ _ _ C0 C')]. cbv beta. tauto.
  - intros i Hi. rewrite V, V0, (scaled_by zero one add mul SR is_zero IZ), (HG m0 i Hi C0) by exact Hi. reflexivity.
Qed.
End Scaled.

(** ** Orders *)
Definition turned {X} (o : order) (f : Z -> Z -> X) (i j : Z) : X := match o with RowMajor => f i j | ColMajor => f j i end.
Lemma packed_turned o up n a i j : packed_cell o up n a i j = turned o (packed_cell RowMajor (row_uplo o up) n a) i j.
Proof. destruct o; [reflexivity|]. apply packed_flip. Qed.
Lemma band_turned o up k a lda i j : band_cell o up k a lda i j = turned o (band_cell RowMajor (row_uplo o up) k a lda) i j.
Proof. destruct o; [reflexivity|]. apply band_flip. Qed.
Lemma kept_turned o up dg i j : kept up dg i j = turned o (kept (row_uplo o up) dg) i j.
Proof. destruct o; [reflexivity|]. symmetry. apply kept_other. Qed.
Lemma band_kept_turned o up dg k i j : band_kept up dg k i j = turned o (band_kept (row_uplo o up) dg k) i j.
Proof. destruct o; [reflexivity|]. symmetry. apply band_kept_other. Qed.

Section Kinds.
Context {A : Type} (d zero one : A) (add mul : A -> A -> A) (conj re : A -> A) (is_zero : A -> bool).
Hypothesis SR : semi_ring_theory zero one add mul eq.
Hypothesis IZ : forall v, is_zero v = true <-> v = zero.
Local Notation zs := (zsum zero add).
Variables (o : order) (ru : uplo) (n : Z) (held rheld : Z -> Z -> bool) (at_ rat : Z -> Z -> Z) (lo len p q : Z -> Z).
Hypothesis Hrow : rowed ru true rheld rat n lo len p q.
Hypothesis Hh : forall i j, held i j = turned o rheld i j.
Hypothesis Ha : forall i j, at_ i j = turned o rat i j.
Variables (alpha : A) (x incX : Z) (beta : A) (y incY : Z) (m : list A).
Hypothesis HincY : incY <> 0.
Hypothesis HinY : inside m y incY n.
Hypothesis Hap : held_apart held at_ m n n (in_vector y incY n).
Hypothesis Hx : vector_apart m x incX n (in_vector y incY n).
Local Notation xe := (elt x incX n).
Local Notation ye := (elt y incY n).
Lemma turned_apart (m0 : list A) : length m0 = length m -> held_apart rheld rat m0 n n (in_vector y incY n).
Proof using Hh Ha Hap.
  intros L i j Hi Hj K. rewrite L. destruct o; cbn [turned] in *.
  - rewrite <- Ha. apply Hap; try assumption. now rewrite Hh.
  - rewrite <- Ha. apply Hap; try assumption. now rewrite Hh.
Qed.
Lemma turned_symmetric m0 i j : 0 <= i < n -> 0 <= j < n -> symmetric_of d zero held at_ m0 i j = symmetric_of d zero rheld rat m0 i j.
Proof using Hrow Hh Ha.
  intros Hi Hj. unfold symmetric_of. rewrite !Hh, !Ha. destruct o; cbn [turned]; [reflexivity|].
  destruct (rheld j i) eqn:K1, (rheld i j) eqn:K2; try reflexivity.
  now rewrite (held_once ru n rheld rat lo len p q Hrow i j Hi Hj K2 K1).
Qed.
Lemma turned_hermitian m0 i j : 0 <= i < n -> 0 <= j < n -> hermitian_of d zero conj re held at_ m0 i j = hrow d zero conj rheld rat m0 re (row_conj o) i j.
Proof using Hrow Hh Ha.
  intros Hi Hj. unfold hermitian_of, hrow. rewrite !Hh, !Ha. destruct o; cbn [turned row_conj cj negb]; [reflexivity|].
  destruct (i =? j) eqn:E; [reflexivity|]. destruct (rheld j i) eqn:K1, (rheld i j) eqn:K2; try reflexivity.
  pose proof (held_once ru n rheld rat lo len p q Hrow i j Hi Hj K2 K1). subst j. rewrite Z.eqb_refl in E. discriminate.
Qed.
Lemma same_cell m0 i j : 0 <= i < n -> 0 <= j < n -> changes d m m0 (in_vector y incY n) -> held i j = true -> val d m0 (at_ i j) = val d m (at_ i j).
Proof using Hap. intros Hi Hj C K. destruct (Hap i j Hi Hj K) as [P N]. now apply C. Qed.
Lemma same_symmetric m0 i j : 0 <= i < n -> 0 <= j < n -> changes d m m0 (in_vector y incY n) ->
  symmetric_of d zero held at_ m0 i j = symmetric_of d zero held at_ m i j.
Proof using Hap.
  intros Hi Hj C. unfold symmetric_of. destruct (held i j) eqn:K1; [now apply same_cell|]. destruct (held j i) eqn:K2; [now apply same_cell|reflexivity].
Qed.
Lemma same_hermitian m0 i j : 0 <= i < n -> 0 <= j < n -> changes d m m0 (in_vector y incY n) ->
  hermitian_of d zero conj re held at_ m0 i j = hermitian_of d zero conj re held at_ m i j.
Proof using Hap Hrow Hh Ha.
  intros Hi Hj C. unfold hermitian_of. destruct (i =? j).
  - f_equal. apply same_cell; try assumption. rewrite Hh. destruct (Hrow i Hi) as (_ & _ & [_ D] & _). now destruct o.
  - destruct (held i j) eqn:K1; [now apply same_cell|]. destruct (held j i) eqn:K2; [f_equal; now apply same_cell|reflexivity].
Qed.
Lemma same_x m0 j : 0 <= j < n -> changes d m m0 (in_vector y incY n) -> val d m0 (xe j) = val d m (xe j).
Proof using Hx. intros Hj C. destruct (Hx j Hj) as [P N]. now apply C. Qed.
Definition product (M : Z -> Z -> A) (m' : list A) : Prop :=
  changes d m m' (in_vector y incY n) /\
  forall i, 0 <= i < n -> val d m' (ye i) = add (mul beta (val d m (ye i))) (mul alpha (zs n (fun j => mul (M i j) (val d m (xe j))))).
Lemma sym_mv dots body :
  (forall m0 i s, 0 <= i < n -> body m0 i s = sym_round zero add mul conj ru n lo len p q x incX y incY alpha dots i s) ->
  exists m', (do m0 <- scal_init zero mul is_zero n beta y incY m; repeat n (body m0) m0) = Ok m' /\ product (symmetric_of d zero held at_ m) m'.
Proof using SR IZ Hrow Hh Ha HincY HinY Hap Hx.
  intros Hb.
  apply (after_scaling d zero one add mul is_zero SR IZ n n beta y incY m (fun m0 => repeat n (body m0) m0)
    (fun m0 i => mul alpha (zs n (fun j => mul (symmetric_of d zero held at_ m0 i j) (val d m0 (xe j)))))); try assumption.
  - intros m0 L0 C0.
    destruct (sym_loop d zero one add mul conj SR ru n rheld rat lo len p q Hrow x incX y incY m0 HincY
      ltac:(intros i Hi; rewrite L0; now apply HinY) (turned_apart m0 L0) (vector_length m m0 x incX n _ L0 Hx) alpha dots (body m0) (Hb m0)) as (m' & E & G).
    exists m'. split; [exact E|]. eapply gain_ext; [|exact G]. intros l Hl. cbv beta. f_equal. apply zsum_ext. intros j Hj. f_equal. symmetry. now apply turned_symmetric.
  - intros m0 i Hi C. f_equal. apply zsum_ext. intros j Hj. now rewrite same_symmetric, same_x.
  - reflexivity.
Qed.
Lemma herm_mv body :
  (forall m0 i s, 0 <= i < n -> body m0 i s = herm_round zero add mul conj n lo len p q x incX y incY alpha re (row_conj o) i s) ->
  exists m', (do m0 <- scal_init zero mul is_zero n beta y incY m; repeat n (body m0) m0) = Ok m' /\ product (hermitian_of d zero conj re held at_ m) m'.
Proof using SR IZ Hrow Hh Ha HincY HinY Hap Hx.
  intros Hb.
  apply (after_scaling d zero one add mul is_zero SR IZ n n beta y incY m (fun m0 => repeat n (body m0) m0)
    (fun m0 i => mul alpha (zs n (fun j => mul (hermitian_of d zero conj re held at_ m0 i j) (val d m0 (xe j)))))); try assumption.
  - intros m0 L0 C0.
    destruct (herm_loop d zero one add mul conj SR ru n rheld rat lo len p q Hrow x incX y incY m0 HincY
      ltac:(intros i Hi; rewrite L0; now apply HinY) (turned_apart m0 L0) (vector_length m m0 x incX n _ L0 Hx) alpha re (row_conj o) (body m0) (Hb m0)) as (m' & E & G).
    exists m'. split; [exact E|]. eapply gain_ext; [|exact G]. intros l Hl. cbv beta. f_equal. apply zsum_ext. intros j Hj. f_equal. symmetry. now apply turned_hermitian.
  - intros m0 i Hi C. f_equal. apply zsum_ext. intros j Hj. now rewrite same_hermitian, same_x.
  - reflexivity.
Qed.
End Kinds.

(** ** The routines *)
Lemma empty_product {A} (d zero : A) add mul n M alpha x incX beta y incY (m : list A) : (n =? 0) = true ->
  product d zero add mul n alpha x incX beta y incY m M m.
Proof. intros E. split; [apply changes_refl|]. intros; lia. Qed.
Section Routines.
Context {A : Type} (d zero one : A) (add mul : A -> A -> A) (conj re : A -> A) (is_zero : A -> bool).
Hypothesis SR : semi_ring_theory zero one add mul eq.
Hypothesis IZ : forall v, is_zero v = true <-> v = zero.
Local Notation zs := (zsum zero add).
Local Notation product := (product d zero add mul).
Lemma spmv_ok o up n alpha a x incX beta y incY (m : list A) : incY <> 0 -> inside m y incY n ->
  vector_apart m x incX n (in_vector y incY n) -> held_apart (kept up NonUnit) (packed_cell o up n a) m n n (in_vector y incY n) ->
  exists m', spmv zero add mul conj is_zero o up n alpha a x incX beta y incY m = Ok m' /\
    product n alpha x incX beta y incY m (symmetric_of d zero (kept up NonUnit) (packed_cell o up n a) m) m'.
Proof using SR IZ.
  intros HincY HinY Hx Hap. unfold spmv.
  pose proof (sym_mv d zero one add mul conj is_zero SR IZ o (row_uplo o up) n _ _ _ _ _ _ _ _ (packed_rowed (row_uplo o up) NonUnit n a)
    (kept_turned o up NonUnit) (packed_turned o up n a) alpha x incX beta y incY m HincY HinY Hap Hx) as L.
  destruct (row_uplo o up) eqn:Eu; cbn [tlo tlen tp tq] in L.
  - apply (L true (fun m0 i s => _)). intros m0 i s Hi. unfold sym_round, wp, wlo. cbn [tlo tlen tp tq]. same.
  - apply (L false (fun m0 i s => _)). intros m0 i s Hi. unfold sym_round, wp, wlo. cbn [tlo tlen tp tq]. same.
Qed.
Lemma hpmv_ok o up n alpha a x incX beta y incY (m : list A) : incY <> 0 -> inside m y incY n ->
  vector_apart m x incX n (in_vector y incY n) -> held_apart (kept up NonUnit) (packed_cell o up n a) m n n (in_vector y incY n) ->
  exists m', hpmv zero add mul conj re is_zero o up n alpha a x incX beta y incY m = Ok m' /\
    product n alpha x incX beta y incY m (hermitian_of d zero conj re (kept up NonUnit) (packed_cell o up n a) m) m'.
Proof using SR IZ.
  intros HincY HinY Hx Hap. unfold hpmv.
  pose proof (herm_mv d zero one add mul conj re is_zero SR IZ o (row_uplo o up) n _ _ _ _ _ _ _ _ (packed_rowed (row_uplo o up) NonUnit n a)
    (kept_turned o up NonUnit) (packed_turned o up n a) alpha x incX beta y incY m HincY HinY Hap Hx) as L.
  destruct (row_uplo o up) eqn:Eu.
  - apply (L (fun m0 i s => _)). intros m0 i s Hi. unfold herm_round. cbn [tlo tlen tp tq]. same.
  - apply (L (fun m0 i s => _)). intros m0 i s Hi. unfold herm_round. cbn [tlo tlen tp tq]. rewrite half_lower. same.
Qed.
Lemma sbmv_ok o up n k alpha a lda x incX beta y incY (m : list A) : incY <> 0 -> 0 <= k -> inside m y incY n ->
  vector_apart m x incX n (in_vector y incY n) -> held_apart (band_kept up NonUnit k) (band_cell o up k a lda) m n n (in_vector y incY n) ->
  exists m', sbmv zero add mul conj is_zero o up n k alpha a lda x incX beta y incY m = Ok m' /\
    product n alpha x incX beta y incY m (symmetric_of d zero (band_kept up NonUnit k) (band_cell o up k a lda) m) m'.
Proof using SR IZ.
  intros HincY Hk HinY Hx Hap. unfold sbmv. destruct (n =? 0) eqn:En; [exists m; split; [reflexivity|now apply empty_product]|].
  pose proof (sym_mv d zero one add mul conj is_zero SR IZ o (row_uplo o up) n _ _ _ _ _ _ _ _ (band_rowed (row_uplo o up) NonUnit n k a lda Hk)
    (band_kept_turned o up NonUnit k) (band_turned o up k a lda) alpha x incX beta y incY m HincY HinY Hap Hx) as L.
  destruct (row_uplo o up) eqn:Eu.
  - apply (L true (fun m0 i s => _)). intros m0 i s Hi. unfold sym_round, wp, wlo. cbv zeta. cbn [blo blen bp bq]. same.
  - apply (L true (fun m0 i s => _)). intros m0 i s Hi. unfold sym_round, wp, wlo. cbv zeta. cbn [blo blen bp bq]. same.
Qed.
Lemma hbmv_ok o up n k alpha a lda x incX beta y incY (m : list A) : incY <> 0 -> 0 <= k -> inside m y incY n ->
  vector_apart m x incX n (in_vector y incY n) -> held_apart (band_kept up NonUnit k) (band_cell o up k a lda) m n n (in_vector y incY n) ->
  exists m', hbmv zero add mul conj re is_zero o up n k alpha a lda x incX beta y incY m = Ok m' /\
    product n alpha x incX beta y incY m (hermitian_of d zero conj re (band_kept up NonUnit k) (band_cell o up k a lda) m) m'.
Proof using SR IZ.
  intros HincY Hk HinY Hx Hap. unfold hbmv. destruct (n =? 0) eqn:En; [exists m; split; [reflexivity|now apply empty_product]|].
  pose proof (herm_mv d zero one add mul conj re is_zero SR IZ o (row_uplo o up) n _ _ _ _ _ _ _ _ (band_rowed (row_uplo o up) NonUnit n k a lda Hk)
    (band_kept_turned o up NonUnit k) (band_turned o up k a lda) alpha x incX beta y incY m HincY HinY Hap Hx) as L.
  destruct (row_uplo o up) eqn:Eu.
  - apply (L (fun m0 i s => _)). intros m0 i s Hi. unfold herm_round. cbv zeta. cbn [blo blen bp bq]. same.
  - apply (L (fun m0 i s => _)). intros m0 i s Hi. unfold herm_round. cbv zeta. cbn [blo blen bp bq]. same.
Qed.
End Routines.

(** ** General band matrices *)
(** row i keeps the columns lo(i), ..., lo(i) + len(i) - 1 at p(i), ... *)
Definition glo (kl i : Z) : Z := Z.max (i - kl) 0.
Definition glen (cols kl ku i : Z) : Z := Z.min (kl + ku + 1) (kl - i + cols) - Z.max (kl - i) 0.
Definition gp (kl a lda i : Z) : Z := a + lda * i + Z.max (kl - i) 0.
Lemma gband_window cols kl ku a lda i k : 0 <= k < glen cols kl ku i ->
  0 <= glo kl i + k < cols /\ gband_kept kl ku i (glo kl i + k) = true /\ gband_cell RowMajor kl ku a lda i (glo kl i + k) = gp kl a lda i + k.
Proof. unfold glen, glo, gp, gband_kept, gband_cell. intros H. lia. Qed.
Lemma gband_out cols kl ku i j : 0 <= j < cols -> ~ glo kl i <= j < glo kl i + glen cols kl ku i -> gband_kept kl ku i j = false.
Proof. unfold glen, glo, gband_kept. intros Hj H. lia. Qed.
Lemma gband_cell_flip kl ku a lda i j : gband_cell ColMajor kl ku a lda i j = gband_cell RowMajor ku kl a lda j i.
Proof. reflexivity. Qed.
Lemma gband_kept_flip kl ku i j : gband_kept ku kl j i = gband_kept kl ku i j.
Proof. unfold gband_kept. apply andb_comm. Qed.

Section General.
Context {A : Type} (d zero one : A) (add mul : A -> A -> A) (conj : A -> A).
Hypothesis SR : semi_ring_theory zero one add mul eq.
Hypothesis C0 : conj zero = zero.
Hypothesis CA : forall u v, conj (add u v) = add (conj u) (conj v).
Hypothesis CM : forall u v, conj (mul u v) = mul (conj u) (conj v).
Add Ring PackRing5 : SR.
Local Notation zs := (zsum zero add).
Lemma conj_sum n f : conj (zs n f) = zs n (fun j => conj (f j)).
Proof using SR C0 CA CM.
  destruct (Z_le_gt_dec n 0) as [H|H]; [now rewrite !zsum_nonpos by exact H|].
  apply (zsum_ind (fun n => conj (zs n f) = zs n (fun j => conj (f j))) n); [now rewrite !zsum_nonpos by lia| |lia].
  intros k Hk E. rewrite !zsum_S by lia. now rewrite CA, E.
Qed.
Variables (cx : bool) (t : trans) (rows cols kl ku : Z) (alpha : A) (a lda x incX y incY : Z) (m : list A).
Local Notation held := (gband_kept kl ku).
Local Notation at_ := (gband_cell RowMajor kl ku a lda).
Local Notation M := (sparse_of d zero held at_ m).
Hypothesis HincY : incY <> 0.
Lemma cj_zero' c : cj conj c zero = zero.
Proof using C0. now destruct c. Qed.
Section Straight.
Hypothesis Ht : is_trans t = false.
Hypothesis HinY : inside m y incY rows.
Hypothesis Hap : held_apart held at_ m rows cols (in_vector y incY rows).
Hypothesis Hx : vector_apart m x incX cols (in_vector y incY rows).
Local Notation x0 := (start x incX cols).
Local Notation y0 := (start y incY rows).
Local Notation xe := (elt x incX cols).
Local Notation ye := (elt y incY rows).
Local Notation gain := (gain d add ye (line rows)).
Local Notation region := (region ye (line rows)).
Lemma gdot c i s : 0 <= i < rows -> changes d m s region ->
  dot_gen zero add mul conj c (glen cols kl ku i) (gp kl a lda i) 1 (x0 + glo kl i * incX) incX s =
    Ok (zs cols (fun j => mul (cj conj c (M i j)) (val d m (xe j)))).
Proof using SR C0 Hap Hx.
  intros Hi Cs. transitivity (Ok (zs cols (fun j => mul (cj conj c (M i j)) (val d s (xe j))))).
  - apply (seg_dot d zero one add mul SR conj cols x incX c (glen cols kl ku i) (gp kl a lda i) (glo kl i) s (fun j => cj conj c (M i j))).
    + intros j Hj. destruct Cs as [L _]. rewrite L. now apply Hx.
    + intros k Hk. destruct (gband_window cols kl ku a lda i k Hk) as (B & K & E). split; [exact B|]. rewrite <- E.
      destruct (Hap i _ Hi B K) as [P N]. destruct Cs as [L V]. rewrite L. split; [exact P|]. unfold sparse_of. rewrite K. now rewrite V.
    + intros j Hj N. unfold sparse_of. rewrite (gband_out cols kl ku i j Hj N). apply cj_zero'.
    + reflexivity.
  - f_equal. apply zsum_ext. intros j Hj. f_equal. destruct (Hx j Hj) as [P N]. now apply Cs.
Qed.
Lemma gdot_swapped i s : 0 <= i < rows -> changes d m s region ->
  dot_gen zero add mul conj true (glen cols kl ku i) (x0 + glo kl i * incX) incX (gp kl a lda i) 1 s =
    Ok (zs cols (fun j => mul (M i j) (conj (val d m (xe j))))).
Proof using SR C0 Hap Hx.
  intros Hi Cs. rewrite (dot_gen_ok d).
  - f_equal. rewrite <- (zsum_window zero one add mul SR cols (glo kl i) (glen cols kl ku i) (fun j => mul (M i j) (conj (val d m (xe j))))).
    + apply zsum_ext. intros k Hk. destruct (gband_window cols kl ku a lda i k Hk) as (B & K & E). destruct (Hap i _ Hi B K) as [P N], Cs as [L V].
      rewrite (SRmul_comm SR). f_equal.
      * unfold sparse_of. rewrite K, Z.mul_1_r, <- E. now apply V.
      * cbn [cj]. f_equal. replace (x0 + glo kl i * incX + k * incX) with (x0 + (glo kl i + k) * incX) by ring. rewrite start_elt.
        destruct (Hx _ B) as [P' N']. now apply V.
    + intros k Hk. exact (proj1 (gband_window cols kl ku a lda i k Hk)).
    + intros j Hj N. unfold sparse_of. rewrite (gband_out cols kl ku i j Hj N). apply (SRmul_0_l SR).
  - intros k Hk. destruct (gband_window cols kl ku a lda i k Hk) as (B & K & E). destruct Cs as [L V]. rewrite L. split.
    + replace (x0 + glo kl i * incX + k * incX) with (x0 + (glo kl i + k) * incX) by ring. rewrite start_elt. now apply Hx.
    + rewrite Z.mul_1_r, <- E. now apply Hap.
Qed.
Definition straight_round (i : Z) (s : list A) : outcome (list A) :=
  match is_conj t, cx with
  | false, false =>
      do r <- dot_gen zero add mul conj false (glen cols kl ku i) (gp kl a lda i) 1 (x0 + glo kl i * incX) incX s;
      plus_at add s (y0 + i * incY) (mul alpha r)
  | false, true =>
      do r <- dot_gen zero add mul conj true (glen cols kl ku i) (x0 + glo kl i * incX) incX (gp kl a lda i) 1 s;
      plus_at add s (y0 + i * incY) (mul alpha r)
  | true, false =>
      do r <- dot_gen zero add mul conj true (glen cols kl ku i) (gp kl a lda i) 1 (x0 + glo kl i * incX) incX s;
      plus_at add s (y0 + i * incY) (mul alpha r)
  | true, true =>
      do r <- dot_gen zero add mul conj false (glen cols kl ku i) (gp kl a lda i) 1 (x0 + glo kl i * incX) incX s;
      plus_at add s (y0 + i * incY) (mul alpha (conj r))
  end.
Lemma straight_round_ok i s : 0 <= i < rows -> changes d m s region ->
  straight_round i s = plus_at add s (y0 + i * incY) (mul alpha (zs cols (fun j => mul (op conj t M i j) (cj conj cx (val d m (xe j)))))).
Proof using SR C0 CA CM Ht Hap Hx.
  intros Hi Cs. unfold straight_round. replace (zs cols (fun j => mul (op conj t M i j) (cj conj cx (val d m (xe j)))))
    with (zs cols (fun j => mul (cj conj (is_conj t) (M i j)) (cj conj cx (val d m (xe j))))) by (apply zsum_ext; intros j Hj; now rewrite (op_row conj t)).
  destruct (is_conj t), cx; cbn [cj].
  - rewrite gdot by assumption. cbn [bind]. do 2 f_equal. rewrite conj_sum. apply zsum_ext. intros j Hj. apply CM.
  - rewrite gdot by assumption. reflexivity.
  - rewrite gdot_swapped by assumption. reflexivity.
  - rewrite gdot by assumption. reflexivity.
Qed.
Lemma straight_loop body : (forall i s, 0 <= i < rows -> body i s = straight_round i s) ->
  exists m', repeat rows body m = Ok m' /\
    gain (fun i => mul alpha (zs cols (fun j => mul (op conj t M i j) (cj conj cx (val d m (xe j)))))) m m'.
Proof using SR C0 CA CM Ht Hap Hx HincY HinY.
  intros Hb. apply (one_by_one d zero one add mul SR rows y incY m (fun i => mul alpha (zs cols (fun j => mul (op conj t M i j) (cj conj cx (val d m (xe j))))))).
  - apply changes_refl.
  - intros i s Hi Cs. rewrite Hb, straight_round_ok, start_elt by assumption.
    apply (gain_one d zero one add mul SR ye (line rows) m Z.eqb s i _ ltac:(intros; apply Z.eqb_eq) (ye_inj rows y incY HincY) (ye_in rows y incY m HinY)); [apply Cs|exact Hi].
Qed.
End Straight.
Section Turned.
Hypothesis Ht : is_trans t = true.
Hypothesis HinY : inside m y incY cols.
Hypothesis Hap : held_apart held at_ m rows cols (in_vector y incY cols).
Hypothesis Hx : vector_apart m x incX rows (in_vector y incY cols).
Local Notation x0 := (start x incX rows).
Local Notation y0 := (start y incY cols).
Local Notation xe := (elt x incX rows).
Local Notation ye := (elt y incY cols).
Local Notation gain := (gain d add ye (line cols)).
Local Notation region := (region ye (line cols)).
Definition turned_round (i : Z) (s : list A) : outcome (list A) :=
  do u <- load s (x0 + i * incX);
  axpy_gen add mul conj (is_conj t) (glen cols kl ku i) (mul (cj conj cx u) alpha) (gp kl a lda i) 1 (y0 + glo kl i * incY) incY s.
Lemma turned_loop body : (forall i s, 0 <= i < rows -> body i s = turned_round i s) ->
  exists m', repeat rows body m = Ok m' /\
    gain (fun i => mul alpha (zs rows (fun j => mul (op conj t M i j) (cj conj cx (val d m (xe j)))))) m m'.
Proof using SR C0 Ht Hap Hx HincY HinY.
  intros Hb.
  destruct (gain_repeat d zero one add mul SR ye (line cols) m (fun i l => mul (mul (cj conj cx (val d m (xe i))) alpha) (cj conj (is_conj t) (M i l))) rows body m) as (m' & E & G).
  - apply changes_refl.
  - intros i s Hi Cs. rewrite Hb by exact Hi. unfold turned_round. rewrite start_elt.
    rewrite (fixed_load d ye (line cols) m (xe i) s (Hx i Hi) Cs). cbn [bind].
    apply (seg_axpy d zero one add mul SR conj cols y incY m HincY HinY (is_conj t) (glen cols kl ku i) (mul (cj conj cx (val d m (xe i))) alpha) (gp kl a lda i) (glo kl i) s
      (fun l => cj conj (is_conj t) (M i l))).
    + exact Cs.
    + intros k Hk. destruct (gband_window cols kl ku a lda i k Hk) as (B & K & E). split; [exact B|]. rewrite <- E.
      split; [exact (Hap i _ Hi B K)|]. unfold sparse_of. now rewrite K.
    + intros j Hj N. unfold sparse_of. rewrite (gband_out cols kl ku i j Hj N). apply cj_zero'.
    + reflexivity.
  - exists m'. split; [exact E|]. eapply gain_ext; [|exact G]. intros l Hl. cbv beta. rewrite <- (zsum_mul zero one add mul SR). apply zsum_ext. intros j Hj.
    rewrite (op_column conj t) by exact Ht. ring.
Qed.
End Turned.
End General.

Section Gbmv.
Context {A : Type} (d zero one : A) (add mul : A -> A -> A) (conj : A -> A) (is_zero : A -> bool).
Hypothesis SR : semi_ring_theory zero one add mul eq.
Hypothesis IZ : forall v, is_zero v = true <-> v = zero.
Hypothesis C0 : conj zero = zero.
Hypothesis CA : forall u v, conj (add u v) = add (conj u) (conj v).
Hypothesis CM : forall u v, conj (mul u v) = mul (conj u) (conj v).
Local Notation zs := (zsum zero add).
(** the lengths of the two vectors *)
Lemma gbmv_row_ok t cx rows cols kl ku alpha a lda x incX beta y incY (m : list A) :
  let ny := if is_trans t then cols else rows in let nx := if is_trans t then rows else cols in
  incY <> 0 -> inside m y incY ny -> vector_apart m x incX nx (in_vector y incY ny) ->
  held_apart (gband_kept kl ku) (gband_cell RowMajor kl ku a lda) m rows cols (in_vector y incY ny) ->
  exists m', gbmv_row zero add mul conj is_zero t cx rows cols kl ku alpha a lda x incX beta y incY m = Ok m' /\
    changes d m m' (in_vector y incY ny) /\
    forall i, 0 <= i < ny -> val d m' (elt y incY ny i) =
      add (mul beta (val d m (elt y incY ny i)))
          (mul alpha (zs nx (fun j => mul (op conj t (sparse_of d zero (gband_kept kl ku) (gband_cell RowMajor kl ku a lda) m) i j)
                                          (if cx then conj (val d m (elt x incX nx j)) else val d m (elt x incX nx j))))).
Proof using SR IZ C0 CA CM.
  intros ny nx HincY HinY Hx Hap. unfold gbmv_row. subst ny nx. destruct (is_trans t) eqn:Ht.
  - apply (after_scaling d zero one add mul is_zero SR IZ cols cols beta y incY m (fun m0 => _)
      (fun m0 i => mul alpha (zs rows (fun j => mul (op conj t (sparse_of d zero (gband_kept kl ku) (gband_cell RowMajor kl ku a lda) m0) i j) (cj conj cx (val d m0 (elt x incX rows j))))))); try assumption; try reflexivity.
    + intros m0 L0 Ch. apply (turned_loop d zero one add mul conj SR C0 cx t rows cols kl ku alpha a lda x incX y incY m0 HincY Ht).
      * intros i Hi. rewrite L0. now apply HinY.
      * intros i j Hi Hj K. rewrite L0. now apply Hap.
      * now apply (vector_length m).
      * intros i s Hi. unfold turned_round, glen, glo, gp. cbv zeta. same.
    + intros m0 i Hi Ch. f_equal. apply zsum_ext. intros j Hj. destruct (Hx j Hj) as [P N]. f_equal; [|now rewrite (proj2 Ch _ P N)].
      rewrite !(op_column conj t) by exact Ht. f_equal. unfold sparse_of. destruct (gband_kept kl ku j i) eqn:K; [|reflexivity].
      destruct (Hap j i Hj Hi K) as [P' N']. now apply Ch.
  - apply (after_scaling d zero one add mul is_zero SR IZ rows rows beta y incY m (fun m0 => _)
      (fun m0 i => mul alpha (zs cols (fun j => mul (op conj t (sparse_of d zero (gband_kept kl ku) (gband_cell RowMajor kl ku a lda) m0) i j) (cj conj cx (val d m0 (elt x incX cols j))))))); try assumption; try reflexivity.
    + intros m0 L0 Ch. apply (straight_loop d zero one add mul conj SR C0 CA CM cx t rows cols kl ku alpha a lda x incX y incY m0 HincY Ht).
      * intros i Hi. rewrite L0. now apply HinY.
      * intros i j Hi Hj K. rewrite L0. now apply Hap.
      * now apply (vector_length m).
      * intros i s Hi. unfold straight_round, glen, glo, gp. cbv zeta. destruct (is_conj t), cx; same.
    + intros m0 i Hi Ch. f_equal. apply zsum_ext. intros j Hj. destruct (Hx j Hj) as [P N]. f_equal; [|now rewrite (proj2 Ch _ P N)].
      rewrite !(op_row conj t) by exact Ht. f_equal. unfold sparse_of. destruct (gband_kept kl ku i j) eqn:K; [|reflexivity].
      destruct (Hap i j Hi Hj K) as [P' N']. now apply Ch.
Qed.
Lemma gbmv_ok o t cx rows cols kl ku alpha a lda x incX beta y incY (m : list A) :
  let ny := if is_trans t then cols else rows in let nx := if is_trans t then rows else cols in
  rows <> 0 -> cols <> 0 -> incY <> 0 -> inside m y incY ny -> vector_apart m x incX nx (in_vector y incY ny) ->
  held_apart (gband_kept kl ku) (gband_cell o kl ku a lda) m rows cols (in_vector y incY ny) ->
  exists m', gbmv zero add mul conj is_zero o t cx rows cols kl ku alpha a lda x incX beta y incY m = Ok m' /\
    changes d m m' (in_vector y incY ny) /\
    forall i, 0 <= i < ny -> val d m' (elt y incY ny i) =
      add (mul beta (val d m (elt y incY ny i)))
          (mul alpha (zs nx (fun j => mul (op conj t (sparse_of d zero (gband_kept kl ku) (gband_cell o kl ku a lda) m) i j)
                                          (if cx then conj (val d m (elt x incX nx j)) else val d m (elt x incX nx j))))).
Proof using SR IZ C0 CA CM.
  intros ny nx Hr Hc HincY HinY Hx Hap. unfold gbmv. replace ((rows =? 0) || (cols =? 0)) with false by lia. destruct o; [now apply gbmv_row_ok|].
  assert (Ft : is_trans (flip t) = negb (is_trans t)) by now destruct t.
  assert (Ny : (if is_trans (flip t) then rows else cols) = ny) by (rewrite Ft; unfold ny; now destruct (is_trans t)).
  assert (Nx : (if is_trans (flip t) then cols else rows) = nx) by (rewrite Ft; unfold nx; now destruct (is_trans t)).
  destruct (gbmv_row_ok (flip t) cx cols rows ku kl alpha a lda x incX beta y incY m) as (m' & E & C & V); rewrite ?Ny, ?Nx in *.
  - exact HincY.
  - exact HinY.
  - exact Hx.
  - intros i j Hi Hj K. rewrite <- gband_cell_flip. apply Hap; [exact Hj|exact Hi|]. now rewrite <- gband_kept_flip.
  - exists m'. split; [exact E|]. split; [exact C|]. intros i Hi. rewrite V by exact Hi. do 2 f_equal. apply zsum_ext. intros j Hj. f_equal.
    assert (S : forall i j, sparse_of d zero (gband_kept ku kl) (gband_cell RowMajor ku kl a lda) m i j = sparse_of d zero (gband_kept kl ku) (gband_cell ColMajor kl ku a lda) m j i)
      by (intros i' j'; unfold sparse_of; now rewrite gband_kept_flip).
    destruct t; cbn [op flip]; now rewrite S.
Qed.
End Gbmv.
