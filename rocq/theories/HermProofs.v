From Coq Require Import ZArith Ring_theory Ring.
From Verif Require Import Base BaseProofs MatmulModel MatmulSpec BlasModel BlasSpec BlasProofs TriModel TriSpec TriProofs SymModel SymSpec SymProofs HermModel HermSpec.
From Coq Require Import ZifyNat ZifyN ZifyBool.
Ltac Zify.zify_post_hook ::= idtac.
Local Open Scope Z_scope.

Lemma elt1 x n i : elt x 1 n i = x + i.
Proof. rewrite elt_pos by lia. ring. Qed.
Lemma repeat_ext {St} k (b b' : Z -> St -> outcome St) s : (forall i t, b i t = b' i t) -> TriModel.repeat k b s = TriModel.repeat k b' s.
Proof.
  intros H. unfold TriModel.repeat, walk1, walk.
  assert (G : forall q i j t, rounds q i 1 j 0 (fun iX _ => b iX) t = rounds q i 1 j 0 (fun iX _ => b' iX) t); [|apply G].
  induction q as [|q IH]; intros i j t; cbn [rounds]; [reflexivity|]. rewrite H. destruct (b' i t); cbn [bind]; [apply IH|reflexivity|reflexivity].
Qed.
Lemma other_other up : other (other up) = up. Proof. now destruct up. Qed.

Section Herm.
Context {A : Type} (d zero one : A) (add mul : A -> A -> A).
Hypothesis SR : semi_ring_theory zero one add mul eq.
Add Ring AHerm : SR.
Variables (conj re : A -> A) (is_zero : A -> bool).
Hypothesis IZ : forall v, is_zero v = true <-> v = zero.
Local Notation zs := (zsum zero add).

(** the calls that pass Conj are the column-major ones of the other triangle *)
Lemma her_conj up n alpha x incX a lda (m : list A) :
  her_gen add mul conj re is_zero true up n alpha x incX a lda m = her add mul conj re is_zero ColMajor (other up) n alpha x incX a lda m.
Proof using Type. unfold her. cbn [row_conj row_uplo]. now rewrite other_other. Qed.
Lemma her2_conj up n alpha x incX y incY a lda (m : list A) :
  her2_gen add mul conj re is_zero true up n alpha x incX y incY a lda m = her2 add mul conj re is_zero ColMajor (other up) n alpha x incX y incY a lda m.
Proof using Type. unfold her2. cbn [row_conj row_uplo]. now rewrite other_other. Qed.
Lemma hemv_conj up n alpha a lda x incX beta y incY (m : list A) :
  hemv_gen zero add mul conj re is_zero true up n alpha a lda x incX beta y incY m = hemv zero add mul conj re is_zero ColMajor (other up) n alpha a lda x incX beta y incY m.
Proof using Type. unfold hemv. cbn [row_conj row_uplo]. now rewrite other_other. Qed.

(** ** hemm *)
Lemma hermitian_col up a lda (m : list A) i j : hermitian d conj re ColMajor up a lda m i j = hermitian d conj re RowMajor (other up) a lda m j i.
Proof using Type.
  unfold hermitian. rewrite (Z.eqb_sym j i). destruct (i =? j) eqn:E; [apply Z.eqb_eq in E; now subst j|]. cbn [cell]. now rewrite kept_other.
Qed.
Lemma kept_apart_col (m : list A) up n a lda cells : kept_apart m RowMajor up NonUnit n a lda cells -> kept_apart m ColMajor (other up) NonUnit n a lda cells.
Proof using Type. intros H i j Hi Hj K. rewrite kept_other in K. now apply (H j i). Qed.

Lemma hemm_row_ok sd up rows cols alpha a lda b ldb beta c ldc (m : list A) : 0 <= rows -> 0 <= cols <= ldc -> 0 <= ldb ->
  block_inside m RowMajor c ldc rows cols ->
  kept_apart m RowMajor up NonUnit (order_of sd rows cols) a lda (block RowMajor c ldc rows cols) ->
  block_apart m RowMajor b ldb rows cols (block RowMajor c ldc rows cols) ->
  exists m', hemm_row zero one add mul conj re is_zero sd up rows cols alpha a lda b ldb beta c ldc m = Ok m' /\
    changes d m m' (block RowMajor c ldc rows cols) /\
    forall i j, 0 <= i < rows -> 0 <= j < cols -> entry d RowMajor c ldc m' i j =
      add (mul beta (entry d RowMajor c ldc m i j))
          (mul alpha (applied zero add mul sd rows cols (hermitian d conj re RowMajor up a lda m) (entry d RowMajor b ldb m) i j)).
Proof using SR IZ.
  intros Hrows Hcols Hldb Hin HA HB. unfold hemm_row, gescal_init.
  destruct (scale_block d (mul beta) (fun n x m => scal_init zero mul is_zero n beta x 1 m) rows cols c ldc m) as (m0 & E0 & C0 & V0).
  { intros n x t Ht. destruct (scal_init_ok d zero mul is_zero n beta x 1 t Ht ltac:(left; lia)) as (t' & E & V & C).
    exists t'. split; [exact E|]. split; [|exact C]. intros i Hi. rewrite V by exact Hi. apply (scaled_by zero one add mul SR is_zero IZ). }
  { exact Hrows. } { exact Hcols. } { exact Hin. }
  rewrite E0. cbn [bind].
  pose proof (region_grid c ldc rows cols) as R.
  assert (C0' : changes d m m0 (region (spot c ldc) (grid rows cols))) by (eapply (changes_iff d); [|exact C0]; intros p; symmetry; apply R).
  assert (Inj : forall p q, grid rows cols p -> grid rows cols q -> spot c ldc p = spot c ldc q -> p = q).
  { apply (spot_inj c ldc cols (grid rows cols)); [intros p Hp; apply Hp|lia]. }
  set (F (i j : Z) := mul alpha (applied zero add mul sd rows cols (hermitian d conj re RowMajor up a lda m) (entry d RowMajor b ldb m) i j)).
  assert (Fin : forall s', gain d add (spot c ldc) (grid rows cols) (fun p => F (fst p) (snd p)) m0 s' ->
    changes d m s' (block RowMajor c ldc rows cols) /\
    forall i j, 0 <= i < rows -> 0 <= j < cols -> entry d RowMajor c ldc s' i j = add (mul beta (entry d RowMajor c ldc m i j)) (F i j)).
  { intros s' [C V]. split.
    - apply (changes_iff d _ _ _ _ R). apply (changes_then d _ _ m m0 s' C0' C).
    - intros i j Hi Hj. specialize (V (i, j) ltac:(split; assumption)). unfold entry. unfold spot in V. cbn [fst snd cell] in *. rewrite V. f_equal. now apply V0. }
  (* one call of hemv on a line of C *)
  assert (Line : forall o' up' nn x incX y incY s, nn = order_of sd rows cols -> incY <> 0 -> changes d m s (region (spot c ldc) (grid rows cols)) ->
     kept_apart m o' up' NonUnit nn a lda (block RowMajor c ldc rows cols) ->
     (forall l, 0 <= l < nn -> exists q, grid rows cols q /\ elt y incY nn l = spot c ldc q) ->
     (forall l, 0 <= l < nn -> 0 <= elt x incX nn l < Z.of_nat (length m) /\ ~ block RowMajor c ldc rows cols (elt x incX nn l)) ->
     exists s', hemv zero add mul conj re is_zero o' up' nn alpha a lda x incX one y incY s = Ok s' /\ changes d s s' (in_vector y incY nn) /\
       forall l, 0 <= l < nn -> val d s' (elt y incY nn l) = add (val d s (elt y incY nn l))
         (mul alpha (zs nn (fun k => mul (hermitian d conj re o' up' a lda m l k) (val d m (elt x incX nn k)))))).
  { intros o' up' nn x incX y incY s Hnn Hinc Cs HA' Hy Hx.
    assert (Sub : forall p, in_vector y incY nn p -> block RowMajor c ldc rows cols p).
    { intros p (l & Hl & ->). destruct (Hy l Hl) as (q & Hq & ->). apply R. exists q. now split. }
    assert (Cs' : changes d m s (block RowMajor c ldc rows cols)) by (eapply (changes_iff d); [|exact Cs]; exact R).
    assert (L : length s = length m) by apply Cs.
    destruct (hemv_ok d zero one add mul SR conj is_zero IZ re o' up' nn alpha a lda x incX one y incY s) as (s' & E & C & V).
    - exact Hinc.
    - intros l Hl. destruct (Hy l Hl) as (q & [Hq1 Hq2] & ->). rewrite L. now apply (Hin (fst q) (snd q)).
    - intros l Hl. rewrite L. destruct (Hx l Hl) as [H1 H2]. split; [exact H1|]. intros Q. apply H2. now apply Sub.
    - apply (apart_length m s o' up' nn a lda _ L). intros i j Hi Hj K. destruct (HA' i j Hi Hj K) as [H1 H2]. split; [exact H1|]. intros Q. apply H2. now apply Sub.
    - exists s'. split; [exact E|]. split; [exact C|]. intros l Hl. rewrite V by exact Hl. f_equal; [ring|]. f_equal. apply zsum_ext. intros k Hk.
      rewrite (hermitian_same d conj re o' up' nn a lda m s (block RowMajor c ldc rows cols) l k HA' Cs' Hl Hk).
      f_equal. destruct (Hx k Hk) as [H1 H2]. now apply Cs'. }
  destruct sd; cbn [order_of] in *.
  - (* Left: the columns *)
    destruct (gain_repeat d zero one add mul SR (spot c ldc) (grid rows cols) m (fun j p => if snd p =? j then F (fst p) j else zero) cols
      (fun j m => hemv_gen zero add mul conj re is_zero false up rows alpha a lda (b + j) ldb one (c + j) ldc m) m0 C0') as (m' & E & G).
    { intros j s Hj Cs. destruct (Line RowMajor up rows (b + j) ldb (c + j) ldc s) as (s' & E & C & V).
      - reflexivity.
      - lia.
      - exact Cs.
      - exact HA.
      - intros l Hl. exists (l, j). split; [split; assumption|]. rewrite elt_pos by lia. unfold spot. cbn [fst snd]. ring.
      - intros l Hl. rewrite elt_pos by lia. destruct (HB l j Hl Hj) as [H1 H2]. cbn [cell] in *. replace (b + j + l * ldb) with (b + l * ldb + j) by ring. now split.
      - exists s'. split; [exact E|]. assert (L : length s = length m) by apply Cs. split.
        + eapply (changes_weaken d); [|exact C]. intros p (l & Hl & ->). exists (l, j). split; [split; assumption|]. rewrite elt_pos by lia. unfold spot. cbn [fst snd]. ring.
        + intros p Hp. destruct (snd p =? j) eqn:Ej.
          * destruct Hp as [Hp1 Hp2]. specialize (V (fst p) Hp1). rewrite elt_pos in V by lia.
            replace (c + j + fst p * ldc) with (spot c ldc p) in V by (unfold spot; replace (snd p) with j by lia; ring).
            rewrite V. unfold F, applied, entry. cbn [cell]. do 2 f_equal. apply zsum_ext. intros k Hk. rewrite elt_pos by lia. do 2 f_equal. ring.
          * rewrite (add_0_r zero one add mul SR). apply C; [rewrite L; destruct Hp; now apply (Hin (fst p) (snd p))|].
            intros (l & Hl & El). rewrite elt_pos in El by lia.
            assert (E2 : p = (l, j)) by (apply Inj; [exact Hp|split; assumption|rewrite El; unfold spot; cbn [fst snd]; ring]).
            subst p. cbn [snd] in Ej. lia. }
    exists m'. split; [exact E|]. apply Fin. eapply gain_ext; [|exact G]. intros p Hp. cbv beta.
    rewrite (zsum_pick zero one add mul SR cols (snd p) (fun j => F (fst p) j)). destruct Hp as [_ Hp]. now replace ((0 <=? snd p) && (snd p <? cols)) with true by lia.
  - (* Right: the rows, with the transposed matrix *)
    destruct (gain_repeat d zero one add mul SR (spot c ldc) (grid rows cols) m (fun i p => if fst p =? i then F i (snd p) else zero) rows
      (fun i m => hemv_gen zero add mul conj re is_zero true up cols alpha a lda (b + i * ldb) 1 one (c + i * ldc) 1 m) m0 C0') as (m' & E & G).
    { intros i s Hi Cs. destruct (Line ColMajor (other up) cols (b + i * ldb) 1 (c + i * ldc) 1 s) as (s' & E & C & V).
      - reflexivity.
      - lia.
      - exact Cs.
      - now apply kept_apart_col.
      - intros l Hl. exists (i, l). split; [split; assumption|]. now rewrite elt1.
      - intros l Hl. rewrite elt1. exact (HB i l Hi Hl).
      - exists s'. split; [rewrite hemv_conj; exact E|]. assert (L : length s = length m) by apply Cs. split.
        + eapply (changes_weaken d); [|exact C]. intros p (l & Hl & ->). exists (i, l). split; [split; assumption|]. now rewrite elt1.
        + intros p Hp. destruct (fst p =? i) eqn:Ei.
          * destruct Hp as [Hp1 Hp2]. specialize (V (snd p) Hp2). rewrite elt1 in V.
            replace (c + i * ldc + snd p) with (spot c ldc p) in V by (unfold spot; replace (fst p) with i by lia; ring).
            rewrite V. unfold F, applied, entry. cbn [cell]. do 2 f_equal. apply zsum_ext. intros k Hk. rewrite elt1, hermitian_col, other_other. ring.
          * rewrite (add_0_r zero one add mul SR). apply C; [rewrite L; destruct Hp; now apply (Hin (fst p) (snd p))|].
            intros (l & Hl & El). rewrite elt1 in El.
            assert (E2 : p = (i, l)) by (apply Inj; [exact Hp|split; assumption|exact El]).
            subst p. cbn [fst] in Ei. lia. }
    exists m'. split; [exact E|]. apply Fin. eapply gain_ext; [|exact G]. intros p Hp. cbv beta.
    rewrite (zsum_pick zero one add mul SR rows (fst p) (fun i => F i (snd p))). destruct Hp as [Hp _]. now replace ((0 <=? fst p) && (fst p <? rows)) with true by lia.
Qed.
Lemma hemm_ok o sd up rows cols alpha a lda b ldb beta c ldc (m : list A) : 0 <= rows -> 0 <= cols ->
  leading o rows cols ldc -> 0 <= ldb -> block_inside m o c ldc rows cols ->
  kept_apart m o up NonUnit (order_of sd rows cols) a lda (block o c ldc rows cols) ->
  block_apart m o b ldb rows cols (block o c ldc rows cols) ->
  exists m', hemm zero one add mul conj re is_zero o sd up rows cols alpha a lda b ldb beta c ldc m = Ok m' /\
    changes d m m' (block o c ldc rows cols) /\
    forall i j, 0 <= i < rows -> 0 <= j < cols -> entry d o c ldc m' i j =
      add (mul beta (entry d o c ldc m i j))
          (mul alpha (applied zero add mul sd rows cols (hermitian d conj re o up a lda m) (entry d o b ldb m) i j)).
Proof using SR IZ.
  intros Hrows Hcols Hld Hldb Hin HA HB. unfold hemm. destruct o; cbn [leading] in Hld.
  - apply hemm_row_ok; [exact Hrows|lia|exact Hldb|exact Hin|exact HA|exact HB].
  - destruct (hemm_row_ok (opposite sd) (other up) cols rows alpha a lda b ldb beta c ldc m) as (m' & E & C & V).
    + exact Hcols.
    + lia.
    + exact Hldb.
    + now apply block_inside_col.
    + intros i j Hi Hj K. rewrite order_col in Hi, Hj. rewrite kept_other in K. destruct (HA j i Hj Hi K) as [H1 H2]. split; [exact H1|].
      intros Q. apply H2. now apply block_col'.
    + intros i j Hi Hj. destruct (HB j i Hj Hi) as [H1 H2]. split; [exact H1|]. intros Q. apply H2. now apply block_col'.
    + exists m'. split; [exact E|]. split; [eapply (changes_iff d); [|exact C]; intros p; symmetry; apply block_col'|].
      intros i j Hi Hj. specialize (V j i Hj Hi). unfold entry in *. cbn [cell] in *. rewrite V. do 2 f_equal.
      unfold applied. destruct sd; cbn [opposite]; apply zsum_ext; intros k Hk; cbn [cell]; rewrite hermitian_col; ring.
Qed.
End Herm.

(** ** herk and her2k *)
Section HerK.
Context {A : Type} (d zero one : A) (add mul : A -> A -> A).
Hypothesis SR : semi_ring_theory zero one add mul eq.
Add Ring AHerK : SR.
Variables (conj re : A -> A) (is_zero is_one : A -> bool).
Hypothesis IZ : forall v, is_zero v = true <-> v = zero.
Hypothesis IO : forall v, is_one v = true -> v = one.
Hypothesis re_add : forall u v, re (add u v) = add (re u) (re v).
Hypothesis re_re : forall u, re (re u) = re u.
Local Notation zs := (zsum zero add).
Local Notation on := (on_diagonal re).

Lemma on_add i j u v : on i j (add (on i j u) v) = on i j (add u v).
Proof using All. unfold on_diagonal. destruct (i =? j); [|reflexivity]. now rewrite !re_add, re_re. Qed.
Lemma on_on i j u : on i j (on i j u) = on i j u.
Proof using All. unfold on_diagonal. destruct (i =? j); [apply re_re|reflexivity]. Qed.

Lemma hescal_ok up n beta c ldc (m : list A) : n <= ldc -> half_inside m RowMajor up n c ldc -> is_one beta = false ->
  exists m', hescal mul re is_one up n beta c ldc m = Ok m' /\ changes d m m' (half RowMajor up n c ldc) /\
    forall i j, 0 <= i < n -> 0 <= j < n -> kept up NonUnit i j = true ->
      entry d RowMajor c ldc m' i j = on i j (mul beta (entry d RowMajor c ldc m i j)).
Proof using All.
  intros Hld Hin Hone. unfold hescal. rewrite Hone. pose proof (tri_inside m RowMajor up n c ldc Hin) as Htri. cbn [row_uplo] in Htri.
  set (from i := match up with Upper => i | Lower => 0 end). set (cnt i := match up with Upper => n - i | Lower => i + 1 end).
  destruct (sweep d (spot c ldc) (tri up n) m (mul beta) fst (fun _ => true) n
    (fun i m => match up with
    | Upper => scal mul (n - i) beta (c + i * (ldc + 1)) 1 m
    | Lower => scal mul (i + 1) beta (c + i * ldc) 1 m
    end) m) as (m1 & E1 & C1 & V1).
  - apply changes_refl.
  - intros p Hp. apply Hp.
  - intros k s Hk Cs.
    assert (T : forall l, 0 <= l < cnt k -> tri up n (k, from k + l)).
    { intros l Hl. unfold cnt, from in *. split; [split; cbn [fst snd]; destruct up; lia|]. unfold kept. cbn [fst snd]. destruct up; lia. }
    assert (Ls : length s = length m) by apply Cs.
    assert (I : inside s (c + k * ldc + from k) 1 (cnt k)).
    { intros l Hl. rewrite elt1, Ls. specialize (Htri _ (T l Hl)). unfold spot in Htri. cbn [fst snd] in Htri. lia. }
    destruct (scal_ok d mul (cnt k) beta (c + k * ldc + from k) 1 s I ltac:(left; lia)) as (s' & E & V & C).
    exists s'. split; [|split].
    + rewrite <- E. unfold cnt, from. destruct up; f_equal; ring.
    + eapply (changes_weaken d); [|exact C]. intros p (l & Hl & ->). exists (k, from k + l). split; [now apply T|]. rewrite elt1. unfold spot. cbn [fst snd]. ring.
    + intros p Hp. cbn [andb]. destruct (fst p =? k) eqn:Ek.
      * assert (Hs : 0 <= snd p - from k < cnt k).
        { destruct Hp as [[H1 H2] K]. unfold kept, from, cnt in *. destruct up; lia. }
        specialize (V _ Hs). rewrite elt1 in V. replace (c + k * ldc + from k + (snd p - from k)) with (spot c ldc p) in V by (unfold spot; replace (fst p) with k by lia; ring).
        rewrite V. apply (SRmul_comm SR).
      * apply C; [rewrite Ls; now apply Htri|]. intros (l & Hl & El). rewrite elt1 in El.
        assert (E2 : p = (k, from k + l)).
        { apply (spot_inj c ldc n (tri up n) ltac:(intros q Hq; apply Hq) Hld); [exact Hp|now apply T|]. rewrite El. unfold spot. cbn [fst snd]. ring. }
        subst p. cbn [fst] in Ek. lia.
  - rewrite E1. cbn [bind].
    destruct (real_diagonal_ok d zero one add mul SR conj re up n c ldc m m1 Hld Htri C1) as (m' & E & C & V).
    exists m'. split; [|split].
    + rewrite <- E. unfold real_diagonal. apply repeat_ext. intros i t. now replace (c + i * (ldc + 1)) with (c + i * ldc + i) by ring.
    + apply (changes_iff d _ _ _ _ (region_half RowMajor up n c ldc)). apply (changes_then d _ _ m m1 m' C1 C).
    + intros i j Hi Hj K. assert (T : tri up n (i, j)) by (split; [split; assumption|exact K]).
      specialize (V _ T). specialize (V1 _ T). cbn [andb fst snd] in V1. unfold entry, on_diagonal. cbn [cell]. unfold spot in V, V1. cbn [fst snd] in V, V1.
      rewrite V, V1. reflexivity.
Qed.

(** the updates of the columns, after the scaling *)
Lemma repeat_on up n k c ldc body (F : Z -> Z -> Z -> A) (m m0 : list A) : 0 < k -> changes d m m0 (half RowMajor up n c ldc) ->
  (forall l s, 0 <= l < k -> changes d m s (half RowMajor up n c ldc) ->
     exists s', body l s = Ok s' /\ changes d s s' (half RowMajor up n c ldc) /\
       forall i j, 0 <= i < n -> 0 <= j < n -> kept up NonUnit i j = true ->
         entry d RowMajor c ldc s' i j = on i j (add (entry d RowMajor c ldc s i j) (F l i j))) ->
  exists m', TriModel.repeat k body m0 = Ok m' /\ changes d m m' (half RowMajor up n c ldc) /\
    forall i j, 0 <= i < n -> 0 <= j < n -> kept up NonUnit i j = true ->
      entry d RowMajor c ldc m' i j = on i j (add (entry d RowMajor c ldc m0 i j) (zs k (fun l => F l i j))).
Proof using All.
  intros Hk C0 Hb.
  destruct (repeat_inv (fun l s => changes d m s (half RowMajor up n c ldc) /\ (l = 0 -> s = m0) /\
    (0 < l -> forall i j, 0 <= i < n -> 0 <= j < n -> kept up NonUnit i j = true ->
       entry d RowMajor c ldc s i j = on i j (add (entry d RowMajor c ldc m0 i j) (zs l (fun l => F l i j))))) k body m0) as (m' & E & C & _ & V).
  - split; [exact C0|]. split; [reflexivity|]. lia.
  - intros l s Hl (Cs & Z0 & V). destruct (Hb l s Hl Cs) as (s' & E & C & Vs). exists s'. split; [exact E|]. split; [|split].
    + eapply (changes_weaken d); [|exact (changes_trans d _ _ _ _ _ Cs C)]. cbv beta. tauto.
    + lia.
    + intros _ i j Hi Hj K. rewrite Vs by assumption. rewrite (zsum_S zero add l (fun l => F l i j)) by lia.
      destruct (Z.eq_dec l 0) as [->|Hne].
      * rewrite (Z0 eq_refl). f_equal. change (zs 0 (fun l => F l i j)) with zero. ring.
      * rewrite V by (assumption || lia). rewrite on_add. f_equal. ring.
  - lia.
  - exists m'. split; [exact E|]. split; [exact C|]. now apply V.
Qed.

(** what herk and her2k have in common *)
Lemma rank_on up n k alpha beta c ldc body (F : Z -> Z -> Z -> A) (m : list A) : 0 <= k -> n <= ldc -> half_inside m RowMajor up n c ldc ->
  (is_zero alpha = false -> forall l s, 0 <= l < k -> changes d m s (half RowMajor up n c ldc) ->
     exists s', body l s = Ok s' /\ changes d s s' (half RowMajor up n c ldc) /\
       forall i j, 0 <= i < n -> 0 <= j < n -> kept up NonUnit i j = true ->
         entry d RowMajor c ldc s' i j = on i j (add (entry d RowMajor c ldc s i j) (F l i j))) ->
  (is_zero alpha = true -> forall l i j, F l i j = zero) ->
  is_one beta && (is_zero alpha || (k =? 0)) = false ->
  exists m', (if (n =? 0) || ((is_zero alpha || (k =? 0)) && is_one beta) then Ok m else
              do m0 <- hescal mul re is_one up n beta c ldc m; if is_zero alpha then Ok m0 else TriModel.repeat k body m0) = Ok m' /\
    changes d m m' (half RowMajor up n c ldc) /\
    forall i j, 0 <= i < n -> 0 <= j < n -> kept up NonUnit i j = true ->
      entry d RowMajor c ldc m' i j = on i j (add (mul beta (entry d RowMajor c ldc m i j)) (zs k (fun l => F l i j))).
Proof using All.
  intros Hk Hld Hin Hb Hz Q. rewrite andb_comm in Q. rewrite Q, orb_false_r.
  destruct (n =? 0) eqn:En. { exists m. split; [reflexivity|]. split; [apply changes_refl|]. intros i j Hi. lia. }
  (* after the scaling *)
  assert (S0 : exists m0, hescal mul re is_one up n beta c ldc m = Ok m0 /\ changes d m m0 (half RowMajor up n c ldc) /\
    forall i j, 0 <= i < n -> 0 <= j < n -> kept up NonUnit i j = true ->
      (is_one beta = false -> entry d RowMajor c ldc m0 i j = on i j (mul beta (entry d RowMajor c ldc m i j))) /\
      forall v, on i j (add (entry d RowMajor c ldc m0 i j) v) = on i j (add (mul beta (entry d RowMajor c ldc m i j)) v)).
  { destruct (is_one beta) eqn:E1.
    - exists m. split; [unfold hescal; now rewrite E1|]. split; [apply changes_refl|]. intros i j Hi Hj K. split; [discriminate|].
      intros v. apply IO in E1. rewrite E1. do 2 f_equal. ring.
    - destruct (hescal_ok up n beta c ldc m Hld Hin E1) as (m0 & E & C & V). exists m0. split; [exact E|]. split; [exact C|].
      intros i j Hi Hj K. split; [intros _; now apply V|]. intros v. rewrite V by assumption. apply on_add. }
  destruct S0 as (m0 & E0 & C0 & V0). rewrite E0. cbn [bind].
  destruct (is_zero alpha) eqn:Ez.
  { exists m0. split; [reflexivity|]. split; [exact C0|]. intros i j Hi Hj K. destruct (V0 i j Hi Hj K) as [V1 _].
    rewrite V1 by (destruct (is_one beta); [discriminate Q|reflexivity]). f_equal.
    rewrite (zsum_ext zero add k (fun l => F l i j) (fun _ => zero)) by (intros; now apply Hz). rewrite (zsum_zero zero one add mul SR). ring. }
  destruct (Z.eq_dec k 0) as [->|Hne].
  { exists m0. split; [reflexivity|]. split; [exact C0|]. intros i j Hi Hj K. destruct (V0 i j Hi Hj K) as [V1 _].
    rewrite V1 by (destruct (is_one beta); [discriminate Q|reflexivity]). f_equal. change (zs 0 (fun l => F l i j)) with zero. ring. }
  destruct (repeat_on up n k c ldc body F m m0 ltac:(lia) C0 (Hb eq_refl)) as (m' & E & C & V).
  exists m'. split; [exact E|]. split; [exact C|]. intros i j Hi Hj K. rewrite V by assumption. now apply V0.
Qed.

Lemma half_col up n c ldc p : half ColMajor (other up) n c ldc p <-> half RowMajor up n c ldc p.
Proof using Type.
  split; intros (i & j & Hi & Hj & K & E); exists j, i; rewrite ?kept_other in *; now repeat split.
Qed.
Lemma half_inside_col (m : list A) up n c ldc : half_inside m RowMajor up n c ldc -> half_inside m ColMajor (other up) n c ldc.
Proof using Type. intros H i j Hi Hj K. rewrite kept_other in K. now apply (H j i). Qed.

Hypothesis conj_conj : forall u, conj (conj u) = u.

Definition herk_term (t : trans) (a lda : Z) (m : list A) (i j l : Z) : A :=
  mul (op_entry d conj RowMajor t a lda m i l) (conj (op_entry d conj RowMajor t a lda m j l)).
Lemma zero_term alpha v : is_zero alpha = true -> mul alpha v = zero.
Proof using All. intros E. apply IZ in E. subst alpha. ring. Qed.
Lemma herk_row_ok asserts up t n k alpha a lda beta c ldc (m : list A) : hermitian_mode t -> 0 <= k -> 0 <= lda -> n <= ldc ->
  half_inside m RowMajor up n c ldc -> stored_apart m RowMajor t a lda n k (half RowMajor up n c ldc) ->
  is_one beta && (is_zero alpha || (k =? 0)) = false ->
  exists m', herk_row add mul conj re is_zero is_one asserts up t n k alpha a lda beta c ldc m = Ok m' /\
    changes d m m' (half RowMajor up n c ldc) /\
    forall i j, 0 <= i < n -> 0 <= j < n -> kept up NonUnit i j = true ->
      entry d RowMajor c ldc m' i j = on i j (add (mul beta (entry d RowMajor c ldc m i j)) (zs k (fun l => mul alpha (herk_term t a lda m i j l)))).
Proof using All.
  intros Ht Hk Hl Hld Hin HA Q. unfold herk_row.
  assert (Fix : forall s, changes d m s (half RowMajor up n c ldc) -> forall i l, 0 <= i < n -> 0 <= l < k ->
    val d s (stored RowMajor t a lda i l) = val d m (stored RowMajor t a lda i l)).
  { intros s Cs i l Hi Hl'. destruct (HA i l Hi Hl') as [P N]. now apply Cs. }
  destruct Ht as [-> | ->].
  - apply (rank_on up n k alpha beta c ldc _ (fun l i j => mul alpha (herk_term NoTrans a lda m i j l)) m Hk Hld Hin); [|intros; now apply zero_term|exact Q].
    intros Ez l s Hl' Cs. assert (L : length s = length m) by apply Cs.
    destruct (her_ok d zero one add mul SR conj re is_zero RowMajor up n alpha (a + l) lda c ldc s Hld) as (s' & E & C & V).
    + intros i j Hi Hj K. rewrite L. now apply Hin.
    + intros i Hi. rewrite elt_pos, L by exact Hl. destruct (HA i l Hi Hl') as [P N]. unfold stored in P, N. cbn [is_trans cell] in P, N.
      replace (a + l + i * lda) with (a + i * lda + l) by ring. now split.
    + exact Ez.
    + exists s'. split; [exact E|]. split; [exact C|]. intros i j Hi Hj K. rewrite V by assumption. rewrite !elt_pos by exact Hl.
      unfold herk_term, op_entry. cbn [is_conj]. rewrite <- !(Fix s Cs) by assumption. unfold stored. cbn [is_trans cell].
      replace (a + l + i * lda) with (a + i * lda + l) by ring. replace (a + l + j * lda) with (a + j * lda + l) by ring. unfold on_diagonal. now destruct (i =? j).
  - apply (rank_on up n k alpha beta c ldc _ (fun l i j => mul alpha (herk_term ConjTrans a lda m i j l)) m Hk Hld Hin); [|intros; now apply zero_term|exact Q].
    intros Ez l s Hl' Cs. assert (L : length s = length m) by apply Cs. rewrite her_conj.
    destruct (her_ok d zero one add mul SR conj re is_zero ColMajor (other up) n alpha (a + l * lda) 1 c ldc s Hld) as (s' & E & C & V).
    + apply half_inside_col. intros i j Hi Hj K. rewrite L. now apply Hin.
    + intros i Hi. rewrite elt1, L. destruct (HA i l Hi Hl') as [P N]. unfold stored in P, N. cbn [is_trans cell] in P, N.
      split; [exact P|]. intros H. apply N. now apply half_col.
    + exact Ez.
    + exists s'. split; [exact E|]. split; [eapply (changes_iff d); [|exact C]; intros p; apply half_col|].
      intros i j Hi Hj K. specialize (V j i Hj Hi ltac:(now rewrite kept_other)). unfold entry in *. cbn [cell] in *. rewrite V.
      rewrite !elt1. unfold herk_term, op_entry. cbn [is_conj]. rewrite <- !(Fix s Cs) by assumption. unfold stored. cbn [is_trans cell]. rewrite conj_conj.
      rewrite (Z.eqb_sym j i). unfold on_diagonal. destruct (i =? j); do 2 f_equal; ring.
Qed.

Lemma stored_flip t a lda i l : stored ColMajor t a lda i l = stored RowMajor (conj_flip t) a lda i l.
Proof using Type. destruct t; reflexivity. Qed.
Lemma mode_flip t : hermitian_mode t -> hermitian_mode (conj_flip t).
Proof using Type. intros [-> | ->]; [now right|now left]. Qed.
Lemma apart_flip (m : list A) up t a lda n k c ldc : stored_apart m ColMajor t a lda n k (half ColMajor up n c ldc) ->
  stored_apart m RowMajor (conj_flip t) a lda n k (half RowMajor (other up) n c ldc).
Proof using Type.
  intros H i l Hi Hl. destruct (H i l Hi Hl) as [P N]. rewrite stored_flip in P, N. split; [exact P|]. intros Q. apply N. apply half_col in Q. now rewrite other_other in Q.
Qed.
Lemma inside_flip (m : list A) up n c ldc : half_inside m ColMajor up n c ldc -> half_inside m RowMajor (other up) n c ldc.
Proof using Type. intros H i j Hi Hj K. rewrite kept_other in K. now apply (H j i). Qed.

Lemma herk_ok asserts o up t n k alpha a lda beta c ldc (m : list A) : hermitian_mode t -> 0 <= k -> 0 <= lda -> n <= ldc ->
  half_inside m o up n c ldc -> stored_apart m o t a lda n k (half o up n c ldc) ->
  is_one beta && (is_zero alpha || (k =? 0)) = false ->
  exists m', herk add mul conj re is_zero is_one asserts o up t n k alpha a lda beta c ldc m = Ok m' /\
    changes d m m' (half o up n c ldc) /\
    forall i j, 0 <= i < n -> 0 <= j < n -> kept up NonUnit i j = true ->
      entry d o c ldc m' i j = on i j (add (mul beta (entry d o c ldc m i j))
        (mul alpha (zs k (fun l => mul (op_entry d conj o t a lda m i l) (conj (op_entry d conj o t a lda m j l)))))).
Proof using All.
  intros Ht Hk Hl Hld Hin HA Q. unfold herk. destruct o; [|].
  { destruct (herk_row_ok asserts up t n k alpha a lda beta c ldc m Ht Hk Hl Hld Hin HA Q) as (m' & E & C & V).
    exists m'. split; [exact E|]. split; [exact C|]. intros i j Hi Hj K. rewrite V by assumption. now rewrite (zsum_mul zero one add mul SR). }
  destruct (herk_row_ok asserts (other up) (conj_flip t) n k alpha a lda beta c ldc m (mode_flip t Ht) Hk Hl Hld (inside_flip m up n c ldc Hin)
    (apart_flip m up t a lda n k c ldc HA) Q) as (m' & E & C & V).
  exists m'. split; [exact E|]. split.
  { eapply (changes_iff d); [|exact C]. intros p. rewrite <- (half_col (other up)), other_other. reflexivity. }
  intros i j Hi Hj K. specialize (V j i Hj Hi ltac:(now rewrite kept_other)). unfold entry in *. cbn [cell] in *. rewrite V.
  unfold on_diagonal. rewrite (Z.eqb_sym j i).
  assert (S : zs k (fun l => herk_term (conj_flip t) a lda m j i l) = zs k (fun l => mul (op_entry d conj ColMajor t a lda m i l) (conj (op_entry d conj ColMajor t a lda m j l)))).
  { apply zsum_ext. intros l _. unfold herk_term, op_entry. rewrite !(stored_flip t).
    destruct Ht as [-> | ->]; cbn [conj_flip is_conj]; rewrite ?conj_conj; ring. }
  rewrite (zsum_mul zero one add mul SR k alpha (fun l => herk_term (conj_flip t) a lda m j i l)), S. reflexivity.
Qed.

Hypothesis conj_mul : forall u v, conj (mul u v) = mul (conj u) (conj v).
Definition her2k_term (t : trans) (alpha : A) (a lda b ldb : Z) (m : list A) (i j l : Z) : A :=
  add (mul alpha (mul (op_entry d conj RowMajor t a lda m i l) (conj (op_entry d conj RowMajor t b ldb m j l))))
      (mul (conj alpha) (mul (op_entry d conj RowMajor t b ldb m i l) (conj (op_entry d conj RowMajor t a lda m j l)))).
Lemma conj_zero : conj zero = zero.
Proof using All.
  transitivity (conj (mul zero (conj zero))); [f_equal; ring|]. rewrite conj_mul, conj_conj. ring.
Qed.
Lemma zero_conj alpha : is_zero (conj alpha) = is_zero alpha.
Proof using All.
  destruct (is_zero alpha) eqn:E.
  - apply IZ. apply IZ in E. subst alpha. apply conj_zero.
  - destruct (is_zero (conj alpha)) eqn:E2; [|reflexivity]. apply IZ in E2. rewrite <- E. symmetry. apply IZ.
    rewrite <- (conj_conj alpha), E2. apply conj_zero.
Qed.
Lemma zero_term2 t alpha a lda b ldb m i j l : is_zero alpha = true -> her2k_term t alpha a lda b ldb m i j l = zero.
Proof using All. intros E. apply IZ in E. subst alpha. unfold her2k_term. rewrite conj_zero. ring. Qed.
Lemma her2k_row_ok asserts up t n k alpha a lda b ldb beta c ldc (m : list A) : hermitian_mode t -> 0 <= k -> 0 <= lda -> 0 <= ldb -> n <= ldc ->
  half_inside m RowMajor up n c ldc -> stored_apart m RowMajor t a lda n k (half RowMajor up n c ldc) ->
  stored_apart m RowMajor t b ldb n k (half RowMajor up n c ldc) ->
  is_one beta && (is_zero alpha || (k =? 0)) = false ->
  exists m', her2k_row add mul conj re is_zero is_one asserts up t n k alpha a lda b ldb beta c ldc m = Ok m' /\
    changes d m m' (half RowMajor up n c ldc) /\
    forall i j, 0 <= i < n -> 0 <= j < n -> kept up NonUnit i j = true ->
      entry d RowMajor c ldc m' i j = on i j (add (mul beta (entry d RowMajor c ldc m i j)) (zs k (fun l => her2k_term t alpha a lda b ldb m i j l))).
Proof using All.
  intros Ht Hk Hl Hl2 Hld Hin HA HB Q. unfold her2k_row.
  assert (Fix : forall s, changes d m s (half RowMajor up n c ldc) -> forall i l, 0 <= i < n -> 0 <= l < k ->
    val d s (stored RowMajor t a lda i l) = val d m (stored RowMajor t a lda i l)).
  { intros s Cs i l Hi Hl'. destruct (HA i l Hi Hl') as [P N]. now apply Cs. }
  assert (Fix2 : forall s, changes d m s (half RowMajor up n c ldc) -> forall i l, 0 <= i < n -> 0 <= l < k ->
    val d s (stored RowMajor t b ldb i l) = val d m (stored RowMajor t b ldb i l)).
  { intros s Cs i l Hi Hl'. destruct (HB i l Hi Hl') as [P N]. now apply Cs. }
  destruct Ht as [-> | ->].
  - apply (rank_on up n k alpha beta c ldc _ (fun l i j => her2k_term NoTrans alpha a lda b ldb m i j l) m Hk Hld Hin); [|intros; now apply zero_term2|exact Q].
    intros Ez l s Hl' Cs. assert (L : length s = length m) by apply Cs.
    destruct (her2_ok d zero one add mul SR conj re is_zero RowMajor up n alpha (a + l) lda (b + l) ldb c ldc s Hld) as (s' & E & C & V).
    + intros i j Hi Hj K. rewrite L. now apply Hin.
    + intros i Hi. rewrite elt_pos, L by exact Hl. destruct (HA i l Hi Hl') as [P N]. unfold stored in P, N. cbn [is_trans cell] in P, N.
      replace (a + l + i * lda) with (a + i * lda + l) by ring. now split.
    + intros i Hi. rewrite elt_pos, L by exact Hl2. destruct (HB i l Hi Hl') as [P N]. unfold stored in P, N. cbn [is_trans cell] in P, N.
      replace (b + l + i * ldb) with (b + i * ldb + l) by ring. now split.
    + exact Ez.
    + exact conj_mul.
    + exists s'. split; [exact E|]. split; [exact C|]. intros i j Hi Hj K. rewrite V by assumption. rewrite !elt_pos by assumption.
      unfold her2k_term, op_entry. cbn [is_conj]. rewrite <- !(Fix s Cs), <- !(Fix2 s Cs) by assumption. unfold stored. cbn [is_trans cell].
      replace (a + l + i * lda) with (a + i * lda + l) by ring. replace (a + l + j * lda) with (a + j * lda + l) by ring.
      replace (b + l + i * ldb) with (b + i * ldb + l) by ring. replace (b + l + j * ldb) with (b + j * ldb + l) by ring.
      unfold on_diagonal. now destruct (i =? j).
  - apply (rank_on up n k alpha beta c ldc _ (fun l i j => her2k_term ConjTrans alpha a lda b ldb m i j l) m Hk Hld Hin); [|intros; now apply zero_term2|exact Q].
    intros Ez l s Hl' Cs. assert (L : length s = length m) by apply Cs. rewrite her2_conj.
    destruct (her2_ok d zero one add mul SR conj re is_zero ColMajor (other up) n (conj alpha) (a + l * lda) 1 (b + l * ldb) 1 c ldc s Hld) as (s' & E & C & V).
    + apply half_inside_col. intros i j Hi Hj K. rewrite L. now apply Hin.
    + intros i Hi. rewrite elt1, L. destruct (HA i l Hi Hl') as [P N]. unfold stored in P, N. cbn [is_trans cell] in P, N.
      split; [exact P|]. intros H. apply N. now apply half_col.
    + intros i Hi. rewrite elt1, L. destruct (HB i l Hi Hl') as [P N]. unfold stored in P, N. cbn [is_trans cell] in P, N.
      split; [exact P|]. intros H. apply N. now apply half_col.
    + now rewrite zero_conj.
    + exact conj_mul.
    + exists s'. split; [exact E|]. split; [eapply (changes_iff d); [|exact C]; intros p; apply half_col|].
      intros i j Hi Hj K. specialize (V j i Hj Hi ltac:(now rewrite kept_other)). unfold entry in *. cbn [cell] in *. rewrite V.
      rewrite !elt1. unfold her2k_term, op_entry. cbn [is_conj]. rewrite <- !(Fix s Cs), <- !(Fix2 s Cs) by assumption. unfold stored. cbn [is_trans cell]. rewrite !conj_conj.
      rewrite (Z.eqb_sym j i). unfold on_diagonal. destruct (i =? j); [f_equal|]; f_equal; ring.
Qed.
Lemma her2k_ok asserts o up t n k alpha a lda b ldb beta c ldc (m : list A) : hermitian_mode t -> 0 <= k -> 0 <= lda -> 0 <= ldb -> n <= ldc ->
  half_inside m o up n c ldc -> stored_apart m o t a lda n k (half o up n c ldc) -> stored_apart m o t b ldb n k (half o up n c ldc) ->
  is_one beta && (is_zero alpha || (k =? 0)) = false ->
  exists m', her2k add mul conj re is_zero is_one asserts o up t n k alpha a lda b ldb beta c ldc m = Ok m' /\
    changes d m m' (half o up n c ldc) /\
    forall i j, 0 <= i < n -> 0 <= j < n -> kept up NonUnit i j = true ->
      entry d o c ldc m' i j = on i j (add (mul beta (entry d o c ldc m i j))
        (add (mul alpha (zs k (fun l => mul (op_entry d conj o t a lda m i l) (conj (op_entry d conj o t b ldb m j l)))))
             (mul (conj alpha) (zs k (fun l => mul (op_entry d conj o t b ldb m i l) (conj (op_entry d conj o t a lda m j l))))))).
Proof using All.
  intros Ht Hk Hl Hl2 Hld Hin HA HB Q. unfold her2k. destruct o.
  { destruct (her2k_row_ok asserts up t n k alpha a lda b ldb beta c ldc m Ht Hk Hl Hl2 Hld Hin HA HB Q) as (m' & E & C & V).
    exists m'. split; [exact E|]. split; [exact C|]. intros i j Hi Hj K. rewrite V by assumption. unfold her2k_term.
    now rewrite <- !(zsum_mul zero one add mul SR), <- (zsum_add zero one add mul SR). }
  destruct (her2k_row_ok asserts (other up) (conj_flip t) n k (conj alpha) a lda b ldb beta c ldc m (mode_flip t Ht) Hk Hl Hl2 Hld (inside_flip m up n c ldc Hin)
    (apart_flip m up t a lda n k c ldc HA) (apart_flip m up t b ldb n k c ldc HB) ltac:(now rewrite zero_conj)) as (m' & E & C & V).
  exists m'. split; [exact E|]. split.
  { eapply (changes_iff d); [|exact C]. intros p. rewrite <- (half_col (other up)), other_other. reflexivity. }
  intros i j Hi Hj K. specialize (V j i Hj Hi ltac:(now rewrite kept_other)). unfold entry in *. cbn [cell] in *. rewrite V.
  unfold on_diagonal. rewrite (Z.eqb_sym j i).
  assert (S : zs k (fun l => her2k_term (conj_flip t) (conj alpha) a lda b ldb m j i l) =
    add (mul alpha (zs k (fun l => mul (op_entry d conj ColMajor t a lda m i l) (conj (op_entry d conj ColMajor t b ldb m j l)))))
        (mul (conj alpha) (zs k (fun l => mul (op_entry d conj ColMajor t b ldb m i l) (conj (op_entry d conj ColMajor t a lda m j l)))))).
  { rewrite <- !(zsum_mul zero one add mul SR), <- (zsum_add zero one add mul SR). apply zsum_ext. intros l _. unfold her2k_term, op_entry. rewrite !(stored_flip t).
    destruct Ht as [-> | ->]; cbn [conj_flip is_conj]; rewrite ?conj_conj; ring. }
  rewrite S. reflexivity.
Qed.
End HerK.
