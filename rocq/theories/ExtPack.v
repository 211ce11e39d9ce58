(** Proofs about packed triangles: copies, sums, transposes and scaling. *)
From Coq Require Import ZArith Ring_theory Ring.
From Verif Require Import Base BaseProofs MatmulModel MatmulSpec BlasModel BlasSpec BlasProofs TriModel TriSpec TriProofs SymSpec PackSpec PackProofs PackRank ExtModel ExtSpec ExtProofs ExtTri.
From Coq Require Import ZifyNat ZifyN ZifyBool.
Ltac Zify.zify_post_hook ::= idtac.
Local Open Scope Z_scope.

Lemma packed_move o up n a i j : packed_cell o up n a i j = a + packed_cell o up n 0 i j.
Proof. destruct o, up; cbn [packed_cell]; lia. Qed.
Section Flat.
Context {A : Type} (d : A).
(** a packed triangle is a vector *)
Lemma packed_flat (f : @vop A) h o up n a b (m : list A) : acts d f h -> 0 <= n ->
  held_inside (kept up NonUnit) (packed_cell o up n b) m n n ->
  source m (kept up NonUnit) n n (packed_cell o up n a) (packed_cell o up n b) ->
  exists m', f (n * (n + 1) / 2) a 1 b 1 m = Ok m' /\
    combined d h (kept up NonUnit) n n (packed_cell o up n a) (packed_cell o up n b) m m'.
Proof.
  intros Hf Hn Hin Hs.
  assert (F : forall k, 0 <= k < n * (n + 1) / 2 -> exists i j, 0 <= i < n /\ 0 <= j < n /\ kept up NonUnit i j = true /\ packed_cell o up n 0 i j = k).
  { intros k Hk. apply (proj1 (packed_cells o up n 0 k Hn)). lia. }
  assert (T : forall i j, 0 <= i < n -> 0 <= j < n -> kept up NonUnit i j = true -> 0 <= packed_cell o up n 0 i j < n * (n + 1) / 2).
  { intros i j Hi Hj K. apply (proj2 (packed_cells o up n 0 (packed_cell o up n 0 i j) Hn)). now exists i, j. }
  assert (W : forall k, 0 <= k < n * (n + 1) / 2 -> held_cells (kept up NonUnit) (packed_cell o up n b) n n (b + k)).
  { intros k Hk. destruct (F k Hk) as (i & j & Hi & Hj & K & E). exists i, j. rewrite packed_move, E. auto. }
  destruct (Hf (n * (n + 1) / 2) a 1 b 1 m) as (m' & E & V & C).
  - intros k Hk. rewrite elt_pos by lia. destruct (F k Hk) as (i & j & Hi & Hj & K & Ek). destruct (Hs i j Hi Hj K) as (H & _). rewrite packed_move, Ek in H. lia.
  - intros k Hk. rewrite elt_pos by lia. destruct (F k Hk) as (i & j & Hi & Hj & K & Ek). specialize (Hin i j Hi Hj K). rewrite packed_move, Ek in Hin. lia.
  - lia.
  - intros k' k Hk' Hk E. rewrite !elt_pos in E by lia. destruct (F k Hk) as (i & j & Hi & Hj & K & Ek). destruct (Hs i j Hi Hj K) as (_ & H). apply H.
    rewrite packed_move, Ek. replace (a + k) with (b + k') by lia. now apply W.
  - exists m'. split; [exact E|]. split.
    + eapply changes_weaken; [|exact C]. intros p (k & Hk & ->). rewrite elt_pos by lia. rewrite Z.mul_1_r. now apply W.
    + intros i j Hi Hj K. specialize (V _ (T i j Hi Hj K)). rewrite !elt_pos in V by lia. rewrite !Z.mul_1_r in V. now rewrite (packed_move o up n a), (packed_move o up n b).
Qed.
Lemma packed_flat1 f h o up n a (m : list A) : acts1 d f h -> 0 <= n ->
  held_inside (kept up NonUnit) (packed_cell o up n a) m n n ->
  exists m', f (n * (n + 1) / 2) a 1 m = Ok m' /\
    combined d (fun _ v => h v) (kept up NonUnit) n n (packed_cell o up n a) (packed_cell o up n a) m m'.
Proof.
  intros Hf Hn Hin.
  assert (F : forall k, 0 <= k < n * (n + 1) / 2 -> exists i j, 0 <= i < n /\ 0 <= j < n /\ kept up NonUnit i j = true /\ packed_cell o up n 0 i j = k).
  { intros k Hk. apply (proj1 (packed_cells o up n 0 k Hn)). lia. }
  assert (T : forall i j, 0 <= i < n -> 0 <= j < n -> kept up NonUnit i j = true -> 0 <= packed_cell o up n 0 i j < n * (n + 1) / 2).
  { intros i j Hi Hj K. apply (proj2 (packed_cells o up n 0 (packed_cell o up n 0 i j) Hn)). now exists i, j. }
  destruct (Hf (n * (n + 1) / 2) a 1 m) as (m' & E & V & C).
  - intros k Hk. rewrite elt_pos by lia. destruct (F k Hk) as (i & j & Hi & Hj & K & Ek). specialize (Hin i j Hi Hj K). rewrite packed_move, Ek in Hin. lia.
  - lia.
  - exists m'. split; [exact E|]. split.
    + eapply changes_weaken; [|exact C]. intros p (k & Hk & ->). rewrite elt_pos by lia. destruct (F k Hk) as (i & j & Hi & Hj & K & Ek). exists i, j. rewrite packed_move, Ek. repeat split; auto; lia.
    + intros i j Hi Hj K. specialize (V _ (T i j Hi Hj K)). rewrite !elt_pos in V by lia. rewrite !Z.mul_1_r in V. now rewrite (packed_move o up n a).
Qed.
(** the transposed double loop: from the lower triangle, by columns, to the upper one, by columns *)
Lemma tp_trans_col h dg n a b (m : list A) : 
  held_inside (kept Upper dg) (packed_cell ColMajor Upper n b) m n n ->
  source m (kept Upper dg) n n (fun i j => packed_cell ColMajor Lower n a j i) (packed_cell ColMajor Upper n b) ->
  exists m', tp_trans h (shift_of dg) n a b m = Ok m' /\
    combined d h (kept Upper dg) n n (fun i j => packed_cell ColMajor Lower n a j i) (packed_cell ColMajor Upper n b) m m'.
Proof.
  intros Hin Hs. unfold tp_trans. set (sh := shift_of dg).
  assert (K1 : forall i k, 0 <= i -> 0 <= k -> kept Upper dg i (i + sh + k) = true) by (subst sh; destruct dg; intros; unfold kept; cbn [shift_of]; lia).
  assert (K2 : forall i j, kept Upper dg i j = true -> i + sh <= j) by (subst sh; destruct dg; intros i j; unfold kept; cbn [shift_of]; lia).
  assert (K3 : forall i j, kept Upper dg i j = true -> kept Upper NonUnit i j = true) by (destruct dg; intros i j; unfold kept; lia).
  assert (S0 : 0 <= sh <= 1) by (subst sh; destruct dg; cbn; lia).
  assert (Q : forall i k, b + (i + (i + sh + k) * ((i + sh + k) + 1) / 2) = packed_cell ColMajor Upper n b i (i + sh + k)) by (intros; cbn [packed_cell]; lia).
  assert (P : forall i k, a + (i + sh + k + (2 * n - i - 1) * i / 2) = packed_cell ColMajor Lower n a (i + sh + k) i).
  { intros; cbn [packed_cell]. rewrite (Z.mul_comm (2 * n - i - 1)). lia. }
  clearbody sh.
  destruct (grid_ok d n (fun i => n - (i + sh)) (fun i k (_ : unit) => packed_cell ColMajor Upper n b i (i + sh + k))
    (fun i k _ => h (val d m (packed_cell ColMajor Lower n a (i + sh + k) i)) (val d m (packed_cell ColMajor Upper n b i (i + sh + k)))) m
    (fun i k m => let j := i + sh + k in
      do u <- load m (a + (j + (2 * n - i - 1) * i / 2)); do v <- load m (b + (i + j * (j + 1) / 2));
      store m (b + (i + j * (j + 1) / 2)) (h u v))) as (m' & E & C & V).
  - intros i k _ (H1 & H2). apply Hin; try lia. apply K1; lia.
  - intros i k _ i' k' _ (H1 & H2) (H3 & H4) E. destruct (packed_inj ColMajor Upper n b i (i + sh + k) i' (i' + sh + k')); try lia; try (apply K3, K1; lia).
  - intros i k s (H1 & H2) L Vs O. cbv zeta. rewrite Q, P.
    assert (Hq : 0 <= packed_cell ColMajor Upper n b i (i + sh + k) < Z.of_nat (length s)) by (rewrite L; apply Hin; try lia; apply K1; lia).
    destruct (Hs i (i + sh + k)) as (R1 & R2); [lia|lia|apply K1; lia|].
    rewrite (load_ok d s (packed_cell ColMajor Lower n a (i + sh + k) i)) by (rewrite L; exact R1). rewrite (load_ok d s) by exact Hq. cbn [bind].
    rewrite (O (packed_cell ColMajor Lower n a (i + sh + k) i)), (Vs tt); [|exact R1|].
    + destruct (set_ok d (packed_cell ColMajor Upper n b i (i + sh + k)) (h (val d m (packed_cell ColMajor Lower n a (i + sh + k) i)) (val d m (packed_cell ColMajor Upper n b i (i + sh + k)))) s Hq) as (s' & E & C & V).
      exists s'. split; [exact E|]. split; [eapply changes_weaken; [|exact C]; intros p ->; now exists tt|]. intros _. exact V.
    + intros i' k' _ (H3 & H4) E. apply R2. rewrite E. exists i', (i' + sh + k'). repeat split; try lia. apply K1; lia.
  - exists m'. split; [exact E|]. split.
    + eapply changes_weaken; [|exact C]. intros p (i & k & _ & (H1 & H2) & ->). exists i, (i + sh + k). repeat split; try lia. apply K1; lia.
    + intros i j Hi Hj K. specialize (V i (j - sh - i) tt). apply K2 in K. replace (i + sh + (j - sh - i)) with j in V by lia. apply V. lia.
Qed.
Lemma tp_trans_ok h o dg n a b (m : list A) : let up := match o with ColMajor => Upper | RowMajor => Lower end in
  held_inside (kept up dg) (packed_cell o up n b) m n n ->
  source m (kept up dg) n n (fun i j => packed_cell o (other up) n a j i) (packed_cell o up n b) ->
  exists m', tp_trans h (shift_of dg) n a b m = Ok m' /\
    combined d h (kept up dg) n n (fun i j => packed_cell o (other up) n a j i) (packed_cell o up n b) m m'.
Proof.
  intros up Hin Hs. destruct o; subst up; cbv iota in *; cbn [other] in *; [|now apply tp_trans_col].
  assert (T : forall i j, kept Upper dg j i = kept Lower dg i j) by (intros; apply (kept_other Lower)).
  destruct (tp_trans_col h dg n a b m) as (m' & E & C).
  - intros i j Hi Hj K. rewrite packed_flip. apply Hin; auto. now rewrite <- T.
  - intros i j Hi Hj K. rewrite packed_flip. rewrite T in K. destruct (Hs j i Hj Hi K) as (H1 & H2). split; [exact H1|].
    intros (i' & j' & Hi' & Hj' & K' & E'). apply H2. rewrite packed_flip in E'. rewrite T in K'. exists j', i'. auto.
  - exists m'. split; [exact E|]. apply combined_swap. eapply combined_ext; [reflexivity| | |exact C].
    + intros i j _ _. apply T.
    + intros i j _ _ _. split; [apply (packed_flip Lower)|apply (packed_flip Upper)].
Qed.
End Flat.
(** a loop that carries a running offset *)
Lemma carried {A} (g : Z -> Z) (f : Z -> Z * list A -> outcome (Z * list A)) (F : Z -> list A -> outcome (list A)) K (m : list A) :
  (forall i m, f i (g i, m) = do m' <- F i m; Ok (g (i + 1), m')) -> omap snd (TriModel.repeat K f (g 0, m)) = TriModel.repeat K F m.
Proof.
  intros H. unfold TriModel.repeat, walk1, walk.
  assert (G : forall k i w m, omap snd (rounds k i 1 w 0 (fun iX _ => f iX) (g i, m)) = rounds k i 1 w 0 (fun iX _ => F iX) m); [|apply G].
  induction k as [|k IH]; intros i w s; cbn [rounds]; [reflexivity|]. rewrite H. destruct (F i s) as [s'| |]; cbn [bind omap]; [apply IH|reflexivity..].
Qed.
Section Tpscal.
Context {A : Type} (d : A) (mul : A -> A -> A).
Lemma tpscal_ok o up n alpha a (m : list A) : 0 <= n -> held_inside (kept up NonUnit) (packed_cell o up n a) m n n ->
  exists m', tpscal mul NonUnit n alpha a m = Ok m' /\ combined d (fun _ v => mul v alpha) (kept up NonUnit) n n (packed_cell o up n a) (packed_cell o up n a) m m'.
Proof. intros Hn Hin. apply (packed_flat1 d (fun n y iy m => scal mul n alpha y iy m) (fun v => mul v alpha)); auto. apply scal_acts. Qed.
Lemma tpscal_row n alpha a (m : list A) : held_inside (kept Upper Unit) (packed_cell RowMajor Upper n a) m n n ->
  exists m', tpscal mul Unit n alpha a m = Ok m' /\ combined d (fun _ v => mul v alpha) (kept Upper Unit) n n (packed_cell RowMajor Upper n a) (packed_cell RowMajor Upper n a) m m'.
Proof.
  intros Hin. unfold tpscal.
  assert (G : forall i, i * (2 * n - i + 1) / 2 + (n - i) = (i + 1) * (2 * n - (i + 1) + 1) / 2).
  { intros i. rewrite <- Z.div_add by lia. f_equal. ring. }
  rewrite (carried (fun i => i * (2 * n - i + 1) / 2) _ (fun i m => scal mul (n - i - 1) alpha (a + i * (2 * n - i + 1) / 2 + 1) 1 m)).
  2:{ intros i s. cbn [fst snd]. now rewrite G. }
  apply (matrix1_ok d (kept Upper Unit) n n (packed_cell RowMajor Upper n a) (packed_cell RowMajor Upper n a) m (n - 1) (fun i => n - i - 1) (fun i => i) (fun i => a + i * (2 * n - i + 1) / 2 + 1) 1 (fun l k => l) (fun l k => l + 1 + k))
    with (f := fun n y iy m => scal mul n alpha y iy m) (h := fun v => mul v alpha); auto; try lia.
  - intros i j i' j' Hi Hj K Hi' Hj' K'. apply packed_inj; auto; unfold kept in *; lia.
  - intros l k (G1 & G2). repeat split; try lia; [unfold kept; lia|]. rewrite half_upper. cbn [packed_cell]. lia.
  - intros i j Hi Hj K. exists i, (j - i - 1). unfold kept in K. lia.
  - apply scal_acts.
Qed.
Lemma tpscal_unit_ok o n alpha a (m : list A) : let up := match o with RowMajor => Upper | ColMajor => Lower end in
  held_inside (kept up Unit) (packed_cell o up n a) m n n ->
  exists m', tpscal mul Unit n alpha a m = Ok m' /\ combined d (fun _ v => mul v alpha) (kept up Unit) n n (packed_cell o up n a) (packed_cell o up n a) m m'.
Proof.
  intros up Hin. destruct o; subst up; cbv iota in *; [now apply tpscal_row|].
  assert (T : forall i j, kept Upper Unit j i = kept Lower Unit i j) by (intros; apply (kept_other Lower)).
  destruct (tpscal_row n alpha a m) as (m' & E & C).
  - intros i j Hi Hj K. rewrite <- (packed_flip Lower). apply Hin; auto. now rewrite <- T.
  - exists m'. split; [exact E|]. apply combined_swap. eapply combined_ext; [reflexivity| | |exact C].
    + intros i j _ _. apply T.
    + intros i j _ _ _. split; symmetry; apply (packed_flip Lower).
Qed.
End Tpscal.
