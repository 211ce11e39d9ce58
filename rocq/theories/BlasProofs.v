(** Proofs about the strided level 1 routines. *)
From Coq Require Import ZArith.
From Verif Require Import Base BaseProofs MatmulSpec BlasModel BlasSpec.
From Coq Require Import ZifyNat ZifyN ZifyBool.
Ltac Zify.zify_post_hook ::= idtac.
Local Open Scope Z_scope.

Lemma start_elt x inc n i : start x inc n + i * inc = elt x inc n i.
Proof. unfold start, elt. destruct (inc <? 0); ring. Qed.
Lemma elt_inj x inc n i j : inc <> 0 -> elt x inc n i = elt x inc n j -> i = j.
Proof.
  intros H. unfold elt. destruct (inc <? 0); intros E.
  - assert (E' : (n - 1 - i) = (n - 1 - j)) by (apply (Z.mul_reg_r _ _ (- inc)); lia). lia.
  - apply (Z.mul_reg_r _ _ inc); lia.
Qed.
Lemma elt_zero x n i : elt x 0 n i = x.
Proof. unfold elt. cbn. lia. Qed.

Lemma rounds_inv {St} (P : Z -> St -> Prop) incX incY body k i s : 0 <= i ->
  P i s ->
  (forall j s, i <= j < i + Z.of_nat k -> P j s ->
     exists s', body (j * incX) (j * incY) s = Ok s' /\ P (j + 1) s') ->
  exists s', rounds k (i * incX) incX (i * incY) incY body s = Ok s' /\ P (i + Z.of_nat k) s'.
Proof.
  revert i s. induction k as [|k IH]; intros i s Hi H0 Hs; cbn [rounds].
  - exists s. split; [reflexivity|]. now replace (i + Z.of_nat 0) with i by lia.
  - destruct (Hs i s ltac:(lia) H0) as (s1 & -> & H1). cbn [bind].
    replace (i * incX + incX) with ((i + 1) * incX) by ring.
    replace (i * incY + incY) with ((i + 1) * incY) by ring.
    destruct (IH (i + 1) s1 ltac:(lia) H1) as (s' & E & H).
    + intros j s2 Hj. apply Hs. lia.
    + exists s'. split; [exact E|]. now replace (i + Z.of_nat (S k)) with (i + 1 + Z.of_nat k) by lia.
Qed.
Lemma walk_inv {St} (P : Z -> St -> Prop) n incX incY body s :
  0 <= n -> P 0 s ->
  (forall j s, 0 <= j < n -> P j s -> exists s', body (j * incX) (j * incY) s = Ok s' /\ P (j + 1) s') ->
  exists s', walk n incX incY body s = Ok s' /\ P n s'.
Proof.
  intros Hn H0 Hs. destruct (rounds_inv P incX incY body (Z.to_nat n) 0 s) as (s' & E & H); [lia|exact H0| |].
  - intros j s' Hj. apply Hs. lia.
  - exists s'. split; [exact E|]. now replace (0 + Z.of_nat (Z.to_nat n)) with n in H by lia.
Qed.
Lemma walk_nonpos {St} n incX incY body (s : St) : n <= 0 -> walk n incX incY body s = Ok s.
Proof. intros H. unfold walk. now replace (Z.to_nat n) with O by lia. Qed.

Section Mem.
Context {A : Type} (d : A).
Lemma load_ok (m : list A) p : 0 <= p < Z.of_nat (length m) -> load m p = Ok (val d m p).
Proof.
  intros H. unfold load, val. destruct (p <? 0) eqn:E; [lia|].
  unfold rd. destruct (nth_error m (Z.to_nat p)) eqn:E2.
  - now rewrite (nth_error_nth _ _ d E2).
  - apply nth_error_None in E2. lia.
Qed.
Lemma store_ok (m : list A) p v : 0 <= p < Z.of_nat (length m) ->
  exists m', store m p v = Ok m' /\ length m' = length m /\
    forall q, 0 <= q < Z.of_nat (length m) -> val d m' q = if q =? p then v else val d m q.
Proof.
  intros H. unfold store. destruct (p <? 0) eqn:E; [lia|]. rewrite wr_Ok by lia.
  exists (upd m (Z.to_nat p) v). split; [reflexivity|]. split; [apply upd_length|].
  intros q Hq. unfold val. rewrite nth_upd.
  destruct (q =? p) eqn:E1.
  - replace (Z.to_nat p =? Z.to_nat q)%nat with true by lia.
    replace (Z.to_nat p <? length m)%nat with true by lia. reflexivity.
  - replace (Z.to_nat p =? Z.to_nat q)%nat with false by lia. reflexivity.
Qed.
End Mem.

Section Ops.
Context {A : Type} (d : A).

(** A loop that reads x[i] and y[i] and writes y[i]. *)
Lemma write_y (g : A -> A -> A) body n x incX y incY (m : list A) :
  (forall iX iY m, 0 <= start x incX n + iX < Z.of_nat (length m) -> 0 <= start y incY n + iY < Z.of_nat (length m) ->
     exists m', body iX iY m = Ok m' /\
       length m' = length m /\ forall q, 0 <= q < Z.of_nat (length m) ->
       val d m' q = if q =? start y incY n + iY then g (val d m (start x incX n + iX)) (val d m (start y incY n + iY)) else val d m q) ->
  inside m x incX n -> inside m y incY n -> incY <> 0 \/ n <= 1 -> read_first x incX y incY n ->
  exists m', walk n incX incY body m = Ok m' /\
    (forall i, 0 <= i < n -> val d m' (elt y incY n i) = g (val d m (elt x incX n i)) (val d m (elt y incY n i))) /\
    changes d m m' (in_vector y incY n).
Proof.
  intros Hb Hx Hy Hinc Hr.
  destruct (Z_le_gt_dec n 0) as [Hn|Hn].
  { exists m. rewrite walk_nonpos by exact Hn. repeat split; auto; intros; lia. }
  destruct (walk_inv (fun j (m' : list A) => length m' = length m /\
      (forall i, 0 <= i < j -> val d m' (elt y incY n i) = g (val d m (elt x incX n i)) (val d m (elt y incY n i))) /\
      (forall p, 0 <= p < Z.of_nat (length m) -> (forall i, 0 <= i < j -> p <> elt y incY n i) -> val d m' p = val d m p))
    n incX incY body m) as (m' & E & HL & H1 & H2).
  - lia.
  - split; [reflexivity|]. split; [intros; lia|reflexivity].
  - intros j m1 Hj (HL & H1 & H2).
    specialize (Hb (j * incX) (j * incY) m1). rewrite !start_elt, HL in Hb.
    destruct (Hb (Hx j Hj) (Hy j Hj)) as (m2 & E & HL2 & H3). rewrite E.
    exists m2. split; [reflexivity|]. split; [congruence|].
    assert (Inj : forall i, 0 <= i < n -> elt y incY n i = elt y incY n j -> i = j).
    { intros i Hi Ei. destruct Hinc as [Hinc|Hinc]; [now apply (elt_inj y incY n)|lia]. }
    rewrite (H2 (elt x incX n j)) in H3 by
      (first [exact (Hx j Hj) | intros i Hi Ei; exact (Hr i j ltac:(lia) ltac:(lia) ltac:(lia) (eq_sym Ei))]).
    rewrite (H2 (elt y incY n j)) in H3 by
      (first [exact (Hy j Hj) | intros i Hi Ei; symmetry in Ei; apply Inj in Ei; lia]).
    split.
    + intros i Hi. rewrite H3 by (apply Hy; lia).
      destruct (elt y incY n i =? elt y incY n j) eqn:Ei.
      * assert (Ei' : elt y incY n i = elt y incY n j) by lia. apply Inj in Ei'; [|lia]. now subst.
      * apply H1. assert (i <> j) by (intros ->; lia). lia.
    + intros p Hp Hne. rewrite H3 by exact Hp.
      destruct (p =? elt y incY n j) eqn:Ei; [exfalso; apply (Hne j); lia|].
      apply H2; [exact Hp|]. intros i Hi. apply Hne. lia.
  - exists m'. split; [exact E|]. split; [exact H1|]. split; [exact HL|].
    intros p Hp Hv. apply H2; [exact Hp|]. intros i Hi ->. apply Hv. now exists i.
Qed.

Lemma copy_ok n x incX y incY (m : list A) :
  inside m x incX n -> inside m y incY n -> incY <> 0 \/ n <= 1 -> read_first x incX y incY n ->
  exists m', copy n x incX y incY m = Ok m' /\
    (forall i, 0 <= i < n -> val d m' (elt y incY n i) = val d m (elt x incX n i)) /\
    changes d m m' (in_vector y incY n).
Proof.
  intros Hx Hy Hinc Hr. apply (write_y (fun u _ => u)); auto.
  intros iX iY m1 H1 H2. rewrite (load_ok d) by exact H1. cbn [bind]. now apply (store_ok d).
Qed.
Lemma axpy_ok (add mul : A -> A -> A) n alpha x incX y incY (m : list A) :
  inside m x incX n -> inside m y incY n -> incY <> 0 \/ n <= 1 -> read_first x incX y incY n ->
  exists m', axpy add mul n alpha x incX y incY m = Ok m' /\
    (forall i, 0 <= i < n -> val d m' (elt y incY n i) = add (val d m (elt y incY n i)) (mul alpha (val d m (elt x incX n i)))) /\
    changes d m m' (in_vector y incY n).
Proof.
  intros Hx Hy Hinc Hr. apply (write_y (fun u v => add v (mul alpha u))); auto.
  intros iX iY m1 H1 H2. rewrite (load_ok d) by exact H1. cbn [bind]. rewrite (load_ok d) by exact H2. cbn [bind].
  now apply (store_ok d).
Qed.
Lemma read_first_self x inc n : inc <> 0 -> read_first x inc x inc n.
Proof. intros H i j Hi Hij Hj E. apply elt_inj in E; lia. Qed.
Lemma rounds_ignore {St} k iX incX iY incY iY' incY' (body : Z -> St -> outcome St) s :
  rounds k iX incX iY incY (fun iX _ => body iX) s = rounds k iX incX iY' incY' (fun iX _ => body iX) s.
Proof.
  revert iX iY iY' s. induction k as [|k IH]; intros iX iY iY' s; cbn; [reflexivity|].
  destruct (body iX s); cbn; auto.
Qed.
Lemma walk1_walk {St} n incX incY (body : Z -> St -> outcome St) s :
  walk1 n incX body s = walk n incX incY (fun iX _ => body iX) s.
Proof. unfold walk1, walk. apply rounds_ignore. Qed.

Lemma write_x (g : A -> A) body n x incX (m : list A) :
  (forall iX m, 0 <= start x incX n + iX < Z.of_nat (length m) ->
     exists m', body iX m = Ok m' /\
       length m' = length m /\ forall q, 0 <= q < Z.of_nat (length m) ->
       val d m' q = if q =? start x incX n + iX then g (val d m (start x incX n + iX)) else val d m q) ->
  inside m x incX n -> incX <> 0 \/ n <= 1 ->
  exists m', walk1 n incX body m = Ok m' /\
    (forall i, 0 <= i < n -> val d m' (elt x incX n i) = g (val d m (elt x incX n i))) /\
    changes d m m' (in_vector x incX n).
Proof.
  intros Hb Hx Hinc. destruct (Z_le_gt_dec n 0) as [Hn|Hn].
  { exists m. unfold walk1. rewrite walk_nonpos by exact Hn. repeat split; auto; intros; lia. }
  destruct (walk_inv (fun j (m' : list A) => length m' = length m /\
      (forall i, 0 <= i < j -> val d m' (elt x incX n i) = g (val d m (elt x incX n i))) /\
      (forall p, 0 <= p < Z.of_nat (length m) -> (forall i, 0 <= i < j -> p <> elt x incX n i) -> val d m' p = val d m p))
    n incX 0 (fun iX _ => body iX) m) as (m' & E & HL & H1 & H2).
  - lia.
  - split; [reflexivity|]. split; [intros; lia|reflexivity].
  - intros j m1 Hj (HL & H1 & H2).
    specialize (Hb (j * incX) m1). rewrite !start_elt, HL in Hb.
    destruct (Hb (Hx j Hj)) as (m2 & E & HL2 & H3). rewrite E.
    exists m2. split; [reflexivity|]. split; [congruence|].
    assert (Inj : forall i, 0 <= i < n -> elt x incX n i = elt x incX n j -> i = j).
    { intros i Hi Ei. destruct Hinc as [Hinc|Hinc]; [now apply (elt_inj x incX n)|lia]. }
    rewrite (H2 (elt x incX n j)) in H3 by
      (first [exact (Hx j Hj) | intros i Hi Ei; symmetry in Ei; apply Inj in Ei; lia]).
    split.
    + intros i Hi. rewrite H3 by (apply Hx; lia).
      destruct (elt x incX n i =? elt x incX n j) eqn:Ei.
      * assert (Ei' : elt x incX n i = elt x incX n j) by lia. apply Inj in Ei'; [|lia]. now subst.
      * apply H1. assert (i <> j) by (intros ->; lia). lia.
    + intros p Hp Hne. rewrite H3 by exact Hp.
      destruct (p =? elt x incX n j) eqn:Ei; [exfalso; apply (Hne j); lia|].
      apply H2; [exact Hp|]. intros i Hi. apply Hne. lia.
  - exists m'. split; [exact E|]. split; [exact H1|]. split; [exact HL|].
    intros p Hp Hv. apply H2; [exact Hp|]. intros i Hi ->. apply Hv. now exists i.
Qed.
Lemma scal_ok (mul : A -> A -> A) n alpha x incX (m : list A) :
  inside m x incX n -> incX <> 0 \/ n <= 1 ->
  exists m', scal mul n alpha x incX m = Ok m' /\
    (forall i, 0 <= i < n -> val d m' (elt x incX n i) = mul (val d m (elt x incX n i)) alpha) /\
    changes d m m' (in_vector x incX n).
Proof.
  intros Hx Hinc. apply (write_x (fun v => mul v alpha)); auto.
  intros iX m1 H1. rewrite (load_ok d) by exact H1. cbn [bind]. now apply (store_ok d).
Qed.
Lemma scal_init_ok (zero : A) (mul : A -> A -> A) is_zero n alpha x incX (m : list A) :
  inside m x incX n -> incX <> 0 \/ n <= 1 ->
  exists m', scal_init zero mul is_zero n alpha x incX m = Ok m' /\
    (forall i, 0 <= i < n -> val d m' (elt x incX n i) =
       if is_zero alpha then zero else mul (val d m (elt x incX n i)) alpha) /\
    changes d m m' (in_vector x incX n).
Proof.
  intros Hx Hinc. unfold scal_init. destruct (is_zero alpha).
  - apply (write_x (fun _ => zero)); auto. intros iX m1 H1. now apply (store_ok d).
  - now apply scal_ok.
Qed.

(** A loop that reads x[i] and y[i], writes x[i] and then y[i]. *)
Lemma write_xy (f g : A -> A -> A) n x incX y incY (m : list A) :
  inside m x incX n -> inside m y incY n -> incX <> 0 \/ n <= 1 -> incY <> 0 \/ n <= 1 -> disjoint x incX y incY n ->
  exists m', walk n incX incY (fun iX iY m =>
      do u <- load m (start x incX n + iX); do v <- load m (start y incY n + iY);
      do m' <- store m (start x incX n + iX) (f u v); store m' (start y incY n + iY) (g u v)) m = Ok m' /\
    (forall i, 0 <= i < n -> val d m' (elt x incX n i) = f (val d m (elt x incX n i)) (val d m (elt y incY n i)) /\
                             val d m' (elt y incY n i) = g (val d m (elt x incX n i)) (val d m (elt y incY n i))) /\
    changes d m m' (fun p => in_vector x incX n p \/ in_vector y incY n p).
Proof.
  intros Hx Hy HiX HiY Hd.
  destruct (Z_le_gt_dec n 0) as [Hn|Hn].
  { exists m. rewrite walk_nonpos by exact Hn. split; [reflexivity|]. split; [intros; lia|]. now split. }
  destruct (walk_inv (fun j (m' : list A) => length m' = length m /\
      (forall i, 0 <= i < j -> val d m' (elt x incX n i) = f (val d m (elt x incX n i)) (val d m (elt y incY n i)) /\
                               val d m' (elt y incY n i) = g (val d m (elt x incX n i)) (val d m (elt y incY n i))) /\
      (forall p, 0 <= p < Z.of_nat (length m) -> (forall i, 0 <= i < j -> p <> elt x incX n i /\ p <> elt y incY n i) ->
         val d m' p = val d m p))
    n incX incY (fun iX iY m =>
      do u <- load m (start x incX n + iX); do v <- load m (start y incY n + iY);
      do m' <- store m (start x incX n + iX) (f u v); store m' (start y incY n + iY) (g u v)) m) as (m' & E & HL & H1 & H2).
  - lia.
  - split; [reflexivity|]. split; [intros; lia|reflexivity].
  - intros j m1 Hj (HL & H1 & H2). rewrite !start_elt.
    assert (InjX : forall i, 0 <= i < n -> elt x incX n i = elt x incX n j -> i = j).
    { intros i Hi Ei. destruct HiX as [H|H]; [now apply (elt_inj x incX n)|lia]. }
    assert (InjY : forall i, 0 <= i < n -> elt y incY n i = elt y incY n j -> i = j).
    { intros i Hi Ei. destruct HiY as [H|H]; [now apply (elt_inj y incY n)|lia]. }
    rewrite (load_ok d m1) by (rewrite HL; auto). cbn [bind]. rewrite (load_ok d m1) by (rewrite HL; auto). cbn [bind].
    rewrite (H2 (elt x incX n j)) by (first [exact (Hx j Hj) | intros i Hi; split; intros Ei;
      [symmetry in Ei; apply InjX in Ei; lia | symmetry in Ei; exact (Hd i j ltac:(lia) Hj Ei)]]).
    rewrite (H2 (elt y incY n j)) by (first [exact (Hy j Hj) | intros i Hi; split; intros Ei;
      [exact (Hd j i Hj ltac:(lia) Ei) | symmetry in Ei; apply InjY in Ei; lia]]).
    destruct (store_ok d m1 (elt x incX n j) (f (val d m (elt x incX n j)) (val d m (elt y incY n j))))
      as (m2 & E2 & HL2 & V2); [rewrite HL; auto|]. rewrite E2. cbn [bind].
    destruct (store_ok d m2 (elt y incY n j) (g (val d m (elt x incX n j)) (val d m (elt y incY n j))))
      as (m3 & E3 & HL3 & V3); [rewrite HL2, HL; auto|]. exists m3. split; [exact E3|]. split; [congruence|].
    rewrite HL2, HL in V3. rewrite HL in V2.
    assert (V : forall q, 0 <= q < Z.of_nat (length m) -> val d m3 q =
       if q =? elt y incY n j then g (val d m (elt x incX n j)) (val d m (elt y incY n j))
       else if q =? elt x incX n j then f (val d m (elt x incX n j)) (val d m (elt y incY n j)) else val d m1 q).
    { intros q Hq. rewrite V3 by exact Hq. now rewrite V2 by exact Hq. }
    split.
    + intros i Hi. rewrite (V (elt x incX n i)) by (apply Hx; lia). rewrite (V (elt y incY n i)) by (apply Hy; lia).
      pose proof (Hd j i Hj ltac:(lia)) as D1. pose proof (Hd i j ltac:(lia) Hj) as D2.
      destruct (Z.eq_dec i j) as [->|Hne].
      * rewrite !Z.eqb_refl. destruct (elt x incX n j =? elt y incY n j) eqn:E; [lia|]. split; reflexivity.
      * assert (N1 : elt x incX n i <> elt x incX n j) by (intros Ei; apply InjX in Ei; lia).
        assert (N2 : elt y incY n i <> elt y incY n j) by (intros Ei; apply InjY in Ei; lia).
        replace (elt x incX n i =? elt y incY n j) with false by lia.
        replace (elt x incX n i =? elt x incX n j) with false by lia.
        replace (elt y incY n i =? elt y incY n j) with false by lia.
        replace (elt y incY n i =? elt x incX n j) with false by lia. apply H1. lia.
    + intros p Hp Hne. rewrite V by exact Hp. destruct (Hne j ltac:(lia)).
      replace (p =? elt y incY n j) with false by lia. replace (p =? elt x incX n j) with false by lia.
      apply H2; [exact Hp|]. intros i Hi. apply Hne. lia.
  - exists m'. split; [exact E|]. split; [exact H1|]. split; [exact HL|].
    intros p Hp Hv. apply H2; [exact Hp|]. intros i Hi. split; intros ->; apply Hv; [left|right]; now exists i.
Qed.

(** Zero increments. *)
Lemma axpy_zero (add mul : A -> A -> A) n alpha x incX y (m : list A) : 0 <= n ->
  inside m x incX n -> inside m y 0 n -> (forall i, 0 < i < n -> elt x incX n i <> y) ->
  exists m', axpy add mul n alpha x incX y 0 m = Ok m' /\
    (0 < n -> val d m' y = sum (val d m y) add (Z.to_nat n) (fun i => mul alpha (val d m (elt x incX n (Z.of_nat i))))) /\
    changes d m m' (fun p => p = y /\ 0 < n).
Proof.
  intros Hn Hx Hy Hr.
  destruct (walk_inv (fun j (m' : list A) => length m' = length m /\
      (0 < n -> val d m' y = sum (val d m y) add (Z.to_nat j) (fun i => mul alpha (val d m (elt x incX n (Z.of_nat i))))) /\
      (forall p, 0 <= p < Z.of_nat (length m) -> (0 < j -> p <> y) -> val d m' p = val d m p))
    n incX 0 (fun iX iY m =>
    do u <- load m (start x incX n + iX); do v <- load m (start y 0 n + iY); store m (start y 0 n + iY) (add v (mul alpha u))) m)
    as (m' & E & HL & H1 & H2).
  - exact Hn.
  - split; [reflexivity|]. split; reflexivity.
  - intros j m1 Hj (HL & H1 & H2). rewrite !start_elt, !elt_zero.
    pose proof (Hy j Hj) as Hyj. rewrite elt_zero in Hyj.
    rewrite (load_ok d m1) by (rewrite HL; auto). cbn [bind]. rewrite (load_ok d m1) by (rewrite HL; auto). cbn [bind].
    assert (Ej : val d m1 (elt x incX n j) = val d m (elt x incX n j)).
    { apply H2; [auto|]. intros H. apply Hr. lia. }
    rewrite Ej.
    destruct (store_ok d m1 y (add (val d m1 y) (mul alpha (val d m (elt x incX n j))))) as (m2 & E2 & HL2 & V2); [lia|].
    exists m2. split; [exact E2|]. split; [congruence|]. rewrite HL in V2. split.
    + intros Hp. rewrite V2 by exact Hyj. rewrite Z.eqb_refl, (H1 Hp).
      replace (Z.to_nat (j + 1)) with (S (Z.to_nat j)) by lia. cbn [sum]. do 4 f_equal. lia.
    + intros p Hp Hne. rewrite V2 by exact Hp. assert (p <> y) by (apply Hne; lia).
      replace (p =? y) with false by lia. apply H2; auto.
  - exists m'. split; [exact E|]. split; [exact H1|]. split; [exact HL|].
    intros p Hp Hv. apply H2; [exact Hp|]. intros H ->. now apply Hv.
Qed.
Lemma copy_zero n x incX y (m : list A) : 0 < n ->
  inside m x incX n -> inside m y 0 n -> (forall i, 0 < i < n -> elt x incX n i <> y) ->
  exists m', copy n x incX y 0 m = Ok m' /\
    val d m' y = val d m (elt x incX n (n - 1)) /\
    changes d m m' (fun p => p = y).
Proof.
  intros Hn Hx Hy Hr.
  destruct (walk_inv (fun j (m' : list A) => length m' = length m /\
      (0 < j -> val d m' y = val d m (elt x incX n (j - 1))) /\
      (forall p, 0 <= p < Z.of_nat (length m) -> (0 < j -> p <> y) -> val d m' p = val d m p))
    n incX 0 (fun iX iY m => do v <- load m (start x incX n + iX); store m (start y 0 n + iY) v) m)
    as (m' & E & HL & H1 & H2).
  - lia.
  - split; [reflexivity|]. split; [intros; lia|reflexivity].
  - intros j m1 Hj (HL & H1 & H2). rewrite !start_elt, !elt_zero.
    pose proof (Hy j Hj) as Hyj. rewrite elt_zero in Hyj.
    rewrite (load_ok d m1) by (rewrite HL; auto). cbn [bind].
    assert (Ej : val d m1 (elt x incX n j) = val d m (elt x incX n j)).
    { apply H2; [auto|]. intros H. apply Hr. lia. }
    rewrite Ej.
    destruct (store_ok d m1 y (val d m (elt x incX n j))) as (m2 & E2 & HL2 & V2); [lia|].
    exists m2. split; [exact E2|]. split; [congruence|]. rewrite HL in V2. split.
    + intros Hp. rewrite V2 by exact Hyj. rewrite Z.eqb_refl. do 2 f_equal. lia.
    + intros p Hp Hne. rewrite V2 by exact Hp. assert (p <> y) by (apply Hne; lia).
      replace (p =? y) with false by lia. apply H2; auto.
  - exists m'. split; [exact E|]. split; [auto|]. split; [exact HL|].
    intros p Hp Hv. apply H2; auto.
Qed.
Lemma scal_zero (mul : A -> A -> A) n alpha y (m : list A) : 0 < n -> 0 <= y < Z.of_nat (length m) ->
  exists m', scal mul n alpha y 0 m = Ok m' /\
    val d m' y = power (val d m y) mul alpha (Z.to_nat n) /\
    changes d m m' (fun p => p = y).
Proof.
  intros Hn Hy.
  destruct (walk_inv (fun j (m' : list A) => length m' = length m /\
      val d m' y = power (val d m y) mul alpha (Z.to_nat j) /\
      (forall p, 0 <= p < Z.of_nat (length m) -> p <> y -> val d m' p = val d m p))
    n 0 0 (fun iY _ m => do v <- load m (start y 0 n + iY); store m (start y 0 n + iY) (mul v alpha)) m)
    as (m' & E & HL & H1 & H2).
  - lia.
  - split; [reflexivity|]. split; reflexivity.
  - intros j m1 Hj (HL & H1 & H2). rewrite !start_elt, !elt_zero.
    rewrite (load_ok d m1) by (rewrite HL; auto). cbn [bind].
    destruct (store_ok d m1 y (mul (val d m1 y) alpha)) as (m2 & E2 & HL2 & V2); [lia|].
    exists m2. split; [exact E2|]. split; [congruence|]. rewrite HL in V2. split.
    + rewrite V2 by exact Hy. rewrite Z.eqb_refl, H1.
      now replace (Z.to_nat (j + 1)) with (S (Z.to_nat j)) by lia.
    + intros p Hp Hne. rewrite V2 by exact Hp. replace (p =? y) with false by lia. auto.
  - exists m'. split; [exact E|]. split; [exact H1|]. now split.
Qed.

(** Reductions. *)
Lemma reduce_ok {B} (z : B) (addB : B -> B -> B) (t : Z -> B) body n incX incY :
  (forall j r, 0 <= j < n -> body (j * incX) (j * incY) r = Ok (addB r (t j))) ->
  walk n incX incY body z = Ok (sum z addB (Z.to_nat n) (fun i => t (Z.of_nat i))).
Proof.
  intros Hb. destruct (Z_le_gt_dec n 0) as [Hn|Hn].
  { rewrite walk_nonpos by exact Hn. now replace (Z.to_nat n) with O by lia. }
  destruct (walk_inv (fun j r => r = sum z addB (Z.to_nat j) (fun i => t (Z.of_nat i))) n incX incY body z) as (r & E & ->);
    [lia|reflexivity| |exact E].
  intros j r Hj ->. exists (addB (sum z addB (Z.to_nat j) (fun i => t (Z.of_nat i))) (t j)). split; [now apply Hb|].
  replace (Z.to_nat (j + 1)) with (S (Z.to_nat j)) by lia. cbn [sum]. do 2 f_equal. lia.
Qed.
Lemma dot_ok (zero : A) (add mul : A -> A -> A) conj n x incX y incY (m : list A) : inside m x incX n -> inside m y incY n ->
  dot zero add mul conj n x incX y incY m = Ok (sum zero add (Z.to_nat n)
    (fun i => mul (conj (val d m (elt x incX n (Z.of_nat i)))) (val d m (elt y incY n (Z.of_nat i))))).
Proof.
  intros Hx Hy. unfold dot.
  apply (reduce_ok zero add (fun j => mul (conj (val d m (elt x incX n j))) (val d m (elt y incY n j)))).
  intros j r Hj. rewrite !start_elt, !(load_ok d) by auto. reflexivity.
Qed.
Lemma dotu_ok (zero : A) (add mul : A -> A -> A) n x incX y incY (m : list A) : inside m x incX n -> inside m y incY n ->
  dotu zero add mul n x incX y incY m = Ok (sum zero add (Z.to_nat n)
    (fun i => mul (val d m (elt x incX n (Z.of_nat i))) (val d m (elt y incY n (Z.of_nat i))))).
Proof.
  intros Hx Hy. unfold dotu.
  apply (reduce_ok zero add (fun j => mul (val d m (elt x incX n j)) (val d m (elt y incY n j)))).
  intros j r Hj. rewrite !start_elt, !(load_ok d) by auto. reflexivity.
Qed.
Lemma asum_ok (zero : A) (add : A -> A -> A) abs1 n x incX (m : list A) : inside m x incX n ->
  asum zero add abs1 n x incX m = Ok (sum zero add (Z.to_nat n) (fun i => abs1 (val d m (elt x incX n (Z.of_nat i))))).
Proof.
  intros Hx. unfold asum, walk1.
  apply (reduce_ok zero add (fun j => abs1 (val d m (elt x incX n j)))).
  intros j r Hj. rewrite !start_elt, !(load_ok d) by auto. reflexivity.
Qed.

Lemma iamax_ok {B} (abs : A -> B) (gt : B -> B -> bool) n x incX (m : list A) :
  (forall a b, gt a b = true -> gt b a = false) ->
  (forall a b c, gt a b = false -> gt b c = false -> gt a c = false) ->
  0 < n -> inside m x incX n ->
  exists i, iamax abs gt n x incX m = Ok i /\ 0 <= i < n /\
    (forall j, 0 <= j < n -> gt (abs (val d m (elt x incX n j))) (abs (val d m (elt x incX n i))) = false) /\
    (forall j, 0 <= j < i -> gt (abs (val d m (elt x incX n i))) (abs (val d m (elt x incX n j))) = true).
Proof.
  intros Has Htr Hn Hx. set (v := fun j => abs (val d m (elt x incX n j))).
  assert (Hir : forall a, gt a a = false).
  { intros a. destruct (gt a a) eqn:E; [|reflexivity]. rewrite <- E. now apply Has. }
  unfold iamax. destruct (n <=? 0) eqn:E0; [lia|].
  pose proof (start_elt x incX n 0) as H0. replace (start x incX n + 0 * incX) with (start x incX n) in H0 by ring.
  rewrite H0. rewrite (load_ok d) by (apply Hx; lia). cbn [bind]. unfold walk1.
  match goal with |- context [walk n incX 0 ?b ?s0] =>
    destruct (walk_inv (fun j (s : Z * Z * B) => let '(i, best, top) := s in
      i = j /\ 0 <= best < n /\ top = v best /\
      (forall k, 0 <= k < j -> gt (v k) (v best) = false) /\
      (forall k, 0 <= k < best -> gt (v best) (v k) = true)) n incX 0 b s0) as ([[i best] top] & E & H) end.
  - lia.
  - repeat split; try lia; intros; lia.
  - intros j [[i best] top] Hj (-> & Hb & -> & H1 & H2). rewrite <- H0, start_elt, (load_ok d) by auto. cbn [bind].
    fold (v j). destruct (gt (v j) (v best)) eqn:E.
    + eexists. split; [reflexivity|]. cbn. split; [reflexivity|]. split; [exact Hj|]. split; [reflexivity|]. split.
      * intros k Hk. destruct (Z.eq_dec k j) as [->|]; [apply Hir|]. apply (Htr _ (v best)); [apply H1; lia|now apply Has].
      * intros k Hk. destruct (gt (v j) (v k)) eqn:E'; [reflexivity|]. exfalso.
        rewrite (Htr _ _ _ E' (H1 k Hk)) in E. discriminate.
    + eexists. split; [reflexivity|]. cbn. split; [reflexivity|]. split; [exact Hb|]. split; [reflexivity|]. split; [|exact H2].
      intros k Hk. destruct (Z.eq_dec k j) as [->|]; [exact E|]. apply H1. lia.
  - rewrite E. cbn. destruct H as (-> & Hb & -> & H1 & H2). exists best. auto.
Qed.
End Ops.
