(** trsv and trmv over arbitrary operations: what each element is computed from, in which order.  No laws of
    arithmetic are used, so this also holds of floating-point numbers. *)
From Coq Require Import ZArith.
From Verif Require Import Base BaseProofs MatmulModel MatmulSpec BlasModel BlasSpec BlasProofs TriModel TriSpec TriProofs.
From Coq Require Import ZifyNat ZifyN ZifyBool.
Ltac Zify.zify_post_hook ::= idtac.
Local Open Scope Z_scope.

(** op(T) is a lower triangle. *)
Definition op_lower (up : uplo) (t : trans) : bool := match up with Upper => is_trans t | Lower => negb (is_trans t) end.
Lemma op_lower_flip up t : op_lower (other up) (flip t) = op_lower up t.
Proof. now destruct up, t. Qed.

Section Dots.
Context {A : Type} (d zero : A) (add mul : A -> A -> A) (conj : A -> A).
Local Notation zs := (zsum zero add).
Variables (n x inc : Z) (m : list A) (c : bool) (s : Z) (p : Z -> Z) (R : Z -> Z -> A).
Hypothesis Hin : inside m x inc n.
Local Notation e := (elt x inc n).
Local Notation x0 := (start x inc n).
Local Notation entry_at := (entry_at d conj n x inc m c R).
Lemma e_ok i t : 0 <= i < n -> changes d m t (in_vector x inc n) -> 0 <= e i < Z.of_nat (length t).
Proof using Hin. intros Hi [L _]. rewrite L. now apply Hin. Qed.
Lemma right_dot i b t : 0 <= i -> 0 <= b -> changes d m t (in_vector x inc n) ->
  (forall j, i + b <= j < n -> entry_at i j (p i + (j - i - b) * s)) ->
  forall y, y = e (i + b) ->
  dot_gen zero add mul conj c (n - i - b) (p i) s y inc t =
    Ok (zs (n - i - b) (fun k => mul (R i (i + b + k)) (val d t (e (i + b + k))))).
Proof using All.
  intros Hi Hb Ht HR y ->. rewrite (dot_gen_ok d).
  - f_equal. apply zsum_ext. intros k Hk.
    destruct (entry_now d conj n x inc m c R i (i + b + k) (p i + (i + b + k - i - b) * s) t) as [_ E]; [apply HR; lia|exact Ht|].
    replace (i + b + k - i - b) with k in E by lia. rewrite E. do 2 f_equal. rewrite <- !start_elt. ring.
  - intros k Hk. split.
    + destruct (entry_now d conj n x inc m c R i (i + b + k) (p i + (i + b + k - i - b) * s) t) as [E _]; [apply HR; lia|exact Ht|].
      now replace (i + b + k - i - b) with k in E by lia.
    + replace (e (i + b) + k * inc) with (e (i + b + k)) by (rewrite <- !start_elt; ring). apply e_ok; [lia|exact Ht].
Qed.
Lemma left_dot i k t : k <= n -> changes d m t (in_vector x inc n) ->
  (forall j, 0 <= j < k -> entry_at i j (p i + j * s)) ->
  dot_gen zero add mul conj c k (p i) s x0 inc t = Ok (zs k (fun j => mul (R i j) (val d t (e j)))).
Proof using All.
  intros Hi Ht HR. rewrite (dot_gen_ok d).
  - f_equal. apply zsum_ext. intros j Hj. destruct (entry_now d conj n x inc m c R i j (p i + j * s) t) as [_ E]; [apply HR; lia|exact Ht|].
    rewrite E. do 2 f_equal. apply start_elt.
  - intros j Hj. split; [now apply (entry_now d conj n x inc m c R i j _ t); [apply HR; lia|exact Ht]|].
    rewrite start_elt. apply e_ok; [lia|exact Ht].
Qed.
End Dots.

Section Solve.
Context {A : Type} (d zero : A) (add sub mul div : A -> A -> A) (conj : A -> A).
Local Notation zs := (zsum zero add).
(** x := x - r, and divided by the diagonal unless that is implicitly one *)
Definition final (dg : diag) (b r e : A) : A := match dg with Unit => sub b r | NonUnit => div (sub b r) e end.
Variables (n x inc : Z) (m : list A) (c : bool) (s : Z) (p q : Z -> Z) (R : Z -> Z -> A) (dg : diag).
Hypothesis Hinc : inc <> 0.
Hypothesis Hin : inside m x inc n.
Local Notation e := (elt x inc n).
Local Notation x0 := (start x inc n).
Hypothesis Hdiag : forall i, 0 <= i < n -> dg = NonUnit -> entry_at d conj n x inc m c R i i (q i).
Lemma settle_here i t r : 0 <= i < n -> changes d m t (in_vector x inc n) ->
  settle sub div conj dg c (e i) (q i) r t = store t (e i) (final dg (val d t (e i)) r (R i i)).
Proof using Hin Hdiag.
  intros Hi Ht. assert (W : 0 <= e i < Z.of_nat (length t)) by (destruct Ht as [L _]; rewrite L; now apply Hin).
  rewrite (settle_ok d); [|exact W|].
  - f_equal. destruct dg; [reflexivity|]. cbn [final]. f_equal.
    now destruct (entry_now d conj n x inc m c R i i (q i) t (Hdiag i Hi eq_refl) Ht) as [_ ->].
  - intros E. pose proof (Hdiag i Hi E) as D. split; [now apply (entry_now d conj n x inc m c R i i (q i) t D Ht)|].
    intros E'. apply D. exists i. split; [exact Hi|now symmetry].
Qed.
Lemma recur_right :
  (forall i j, 0 <= i < j -> j < n -> entry_at d conj n x inc m c R i j (p i + (j - i - 1) * s)) ->
  exists m', descend n n inc (fun iX i m =>
      do r <- dot_gen zero add mul conj c (n - i - 1) (p i) s (x0 + iX + inc) inc m;
      settle sub div conj dg c (x0 + iX) (q i) r m) m = Ok m' /\ changes d m m' (in_vector x inc n) /\
    forall i, 0 <= i < n -> val d m' (e i) =
      final dg (val d m (e i)) (zs (n - i - 1) (fun k => mul (R i (i + 1 + k)) (val d m' (e (i + 1 + k))))) (R i i).
Proof using All.
  intros HR.
  destruct (descend_ok d (fun i f => final dg (f i) (zs (n - i - 1) (fun k => mul (R i (i + 1 + k)) (f (i + 1 + k)))) (R i i))
     (fun iX i m => do r <- dot_gen zero add mul conj c (n - i - 1) (p i) s (x0 + iX + inc) inc m;
        settle sub div conj dg c (x0 + iX) (q i) r m) n n x inc m)
    as (m' & E & C & V & _); [exact Hinc|lia|exact Hin| | |].
  - intros i f g Hi H. f_equal; [apply H; lia|]. apply zsum_ext. intros k Hk. f_equal. apply H. lia.
  - intros i t Hi Ht. rewrite (right_dot d zero add mul conj n x inc m c s p R Hin i 1 t); try lia; [|exact Ht| |].
    + cbn [bind]. rewrite start_elt. apply settle_here; [lia|exact Ht].
    + intros j Hj. apply HR; lia.
    + rewrite <- !start_elt. ring.
  - exists m'. split; [exact E|]. split; [exact C|]. intros i Hi. rewrite (V i) by lia. replace (i <? i) with false by lia.
    f_equal. apply zsum_ext. intros k Hk. now replace (i <? i + 1 + k) with true by lia.
Qed.
Lemma recur_left :
  (forall i j, 0 <= j < i -> i < n -> entry_at d conj n x inc m c R i j (p i + j * s)) ->
  exists m', ascend n inc (fun iX i m =>
      do r <- dot_gen zero add mul conj c i (p i) s x0 inc m;
      settle sub div conj dg c (x0 + iX) (q i) r m) m = Ok m' /\ changes d m m' (in_vector x inc n) /\
    forall i, 0 <= i < n -> val d m' (e i) =
      final dg (val d m (e i)) (zs i (fun j => mul (R i j) (val d m' (e j)))) (R i i).
Proof using All.
  intros HR.
  destruct (ascend_ok d (fun i f => final dg (f i) (zs i (fun j => mul (R i j) (f j))) (R i i))
     (fun iX i m => do r <- dot_gen zero add mul conj c i (p i) s x0 inc m;
        settle sub div conj dg c (x0 + iX) (q i) r m) n n x inc m)
    as (m' & E & C & V & _); [exact Hinc|lia|exact Hin| | |].
  - intros i f g Hi H. f_equal; [apply H; lia|]. apply zsum_ext. intros k Hk. f_equal. apply H. lia.
  - intros i t Hi Ht. rewrite (left_dot d zero add mul conj n x inc m c s p R Hin i i t); [|lia|exact Ht|intros j Hj; apply HR; lia].
    cbn [bind]. rewrite start_elt. apply settle_here; [lia|exact Ht].
  - exists m'. split; [exact E|]. split; [exact C|]. intros i Hi. rewrite (V i) by lia. replace (i <? i) with false by lia.
    f_equal. apply zsum_ext. intros k Hk. now replace (k <? i) with true by lia.
Qed.
End Solve.

Section Routine.
Context {A : Type} (d zero one : A) (add sub mul div : A -> A -> A) (conj : A -> A).
Local Notation zs := (zsum zero add).
(** The other entries of row i of a triangle, applied to v: the ones before the diagonal, or after it. *)
Definition others (low : bool) (n i : Z) (R : Z -> Z -> A) (v : Z -> A) : A :=
  if low then zs i (fun j => mul (R i j) (v j)) else zs (n - i - 1) (fun k => mul (R i (i + 1 + k)) (v (i + 1 + k))).
Lemma trsv_row_recur up t dg n a lda x inc (m : list A) :
  inc <> 0 -> inside m x inc n -> kept_apart m RowMajor up dg n a lda (in_vector x inc n) ->
  exists m', trsv_row zero add sub mul div conj up t dg n a lda x inc m = Ok m' /\ changes d m m' (in_vector x inc n) /\
    forall i, 0 <= i < n -> let R := op conj t (triangle d zero one RowMajor up dg a lda m) in
      val d m' (elt x inc n i) = final sub div dg (val d m (elt x inc n i))
        (others (op_lower up t) n i R (fun j => val d m' (elt x inc n j))) (R i i).
Proof.
  intros Hinc Hin HA. unfold trsv_row.
  assert (D : forall i, 0 <= i < n -> dg = NonUnit ->
      entry_at d conj n x inc m (is_conj t) (op conj t (triangle d zero one RowMajor up dg a lda m)) i i (a + i * (lda + 1))).
  { intros i Hi ->. eapply entry_row; [lia|lia|eassumption|unfold kept; destruct t, up; cbn [is_trans]; lia|destruct t; cbn [is_trans]; lia]. }
  unfold others. destruct (is_trans t) eqn:Et, up; cbv zeta; cbn [op_lower]; rewrite Et; cbn [negb].
  - apply (recur_left d zero add sub mul div conj n x inc m (is_conj t) lda (fun i => a + i) (fun i => a + i * (lda + 1)) _ dg Hinc Hin D).
    intros i j Hi Hj. eapply entry_row; [lia|lia|eassumption|rewrite Et; unfold kept; lia|rewrite Et; lia].
  - apply (recur_right d zero add sub mul div conj n x inc m (is_conj t) lda (fun i => a + i * (lda + 1) + lda) (fun i => a + i * (lda + 1)) _ dg Hinc Hin D).
    intros i j Hi Hj. eapply entry_row; [lia|lia|eassumption|rewrite Et; unfold kept; lia|rewrite Et; lia].
  - apply (recur_right d zero add sub mul div conj n x inc m (is_conj t) 1 (fun i => a + i * (lda + 1) + 1) (fun i => a + i * (lda + 1)) _ dg Hinc Hin D).
    intros i j Hi Hj. eapply entry_row; [lia|lia|eassumption|rewrite Et; unfold kept; lia|rewrite Et; lia].
  - apply (recur_left d zero add sub mul div conj n x inc m (is_conj t) 1 (fun i => a + i * lda) (fun i => a + i * (lda + 1)) _ dg Hinc Hin D).
    intros i j Hi Hj. eapply entry_row; [lia|lia|eassumption|rewrite Et; unfold kept; lia|rewrite Et; lia].
Qed.
Lemma others_ext low n i R R' v : 0 <= i < n -> (forall j, 0 <= j < n -> R i j = R' i j) -> others low n i R v = others low n i R' v.
Proof. intros Hi H. unfold others. destruct low; apply zsum_ext; intros k Hk; rewrite H by lia; reflexivity. Qed.
Lemma trsv_recur o up t dg n a lda x inc (m : list A) :
  inc <> 0 -> inside m x inc n -> kept_apart m o up dg n a lda (in_vector x inc n) ->
  exists m', trsv zero add sub mul div conj o up t dg n a lda x inc m = Ok m' /\ changes d m m' (in_vector x inc n) /\
    forall i, 0 <= i < n -> let R := op conj t (triangle d zero one o up dg a lda m) in
      val d m' (elt x inc n i) = final sub div dg (val d m (elt x inc n i))
        (others (op_lower up t) n i R (fun j => val d m' (elt x inc n j))) (R i i).
Proof.
  intros Hinc Hin HA. destruct o; cbn [trsv]; [now apply trsv_row_recur|].
  destruct (trsv_row_recur (other up) (flip t) dg n a lda x inc m Hinc Hin (apart_col _ _ _ _ _ _ _ HA)) as (m' & E & C & V).
  exists m'. split; [exact E|]. split; [exact C|]. intros i Hi. cbv zeta. rewrite (V i Hi), op_lower_flip. f_equal.
  - apply others_ext; [exact Hi|]. intros j Hj. now rewrite op_col.
  - now rewrite op_col.
Qed.
End Routine.

(** ** Products *)
Section Mul.
Context {A : Type} (d zero : A) (add mul : A -> A -> A) (conj : A -> A).
Local Notation zs := (zsum zero add).
(** Row i of the product: all the entries up to the diagonal or from it, or the element itself and the others. *)
Definition product (dg : diag) (low : bool) (n i : Z) (R : Z -> Z -> A) (v : Z -> A) : A :=
  match dg with
  | NonUnit => if low then zs (i + 1) (fun j => mul (R i j) (v j)) else zs (n - i) (fun k => mul (R i (i + k)) (v (i + k)))
  | Unit => if (if low then i else n - i - 1) =? 0 then v i else add (v i) (others zero add mul low n i R v)
  end.
Variables (n x inc : Z) (m : list A) (c : bool) (s : Z) (p : Z -> Z) (R : Z -> Z -> A).
Hypothesis Hinc : inc <> 0.
Hypothesis Hin : inside m x inc n.
Local Notation e := (elt x inc n).
Local Notation x0 := (start x inc n).
Local Notation entry_at := (entry_at d conj n x inc m c R).
Definition product_done (dg : diag) (low : bool) (m' : list A) : Prop :=
  changes d m m' (in_vector x inc n) /\
  forall i, 0 <= i < n -> val d m' (e i) = product dg low n i R (fun j => val d m (e j)).
Lemma prod_right_full :
  (forall i j, 0 <= i <= j -> j < n -> entry_at i j (p i + (j - i) * s)) ->
  exists m', ascend n inc (fun iX i m => do r <- dot_gen zero add mul conj c (n - i) (p i) s (x0 + iX) inc m; store m (x0 + iX) r) m = Ok m' /\
    product_done NonUnit false m'.
Proof using All.
  intros HR.
  destruct (ascend_ok d (fun i f => zs (n - i) (fun k => mul (R i (i + k)) (f (i + k))))
     (fun iX i m => do r <- dot_gen zero add mul conj c (n - i) (p i) s (x0 + iX) inc m; store m (x0 + iX) r) n n x inc m)
    as (m' & E & C & V & _); [exact Hinc|lia|exact Hin| | |].
  - intros i f g Hi H. apply zsum_ext. intros k Hk. f_equal. apply H. lia.
  - intros i t Hi Ht. replace (n - i) with (n - i - 0) by lia. rewrite (right_dot d zero add mul conj n x inc m c s p R Hin i 0 t); try lia; [|exact Ht| |].
    + cbn [bind]. rewrite start_elt. f_equal. apply zsum_ext. intros k Hk. now rewrite Z.add_0_r.
    + intros j Hj. replace (j - i - 0) with (j - i) by lia. apply HR; lia.
    + rewrite Z.add_0_r. apply start_elt.
  - exists m'. split; [exact E|]. split; [exact C|]. intros i Hi. rewrite V by exact Hi.
    apply zsum_ext. intros k Hk. now replace (i + k <? i) with false by lia.
Qed.
Lemma prod_right_unit :
  (forall i j, 0 <= i < j -> j < n -> entry_at i j (p i + (j - i - 1) * s)) ->
  exists m', ascend (n - 1) inc (fun iX i m => do r <- dot_gen zero add mul conj c (n - i - 1) (p i) s (x0 + iX + inc) inc m; plus_at add m (x0 + iX) r) m = Ok m' /\
    product_done Unit false m'.
Proof using All.
  intros HR.
  destruct (ascend_ok d (fun i f => add (f i) (zs (n - i - 1) (fun k => mul (R i (i + 1 + k)) (f (i + 1 + k)))))
     (fun iX i m => do r <- dot_gen zero add mul conj c (n - i - 1) (p i) s (x0 + iX + inc) inc m; plus_at add m (x0 + iX) r) (n - 1) n x inc m)
    as (m' & E & C & V & W); [exact Hinc|lia|exact Hin| | |].
  - intros i f g Hi H. f_equal; [apply H; lia|]. apply zsum_ext. intros k Hk. f_equal. apply H. lia.
  - intros i t Hi Ht. rewrite (right_dot d zero add mul conj n x inc m c s p R Hin i 1 t); try lia; [|exact Ht| |].
    + cbn [bind]. rewrite start_elt. rewrite (plus_at_ok d) by (apply (e_ok d n x inc m Hin); [lia|exact Ht]). reflexivity.
    + intros j Hj. apply HR; lia.
    + rewrite <- !start_elt. ring.
  - exists m'. split; [exact E|]. split; [exact C|]. intros i Hi. cbn [product].
    destruct (n - i - 1 =? 0) eqn:L; [apply W; lia|]. rewrite V by lia. replace (i <? i) with false by lia. f_equal. apply zsum_ext. intros k Hk.
    now replace (i + 1 + k <? i) with false by lia.
Qed.
Lemma prod_left_full :
  (forall i j, 0 <= j <= i -> i < n -> entry_at i j (p i + j * s)) ->
  exists m', descend n n inc (fun iX i m => do r <- dot_gen zero add mul conj c (i + 1) (p i) s x0 inc m; store m (x0 + iX) r) m = Ok m' /\
    product_done NonUnit true m'.
Proof using All.
  intros HR.
  destruct (descend_ok d (fun i f => zs (i + 1) (fun j => mul (R i j) (f j)))
     (fun iX i m => do r <- dot_gen zero add mul conj c (i + 1) (p i) s x0 inc m; store m (x0 + iX) r) n n x inc m)
    as (m' & E & C & V & _); [exact Hinc|lia|exact Hin| | |].
  - intros i f g Hi H. apply zsum_ext. intros k Hk. f_equal. apply H. lia.
  - intros i t Hi Ht. rewrite (left_dot d zero add mul conj n x inc m c s p R Hin i (i + 1) t); [|lia|exact Ht|intros j Hj; apply HR; lia]. cbn [bind]. now rewrite start_elt.
  - exists m'. split; [exact E|]. split; [exact C|]. intros i Hi. rewrite V by lia.
    apply zsum_ext. intros k Hk. now replace (i <? k) with false by lia.
Qed.
Lemma prod_left_unit :
  (forall i j, 0 <= j < i -> i < n -> entry_at i j (p i + j * s)) ->
  exists m', descend (n - 1) n inc (fun iX i m => do r <- dot_gen zero add mul conj c i (p i) s x0 inc m; plus_at add m (x0 + iX) r) m = Ok m' /\
    product_done Unit true m'.
Proof using All.
  intros HR. destruct (Z_le_gt_dec n 0) as [Hn|Hn].
  { unfold descend. replace (Z.to_nat (n - 1)) with O by lia. exists m. split; [reflexivity|]. split; [apply changes_refl|]. intros; lia. }
  destruct (descend_ok d (fun i f => add (f i) (zs i (fun j => mul (R i j) (f j))))
     (fun iX i m => do r <- dot_gen zero add mul conj c i (p i) s x0 inc m; plus_at add m (x0 + iX) r) (n - 1) n x inc m)
    as (m' & E & C & V & W); [exact Hinc|lia|exact Hin| | |].
  - intros i f g Hi H. f_equal; [apply H; lia|]. apply zsum_ext. intros k Hk. f_equal. apply H. lia.
  - intros i t Hi Ht. rewrite (left_dot d zero add mul conj n x inc m c s p R Hin i i t); [|lia|exact Ht|intros j Hj; apply HR; lia]. cbn [bind]. rewrite start_elt.
    rewrite (plus_at_ok d) by (apply (e_ok d n x inc m Hin); [lia|exact Ht]). reflexivity.
  - exists m'. split; [exact E|]. split; [exact C|]. intros i Hi. cbn [product].
    destruct (i =? 0) eqn:L; [apply W; lia|]. rewrite V by lia. replace (i <? i) with false by lia. f_equal. apply zsum_ext. intros k Hk.
    now replace (i <? k) with false by lia.
Qed.
End Mul.

Section MulRoutine.
Context {A : Type} (d zero one : A) (add mul : A -> A -> A) (conj : A -> A).
Local Notation T o up dg a lda m t := (op conj t (triangle d zero one o up dg a lda m)).
Lemma trmv_row_recur up t dg n a lda x inc (m : list A) :
  inc <> 0 -> inside m x inc n -> kept_apart m RowMajor up dg n a lda (in_vector x inc n) ->
  exists m', trmv_row zero add mul conj up t dg n a lda x inc m = Ok m' /\
    product_done d zero add mul n x inc m (T RowMajor up dg a lda m t) dg (op_lower up t) m'.
Proof.
  intros Hinc Hin HA. unfold trmv_row.
  destruct (is_trans t) eqn:Et, up, dg; cbv zeta; cbn [op_lower]; rewrite Et; cbn [negb].
  - apply (prod_left_unit d zero add mul conj n x inc m (is_conj t) lda (fun i => a + i) _ Hinc Hin).
    intros i j Hi Hj. eapply entry_row; [lia|lia|eassumption|rewrite Et; unfold kept; lia|rewrite Et; lia].
  - apply (prod_left_full d zero add mul conj n x inc m (is_conj t) lda (fun i => a + i) _ Hinc Hin).
    intros i j Hi Hj. eapply entry_row; [lia|lia|eassumption|rewrite Et; unfold kept; lia|rewrite Et; lia].
  - apply (prod_right_unit d zero add mul conj n x inc m (is_conj t) lda (fun i => a + i * (lda + 1) + lda) _ Hinc Hin).
    intros i j Hi Hj. eapply entry_row; [lia|lia|eassumption|rewrite Et; unfold kept; lia|rewrite Et; lia].
  - apply (prod_right_full d zero add mul conj n x inc m (is_conj t) lda (fun i => a + i * (lda + 1)) _ Hinc Hin).
    intros i j Hi Hj. eapply entry_row; [lia|lia|eassumption|rewrite Et; unfold kept; lia|rewrite Et; lia].
  - apply (prod_right_unit d zero add mul conj n x inc m (is_conj t) 1 (fun i => a + i * (lda + 1) + 1) _ Hinc Hin).
    intros i j Hi Hj. eapply entry_row; [lia|lia|eassumption|rewrite Et; unfold kept; lia|rewrite Et; lia].
  - apply (prod_right_full d zero add mul conj n x inc m (is_conj t) 1 (fun i => a + i * (lda + 1)) _ Hinc Hin).
    intros i j Hi Hj. eapply entry_row; [lia|lia|eassumption|rewrite Et; unfold kept; lia|rewrite Et; lia].
  - apply (prod_left_unit d zero add mul conj n x inc m (is_conj t) 1 (fun i => a + i * lda) _ Hinc Hin).
    intros i j Hi Hj. eapply entry_row; [lia|lia|eassumption|rewrite Et; unfold kept; lia|rewrite Et; lia].
  - apply (prod_left_full d zero add mul conj n x inc m (is_conj t) 1 (fun i => a + i * lda) _ Hinc Hin).
    intros i j Hi Hj. eapply entry_row; [lia|lia|eassumption|rewrite Et; unfold kept; lia|rewrite Et; lia].
Qed.
Lemma product_ext dg low n i R R' v : 0 <= i < n -> (forall j, 0 <= j < n -> R i j = R' i j) ->
  product zero add mul dg low n i R v = product zero add mul dg low n i R' v.
Proof.
  intros Hi H. unfold product. destruct dg.
  - replace (others zero add mul low n i R' v) with (others zero add mul low n i R v); [reflexivity|].
    unfold others. destruct low; apply zsum_ext; intros k Hk; rewrite H by lia; reflexivity.
  - destruct low; apply zsum_ext; intros k Hk; rewrite H by lia; reflexivity.
Qed.
Lemma trmv_recur o up t dg n a lda x inc (m : list A) :
  inc <> 0 -> inside m x inc n -> kept_apart m o up dg n a lda (in_vector x inc n) ->
  exists m', trmv zero add mul conj o up t dg n a lda x inc m = Ok m' /\
    product_done d zero add mul n x inc m (T o up dg a lda m t) dg (op_lower up t) m'.
Proof.
  intros Hinc Hin HA. destruct o; cbn [trmv]; [now apply trmv_row_recur|].
  destruct (trmv_row_recur (other up) (flip t) dg n a lda x inc m Hinc Hin (apart_col _ _ _ _ _ _ _ HA)) as (m' & E & C & V).
  exists m'. split; [exact E|]. split; [exact C|]. intros i Hi. rewrite (V i Hi), op_lower_flip.
  apply product_ext; [exact Hi|]. intros j Hj. now rewrite op_col.
Qed.
End MulRoutine.
