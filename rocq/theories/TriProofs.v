From Coq Require Import ZArith Ring_theory Field_theory Ring Field.
From Verif Require Import Base BaseProofs MatmulModel MatmulSpec BlasModel BlasSpec BlasProofs TriModel TriSpec.
From Coq Require Import ZifyNat ZifyN ZifyBool.
Ltac Zify.zify_post_hook ::= idtac.
Local Open Scope Z_scope.

(** ** Loops *)
Lemma rounds_shift {St} k c c' iX incX iY incY (body : Z -> Z -> St -> outcome St) s :
  rounds k (c + iX) incX (c' + iY) incY body s = rounds k iX incX iY incY (fun x y => body (c + x) (c' + y)) s.
Proof.
  revert iX iY s. induction k as [|k IH]; intros iX iY s; cbn [rounds]; [reflexivity|].
  destruct (body (c + iX) (c' + iY) s) as [s'| |]; cbn [bind]; [|reflexivity|reflexivity].
  rewrite <- IH. f_equal; lia.
Qed.

Section Lines.
Context {A : Type} (d : A).

(** A loop that computes element i of the vector from the current vector, upwards. *)
Lemma ascend_ok (G : Z -> (Z -> A) -> A) body k n x inc (m : list A) :
  inc <> 0 -> k <= n -> inside m x inc n ->
  (forall i f g, 0 <= i < k -> (forall j, 0 <= j < n -> f j = g j) -> G i f = G i g) ->
  (forall i s, 0 <= i < k -> changes d m s (in_vector x inc n) ->
     body (i * inc) i s = store s (elt x inc n i) (G i (fun j => val d s (elt x inc n j)))) ->
  exists m', ascend k inc body m = Ok m' /\ changes d m m' (in_vector x inc n) /\
    (forall i, 0 <= i < k -> val d m' (elt x inc n i) =
       G i (fun j => if j <? i then val d m' (elt x inc n j) else val d m (elt x inc n j))) /\
    (forall i, k <= i < n -> 0 <= i -> val d m' (elt x inc n i) = val d m (elt x inc n i)).
Proof.
  intros Hinc Hk Hin Hext Hb. unfold ascend.
  destruct (Z_le_gt_dec k 0) as [Hk0|Hk0].
  { rewrite walk_nonpos by exact Hk0. exists m. split; [reflexivity|]. split; [split; auto|]. split; [intros; lia|auto]. }
  destruct (walk_inv (fun j s => changes d m s (in_vector x inc n) /\
      (forall i, 0 <= i < j -> val d s (elt x inc n i) =
         G i (fun l => if l <? i then val d s (elt x inc n l) else val d m (elt x inc n l))) /\
      (forall i, j <= i < n -> val d s (elt x inc n i) = val d m (elt x inc n i))) k inc 1 body m) as (m' & E & H1 & H2 & H3).
  - lia.
  - split; [split; auto|]. split; [intros; lia|auto].
  - intros j s Hj (H1 & H2 & H3). replace (j * 1) with j by lia. rewrite (Hb j s Hj H1).
    assert (L : length s = length m) by apply H1.
    assert (P : 0 <= elt x inc n j < Z.of_nat (length s)) by (rewrite L; apply Hin; lia).
    destruct (store_ok d s (elt x inc n j) (G j (fun l => val d s (elt x inc n l))) P) as (s' & Es & L' & V).
    exists s'. split; [exact Es|].
    assert (V' : forall i, 0 <= i < n -> val d s' (elt x inc n i) =
              if i =? j then G j (fun l => val d s (elt x inc n l)) else val d s (elt x inc n i)).
    { intros i Hi. rewrite V by (rewrite L; apply Hin; lia).
      destruct (elt x inc n i =? elt x inc n j) eqn:E1.
      - apply Z.eqb_eq in E1. apply elt_inj in E1; [|exact Hinc]. now replace (i =? j) with true by lia.
      - replace (i =? j) with false; [reflexivity|]. destruct (i =? j) eqn:E2; [|reflexivity].
        apply Z.eqb_eq in E2. subst i. rewrite Z.eqb_refl in E1. discriminate. }
    split; [|split].
    + split; [congruence|]. intros p Hp Hnot. rewrite V by (rewrite L; exact Hp).
      replace (p =? elt x inc n j) with false; [now apply H1|].
      symmetry. apply Z.eqb_neq. intros ->. apply Hnot. exists j. split; [lia|reflexivity].
    + intros i Hi. rewrite V' by lia. destruct (i =? j) eqn:E1.
      * apply Z.eqb_eq in E1. subst i. apply Hext; [lia|]. intros l Hl. rewrite V' by lia.
        destruct (l <? j) eqn:E2.
        -- now replace (l =? j) with false by lia.
        -- rewrite <- (H3 l) by lia. reflexivity.
      * rewrite (H2 i) by lia. apply Hext; [lia|]. intros l Hl.
        destruct (l <? i) eqn:E2; [|reflexivity]. rewrite V' by lia. now replace (l =? j) with false by lia.
    + intros i Hi. rewrite V' by lia. replace (i =? j) with false by lia. apply H3. lia.
  - exists m'. split; [exact E|]. split; [exact H1|]. split; [exact H2|]. intros i Hi _. now apply H3.
Qed.

(** The same downwards, for the elements n - 1, ..., n - k. *)
Lemma descend_ok (G : Z -> (Z -> A) -> A) body k n x inc (m : list A) :
  inc <> 0 -> k <= n -> inside m x inc n ->
  (forall i f g, n - k <= i < n -> (forall j, 0 <= j < n -> f j = g j) -> G i f = G i g) ->
  (forall i s, n - k <= i < n -> changes d m s (in_vector x inc n) ->
     body (i * inc) i s = store s (elt x inc n i) (G i (fun j => val d s (elt x inc n j)))) ->
  exists m', descend k n inc body m = Ok m' /\ changes d m m' (in_vector x inc n) /\
    (forall i, n - k <= i < n -> val d m' (elt x inc n i) =
       G i (fun j => if i <? j then val d m' (elt x inc n j) else val d m (elt x inc n j))) /\
    (forall i, 0 <= i < n - k -> i < n -> val d m' (elt x inc n i) = val d m (elt x inc n i)).
Proof.
  intros Hinc Hk Hin Hext Hb. unfold descend.
  destruct (Z_le_gt_dec k 0) as [Hk0|Hk0].
  { replace (Z.to_nat k) with O by lia. cbn [rounds]. exists m. split; [reflexivity|]. split; [split; auto|]. split; [intros; lia|auto]. }
  pose proof (rounds_shift (Z.to_nat k) ((n - 1) * inc) (n - 1) 0 (- inc) 0 (- 1) body m) as Sh.
  rewrite !Z.add_0_r in Sh. rewrite Sh. clear Sh. change (rounds (Z.to_nat k) 0 (- inc) 0 (-1)) with (@walk (list A) k (- inc) (- 1)).
  destruct (walk_inv (fun j s => changes d m s (in_vector x inc n) /\
      (forall i, n - j <= i < n -> val d s (elt x inc n i) =
         G i (fun l => if i <? l then val d s (elt x inc n l) else val d m (elt x inc n l))) /\
      (forall i, 0 <= i < n - j -> val d s (elt x inc n i) = val d m (elt x inc n i))) k (- inc) (- 1)
      (fun x0 y => body ((n - 1) * inc + x0) (n - 1 + y)) m) as (m' & E & H1 & H2 & H3).
  - lia.
  - split; [split; auto|]. split; [intros; lia|]. intros. reflexivity.
  - intros q s Hq (H1 & H2 & H3). set (j := n - 1 - q).
    replace ((n - 1) * inc + q * - inc) with (j * inc) by (unfold j; ring). replace (n - 1 + q * - 1) with j by (unfold j; ring).
    rewrite (Hb j s ltac:(unfold j; lia) H1).
    assert (L : length s = length m) by apply H1.
    assert (P : 0 <= elt x inc n j < Z.of_nat (length s)) by (rewrite L; apply Hin; unfold j; lia).
    destruct (store_ok d s (elt x inc n j) (G j (fun l => val d s (elt x inc n l))) P) as (s' & Es & L' & V).
    exists s'. split; [exact Es|].
    assert (V' : forall i, 0 <= i < n -> val d s' (elt x inc n i) =
              if i =? j then G j (fun l => val d s (elt x inc n l)) else val d s (elt x inc n i)).
    { intros i Hi. rewrite V by (rewrite L; apply Hin; lia).
      destruct (elt x inc n i =? elt x inc n j) eqn:E1.
      - apply Z.eqb_eq in E1. apply elt_inj in E1; [|exact Hinc]. now replace (i =? j) with true by lia.
      - replace (i =? j) with false; [reflexivity|]. destruct (i =? j) eqn:E2; [|reflexivity].
        apply Z.eqb_eq in E2. subst i. rewrite Z.eqb_refl in E1. discriminate. }
    split; [|split].
    + split; [congruence|]. intros p Hp Hnot. rewrite V by (rewrite L; exact Hp).
      replace (p =? elt x inc n j) with false; [now apply H1|].
      symmetry. apply Z.eqb_neq. intros ->. apply Hnot. exists j. split; [unfold j; lia|reflexivity].
    + intros i Hi. rewrite V' by lia. destruct (i =? j) eqn:E1.
      * apply Z.eqb_eq in E1. subst i. apply Hext; [unfold j; lia|]. intros l Hl. rewrite V' by lia.
        destruct (j <? l) eqn:E2.
        -- now replace (l =? j) with false by lia.
        -- rewrite <- (H3 l) by lia. reflexivity.
      * rewrite (H2 i) by lia. apply Hext; [lia|]. intros l Hl.
        destruct (i <? l) eqn:E2; [|reflexivity]. rewrite V' by lia. now replace (l =? j) with false by lia.
    + intros i Hi. rewrite V' by lia. replace (i =? j) with false by lia. apply H3. lia.
  - exists m'. split; [exact E|]. split; [exact H1|]. split; [exact H2|]. intros i Hi _. now apply H3.
Qed.
End Lines.

(** ** Memory *)
Section Cells.
Context {A : Type} (d : A).
Lemma store_store (m m1 : list A) p u v : store m p u = Ok m1 -> store m1 p v = store m p v.
Proof.
  unfold store. destruct (p <? 0); [discriminate|]. unfold wr.
  destruct (Z.to_nat p <? length m)%nat eqn:E; [|discriminate]. intros H. injection H as <-.
  rewrite upd_length, E. f_equal. apply (list_eq_nth d).
  - now rewrite !upd_length.
  - intros i Hi. rewrite !nth_upd, !upd_length.
    destruct (Z.to_nat p =? i)%nat; cbn [andb]; [|reflexivity]. now rewrite E.
Qed.
Lemma load_store (m m1 : list A) p u : store m p u = Ok m1 -> load m1 p = Ok u.
Proof.
  intros H. destruct (Z_lt_ge_dec p 0) as [Hp|Hp]; [unfold store in H; replace (p <? 0) with true in H by lia; discriminate|].
  assert (P : 0 <= p < Z.of_nat (length m)).
  { unfold store in H. replace (p <? 0) with false in H by lia. unfold wr in H.
    destruct (Z.to_nat p <? length m)%nat eqn:E; [lia|discriminate]. }
  destruct (store_ok d m p u P) as (m2 & E & L & V). rewrite E in H. injection H as ->.
  rewrite (load_ok d) by (rewrite L; exact P). rewrite V by exact P. now rewrite Z.eqb_refl.
Qed.
Lemma load_other (m m1 : list A) p q u : store m p u = Ok m1 -> 0 <= p < Z.of_nat (length m) -> 0 <= q < Z.of_nat (length m) -> p <> q ->
  load m1 q = load m q.
Proof.
  intros H P Q Hne. destruct (store_ok d m p u P) as (m2 & E & L & V). rewrite E in H. injection H as ->.
  rewrite (load_ok d) by (rewrite L; exact Q). rewrite (load_ok d) by exact Q. rewrite V by exact Q.
  now replace (q =? p) with false by lia.
Qed.
Lemma changes_val (m m' : list A) cells p : changes d m m' cells -> 0 <= p < Z.of_nat (length m) -> ~ cells p -> val d m' p = val d m p.
Proof. intros [_ H]. apply H. Qed.
Lemma changes_refl (m : list A) cells : changes d m m cells.
Proof. split; auto. Qed.
Lemma changes_trans (m m1 m2 : list A) (P Q : Z -> Prop) :
  changes d m m1 P -> changes d m1 m2 Q -> changes d m m2 (fun p => P p \/ Q p).
Proof.
  intros [L1 H1] [L2 H2]. split; [congruence|]. intros p Hp Hn. rewrite H2; [|rewrite L1; exact Hp|tauto]. apply H1; tauto.
Qed.
Lemma changes_weaken (m m1 : list A) (P Q : Z -> Prop) : (forall p, P p -> Q p) -> changes d m m1 P -> changes d m m1 Q.
Proof. intros HPQ [L H]. split; [exact L|]. intros p Hp Hn. apply H; auto. Qed.
Lemma memory_eq (m m' : list A) : length m' = length m -> (forall p, 0 <= p < Z.of_nat (length m) -> val d m' p = val d m p) -> m' = m.
Proof.
  intros L H. apply (list_eq_nth d); [exact L|]. intros i Hi. specialize (H (Z.of_nat i)). unfold val in H.
  rewrite Nat2Z.id in H. apply H. lia.
Qed.
End Cells.

(** ** Sums *)
Section Sums.
Context {A : Type} (zero one : A) (add mul : A -> A -> A).
Hypothesis SR : semi_ring_theory zero one add mul eq.
Local Notation zs := (zsum zero add).
Lemma zsum_nonpos n t : n <= 0 -> zs n t = zero.
Proof. intros H. unfold zsum. now replace (Z.to_nat n) with O by lia. Qed.
Lemma zsum_S n t : 0 <= n -> zs (n + 1) t = add (zs n t) (t n).
Proof.
  intros H. unfold zsum. replace (Z.to_nat (n + 1)) with (S (Z.to_nat n)) by lia. cbn [sum]. do 2 f_equal. lia.
Qed.
Lemma zsum_ext n f g : (forall i, 0 <= i < n -> f i = g i) -> zs n f = zs n g.
Proof.
  intros H. unfold zsum. assert (G : forall i, (i < Z.to_nat n)%nat -> f (Z.of_nat i) = g (Z.of_nat i)) by (intros; apply H; lia).
  clear H. induction (Z.to_nat n) as [|k IH]; cbn [sum]; [reflexivity|]. rewrite IH; [|intros; apply G; lia]. rewrite G by lia. reflexivity.
Qed.
Lemma zsum_ind (P : Z -> Prop) n : P 0 -> (forall k, 0 <= k < n -> P k -> P (k + 1)) -> 0 <= n -> P n.
Proof.
  intros H0 HS Hn. assert (G : forall k, (k <= Z.to_nat n)%nat -> P (Z.of_nat k)).
  { induction k as [|k IH]; intros Hk; [exact H0|]. replace (Z.of_nat (S k)) with (Z.of_nat k + 1) by lia. apply HS; [lia|]. apply IH. lia. }
  specialize (G (Z.to_nat n) ltac:(lia)). now rewrite Z2Nat.id in G by lia.
Qed.
Lemma zsum_trunc k n t : k <= n -> (forall i, 0 <= i < n -> k <= i -> t i = zero) -> zs n t = zs k t.
Proof using SR.
  intros Hk Ht. destruct (Z_le_gt_dec n 0) as [Hn|Hn]; [now rewrite !zsum_nonpos by lia|].
  destruct (Z_le_gt_dec k 0) as [Hk0|Hk0].
  - rewrite (zsum_nonpos k) by lia.
    apply (zsum_ind (fun q => zs q t = zero) n); [now apply zsum_nonpos| |lia].
    intros q Hq Eq. rewrite zsum_S, Eq, Ht by lia. apply (SRadd_0_l SR).
  - replace n with (k + (n - k)) by lia.
    apply (zsum_ind (fun q => zs (k + q) t = zs k t) (n - k)); [now rewrite Z.add_0_r| |lia].
    intros q Hq Eq. rewrite Z.add_assoc, zsum_S, Eq, Ht by lia. rewrite (SRadd_comm SR). apply (SRadd_0_l SR).
Qed.
Lemma zsum_first n t : 0 < n -> zs n t = add (t 0) (zs (n - 1) (fun i => t (1 + i))).
Proof using SR.
  intros Hn. replace n with (n - 1 + 1) at 1 by lia.
  apply (zsum_ind (fun q => zs (q + 1) t = add (t 0) (zs q (fun i => t (1 + i)))) (n - 1)); [| |lia].
  - rewrite zsum_S, !zsum_nonpos by lia. apply (SRadd_comm SR).
  - intros k Hk E. rewrite zsum_S, E by lia. rewrite (zsum_S k) by lia. rewrite <- (SRadd_assoc SR). do 2 f_equal. f_equal. lia.
Qed.
Lemma zsum_skip k n t : 0 <= k <= n -> (forall i, 0 <= i < k -> t i = zero) -> zs n t = zs (n - k) (fun i => t (k + i)).
Proof using SR.
  intros Hk. assert (K : 0 <= k) by lia. revert n Hk. apply (zsum_ind (fun q => forall n, 0 <= q <= n -> (forall i, 0 <= i < q -> t i = zero) ->
      zs n t = zs (n - q) (fun i => t (q + i))) k); [| |lia].
  - intros n Hn _. rewrite Z.sub_0_r. apply zsum_ext. intros. f_equal.
  - intros q Hq IH n Hn Ht. rewrite IH; [|lia|intros; apply Ht; lia]. rewrite zsum_first by lia.
    rewrite Z.add_0_r, Ht by lia. rewrite (SRadd_0_l SR). replace (n - q - 1) with (n - (q + 1)) by lia.
    apply zsum_ext. intros. f_equal. lia.
Qed.
(** one term in the middle *)
Lemma zsum_split k n t : 0 <= k < n -> zs n t = add (zs k t) (add (t k) (zs (n - k - 1) (fun i => t (k + 1 + i)))).
Proof using SR.
  intros Hk. replace n with (k + 1 + (n - k - 1)) at 1 by lia.
  apply (zsum_ind (fun q => zs (k + 1 + q) t = add (zs k t) (add (t k) (zs q (fun i => t (k + 1 + i))))) (n - k - 1)); [| |lia].
  - rewrite Z.add_0_r, zsum_S, (zsum_nonpos 0) by lia. f_equal. rewrite (SRadd_comm SR). symmetry. apply (SRadd_0_l SR).
  - intros q Hq E. rewrite Z.add_assoc, zsum_S, E by lia. rewrite (zsum_S q) by lia. now rewrite <- !(SRadd_assoc SR).
Qed.
End Sums.

(** ** One line of a product or a system *)
Section Line.
Context {A : Type} (d zero one : A) (add mul : A -> A -> A) (conj : A -> A).
Hypothesis SR : semi_ring_theory zero one add mul eq.
Local Notation zs := (zsum zero add).
Definition cj (c : bool) (v : A) : A := if c then conj v else v.
Lemma dot_gen_ok c n x incX y incY (m : list A) :
  (forall k, 0 <= k < n -> 0 <= x + k * incX < Z.of_nat (length m) /\ 0 <= y + k * incY < Z.of_nat (length m)) ->
  dot_gen zero add mul conj c n x incX y incY m =
    Ok (zs n (fun k => mul (cj c (val d m (x + k * incX))) (val d m (y + k * incY)))).
Proof.
  intros H. unfold dot_gen, zsum.
  apply (reduce_ok zero add (fun k => mul (cj c (val d m (x + k * incX))) (val d m (y + k * incY)))).
  intros j r Hj. destruct (H j Hj) as [Hx Hy]. rewrite !(load_ok d) by assumption. reflexivity.
Qed.

Variables (n x inc : Z) (m : list A) (c : bool) (s : Z) (p : Z -> Z) (R : Z -> Z -> A).
Hypothesis Hinc : inc <> 0.
Hypothesis Hin : inside m x inc n.
Local Notation e := (elt x inc n).
Local Notation x0 := (start x inc n).
(** The entry R(i, j) is read at the address w *)
Definition entry_at (i j w : Z) : Prop :=
  R i j = cj c (val d m w) /\ 0 <= w < Z.of_nat (length m) /\ ~ in_vector x inc n w.
Lemma entry_now i j w t : entry_at i j w -> changes d m t (in_vector x inc n) ->
  0 <= w < Z.of_nat (length t) /\ cj c (val d t w) = R i j.
Proof using Type.
  intros (E & W & N) [L H]. rewrite L. split; [exact W|]. rewrite E. f_equal. now apply H.
Qed.
Lemma e_at i : x0 + i * inc = e i.
Proof using Type. apply start_elt. Qed.
Lemma e_now i t : 0 <= i < n -> changes d m t (in_vector x inc n) -> 0 <= e i < Z.of_nat (length t).
Proof using All. intros Hi [L _]. rewrite L. now apply Hin. Qed.

(** The two dot products: from the diagonal on (or just after it), and up to it. *)
Lemma dot_right i b t : 0 <= i -> 0 <= b -> changes d m t (in_vector x inc n) ->
  (forall j, i + b <= j < n -> entry_at i j (p i + (j - i - b) * s)) ->
  forall y, y = e (i + b) ->
  dot_gen zero add mul conj c (n - i - b) (p i) s y inc t =
    Ok (zs (n - i - b) (fun k => mul (R i (i + b + k)) (val d t (e (i + b + k))))).
Proof using All.
  intros Hi Hb Ht HR y ->. rewrite dot_gen_ok.
  - f_equal. apply zsum_ext. intros k Hk.
    destruct (entry_now i (i + b + k) (p i + (i + b + k - i - b) * s) t) as [_ E]; [apply HR; lia|exact Ht|].
    replace (i + b + k - i - b) with k in E by lia. rewrite E. do 2 f_equal. rewrite <- !e_at. ring.
  - intros k Hk. split.
    + destruct (entry_now i (i + b + k) (p i + (i + b + k - i - b) * s) t) as [E _]; [apply HR; lia|exact Ht|].
      now replace (i + b + k - i - b) with k in E by lia.
    + replace (e (i + b) + k * inc) with (e (i + b + k)) by (rewrite <- !e_at; ring). apply e_now; [lia|exact Ht].
Qed.
Lemma dot_left i k t : k <= n -> changes d m t (in_vector x inc n) ->
  (forall j, 0 <= j < k -> entry_at i j (p i + j * s)) ->
  dot_gen zero add mul conj c k (p i) s x0 inc t = Ok (zs k (fun j => mul (R i j) (val d t (e j)))).
Proof using All.
  intros Hi Ht HR. rewrite dot_gen_ok.
  - f_equal. apply zsum_ext. intros j Hj. destruct (entry_now i j (p i + j * s) t) as [_ E]; [apply HR; lia|exact Ht|].
    rewrite E. do 2 f_equal. apply e_at.
  - intros j Hj. split; [now apply (entry_now i j _ t); [apply HR; lia|exact Ht]|].
    rewrite e_at. apply e_now; [lia|exact Ht].
Qed.
Lemma plus_at_ok t w r : 0 <= w < Z.of_nat (length t) -> plus_at add t w r = store t w (add (val d t w) r).
Proof using Type. intros H. unfold plus_at. now rewrite (load_ok d) by exact H. Qed.

(** The conclusion: the new vector is R times the old one. *)
Definition multiplied (m' : list A) : Prop :=
  changes d m m' (in_vector x inc n) /\
  forall i, 0 <= i < n -> val d m' (e i) = zs n (fun j => mul (R i j) (val d m (e j))).

Lemma mul_right_full :
  (forall i j, 0 <= i <= j -> j < n -> entry_at i j (p i + (j - i) * s)) ->
  (forall i j, 0 <= j < i -> i < n -> R i j = zero) ->
  exists m', ascend n inc (fun iX i m => do r <- dot_gen zero add mul conj c (n - i) (p i) s (x0 + iX) inc m; store m (x0 + iX) r) m = Ok m' /\
    multiplied m'.
Proof using All.
  intros HR Hz.
  destruct (ascend_ok d (fun i f => zs (n - i) (fun k => mul (R i (i + k)) (f (i + k))))
     (fun iX i m => do r <- dot_gen zero add mul conj c (n - i) (p i) s (x0 + iX) inc m; store m (x0 + iX) r) n n x inc m)
    as (m' & E & C & V & _); [exact Hinc|lia|exact Hin| | |].
  - intros i f g Hi H. apply zsum_ext. intros k Hk. f_equal. apply H. lia.
  - intros i t Hi Ht. replace (n - i) with (n - i - 0) by lia. rewrite (dot_right i 0 t); try lia; [|exact Ht| |].
    + cbn [bind]. rewrite e_at. f_equal. apply zsum_ext. intros k Hk. now rewrite Z.add_0_r.
    + intros j Hj. replace (j - i - 0) with (j - i) by lia. apply HR; lia.
    + rewrite Z.add_0_r. apply e_at.
  - exists m'. split; [exact E|]. split; [exact C|]. intros i Hi. rewrite V by exact Hi.
    rewrite (zsum_skip zero one add mul SR i n) by first [lia|intros j Hj; rewrite Hz by lia; apply (SRmul_0_l SR)].
    apply zsum_ext. intros k Hk. now replace (i + k <? i) with false by lia.
Qed.
Lemma mul_right_unit :
  (forall i j, 0 <= i < j -> j < n -> entry_at i j (p i + (j - i - 1) * s)) ->
  (forall i, 0 <= i < n -> R i i = one) ->
  (forall i j, 0 <= j < i -> i < n -> R i j = zero) ->
  exists m', ascend (n - 1) inc (fun iX i m => do r <- dot_gen zero add mul conj c (n - i - 1) (p i) s (x0 + iX + inc) inc m; plus_at add m (x0 + iX) r) m = Ok m' /\
    multiplied m'.
Proof using All.
  intros HR H1 Hz.
  destruct (ascend_ok d (fun i f => add (f i) (zs (n - i - 1) (fun k => mul (R i (i + 1 + k)) (f (i + 1 + k)))))
     (fun iX i m => do r <- dot_gen zero add mul conj c (n - i - 1) (p i) s (x0 + iX + inc) inc m; plus_at add m (x0 + iX) r) (n - 1) n x inc m)
    as (m' & E & C & V & W); [exact Hinc|lia|exact Hin| | |].
  - intros i f g Hi H. f_equal; [apply H; lia|]. apply zsum_ext. intros k Hk. f_equal. apply H. lia.
  - intros i t Hi Ht. rewrite (dot_right i 1 t); try lia; [|exact Ht| |].
    + cbn [bind]. rewrite e_at. rewrite plus_at_ok by (apply e_now; [lia|exact Ht]). reflexivity.
    + intros j Hj. apply HR; lia.
    + rewrite <- !e_at. ring.
  - exists m'. split; [exact E|]. split; [exact C|]. intros i Hi.
    assert (F : zs n (fun j => mul (R i j) (val d m (e j))) =
                add (val d m (e i)) (zs (n - i - 1) (fun k => mul (R i (i + 1 + k)) (val d m (e (i + 1 + k)))))).
    { rewrite (zsum_skip zero one add mul SR i n) by first [lia|intros j Hj; rewrite Hz by lia; apply (SRmul_0_l SR)].
      rewrite (zsum_first zero one add mul SR) by lia. rewrite Z.add_0_r, H1, (SRmul_1_l SR) by lia. f_equal.
      apply zsum_ext. intros k Hk. f_equal; [f_equal; lia|]. do 2 f_equal. lia. }
    rewrite F. destruct (Z_lt_ge_dec i (n - 1)) as [Hi1|Hi1].
    + rewrite V by lia. replace (i <? i) with false by lia. f_equal. apply zsum_ext. intros k Hk.
      now replace (i + 1 + k <? i) with false by lia.
    + rewrite W by lia. rewrite (zsum_nonpos _ _ (n - i - 1)) by lia. rewrite (SRadd_comm SR). symmetry. apply (SRadd_0_l SR).
Qed.
Lemma mul_left_full :
  (forall i j, 0 <= j <= i -> i < n -> entry_at i j (p i + j * s)) ->
  (forall i j, 0 <= i < j -> j < n -> R i j = zero) ->
  exists m', descend n n inc (fun iX i m => do r <- dot_gen zero add mul conj c (i + 1) (p i) s x0 inc m; store m (x0 + iX) r) m = Ok m' /\
    multiplied m'.
Proof using All.
  intros HR Hz.
  destruct (descend_ok d (fun i f => zs (i + 1) (fun j => mul (R i j) (f j)))
     (fun iX i m => do r <- dot_gen zero add mul conj c (i + 1) (p i) s x0 inc m; store m (x0 + iX) r) n n x inc m)
    as (m' & E & C & V & _); [exact Hinc|lia|exact Hin| | |].
  - intros i f g Hi H. apply zsum_ext. intros k Hk. f_equal. apply H. lia.
  - intros i t Hi Ht. rewrite (dot_left i (i + 1) t); [|lia|exact Ht|intros j Hj; apply HR; lia]. cbn [bind]. now rewrite e_at.
  - exists m'. split; [exact E|]. split; [exact C|]. intros i Hi. rewrite V by lia.
    rewrite (zsum_trunc zero one add mul SR (i + 1) n) by first [lia|intros j Hj1 Hj2; rewrite Hz by lia; apply (SRmul_0_l SR)].
    apply zsum_ext. intros k Hk. now replace (i <? k) with false by lia.
Qed.
Lemma mul_left_unit :
  (forall i j, 0 <= j < i -> i < n -> entry_at i j (p i + j * s)) ->
  (forall i, 0 <= i < n -> R i i = one) ->
  (forall i j, 0 <= i < j -> j < n -> R i j = zero) ->
  exists m', descend (n - 1) n inc (fun iX i m => do r <- dot_gen zero add mul conj c i (p i) s x0 inc m; plus_at add m (x0 + iX) r) m = Ok m' /\
    multiplied m'.
Proof using All.
  intros HR H1 Hz. destruct (Z_le_gt_dec n 0) as [Hn|Hn].
  { unfold descend. replace (Z.to_nat (n - 1)) with O by lia. exists m. split; [reflexivity|]. split; [apply changes_refl|]. intros; lia. }
  destruct (descend_ok d (fun i f => add (f i) (zs i (fun j => mul (R i j) (f j))))
     (fun iX i m => do r <- dot_gen zero add mul conj c i (p i) s x0 inc m; plus_at add m (x0 + iX) r) (n - 1) n x inc m)
    as (m' & E & C & V & W); [exact Hinc|lia|exact Hin| | |].
  - intros i f g Hi H. f_equal; [apply H; lia|]. apply zsum_ext. intros k Hk. f_equal. apply H. lia.
  - intros i t Hi Ht. rewrite (dot_left i i t); [|lia|exact Ht|intros j Hj; apply HR; lia]. cbn [bind]. rewrite e_at.
    rewrite plus_at_ok by (apply e_now; [lia|exact Ht]). reflexivity.
  - exists m'. split; [exact E|]. split; [exact C|]. intros i Hi.
    assert (F : zs n (fun j => mul (R i j) (val d m (e j))) = add (val d m (e i)) (zs i (fun j => mul (R i j) (val d m (e j))))).
    { rewrite (zsum_trunc zero one add mul SR (i + 1) n) by first [lia|intros j Hj1 Hj2; rewrite Hz by lia; apply (SRmul_0_l SR)].
      rewrite zsum_S, H1, (SRmul_1_l SR) by lia. apply (SRadd_comm SR). }
    rewrite F. destruct (Z_lt_ge_dec 0 i) as [Hi1|Hi1].
    + rewrite V by lia. replace (i <? i) with false by lia. f_equal. apply zsum_ext. intros k Hk.
      now replace (i <? k) with false by lia.
    + rewrite W by lia. rewrite (zsum_nonpos _ _ i) by lia. rewrite (SRadd_comm SR). symmetry. apply (SRadd_0_l SR).
Qed.
End Line.

Lemma ring_semi {A} (zero one : A) add mul sub opp : ring_theory zero one add mul sub opp eq -> semi_ring_theory zero one add mul eq.
Proof.
  intros Rt. pose proof (Rth_ARth (Eqsth A) (Eq_ext add mul opp) Rt) as AR. constructor; apply AR.
Qed.

Section Solve.
Context {A : Type} (d zero one : A) (add sub mul div : A -> A -> A) (opp inv conj : A -> A).
Hypothesis FT : field_theory zero one add mul sub opp div inv eq.
Local Notation zs := (zsum zero add).
Add Field TriField : FT.
Lemma field_semi : semi_ring_theory zero one add mul eq.
Proof using FT. exact (ring_semi _ _ _ _ _ _ (F_R FT)). Qed.

Lemma settle_ok dg c (t : list A) w q r : 0 <= w < Z.of_nat (length t) ->
  (dg = NonUnit -> 0 <= q < Z.of_nat (length t) /\ w <> q) ->
  settle sub div conj dg c w q r t =
    store t w (match dg with Unit => sub (val d t w) r | NonUnit => div (sub (val d t w) r) (cj conj c (val d t q)) end).
Proof using Type.
  intros W Q. unfold settle, minus_at. rewrite (load_ok d) by exact W. cbn [bind].
  destruct (store_ok d t w (sub (val d t w) r) W) as (m1 & E & L & V). rewrite E. cbn [bind].
  destruct dg; [now symmetry|]. destruct (Q eq_refl) as [Q1 Q2]. unfold over_at.
  rewrite (load_store d _ _ _ _ E). cbn [bind]. rewrite (load_other d _ _ _ _ _ E W Q1 Q2).
  rewrite (load_ok d) by exact Q1. cbn [bind]. exact (store_store d _ _ _ _ _ E).
Qed.

Variables (n x inc : Z) (m : list A) (c : bool) (s : Z) (p q : Z -> Z) (R : Z -> Z -> A) (dg : diag).
Hypothesis Hinc : inc <> 0.
Hypothesis Hin : inside m x inc n.
Local Notation e := (elt x inc n).
Local Notation x0 := (start x inc n).
(** The diagonal: read at q(i), or one. *)
Hypothesis Hdiag : forall i, 0 <= i < n -> match dg with Unit => R i i = one | NonUnit => entry_at d conj n x inc m c R i i (q i) /\ R i i <> zero end.
(** The conclusion: R times the new vector is the old one. *)
Definition solved (m' : list A) : Prop :=
  changes d m m' (in_vector x inc n) /\
  forall i, 0 <= i < n -> zs n (fun j => mul (R i j) (val d m' (e j))) = val d m (e i).

Lemma settle_now i t r : 0 <= i < n -> changes d m t (in_vector x inc n) ->
  settle sub div conj dg c (e i) (q i) r t = store t (e i) (div (sub (val d t (e i)) r) (R i i)).
Proof using All.
  intros Hi Ht. pose proof (Hdiag i Hi) as D.
  assert (W : 0 <= e i < Z.of_nat (length t)) by (destruct Ht as [L _]; rewrite L; now apply Hin).
  rewrite settle_ok; [|exact W|].
  - f_equal. destruct dg.
    + rewrite D. field. exact (F_1_neq_0 FT).
    + destruct D as [D _]. destruct (entry_now d conj n x inc m c R i i (q i) t D Ht) as [_ E]. now rewrite E.
  - intros ->. destruct D as [D _]. split; [now apply (entry_now d conj n x inc m c R i i (q i) t D Ht)|].
    intros E. apply D. exists i. split; [exact Hi|now symmetry].
Qed.
Lemma diag_nonzero i : 0 <= i < n -> R i i <> zero.
Proof using All.
  intros Hi. pose proof (Hdiag i Hi) as D. destruct dg; [rewrite D; exact (F_1_neq_0 FT)|apply D].
Qed.

Lemma solve_right :
  (forall i j, 0 <= i < j -> j < n -> entry_at d conj n x inc m c R i j (p i + (j - i - 1) * s)) ->
  (forall i j, 0 <= j < i -> i < n -> R i j = zero) ->
  exists m', descend n n inc (fun iX i m =>
      do r <- dot_gen zero add mul conj c (n - i - 1) (p i) s (x0 + iX + inc) inc m;
      settle sub div conj dg c (x0 + iX) (q i) r m) m = Ok m' /\ solved m'.
Proof using All.
  intros HR Hz. pose proof field_semi as SR.
  destruct (descend_ok d (fun i f => div (sub (f i) (zs (n - i - 1) (fun k => mul (R i (i + 1 + k)) (f (i + 1 + k))))) (R i i))
     (fun iX i m => do r <- dot_gen zero add mul conj c (n - i - 1) (p i) s (x0 + iX + inc) inc m;
        settle sub div conj dg c (x0 + iX) (q i) r m) n n x inc m)
    as (m' & E & C & V & _); [exact Hinc|lia|exact Hin| | |].
  - intros i f g Hi H. do 2 f_equal; [apply H; lia|]. apply zsum_ext. intros k Hk. f_equal. apply H. lia.
  - intros i t Hi Ht. rewrite (dot_right d zero one add mul conj SR n x inc m c s p R Hinc Hin i 1 t); try lia; [|exact Ht| |].
    + cbn [bind]. rewrite start_elt. apply settle_now; [lia|exact Ht].
    + intros j Hj. apply HR; lia.
    + rewrite <- !start_elt. ring.
  - exists m'. split; [exact E|]. split; [exact C|]. intros i Hi.
    rewrite (zsum_skip zero one add mul SR i n) by first [lia|intros j Hj; rewrite Hz by lia; apply (SRmul_0_l SR)].
    rewrite (zsum_first zero one add mul SR) by lia. rewrite Z.add_0_r.
    rewrite (zsum_ext zero add _ _ (fun k => mul (R i (i + 1 + k)) (val d m' (e (i + 1 + k)))))
      by (intros k Hk; f_equal; [f_equal; lia|do 2 f_equal; lia]).
    rewrite (V i) by lia. replace (i <? i) with false by lia.
    rewrite (zsum_ext zero add _ (fun k => mul (R i (i + 1 + k)) (if i <? i + 1 + k then val d m' (e (i + 1 + k)) else val d m (e (i + 1 + k))))
      (fun k => mul (R i (i + 1 + k)) (val d m' (e (i + 1 + k))))) by (intros k Hk; now replace (i <? i + 1 + k) with true by lia).
    field. now apply diag_nonzero.
Qed.
Lemma solve_left :
  (forall i j, 0 <= j < i -> i < n -> entry_at d conj n x inc m c R i j (p i + j * s)) ->
  (forall i j, 0 <= i < j -> j < n -> R i j = zero) ->
  exists m', ascend n inc (fun iX i m =>
      do r <- dot_gen zero add mul conj c i (p i) s x0 inc m;
      settle sub div conj dg c (x0 + iX) (q i) r m) m = Ok m' /\ solved m'.
Proof using All.
  intros HR Hz. pose proof field_semi as SR.
  destruct (ascend_ok d (fun i f => div (sub (f i) (zs i (fun j => mul (R i j) (f j)))) (R i i))
     (fun iX i m => do r <- dot_gen zero add mul conj c i (p i) s x0 inc m;
        settle sub div conj dg c (x0 + iX) (q i) r m) n n x inc m)
    as (m' & E & C & V & _); [exact Hinc|lia|exact Hin| | |].
  - intros i f g Hi H. do 2 f_equal; [apply H; lia|]. apply zsum_ext. intros k Hk. f_equal. apply H. lia.
  - intros i t Hi Ht. rewrite (dot_left d zero one add mul conj SR n x inc m c s p R Hinc Hin i i t); [|lia|exact Ht|intros j Hj; apply HR; lia].
    cbn [bind]. rewrite start_elt. apply settle_now; [lia|exact Ht].
  - exists m'. split; [exact E|]. split; [exact C|]. intros i Hi.
    rewrite (zsum_trunc zero one add mul SR (i + 1) n) by first [lia|intros j Hj1 Hj2; rewrite Hz by lia; apply (SRmul_0_l SR)].
    rewrite zsum_S by lia. rewrite (V i) by lia. replace (i <? i) with false by lia.
    rewrite (zsum_ext zero add _ (fun j => mul (R i j) (if j <? i then val d m' (e j) else val d m (e j)))
      (fun j => mul (R i j) (val d m' (e j)))) by (intros k Hk; now replace (k <? i) with true by lia).
    field. now apply diag_nonzero.
Qed.
End Solve.

(** ** The routines *)
Section Routines.
Context {A : Type} (d zero one : A) (conj : A -> A).
Lemma kept_other up dg i j : kept (other up) dg j i = kept up dg i j.
Proof. unfold kept. rewrite (Z.eqb_sym j i). now destruct up. Qed.
Lemma cell_col a lda i j : cell ColMajor a lda i j = cell RowMajor a lda j i.
Proof. reflexivity. Qed.
Lemma triangle_col up dg a lda (m : list A) i j :
  triangle d zero one ColMajor up dg a lda m i j = triangle d zero one RowMajor (other up) dg a lda m j i.
Proof. unfold triangle. now rewrite kept_other, (Z.eqb_sym j i). Qed.
Lemma op_col t up dg a lda (m : list A) i j :
  op conj t (triangle d zero one ColMajor up dg a lda m) i j = op conj (flip t) (triangle d zero one RowMajor (other up) dg a lda m) i j.
Proof. destruct t; cbn [op flip]; now rewrite triangle_col. Qed.
Lemma apart_col (m : list A) up dg n a lda cells :
  kept_apart m ColMajor up dg n a lda cells -> kept_apart m RowMajor (other up) dg n a lda cells.
Proof. intros H i j Hi Hj K. rewrite <- cell_col. apply H; [exact Hj|exact Hi|]. rewrite <- (kept_other up dg j i). exact K. Qed.

Hypothesis CJ : conjugate zero one conj.
Lemma entry_row (m : list A) up t dg n a lda x inc i j w : 0 <= i < n -> 0 <= j < n ->
  kept_apart m RowMajor up dg n a lda (in_vector x inc n) ->
  kept up dg (if is_trans t then j else i) (if is_trans t then i else j) = true ->
  w = (if is_trans t then a + j * lda + i else a + i * lda + j) ->
  entry_at d conj n x inc m (is_conj t) (op conj t (triangle d zero one RowMajor up dg a lda m)) i j w.
Proof using Type.
  intros Hi Hj HA K ->.
  destruct (HA (if is_trans t then j else i) (if is_trans t then i else j)) as [I N]; [destruct t; cbn [is_trans]; lia|destruct t; cbn [is_trans]; lia|exact K|].
  unfold entry_at, cj. destruct t; cbn [is_trans is_conj op cell] in *; unfold triangle; rewrite K; cbn [cell]; auto.
Qed.
Lemma entry_zero (m : list A) up t dg a lda i j : i <> j ->
  kept up dg (if is_trans t then j else i) (if is_trans t then i else j) = false ->
  op conj t (triangle d zero one RowMajor up dg a lda m) i j = zero.
Proof using CJ.
  intros Hne K. destruct CJ as [C0 _].
  destruct t; cbn [is_trans op] in *; unfold triangle; rewrite K;
    [replace (i =? j) with false by lia|replace (i =? j) with false by lia|replace (j =? i) with false by lia|replace (j =? i) with false by lia]; auto.
Qed.
Lemma entry_one (m : list A) up t a lda i : op conj t (triangle d zero one RowMajor up Unit a lda m) i i = one.
Proof using CJ.
  destruct CJ as [_ C1]. assert (K : kept up Unit i i = false) by (unfold kept; destruct up; rewrite Z.ltb_irrefl, Z.eqb_refl; reflexivity).
  destruct t; cbn [op]; unfold triangle; rewrite K, Z.eqb_refl; auto.
Qed.

Variables (add mul : A -> A -> A).
Hypothesis SR : semi_ring_theory zero one add mul eq.
Ltac ents := intros; first
  [ apply entry_one
  | apply entry_zero; [lia|cbn [is_trans]; unfold kept; lia]
  | eapply entry_row; [lia|lia|eassumption|cbn [is_trans]; unfold kept; lia|cbn [is_trans]; lia] ].
Lemma trmv_row_ok up t dg n a lda x inc (m : list A) :
  inc <> 0 -> inside m x inc n -> kept_apart m RowMajor up dg n a lda (in_vector x inc n) ->
  exists m', trmv_row zero add mul conj up t dg n a lda x inc m = Ok m' /\
    multiplied d zero add mul n x inc m (op conj t (triangle d zero one RowMajor up dg a lda m)) m'.
Proof using CJ SR.
  intros Hinc Hin HA. unfold trmv_row.
  destruct (is_trans t) eqn:Et, up, dg; cbv zeta.
  - apply (mul_left_unit d zero one add mul conj SR n x inc m (is_conj t) lda (fun i => a + i) _ Hinc Hin); destruct t; try discriminate; ents.
  - apply (mul_left_full d zero one add mul conj SR n x inc m (is_conj t) lda (fun i => a + i) _ Hinc Hin); destruct t; try discriminate; ents.
  - apply (mul_right_unit d zero one add mul conj SR n x inc m (is_conj t) lda (fun i => a + i * (lda + 1) + lda) _ Hinc Hin); destruct t; try discriminate; ents.
  - apply (mul_right_full d zero one add mul conj SR n x inc m (is_conj t) lda (fun i => a + i * (lda + 1)) _ Hinc Hin); destruct t; try discriminate; ents.
  - apply (mul_right_unit d zero one add mul conj SR n x inc m (is_conj t) 1 (fun i => a + i * (lda + 1) + 1) _ Hinc Hin); destruct t; try discriminate; ents.
  - apply (mul_right_full d zero one add mul conj SR n x inc m (is_conj t) 1 (fun i => a + i * (lda + 1)) _ Hinc Hin); destruct t; try discriminate; ents.
  - apply (mul_left_unit d zero one add mul conj SR n x inc m (is_conj t) 1 (fun i => a + i * lda) _ Hinc Hin); destruct t; try discriminate; ents.
  - apply (mul_left_full d zero one add mul conj SR n x inc m (is_conj t) 1 (fun i => a + i * lda) _ Hinc Hin); destruct t; try discriminate; ents.
Qed.
Lemma trmv_ok o up t dg n a lda x inc (m : list A) :
  inc <> 0 -> inside m x inc n -> kept_apart m o up dg n a lda (in_vector x inc n) ->
  exists m', trmv zero add mul conj o up t dg n a lda x inc m = Ok m' /\
    multiplied d zero add mul n x inc m (op conj t (triangle d zero one o up dg a lda m)) m'.
Proof using CJ SR.
  intros Hinc Hin HA. destruct o; cbn [trmv]; [now apply trmv_row_ok|].
  destruct (trmv_row_ok (other up) (flip t) dg n a lda x inc m Hinc Hin (apart_col _ _ _ _ _ _ _ HA)) as (m' & E & C & V).
  exists m'. split; [exact E|]. split; [exact C|]. intros i Hi. rewrite V by exact Hi. apply zsum_ext. intros j Hj. now rewrite op_col.
Qed.

Variables (sub div : A -> A -> A) (opp inv : A -> A).
Hypothesis FT : field_theory zero one add mul sub opp div inv eq.
Lemma trsv_row_ok up t dg n a lda x inc (m : list A) :
  inc <> 0 -> inside m x inc n -> kept_apart m RowMajor up dg n a lda (in_vector x inc n) ->
  invertible zero conj n (triangle d zero one RowMajor up dg a lda m) ->
  exists m', trsv_row zero add sub mul div conj up t dg n a lda x inc m = Ok m' /\
    solved d zero add mul n x inc m (op conj t (triangle d zero one RowMajor up dg a lda m)) m'.
Proof using CJ FT.
  intros Hinc Hin HA Hd. unfold trsv_row.
  assert (D : forall i, 0 <= i < n -> match dg with
      | Unit => op conj t (triangle d zero one RowMajor up dg a lda m) i i = one
      | NonUnit => entry_at d conj n x inc m (is_conj t) (op conj t (triangle d zero one RowMajor up dg a lda m)) i i (a + i * (lda + 1)) /\
                   op conj t (triangle d zero one RowMajor up dg a lda m) i i <> zero end).
  { intros i Hi. destruct dg; [apply entry_one|]. split.
    - eapply entry_row; [lia|lia|eassumption|unfold kept; destruct t, up; cbn [is_trans]; lia|destruct t; cbn [is_trans]; lia].
    - destruct (Hd i Hi). destruct t; cbn [op]; auto. }
  destruct (is_trans t) eqn:Et, up; cbv zeta.
  - apply (solve_left d zero one add sub mul div opp inv conj FT n x inc m (is_conj t) lda (fun i => a + i) (fun i => a + i * (lda + 1)) _ dg Hinc Hin D);
      destruct dg, t; try discriminate; ents.
  - apply (solve_right d zero one add sub mul div opp inv conj FT n x inc m (is_conj t) lda (fun i => a + i * (lda + 1) + lda) (fun i => a + i * (lda + 1)) _ dg Hinc Hin D);
      destruct dg, t; try discriminate; ents.
  - apply (solve_right d zero one add sub mul div opp inv conj FT n x inc m (is_conj t) 1 (fun i => a + i * (lda + 1) + 1) (fun i => a + i * (lda + 1)) _ dg Hinc Hin D);
      destruct dg, t; try discriminate; ents.
  - apply (solve_left d zero one add sub mul div opp inv conj FT n x inc m (is_conj t) 1 (fun i => a + i * lda) (fun i => a + i * (lda + 1)) _ dg Hinc Hin D);
      destruct dg, t; try discriminate; ents.
Qed.
Lemma invertible_col up dg n a lda (m : list A) : invertible zero conj n (triangle d zero one ColMajor up dg a lda m) ->
  invertible zero conj n (triangle d zero one RowMajor (other up) dg a lda m).
Proof using Type. intros H i Hi. rewrite <- triangle_col. now apply H. Qed.
Lemma trsv_ok o up t dg n a lda x inc (m : list A) :
  inc <> 0 -> inside m x inc n -> kept_apart m o up dg n a lda (in_vector x inc n) ->
  invertible zero conj n (triangle d zero one o up dg a lda m) ->
  exists m', trsv zero add sub mul div conj o up t dg n a lda x inc m = Ok m' /\
    solved d zero add mul n x inc m (op conj t (triangle d zero one o up dg a lda m)) m'.
Proof using CJ FT.
  intros Hinc Hin HA Hd. destruct o; cbn [trsv]; [now apply trsv_row_ok|].
  destruct (trsv_row_ok (other up) (flip t) dg n a lda x inc m Hinc Hin (apart_col _ _ _ _ _ _ _ HA) (invertible_col _ _ _ _ _ _ Hd)) as (m' & E & C & V).
  exists m'. split; [exact E|]. split; [exact C|]. intros i Hi. rewrite <- V by exact Hi. apply zsum_ext. intros j Hj. now rewrite op_col.
Qed.

(** The matrix is not touched. *)
Lemma triangle_same o up dg n a lda (m m' : list A) cells : kept_apart m o up dg n a lda cells -> changes d m m' cells ->
  forall i j, 0 <= i < n -> 0 <= j < n -> triangle d zero one o up dg a lda m' i j = triangle d zero one o up dg a lda m i j.
Proof using Type.
  intros HA C i j Hi Hj. unfold triangle. destruct (kept up dg i j) eqn:K; [|reflexivity].
  destruct (HA i j Hi Hj K) as [I N]. now apply (changes_val d _ _ _ _ C).
Qed.
Lemma apart_same o up dg n a lda (m m' : list A) cells : length m' = length m ->
  kept_apart m o up dg n a lda cells -> kept_apart m' o up dg n a lda cells.
Proof using Type. intros L H i j Hi Hj K. rewrite L. now apply H. Qed.
Lemma op_same t n (M M' : Z -> Z -> A) : (forall i j, 0 <= i < n -> 0 <= j < n -> M i j = M' i j) ->
  forall i j, 0 <= i < n -> 0 <= j < n -> op conj t M i j = op conj t M' i j.
Proof using Type. intros H i j Hi Hj. destruct t; cbn [op]; now rewrite H. Qed.

(** A triangular system has one solution. *)
Lemma unique_right n (R : Z -> Z -> A) u v : (forall i j, 0 <= j < i -> i < n -> R i j = zero) ->
  (forall i, 0 <= i < n -> R i i <> zero) ->
  (forall i, 0 <= i < n -> zsum zero add n (fun j => mul (R i j) (u j)) = zsum zero add n (fun j => mul (R i j) (v j))) ->
  forall i, 0 <= i < n -> u i = v i.
Proof using FT.
  intros Hz Hd H. pose proof (field_semi zero one add sub mul div opp inv FT) as SR'.
  enough (G : forall q, 0 <= q <= n -> forall i, n - q <= i < n -> u i = v i) by (intros i Hi; apply (G n); lia).
  intros q Hq. apply (zsum_ind (fun q => forall i, n - q <= i < n -> u i = v i) q); [intros; lia| |lia].
  intros k Hk IH i Hi. destruct (Z.eq_dec i (n - (k + 1))) as [->|Hne]; [|apply IH; lia].
  set (i := n - (k + 1)) in *. specialize (H i ltac:(lia)).
  rewrite !(zsum_skip zero one add mul SR' i n) in H by first [lia|intros j Hj; rewrite Hz by lia; apply (SRmul_0_l SR')].
  rewrite !(zsum_first zero one add mul SR' (n - i)) in H by lia. rewrite Z.add_0_r in H.
  rewrite (zsum_ext zero add _ (fun j => mul (R i (i + (1 + j))) (u (i + (1 + j)))) (fun j => mul (R i (i + (1 + j))) (v (i + (1 + j))))) in H
    by (intros j Hj; f_equal; apply IH; lia).
  set (T := zsum _ _ _ _) in H. apply (f_equal (fun w => div (sub w T) (R i i))) in H.
  assert (S : forall w, div (sub (add (mul (R i i) w) T) T) (R i i) = w).
  { intros w. pose proof (Hd i ltac:(lia)). clear - FT H0.
    pose proof (F_R FT) as Rt. rewrite (Fdiv_def FT), (Rsub_def Rt).
    rewrite <- (Radd_assoc Rt), (Ropp_def Rt), (Radd_comm Rt), (Radd_0_l Rt), (Rmul_comm Rt (R i i)), <- (Rmul_assoc Rt).
    rewrite (Rmul_comm Rt (R i i)), (Finv_l FT) by exact H0. rewrite (Rmul_comm Rt). apply (Rmul_1_l Rt). }
  now rewrite !S in H.
Qed.
Lemma unique_left n (R : Z -> Z -> A) u v : (forall i j, 0 <= i < j -> j < n -> R i j = zero) ->
  (forall i, 0 <= i < n -> R i i <> zero) ->
  (forall i, 0 <= i < n -> zsum zero add n (fun j => mul (R i j) (u j)) = zsum zero add n (fun j => mul (R i j) (v j))) ->
  forall i, 0 <= i < n -> u i = v i.
Proof using FT.
  intros Hz Hd H. pose proof (field_semi zero one add sub mul div opp inv FT) as SR'.
  enough (G : forall q, 0 <= q <= n -> forall i, 0 <= i < q -> u i = v i) by (intros i Hi; apply (G n); lia).
  intros q Hq. apply (zsum_ind (fun q => forall i, 0 <= i < q -> u i = v i) q); [intros; lia| |lia].
  intros k Hk IH i Hi. destruct (Z.eq_dec i k) as [->|Hne]; [|apply IH; lia].
  specialize (H k ltac:(lia)).
  rewrite !(zsum_trunc zero one add mul SR' (k + 1) n) in H by first [lia|intros j Hj1 Hj2; rewrite Hz by lia; apply (SRmul_0_l SR')].
  rewrite !zsum_S in H by lia.
  rewrite (zsum_ext zero add _ (fun j => mul (R k j) (u j)) (fun j => mul (R k j) (v j))) in H by (intros j Hj; f_equal; apply IH; lia).
  set (T := zsum _ _ _ _) in H. apply (f_equal (fun w => div (sub w T) (R k k))) in H.
  assert (S : forall w, div (sub (add T (mul (R k k) w)) T) (R k k) = w).
  { intros w. pose proof (Hd k ltac:(lia)). clear - FT H0.
    pose proof (F_R FT) as Rt. rewrite (Fdiv_def FT), (Rsub_def Rt).
    rewrite (Radd_comm Rt T), <- (Radd_assoc Rt), (Ropp_def Rt), (Radd_comm Rt), (Radd_0_l Rt), (Rmul_comm Rt (R k k)), <- (Rmul_assoc Rt).
    rewrite (Rmul_comm Rt (R k k)), (Finv_l FT) by exact H0. rewrite (Rmul_comm Rt). apply (Rmul_1_l Rt). }
  now rewrite !S in H.
Qed.
End Routines.

(** ** There and back *)
Lemma in_vector_dec x inc n p : in_vector x inc n p \/ ~ in_vector x inc n p.
Proof.
  enough (G : forall k, (exists i, 0 <= i < Z.of_nat k /\ p = elt x inc n i) \/ ~ (exists i, 0 <= i < Z.of_nat k /\ p = elt x inc n i)).
  { destruct (G (Z.to_nat n)) as [(i & Hi & E)|H]; [left; exists i; split; [lia|exact E]|].
    right. intros (i & Hi & E). apply H. exists i. split; [lia|exact E]. }
  induction k as [|k [(i & Hi & E)|IH]].
  - right. intros (i & Hi & _). lia.
  - left. exists i. split; [lia|exact E].
  - destruct (Z.eq_dec p (elt x inc n (Z.of_nat k))) as [E|E].
    + left. exists (Z.of_nat k). split; [lia|exact E].
    + right. intros (i & Hi & E'). destruct (Z.eq_dec i (Z.of_nat k)) as [->|Hn]; [contradiction|].
      apply IH. exists i. split; [lia|exact E'].
Qed.
Section Back.
Context {A : Type} (d zero one : A) (conj : A -> A) (add sub mul div : A -> A -> A) (opp inv : A -> A).
Hypothesis CJ : conjugate zero one conj.
Hypothesis FT : field_theory zero one add mul sub opp div inv eq.
Lemma unique_op o up t dg n a lda (m : list A) u v :
  invertible zero conj n (triangle d zero one o up dg a lda m) ->
  (forall i, 0 <= i < n -> zsum zero add n (fun j => mul (op conj t (triangle d zero one o up dg a lda m) i j) (u j)) =
                           zsum zero add n (fun j => mul (op conj t (triangle d zero one o up dg a lda m) i j) (v j))) ->
  forall i, 0 <= i < n -> u i = v i.
Proof using CJ FT.
  assert (Row : forall up t, invertible zero conj n (triangle d zero one RowMajor up dg a lda m) ->
    (forall i, 0 <= i < n -> zsum zero add n (fun j => mul (op conj t (triangle d zero one RowMajor up dg a lda m) i j) (u j)) =
                             zsum zero add n (fun j => mul (op conj t (triangle d zero one RowMajor up dg a lda m) i j) (v j))) ->
    forall i, 0 <= i < n -> u i = v i).
  { clear up t. intros up t Hd H.
    assert (D : forall i, 0 <= i < n -> op conj t (triangle d zero one RowMajor up dg a lda m) i i <> zero)
      by (intros i Hi; destruct (Hd i Hi); destruct t; cbn [op]; auto).
    destruct (Bool.bool_dec (match up with Upper => is_trans t | Lower => negb (is_trans t) end) true) as [E|E].
    - apply (unique_left zero one add mul sub div opp inv FT n (op conj t (triangle d zero one RowMajor up dg a lda m)) u v); [|exact D|exact H].
      intros i j Hi Hj. apply entry_zero; [exact CJ|lia|]. unfold kept. destruct up, t, dg; cbn in E; try discriminate E; cbn [is_trans]; lia.
    - apply (unique_right zero one add mul sub div opp inv FT n (op conj t (triangle d zero one RowMajor up dg a lda m)) u v); [|exact D|exact H].
      intros i j Hi Hj. apply entry_zero; [exact CJ|lia|]. unfold kept. destruct up, t, dg; cbn in E; try (exfalso; now apply E); cbn [is_trans]; lia. }
  intros Hd H. destruct o; [now apply (Row up t)|]. apply (Row (other up) (flip t)); [now apply invertible_col|].
  intros i Hi. rewrite (zsum_ext zero add n _ (fun j => mul (op conj t (triangle d zero one ColMajor up dg a lda m) i j) (u j))) by (intros; now rewrite op_col).
  rewrite H by exact Hi. apply zsum_ext. intros; now rewrite op_col.
Qed.

Lemma there_and_back o up t dg n a lda x inc (m : list A) :
  inc <> 0 -> inside m x inc n -> kept_apart m o up dg n a lda (in_vector x inc n) ->
  invertible zero conj n (triangle d zero one o up dg a lda m) ->
  (exists m1, trmv zero add mul conj o up t dg n a lda x inc m = Ok m1 /\
              trsv zero add sub mul div conj o up t dg n a lda x inc m1 = Ok m) /\
  (exists m1, trsv zero add sub mul div conj o up t dg n a lda x inc m = Ok m1 /\
              trmv zero add mul conj o up t dg n a lda x inc m1 = Ok m).
Proof using CJ FT.
  intros Hinc Hin HA Hd. pose proof (field_semi zero one add sub mul div opp inv FT) as SR.
  assert (Same : forall m1, changes d m m1 (in_vector x inc n) ->
    (forall i j, 0 <= i < n -> 0 <= j < n -> op conj t (triangle d zero one o up dg a lda m1) i j = op conj t (triangle d zero one o up dg a lda m) i j) /\
    inside m1 x inc n /\ kept_apart m1 o up dg n a lda (in_vector x inc n) /\ invertible zero conj n (triangle d zero one o up dg a lda m1)).
  { intros m1 C. pose proof (triangle_same d zero one _ _ _ _ _ _ _ _ _ HA C) as T. split; [|split; [|split]].
    - intros i j Hi Hj. now apply (op_same conj t n).
    - intros i Hi. destruct C as [L _]. rewrite L. now apply Hin.
    - apply (apart_same o up dg n a lda m m1); [apply C|exact HA].
    - intros i Hi. rewrite T by assumption. now apply Hd. }
  assert (Fin : forall m1 m2, changes d m m1 (in_vector x inc n) -> changes d m1 m2 (in_vector x inc n) ->
    (forall i, 0 <= i < n -> val d m2 (elt x inc n i) = val d m (elt x inc n i)) -> m2 = m).
  { intros m1 m2 [L1 C1] [L2 C2] V. apply (memory_eq d); [congruence|]. intros p Hp.
    destruct (in_vector_dec x inc n p) as [(i & Hi & ->)|N]; [now apply V|]. rewrite C2, C1; auto. now rewrite L1. }
  split.
  - destruct (trmv_ok d zero one conj CJ add mul SR o up t dg n a lda x inc m Hinc Hin HA) as (m1 & E1 & C1 & V1).
    destruct (Same m1 C1) as (T & Hin1 & HA1 & Hd1).
    destruct (trsv_ok d zero one conj CJ add mul sub div opp inv FT o up t dg n a lda x inc m1 Hinc Hin1 HA1 Hd1) as (m2 & E2 & C2 & V2).
    exists m1. split; [exact E1|]. rewrite E2. f_equal. apply (Fin m1 m2 C1 C2).
    apply (unique_op o up t dg n a lda m (fun i => val d m2 (elt x inc n i)) (fun i => val d m (elt x inc n i)) Hd).
    intros i Hi. rewrite <- V1 by exact Hi. rewrite <- V2 by exact Hi. apply zsum_ext. intros j Hj. now rewrite T.
  - destruct (trsv_ok d zero one conj CJ add mul sub div opp inv FT o up t dg n a lda x inc m Hinc Hin HA Hd) as (m1 & E1 & C1 & V1).
    destruct (Same m1 C1) as (T & Hin1 & HA1 & Hd1).
    destruct (trmv_ok d zero one conj CJ add mul SR o up t dg n a lda x inc m1 Hinc Hin1 HA1) as (m2 & E2 & C2 & V2).
    exists m1. split; [exact E1|]. rewrite E2. f_equal. apply (Fin m1 m2 C1 C2).
    intros i Hi. rewrite V2 by exact Hi. rewrite <- V1 by exact Hi. apply zsum_ext. intros j Hj. now rewrite T.
Qed.
End Back.

(** ** Line after line *)
Section Block.
Context {A : Type} (d : A).
Lemma repeat_inv {St} (P : Z -> St -> Prop) k body s : P 0 s ->
  (forall j s, 0 <= j < k -> P j s -> exists s', body j s = Ok s' /\ P (j + 1) s') -> 0 <= k ->
  exists s', TriModel.repeat k body s = Ok s' /\ P k s'.
Proof.
  intros H0 HS Hk. unfold TriModel.repeat, walk1.
  destruct (walk_inv P k 1 0 (fun iX _ => body iX) s Hk H0) as (s' & E & H).
  - intros j t Hj Pj. rewrite Z.mul_1_r. now apply HS.
  - exists s'. now split.
Qed.

(** [Rel old new] relates the old and new values of a line. *)
Lemma lines_ok (Rel : (Z -> A) -> (Z -> A) -> Prop) body L n (X : Z -> Z) inc (m : list A) : 0 <= L ->
  (forall f f' g g', (forall i, 0 <= i < n -> f i = f' i) -> (forall i, 0 <= i < n -> g i = g' i) -> Rel f g -> Rel f' g') ->
  (forall l, 0 <= l < L -> inside m (X l) inc n) ->
  (forall l l' i i', 0 <= l < L -> 0 <= l' < L -> 0 <= i < n -> 0 <= i' < n -> l <> l' -> elt (X l) inc n i <> elt (X l') inc n i') ->
  (forall l t, 0 <= l < L -> changes d m t (fun p => exists l, 0 <= l < L /\ in_vector (X l) inc n p) ->
     exists t', body l t = Ok t' /\ changes d t t' (in_vector (X l) inc n) /\
       Rel (fun i => val d t (elt (X l) inc n i)) (fun i => val d t' (elt (X l) inc n i))) ->
  exists m', TriModel.repeat L body m = Ok m' /\ changes d m m' (fun p => exists l, 0 <= l < L /\ in_vector (X l) inc n p) /\
    forall l, 0 <= l < L -> Rel (fun i => val d m (elt (X l) inc n i)) (fun i => val d m' (elt (X l) inc n i)).
Proof.
  intros HL Hrel Hin Hdis Hb.
  destruct (repeat_inv (fun k t => changes d m t (fun p => exists l, 0 <= l < L /\ in_vector (X l) inc n p) /\
      (forall l, 0 <= l < k -> Rel (fun i => val d m (elt (X l) inc n i)) (fun i => val d t (elt (X l) inc n i))) /\
      (forall l i, k <= l < L -> 0 <= i < n -> val d t (elt (X l) inc n i) = val d m (elt (X l) inc n i))) L body m)
    as (m' & E & C & V & _); [| |exact HL|].
  - split; [apply changes_refl|]. split; [intros; lia|auto].
  - intros k t Hk (C & V & W). destruct (Hb k t Hk C) as (t' & E & C' & R). exists t'. split; [exact E|].
    assert (L1 : length t = length m) by apply C.
    assert (Keep : forall l i, 0 <= l < L -> 0 <= i < n -> l <> k -> val d t' (elt (X l) inc n i) = val d t (elt (X l) inc n i)).
    { intros l i Hl Hi Hne. apply (changes_val d t t' _ _ C'); [rewrite L1; now apply Hin|].
      intros (i' & Hi' & E'). now apply (Hdis l k i i'). }
    split; [|split].
    + apply (changes_weaken d m t' (fun p => (exists l, 0 <= l < L /\ in_vector (X l) inc n p) \/ in_vector (X k) inc n p)).
      * intros p [H|H]; [exact H|]. exists k. split; [exact Hk|exact H].
      * now apply changes_trans with t.
    + intros l Hl. destruct (Z.eq_dec l k) as [->|Hne].
      * apply (Hrel (fun i => val d t (elt (X k) inc n i)) _ (fun i => val d t' (elt (X k) inc n i))); [|reflexivity|exact R].
        intros i Hi. apply W; lia.
      * apply (Hrel (fun i => val d m (elt (X l) inc n i)) _ (fun i => val d t (elt (X l) inc n i))); [reflexivity| |apply V; lia].
        intros i Hi. symmetry. apply Keep; lia.
    + intros l i Hl Hi. rewrite Keep by lia. apply W; lia.
  - exists m'. split; [exact E|]. now split.
Qed.

(** Rows and columns of a row-major block *)
Lemma elt_pos x inc n i : 0 <= inc -> elt x inc n i = x + i * inc.
Proof. intros H. unfold elt. now replace (inc <? 0) with false by lia. Qed.
Lemma cell_inj b ldb cols i j i' j' : cols <= ldb -> 0 <= j < cols -> 0 <= j' < cols ->
  cell RowMajor b ldb i j = cell RowMajor b ldb i' j' -> i = i' /\ j = j'.
Proof.
  unfold cell. intros H Hj Hj' E. assert (i = i'); [|lia].
  assert (D : (i - i') * ldb = j' - j) by lia. clear - H Hj Hj' D. nia.
Qed.
Lemma rows_block b ldb rows cols p : (exists l, 0 <= l < rows /\ in_vector (b + l * ldb) 1 cols p) <-> block RowMajor b ldb rows cols p.
Proof.
  split.
  - intros (l & Hl & i & Hi & ->). exists l, i. rewrite elt_pos by lia. cbn [cell]. split; [exact Hl|]. split; [exact Hi|]. lia.
  - intros (l & i & Hl & Hi & ->). exists l. split; [exact Hl|]. exists i. rewrite elt_pos by lia. cbn [cell]. split; [exact Hi|]. lia.
Qed.
Lemma cols_block b ldb rows cols p : 0 <= ldb -> (exists l, 0 <= l < cols /\ in_vector (b + l) ldb rows p) <-> block RowMajor b ldb rows cols p.
Proof.
  intros Hld. split.
  - intros (l & Hl & i & Hi & ->). exists i, l. rewrite elt_pos by lia. cbn [cell]. split; [exact Hi|]. split; [exact Hl|]. lia.
  - intros (i & l & Hi & Hl & ->). exists l. split; [exact Hl|]. exists i. rewrite elt_pos by lia. cbn [cell]. split; [exact Hi|]. lia.
Qed.
Lemma changes_iff (m m' : list A) (P Q : Z -> Prop) : (forall p, P p <-> Q p) -> changes d m m' P -> changes d m m' Q.
Proof. intros H. apply changes_weaken. intros p. apply H. Qed.

Lemma by_rows (Rel : (Z -> A) -> (Z -> A) -> Prop) body rows cols b ldb (m : list A) : 0 <= rows -> cols <= ldb ->
  block_inside m RowMajor b ldb rows cols ->
  (forall f f' g g', (forall i, 0 <= i < cols -> f i = f' i) -> (forall i, 0 <= i < cols -> g i = g' i) -> Rel f g -> Rel f' g') ->
  (forall l t, 0 <= l < rows -> changes d m t (block RowMajor b ldb rows cols) ->
     exists t', body l t = Ok t' /\ changes d t t' (in_vector (b + l * ldb) 1 cols) /\
       Rel (fun j => val d t (cell RowMajor b ldb l j)) (fun j => val d t' (cell RowMajor b ldb l j))) ->
  exists m', TriModel.repeat rows body m = Ok m' /\ changes d m m' (block RowMajor b ldb rows cols) /\
    forall l, 0 <= l < rows -> Rel (fun j => val d m (cell RowMajor b ldb l j)) (fun j => val d m' (cell RowMajor b ldb l j)).
Proof.
  intros Hr Hld Hin Hrel Hb.
  assert (Ce : forall l j, elt (b + l * ldb) 1 cols j = cell RowMajor b ldb l j) by (intros; rewrite elt_pos by lia; cbn [cell]; lia).
  destruct (lines_ok Rel body rows cols (fun l => b + l * ldb) 1 m) as (m' & E & C & V); [exact Hr|exact Hrel| | | |].
  - intros l Hl j Hj. rewrite Ce. now apply Hin.
  - intros l l' j j' Hl Hl' Hj Hj' Hne. rewrite !Ce. intros E. apply (cell_inj b ldb cols) in E; [|exact Hld|exact Hj|exact Hj']. lia.
  - intros l t Hl C. destruct (Hb l t Hl (changes_iff _ _ _ _ (rows_block b ldb rows cols) C)) as (t' & E & C' & R).
    exists t'. split; [exact E|]. split; [exact C'|]. revert R. apply Hrel; intros j Hj; now rewrite Ce.
  - exists m'. split; [exact E|]. split; [exact (changes_iff _ _ _ _ (rows_block b ldb rows cols) C)|].
    intros l Hl. generalize (V l Hl). apply Hrel; intros j Hj; now rewrite Ce.
Qed.
Lemma by_cols (Rel : (Z -> A) -> (Z -> A) -> Prop) body rows cols b ldb (m : list A) : 0 <= cols -> cols <= ldb ->
  block_inside m RowMajor b ldb rows cols ->
  (forall f f' g g', (forall i, 0 <= i < rows -> f i = f' i) -> (forall i, 0 <= i < rows -> g i = g' i) -> Rel f g -> Rel f' g') ->
  (forall l t, 0 <= l < cols -> changes d m t (block RowMajor b ldb rows cols) ->
     exists t', body l t = Ok t' /\ changes d t t' (in_vector (b + l) ldb rows) /\
       Rel (fun i => val d t (cell RowMajor b ldb i l)) (fun i => val d t' (cell RowMajor b ldb i l))) ->
  exists m', TriModel.repeat cols body m = Ok m' /\ changes d m m' (block RowMajor b ldb rows cols) /\
    forall l, 0 <= l < cols -> Rel (fun i => val d m (cell RowMajor b ldb i l)) (fun i => val d m' (cell RowMajor b ldb i l)).
Proof.
  intros Hc Hld Hin Hrel Hb.
  assert (Ce : forall l j, elt (b + l) ldb rows j = cell RowMajor b ldb j l) by (intros; rewrite elt_pos by lia; cbn [cell]; lia).
  destruct (lines_ok Rel body cols rows (fun l => b + l) ldb m) as (m' & E & C & V); [exact Hc|exact Hrel| | | |].
  - intros l Hl j Hj. rewrite Ce. now apply Hin.
  - intros l l' j j' Hl Hl' Hj Hj' Hne. rewrite !Ce. intros E. apply (cell_inj b ldb cols) in E; [|exact Hld|exact Hl|exact Hl']. lia.
  - intros l t Hl C. destruct (Hb l t Hl (changes_iff _ _ _ _ (fun p => cols_block b ldb rows cols p ltac:(lia)) C)) as (t' & E & C' & R).
    exists t'. split; [exact E|]. split; [exact C'|]. revert R. apply Hrel; intros j Hj; now rewrite Ce.
  - exists m'. split; [exact E|]. split; [exact (changes_iff _ _ _ _ (fun p => cols_block b ldb rows cols p ltac:(lia)) C)|].
    intros l Hl. generalize (V l Hl). apply Hrel; intros j Hj; now rewrite Ce.
Qed.

(** Scaling a block; [sc] is scal or scal_init and [g] what it does to an element. *)
Lemma scale_block (g : A -> A) (sc : Z -> Z -> list A -> outcome (list A)) rows cols b ldb (m : list A) :
  (forall n x (t : list A), inside t x 1 n -> exists t', sc n x t = Ok t' /\
     (forall i, 0 <= i < n -> val d t' (elt x 1 n i) = g (val d t (elt x 1 n i))) /\ changes d t t' (in_vector x 1 n)) ->
  0 <= rows -> 0 <= cols <= ldb -> block_inside m RowMajor b ldb rows cols ->
  exists m', (if ldb =? cols then sc (rows * cols) b m else TriModel.repeat rows (fun i m => sc cols (b + i * ldb) m) m) = Ok m' /\
    changes d m m' (block RowMajor b ldb rows cols) /\
    forall i j, 0 <= i < rows -> 0 <= j < cols -> val d m' (cell RowMajor b ldb i j) = g (val d m (cell RowMajor b ldb i j)).
Proof.
  intros Hsc Hr Hc Hin. destruct (ldb =? cols) eqn:E.
  - apply Z.eqb_eq in E. subst ldb.
    assert (Idx : forall p, in_vector b 1 (rows * cols) p <-> block RowMajor b cols rows cols p).
    { intros p. split.
      - intros (i & Hi & ->). rewrite elt_pos by lia. assert (Hc0 : 0 < cols) by nia.
        exists (i / cols), (i mod cols). cbn [cell].
        pose proof (Z.mod_pos_bound i cols Hc0). pose proof (Z.div_mod i cols ltac:(lia)).
        split; [split; [apply Z.div_pos; lia|apply Z.div_lt_upper_bound; [exact Hc0|rewrite Z.mul_comm; lia]]|]. split; [lia|].
        rewrite (Z.mul_comm (i / cols)). lia.
      - intros (i & j & Hi & Hj & ->). exists (i * cols + j). rewrite elt_pos by lia. cbn [cell]. split; [nia|lia]. }
    destruct (Hsc (rows * cols) b m) as (m' & Em & V & C).
    { intros i Hi. assert (I : in_vector b 1 (rows * cols) (elt b 1 (rows * cols) i)) by (exists i; now split).
      apply Idx in I. destruct I as (k & j & Hk & Hj & ->). now apply Hin. }
    exists m'. split; [exact Em|]. split; [exact (changes_iff _ _ _ _ Idx C)|].
    intros i j Hi Hj. assert (I : cell RowMajor b cols i j = elt b 1 (rows * cols) (i * cols + j)) by (rewrite elt_pos by lia; cbn [cell]; lia).
    rewrite I. apply V. nia.
  - destruct (by_rows (fun f f' => forall j, 0 <= j < cols -> f' j = g (f j)) (fun i m => sc cols (b + i * ldb) m) rows cols b ldb m)
      as (m' & Em & C & V); [exact Hr|lia|exact Hin| | |].
    + intros f f' h h' Hf Hh H j Hj. rewrite <- Hf, <- Hh by exact Hj. now apply H.
    + intros l t Hl [L C]. destruct (Hsc cols (b + l * ldb) t) as (t' & Et & V & C').
      { intros j Hj. rewrite L. replace (elt (b + l * ldb) 1 cols j) with (cell RowMajor b ldb l j) by (rewrite elt_pos by lia; cbn [cell]; lia).
        now apply Hin. }
      exists t'. split; [exact Et|]. split; [exact C'|]. intros j Hj.
      replace (cell RowMajor b ldb l j) with (elt (b + l * ldb) 1 cols j) by (rewrite elt_pos by lia; cbn [cell]; lia). now apply V.
    + exists m'. split; [exact Em|]. split; [exact C|]. intros i j Hi Hj. now apply V.
Qed.
End Block.

(** ** trmm and trsm *)
Section Level3.
Context {A : Type} (d zero one : A) (conj : A -> A) .
Local Notation T o up dg a lda m := (triangle d zero one o up dg a lda m).
Lemma op_flip t (M : Z -> Z -> A) i j : op conj (flip t) M i j = op conj t M j i.
Proof using Type. destruct t; reflexivity. Qed.

(** What a line routine does: [Rel R old new] *)
Variable Rel : (Z -> Z -> A) -> Z -> (Z -> A) -> (Z -> A) -> Prop.
Variable rt : uplo -> trans -> diag -> Z -> Z -> Z -> Z -> Z -> list A -> outcome (list A).
Variable good : Z -> (Z -> Z -> A) -> Prop.
Hypothesis Rel_ext : forall n R R' f f' g g', (forall i j, 0 <= i < n -> 0 <= j < n -> R i j = R' i j) ->
  (forall i, 0 <= i < n -> f i = f' i) -> (forall i, 0 <= i < n -> g i = g' i) -> Rel R n f g -> Rel R' n f' g'.
Hypothesis good_ext : forall n M M', (forall i j, 0 <= i < n -> 0 <= j < n -> M i j = M' i j) -> good n M -> good n M'.
Hypothesis rt_ok : forall up t dg n a lda x inc (m : list A),
  inc <> 0 -> inside m x inc n -> kept_apart m RowMajor up dg n a lda (in_vector x inc n) ->
  good n (T RowMajor up dg a lda m) ->
  exists m', rt up t dg n a lda x inc m = Ok m' /\ changes d m m' (in_vector x inc n) /\
    Rel (op conj t (T RowMajor up dg a lda m)) n (fun i => val d m (elt x inc n i)) (fun i => val d m' (elt x inc n i)).
Lemma each_line_ok sd up t dg rows cols a lda b ldb (m : list A) : 0 <= rows -> 0 <= cols <= ldb ->
  block_inside m RowMajor b ldb rows cols ->
  kept_apart m RowMajor up dg (order_of sd rows cols) a lda (block RowMajor b ldb rows cols) ->
  good (order_of sd rows cols) (T RowMajor up dg a lda m) ->
  exists m', each_line rt sd up t dg rows cols a lda b ldb m = Ok m' /\
    changes d m m' (block RowMajor b ldb rows cols) /\
    match sd with
    | Left => forall j, 0 <= j < cols -> Rel (op conj t (T RowMajor up dg a lda m)) rows (fun i => entry d RowMajor b ldb m i j) (fun i => entry d RowMajor b ldb m' i j)
    | Right => forall i, 0 <= i < rows -> Rel (op conj (flip t) (T RowMajor up dg a lda m)) cols (fun j => entry d RowMajor b ldb m i j) (fun j => entry d RowMajor b ldb m' i j)
    end.
Proof using Rel_ext good_ext rt_ok.
  intros Hr Hc Hin HA Hg. unfold each_line, entry. destruct sd; cbn [order_of] in *.
  - destruct (by_cols d (fun f g => Rel (op conj t (T RowMajor up dg a lda m)) rows f g)
      (fun j m => rt up t dg rows a lda (b + j) ldb m) rows cols b ldb m) as (m' & E & C & V); [lia|lia|exact Hin| | |exists m'; auto].
    + intros f f' g g' Hf Hg'. apply Rel_ext; auto.
    + intros l u Hl C.
      assert (Ce : forall i, elt (b + l) ldb rows i = cell RowMajor b ldb i l) by (intros; rewrite elt_pos by lia; cbn [cell]; lia).
      pose proof (triangle_same d zero one _ _ _ _ _ _ _ _ _ HA C) as TS.
      destruct (rt_ok up t dg rows a lda (b + l) ldb u) as (u' & E & C' & R).
      * lia.
      * intros i Hi. rewrite Ce. destruct C as [L _]. rewrite L. now apply Hin.
      * intros i j Hi Hj K. destruct (HA i j Hi Hj K) as [I N]. destruct C as [L _]. rewrite L. split; [exact I|].
        intros (q & Hq & E). apply N. exists q, l. rewrite E, Ce. auto.
      * revert Hg. apply good_ext. intros. symmetry. now apply TS.
      * exists u'. split; [exact E|]. split; [exact C'|]. revert R. apply Rel_ext.
        -- intros i j Hi Hj. apply (op_same conj t rows); auto.
        -- intros. now rewrite Ce.
        -- intros. now rewrite Ce.
  - destruct (by_rows d (fun f g => Rel (op conj (flip t) (T RowMajor up dg a lda m)) cols f g)
      (fun i m => rt up (flip t) dg cols a lda (b + i * ldb) 1 m) rows cols b ldb m) as (m' & E & C & V); [lia|lia|exact Hin| | |exists m'; auto].
    + intros f f' g g' Hf Hg'. apply Rel_ext; auto.
    + intros l u Hl C.
      assert (Ce : forall j, elt (b + l * ldb) 1 cols j = cell RowMajor b ldb l j) by (intros; rewrite elt_pos by lia; cbn [cell]; lia).
      pose proof (triangle_same d zero one _ _ _ _ _ _ _ _ _ HA C) as TS.
      destruct (rt_ok up (flip t) dg cols a lda (b + l * ldb) 1 u) as (u' & E & C' & R).
      * lia.
      * intros j Hj. rewrite Ce. destruct C as [L _]. rewrite L. now apply Hin.
      * intros i j Hi Hj K. destruct (HA i j Hi Hj K) as [I N]. destruct C as [L _]. rewrite L. split; [exact I|].
        intros (q & Hq & E). apply N. exists l, q. rewrite E, Ce. auto.
      * revert Hg. apply good_ext. intros. symmetry. now apply TS.
      * exists u'. split; [exact E|]. split; [exact C'|]. revert R. apply Rel_ext.
        -- intros i j Hi Hj. apply (op_same conj (flip t) cols); auto.
        -- intros. now rewrite Ce.
        -- intros. now rewrite Ce.
Qed.
End Level3.

Section Whole.
Context {A : Type} (d zero one : A) (conj : A -> A) (add sub mul div : A -> A -> A) (opp inv : A -> A).
Hypothesis CJ : conjugate zero one conj.
Local Notation T o up dg a lda m := (triangle d zero one o up dg a lda m).
Local Notation ap := (applied zero add mul).
Lemma trmm_row_ok is_zero sd up t dg rows cols alpha a lda b ldb (m : list A) :
  (forall x, is_zero x = true <-> x = zero) -> semi_ring_theory zero one add mul eq -> 0 <= rows -> 0 <= cols <= ldb ->
  block_inside m RowMajor b ldb rows cols ->
  kept_apart m RowMajor up dg (order_of sd rows cols) a lda (block RowMajor b ldb rows cols) ->
  exists m', trmm_row zero add mul conj is_zero sd up t dg rows cols alpha a lda b ldb m = Ok m' /\
    changes d m m' (block RowMajor b ldb rows cols) /\
    forall i j, 0 <= i < rows -> 0 <= j < cols -> entry d RowMajor b ldb m' i j =
      mul alpha (ap sd rows cols (op conj t (T RowMajor up dg a lda m)) (entry d RowMajor b ldb m) i j).
Proof using All.
  intros IZ SR Hr Hc Hin HA. unfold trmm_row.
  destruct (each_line_ok d zero one conj
     (fun R n f g => forall i, 0 <= i < n -> g i = zsum zero add n (fun j => mul (R i j) (f j)))
     (trmv_row zero add mul conj) (fun _ _ => True)) with (sd := sd) (up := up) (t := t) (dg := dg) (rows := rows) (cols := cols)
     (a := a) (lda := lda) (b := b) (ldb := ldb) (m := m) as (m1 & E1 & C1 & V1); auto.
  - intros n R R' f f' g g' HR Hf Hg H i Hi. rewrite <- Hg by exact Hi. rewrite H by exact Hi. apply zsum_ext. intros j Hj. now rewrite HR, Hf.
  - intros up' t' dg' n a' lda' x inc m' Hi I K _.
    exact (trmv_row_ok d zero one conj CJ add mul SR up' t' dg' n a' lda' x inc m' Hi I K).
  - rewrite E1. cbn [bind]. assert (L1 : length m1 = length m) by apply C1.
    destruct (scale_block d (fun v => if is_zero alpha then zero else mul v alpha) (fun n x m => scal_init zero mul is_zero n alpha x 1 m) rows cols b ldb m1)
      as (m' & E & C & V); [| exact Hr|exact Hc| |].
    + intros n x u Hu. apply (scal_init_ok d zero mul is_zero n alpha x 1 u Hu). left. lia.
    + intros i j Hi Hj. rewrite L1. now apply Hin.
    + exists m'. split; [exact E|]. split.
      * apply (changes_weaken d m m' (fun p => block RowMajor b ldb rows cols p \/ block RowMajor b ldb rows cols p)); [tauto|].
        now apply changes_trans with m1.
      * intros i j Hi Hj. unfold entry at 1. rewrite V by assumption.
        assert (Z1 : forall v, (if is_zero alpha then zero else mul v alpha) = mul alpha v).
        { intros v. destruct (is_zero alpha) eqn:Z; [apply IZ in Z; subst alpha; symmetry; apply (SRmul_0_l SR)|apply (SRmul_comm SR)]. }
        rewrite Z1. f_equal. destruct sd; cbn [applied].
        -- exact (V1 j Hj i Hi).
        -- specialize (V1 i Hi j Hj). unfold entry in *. rewrite V1. apply zsum_ext. intros k Hk. rewrite (SRmul_comm SR). f_equal. apply op_flip.
Qed.
Lemma trsm_row_ok sd up t dg rows cols alpha a lda b ldb (m : list A) :
  field_theory zero one add mul sub opp div inv eq -> 0 <= rows -> 0 <= cols <= ldb ->
  block_inside m RowMajor b ldb rows cols ->
  kept_apart m RowMajor up dg (order_of sd rows cols) a lda (block RowMajor b ldb rows cols) ->
  invertible zero conj (order_of sd rows cols) (T RowMajor up dg a lda m) ->
  exists m', trsm_row zero add sub mul div conj sd up t dg rows cols alpha a lda b ldb m = Ok m' /\
    changes d m m' (block RowMajor b ldb rows cols) /\
    forall i j, 0 <= i < rows -> 0 <= j < cols ->
      ap sd rows cols (op conj t (T RowMajor up dg a lda m)) (entry d RowMajor b ldb m') i j = mul alpha (entry d RowMajor b ldb m i j).
Proof using All.
  intros FT Hr Hc Hin HA Hd. pose proof (field_semi zero one add sub mul div opp inv FT) as SR. unfold trsm_row.
  destruct (each_line_ok d zero one conj
     (fun R n f g => forall i, 0 <= i < n -> zsum zero add n (fun j => mul (R i j) (g j)) = f i)
     (trsv_row zero add sub mul div conj) (invertible zero conj)) with (sd := sd) (up := up) (t := t) (dg := dg) (rows := rows) (cols := cols)
     (a := a) (lda := lda) (b := b) (ldb := ldb) (m := m) as (m1 & E1 & C1 & V1); auto.
  - intros n R R' f f' g g' HR Hf Hg H i Hi. rewrite <- Hf by exact Hi. rewrite <- H by exact Hi. apply zsum_ext. intros j Hj. now rewrite HR, Hg.
  - intros n M M' HM H i Hi. rewrite <- HM by exact Hi. now apply H.
  - intros up' t' dg' n a' lda' x inc m' Hi I K G.
    exact (trsv_row_ok d zero one conj CJ add mul sub div opp inv FT up' t' dg' n a' lda' x inc m' Hi I K G).
  - rewrite E1. cbn [bind]. assert (L1 : length m1 = length m) by apply C1.
    destruct (scale_block d (fun v => mul v alpha) (fun n x m => scal mul n alpha x 1 m) rows cols b ldb m1)
      as (m' & E & C & V); [| exact Hr|exact Hc| |].
    + intros n x u Hu. apply (scal_ok d mul n alpha x 1 u Hu). left. lia.
    + intros i j Hi Hj. rewrite L1. now apply Hin.
    + exists m'. split; [exact E|]. split.
      * apply (changes_weaken d m m' (fun p => block RowMajor b ldb rows cols p \/ block RowMajor b ldb rows cols p)); [tauto|].
        now apply changes_trans with m1.
      * assert (Sc : forall n f, zsum zero add n (fun k => mul (f k) alpha) = mul alpha (zsum zero add n f)).
        { intros n f. destruct (Z_le_gt_dec n 0) as [Hn|Hn].
          - rewrite !zsum_nonpos by lia. rewrite (SRmul_comm SR). symmetry. apply (SRmul_0_l SR).
          - apply (zsum_ind (fun q => zsum zero add q (fun k => mul (f k) alpha) = mul alpha (zsum zero add q f)) n); [| |lia].
            + rewrite !zsum_nonpos by lia. rewrite (SRmul_comm SR). symmetry. apply (SRmul_0_l SR).
            + intros k Hk IH. rewrite !zsum_S, IH by lia. rewrite (SRmul_comm SR alpha (add _ _)), (SRdistr_l SR).
              now rewrite (SRmul_comm SR alpha). }
        intros i j Hi Hj. destruct sd; cbn [applied].
        -- specialize (V1 j Hj i Hi). unfold entry in *.
           rewrite (zsum_ext zero add rows _ (fun k => mul (mul (op conj t (T RowMajor up dg a lda m) i k) (val d m1 (cell RowMajor b ldb k j))) alpha))
             by (intros k Hk; rewrite V by assumption; apply (SRmul_assoc SR)).
           rewrite Sc. f_equal. exact V1.
        -- specialize (V1 i Hi j Hj). unfold entry in *.
           rewrite (zsum_ext zero add cols _ (fun k => mul (mul (op conj (flip t) (T RowMajor up dg a lda m) j k) (val d m1 (cell RowMajor b ldb i k))) alpha)).
           ++ rewrite Sc. f_equal. exact V1.
           ++ intros k Hk. rewrite V by assumption. rewrite op_flip. rewrite (SRmul_comm SR). apply (SRmul_assoc SR).
Qed.

(** Column-major calls *)
Lemma block_col b ldb rows cols p : block ColMajor b ldb rows cols p <-> block RowMajor b ldb cols rows p.
Proof using Type. split; intros (i & j & Hi & Hj & ->); exists j, i; auto. Qed.
Lemma inside_col (m : list A) b ldb rows cols : block_inside m ColMajor b ldb rows cols -> block_inside m RowMajor b ldb cols rows.
Proof using Type. intros H i j Hi Hj. rewrite <- cell_col. now apply H. Qed.
Lemma order_col sd rows cols : order_of (opposite sd) cols rows = order_of sd rows cols.
Proof using Type. now destruct sd. Qed.
Lemma applied_col (SR : semi_ring_theory zero one add mul eq) sd up t dg a lda (m : list A) rows cols (B : Z -> Z -> A) i j :
  ap (opposite sd) cols rows (op conj t (T RowMajor (other up) dg a lda m)) (fun i j => B j i) j i =
  ap sd rows cols (op conj t (T ColMajor up dg a lda m)) B i j.
Proof using Type.
  destruct sd; cbn [opposite applied]; apply zsum_ext; intros k Hk; rewrite op_col, op_flip; apply (SRmul_comm SR).
Qed.
Lemma apart_iff (m : list A) o up dg n a lda (P Q : Z -> Prop) : (forall p, P p <-> Q p) ->
  kept_apart m o up dg n a lda P -> kept_apart m o up dg n a lda Q.
Proof using Type. intros H HA i j Hi Hj K. destruct (HA i j Hi Hj K) as [I N]. split; [exact I|]. rewrite <- H. exact N. Qed.
Lemma trmm_ok is_zero o sd up t dg rows cols alpha a lda b ldb (m : list A) :
  (forall x, is_zero x = true <-> x = zero) -> semi_ring_theory zero one add mul eq -> 0 <= rows -> 0 <= cols -> leading o rows cols ldb ->
  block_inside m o b ldb rows cols ->
  kept_apart m o up dg (order_of sd rows cols) a lda (block o b ldb rows cols) ->
  exists m', trmm zero add mul conj is_zero o sd up t dg rows cols alpha a lda b ldb m = Ok m' /\
    changes d m m' (block o b ldb rows cols) /\
    forall i j, 0 <= i < rows -> 0 <= j < cols -> entry d o b ldb m' i j =
      mul alpha (ap sd rows cols (op conj t (T o up dg a lda m)) (entry d o b ldb m) i j).
Proof using All.
  intros IZ SR Hr Hc Hld Hin HA. destruct o; cbn [trmm leading] in *; [apply trmm_row_ok; auto|].
  destruct (trmm_row_ok is_zero (opposite sd) (other up) t dg cols rows alpha a lda b ldb m) as (m' & E & C & V); auto.
  - now apply inside_col.
  - rewrite order_col. apply apart_col. exact (apart_iff _ _ _ _ _ _ _ _ _ (block_col b ldb rows cols) HA).
  - exists m'. split; [exact E|]. split; [exact (changes_iff d _ _ _ _ (fun p => iff_sym (block_col b ldb rows cols p)) C)|].
    intros i j Hi Hj. change (entry d ColMajor b ldb m' i j) with (entry d RowMajor b ldb m' j i). rewrite V by assumption. f_equal.
    rewrite <- (applied_col SR sd up t dg a lda m rows cols (entry d ColMajor b ldb m)). reflexivity.
Qed.
Lemma trsm_ok o sd up t dg rows cols alpha a lda b ldb (m : list A) :
  field_theory zero one add mul sub opp div inv eq -> 0 <= rows -> 0 <= cols -> leading o rows cols ldb ->
  block_inside m o b ldb rows cols ->
  kept_apart m o up dg (order_of sd rows cols) a lda (block o b ldb rows cols) ->
  invertible zero conj (order_of sd rows cols) (T o up dg a lda m) ->
  exists m', trsm zero add sub mul div conj o sd up t dg rows cols alpha a lda b ldb m = Ok m' /\
    changes d m m' (block o b ldb rows cols) /\
    forall i j, 0 <= i < rows -> 0 <= j < cols ->
      ap sd rows cols (op conj t (T o up dg a lda m)) (entry d o b ldb m') i j = mul alpha (entry d o b ldb m i j).
Proof using All.
  intros FT Hr Hc Hld Hin HA Hd. pose proof (field_semi zero one add sub mul div opp inv FT) as SR.
  destruct o; cbn [trsm leading] in *; [apply trsm_row_ok; auto|].
  destruct (trsm_row_ok (opposite sd) (other up) t dg cols rows alpha a lda b ldb m) as (m' & E & C & V); auto.
  - now apply inside_col.
  - rewrite order_col. apply apart_col. exact (apart_iff _ _ _ _ _ _ _ _ _ (block_col b ldb rows cols) HA).
  - rewrite order_col. now apply invertible_col.
  - exists m'. split; [exact E|]. split; [exact (changes_iff d _ _ _ _ (fun p => iff_sym (block_col b ldb rows cols p)) C)|].
    intros i j Hi Hj. rewrite <- (applied_col SR sd up t dg a lda m rows cols (entry d ColMajor b ldb m')).
    change (entry d ColMajor b ldb m i j) with (entry d RowMajor b ldb m j i). rewrite <- V by assumption. reflexivity.
Qed.
End Whole.
