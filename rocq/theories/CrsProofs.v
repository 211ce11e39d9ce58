(** Sparse matrix products. *)
From Coq Require Import ZArith Ring_theory Ring.
From Verif Require Import Base BaseProofs MatmulModel MatmulSpec BlasModel BlasSpec BlasProofs TriModel TriSpec TriProofs SymSpec SymProofs CrsModel CrsSpec.
From Coq Require Import ZifyNat ZifyN ZifyBool.
Ltac Zify.zify_post_hook ::= idtac.
Local Open Scope Z_scope.

(** ** Loops *)
Lemma each_n_inv {St} (P : Z -> St -> Prop) n : forall k body s, P k s ->
  (forall j s, k <= j < k + Z.of_nat n -> P j s -> exists s', body j s = Ok s' /\ P (j + 1) s') ->
  exists s', each_n n k body s = Ok s' /\ P (k + Z.of_nat n) s'.
Proof.
  induction n as [|n IH]; intros k body s H Hs; cbn [each_n].
  - exists s. split; [reflexivity|]. now replace (k + Z.of_nat 0) with k by lia.
  - destruct (Hs k s ltac:(lia) H) as (s1 & -> & H1). cbn [bind].
    destruct (IH (k + 1) body s1 H1) as (s' & E & H'); [intros j s2 Hj; apply Hs; lia|].
    exists s'. split; [exact E|]. now replace (k + Z.of_nat (S n)) with (k + 1 + Z.of_nat n) by lia.
Qed.
Lemma each_inv {St} (P : Z -> St -> Prop) lo hi body s : lo <= hi -> P lo s ->
  (forall j s, lo <= j < hi -> P j s -> exists s', body j s = Ok s' /\ P (j + 1) s') ->
  exists s', each lo hi body s = Ok s' /\ P hi s'.
Proof.
  intros L H Hs. unfold each. destruct (each_n_inv P (Z.to_nat (hi - lo)) lo body s H) as (s' & E & H').
  - intros j s1 Hj. apply Hs. lia.
  - exists s'. split; [exact E|]. now replace hi with (lo + Z.of_nat (Z.to_nat (hi - lo))) by lia.
Qed.
Lemma each_none {St} lo hi (body : Z -> St -> outcome St) s : hi <= lo -> each lo hi body s = Ok s.
Proof. intros H. unfold each. now replace (Z.to_nat (hi - lo)) with O by lia. Qed.

(** ** Compressed storage *)
Section Storage.
Variables (lines width : Z) (ptr idx : list Z).
Hypothesis C : compressed lines width ptr idx.
Lemma first_mono i : 0 <= i < lines -> first_of ptr i <= first_of ptr (i + 1).
Proof using C. intros Hi. destruct C as (_ & M & _). specialize (M i Hi). unfold first_of. lia. Qed.
Lemma first_zero : first_of ptr 0 = 0.
Proof using Type. unfold first_of. lia. Qed.
Lemma first_le i : 0 <= i <= lines -> 0 <= first_of ptr i <= first_of ptr lines.
Proof using C.
  intros Hi. assert (Lo : forall k, 0 <= k -> k <= lines -> 0 <= first_of ptr k).
  { intros k Hk. pattern k. apply natlike_ind; [intros; rewrite first_zero; lia| |exact Hk].
    intros q Hq IH Hl. pose proof (first_mono q ltac:(lia)). unfold Z.succ. lia. }
  assert (Up : forall k, 0 <= k -> k <= lines -> first_of ptr (lines - k) <= first_of ptr lines).
  { intros k Hk. pattern k. apply natlike_ind; [intros; rewrite Z.sub_0_r; lia| |exact Hk].
    intros q Hq IH Hl. pose proof (first_mono (lines - Z.succ q) ltac:(lia)) as M. replace (lines - Z.succ q + 1) with (lines - q) in M by lia. lia. }
  split; [apply Lo; lia|]. replace i with (lines - (lines - i)) by lia. apply Up; lia.
Qed.
Lemma line_position i k : 0 <= i < lines -> in_line ptr i k -> 0 <= k < first_of ptr lines.
Proof using C. intros Hi Hk. pose proof (first_le i ltac:(lia)). pose proof (first_le (i + 1) ltac:(lia)). unfold in_line in Hk. lia. Qed.
Lemma line_place i k : 0 <= i < lines -> in_line ptr i k -> 0 <= place ptr idx k < width.
Proof using C. intros Hi Hk. destruct C as (_ & _ & P). apply P. now apply (line_position i). Qed.
Lemma load_ptr i : 0 <= i <= lines -> load ptr i = Ok (val 0 ptr i).
Proof using C. intros Hi. destruct C as (L & _ & _). apply load_ok. lia. Qed.
Lemma load_idx i k : 0 <= i < lines -> in_line ptr i k -> load idx k = Ok (val 0 idx k).
Proof using C. intros Hi Hk. pose proof (line_position i k Hi Hk) as K. destruct C as (_ & _ & P). apply load_ok. specialize (P k K). lia. Qed.
(** Sorted lines inside a triangle have the diagonal entry at the edge *)
Lemma sorted_triangle up : increasing lines ptr idx -> inside_triangle up lines ptr idx -> triangle_only up lines ptr idx.
Proof using Type.
  intros S T i k Hi Hk. specialize (T i k Hi Hk) as Tk. destruct up; (split; [exact Tk|]); intros E.
  - destruct (Z.eq_dec k (first_of ptr i)) as [|N]; auto. exfalso.
    assert (K : in_line ptr i (first_of ptr i)) by (unfold in_line in *; lia).
    pose proof (S i _ _ Hi K Hk ltac:(unfold in_line in *; lia)). pose proof (T i _ Hi K) as T'. cbn in T'. lia.
  - destruct (Z.eq_dec k (first_of ptr (i + 1) - 1)) as [|N]; auto. exfalso.
    assert (K : in_line ptr i (first_of ptr (i + 1) - 1)) by (unfold in_line in *; lia).
    pose proof (S i _ _ Hi Hk K ltac:(unfold in_line in *; lia)). pose proof (T i _ Hi K) as T'. cbn in T'. lia.
Qed.
End Storage.

Section Sums.
Context {A : Type} (zero one : A) (add mul : A -> A -> A).
Hypothesis SR : semi_ring_theory zero one add mul eq.
Add Ring CrsSums : SR.
Local Notation zs := (zsum zero add).
Local Infix "[+]" := add (at level 50, left associativity).
Local Infix "[*]" := mul (at level 40, left associativity).

Lemma zsum_swap n w f : zs n (fun i => zs w (f i)) = zs w (fun j => zs n (fun i => f i j)).
Proof using SR.
  destruct (Z_le_gt_dec n 0) as [H|H].
  - rewrite zsum_nonpos by lia. symmetry. transitivity (zs w (fun _ => zero)); [|apply (zsum_zero zero one add mul SR)].
    apply zsum_ext. intros. now apply zsum_nonpos.
  - apply (zsum_ind (fun n => zs n (fun i => zs w (f i)) = zs w (fun j => zs n (fun i => f i j))) n); [| |lia].
    + rewrite zsum_nonpos by lia. symmetry. transitivity (zs w (fun _ => zero)); [|apply (zsum_zero zero one add mul SR)].
      apply zsum_ext. intros. now apply zsum_nonpos.
    + intros k Hk E. rewrite zsum_S, E, <- (zsum_add zero one add mul SR) by lia. apply zsum_ext. intros j Hj. now rewrite zsum_S by lia.
Qed.
Lemma zsum_mul_r n c f : zs n (fun i => f i [*] c) = zs n f [*] c.
Proof using SR.
  transitivity (c [*] zs n f); [|ring]. rewrite <- (zsum_mul zero one add mul SR). apply zsum_ext. intros. ring.
Qed.
Lemma zsum_additive f n t : additive zero add f -> f (zs n t) = zs n (fun i => f (t i)).
Proof using SR.
  intros (F0 & FA). destruct (Z_le_gt_dec n 0) as [H|H]; [now rewrite !zsum_nonpos by lia|].
  apply (zsum_ind (fun n => f (zs n t) = zs n (fun i => f (t i))) n); [now rewrite !zsum_nonpos by lia| |lia].
  intros k Hk E. now rewrite !zsum_S, FA, E by lia.
Qed.
Lemma zsum_one n q v : 0 <= q < n -> zs n (fun k => if k =? q then v k else zero) = v q.
Proof using SR.
  intros H. transitivity (zs n (fun k => if q =? k then v k else zero)).
  - apply zsum_ext. intros i Hi. now rewrite Z.eqb_sym.
  - rewrite (zsum_pick zero one add mul SR). now replace ((0 <=? q) && (q <? n)) with true by lia.
Qed.
Lemma if_term (b : bool) (u v : A) : (if b then u else zero) [*] v = if b then u [*] v else zero.
Proof using SR. destruct b; ring. Qed.

End Sums.

Section Product.
Context {A : Type} (d zero one : A) (add mul : A -> A -> A) (conj re : A -> A) (is_zero is_one : A -> bool).
Hypothesis SR : semi_ring_theory zero one add mul eq.
Hypothesis HZ : forall v, is_zero v = true <-> v = zero.
Hypothesis HO : forall v, is_one v = true <-> v = one.
Add Ring CrsRing : SR.
Local Notation zs := (zsum zero add).
Local Infix "[+]" := add (at level 50, left associativity).
Local Infix "[*]" := mul (at level 40, left associativity).

(** ** The vector y as a function of the place *)
Section Vector.
Variables (m : list A) (y len : Z).
Hypothesis Hy : segment_inside m y len.
Definition holds (s : list A) (Y : Z -> A) : Prop :=
  changes d m s (segment y len) /\ forall p, 0 <= p < len -> val d s (y + p) = Y p.
Lemma holds_start : holds m (fun p => val d m (y + p)).
Proof. split; [apply changes_refl|reflexivity]. Qed.
Lemma holds_ext s Y Y' : (forall p, 0 <= p < len -> Y p = Y' p) -> holds s Y -> holds s Y'.
Proof. intros E (H1 & H2). split; [exact H1|]. intros p Hp. rewrite H2 by exact Hp. now apply E. Qed.
Lemma holds_in s Y p : holds s Y -> 0 <= p < len -> 0 <= y + p < Z.of_nat (length s).
Proof. intros ((L & _) & _) Hp. rewrite L. apply Hy. unfold segment. lia. Qed.
Lemma holds_store s Y p v : holds s Y -> 0 <= p < len -> exists s', store s (y + p) v = Ok s' /\ holds s' (fun q => if q =? p then v else Y q).
Proof.
  intros H Hp. pose proof (holds_in s Y p H Hp) as I. destruct (store_ok d s (y + p) v I) as (s' & E & L & V).
  exists s'. split; [exact E|]. destruct H as ((Ls & Hc) & HY). split.
  - split; [lia|]. intros q Hq N. rewrite V by lia. replace (q =? y + p) with false by (unfold segment in N; lia). now apply Hc.
  - intros q Hq. rewrite V by (rewrite Ls; apply Hy; unfold segment; lia). replace (y + q =? y + p) with (q =? p) by lia.
    destruct (q =? p); auto.
Qed.
Lemma holds_other s Y q : holds s Y -> 0 <= q < Z.of_nat (length m) -> ~ segment y len q -> load s q = Ok (val d m q).
Proof.
  intros ((L & H) & _) Hq N. rewrite (load_ok d) by lia. now rewrite H.
Qed.
Lemma add_term_ok s Y alpha f p k q : holds s Y -> 0 <= p < len ->
  0 <= k < Z.of_nat (length m) -> ~ segment y len k -> 0 <= q < Z.of_nat (length m) -> ~ segment y len q ->
  exists s', add_term add mul alpha f (y + p) k q s = Ok s' /\
    holds s' (fun r => Y r [+] (if r =? p then alpha [*] f (val d m k) [*] val d m q else zero)).
Proof.
  intros H Hp Hk Nk Hq Nq. unfold add_term. rewrite (load_ok d) by now apply (holds_in s Y). cbn [bind].
  rewrite (holds_other s Y k H Hk Nk). cbn [bind]. rewrite (holds_other s Y q H Hq Nq). cbn [bind].
  destruct (holds_store s Y p (val d s (y + p) [+] alpha [*] f (val d m k) [*] val d m q) H Hp) as (s' & E & H').
  exists s'. split; [exact E|]. apply (holds_ext _ _ _) with (2 := H'). intros r Hr. cbn beta.
  destruct (r =? p) eqn:Er; [|ring]. replace r with p by lia. destruct H as (_ & HY). now rewrite HY.
Qed.
(** A loop that adds things *)
Lemma each_adds lo hi body (T : Z -> Z -> A) s Y : lo <= hi -> holds s Y ->
  (forall k s Y, lo <= k < hi -> holds s Y -> exists s', body k s = Ok s' /\ holds s' (fun r => Y r [+] T k r)) ->
  exists s', each lo hi body s = Ok s' /\ holds s' (fun r => Y r [+] zs (hi - lo) (fun t => T (lo + t) r)).
Proof.
  intros L H Hb. destruct (each_inv (fun k s => holds s (fun r => Y r [+] zs (k - lo) (fun t => T (lo + t) r))) lo hi body s L) as (s' & E & H').
  - apply (holds_ext _ Y); [|exact H]. intros r Hr. rewrite zsum_nonpos by lia. ring.
  - intros j s1 Hj H1. destruct (Hb j s1 _ Hj H1) as (s2 & E2 & H2). exists s2. split; [exact E2|].
    apply (holds_ext _ _ _) with (2 := H2). intros r Hr. cbn beta.
    replace (j + 1 - lo) with (j - lo + 1) by lia. rewrite zsum_S by lia. replace (lo + (j - lo)) with j by lia. ring.
  - exists s'. now split.
Qed.
(** Scaling *)
Lemma rescale_ok s Y beta p : holds s Y -> 0 <= p < len ->
  exists s', rescale zero mul is_zero is_one beta (y + p) s = Ok s' /\ holds s' (fun r => if r =? p then beta [*] Y r else Y r).
Proof.
  intros H Hp. unfold rescale. destruct (is_zero beta) eqn:Ez; [|destruct (is_one beta) eqn:Eo].
  - apply HZ in Ez. destruct (holds_store s Y p zero H Hp) as (s' & E & H'). exists s'. split; [exact E|].
    apply (holds_ext _ _ _) with (2 := H'). intros r Hr. cbn beta. destruct (r =? p); [subst beta; ring|reflexivity].
  - apply HO in Eo. exists s. split; [reflexivity|]. apply (holds_ext _ _ _) with (2 := H). intros r Hr. destruct (r =? p); [subst beta; ring|reflexivity].
  - rewrite (load_ok d) by now apply (holds_in s Y). cbn [bind].
    destruct (holds_store s Y p (val d s (y + p) [*] beta) H Hp) as (s' & E & H'). exists s'. split; [exact E|].
    apply (holds_ext _ _ _) with (2 := H'). intros r Hr. cbn beta. destruct (r =? p) eqn:Er; [|reflexivity].
    replace r with p by lia. destruct H as (_ & HY). rewrite HY by exact Hp. ring.
Qed.
Lemma rescale_all_ok beta : 0 <= len -> exists s, rescale_all zero mul is_zero is_one len beta y m = Ok s /\ holds s (fun r => beta [*] val d m (y + r)).
Proof.
  intros Hl. set (Y0 := fun r => val d m (y + r)).
  assert (Step : forall body, (forall i s, body i s = rescale zero mul is_zero is_one beta (y + (i - 1)) s) ->
    exists s, each 1 (len + 1) body m = Ok s /\ holds s (fun r => beta [*] Y0 r)).
  { intros body Hb. destruct (each_inv (fun i s => holds s (fun r => if r <? i - 1 then beta [*] Y0 r else Y0 r)) 1 (len + 1) body m) as (s & E & H); [lia| | |].
    - apply (holds_ext _ Y0); [|apply holds_start]. intros r Hr. now replace (r <? 1 - 1) with false by lia.
    - intros j s Hj H. rewrite Hb. destruct (rescale_ok s _ beta (j - 1) H ltac:(lia)) as (s' & E & H'). exists s'. split; [exact E|].
      apply (holds_ext _ _ _) with (2 := H'). intros r Hr. cbn beta. destruct (Z.eqb_spec r (j - 1)) as [Er|Er].
      + replace (r <? j - 1) with false by lia. now replace (r <? j + 1 - 1) with true by lia.
      + replace (r <? j + 1 - 1) with (r <? j - 1) by lia. reflexivity.
    - exists s. split; [exact E|]. apply (holds_ext _ _ _) with (2 := H). intros r Hr. cbn beta. now replace (r <? len + 1 - 1) with true by lia. }
  unfold rescale_all. destruct (is_zero beta) eqn:Ez; [|destruct (is_one beta) eqn:Eo].
  - apply Step. intros i s. unfold rescale. now rewrite Ez.
  - exists m. split; [reflexivity|]. apply HO in Eo. apply (holds_ext m Y0); [|apply holds_start]. intros r _. unfold Y0. rewrite Eo. ring.
  - apply Step. intros i s. unfold rescale. now rewrite Ez, Eo.
Qed.
End Vector.

(** ** Sums over the stored entries *)
Section Entries.
Variables (m : list A) (a lines width : Z) (ptr idx : list Z).
Hypothesis C : compressed lines width ptr idx.
Local Notation entry := (crs_entry d zero add a ptr idx m).
Local Notation first := (first_of ptr).
Local Notation count i := (first_of ptr (i + 1) - first_of ptr i).
Lemma entry_of f i j : additive zero add f ->
  f (entry i j) = zs (count i) (fun t => if place ptr idx (first i + t) =? j then f (val d m (a + (first i + t))) else zero).
Proof.
  intros F. unfold crs_entry. cbv zeta. rewrite zsum_additive with (f := f) (one := one) (mul := mul) by assumption.
  apply zsum_ext. intros t Ht. destruct F as (F0 & _). destruct (_ =? j); auto.
Qed.
Lemma line_sum i alpha (F : Z -> A -> A) X : 0 <= i < lines -> (forall j, additive zero add (F j)) ->
  zs (count i) (fun t => let k := first i + t in alpha [*] F (place ptr idx k) (val d m (a + k)) [*] X (place ptr idx k)) =
  alpha [*] zs width (fun j => F j (entry i j) [*] X j).
Proof.
  intros Hi HF. rewrite (zsum_ext zero add width _ (fun j => zs (count i) (fun t =>
    if place ptr idx (first i + t) =? j then F j (val d m (a + (first i + t))) [*] X j else zero))).
  - rewrite (zsum_swap zero one add mul SR), <- (zsum_mul zero one add mul SR). apply zsum_ext. intros t Ht. cbv zeta.
    rewrite (zsum_pick zero one add mul SR). pose proof (line_place lines width ptr idx C i (first i + t) Hi ltac:(unfold in_line; lia)) as P.
    replace ((0 <=? place ptr idx (first i + t)) && (place ptr idx (first i + t) <? width)) with true by lia. ring.
  - intros j Hj. rewrite (entry_of (F j)) by apply HF. rewrite <- (zsum_mul_r zero one add mul SR). apply zsum_ext. intros t Ht. apply (if_term zero one add mul SR).
Qed.
Lemma column_sum r alpha (G : Z -> A -> A) X : (forall i, additive zero add (G i)) ->
  zs lines (fun i => zs (count i) (fun t => let k := first i + t in if r =? place ptr idx k then alpha [*] G i (val d m (a + k)) [*] X i else zero)) =
  alpha [*] zs lines (fun i => G i (entry i r) [*] X i).
Proof.
  intros HG. rewrite <- (zsum_mul zero one add mul SR). apply zsum_ext. intros i Hi. rewrite (entry_of (G i)) by apply HG.
  rewrite <- (zsum_mul_r zero one add mul SR), <- (zsum_mul zero one add mul SR). apply zsum_ext. intros t Ht. cbv zeta. rewrite Z.eqb_sym. destruct (_ =? r); ring.
Qed.
(** Outside the triangle there is nothing *)
Lemma entry_none up i j : 0 <= i < lines -> triangle_only up lines ptr idx -> kept up NonUnit i j = false -> entry i j = zero.
Proof.
  intros Hi T K. unfold crs_entry. cbv zeta. transitivity (zs (count i) (fun _ => zero)); [|apply (zsum_zero zero one add mul SR)].
  apply zsum_ext. intros t Ht. specialize (T i (first i + t) Hi ltac:(unfold in_line; lia)).
  replace (place ptr idx (first i + t) =? j) with false; [reflexivity|]. symmetry. unfold kept in K. destruct up; lia.
Qed.
End Entries.
Lemma additive_id : additive zero add (fun v => v).
Proof. split; reflexivity. Qed.
Lemma additive_zero : additive zero add (fun _ => zero).
Proof. split; [reflexivity|]. intros. ring. Qed.

(** ** gecrsmv *)
Lemma gecrsmv_ok t rows cols alpha a ia ja x beta y (m : list A) :
  (is_conj t = true -> additive zero add conj) -> 0 <= cols -> compressed rows cols ia ja ->
  segment_inside m y (if is_trans t then cols else rows) ->
  segment_apart m x (if is_trans t then rows else cols) (segment y (if is_trans t then cols else rows)) ->
  segment_apart m a (first_of ia rows) (segment y (if is_trans t then cols else rows)) ->
  exists m', gecrsmv zero add mul conj is_zero is_one t rows cols alpha a ia ja x beta y m = Ok m' /\
    changes d m m' (segment y (if is_trans t then cols else rows)) /\
    forall i, 0 <= i < (if is_trans t then cols else rows) -> val d m' (y + i) =
      beta [*] val d m (y + i) [+] alpha [*] zs (if is_trans t then rows else cols) (fun j => op conj t (crs_entry d zero add a ia ja m) i j [*] val d m (x + j)).
Proof.
  intros HC Hc C Hy Hx Ha. pose proof C as (Hr & _ & _). unfold gecrsmv. rewrite (load_ptr rows cols ia ja C) by lia. cbn [bind].
  set (f := if is_conj t then conj else fun v => v).
  assert (F : additive zero add f) by (unfold f; destruct (is_conj t) eqn:E; [now apply HC|apply additive_id]). clear HC.
  destruct (is_trans t) eqn:Et; cbv beta iota zeta in *.
  - destruct (rescale_all_ok m y cols Hy beta Hc) as (m0 & -> & H0). cbn [bind].
    destruct (each_adds m y cols 1 (rows + 1) (fun i m =>
      do lo <- load ia (i - 1); do hi <- load ia i;
      each lo hi (fun k m => do j <- load ja (k - val 0 ia 0); add_term add mul alpha f (y + (j - val 0 ia 0)) (a + (k - val 0 ia 0)) (x + (i - 1)) m) m)
      (fun i r => zs (first_of ia (i - 1 + 1) - first_of ia (i - 1)) (fun t => let k := first_of ia (i - 1) + t in
        if r =? place ia ja k then alpha [*] f (val d m (a + k)) [*] val d m (x + (i - 1)) else zero)) m0 _ ltac:(lia) H0) as (m' & E & H).
    + intros i s Y Hi H. rewrite (load_ptr rows cols ia ja C) by lia. cbn [bind]. rewrite (load_ptr rows cols ia ja C) by lia. cbn [bind].
      pose proof (first_mono rows cols ia ja C (i - 1) ltac:(lia)) as M. replace (i - 1 + 1) with i in * by lia.
      destruct (each_adds m y cols (val 0 ia (i - 1)) (val 0 ia i)
        (fun k m => do j <- load ja (k - val 0 ia 0); add_term add mul alpha f (y + (j - val 0 ia 0)) (a + (k - val 0 ia 0)) (x + (i - 1)) m)
        (fun k r => if r =? place ia ja (k - val 0 ia 0) then alpha [*] f (val d m (a + (k - val 0 ia 0))) [*] val d m (x + (i - 1)) else zero) s Y) as (s' & E & H').
      * unfold first_of in M. lia.
      * exact H.
      * intros k s1 Y1 Hk H1. assert (K : in_line ia (i - 1) (k - val 0 ia 0)) by (unfold in_line, first_of; replace (i - 1 + 1) with i by lia; lia).
        rewrite (load_idx rows cols ia ja C (i - 1) _ ltac:(lia) K). cbn [bind].
        pose proof (line_position rows cols ia ja C (i - 1) _ ltac:(lia) K) as K2. pose proof (line_place rows cols ia ja C (i - 1) _ ltac:(lia) K) as K3.
        destruct (Ha (a + (k - val 0 ia 0)) ltac:(unfold segment; lia)) as (A1 & A2). destruct (Hx (x + (i - 1)) ltac:(unfold segment; lia)) as (X1 & X2).
        apply (add_term_ok m y cols Hy s1 Y1 alpha f (place ia ja (k - val 0 ia 0))); auto.
      * exists s'. split; [exact E|]. apply (holds_ext m y cols _ _ _) with (2 := H'). intros r Hrr. cbn beta. f_equal.
        replace (first_of ia i - first_of ia (i - 1)) with (val 0 ia i - val 0 ia (i - 1)) by (unfold first_of; lia).
        apply zsum_ext. intros q Hq. cbv zeta. now replace (val 0 ia (i - 1) + q - val 0 ia 0) with (first_of ia (i - 1) + q) by (unfold first_of; lia).
    + exists m'. split; [exact E|]. destruct H as (H1 & H2). split; [exact H1|]. intros r Hrr. rewrite H2 by exact Hrr. f_equal.
      replace (rows + 1 - 1) with rows by lia.
      rewrite (zsum_ext zero add rows _ (fun i => zs (first_of ia (i + 1) - first_of ia i) (fun t => let k := first_of ia i + t in if r =? place ia ja k then alpha [*] f (val d m (a + k)) [*] val d m (x + i) else zero))).
      * rewrite (column_sum m a rows ia ja r alpha (fun _ => f) (fun i => val d m (x + i))) by (intros; exact F).
        f_equal. apply zsum_ext. intros i Hi. f_equal. unfold f. destruct t; cbn in Et; try discriminate Et; reflexivity.
      * intros i Hi. now replace (1 + i - 1) with i by lia.
  - destruct (each_inv (fun i s => holds m y rows s (fun r => if r <? i - 1 then beta [*] val d m (y + r) [+]
        zs (first_of ia (r + 1) - first_of ia r) (fun t => let k := first_of ia r + t in alpha [*] f (val d m (a + k)) [*] val d m (x + place ia ja k)) else val d m (y + r)))
      1 (rows + 1) (fun i m =>
      do m1 <- rescale zero mul is_zero is_one beta (y + (i - 1)) m;
      do lo <- load ia (i - 1); do hi <- load ia i;
      each lo hi (fun k m => do j <- load ja (k - val 0 ia 0); add_term add mul alpha f (y + (i - 1)) (a + (k - val 0 ia 0)) (x + (j - val 0 ia 0)) m) m1) m) as (m' & E & H).
    + lia.
    + apply (holds_ext m y rows m (fun r => val d m (y + r))); [|apply holds_start]. intros r Hrr. now replace (r <? 1 - 1) with false by lia.
    + intros i s Hi H. destruct (rescale_ok m y rows Hy s _ beta (i - 1) H ltac:(lia)) as (s1 & -> & H1). cbn [bind].
      rewrite (load_ptr rows cols ia ja C) by lia. cbn [bind]. rewrite (load_ptr rows cols ia ja C) by lia. cbn [bind].
      pose proof (first_mono rows cols ia ja C (i - 1) ltac:(lia)) as M. replace (i - 1 + 1) with i in * by lia.
      destruct (each_adds m y rows (val 0 ia (i - 1)) (val 0 ia i)
        (fun k m => do j <- load ja (k - val 0 ia 0); add_term add mul alpha f (y + (i - 1)) (a + (k - val 0 ia 0)) (x + (j - val 0 ia 0)) m)
        (fun k r => if r =? i - 1 then alpha [*] f (val d m (a + (k - val 0 ia 0))) [*] val d m (x + place ia ja (k - val 0 ia 0)) else zero) s1 _ ltac:(unfold first_of in M; lia) H1) as (s' & E & H').
      * intros k s2 Y2 Hk H2. assert (K : in_line ia (i - 1) (k - val 0 ia 0)) by (unfold in_line, first_of; replace (i - 1 + 1) with i by lia; lia).
        rewrite (load_idx rows cols ia ja C (i - 1) _ ltac:(lia) K). cbn [bind].
        pose proof (line_position rows cols ia ja C (i - 1) _ ltac:(lia) K) as K2. pose proof (line_place rows cols ia ja C (i - 1) _ ltac:(lia) K) as K3.
        destruct (Ha (a + (k - val 0 ia 0)) ltac:(unfold segment; lia)) as (A1 & A2). destruct (Hx (x + place ia ja (k - val 0 ia 0)) ltac:(unfold segment; lia)) as (X1 & X2).
        apply (add_term_ok m y rows Hy s2 Y2 alpha f (i - 1)); auto. lia.
      * exists s'. split; [exact E|]. apply (holds_ext m y rows _ _ _) with (2 := H'). intros r Hrr. cbn beta.
        destruct (Z.eqb_spec r (i - 1)) as [Er|Er].
        -- replace (r <? i + 1 - 1) with true by lia. replace (r <? i - 1) with false by lia. f_equal. subst r. replace (i - 1 + 1) with i by lia.
           replace (first_of ia i - first_of ia (i - 1)) with (val 0 ia i - val 0 ia (i - 1)) by (unfold first_of; lia).
           apply zsum_ext. intros q Hq. cbv zeta. now replace (val 0 ia (i - 1) + q - val 0 ia 0) with (first_of ia (i - 1) + q) by (unfold first_of; lia).
        -- replace (r <? i + 1 - 1) with (r <? i - 1) by lia. rewrite (zsum_zero zero one add mul SR). apply (add_0_r zero one add mul SR).
    + exists m'. split; [exact E|]. destruct H as (H1 & H2). split; [exact H1|]. intros r Hrr. rewrite H2 by exact Hrr.
      replace (r <? rows + 1 - 1) with true by lia. f_equal.
      rewrite (line_sum m a rows cols ia ja C r alpha (fun _ => f) (fun j => val d m (x + j)) Hrr) by (intros; exact F).
      f_equal. apply zsum_ext. intros i Hi. f_equal. unfold f. destruct t; cbn in Et; try discriminate Et; reflexivity.
Qed.

(** ** Symmetric and Hermitian matrices *)
Section Half.
Variables (up : uplo) (f g rr : A -> A) (n : Z) (alpha : A) (a : Z) (ptr idx : list Z) (x y : Z) (m : list A).
Hypothesis (Ff : additive zero add f) (Fg : additive zero add g) (Fr : additive zero add rr).
Hypothesis C : compressed n n ptr idx.
Hypothesis T : triangle_only up n ptr idx.
Hypothesis Hy : segment_inside m y n.
Hypothesis Hx : segment_apart m x n (segment y n).
Hypothesis Ha : segment_apart m a (first_of ptr n) (segment y n).
Local Notation base := (val 0 ptr 0).
Local Notation entry := (crs_entry d zero add a ptr idx m).
Local Notation hold := (holds m y n).
(** What position k adds to y[r] in line i *)
Definition two (i k r : Z) : A :=
  (if r =? i then alpha [*] f (val d m (a + k)) [*] val d m (x + place ptr idx k) else zero) [+]
  (if r =? place ptr idx k then alpha [*] g (val d m (a + k)) [*] val d m (x + i) else zero).
Definition term (i k r : Z) : A :=
  if place ptr idx k =? i then (if r =? i then alpha [*] rr (val d m (a + k)) [*] val d m (x + i) else zero) else two i k r.
Lemma both_ok i k s Y : 0 <= i < n -> in_line ptr i (k - base) -> hold s Y ->
  exists s', both_terms add mul alpha f g a idx base x y (i + 1) k s = Ok s' /\ hold s' (fun r => Y r [+] two i (k - base) r).
Proof.
  intros Hi K H. unfold both_terms. rewrite (load_idx n n ptr idx C i _ Hi K). cbn [bind].
  pose proof (line_position n n ptr idx C i _ Hi K) as K2. pose proof (line_place n n ptr idx C i _ Hi K) as K3.
  destruct (Ha (a + (k - base)) ltac:(unfold segment; lia)) as (A1 & A2).
  destruct (Hx (x + i) ltac:(unfold segment; lia)) as (X1 & X2).
  destruct (Hx (x + place ptr idx (k - base)) ltac:(unfold segment; lia)) as (X3 & X4). replace (i + 1 - 1) with i by lia.
  destruct (add_term_ok m y n Hy s Y alpha f i (a + (k - base)) (x + place ptr idx (k - base))) as (s1 & E1 & H1); auto.
  change (val 0 idx (k - base) - base) with (place ptr idx (k - base)). rewrite E1. cbn [bind].
  destruct (add_term_ok m y n Hy s1 _ alpha g (place ptr idx (k - base)) (a + (k - base)) (x + i) H1) as (s2 & E2 & H2); auto.
  exists s2. split; [exact E2|]. apply (holds_ext m y n _ _ _) with (2 := H2). intros r Hr. cbn beta. unfold two. ring.
Qed.
Lemma edge_ok i k s Y : 0 <= i < n -> in_line ptr i (k - base) -> hold s Y ->
  exists s', edge_term add mul alpha f g rr a idx base x y (i + 1) k s = Ok s' /\ hold s' (fun r => Y r [+] term i (k - base) r).
Proof.
  intros Hi K H. unfold edge_term. rewrite (load_idx n n ptr idx C i _ Hi K). cbn [bind]. replace (i + 1 - 1) with i by lia.
  replace (val 0 idx (k - base) =? base + i) with (place ptr idx (k - base) =? i) by (unfold place; lia).
  pose proof (line_position n n ptr idx C i _ Hi K) as K2. pose proof (line_place n n ptr idx C i _ Hi K) as K3.
  change (val 0 idx (k - base) - base) with (place ptr idx (k - base)).
  destruct (Z.eqb_spec (place ptr idx (k - base)) i) as [E|E].
  - destruct (Ha (a + (k - base)) ltac:(unfold segment; lia)) as (A1 & A2).
    destruct (Hx (x + i) ltac:(unfold segment; lia)) as (X1 & X2). rewrite E.
    destruct (add_term_ok m y n Hy s Y alpha rr i (a + (k - base)) (x + i)) as (s1 & E1 & H1); auto.
    exists s1. split; [exact E1|]. apply (holds_ext m y n _ _ _) with (2 := H1). intros r Hr. cbn beta. unfold term.
    now rewrite E, Z.eqb_refl.
  - destruct (both_ok i k s Y Hi K H) as (s1 & E1 & H1). exists s1. split; [exact E1|].
    apply (holds_ext m y n _ _ _) with (2 := H1). intros r Hr. cbn beta. unfold term.
    now replace (place ptr idx (k - base) =? i) with false by lia.
Qed.
(** Away from the edge of the line there is no diagonal entry *)
Lemma inner_ok i lo hi s Y : 0 <= i < n -> lo <= hi -> first_of ptr i <= lo - base -> hi - base <= first_of ptr (i + 1) ->
  match up with Upper => first_of ptr i < lo - base | Lower => hi - base < first_of ptr (i + 1) end -> hold s Y ->
  exists s', each lo hi (both_terms add mul alpha f g a idx base x y (i + 1)) s = Ok s' /\
    hold s' (fun r => Y r [+] zs (hi - lo) (fun t => term i (lo - base + t) r)).
Proof.
  intros Hi L L1 L2 L3 H.
  destruct (each_adds m y n lo hi (both_terms add mul alpha f g a idx base x y (i + 1)) (fun k r => term i (k - base) r) s Y L H) as (s' & E & H').
  - intros k s1 Y1 Hk H1. assert (K : in_line ptr i (k - base)) by (unfold in_line; lia).
    destruct (both_ok i k s1 Y1 Hi K H1) as (s2 & E2 & H2). exists s2. split; [exact E2|].
    apply (holds_ext m y n _ _ _) with (2 := H2). intros r Hr. cbn beta. unfold term.
    replace (place ptr idx (k - base) =? i) with false; [reflexivity|]. symmetry. apply Z.eqb_neq. intros E3.
    pose proof (T i _ Hi K) as T'. destruct up; destruct T' as (_ & T'); specialize (T' E3); lia.
  - exists s'. split; [exact E|]. apply (holds_ext m y n _ _ _) with (2 := H'). intros r Hr. cbn beta. f_equal. apply zsum_ext. intros t Ht.
    now replace (lo + t - base) with (lo - base + t) by lia.
Qed.
Lemma half_line_ok i s Y : 0 <= i < n -> hold s Y ->
  exists s', (do lo <- load ptr (i + 1 - 1); do hi <- load ptr (i + 1);
    if lo <? hi then
      match up with
      | Upper =>
          do m1 <- edge_term add mul alpha f g rr a idx base x y (i + 1) lo s;
          each (lo + 1) hi (both_terms add mul alpha f g a idx base x y (i + 1)) m1
      | Lower =>
          do m1 <- each lo (hi - 1) (both_terms add mul alpha f g a idx base x y (i + 1)) s;
          edge_term add mul alpha f g rr a idx base x y (i + 1) (hi - 1) m1
      end
    else Ok s) = Ok s' /\
    hold s' (fun r => Y r [+] zs (first_of ptr (i + 1) - first_of ptr i) (fun t => term i (first_of ptr i + t) r)).
Proof.
  intros Hi H. rewrite (load_ptr n n ptr idx C) by lia. cbn [bind]. rewrite (load_ptr n n ptr idx C) by lia. cbn [bind]. replace (i + 1 - 1) with i by lia.
  pose proof (first_mono n n ptr idx C i Hi) as M.
  assert (L1 : first_of ptr i = val 0 ptr i - base) by reflexivity. assert (L2 : first_of ptr (i + 1) = val 0 ptr (i + 1) - base) by reflexivity.
  set (lo := val 0 ptr i) in *. set (hi := val 0 ptr (i + 1)) in *.
  destruct (Z.ltb_spec lo hi) as [Lt|Ge].
  - pose proof inner_ok as IN. destruct up eqn:Eu.
    + destruct (edge_ok i lo s Y Hi ltac:(unfold in_line; lia) H) as (s1 & -> & H1). cbn [bind].
      destruct (IN i (lo + 1) hi s1 _ Hi ltac:(lia) ltac:(lia) ltac:(lia) ltac:(lia) H1) as (s2 & E2 & H2).
      exists s2. split; [exact E2|]. apply (holds_ext m y n _ _ _) with (2 := H2). intros r Hr. cbn beta.
      rewrite (zsum_first zero one add mul SR (first_of ptr (i + 1) - first_of ptr i)) by lia. rewrite (SRadd_assoc SR). f_equal.
      * f_equal. f_equal. lia.
      * replace (first_of ptr (i + 1) - first_of ptr i - 1) with (hi - (lo + 1)) by lia. apply zsum_ext. intros t Ht. f_equal. lia.
    + destruct (IN i lo (hi - 1) s Y Hi ltac:(lia) ltac:(lia) ltac:(lia) ltac:(lia) H) as (s1 & -> & H1). cbn [bind].
      destruct (edge_ok i (hi - 1) s1 _ Hi ltac:(unfold in_line; lia) H1) as (s2 & E2 & H2).
      exists s2. split; [exact E2|]. apply (holds_ext m y n _ _ _) with (2 := H2). intros r Hr. cbn beta.
      replace (first_of ptr (i + 1) - first_of ptr i) with (hi - 1 - lo + 1) by lia. rewrite zsum_S by lia. rewrite (SRadd_assoc SR). f_equal. f_equal. lia.
  - exists s. split; [reflexivity|]. apply (holds_ext m y n _ _ _) with (2 := H). intros r Hr. rewrite zsum_nonpos by lia. ring.
Qed.
Definition full (i j : Z) : A := if i =? j then rr (entry i i) else if kept up NonUnit i j then f (entry i j) else g (entry j i).
Lemma half_sum r : 0 <= r < n ->
  zs n (fun i => zs (first_of ptr (i + 1) - first_of ptr i) (fun t => term i (first_of ptr i + t) r)) =
  alpha [*] zs n (fun j => full r j [*] val d m (x + j)).
Proof.
  intros Hr. set (F := fun j => if j =? r then rr else f). set (G := fun i => if i =? r then (fun _ => zero) else g).
  rewrite (zsum_ext zero add n _ (fun i =>
    (if r =? i then zs (first_of ptr (i + 1) - first_of ptr i) (fun t => let k := first_of ptr i + t in alpha [*] F (place ptr idx k) (val d m (a + k)) [*] val d m (x + place ptr idx k)) else zero) [+]
    zs (first_of ptr (i + 1) - first_of ptr i) (fun t => let k := first_of ptr i + t in if r =? place ptr idx k then alpha [*] G i (val d m (a + k)) [*] val d m (x + i) else zero))).
  - rewrite (zsum_add zero one add mul SR), (zsum_pick zero one add mul SR). replace ((0 <=? r) && (r <? n)) with true by lia.
    rewrite (line_sum m a n n ptr idx C r alpha F (fun j => val d m (x + j)) Hr) by (intros j; unfold F; destruct (j =? r); assumption).
    rewrite (column_sum m a n ptr idx r alpha G (fun j => val d m (x + j))) by (intros j; unfold G; destruct (j =? r); [apply additive_zero|assumption]).
    transitivity (alpha [*] (zs n (fun j => F j (entry r j) [*] val d m (x + j)) [+] zs n (fun i => G i (entry i r) [*] val d m (x + i)))); [ring|].
    f_equal. rewrite <- (zsum_add zero one add mul SR). apply zsum_ext. intros j Hj. unfold F, G, full. rewrite (Z.eqb_sym r j).
    destruct (Z.eqb_spec j r) as [->|N]; [ring|]. destruct (kept up NonUnit r j) eqn:K.
    + rewrite (entry_none m a n ptr idx up j r Hj T) by (unfold kept in *; destruct up; lia). destruct Fg as (G0 & _). rewrite G0. ring.
    + rewrite (entry_none m a n ptr idx up r j Hr T K). destruct Ff as (F0 & _). rewrite F0. ring.
  - intros i Hi. destruct (Z.eqb_spec r i) as [<-|N].
    + rewrite <- (zsum_add zero one add mul SR). apply zsum_ext. intros t Ht. cbv zeta. unfold term, two, F, G. rewrite Z.eqb_refl.
      destruct (Z.eqb_spec (place ptr idx (first_of ptr r + t)) r) as [E|E].
      * rewrite E, Z.eqb_refl. ring.
      * replace (r =? place ptr idx (first_of ptr r + t)) with false by lia. ring.
    + rewrite (SRadd_comm SR), (add_0_r zero one add mul SR). apply zsum_ext. intros t Ht. cbv zeta. unfold term, two, G.
      replace (r =? i) with false by lia. replace (i =? r) with false by lia.
      destruct (Z.eqb_spec (place ptr idx (first_of ptr i + t)) i) as [E|E]; [|ring]. now replace (r =? place ptr idx (first_of ptr i + t)) with false by lia.
Qed.
Lemma half_product_ok beta :
  exists m', half_product zero add mul is_zero is_one up f g rr n alpha a ptr idx x beta y m = Ok m' /\
    changes d m m' (segment y n) /\
    forall i, 0 <= i < n -> val d m' (y + i) = beta [*] val d m (y + i) [+] alpha [*] zs n (fun j => full i j [*] val d m (x + j)).
Proof.
  pose proof C as (Hn & _ & _). unfold half_product. rewrite (load_ptr n n ptr idx C) by lia. cbn [bind].
  destruct (rescale_all_ok m y n Hy beta ltac:(lia)) as (m0 & -> & H0). cbn [bind].
  match goal with |- context [each 1 (n + 1) ?b m0] => destruct (each_adds m y n 1 (n + 1) b
    (fun i r => zs (first_of ptr (i - 1 + 1) - first_of ptr (i - 1)) (fun t => term (i - 1) (first_of ptr (i - 1) + t) r)) m0 _ ltac:(lia) H0) as (m' & E & H) end.
  - intros i s Y Hi H. pose proof (half_line_ok (i - 1) s Y ltac:(lia) H) as G. replace (i - 1 + 1) with i in G by lia. replace (i - 1 + 1) with i by lia. exact G.
  - exists m'. split; [exact E|]. destruct H as (H1 & H2). split; [exact H1|]. intros i Hi. rewrite H2 by exact Hi. f_equal.
    rewrite <- half_sum by exact Hi. replace (n + 1 - 1) with n by lia. apply zsum_ext. intros j Hj. now replace (1 + j - 1) with j by lia.
Qed.
End Half.

(** ** Products with a matrix, one column at a time *)
Section Columns.
Variables (mv : Z -> Z -> list A -> outcome (list A)) (Mat : list A -> Z -> Z -> A) (alpha beta : A) (xl yl n b ldb c ldc : Z) (m : list A).
Local Notation cells := (block ColMajor c ldc yl n).
Hypothesis (Hn : 0 <= n) (Hl : 0 <= yl <= ldc).
Hypothesis Hc : block_inside m ColMajor c ldc yl n.
Hypothesis Hb : block_apart m ColMajor b ldb xl n cells.
Hypothesis Hmv : forall s x i, changes d m s cells -> 0 <= i < n ->
  segment_apart s x xl (segment (c + i * ldc) yl) ->
  exists s', mv x (c + i * ldc) s = Ok s' /\ changes d s s' (segment (c + i * ldc) yl) /\
    forall p, 0 <= p < yl -> val d s' (c + i * ldc + p) =
      beta [*] val d s (c + i * ldc + p) [+] alpha [*] zs xl (fun j => Mat s p j [*] val d s (x + j)).
Hypothesis Hmat : forall s, changes d m s cells -> forall i j, 0 <= i < yl -> 0 <= j < xl -> Mat s i j = Mat m i j.
Lemma columns_apart i j p : i <> j -> 0 <= p < yl -> ~ segment (c + i * ldc) yl (c + j * ldc + p).
Proof.
  intros N Hp (S1 & S2). destruct (Z_lt_ge_dec i j) as [L|G].
  - assert ((i + 1) * ldc <= j * ldc) by (apply Z.mul_le_mono_nonneg_r; lia). lia.
  - assert ((j + 1) * ldc <= i * ldc) by (apply Z.mul_le_mono_nonneg_r; lia). lia.
Qed.
Lemma columns_ok : exists m', each 0 n (fun i s => mv (b + i * ldb) (c + i * ldc) s) m = Ok m' /\ changes d m m' cells /\
  forall i j, 0 <= i < yl -> 0 <= j < n -> entry d ColMajor c ldc m' i j =
    beta [*] entry d ColMajor c ldc m i j [+] alpha [*] zs xl (fun k => Mat m i k [*] entry d ColMajor b ldb m k j).
Proof.
  destruct (each_inv (fun q s => changes d m s cells /\ forall i j, 0 <= i < yl -> 0 <= j < n -> val d s (c + j * ldc + i) =
    if j <? q then beta [*] entry d ColMajor c ldc m i j [+] alpha [*] zs xl (fun k => Mat m i k [*] entry d ColMajor b ldb m k j) else val d m (c + j * ldc + i))
    0 n (fun i s => mv (b + i * ldb) (c + i * ldc) s) m Hn) as (m' & E & H1 & H2).
  - split; [apply changes_refl|]. intros i j Hi Hj. now replace (j <? 0) with false by lia.
  - intros q s Hq (H1 & H2). assert (L : length s = length m) by apply H1.
    assert (SA : segment_apart s (b + q * ldb) xl (segment (c + q * ldc) yl)).
    { intros p Hp. destruct (Hb (p - (b + q * ldb)) q) as (B1 & B2); [unfold segment in Hp; lia|lia|]. cbn [cell] in *.
      replace (b + q * ldb + (p - (b + q * ldb))) with p in * by lia. split; [rewrite L; exact B1|]. intros S. apply B2.
      exists (p - (c + q * ldc)), q. unfold segment in S. cbn [cell]. lia. }
    destruct (Hmv s (b + q * ldb) q H1 Hq SA) as (s' & E & C' & V). exists s'. split; [exact E|]. split.
    + destruct H1 as (_ & H1). destruct C' as (L' & C'). split; [lia|]. intros p Hp N. rewrite C', H1; auto; [lia|].
      intros S. apply N. exists (p - (c + q * ldc)), q. unfold segment in S. cbn [cell]. lia.
    + intros i j Hi Hj. destruct (Z.eqb_spec j q) as [->|Nq].
      * replace (q <? q + 1) with true by lia. rewrite V by exact Hi. rewrite H2 by auto. replace (q <? q) with false by lia.
        unfold entry at 1. cbn [cell]. f_equal. f_equal. apply zsum_ext. intros k Hk. rewrite Hmat by auto. f_equal. unfold entry. cbn [cell].
        destruct (Hb k q Hk Hq) as (B1 & B2). cbn [cell] in *. destruct H1 as (_ & H1). now apply H1.
      * replace (j <? q + 1) with (j <? q) by lia. rewrite <- H2 by auto. destruct C' as (L' & C'). apply C'.
        -- rewrite L. apply (Hc i j Hi Hj).
        -- apply columns_apart; [lia|exact Hi].
  - exists m'. split; [exact E|]. split; [exact H1|]. intros i j Hi Hj. unfold entry at 1. cbn [cell]. rewrite H2 by auto. now replace (j <? n) with true by lia.
Qed.
End Columns.
Lemma entry_same a lines width ptr idx (m s : list A) cells i j : compressed lines width ptr idx ->
  segment_apart m a (first_of ptr lines) cells -> changes d m s cells -> 0 <= i < lines ->
  crs_entry d zero add a ptr idx s i j = crs_entry d zero add a ptr idx m i j.
Proof.
  intros C Ha (L & H) Hi. unfold crs_entry. cbv zeta. apply zsum_ext. intros t Ht. destruct (_ =? j); [|reflexivity].
  pose proof (line_position lines width ptr idx C i (first_of ptr i + t) Hi ltac:(unfold in_line; lia)) as P.
  destruct (Ha (a + (first_of ptr i + t)) ltac:(unfold segment; lia)) as (A1 & A2). now apply H.
Qed.
Lemma apart_smaller (m s : list A) a len (P Q : Z -> Prop) : length s = length m -> (forall p, Q p -> P p) -> segment_apart m a len P -> segment_apart s a len Q.
Proof. intros L H S p Hp. destruct (S p Hp) as (S1 & S2). split; [rewrite L; exact S1|]. intros Hq. apply S2. now apply H. Qed.
Lemma column_cells c ldc yl n i p : 0 <= i < n -> segment (c + i * ldc) yl p -> block ColMajor c ldc yl n p.
Proof. intros Hi S. exists (p - (c + i * ldc)), i. unfold segment in S. cbn [cell]. lia. Qed.
Lemma column_inside (m s : list A) c ldc yl n i : length s = length m -> 0 <= i < n -> block_inside m ColMajor c ldc yl n -> segment_inside s (c + i * ldc) yl.
Proof.
  intros L Hi B p Hp. unfold segment in Hp. rewrite L. specialize (B (p - (c + i * ldc)) i ltac:(lia) Hi). cbn [cell] in B.
  now replace (c + i * ldc + (p - (c + i * ldc))) with p in B by lia.
Qed.
Lemma gecrsmm_ok t rows n cols alpha a ia ja b ldb beta c ldc (m : list A) :
  (is_conj t = true -> additive zero add conj) -> 0 <= n -> 0 <= cols -> compressed rows cols ia ja ->
  (if is_trans t then cols else rows) <= ldc ->
  block_inside m ColMajor c ldc (if is_trans t then cols else rows) n ->
  block_apart m ColMajor b ldb (if is_trans t then rows else cols) n (block ColMajor c ldc (if is_trans t then cols else rows) n) ->
  segment_apart m a (first_of ia rows) (block ColMajor c ldc (if is_trans t then cols else rows) n) ->
  exists m', gecrsmm zero add mul conj is_zero is_one t rows n cols alpha a ia ja b ldb beta c ldc m = Ok m' /\
    changes d m m' (block ColMajor c ldc (if is_trans t then cols else rows) n) /\
    forall i j, 0 <= i < (if is_trans t then cols else rows) -> 0 <= j < n -> entry d ColMajor c ldc m' i j =
      beta [*] entry d ColMajor c ldc m i j [+]
      alpha [*] zs (if is_trans t then rows else cols) (fun k => op conj t (crs_entry d zero add a ia ja m) i k [*] entry d ColMajor b ldb m k j).
Proof.
  intros HC Hn Hc C Hl Bi Ba Ha. pose proof C as (Hr & _). unfold gecrsmm.
  apply (columns_ok (fun x y s => gecrsmv zero add mul conj is_zero is_one t rows cols alpha a ia ja x beta y s) (fun s => op conj t (crs_entry d zero add a ia ja s))); auto.
  - destruct (is_trans t); lia.
  - intros s x i Hs Hi Hx. apply gecrsmv_ok; auto.
    + apply (column_inside m s) with (3 := Bi); [apply Hs|exact Hi].
    + apply (apart_smaller m s) with (3 := Ha); [apply Hs|]. intros p. now apply column_cells.
  - intros s Hs i j Hi Hj. destruct t; cbn [op is_trans] in *; rewrite (entry_same a rows cols ia ja m s) with (3 := Hs); auto.
Qed.
Section HalfColumns.
Variables (up : uplo) (f g rr : A -> A) (n cols : Z) (alpha : A) (a : Z) (ptr idx : list Z) (b ldb c ldc : Z) (m : list A).
Hypothesis (Ff : additive zero add f) (Fg : additive zero add g) (Fr : additive zero add rr).
Hypothesis C : compressed n n ptr idx.
Hypothesis T : triangle_only up n ptr idx.
Lemma half_columns_ok beta : 0 <= cols -> n <= ldc -> block_inside m ColMajor c ldc n cols ->
  block_apart m ColMajor b ldb n cols (block ColMajor c ldc n cols) ->
  segment_apart m a (first_of ptr n) (block ColMajor c ldc n cols) ->
  exists m', each 0 cols (fun i s => half_product zero add mul is_zero is_one up f g rr n alpha a ptr idx (b + i * ldb) beta (c + i * ldc) s) m = Ok m' /\
    changes d m m' (block ColMajor c ldc n cols) /\
    forall i j, 0 <= i < n -> 0 <= j < cols -> entry d ColMajor c ldc m' i j =
      beta [*] entry d ColMajor c ldc m i j [+] alpha [*] zs n (fun k => full up f g rr a ptr idx m i k [*] entry d ColMajor b ldb m k j).
Proof.
  intros Hc Hl Bi Ba Ha. pose proof C as (Hr & _).
  apply (columns_ok (fun x y s => half_product zero add mul is_zero is_one up f g rr n alpha a ptr idx x beta y s) (fun s => full up f g rr a ptr idx s)); auto.
  - lia.
  - intros s x i Hs Hi Hx. apply half_product_ok; auto.
    + apply (column_inside m s) with (3 := Bi); [apply Hs|exact Hi].
    + apply (apart_smaller m s) with (3 := Ha); [apply Hs|]. intros p. now apply column_cells.
  - intros s Hs i j Hi Hj. unfold full. now rewrite !(entry_same a n n ptr idx m s) with (3 := Hs) by auto.
Qed.
End HalfColumns.
(** ** Numbering from another number *)
Lemma gecrsmv_any t rows cols alpha a ia ja ia' ja' x beta y (m : list A) :
  (is_conj t = true -> additive zero add conj) -> 0 <= cols -> compressed rows cols ia ja -> compressed rows cols ia' ja' ->
  segment_inside m y (if is_trans t then cols else rows) ->
  segment_apart m x (if is_trans t then rows else cols) (segment y (if is_trans t then cols else rows)) ->
  segment_apart m a (first_of ia rows) (segment y (if is_trans t then cols else rows)) ->
  (forall i, 0 <= i <= rows -> first_of ia' i = first_of ia i) ->
  (forall i j, 0 <= i < rows -> 0 <= j < cols -> crs_entry d zero add a ia' ja' m i j = crs_entry d zero add a ia ja m i j) ->
  gecrsmv zero add mul conj is_zero is_one t rows cols alpha a ia' ja' x beta y m =
  gecrsmv zero add mul conj is_zero is_one t rows cols alpha a ia ja x beta y m.
Proof.
  intros HC Hc C C' Hy Hx Ha Hf He. pose proof C as (Hr & _).
  destruct (gecrsmv_ok t rows cols alpha a ia ja x beta y m HC Hc C Hy Hx Ha) as (m1 & E1 & (L1 & C1) & V1).
  assert (Ha' : segment_apart m a (first_of ia' rows) (segment y (if is_trans t then cols else rows))) by (rewrite Hf by lia; exact Ha).
  destruct (gecrsmv_ok t rows cols alpha a ia' ja' x beta y m HC Hc C' Hy Hx Ha') as (m2 & E2 & (L2 & C2) & V2).
  rewrite E1, E2. f_equal. apply (memory_eq d); [lia|]. intros p Hp.
  set (len := if is_trans t then cols else rows) in *.
  destruct (Z_le_gt_dec y p) as [P1|P1]; [destruct (Z_lt_ge_dec p (y + len)) as [P2|P2]|].
  - replace p with (y + (p - y)) by lia. rewrite V1, V2 by lia. f_equal. f_equal. apply zsum_ext. intros j Hj. f_equal.
    unfold len in *. destruct t; cbn [op is_trans] in *; rewrite ?He by lia; reflexivity.
  - rewrite C1, C2 by (unfold segment; lia). reflexivity.
  - rewrite C1, C2 by (unfold segment; lia). reflexivity.
Qed.
End Product.
Lemma val_shift c l i : 0 <= i < Z.of_nat (length l) -> val 0 (map (Z.add c) l) i = c + val 0 l i.
Proof.
  intros H. unfold val. rewrite (nth_indep _ 0 (c + 0)) by (rewrite map_length; lia). apply map_nth.
Qed.
Lemma shift_first lines width c ptr idx i : compressed lines width ptr idx -> 0 <= i <= lines -> first_of (map (Z.add c) ptr) i = first_of ptr i.
Proof. intros (H & _ & _) Hi. unfold first_of. rewrite !val_shift by lia. lia. Qed.
Lemma shift_place lines width c ptr idx k : compressed lines width ptr idx -> 0 <= k < first_of ptr lines ->
  place (map (Z.add c) ptr) (map (Z.add c) idx) k = place ptr idx k.
Proof. intros (H & _ & P) Hk. destruct (P k Hk) as (P1 & P2). unfold place. rewrite !val_shift by lia. lia. Qed.
Lemma shift_compressed lines width c ptr idx : compressed lines width ptr idx -> compressed lines width (map (Z.add c) ptr) (map (Z.add c) idx).
Proof.
  intros C. pose proof C as (H & M & P). split; [|split].
  - now rewrite map_length.
  - intros i Hi. rewrite !val_shift by lia. specialize (M i Hi). lia.
  - intros k Hk. rewrite (shift_first lines width c ptr idx) in Hk by (auto; lia). rewrite map_length. rewrite (shift_place lines width) by auto. now apply P.
Qed.
Lemma shift_entry {A} (d zero : A) add lines width c a ptr idx (m : list A) i j : compressed lines width ptr idx -> 0 <= i < lines ->
  crs_entry d zero add a (map (Z.add c) ptr) (map (Z.add c) idx) m i j = crs_entry d zero add a ptr idx m i j.
Proof.
  intros C Hi. pose proof C as (H & _ & _). unfold crs_entry. cbv zeta. rewrite !(shift_first lines width c ptr idx) by (auto; lia).
  apply zsum_ext. intros t Ht. rewrite (shift_place lines width) by (auto; apply (line_position lines width ptr idx C i); auto; unfold in_line; lia). reflexivity.
Qed.
Lemma full_rows {A} (d zero : A) add f g rr up a ptr idx (m : list A) i j :
  full d zero add up f g rr a ptr idx m i j =
  let M := crs_entry d zero add a ptr idx m in if i =? j then rr (M i i) else if kept up NonUnit i j then f (M i j) else g (M j i).
Proof. reflexivity. Qed.
Lemma additive_same {A} (zero : A) add : additive zero add (fun v => v).
Proof. split; reflexivity. Qed.
Lemma mirrored_rows {A} (d zero : A) add up a ptr idx (m : list A) i j :
  full d zero add up (fun v => v) (fun v => v) (fun v => v) a ptr idx m i j = mirrored up (crs_entry d zero add a ptr idx m) i j.
Proof. unfold full, mirrored. destruct (Z.eqb_spec i j) as [->|N]; [|reflexivity]. now destruct (kept up NonUnit j j). Qed.
Lemma mirrored_columns {A} (d zero : A) add up a ptr idx (m : list A) i j :
  full d zero add (other up) (fun v => v) (fun v => v) (fun v => v) a ptr idx m i j = mirrored up (fun i j => crs_entry d zero add a ptr idx m j i) i j.
Proof.
  unfold full, mirrored. destruct (Z.eqb_spec i j) as [->|N]; [now destruct (kept up NonUnit j j)|].
  rewrite kept_other. unfold kept. replace (i =? j) with false by lia. replace (j =? i) with false by lia. rewrite !Bool.orb_false_r.
  destruct up; destruct (Z.ltb_spec i j), (Z.ltb_spec j i); try lia; reflexivity.
Qed.
Lemma conj_mirrored_columns {A} (d zero : A) add conj re up a ptr idx (m : list A) i j :
  full d zero add (other up) conj (fun v => v) re a ptr idx m i j = conj_mirrored conj re up (fun i j => crs_entry d zero add a ptr idx m j i) i j.
Proof.
  unfold full, conj_mirrored. destruct (Z.eqb_spec i j) as [->|N]; [reflexivity|].
  rewrite kept_other. unfold kept. replace (i =? j) with false by lia. replace (j =? i) with false by lia. rewrite !Bool.orb_false_r.
  destruct up; destruct (Z.ltb_spec i j), (Z.ltb_spec j i); try lia; reflexivity.
Qed.
