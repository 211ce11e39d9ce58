From Coq Require Import Permutation.
From Verif Require Import Base BaseProofs ShapeModel ShapeSpec ShapeProofs ViewModel ViewSpec ViewProofs ConstructProofs TransposeModel TransposeSpec.
From Coq Require Import ZifyNat ZifyN ZifyBool.
Ltac Zify.zify_post_hook ::= idtac.

(** ** Block decomposition *)
Lemma in_starts n b i : 0 < b -> In i (starts n b) <-> exists k, i = k * b /\ k * b < n.
Proof.
  intros Hb. unfold starts. rewrite in_map_iff.
  assert (G : forall k, k < (n + b - 1) / b <-> k * b < n).
  { intros k. pose proof (Nat.div_mod_eq (n + b - 1) b). pose proof (Nat.mod_upper_bound (n + b - 1) b).
    generalize dependent ((n + b - 1) / b). generalize dependent ((n + b - 1) mod b). intros. nia. }
  split.
  - intros (k & <- & H). apply in_seq in H. exists k. split; auto. apply G. lia.
  - intros (k & -> & H). exists k. split; auto. apply in_seq. split; [lia|]. apply G in H. lia.
Qed.

Lemma in_within i b n r : In r (within i b n) <-> i <= r /\ r < i + b /\ r < n.
Proof. unfold within. rewrite in_seq. lia. Qed.

Lemma in_block_cells rows cols b i j o : In o (block_cells rows cols b i j) <->
  exists r c, o = Cell r c /\ (i <= r < i + b /\ r < rows) /\ (j <= c < j + b /\ c < cols).
Proof.
  unfold block_cells. rewrite in_flat_map. split.
  - intros (r & Hr & H). apply in_map_iff in H. destruct H as (c & <- & Hc). rewrite in_within in *. exists r, c. repeat split; lia.
  - intros (r & c & -> & H1 & H2). exists r. rewrite in_within. split; [lia|]. apply in_map. apply in_within. lia.
Qed.

Lemma block_of b r : 0 < b -> (r / b) * b <= r < (r / b) * b + b.
Proof.
  intros H. pose proof (Nat.div_mod_eq r b). pose proof (Nat.mod_upper_bound r b).
  generalize dependent (r / b). generalize dependent (r mod b). intros. nia.
Qed.

Lemma in_generic_ops rows cols b o : 0 < b -> In o (generic_ops rows cols b) <-> exists r c, o = Cell r c /\ r < rows /\ c < cols.
Proof.
  intros Hb. unfold generic_ops. rewrite in_flat_map. split.
  - intros (i & Hi & H). apply in_flat_map in H. destruct H as (j & Hj & H). apply in_block_cells in H.
    destruct H as (r & c & -> & H1 & H2). exists r, c. repeat split; lia.
  - intros (r & c & -> & Hr & Hc). pose proof (block_of b r Hb). pose proof (block_of b c Hb).
    exists (r / b * b). split; [apply in_starts; auto; exists (r / b); split; [auto|lia]|].
    apply in_flat_map. exists (c / b * b). split; [apply in_starts; auto; exists (c / b); split; [auto|lia]|].
    apply in_block_cells. exists r, c. repeat split; lia.
Qed.

(** The operations of the vectorised routine, and that every element is covered. *)
Lemma in_simd_ops rows cols b o : 0 < b -> In o (simd_ops rows cols b) ->
  (exists r c, o = Cell r c /\ r < rows /\ c < cols /\ ((rows mod b <> 0) \/ (cols mod b <> 0))) \/
  (exists i j k, o = Store i j k /\ i + b <= rows /\ j + b <= cols /\ k < b).
Proof.
  intros Hb. unfold simd_ops. rewrite in_flat_map. intros (i & Hi & H). apply in_flat_map in H. destruct H as (j & Hj & H).
  apply in_starts in Hi; auto. apply in_starts in Hj; auto. destruct Hi as (ki & -> & Hi). destruct Hj as (kj & -> & Hj).
  destruct ((ki * b + b <=? rows) && (kj * b + b <=? cols)) eqn:E.
  - right. apply in_map_iff in H. destruct H as (k & <- & Hk). apply in_seq in Hk. exists (ki * b), (kj * b), k. repeat split; lia.
  - left. apply in_block_cells in H. destruct H as (r & c & -> & H1 & H2). exists r, c. repeat split; try lia.
    assert (G : forall n k, k * b < n -> ~ (k * b + b <= n) -> n mod b <> 0).
    { intros n k G1 G2 G3. pose proof (Nat.div_mod_eq n b) as D. rewrite G3 in D. generalize dependent (n / b). intros q D. rewrite Nat.add_0_r in D.
      assert (k < q) by (apply (Nat.mul_lt_mono_pos_r b); lia). assert ((k + 1) * b <= q * b) by (apply Nat.mul_le_mono_r; lia). lia. }
    destruct (Nat.leb_spec (ki * b + b) rows) as [L|L].
    + right. apply (G cols kj); auto. cbn [andb] in E. lia.
    + left. apply (G rows ki); auto. lia.
Qed.

Lemma simd_cover rows cols b r c : 0 < b -> r < rows -> c < cols ->
  In (Cell r c) (simd_ops rows cols b) \/
  exists i j k l, In (Store i j k) (simd_ops rows cols b) /\ k < b /\ l < b /\ c = j + k /\ r = i + l.
Proof.
  intros Hb Hr Hc. pose proof (block_of b r Hb). pose proof (block_of b c Hb).
  assert (S1 : In (r / b * b) (starts rows b)) by (apply in_starts; auto; exists (r / b); split; [auto|lia]).
  assert (S2 : In (c / b * b) (starts cols b)) by (apply in_starts; auto; exists (c / b); split; [auto|lia]).
  destruct ((r / b * b + b <=? rows) && (c / b * b + b <=? cols)) eqn:E.
  - right. exists (r / b * b), (c / b * b), (c - c / b * b), (r - r / b * b). split; [|repeat split; lia].
    unfold simd_ops. apply in_flat_map. eexists; split; [exact S1|]. apply in_flat_map. eexists; split; [exact S2|].
    rewrite E. apply in_map. apply in_seq. lia.
  - left. unfold simd_ops. apply in_flat_map. eexists; split; [exact S1|]. apply in_flat_map. eexists; split; [exact S2|].
    rewrite E. apply in_block_cells. exists r, c. repeat split; lia.
Qed.

(** ** Stores *)
(** Any sequence of operations each of which sets its positions to the values of [f]. *)
Lemma for_list_writes {A O} (f : nat -> option A) (body : O -> list A -> outcome (list A)) (w : O -> nat -> bool) n sched :
  (forall o out, In o sched -> length out = n -> exists out', body o out = Ok out' /\ length out' = n /\
     forall p, nth_error out' p = if w o p then f p else nth_error out p) ->
  forall out, length out = n -> exists out', for_list sched body out = Ok out' /\ length out' = n /\
    forall p, nth_error out' p = if existsb (fun o => w o p) sched then f p else nth_error out p.
Proof.
  induction sched as [|o sched IH]; intros H out Hn.
  - exists out. repeat split; auto.
  - destruct (H o out) as (o1 & E1 & L1 & P1); [left; auto|auto|].
    destruct (IH (fun o' out' Ho => H o' out' (or_intror Ho)) o1 L1) as (o2 & E2 & L2 & P2).
    exists o2. cbn [for_list existsb]. rewrite E1. cbn [bind]. split; auto. split; auto. intros p. rewrite P2, P1.
    destruct (w o p), (existsb (fun o' => w o' p) sched); reflexivity.
Qed.

Section Stores.
Context {A : Type}.
Variable mul : A -> A -> A.
Variables rows cols b : nat.
Variable alpha : A.
Variable inp : list A.
Hypothesis Hin : length inp = rows * cols.

(** desired value at position p *)
Definition goal (p : nat) : option A :=
  match nth_error inp ((p mod rows) * cols + p / rows) with Some x => Some (mul x alpha) | None => None end.

Lemma goal_at r c : r < rows -> goal (c * rows + r) =
  match nth_error inp (r * cols + c) with Some x => Some (mul x alpha) | None => None end.
Proof.
  intros Hr. unfold goal.
  replace ((c * rows + r) / rows) with c; [replace ((c * rows + r) mod rows) with r; auto|].
  - rewrite Nat.add_comm, Nat.mod_add by lia. rewrite Nat.mod_small; auto.
  - rewrite Nat.div_add_l by lia. rewrite Nat.div_small by auto. lia.
Qed.

Lemma goal_some r c : r < rows -> c < cols -> exists x, nth_error inp (r * cols + c) = Some x /\ goal (c * rows + r) = Some (mul x alpha).
Proof.
  intros Hr Hc. rewrite goal_at by auto. destruct (nth_error inp (r * cols + c)) as [x|] eqn:E; eauto.
  apply nth_error_None in E. exfalso. nia.
Qed.

Definition cell_writes (o : op) (p : nat) : bool :=
  match o with
  | Cell r c => c * rows + r =? p
  | Store i j k => ((j + k) * rows + i <=? p) && (p <? (j + k) * rows + i + b)
  end.

Lemma cell_perform K scaled r c out : r < rows -> c < cols -> (scaled = true \/ forall x, mul x alpha = x) -> length out = cols * rows ->
  exists out', perform mul rows cols b K scaled alpha inp (Cell r c) out = Ok out' /\ length out' = cols * rows /\
   forall p, nth_error out' p = if cell_writes (Cell r c) p then goal p else nth_error out p.
Proof.
  intros Hr Hc Hs L. destruct (goal_some r c Hr Hc) as (x & E & G).
  exists (upd out (c * rows + r) (mul x alpha)). cbn [perform]. unfold rd. rewrite E. cbn [bind].
  rewrite wr_Ok by nia. split.
  - f_equal. f_equal. destruct scaled; auto. destruct Hs as [Hs|Hs]; [discriminate|]. auto.
  - rewrite upd_length. split; auto. intros p. rewrite nth_error_upd. cbn [cell_writes].
    destruct (Nat.eqb_spec (c * rows + r) p) as [<-|N]; auto. replace (c * rows + r <? length out) with true by nia.
    cbn [andb]. auto.
Qed.

Lemma vstore_ok (v : list A) : forall p out, p + length v <= length out -> exists out', vstore out p v = Ok out' /\
  length out' = length out /\ forall q, nth_error out' q = if (p <=? q) && (q <? p + length v) then nth_error v (q - p) else nth_error out q.
Proof.
  induction v as [|x v IH]; intros p out H; cbn [vstore length] in *.
  - exists out. split; auto. split; auto. intros q. replace ((p <=? q) && (q <? p + 0)) with false by lia. auto.
  - rewrite wr_Ok by lia. cbn [bind]. destruct (IH (p + 1) (upd out p x)) as (o' & E & L & P); [rewrite upd_length; lia|].
    exists o'. split; auto. rewrite upd_length in L. split; auto. intros q. rewrite P, nth_error_upd.
    destruct (Nat.eqb_spec p q) as [<-|N].
    + replace ((p + 1 <=? p) && (p <? p + 1 + length v)) with false by lia. replace (p <? length out) with true by lia.
      replace ((p <=? p) && (p <? p + S (length v))) with true by lia. rewrite Nat.sub_diag. reflexivity.
    + cbn [andb]. replace ((p + 1 <=? q) && (q <? p + 1 + length v)) with ((p <=? q) && (q <? p + S (length v))) by lia.
      destruct ((p <=? q) && (q <? p + S (length v))) eqn:B; auto.
      replace (q - p) with (S (q - (p + 1))) by lia. reflexivity.
Qed.

Lemma vload_ok (m : list A) p w : p + w <= length m -> exists v, vload m p w = Ok v /\ length v = w /\
  forall l, l < w -> nth_error v l = nth_error m (p + l).
Proof.
  intros H. unfold vload. replace (p + w <=? length m) with true by lia. eexists. split; [reflexivity|].
  split; [rewrite firstn_length, skipn_length; lia|]. intros l Hl. rewrite nth_error_firstn_lt by auto.
  rewrite nth_error_skipn_add. f_equal.
Qed.

Lemma loads_ok (m : list A) base stride w : forall rs, (forall r, In r rs -> base + r * stride + w <= length m) ->
  exists xs, loads m base stride w rs = Ok xs /\ length xs = length rs /\ Forall (fun x => length x = w) xs /\
   forall i r, nth_error rs i = Some r -> exists x, nth_error xs i = Some x /\ forall l, l < w -> nth_error x l = nth_error m (base + r * stride + l).
Proof.
  induction rs as [|r rs IH]; intros H; cbn [loads].
  - exists []. repeat split; auto. intros i r E. destruct i; discriminate E.
  - destruct (vload_ok m (base + r * stride) w) as (v & E & L & P); [apply H; left; auto|].
    destruct IH as (xs & E2 & L2 & F2 & P2); [intros r' Hr'; apply H; right; auto|].
    exists (v :: xs). rewrite E. cbn [bind]. rewrite E2. cbn [bind]. split; auto. split; [cbn; lia|]. split; [constructor; auto|].
    intros i r' Hi. destruct i as [|i]; cbn in Hi.
    + injection Hi as <-. exists v. split; auto.
    + apply P2. auto.
Qed.

(** The vector kernel on a block of a square matrix. *)
Lemma store_perform K scaled i j k out : rows = cols -> block_transpose b K -> i + b <= rows -> j + b <= cols -> k < b ->
  length out = cols * rows ->
  exists out', perform mul rows cols b K scaled alpha inp (Store i j k) out = Ok out' /\ length out' = cols * rows /\
   forall p, nth_error out' p = if cell_writes (Store i j k) p then goal p else nth_error out p.
Proof.
  intros Hsq HK Hi Hj Hk L. cbn [perform].
  destruct (loads_ok inp (i * cols + j) rows b (seq 0 b)) as (xs & E & Lx & F & P).
  { intros r Hr. apply in_seq in Hr. rewrite Hin. subst cols. nia. }
  rewrite E. cbn [bind]. rewrite seq_length in Lx. destruct (HK xs Lx F) as (LK & B).
  destruct (nth_error (K xs) k) as [rk|] eqn:EK; [|apply nth_error_None in EK; lia].
  assert (Lrk : length rk = b). { destruct (B 0 k) as (x & ri & rj & _ & _ & R & LR & _); [lia|auto|]. rewrite EK in R. injection R as <-. auto. }
  destruct (vstore_ok (map (fun x => mul x alpha) rk) (j * rows + i + k * rows) out) as (o' & Eo & Lo & Po).
  { rewrite map_length, Lrk, L. nia. }
  exists o'. split; auto. split; [lia|]. intros p. rewrite Po, map_length, Lrk. cbn [cell_writes].
  replace (j * rows + i + k * rows) with ((j + k) * rows + i) by lia.
  destruct (((j + k) * rows + i <=? p) && (p <? (j + k) * rows + i + b)) eqn:W; auto.
  set (l := p - ((j + k) * rows + i)). assert (Hl : l < b) by lia.
  replace p with ((j + k) * rows + (i + l)) by lia. rewrite goal_at by lia.
  destruct (B l k) as (x & ri & rj & R1 & R2 & R3 & _ & R4); auto. rewrite EK in R3. injection R3 as <-.
  destruct (P l l) as (ri' & Q1 & Q2).
  { rewrite (nth_error_nth' _ 0) by (rewrite seq_length; auto). rewrite seq_nth by auto. reflexivity. }
  rewrite R1 in Q1. injection Q1 as <-. specialize (Q2 k Hk). rewrite R2 in Q2.
  replace ((i + l) * cols + (j + k)) with (i * cols + j + l * rows + k) by (subst cols; lia). rewrite <- Q2.
  rewrite (map_nth_error _ _ _ R4). reflexivity.
Qed.

Lemma generic_run K sched out : 0 < b -> Permutation sched (generic_ops rows cols b) -> length out = cols * rows ->
  exists out', run mul rows cols b K true alpha inp sched out = Ok out' /\ transposed mul alpha rows cols inp out'.
Proof.
  intros Hb HP L.
  destruct (for_list_writes goal (perform mul rows cols b K true alpha inp) cell_writes (cols * rows) sched) with (out := out)
    as (o' & E & L' & P); auto.
  { intros o out0 Ho L0. apply (Permutation_in _ HP) in Ho. apply in_generic_ops in Ho; auto.
    destruct Ho as (r & c & -> & Hr & Hc). apply cell_perform; auto. }
  exists o'. split; [exact E|]. split; auto. intros r c Hr Hc.
  destruct (goal_some r c Hr Hc) as (x & Ex & G). exists x. split; auto. rewrite P.
  replace (existsb (fun o => cell_writes o (c * rows + r)) sched) with true; auto. symmetry. apply existsb_exists.
  exists (Cell r c). split; [|cbn [cell_writes]; lia]. apply (Permutation_in _ (Permutation_sym HP)). apply in_generic_ops; eauto.
Qed.

Lemma simd_run K (scaled : bool) sched out : 0 < b -> rows = cols -> block_transpose b K ->
  (scaled = true \/ rows mod b = 0 \/ forall x, mul x alpha = x) ->
  Permutation sched (simd_ops rows cols b) -> length out = cols * rows ->
  exists out', run mul rows cols b K scaled alpha inp sched out = Ok out' /\ transposed mul alpha rows cols inp out'.
Proof.
  intros Hb Hsq HK Hs HP L.
  destruct (for_list_writes goal (perform mul rows cols b K scaled alpha inp) cell_writes (cols * rows) sched) with (out := out)
    as (o' & E & L' & P); auto.
  { intros o out0 Ho L0. apply (Permutation_in _ HP) in Ho. apply in_simd_ops in Ho; auto.
    destruct Ho as [(r & c & -> & Hr & Hc & Hm)|(i & j & k & -> & Hi & Hj & Hk)].
    - apply cell_perform; auto. destruct Hs as [?|[?|?]]; auto. exfalso. rewrite <- Hsq in Hm. lia.
    - apply store_perform; auto. }
  exists o'. split; [exact E|]. split; auto. intros r c Hr Hc.
  destruct (goal_some r c Hr Hc) as (x & Ex & G). exists x. split; auto. rewrite P.
  replace (existsb (fun o => cell_writes o (c * rows + r)) sched) with true; auto. symmetry. apply existsb_exists.
  destruct (simd_cover rows cols b r c Hb Hr Hc) as [H|(i & j & k & l & H & Hk & Hl & -> & ->)].
  - exists (Cell r c). split; [|cbn [cell_writes]; lia]. apply (Permutation_in _ (Permutation_sym HP)). auto.
  - exists (Store i j k). split; [|cbn [cell_writes]; lia]. apply (Permutation_in _ (Permutation_sym HP)). auto.
Qed.
End Stores.

(** ** Kernels *)
Ltac dl H := match type of H with length ?l = S _ => destruct l; [discriminate H|]; cbn [length] in H; apply eq_add_S in H; dl H
   | length ?l = 0 => destruct l; [clear H|discriminate H] end.
Ltac dforall := repeat match goal with H : Forall _ (_ :: _) |- _ => inversion H; clear H; subst | H : Forall _ [] |- _ => clear H end.
Ltac block :=
  let rs := fresh "rs" in let L := fresh in let F := fresh in
  intros rs L F; dl L; dforall; repeat match goal with H : length ?x = _ |- _ => dl H end;
  split; [reflexivity|];
  intros i j Hi Hj;
  do 8 (try destruct i as [|i]); try (exfalso; lia); do 8 (try destruct j as [|j]); try (exfalso; lia);
  (do 3 eexists; split; [reflexivity|split; [reflexivity|split; [reflexivity|split; reflexivity]]]).

Lemma avx_float_ok {A} : @block_transpose A 8 avx_float.
Proof. block. Qed.
Lemma sse_float_ok {A} : @block_transpose A 4 sse_float.
Proof. block. Qed.
Lemma sse_double_ok {A} : @block_transpose A 2 sse_double.
Proof. block. Qed.
Lemma neon_float_ok {A} : @block_transpose A 4 neon_float.
Proof. block. Qed.
Lemma neon_double_ok {A} : @block_transpose A 2 neon_double.
Proof. block. Qed.

(** ** The OpenCL kernel *)
Section OpenCL.
Context {A : Type}.
Variable mul : A -> A -> A.
Variables T rows cols : nat.
Hypothesis HT : 0 < T.
Variable alpha : A.
Variable inp : list A.
Hypothesis Hin : length inp = rows * cols.

Lemma in_cl_items w : In w (cl_items T rows cols) <->
  gx w < (cols + T - 1) / T /\ gy w < (rows + T - 1) / T /\ lx w < T /\ ly w < T.
Proof.
  unfold cl_items. rewrite in_flat_map. setoid_rewrite in_flat_map. setoid_rewrite in_flat_map. setoid_rewrite in_map_iff.
  setoid_rewrite in_seq. split.
  - intros (a & Ha & b & Hb & c & Hc & d & <- & Hd). cbn. lia.
  - intros (H1 & H2 & H3 & H4). destruct w as [a b c d]; cbn in *. exists a. split; [lia|]. exists b. split; [lia|].
    exists c. split; [lia|]. exists d. split; auto. lia.
Qed.

Lemma group_bound n x : x < n -> x / T < (n + T - 1) / T.
Proof.
  intros H. pose proof (Nat.div_mod_eq (n + T - 1) T). pose proof (Nat.mod_upper_bound (n + T - 1) T).
  pose proof (Nat.div_mod_eq x T). pose proof (Nat.mod_upper_bound x T).
  generalize dependent ((n + T - 1) / T). generalize dependent ((n + T - 1) mod T).
  generalize dependent (x / T). generalize dependent (x mod T). intros. nia.
Qed.

Definition tile_ok (t : @tiles A) : Prop := forall a b c d v, t a b c d = Some v -> nth_error inp ((b * T + c) * cols + (a * T + d)) = Some v.

Lemma cl_loads sched : forall t, tile_ok t -> exists t', for_list sched (cl_load T rows cols inp) t = Ok t' /\ tile_ok t' /\
  (forall a b c d, t a b c d <> None -> t' a b c d <> None) /\
  forall w, In w sched -> gx w * T + lx w < cols -> gy w * T + ly w < rows -> t' (gx w) (gy w) (ly w) (lx w) <> None.
Proof.
  induction sched as [|w sched IH]; intros t Ht; cbn [for_list].
  - exists t. split; [auto|]. split; [auto|]. split; [auto|]. intros w [].
  - unfold cl_load at 1. destruct ((gx w * T + lx w <? cols) && (gy w * T + ly w <? rows)) eqn:B.
    + unfold rd. destruct (nth_error inp ((gy w * T + ly w) * cols + (gx w * T + lx w))) as [v|] eqn:E; [|apply nth_error_None in E; nia].
      cbn [bind]. destruct (IH (tile_set t (gx w) (gy w) (ly w) (lx w) v)) as (t' & E' & K & M & C).
      { intros a b c d v'. unfold tile_set. destruct ((gx w =? a) && (gy w =? b) && (ly w =? c) && (lx w =? d)) eqn:Q; [|apply Ht].
        intros Hv. injection Hv as <-. replace a with (gx w) by lia. replace b with (gy w) by lia. replace c with (ly w) by lia.
        replace d with (lx w) by lia. exact E. }
      exists t'. split; auto. split; auto. split.
      * intros a b c d Hn. apply M. unfold tile_set. match goal with |- (if ?c then _ else _) <> None => destruct c end; auto. congruence.
      * intros w' [<-|Hw] Hx Hy; [|apply C; auto]. apply M. unfold tile_set. rewrite !Nat.eqb_refl. cbn [andb]. congruence.
    + cbn [bind]. destruct (IH t Ht) as (t' & E' & K & M & C). exists t'. split; auto. split; auto. split; auto.
      intros w' [<-|Hw] Hx Hy; [|apply C; auto]. exfalso. lia.
Qed.

Lemma cl_run s1 s2 out : Permutation s1 (cl_items T rows cols) -> Permutation s2 (cl_items T rows cols) -> length out = cols * rows ->
  exists out', cl_transpose mul T rows cols alpha inp s1 s2 out = Ok out' /\ transposed mul alpha rows cols inp out'.
Proof.
  intros P1 P2 L. unfold cl_transpose.
  destruct (cl_loads s1 (fun _ _ _ _ => None)) as (t & E & K & _ & C); [intros a b c d v H; discriminate H|].
  rewrite E. cbn [bind].
  destruct (for_list_writes (goal mul rows cols alpha inp) (cl_store mul T rows cols alpha t)
    (fun w p => (gy w * T + lx w <? rows) && (gx w * T + ly w <? cols) && ((gx w * T + ly w) * rows + (gy w * T + lx w) =? p))
    (cols * rows) s2) with (out := out) as (o' & Eo & Lo & P); auto.
  { intros w out0 Hw L0. apply (Permutation_in _ P2) in Hw. apply in_cl_items in Hw. unfold cl_store.
    destruct ((gy w * T + lx w <? rows) && (gx w * T + ly w <? cols)) eqn:B.
    - destruct (t (gx w) (gy w) (lx w) (ly w)) as [v|] eqn:Et.
      + rewrite wr_Ok by nia. eexists. split; [reflexivity|]. rewrite upd_length. split; auto. intros p. rewrite nth_error_upd.
        cbn [andb]. destruct (Nat.eqb_spec ((gx w * T + ly w) * rows + (gy w * T + lx w)) p) as [<-|N]; auto.
        replace (_ <? length out0) with true by nia. cbn [andb]. apply K in Et. rewrite goal_at by lia. rewrite Et. reflexivity.
      + exfalso. apply (C (Item (gx w) (gy w) (ly w) (lx w))); cbn [gx gy lx ly]; auto; try lia.
        apply (Permutation_in _ (Permutation_sym P1)). apply in_cl_items. cbn [gx gy lx ly]. tauto.
    - exists out0. cbn [andb]. split; auto. }
  exists o'. split; auto. split; auto. intros r c Hr Hc. destruct (goal_some mul rows cols alpha inp Hin r c Hr Hc) as (x & Ex & G).
  exists x. split; auto. rewrite P. replace (existsb _ s2) with true; auto. symmetry. apply existsb_exists.
  exists (Item (c / T) (r / T) (r mod T) (c mod T)). cbn [gx gy lx ly].
  pose proof (Nat.div_mod_eq r T). pose proof (Nat.div_mod_eq c T).
  replace (r / T * T + r mod T) with r by lia. replace (c / T * T + c mod T) with c by lia.
  split; [|rewrite Nat.eqb_refl; replace (r <? rows) with true by lia; replace (c <? cols) with true by lia; reflexivity].
  apply (Permutation_in _ (Permutation_sym P2)). apply in_cl_items. cbn [gx gy lx ly].
  repeat split; try apply group_bound; auto; apply Nat.mod_upper_bound; lia.
Qed.
End OpenCL.

(** ** Shapes and arrays *)
Definition good_impl {A} (mul : A -> A -> A) (impl : nat -> nat -> A -> list A -> list A -> outcome (list A)) : Prop :=
  forall rows cols alpha inp out, length inp = rows * cols -> length out = cols * rows ->
  exists out', impl rows cols alpha inp out = Ok out' /\ transposed mul alpha rows cols inp out'.

Lemma generic_good {A} (mul : A -> A -> A) b : 0 < b -> good_impl mul (fun r c => transposeImpl mul r c b).
Proof. intros Hb rows cols alpha inp out L1 L2. apply generic_run; auto. Qed.

Section Arrays.
Context {A : Type}.
Variable mul : A -> A -> A.
Variable asserts : bool.
Variable impl : nat -> nat -> A -> list A -> list A -> outcome (list A).
Variable junk : nat -> A.

Definition wf (a : shape * list A) : Prop := N.of_nat (length (snd a)) = prod (fst a) /\ (prod (fst a) < 2 ^ 32)%N.

Lemma axes_default n axes : size axes = 0%N -> transpose_axes n axes = map (fun i => N.of_nat (n - i - 1)) (seq 0 n).
Proof. intros H. unfold transpose_axes. rewrite H. reflexivity. Qed.

Lemma transposed_of alpha rows cols inp out : transposed mul alpha (N.to_nat rows) (N.to_nat cols) inp out ->
  transpose_of mul alpha ([rows; cols], inp) ([cols; rows], out).
Proof.
  intros (L & H). exists rows, cols. cbn [fst snd]. split; auto. split; auto. split; [cbn [prod]; lia|].
  intros i j Hi Hj. destruct (H (N.to_nat i) (N.to_nat j)) as (x & E1 & E2); try lia. exists x. unfold element. cbn [position prod].
  replace (N.to_nat (i * (cols * 1) + (j * 1 + 0))) with (N.to_nat i * N.to_nat cols + N.to_nat j) by lia.
  replace (N.to_nat (j * (rows * 1) + (i * 1 + 0))) with (N.to_nat j * N.to_nat rows + N.to_nat i) by lia. auto.
Qed.

Lemma extent_ok s i e : nth_error s (N.to_nat i) = Some e -> extent asserts s (Z.of_N i) = Ok e.
Proof.
  intros H. assert (N.to_nat i < length s) by (apply nth_error_Some; congruence). unfold extent.
  replace (Z.of_N i <? Z.of_nat (length s))%Z with true by lia. replace (0 <=? Z.of_N i)%Z with true by lia.
  rewrite !check_true. cbn [bind]. replace (Z.of_N i <? 0)%Z with false by lia. unfold rd.
  replace (Z.to_nat (Z.of_N i)) with (N.to_nat i) by lia. rewrite H. reflexivity.
Qed.

Lemma permute_ok s axes : Forall (fun a => N.to_nat a < length s) axes ->
  exists os, permute asserts s axes = Ok os /\ permuted_shape s axes os.
Proof.
  induction axes as [|a axes IH]; intros F.
  - exists []. split; auto. split; auto. intros i a H. destruct i; discriminate H.
  - inversion F as [|? ? Ha F']; subst. destruct (IH F') as (os & E & L & P).
    destruct (nth_error s (N.to_nat a)) as [e|] eqn:Ee; [|apply nth_error_None in Ee; lia].
    exists (e :: os). cbn [permute]. rewrite (extent_ok s a e Ee). cbn [bind]. rewrite E. cbn [bind]. split; auto.
    split; [cbn; lia|]. intros [|i] a' H; cbn in H |- *; [injection H as <-; auto|apply P; auto].
Qed.

Lemma eval_transpose_ok a alpha rows cols : good_impl mul impl -> wf a -> fst a = [rows; cols] ->
  exists t, eval_transpose asserts impl junk a [1; 0]%N alpha = Ok t /\ transpose_of mul alpha a t /\ wf t /\
    transposed mul alpha (N.to_nat rows) (N.to_nat cols) (snd a) (snd t) /\ fst t = [cols; rows].
Proof.
  intros HI (W1 & W2) Hs. destruct a as [s inp]. cbn [fst snd] in *. subst s. cbn [prod] in *.
  unfold eval_transpose, output_shape. cbn [length Nat.eqb]. rewrite check_true. cbn [bind permute].
  rewrite (extent_ok [rows; cols] 1 cols eq_refl). cbn [bind].
  rewrite (extent_ok [rows; cols] 0 rows eq_refl). cbn [bind].
  destruct (HI (N.to_nat rows) (N.to_nat cols) alpha inp (map junk (seq 0 (N.to_nat (size [cols; rows]))))) as (out & E & T).
  - lia.
  - rewrite map_length, seq_length, size_exact; cbn [prod]; [lia|]. eapply N.lt_trans; [|exact (eq_refl : (2 ^ 32 < 2 ^ 64)%N)]. lia.
  - rewrite E. cbn [bind]. exists ([cols; rows], out). split; auto. split; [apply transposed_of; auto|].
    split; [|split; auto]. split; cbn [fst snd prod]; [|lia]. destruct T as [L _]. lia.
Qed.
End Arrays.

Lemma transposed_twice {A} (mul : A -> A -> A) alpha beta rows cols inp mid out : length inp = rows * cols ->
  transposed mul alpha rows cols inp mid -> transposed mul beta cols rows mid out ->
  out = map (fun x => mul (mul x alpha) beta) inp.
Proof.
  intros L (L1 & T1) (L2 & T2). apply list_eq_nth_error. intros p.
  destruct (Nat.lt_ge_cases p (rows * cols)) as [H|H].
  - assert (Hc : 0 < cols) by nia. pose proof (Nat.div_mod_eq p cols) as D. pose proof (Nat.mod_upper_bound p cols) as M.
    assert (Hr : p / cols < rows) by (apply Nat.div_lt_upper_bound; lia).
    destruct (T1 (p / cols) (p mod cols)) as (x & X1 & X2); [auto|lia|].
    destruct (T2 (p mod cols) (p / cols)) as (y & Y1 & Y2); [lia|auto|].
    rewrite X2 in Y1. injection Y1 as <-. replace (p / cols * cols + p mod cols) with p in * by lia.
    rewrite Y2. symmetry. exact (map_nth_error (fun x => mul (mul x alpha) beta) p inp X1).
  - transitivity (@None A); [|symmetry]; apply nth_error_None; rewrite ?map_length; lia.
Qed.

Lemma teval_twice {A} (mul : A -> A -> A) asserts impl junk a alpha beta rows cols : good_impl mul impl -> wf a -> fst a = [rows; cols] ->
  teval asserts impl junk (TTrans (TTrans (TArr a) [1; 0]%N alpha) [1; 0]%N beta)
  = Ok (fst a, map (fun x => mul (mul x alpha) beta) (snd a)).
Proof.
  intros HI W Hs. cbn [teval bind].
  destruct (eval_transpose_ok mul asserts impl junk a alpha rows cols HI W Hs) as (t & E & _ & Wt & T1 & St). rewrite E. cbn [bind].
  destruct (eval_transpose_ok mul asserts impl junk t beta cols rows HI Wt St) as (u & E2 & _ & Wu & T2 & Su). rewrite E2.
  f_equal. destruct u as [su du]. cbn [fst snd] in *. rewrite Hs, Su. f_equal.
  eapply transposed_twice; eauto. destruct W as [W _]. rewrite Hs in W. cbn [prod] in W. lia.
Qed.

(** ** The block loop *)
Lemma loop_visits_fun n b i l l' : loop_visits n b i l -> loop_visits n b i l' -> l = l'.
Proof.
  intros H. revert l'. induction H as [i H|i l H _ IH]; intros l' K; inversion K; subst; auto; try lia. f_equal. auto.
Qed.
Lemma loop_visits_from n b c k : (forall j, j < c -> (k + j) * b < n) -> n <= (k + c) * b ->
  loop_visits n b (k * b) (map (fun j => j * b) (seq k c)).
Proof.
  revert k. induction c as [|c IH]; intros k H E; cbn.
  - apply loop_end. rewrite Nat.add_0_r in E. exact E.
  - apply loop_body; [specialize (H 0 ltac:(lia)); now rewrite Nat.add_0_r in H|].
    replace (k * b + b) with (S k * b) by lia. apply IH.
    + intros j Hj. specialize (H (S j) ltac:(lia)). now replace (S k + j) with (k + S j) by lia.
    + now replace (S k + c) with (k + S c) by lia.
Qed.
Lemma loop_visits_starts n b : 0 < b -> loop_visits n b 0 (starts n b).
Proof.
  intros Hb. unfold starts. change 0 with (0 * b) at 1. apply loop_visits_from.
  - intros j Hj. cbn. pose proof (Nat.mul_div_le (n + b - 1) b ltac:(lia)). nia.
  - cbn. pose proof (Nat.mul_succ_div_gt (n + b - 1) b ltac:(lia)). nia.
Qed.
Lemma loop_visits_never n i l : i < n -> ~ loop_visits n 0 i l.
Proof. intros H K. induction K as [i E|i l E _ IH]; [lia|]. apply IH. lia. Qed.
Lemma block_size_pos line size : 0 < size -> 0 < block_size line size <-> size <= line.
Proof.
  intros H. unfold block_size. split; intros E.
  - destruct (le_lt_dec size line); auto. rewrite Nat.div_small in E by lia. lia.
  - apply Nat.div_str_pos. lia.
Qed.
