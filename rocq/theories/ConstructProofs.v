From Coq Require Import Reals Lra.
From Verif Require Import Base BaseProofs ShapeModel ShapeSpec ShapeProofs ViewModel ViewSpec ViewProofs ConstructModel ConstructSpec.
From Coq Require Import ZifyNat ZifyN ZifyBool.
Ltac Zify.zify_post_hook ::= idtac.

Section FromData.
Context {A : Type}.
Variable asserts : bool.

Lemma nth_error_splice (l1 d l2 : list A) q :
  nth_error (l1 ++ d ++ l2) q =
  if q <? length l1 then nth_error l1 q
  else if q <? length l1 + length d then nth_error d (q - length l1)
  else nth_error l2 (q - length l1 - length d).
Proof.
  destruct (Nat.ltb_spec q (length l1)).
  - apply nth_error_app1; auto.
  - rewrite nth_error_app2 by auto. destruct (Nat.ltb_spec q (length l1 + length d)).
    + apply nth_error_app1; lia.
    + apply nth_error_app2; lia.
Qed.

Lemma list_eq_nth_error (l1 l2 : list A) : (forall q, nth_error l1 q = nth_error l2 q) -> l1 = l2.
Proof.
  revert l2. induction l1 as [|x l1 IH]; intros [|y l2] H; auto.
  - specialize (H 0). discriminate.
  - specialize (H 0). discriminate.
  - pose proof (H 0) as H0. injection H0 as ->. f_equal. apply IH. intros q. apply (H (S q)).
Qed.

Lemma cell_block v s off idx : s <> [] -> dense s -> block v s off -> in_range idx s -> cell v idx = Z.of_N (off + position idx s).
Proof.
  intros H D [B1 [B2 B3]] R. unfold cell. rewrite B2, B3. destruct s; [congruence|].
  rewrite dot_stride_tmp; [lia| | |apply in_range_length; auto]; apply D.
Qed.

(** res[i] = t splices t's data into the result *)
Lemma set_row_ok n t i (data res : list A) :
  t <> [] -> dense (n :: t) -> (N.of_nat i < n)%N -> N.of_nat (length data) = prod t ->
  N.of_nat (length res) = prod (n :: t) ->
  set_row asserts (n :: t) i (t, data) res
  = Ok (firstn (i * length data) res ++ data ++ skipn ((i + 1) * length data) res).
Proof.
  intros Ht HD Hi Hl Hr. unfold set_row.
  pose proof (dense_tail n t HD Ht) as HDt.
  destruct (array_chain_block asserts (n :: t) [N.of_nat i] HD) as [w [E B]]; [cbn [length]; lia|cbn [length firstn]; repeat constructor; auto|].
  cbn [map] in E. rewrite nat_N_Z in E. rewrite E. cbn [bind fst snd]. cbn [length skipn position] in B.
  assert (Boff : (N.of_nat i * prod t + 0 = N.of_nat (i * length data))%N) by lia.
  rewrite Boff in B.
  assert (Hsz : (i + 1) * length data <= length res).
  { cbn [prod] in Hr. nia. }
  destruct data as [|a0 data0] eqn:Ed; [exfalso; cbn [length] in Hl; destruct HDt as [_ [P _]]; pose proof (prod_pos t P); lia|].
  rewrite <- Ed in *. clear Ed data0.
  destruct (block_ok w t (N.of_nat (i * length data)) res HDt B) as [VO VI]; [lia|].
  assert (Sh : v_shape w = t) by apply B.
  destruct (view_assign_general asserts (S (length res)) w (fun (_ : list A) d => rd data (N.to_nat d))
     (fun d => nth (N.to_nat d) data a0) res VO VI) as (m' & EQ & L & V1 & V2).
  - rewrite Sh. cbn [prod] in Hr. nia.
  - intros d m' Hd _ _ _. rewrite Sh in Hd. rewrite (rd_Ok data (N.to_nat d) a0) by lia. reflexivity.
  - rewrite <- Sh at 1. rewrite EQ. f_equal. rewrite Sh in *.
    apply list_eq_nth_error. intros q. rewrite nth_error_splice.
    rewrite firstn_length. replace (Nat.min (i * length data) (length res)) with (i * length data) by nia.
    destruct (Nat.ltb_spec q (i * length data)) as [Q|Q].
    + rewrite nth_error_firstn_lt by auto. apply V2. intros idx R C.
      rewrite (cell_block w t _ idx Ht HDt B R) in C. lia.
    + destruct (Nat.ltb_spec q (i * length data + length data)) as [Q2|Q2].
      * destruct (decode_spec t (N.of_nat (q - i * length data))) as [R P]; [apply HDt|lia|].
        specialize (V1 _ R). rewrite (cell_block w t _ _ Ht HDt B R), P in V1.
        replace (Z.to_nat (Z.of_N (N.of_nat (i * length data) + N.of_nat (q - i * length data)))) with q in V1 by lia.
        rewrite V1. rewrite Nat2N.id. symmetry. apply nth_error_nth'. lia.
      * rewrite nth_error_skipn_add. 
        replace ((i + 1) * length data + (q - i * length data - length data)) with q by nia.
        apply V2. intros idx R C. rewrite (cell_block w t _ idx Ht HDt B R) in C.
        pose proof (position_lt _ _ R). lia.
Qed.

Lemma set_rows_ok n t (ts : list (arr A)) : t <> [] -> dense (n :: t) ->
  Forall (fun x => fst x = t /\ N.of_nat (length (snd x)) = prod t) ts ->
  forall i res, N.of_nat (i + length ts) = n -> N.of_nat (length res) = prod (n :: t) ->
  set_rows asserts (n :: t) i ts res = Ok (firstn (i * N.to_nat (prod t)) res ++ concat (map snd ts)).
Proof.
  intros Ht HD. induction 1 as [|[t' data] ts [E L] F IH]; intros i res Hn Hr.
  - cbn [set_rows map concat]. rewrite app_nil_r. f_equal. symmetry. apply firstn_all2. cbn [prod length] in *. nia.
  - cbn [fst snd] in *. subst t'. cbn [set_rows].
    rewrite (set_row_ok n t i data res) by (auto; cbn [length] in *; lia). cbn [bind].
    set (p := length data) in *. assert (Hp : N.to_nat (prod t) = p) by lia. rewrite Hp in *.
    assert (Hlen : length res = (i + S (length ts)) * p) by (apply Nat2N.inj; rewrite Hr, Nat2N.inj_mul; cbn [prod]; rewrite L; f_equal; rewrite <- Hn; reflexivity).
    rewrite IH.
    + f_equal. cbn [map concat snd]. rewrite (app_assoc _ data (concat (map snd ts))). f_equal.
      replace (firstn (i * p) res ++ data ++ skipn ((i + 1) * p) res)
        with ((firstn (i * p) res ++ data) ++ skipn ((i + 1) * p) res) by (rewrite <- app_assoc; reflexivity).
      rewrite firstn_app. assert (length (firstn (i * p) res ++ data) = (i + 1) * p).
      { rewrite app_length, firstn_length. fold p. nia. }
      rewrite firstn_all2 by lia. rewrite H, Nat.sub_diag. cbn [firstn]. apply app_nil_r.
    + cbn [length] in *. lia.
    + rewrite !app_length, firstn_length, skipn_length. fold p. cbn [prod] in *. nia.
Qed.

Fixpoint flatten (k : nat) : nest A k -> list A :=
  match k return nest A k -> list A with
  | O => fun x => [x]
  | S k' => fun (d : list (nest A k')) => concat (map (flatten k') d)
  end.

Lemma has_shape_props : forall k (d : nest A k) s, has_shape k d s ->
  positive s /\ length s = k /\ N.of_nat (length (flatten k d)) = prod s /\ count k d = length (flatten k d) /\
  forall idx, in_range idx s -> nth_error (flatten k d) (N.to_nat (position idx s)) = entry k d idx.
Proof.
  induction k as [|k IH]; intros d s H; cbn [has_shape] in H.
  - subst. cbn. repeat split; auto; [constructor|]. intros idx R. inversion R. reflexivity.
  - change (list (nest A k)) in (type of d). destruct s as [|e s]; [contradiction|]. destruct H as (-> & Hd & F).
    cbn [flatten count].
    assert (Ps : positive s). { destruct d as [|x d]; [exfalso; apply Hd; reflexivity|]. inversion F; subst. eapply IH; eauto. }
    assert (Lk : length s = k). { destruct d as [|x d]; [exfalso; apply Hd; reflexivity|]. inversion F; subst. eapply IH; eauto. }
    assert (Len : forall d', Forall (fun x => has_shape k x s) d' ->
       N.of_nat (length (concat (map (flatten k) d'))) = (N.of_nat (length d') * prod s)%N /\
       list_sum (map (count k) d') = length (concat (map (flatten k) d'))).
    { clear - IH. induction 1 as [|x d' Hx F' [I1 I2]]; [split; reflexivity|].
      destruct (IH x s Hx) as (_ & _ & L & C & _). cbn [map concat list_sum fold_right length].
      rewrite app_length. change (fold_right Nat.add 0) with list_sum. split; [|lia].
      rewrite Nat2N.inj_add, I1, L. lia. }
    destruct (Len d F) as [L1 L2].
    split; [constructor; auto; destruct d; [exfalso; apply Hd; reflexivity|cbn [length]; lia]|].
    split; [cbn [length]; lia|]. split; [cbn [prod]; auto|]. split; auto.
    clear Lk. intros idx R. inversion R as [|i e' idx' s' Hi R']; subst. cbn [position entry].
    assert (Hi' : N.to_nat i < length d) by lia.
    assert (G : forall d' j, Forall (fun x => has_shape k x s) d' -> j < length d' ->
      nth_error (concat (map (flatten k) d')) (j * N.to_nat (prod s) + N.to_nat (position idx' s)) =
      match nth_error d' j with Some x => entry k x idx' | None => None end).
    { clear - IH R'. intros d' j F. revert j. induction F as [|x d' Hx F' IHd]; intros j Hj; [cbn [length] in Hj; lia|].
      destruct (IH x s Hx) as (_ & _ & L & _ & En). cbn [map concat].
      destruct j as [|j].
      - cbn [nth_error Nat.mul Nat.add]. pose proof (position_lt _ _ R'). rewrite nth_error_app1 by lia. apply En; auto.
      - cbn [nth_error length] in *. rewrite nth_error_app2 by lia. rewrite <- IHd by lia. f_equal. lia. }
    rewrite <- (G d (N.to_nat i) F Hi'). f_equal. nia.
Qed.

Variable vec : bool.
Variable junk : nat -> A.
Notation from := (from_data asserts vec junk).

Lemma u32_small n : (n < 2 ^ 32)%N -> u32 n = n.
Proof. intros. apply u32_id; auto. Qed.

Lemma uninit_length s : (prod s < 2 ^ 32)%N -> length (@uninit A junk s) = N.to_nat (prod s).
Proof.
  intros H. unfold uninit. rewrite map_length, seq_length. rewrite size_exact; auto.
  eapply N.lt_trans; [exact H|reflexivity].
Qed.

Lemma mapM_ok {X Y} (f : X -> outcome Y) (g : X -> Y) l : Forall (fun x => f x = Ok (g x)) l -> mapM f l = Ok (map g l).
Proof. induction 1 as [|x l H F IH]; cbn; auto. rewrite H. cbn. fold (mapM f). rewrite IH. reflexivity. Qed.

Lemma from2_rows_eq (rec : list A -> outcome (arr A)) s : forall d i res ts, mapM rec d = Ok ts ->
  from2_rows asserts rec s i d res = set_rows asserts s i ts res.
Proof.
  induction d as [|x d IH]; intros i res ts H; cbn in H.
  - injection H as <-. reflexivity.
  - destruct (rec x) as [t| |] eqn:E; cbn in H; try discriminate.
    fold (mapM rec) in H. destruct (mapM rec d) as [ts'| |] eqn:E'; cbn in H; try discriminate.
    injection H as <-. cbn [from2_rows set_rows]. rewrite E. cbn [bind].
    destruct (set_row asserts s i t res); cbn [bind]; auto.
Qed.

Lemma concat_sing (l : list A) : concat (map (fun x => [x]) l) = l.
Proof. induction l; cbn; congruence. Qed.

Lemma from_data_ok : forall k (d : nest A k) s, 1 <= k -> has_shape k d s -> (N.of_nat (count k d) < 2 ^ 32)%N ->
  from k d = Ok (s, flatten k d).
Proof.
  induction k as [|k IH]; intros d s Hk H C; [lia|].
  change (list (nest A k)) in (type of d).
  pose proof (has_shape_props (S k) d s H) as (P & Ls & L & Cn & _).
  assert (Psz : (prod s < 2 ^ 32)%N) by lia.
  assert (HD : dense s) by (split; [destruct s; [discriminate|congruence]|split; auto]).
  pose proof (dense_fits s HD) as HF.
  cbn [has_shape] in H. destruct s as [|e s]; [contradiction|]. destruct H as (He & Hd & F). subst e.
  assert (Hlen : (N.of_nat (length d) < 2 ^ 32)%N) by (inversion HF; auto).
  assert (Hne : (0 <? length d) = true) by (destruct d; [exfalso; apply Hd; reflexivity|cbn [length]; apply Nat.ltb_lt; lia]).
  destruct k as [|k].
  - cbn [from_data]. unfold from1. change (nest A 0) with A in *. rewrite Hne, check_true. cbn [bind flatten].
    rewrite u32_small by auto. destruct d as [|x d]; [exfalso; apply Hd; reflexivity|]. inversion F as [|? ? Hx _]; subst.
    cbn in Hx. subst s. rewrite concat_sing. reflexivity.
  - assert (HF2 : Forall (fun x => from (S k) x = Ok (s, flatten (S k) x)) d).
    { rewrite Forall_forall in *. intros x Hx. apply IH; [lia|auto|].
      cbn [count] in C. 
      assert (count (S k) x <= list_sum (map (count (S k)) d)).
      { clear - Hx. induction d as [|y d IHd]; [contradiction|]. cbn [map list_sum fold_right]. change (fold_right Nat.add 0) with list_sum.
        destruct Hx as [->|Hx]; [lia|]. specialize (IHd Hx). lia. }
      cbn [count] in *. lia. }
    pose proof (mapM_ok (from (S k)) (fun x => (s, flatten (S k) x)) d HF2) as HM.
    assert (Hts : Forall (fun x : arr A => fst x = s /\ N.of_nat (length (snd x)) = prod s) (@map _ (arr A) (fun x => (s, flatten (S k) x)) d)).
    { apply Forall_map. eapply Forall_impl; [|exact F]. intros x Hx. split; auto. cbn [snd].
      apply (has_shape_props (S k) x s Hx). }
    assert (Hs : s <> []) by (destruct s; [discriminate|congruence]).
    assert (Hrows : set_rows asserts (N.of_nat (length d) :: s) 0 (@map _ (arr A) (fun x => (s, flatten (S k) x)) d) (uninit junk (N.of_nat (length d) :: s))
                    = Ok (flatten (S (S k)) d)).
    { rewrite (set_rows_ok (N.of_nat (length d)) s) by (auto; rewrite ?map_length, ?uninit_length by auto; lia).
      cbn [Nat.mul firstn app]. rewrite map_map. cbn [snd flatten]. reflexivity. }
    destruct k as [|k].
    + cbn [from_data]. unfold from2. change (nest A 1) with (list A) in *. rewrite Hne, check_true. cbn [bind].
      destruct d as [|first d0] eqn:Ed; [exfalso; apply Hd; reflexivity|]. rewrite <- Ed in *.
      assert (Es : s = [N.of_nat (length first)]).
      { rewrite Ed in F. inversion F as [|? ? Hx _]; subst. cbn in Hx. destruct s as [|e [|e2 s']]; cbn in Ls; try lia. destruct Hx as [-> _]; auto. }
      assert (Hf : (N.of_nat (length first) < 2 ^ 32)%N) by (inversion HF as [|? ? _ HF']; subst; inversion HF'; auto).
      rewrite !u32_small by auto.
      replace (forallb _ d) with true.
      2:{ symmetry. apply forallb_forall. intros x Hx. rewrite Forall_forall in F. specialize (F x Hx). cbn in F. rewrite Es in F.
          apply N.eqb_eq. destruct F as [F _]. auto. }
      rewrite check_true. cbn [bind]. rewrite (from2_rows_eq _ _ _ _ _ _ HM).
      replace [N.of_nat (length d); N.of_nat (length first)] with (N.of_nat (length d) :: s) by (rewrite Es; reflexivity).
      rewrite Hrows. reflexivity.
    + change (from (S (S (S k))) d) with (fromN asserts junk (from (S (S k))) d). unfold fromN.
      rewrite Hne, check_true. cbn [bind]. rewrite HM. cbn [bind].
      destruct d as [|x0 d0] eqn:Ed; [exfalso; apply Hd; reflexivity|]. cbn [map fst].
      rewrite <- (@map_cons _ (arr A) (fun x => (s, flatten (S (S k)) x)) x0 d0), <- Ed in *.
      replace (forallb _ _) with true.
      2:{ symmetry. apply forallb_forall. intros x Hx. apply in_map_iff in Hx as (y & <- & _). apply shape_eqb_spec. reflexivity. }
      rewrite check_true. cbn [bind]. rewrite u32_small by auto. rewrite Hrows. reflexivity.
Qed.
End FromData.

Section Reject.
Context {A : Type} (vec : bool) (junk : nat -> A).
Notation from := (from_data true vec junk).

Lemma mapM_either {X Y} (f : X -> outcome Y) (P : X -> Y -> Prop) l :
  (forall x, In x l -> (exists y, f x = Ok y /\ P x y) \/ exists e, f x = Throw e) ->
  (exists ys, mapM f l = Ok ys /\ Forall2 P l ys) \/ exists e, mapM f l = Throw e.
Proof.
  induction l as [|x l IH]; intros H; cbn.
  - left. exists []. split; auto.
  - fold (mapM f). destruct (H x) as [(y & E & Py)|(e & E)]; [left; auto| |]; rewrite E; cbn; [|right; eauto].
    destruct IH as [(ys & E' & F)|(e & E')]; [intros; apply H; right; auto| |]; rewrite E'; cbn; [|right; eauto].
    left. eexists. split; [reflexivity|]. constructor; auto.
Qed.

Lemma count_in {k} (x : nest A k) (d : list (nest A k)) : In x d -> count k x <= count (S k) d.
Proof.
  cbn [count]. induction d as [|y d IHd]; [contradiction|]. intros Hx. cbn [map list_sum fold_right].
  change (fold_right Nat.add 0) with list_sum. destruct Hx as [->|Hx]; [lia|]. specialize (IHd Hx). lia.
Qed.

Lemma count1 (l : list A) : count 1 l = length l.
Proof. cbn [count]. induction l; cbn; auto. Qed.

Lemma from_data_either : forall k (d : nest A k), 1 <= k -> (N.of_nat (count k d) < 2 ^ 32)%N ->
  (exists s, has_shape k d s) \/ exists e, from k d = Throw e.
Proof.
  induction k as [|k IH]; intros d Hk C; [lia|]. destruct k as [|[|k]].
  - cbn [from_data]. unfold from1. change (list A) in (type of d). destruct d as [|x d]; [right; eexists; reflexivity|].
    left. exists [N.of_nat (length (x :: d))]. cbn [has_shape]. split; auto. split; [congruence|].
    apply Forall_forall. auto.
  - cbn [from_data]. unfold from2. change (list (list A)) in (type of d). destruct d as [|first d0] eqn:Ed; [right; eexists; reflexivity|].
    rewrite <- Ed in *. replace (0 <? length d) with true by (rewrite Ed; reflexivity). rewrite check_true. cbn [bind].
    assert (Hf : (N.of_nat (length first) < 2 ^ 32)%N).
    { assert (G : length first <= count 2 d).
      { rewrite <- (count1 first). apply (@count_in 1 first d). rewrite Ed. left; auto. }
      change (N.of_nat (count 2 d) < 2 ^ 32)%N in C. lia. }
    rewrite (u32_small (N.of_nat (length first))) by auto.
    destruct (forallb _ d) eqn:Fb; [|right; eexists; cbn [check]; reflexivity].
    rewrite check_true. cbn [bind]. rewrite forallb_forall in Fb.
    destruct first as [|y first].
    + right. set (res := uninit _ _). set (s := [_; _]). clearbody res s. rewrite Ed. cbn [from2_rows from1 length].
      eexists. cbn. reflexivity.
    + left. exists [N.of_nat (length d); N.of_nat (length (y :: first))]. cbn [has_shape]. split; auto.
      split; [rewrite Ed; congruence|]. apply Forall_forall. intros x Hx. specialize (Fb x Hx). apply N.eqb_eq in Fb.
      split; auto. split; [destruct x; [cbn [length] in Fb; lia|congruence]|]. apply Forall_forall. auto.
  - change (from (S (S (S k))) d) with (fromN true junk (from (S (S k))) d). unfold fromN.
    change (list (nest A (S (S k)))) in (type of d).
    destruct d as [|x0 d0] eqn:Ed; [right; eexists; reflexivity|]. rewrite <- Ed in *.
    replace (0 <? length d) with true by (rewrite Ed; reflexivity). rewrite check_true. cbn [bind].
    destruct (mapM_either (from (S (S k))) (fun x y => has_shape (S (S k)) x (fst y)) d) as [(ys & E & F2)|(e & E)].
    { intros x Hx. assert (Cx : (N.of_nat (count (S (S k)) x) < 2 ^ 32)%N) by (pose proof (count_in x d Hx); lia).
      destruct (IH x ltac:(lia) Cx) as [(s & Hs)|H]; [left|right; auto].
      exists (s, flatten (S (S k)) x). split; auto. apply from_data_ok; auto; lia. }
    2:{ right. rewrite E. eexists. reflexivity. }
    rewrite E. cbn [bind]. destruct ys as [|y0 ys0] eqn:Ey; [rewrite Ed in F2; inversion F2|].
    rewrite <- Ey in *. destruct (forallb (fun t => shape_eqb (fst t) (fst y0)) ys) eqn:Fb; [|right; eexists; reflexivity].
    left. exists (N.of_nat (length d) :: fst y0). split; auto. split; [rewrite Ed; congruence|].
    rewrite forallb_forall in Fb. clear - F2 Fb.
    induction F2 as [|x y l l' H F2 IH2]; constructor.
    + specialize (Fb y ltac:(left; auto)). apply shape_eqb_spec in Fb. rewrite <- Fb. auto.
    + apply IH2. intros z Hz. apply Fb. right; auto.
Qed.
End Reject.

(** ** Matrices *)
Section Matrix.
Context {A : Type}.
Variable asserts : bool.
Variable junk : nat -> A.

Lemma matrix_position r c i j : (i < r)%N -> (j < c)%N ->
  call_position asserts [r; c] [Z.of_N i; Z.of_N j] = Ok (Z.of_N (i * c + j)).
Proof.
  intros Hi Hj. unfold call_position. cbn [length Nat.eqb]. rewrite check_true. cbn [bind horner].
  assert (E0 : extent asserts [r; c] (Z.of_nat 0) = Ok r) by (destruct asserts; reflexivity).
  assert (E1 : extent asserts [r; c] (Z.of_nat (0 + 1)) = Ok c) by (destruct asserts; reflexivity).
  rewrite E0. cbn [bind].
  replace ((0 <=? Z.of_N i)%Z && (Z.of_N i <? Z.of_N r)%Z) with true by lia. rewrite check_true. cbn [bind].
  rewrite E1. cbn [bind].
  replace ((0 <=? Z.of_N j)%Z && (Z.of_N j <? Z.of_N c)%Z) with true by lia. rewrite check_true. cbn [bind].
  f_equal. lia.
Qed.

Lemma matrix_row_ok r c i : i < r -> forall row j (res : list A), j + length row = c -> length res = r * c ->
  matrix_row asserts [N.of_nat r; N.of_nat c] i j row res
  = Ok (firstn (i * c + j) res ++ row ++ skipn (i * c + c) res).
Proof.
  intros Hi. induction row as [|x row IH]; intros j res Hj Hr; cbn [matrix_row].
  - cbn [length] in Hj. replace (i * c + j) with (i * c + c) by lia. cbn [app]. rewrite firstn_skipn. reflexivity.
  - cbn [length] in Hj. unfold call_set.
    replace [Z.of_nat i; Z.of_nat j] with [Z.of_N (N.of_nat i); Z.of_N (N.of_nat j)] by (rewrite !nat_N_Z; reflexivity).
    rewrite matrix_position by lia. cbn [bind]. unfold wrz.
    replace (Z.of_N (N.of_nat i * N.of_nat c + N.of_nat j) <? 0)%Z with false by lia.
    replace (Z.to_nat (Z.of_N (N.of_nat i * N.of_nat c + N.of_nat j))) with (i * c + j) by lia.
    assert (Hlt : i * c + j < length res) by nia.
    rewrite wr_Ok by auto. cbn [bind]. rewrite IH; [|lia|rewrite upd_length; auto].
    f_equal. apply list_eq_nth_error. intros q. rewrite !nth_error_splice, !firstn_length, !upd_length.
    replace (Nat.min (i * c + (j + 1)) (length res)) with (i * c + (j + 1)) by lia.
    replace (Nat.min (i * c + j) (length res)) with (i * c + j) by lia. cbn [length].
    destruct (Nat.ltb_spec q (i * c + (j + 1))) as [Q|Q].
    + rewrite nth_error_firstn_lt by auto. rewrite nth_error_upd.
      destruct (Nat.ltb_spec q (i * c + j)) as [Q2|Q2].
      * replace (i * c + j =? q) with false by (symmetry; apply Nat.eqb_neq; lia). cbn [andb].
        rewrite nth_error_firstn_lt by auto. reflexivity.
      * assert (q = i * c + j) by lia. subst q. rewrite Nat.eqb_refl.
        replace (i * c + j <? length res) with true by (symmetry; apply Nat.ltb_lt; auto). cbn [andb].
        replace (i * c + j <? i * c + j + S (length row)) with true by (symmetry; apply Nat.ltb_lt; lia).
        rewrite Nat.sub_diag. reflexivity.
    + replace (q <? i * c + j) with false by (symmetry; apply Nat.ltb_ge; lia).
      replace (i * c + (j + 1) + length row) with (i * c + j + S (length row)) by lia.
      destruct (Nat.ltb_spec q (i * c + j + S (length row))) as [Q2|Q2].
      * replace (q - (i * c + j)) with (S (q - (i * c + (j + 1)))) by lia. reflexivity.
      * rewrite !nth_error_skipn_add, nth_error_upd.
        replace (i * c + j =? i * c + c + (q - (i * c + (j + 1)) - length row)) with false by (symmetry; apply Nat.eqb_neq; lia).
        cbn [andb]. f_equal. lia.
Qed.

Lemma matrix_rows_ok r c : forall d i (res : list A), i + length d = r -> length res = r * c ->
  Forall (fun row => length row = c) d ->
  matrix_rows asserts [N.of_nat r; N.of_nat c] (N.of_nat c) i d res = Ok (firstn (i * c) res ++ concat d).
Proof.
  induction d as [|row d IH]; intros i res Hi Hr F; cbn [matrix_rows].
  - cbn [length] in Hi. cbn [concat]. rewrite app_nil_r, firstn_all2 by nia. reflexivity.
  - inversion F as [|? ? L F']; subst c. cbn [length] in Hi. rewrite N.eqb_refl, check_true. cbn [bind].
    rewrite matrix_row_ok by lia. cbn [bind]. set (c := length row) in *.
    rewrite IH; auto; [|lia|].
    + f_equal. cbn [concat]. rewrite (app_assoc (firstn (i * c) res) row). apply (f_equal (fun z => z ++ concat d)). rewrite Nat.add_0_r.
      assert (i * c + c <= length res) by nia.
      replace (firstn (i * c) res ++ row ++ skipn (i * c + c) res)
        with ((firstn (i * c) res ++ row) ++ skipn (i * c + c) res) by (rewrite <- app_assoc; reflexivity).
      rewrite firstn_app. assert (E : length (firstn (i * c) res ++ row) = (i + 1) * c).
      { rewrite app_length, firstn_length. fold c. lia. }
      rewrite firstn_all2 by lia. rewrite E, Nat.sub_diag. cbn [firstn]. apply app_nil_r.
    + rewrite !app_length, firstn_length, skipn_length. fold c. nia.
Qed.

Lemma from_matrix_ok (d : list (list A)) s : has_shape 2 d s -> (N.of_nat (count 2 d) < 2 ^ 32)%N ->
  from_matrix asserts junk d = Ok (s, flatten 2 d).
Proof.
  intros H C. pose proof (has_shape_props 2 d s H) as (P & Ls & L & Cn & _).
  assert (Psz : (prod s < 2 ^ 32)%N) by lia.
  assert (HD : dense s) by (split; [destruct s; [discriminate|congruence]|split; auto]).
  pose proof (dense_fits s HD) as HF.
  destruct s as [|e s]; [contradiction|]. destruct H as (He & Hd & F). subst e.
  destruct s as [|e [|? ?]]; try discriminate Ls.
  assert (HF1 : (N.of_nat (length d) < 2 ^ 32)%N) by (inversion HF; auto).
  assert (HF2 : (e < 2 ^ 32)%N) by (inversion HF as [|? ? _ HF']; inversion HF'; auto).
  change (Forall (fun x : list A => has_shape 1 x [e]) d) in F.
  assert (Frow : Forall (fun row => length row = N.to_nat e) d).
  { eapply Forall_impl; [|exact F]. intros row Hr. cbn in Hr. destruct Hr as [-> _]. lia. }
  unfold from_matrix. destruct d as [|first d0] eqn:Ed; [exfalso; apply Hd; reflexivity|].
  change (0 <? length (first :: d0)) with true. rewrite check_true. cbn [bind]. rewrite <- Ed in *.
  assert (Lf : N.of_nat (length first) = e).
  { rewrite Ed in Frow. inversion Frow; subst. lia. }
  rewrite !u32_small by (auto; lia). subst e.
  change (@length (nest A 1) d) with (@length (list A) d) in *.
  rewrite (matrix_rows_ok (length d) (length first)); auto.
  - cbn [bind Nat.mul firstn app]. do 2 f_equal. cbn [flatten].
    clear. induction d as [|x d IH]; auto. cbn [map concat]. rewrite IH, concat_sing. reflexivity.
  - rewrite uninit_length by auto. cbn [prod]. lia.
  - eapply Forall_impl; [|exact Frow]. intros row Hr. cbn beta in Hr. lia.
Qed.
End Matrix.

Lemma from_matrix_either {A} (junk : nat -> A) (d : list (list A)) :
  (N.of_nat (count 2 d) < 2 ^ 32)%N -> (N.of_nat (length d) < 2 ^ 32)%N ->
  (N.of_nat (length d * length (hd [] d)) < 2 ^ 32)%N -> Forall (fun r => r <> []) d ->
  (exists s, has_shape 2 d s) \/ exists e, from_matrix true junk d = Throw e.
Proof.
  intros C Hn Hp HNE. destruct d as [|first d0] eqn:Ed; [right; eexists; reflexivity|]. rewrite <- Ed in *.
  assert (Hf : (N.of_nat (length first) < 2 ^ 32)%N).
  { assert (G : length first <= count 2 d).
    { rewrite <- (count1 first). apply (@count_in A junk 1 first d). rewrite Ed. left; auto. }
    lia. }
  assert (G : forall (d' : list (list A)) i (res : list A), length d' + i = length d -> length res = length d * length first ->
    (Forall (fun row => length row = length first) d') \/
    exists e, matrix_rows true [N.of_nat (length d); N.of_nat (length first)] (N.of_nat (length first)) i d' res = Throw e).
  { induction d' as [|row d' IH]; intros i res Hi Hr; [left; constructor|]. cbn [matrix_rows length] in *.
    destruct (N.eqb_spec (N.of_nat (length row)) (N.of_nat (length first))) as [E|E].
    - rewrite check_true. cbn [bind]. assert (E' : length row = length first) by lia.
      rewrite (matrix_row_ok true junk (length d) (length first) i) by (auto; lia). cbn [bind].
      match goal with |- _ \/ exists e, matrix_rows true _ _ _ _ ?r = _ => destruct (IH (i + 1) r) as [F|F] end.
      + lia.
      + rewrite !app_length, firstn_length, skipn_length. nia.
      + left. constructor; auto.
      + right. exact F.
    - right. eexists. reflexivity. }
  destruct (forallb (fun row => length row =? length first) d) eqn:Fb.
  - left. exists [N.of_nat (length d); N.of_nat (length first)]. cbn [has_shape]. split; auto.
    split; [rewrite Ed; congruence|]. rewrite forallb_forall in Fb. apply Forall_forall. intros x Hx.
    specialize (Fb x Hx). apply Nat.eqb_eq in Fb. split; [rewrite <- Fb; reflexivity|]. split; [|apply Forall_forall; auto].
    rewrite Forall_forall in HNE. auto.
  - right. unfold from_matrix. rewrite Ed. rewrite <- Ed. replace (0 <? length d) with true by (rewrite Ed; reflexivity).
    rewrite check_true. cbn [bind]. rewrite !u32_small by auto.
    assert (Hsz : exists e, matrix_rows true [N.of_nat (length d); N.of_nat (length first)] (N.of_nat (length first)) 0 d
       (uninit junk [N.of_nat (length d); N.of_nat (length first)]) = Throw e).
    { destruct (G d 0 (uninit junk [N.of_nat (length d); N.of_nat (length first)])) as [F|F]; auto; [|exfalso].
      - unfold uninit. rewrite map_length, seq_length. rewrite Ed in Hp at 2. cbn [hd] in Hp.
        rewrite size_exact; [cbn [prod]; lia|cbn [prod]; lia].
      - assert (forallb (fun row => length row =? length first) d = true); [|congruence].
        apply forallb_forall. intros x Hx. rewrite Forall_forall in F. apply Nat.eqb_eq. auto. }
    destruct Hsz as [e ->]. eexists. reflexivity.
Qed.

(** ** Comma initialisation *)
Lemma comma_ok {A} asserts (vs : list A) : forall m data, m + length vs <= length data ->
  exists new, comma asserts m vs data = (Ok tt, new) /\ length new = length data /\
    forall i, nth_error new i = if (m <=? i) && (i <? m + length vs) then nth_error vs (i - m) else nth_error data i.
Proof.
  induction vs as [|v vs IH]; intros m data H; cbn [comma length] in *.
  - exists data. split; [reflexivity|]. split; auto. intros i.
    replace ((m <=? i) && (i <? m + 0)) with false by lia. reflexivity.
  - replace (m <? length data) with true by lia.
    destruct (IH (m + 1) (upd data m v)) as (new & E & L & P); [rewrite upd_length; lia|].
    exists new. split; auto. rewrite upd_length in L. split; auto. intros i. rewrite P, nth_error_upd.
    destruct (Nat.eqb_spec m i) as [->|N].
    + replace ((i + 1 <=? i) && (i <? i + 1 + length vs)) with false by lia.
      replace (i <? length data) with true by lia. cbn [andb].
      replace ((i <=? i) && (i <? i + S (length vs))) with true by lia. rewrite Nat.sub_diag. reflexivity.
    + cbn [andb]. replace ((m + 1 <=? i) && (i <? m + 1 + length vs)) with ((m <=? i) && (i <? m + S (length vs))) by lia.
      destruct ((m <=? i) && (i <? m + S (length vs))) eqn:B; auto.
      replace (i - m) with (S (i - (m + 1))) by lia. reflexivity.
Qed.

Lemma comma_overflow {A} asserts (vs : list A) : forall m data, m <= length data -> length data < m + length vs ->
  fst (comma asserts m vs data) = if asserts then Throw RuntimeError else UB.
Proof.
  induction vs as [|v vs IH]; intros m data H1 H2; cbn [comma length] in *; [lia|].
  destruct (Nat.ltb_spec m (length data)); [|reflexivity].
  apply IH; rewrite upd_length; lia.
Qed.

(** ** arange *)
Lemma map_seq_nth {B} (f : nat -> B) n i : i < n -> nth_error (map f (seq 0 n)) i = Some (f i).
Proof.
  intros H. apply map_nth_error. rewrite (nth_error_nth' _ 0); [rewrite seq_nth by auto; reflexivity|].
  rewrite seq_length. auto.
Qed.

Lemma arange_count_spec start stop step : step <> 0%Z ->
  documented_count start stop step (Z.to_nat (arange_count start stop step)).
Proof.
  intros H. unfold documented_count, arange_count. rewrite Z2Nat.id by apply Z.abs_nonneg.
  rewrite <- Z.quot_abs by auto.
  assert (0 < Z.abs step)%Z by lia. pose proof (Z.abs_nonneg (stop - start)).
  rewrite Z.quot_div_nonneg by auto. clear H.
  generalize dependent (Z.abs step). generalize dependent (Z.abs (stop - start)). intros a Ha b Hb.
  pose proof (Z.div_mod a b). pose proof (Z.mod_pos_bound a b Hb).
  generalize dependent (a / b)%Z. generalize dependent (a mod b)%Z. intros. nia.
Qed.

Lemma arange_raw_int64 start step i :
  (- 2 ^ 63 <= start + Z.of_nat i * step < 2 ^ 63)%Z -> to_int64 (arange_raw start step i) = (start + Z.of_nat i * step)%Z.
Proof.
  intros H. unfold to_int64, arange_raw, u64z.
  rewrite Z.add_mod_idemp_r, Z.add_mod_idemp_l by lia.
  replace ((start + Z.of_nat i * (step mod 2 ^ 64)) mod 2 ^ 64)%Z with ((start + Z.of_nat i * step) mod 2 ^ 64)%Z.
  - generalize dependent (start + Z.of_nat i * step)%Z. intros x H. unfold s64z.
    destruct (Z.neg_nonneg_cases x) as [G|G].
    + replace (x mod 2 ^ 64)%Z with (x + 2 ^ 64)%Z.
      * destruct (Z.ltb_spec (x + 2 ^ 64) (2 ^ 63)); lia.
      * rewrite <- (Z.mod_add x 1) by lia. rewrite Z.mod_small; lia.
    + rewrite Z.mod_small by lia. destruct (Z.ltb_spec x (2 ^ 63)); lia.
  - rewrite <- Z.add_mod_idemp_r by lia. rewrite <- (Z.add_mod_idemp_r start (Z.of_nat i * (step mod _))) by lia.
    rewrite Z.mul_mod_idemp_r by lia. reflexivity.
Qed.

Lemma arange_raw_double start step i :
  (0 <= start + Z.of_nat i * step < 2 ^ 64)%Z -> to_double (arange_raw start step i) = (start + Z.of_nat i * step)%Z.
Proof.
  intros H. unfold to_double, arange_raw, u64z.
  rewrite Z.add_mod_idemp_r, Z.add_mod_idemp_l by lia.
  rewrite <- Z.add_mod_idemp_r by lia. rewrite Z.mul_mod_idemp_r by lia. rewrite Z.add_mod_idemp_r by lia.
  apply Z.mod_small. auto.
Qed.

Lemma quot_pos_sign a b : (0 < Z.quot a b)%Z -> b <> 0%Z -> (0 < a * b)%Z.
Proof. 
  intros H Hb. rewrite Z.quot_div in H by auto. assert (Q : (0 <= Z.abs a / Z.abs b)%Z) by (apply Z.div_pos; lia).
  generalize dependent (Z.abs a / Z.abs b)%Z. intros q H Q.
  destruct (Z.sgn_spec a) as [[? E]|[[? E]|[? E]]]; destruct (Z.sgn_spec b) as [[? F]|[[? F]|[? F]]]; rewrite E, F in H; nia.
Qed.

(** every listed value lies in [start, stop) (downwards for a negative step) *)
Lemma documented_inside start stop step n i : (0 < (stop - start) * step)%Z -> documented_count start stop step n -> i < n ->
  (0 <= (start + Z.of_nat i * step - start) * step /\ (0 < (stop - (start + Z.of_nat i * step)) * step))%Z.
Proof. unfold documented_count. intros H1 H2 H3. nia. Qed.

Lemma arange_ok {B} asserts (conv : Z -> B) start stop step : step <> 0%Z -> (0 < Z.quot (stop - start) step)%Z ->
  arange asserts conv start stop step
  = Ok (map (fun i => conv (arange_raw start step i)) (seq 0 (Z.to_nat (arange_count start stop step)))).
Proof.
  intros H1 H2. unfold arange. replace (step =? 0)%Z with false by lia. cbn [negb].
  rewrite check_true. cbn [bind]. replace (0 <? Z.quot (stop - start) step)%Z with true by lia.
  rewrite check_true. reflexivity.
Qed.

Lemma between_progression start stop step i n : (- 2 ^ 63 <= start < 2 ^ 63)%Z -> (- 2 ^ 63 <= stop < 2 ^ 63)%Z ->
  documented_count start stop step n -> (0 < (stop - start) * step)%Z -> i < n ->
  (Z.min start stop <= start + Z.of_nat i * step <= Z.max start stop)%Z.
Proof. unfold documented_count. intros. nia. Qed.

(** ** Floating point *)
Local Open Scope R_scope.
Lemma rtrunc_spec x : 0 <= x -> INR (rtrunc x) <= x < INR (rtrunc x) + 1.
Proof.
  intros H. unfold rtrunc. destruct (archimed x) as [A1 A2].
  assert (P : (0 <= up x - 1)%Z). { apply Z.lt_succ_r. rewrite Z.sub_1_r, Z.succ_pred. apply lt_IZR. lra. }
  rewrite INR_IZR_INZ, Z2Nat.id by auto. rewrite minus_IZR. lra.
Qed.

Lemma arange_real_ok asserts start stop step : 0 < (stop - start) / step ->
  exists n, INR n <= (stop - start) / step < INR n + 1 /\
  arange_real asserts start stop step = Ok (map (fun i => start + INR i * step) (seq 0 n)).
Proof.
  intros H. assert (step <> 0). { intros ->. unfold Rdiv in H. rewrite Rinv_0 in H. lra. }
  exists (rtrunc (Rabs ((stop - start) / step))). rewrite Rabs_right by lra. split; [apply rtrunc_spec; lra|].
  unfold arange_real. destruct (Req_EM_T step 0) as [E|E]; [contradiction|]. rewrite check_true. cbn [bind].
  destruct (Rlt_dec 0 ((stop - start) / step)) as [L|L]; [|contradiction]. rewrite check_true. cbn [bind].
  rewrite Rabs_right by lra. reflexivity.
Qed.

Lemma linspace_ok asserts start stop n (includeEnd : bool) : (0 < n)%nat -> (includeEnd = true -> (1 < n)%nat) ->
  exists l, linspace asserts start stop (Z.of_nat n) includeEnd = Ok (map Some l) /\
  rprogression start ((stop - start) / (INR n - if includeEnd then 1 else 0)) n l.
Proof.
  intros H1 H2.
  assert (Hden : INR n - (if includeEnd then 1 else 0) <> 0).
  { destruct includeEnd. - pose proof (lt_INR 1 n (H2 eq_refl)). cbn in H. lra. - pose proof (lt_INR 0 n H1). cbn in H. lra. }
  exists (map (fun i => start + INR i * ((stop - start) / (INR n - if includeEnd then 1 else 0))) (seq 0 n)).
  split; [|split].
  - unfold linspace. replace (0 <? Z.of_nat n)%Z with true by lia. rewrite check_true. cbn [bind].
    rewrite Nat2Z.id, map_map. f_equal. apply map_ext. intros i. unfold rdiv.
    rewrite minus_IZR, <- INR_IZR_INZ. replace (IZR (if includeEnd then 1 else 0)) with (if includeEnd then 1 else 0) by (destruct includeEnd; auto).
    destruct (Req_EM_T _ 0) as [E|E]; [contradiction|]. f_equal. field. auto.
  - rewrite map_length, seq_length. auto.
  - intros i Hi. rewrite map_seq_nth by auto. reflexivity.
Qed.

Lemma logspace_ok asserts start stop n (includeEnd : bool) : 0 < start -> 0 < stop -> (0 < n)%nat -> (includeEnd = true -> (1 < n)%nat) ->
  exists l, logspace asserts start stop (Z.of_nat n) includeEnd = Ok (map Some l) /\ length l = n /\
  forall i, (i < n)%nat -> exists x, nth_error l i = Some x /\ 0 < x /\
     ln x = ln start + INR i * ((ln stop - ln start) / (INR n - if includeEnd then 1 else 0)).
Proof.
  intros P1 P2 H1 H2.
  assert (Hden : INR n - (if includeEnd then 1 else 0) <> 0).
  { destruct includeEnd. - pose proof (lt_INR 1 n (H2 eq_refl)). cbn in H. lra. - pose proof (lt_INR 0 n H1). cbn in H. lra. }
  exists (map (fun i => exp (ln start + INR i * ((ln stop - ln start) / (INR n - if includeEnd then 1 else 0)))) (seq 0 n)).
  split; [|split].
  - unfold logspace. replace (0 <? Z.of_nat n)%Z with true by lia. rewrite check_true. cbn [bind].
    destruct (Rlt_dec 0 start) as [|E]; [|contradiction]. destruct (Rlt_dec 0 stop) as [|E]; [|contradiction].
    rewrite Nat2Z.id, map_map. f_equal. apply map_ext. intros i. unfold rdiv.
    rewrite minus_IZR, <- INR_IZR_INZ. replace (IZR (if includeEnd then 1 else 0)) with (if includeEnd then 1 else 0) by (destruct includeEnd; auto).
    destruct (Req_EM_T _ 0) as [E|E]; [contradiction|]. do 2 f_equal. field. auto.
  - rewrite map_length, seq_length. auto.
  - intros i Hi. rewrite map_seq_nth by auto. eexists. split; [reflexivity|]. split; [apply exp_pos|apply ln_exp].
Qed.

Lemma linspace_one start stop : linspace true start stop 1 true = Ok [None].
Proof.
  unfold linspace. cbn [check Z.ltb Z.compare bind negb]. change (1 - 1)%Z with 0%Z. cbn [seq Z.to_nat Pos.to_nat Pos.iter_op Init.Nat.add map].
  unfold rdiv. destruct (Req_EM_T 0 0) as [_|E]; [reflexivity|contradiction].
Qed.
