(** Proofs about the text form of arrays. *)
From Coq Require Import Ascii.
From Verif Require Import Base BaseProofs ShapeModel ShapeSpec ShapeProofs ViewModel ViewSpec ViewProofs FormatModel FormatSpec.
From Coq Require Import ZifyNat ZifyN ZifyBool.
Ltac Zify.zify_post_hook ::= idtac.
Local Open Scope nat_scope.

(** ** join and chunks *)
Lemma join_snoc {A} (x : list A) ls l : join x (ls ++ [l]) = match ls with [] => l | _ => join x ls ++ x ++ l end.
Proof.
  induction ls as [|a ls IH]; [reflexivity|]. destruct ls as [|b ls].
  - reflexivity.
  - change ((a :: b :: ls) ++ [l]) with (a :: (b :: ls) ++ [l]).
    assert (E : forall l', l' <> [] -> join x (a :: l') = a ++ x ++ join x l') by (now intros [|? ?]).
    rewrite E by discriminate. rewrite IH. rewrite E by discriminate. now rewrite <- !app_assoc.
Qed.
Lemma chunks_length {A} n k (l : list A) : length (chunks n k l) = n.
Proof. revert l. induction n; cbn; auto. Qed.
Lemma skipn_add {A} (l : list A) a b : skipn a (skipn b l) = skipn (b + a) l.
Proof. rewrite skipn_skipn. f_equal. lia. Qed.
Lemma chunks_seq {A} n k (l : list A) : chunks n k l = map (fun i => firstn k (skipn (i * k) l)) (seq 0 n).
Proof.
  revert l. induction n as [|n IH]; intros l; cbn [chunks seq map]; [reflexivity|].
  cbn [Nat.mul skipn]. f_equal. rewrite IH, <- seq_shift, map_map. apply map_ext.
  intros i. rewrite skipn_add. do 2 f_equal.
Qed.
Lemma concat_chunks {A} n k (l : list A) : length l = n * k -> concat (chunks n k l) = l.
Proof.
  revert l. induction n as [|n IH]; intros l H; cbn [chunks concat].
  - destruct l; [reflexivity|discriminate].
  - rewrite IH by (rewrite skipn_length; cbn in H; lia). apply firstn_skipn.
Qed.
Lemma chunk_length {A} n k (l c : list A) : length l = n * k -> In c (chunks n k l) -> length c = k.
Proof.
  revert l. induction n as [|n IH]; intros l H; cbn [chunks In]; [easy|]. intros [<-|Hc].
  - rewrite firstn_length. cbn in H. lia.
  - apply (IH (skipn k l)); [rewrite skipn_length; cbn in H; lia|exact Hc].
Qed.
Lemma chunks_mul {A} n k w (l : list A) : length l = n * (k * w) ->
  chunks (n * k) w l = flat_map (chunks k w) (chunks n (k * w) l).
Proof.
  revert l. induction n as [|n IH]; intros l H; cbn [chunks flat_map Nat.mul]; [reflexivity|].
  rewrite <- IH by (rewrite skipn_length; cbn in H; lia).
  assert (G : forall k (l : list A) m, k * w <= length l ->
     chunks (k + m) w l = chunks k w (firstn (k * w) l) ++ chunks m w (skipn (k * w) l)).
  { clear. induction k as [|k IH]; intros l m H; cbn [Nat.add chunks Nat.mul app]; [now rewrite skipn_O|].
    rewrite IH by (rewrite skipn_length; cbn in H; lia). cbn [app]. f_equal.
    - rewrite firstn_firstn. f_equal. lia.
    - f_equal; [f_equal|f_equal].
      + rewrite firstn_skipn_comm. reflexivity.
      + rewrite skipn_add. reflexivity. }
  apply G. cbn in H. lia.
Qed.

(** A loop that writes blocks and separators. *)
Lemma for_join {A} (X : nat -> list A) pre post body n out :
  (forall i o, i < n -> body i o = Ok ((if 0 <? i then o ++ pre else o) ++ X i ++ (if i =? n - 1 then [] else post))) ->
  for_range 0 n body out = Ok (out ++ join (post ++ pre) (map X (seq 0 n))).
Proof.
  intros Hb.
  destruct (for_range_inv (fun i o => o = out ++ join (post ++ pre) (map X (seq 0 i)) ++
      (if (0 <? i) && (i <? n) then post else [])) body 0 n out) as (o & E & ->).
  - lia.
  - intros i o Hi ->. eexists. split; [apply Hb; lia|].
    rewrite seq_S, map_app. cbn [map Nat.add]. rewrite join_snoc.
    replace (0 <? S i) with true by lia. cbn [andb].
    destruct i as [|i].
    + change (0 <? 0) with false. cbn [seq map andb app join]. rewrite app_nil_r.
      destruct (0 =? n - 1) eqn:E1, (1 <? n) eqn:E2; try lia; reflexivity.
    + replace (0 <? S i) with true by lia. replace (S i <? n) with true by lia. cbn [andb].
      assert (Hne : map X (seq 0 (S i)) <> []) by discriminate.
      destruct (map X (seq 0 (S i))) as [|b bs]; [congruence|]. rewrite <- !app_assoc.
      destruct (S i =? n - 1) eqn:E1, (S (S i) <? n) eqn:E2; try lia; reflexivity.
  - cbn. now rewrite app_nil_r.
  - rewrite E. replace (n <? n) with false by lia. now rewrite andb_false_r, app_nil_r.
Qed.

Section Fmt.
Context {A : Type} (text : A -> list ascii) (knd : kind).
Local Notation align := (alignment text knd).

(** ** Reading blocks *)
Lemma scalar_block v e off (m : list A) i : dense [e] -> block v [e] off -> (off + e <= N.of_nat (length m))%N ->
  i < N.to_nat e -> exists x, view_scalar v m (N.of_nat i) = Ok x /\ nth_error m (N.to_nat off + i) = Some x.
Proof.
  intros HD HB HL Hi. destruct (block_ok v [e] off m HD HB) as [Hok _]; [cbn [prod]; lia|].
  assert (HR : in_range [N.of_nat i] [e]) by (constructor; [lia|constructor]).
  pose proof HB as [B1 [B2 B3]].
  destruct (scalar_element v m [N.of_nat i] Hok) as (x & E1 & E2); [rewrite B1; exact HR|].
  rewrite B1 in E1. cbn [position prod] in E1. rewrite N.mul_1_r, N.add_0_r in E1. exists x. split; [exact E1|].
  unfold view_element in E2. rewrite (block_cell v [e] off) in E2 by auto. cbn [position prod] in E2.
  destruct (Z.of_N _ <? 0)%Z; [discriminate|]. rewrite <- E2. f_equal. lia.
Qed.
Lemma extent0 asserts e s : extent asserts (e :: s) 0 = Ok e.
Proof. change 0%Z with (Z.of_nat 0). rewrite extent_nth by (cbn; lia). reflexivity. Qed.

(** ** Column widths *)
Definition pmax (q p : nat * nat) := (Nat.max (fst q) (fst p), Nat.max (snd q) (snd p)).
Fixpoint absorb (al row : list (nat * nat)) : list (nat * nat) :=
  match al, row with
  | [], _ => row
  | _, [] => al
  | a :: al', r :: row' => pmax a r :: absorb al' row'
  end.
Fixpoint fin (s : list N) (al : list (nat * nat)) (l : list A) : list (nat * nat) :=
  match s with
  | [] => al
  | [_] => absorb al (map align l)
  | e :: s' => fold_left (fin s') (chunks (N.to_nat e) (N.to_nat (prod s')) l) al
  end.
Lemma absorb_nil_r al : absorb al [] = al.
Proof. destruct al; reflexivity. Qed.
Lemma absorb_snoc : forall al row p,
  absorb al (row ++ [p]) = if length (absorb al row) <=? length row then absorb al row ++ [p]
    else upd (absorb al row) (length row) (pmax (nth (length row) (absorb al row) (0, 0)) p).
Proof.
  induction al as [|a al IH]; intros row p.
  - cbn [absorb]. replace (length row <=? length row) with true by lia. reflexivity.
  - destruct row as [|r row].
    + cbn [app absorb length nth upd]. rewrite absorb_nil_r. reflexivity.
    + cbn [app absorb length nth upd]. rewrite IH.
      replace (S (length (absorb al row)) <=? S (length row)) with (length (absorb al row) <=? length row) by lia.
      destruct (length (absorb al row) <=? length row); reflexivity.
Qed.

Lemma firstn_S_nth (l : list A) i x : nth_error l i = Some x -> firstn (S i) l = firstn i l ++ [x].
Proof.
  revert i. induction l as [|a l IH]; intros [|i]; cbn; try discriminate.
  - intros [= ->]. reflexivity.
  - intros H. now rewrite <- (IH i H).
Qed.
Lemma nth_error_chunk (m : list A) off k i x : i < k -> nth_error m (off + i) = Some x ->
  nth_error (firstn k (skipn off m)) i = Some x.
Proof.
  intros Hi H. rewrite <- H. clear H. rewrite <- nth_error_skipn_add. generalize (skipn off m) as l. clear off m.
  revert i Hi. induction k as [|k IH]; intros i Hi l; [lia|]. destruct l as [|a l], i as [|i]; cbn; auto. apply IH. lia.
Qed.

Definition chunk (s : list N) (off : N) (m : list A) := firstn (N.to_nat (prod s)) (skipn (N.to_nat off) m).
Lemma chunk_len s off m : (off + prod s <= N.of_nat (length m))%N -> length (chunk s off m) = N.to_nat (prod s).
Proof. intros H. unfold chunk. rewrite firstn_length, skipn_length. lia. Qed.
Lemma subchunk e s off m i : i < N.to_nat e -> 
  firstn (N.to_nat (prod s)) (skipn (i * N.to_nat (prod s)) (chunk (e :: s) off m)) = chunk s (off + N.of_nat i * prod s) m.
Proof.
  intros Hi. unfold chunk. rewrite skipn_firstn_comm, skipn_add, firstn_firstn. f_equal.
  - cbn [prod]. assert (N.to_nat e * N.to_nat (prod s) >= (i + 1) * N.to_nat (prod s)) by (apply Nat.mul_le_mono_r; lia).
    rewrite N2Nat.inj_mul. lia.
  - f_equal. rewrite N2Nat.inj_add, N2Nat.inj_mul. lia.
Qed.
Lemma chunks_sub e s off m :
  chunks (N.to_nat e) (N.to_nat (prod s)) (chunk (e :: s) off m)
  = map (fun i => chunk s (off + N.of_nat i * prod s) m) (seq 0 (N.to_nat e)).
Proof. rewrite chunks_seq. apply map_ext_in. intros i Hi. apply in_seq in Hi. apply subchunk. lia. Qed.

Lemma for_fold {S B} (f : S -> B -> S) (g : nat -> B) body n s0 :
  (forall i s, i < n -> body i s = Ok (f s (g i))) -> for_range 0 n body s0 = Ok (fold_left f (map g (seq 0 n)) s0).
Proof.
  intros Hb. destruct (for_range_inv (fun i s => s = fold_left f (map g (seq 0 i)) s0) body 0 n s0) as (s' & E & ->).
  - lia.
  - intros i s Hi ->. eexists. split; [apply Hb; lia|]. rewrite seq_S, map_app, fold_left_app. reflexivity.
  - reflexivity.
  - exact E.
Qed.

Lemma finder_ok asserts m : forall s v off al, dense s -> block v s off -> (off + prod s <= N.of_nat (length m))%N ->
  finder text knd asserts (length s) v m al = Ok (fin s al (chunk s off m)).
Proof.
  induction s as [|e s IH]; intros v off al HD HB HL; [destruct HD; congruence|].
  pose proof HB as [B1 _]. destruct s as [|e' s'].
  - cbn [length finder fin]. rewrite B1, extent0. cbn [bind].
    set (l := chunk [e] off m).
    assert (Hl : length l = N.to_nat e).
    { unfold l. rewrite chunk_len by exact HL. cbn [prod]. lia. }
    destruct (for_range_inv (fun i al' => al' = absorb al (map align (firstn i l)))
      (fun i al => do x <- view_scalar v m (N.of_nat i);
        if length al <=? i then Ok (al ++ [align x])
        else do q <- rd al i; wr al i (Nat.max (fst q) (fst (align x)), Nat.max (snd q) (snd (align x)))) 0 (N.to_nat e) al)
      as (al' & E & ->).
    + lia.
    + intros i al' Hi ->. destruct (scalar_block v e off m i HD HB) as (x & Ex & En); [cbn [prod] in HL; lia|lia|].
      rewrite Ex. cbn [bind].
      assert (En' : nth_error l i = Some x) by (apply nth_error_chunk; [cbn [prod]; lia|exact En]).
      assert (Hli : length (map align (firstn i l)) = i) by (rewrite map_length, firstn_length; lia).
      rewrite (firstn_S_nth l i x En'), map_app. cbn [map]. rewrite absorb_snoc, Hli.
      set (al1 := absorb al (map align (firstn i l))). destruct (length al1 <=? i) eqn:E.
      * eexists. split; reflexivity.
      * rewrite (rd_Ok al1 i (0, 0)) by lia. cbn [bind]. rewrite wr_Ok by lia.
        eexists. split; reflexivity.
    + cbn. now rewrite absorb_nil_r.
    + rewrite E. rewrite firstn_all2 by lia. reflexivity.
  - assert (HD' : dense (e' :: s')) by (apply (dense_tail e); auto; discriminate).
    change (length (e :: e' :: s')) with (S (S (length s'))).
    set (t := e' :: s') in *. change (S (length s')) with (length t) in *.
    assert (Et : exists k, length t = S k) by (unfold t; cbn; eauto). destruct Et as [k Ek].
    cbn [finder]. rewrite Ek. rewrite <- Ek. rewrite B1, extent0. cbn [bind].
    rewrite (for_fold (fin t) (fun i => chunk t (off + N.of_nat i * prod t) m)).
    + f_equal. rewrite <- chunks_sub. unfold t. reflexivity.
    + intros i al' Hi. destruct (index_block asserts v e t off (N.of_nat i) HD HB) as (w & Ew & HBw); [lia|].
      rewrite nat_N_Z in Ew. rewrite Ew. cbn [bind]. apply IH; [exact HD'|exact HBw|].
      cbn [prod] in HL. assert ((N.of_nat i + 1) * prod t <= e * prod t)%N by (apply N.mul_le_mono_r; lia). lia.
Qed.

(** ** The text *)
Lemma map2_snoc {B C D} (f : B -> C -> D) l l' a b : length l = length l' -> map2 f (l ++ [a]) (l' ++ [b]) = map2 f l l' ++ [f a b].
Proof. revert l'. induction l as [|x l IH]; intros [|y l']; cbn; intros H; try lia; [reflexivity|]. rewrite IH by lia. reflexivity. Qed.
Lemma map2_seq {B C D} (f : B -> C -> D) (dB : B) (dC : C) l l' n : length l' = n -> n <= length l ->
  map2 f l l' = map (fun i => f (nth i l dB) (nth i l' dC)) (seq 0 n).
Proof.
  intros <-. revert l. induction l' as [|y l' IH]; intros [|x l]; cbn [map2 length seq map nth]; intros H; try lia; try reflexivity.
  f_equal. rewrite (IH l) by (cbn in H; lia). rewrite <- seq_shift, map_map. reflexivity.
Qed.

Lemma impl_ok asserts blank W m : forall s v off indent out, dense s -> block v s off ->
  (off + prod s <= N.of_nat (length m))%N -> length W = N.to_nat (last s 0%N) ->
  impl text knd asserts blank (length s) indent v m W out = Ok (out ++ layout align W blank indent s (chunk s off m)).
Proof.
  induction s as [|e s IH]; intros v off indent out HD HB HL HW; [destruct HD; congruence|].
  pose proof HB as [B1 _]. destruct s as [|e' s'].
  - cbn [length impl layout]. rewrite B1, extent0. cbn [bind]. cbn [last] in HW.
    set (l := chunk [e] off m).
    assert (Hl : length l = N.to_nat e).
    { unfold l. rewrite chunk_len by exact HL. cbn [prod]. lia. }
    destruct l as [|d0 l0] eqn:El.
    { exfalso. destruct HD as (_ & Hp & _). inversion Hp; subst. cbn in Hl. lia. }
    rewrite <- El in *. clear El l0.
    rewrite (for_join (fun i => padded align (nth i W (0, 0)) (nth i l d0)) [] (sep1 blank)).
    + cbn [bind]. rewrite (map2_seq _ (0, 0) d0 W l (N.to_nat e)) by lia.
      rewrite app_nil_r. unfold sep1. rewrite <- !app_assoc. destruct blank; reflexivity.
    + intros i o Hi. rewrite (rd_Ok W i (0, 0)) by lia. cbn [bind].
      destruct (scalar_block v e off m i HD HB) as (x & Ex & En); [cbn [prod] in HL; lia|exact Hi|].
      rewrite Ex. cbn [bind].
      assert (En' : nth_error l i = Some x) by (apply nth_error_chunk; [cbn [prod]; lia|exact En]).
      rewrite (nth_error_nth l i d0 En'). f_equal. unfold padded.
      replace (if 0 <? i then o ++ [] else o) with o by (destruct (0 <? i); now rewrite ?app_nil_r).
      destruct (i =? N.to_nat e - 1); cbn [negb].
      * now rewrite app_nil_r.
      * now rewrite <- !app_assoc.
  - assert (HD' : dense (e' :: s')) by (apply (dense_tail e); auto; discriminate).
    change (length (e :: e' :: s')) with (S (S (length s'))).
    change (layout align W blank indent (e :: e' :: s') (chunk (e :: e' :: s') off m)) with
      (TOpen :: join ((if blank then [] else [TSep]) ++ [TNewline] ++ (if 2 <=? length (e' :: s') then [TNewline] else [])
                     ++ [TSpace (indent + 1)])
        (map (layout align W blank (indent + 1) (e' :: s'))
           (chunks (N.to_nat e) (N.to_nat (prod (e' :: s'))) (chunk (e :: e' :: s') off m))) ++ [TClose]).
    change (last (e :: e' :: s') 0%N) with (last (e' :: s') 0%N) in HW.
    set (t := e' :: s') in *. change (S (length s')) with (length t) in *.
    assert (Et : exists k, length t = S k) by (unfold t; cbn; eauto). destruct Et as [k Ek].
    cbn [impl]. rewrite Ek. rewrite <- Ek. rewrite B1, extent0. cbn [bind].
    rewrite (for_join (fun i => layout align W blank (indent + 1) t (chunk t (off + N.of_nat i * prod t) m))
      [TSpace (indent + 1)] (sepn blank ++ (if 2 <=? length t then [TNewline] else []))).
    + cbn [bind]. rewrite chunks_sub, map_map. unfold sepn. rewrite <- !app_assoc.
      destruct blank; reflexivity.
    + intros i o Hi. destruct (index_block asserts v e t off (N.of_nat i) HD HB) as (w & Ew & HBw); [lia|].
      rewrite nat_N_Z in Ew. rewrite Ew. cbn [bind].
      rewrite (IH w (off + N.of_nat i * prod t)%N) by (auto;
        cbn [prod] in HL; assert ((N.of_nat i + 1) * prod t <= e * prod t)%N by (apply N.mul_le_mono_r; lia); lia).
      cbn [bind]. f_equal.
      replace (2 <? S (length t)) with (2 <=? length t) by lia.
      destruct (i =? N.to_nat e - 1); cbn [negb]; [now rewrite app_nil_r|].
      destruct (2 <=? length t); rewrite ?app_nil_r, <- ?app_assoc; reflexivity.
Qed.

(** ** Widths of the columns *)
Lemma absorb_length al row w : (length al = w \/ al = []) -> length row = w -> length (absorb al row) = w.
Proof.
  revert row w. induction al as [|a al IH]; intros row w H Hr; cbn [absorb]; [exact Hr|].
  destruct H as [H|H]; [|discriminate]. destruct row as [|r row]; cbn in *; [congruence|].
  destruct w; [lia|]. f_equal. apply IH; [left; lia|lia].
Qed.
Lemma absorb_nth al row c : c < length al -> c < length row -> nth c (absorb al row) (0, 0) = pmax (nth c al (0, 0)) (nth c row (0, 0)).
Proof.
  revert row c. induction al as [|a al IH]; intros [|r row] c; cbn [length]; intros H1 H2; try lia.
  destruct c as [|c]; cbn [absorb nth]; [reflexivity|]. apply IH; lia.
Qed.
Lemma fin_rows w : forall s al l, dense s -> last s 0%N = w -> length l = N.to_nat (prod s) ->
  fin s al l = fold_left absorb (map (map align) (chunks (N.to_nat (prod (removelast s))) (N.to_nat w) l)) al.
Proof.
  induction s as [|e s IH]; intros al l HD Hw Hl; [destruct HD; congruence|]. destruct s as [|e' s'].
  - cbn in Hw. subst w. cbn [fin removelast prod chunks map fold_left].
    change (N.to_nat 1) with 1. cbn [chunks map fold_left]. rewrite firstn_all2; [reflexivity|]. cbn [prod] in Hl. lia.
  - assert (HD' : dense (e' :: s')) by (apply (dense_tail e); auto; discriminate).
    change (last (e :: e' :: s') 0%N) with (last (e' :: s') 0%N) in Hw.
    change (removelast (e :: e' :: s')) with (e :: removelast (e' :: s')).
    change (fin (e :: e' :: s') al l) with (fold_left (fin (e' :: s')) (chunks (N.to_nat e) (N.to_nat (prod (e' :: s'))) l) al).
    set (t := e' :: s') in *.
    assert (Hp : N.to_nat (prod t) = N.to_nat (prod (removelast t)) * N.to_nat w).
    { rewrite <- N2Nat.inj_mul, <- Hw. f_equal. rewrite <- prod_snoc. f_equal. apply app_removelast_last. discriminate. }
    cbn [prod] in *. rewrite N2Nat.inj_mul in *. rewrite chunks_mul by (rewrite Hl, Hp; reflexivity).
    rewrite <- Hp.
    assert (HC : forall c, In c (chunks (N.to_nat e) (N.to_nat (prod t)) l) -> length c = N.to_nat (prod t)).
    { intros c. apply chunk_length. exact Hl. }
    clear Hl. revert al HC. generalize (chunks (N.to_nat e) (N.to_nat (prod t)) l) as cs.
    induction cs as [|c cs IHc]; intros al HC; cbn [flat_map map fold_left]; [reflexivity|].
    rewrite map_app, fold_left_app. rewrite <- IH by (auto; apply HC; now left). apply IHc. intros; apply HC; now right.
Qed.

(** The largest value of a row set, column by column. *)
Lemma rows_widths w : 0 < w -> forall rows, rows <> [] -> (forall r, In r rows -> length r = w) ->
  let W := fold_left absorb rows [] in
  length W = w /\ forall c, c < w ->
    (forall r, In r rows -> fst (nth c r (0, 0)) <= fst (nth c W (0, 0)) /\ snd (nth c r (0, 0)) <= snd (nth c W (0, 0))) /\
    (exists r, In r rows /\ fst (nth c r (0, 0)) = fst (nth c W (0, 0))) /\
    (exists r, In r rows /\ snd (nth c r (0, 0)) = snd (nth c W (0, 0))).
Proof.
  intros Hw rows. induction rows as [|r rows IH] using rev_ind; [congruence|]. intros _ Hl.
  rewrite fold_left_app. cbn [fold_left].
  assert (Hr : length r = w) by (apply Hl, in_app_iff; right; now left).
  destruct rows as [|r0 rows].
  - cbn [fold_left absorb app]. split; [exact Hr|]. intros c Hc. split; [|split].
    + intros r' [<-|[]]. lia.
    + exists r. split; [now left|reflexivity].
    + exists r. split; [now left|reflexivity].
  - destruct IH as [HW HC]; [discriminate|intros; apply Hl, in_app_iff; now left|].
    set (W := fold_left absorb (r0 :: rows) []) in *.
    split; [apply absorb_length; auto|]. intros c Hc. rewrite absorb_nth by lia. cbn [pmax fst snd].
    destruct (HC c Hc) as (H1 & (ra & Ha1 & Ha2) & (rb & Hb1 & Hb2)). split; [|split].
    + intros r' Hr'. apply in_app_iff in Hr'. destruct Hr' as [Hr'|[<-|[]]]; [specialize (H1 r' Hr'); lia|lia].
    + destruct (Nat.max_spec (fst (nth c W (0, 0))) (fst (nth c r (0, 0)))) as [[_ ->]|[_ ->]].
      * exists r. split; [apply in_app_iff; right; now left|reflexivity].
      * exists ra. split; [apply in_app_iff; now left|exact Ha2].
    + destruct (Nat.max_spec (snd (nth c W (0, 0))) (snd (nth c r (0, 0)))) as [[_ ->]|[_ ->]].
      * exists r. split; [apply in_app_iff; right; now left|reflexivity].
      * exists rb. split; [apply in_app_iff; now left|exact Hb2].
Qed.

Lemma nth_error_firstn_lt (l : list A) k i : i < k -> nth_error (firstn k l) i = nth_error l i.
Proof. revert k i. induction l as [|a l IH]; intros [|k] [|i] H; cbn; auto; try lia. apply IH. lia. Qed.
Lemma widths_ok w n (l : list A) : 0 < w -> 0 < n -> length l = n * w ->
  column_widths align w l (fold_left absorb (map (map align) (chunks n w l)) []).
Proof.
  intros Hw Hn Hl.
  assert (HC : forall c, In c (chunks n w l) -> length c = w) by (intros c; now apply chunk_length).
  destruct (rows_widths w Hw (map (map align) (chunks n w l))) as [HW HP].
  { intros E. apply (f_equal (@length _)) in E. rewrite map_length, chunks_length in E. cbn in E. lia. }
  { intros r Hr. apply in_map_iff in Hr. destruct Hr as (c & <- & Hc). rewrite map_length. auto. }
  set (W := fold_left absorb (map (map align) (chunks n w l)) []) in *.
  split; [exact HW|]. intros c Hc Wc. destruct (HP c Hc) as (H1 & H2 & H3). fold Wc in H1, H2, H3.
  (* rows of [l] against positions *)
  assert (Hrow : forall r, r < n -> exists x, nth_error l (r * w + c) = Some x /\ (r * w + c) mod w = c /\
     nth c (map align (firstn w (skipn (r * w) l))) (0, 0) = align x).
  { intros r Hr. assert ((r + 1) * w <= n * w) by (apply Nat.mul_le_mono_r; lia).
    destruct (nth_error l (r * w + c)) as [x|] eqn:E; [|apply nth_error_None in E; lia].
    exists x. split; [reflexivity|]. split; [rewrite Nat.add_comm, Nat.mod_add by lia; now apply Nat.mod_small|].
    apply nth_error_nth. rewrite nth_error_map, nth_error_firstn_lt, nth_error_skipn_add by exact Hc. now rewrite E. }
  assert (Hin : forall r, In r (map (map align) (chunks n w l)) -> exists k, k < n /\ r = map align (firstn w (skipn (k * w) l))).
  { intros r Hr. rewrite chunks_seq, map_map in Hr. apply in_map_iff in Hr. destruct Hr as (k & <- & Hk).
    apply in_seq in Hk. exists k. split; [lia|reflexivity]. }
  split; [|split].
  - intros i x Hx Hi.
    assert (Hil : i < length l) by (apply nth_error_Some; congruence).
    pose proof (Nat.div_mod_eq i w) as Hd. rewrite Hi in Hd.
    assert (Hq : i / w < n) by (apply Nat.div_lt_upper_bound; lia).
    destruct (Hrow (i / w) Hq) as (y & E1 & _ & E2).
    replace (i / w * w + c) with i in E1 by lia. rewrite Hx in E1. injection E1 as <-.
    rewrite <- E2. apply H1. rewrite chunks_seq, map_map. apply in_map_iff. exists (i / w).
    split; [reflexivity|]. apply in_seq. split; [apply Nat.le_0_l|exact Hq].
  - destruct H2 as (r & Hr & E). destruct (Hin r Hr) as (k & Hk & ->). destruct (Hrow k Hk) as (x & E1 & E2 & E3).
    exists (k * w + c), x. rewrite <- E, E3. auto.
  - destruct H3 as (r & Hr & E). destruct (Hin r Hr) as (k & Hk & ->). destruct (Hrow k Hk) as (x & E1 & E2 & E3).
    exists (k * w + c), x. rewrite <- E, E3. auto.
Qed.

Lemma prod_pos s : positive s -> (0 < prod s)%N.
Proof. induction 1; cbn [prod]; lia. Qed.
Lemma removelast_pos s : positive s -> positive (removelast s).
Proof. unfold positive. intros H. induction H as [|e s He Hs IH]; [constructor|]. destruct s; [constructor|]. now constructor. Qed.
Lemma last_pos s : dense s -> (0 < last s 0)%N.
Proof.
  intros (H1 & H2 & _). induction H2 as [|e s He Hs IH]; [congruence|]. destruct s as [|e' s']; [cbn; lia|].
  change (last (e :: e' :: s') 0%N) with (last (e' :: s') 0%N). apply IH. discriminate.
Qed.
Lemma dense_split s : dense s -> prod s = (prod (removelast s) * last s 0)%N.
Proof. intros (H & _). rewrite <- prod_snoc. f_equal. now apply app_removelast_last. Qed.

Lemma str_layout asserts blank s m : dense s -> N.of_nat (length m) = prod s ->
  exists W, column_widths align (N.to_nat (last s 0%N)) m W /\
    str text knd asserts blank s m = Ok (layout align W blank 0 s m).
Proof.
  intros HD Hm. destruct (of_array_block s HD) as (v & Ev & HB).
  assert (Hc : chunk s 0 m = m) by (unfold chunk; cbn [N.to_nat skipn]; apply firstn_all2; lia).
  pose proof (dense_split s HD) as Hs. pose proof (last_pos s HD) as Hlp.
  assert (Hrp : (0 < prod (removelast s))%N) by (apply prod_pos, removelast_pos; apply HD).
  assert (HW : column_widths align (N.to_nat (last s 0%N)) m (fin s [] m)).
  { rewrite (fin_rows (last s 0%N)) by (auto; lia). apply widths_ok; lia. }
  exists (fin s [] m). split; [exact HW|].
  unfold str. rewrite Ev. cbn [bind]. rewrite (finder_ok asserts m s v 0%N) by (auto; lia). cbn [bind].
  rewrite Hc. rewrite (impl_ok asserts blank _ m s v 0%N) by (auto; try lia; apply HW). rewrite Hc. reflexivity.
Qed.

(** ** What is visible *)
Lemma filter_join (p : tok A -> bool) x ls : filter p (join x ls) = join (filter p x) (map (filter p) ls).
Proof.
  induction ls as [|l ls IH]; [reflexivity|]. destruct ls as [|l' ls]; [reflexivity|].
  change (join x (l :: l' :: ls)) with (l ++ x ++ join x (l' :: ls)).
  rewrite !filter_app, IH. reflexivity.
Qed.
Lemma join_map_ext {B} (x : list (tok A)) (f g : B -> list (tok A)) l : (forall b, In b l -> f b = g b) -> join x (map f l) = join x (map g l).
Proof. intros H. f_equal. now apply map_ext_in. Qed.
Lemma chunks_one (l : list A) : chunks (length l) 1 l = map (fun a => [a]) l.
Proof. induction l as [|a l IH]; [reflexivity|]. cbn [length chunks map firstn skipn]. now rewrite IH. Qed.
Lemma visible_layout W blank : forall s indent l, dense s -> length l = N.to_nat (prod s) -> N.to_nat (last s 0%N) <= length W ->
  filter visible (layout align W blank indent s l) = nested blank s l.
Proof.
  induction s as [|e s IH]; intros indent l HD Hl HW; [destruct HD; congruence|]. destruct s as [|e' s'].
  - cbn [layout nested prod last] in *. change (N.to_nat 1) with 1.
    assert (Hle : N.to_nat e = length l) by lia. rewrite Hle, chunks_one.
    cbn [filter visible]. f_equal. rewrite filter_app. cbn [filter visible]. f_equal.
    rewrite filter_join. rewrite filter_app. cbn [filter visible].
    replace (filter visible (if blank then [] else [TSep]) ++ []) with (if blank then [] else [@TSep A]) by (destruct blank; reflexivity).
    f_equal. rewrite map_map. rewrite Hle in HW. clear - HW. revert W HW.
    induction l as [|a l IH]; intros [|w W] HW; cbn in *; try lia; [reflexivity|reflexivity|]. f_equal. apply IH. lia.
  - assert (HD' : dense (e' :: s')) by (apply (dense_tail e); auto; discriminate).
    change (last (e :: e' :: s') 0%N) with (last (e' :: s') 0%N) in HW.
    cbn [layout nested]. change (e' :: s') with (e' :: s'). set (t := e' :: s') in *.
    cbn [filter visible]. f_equal. rewrite filter_app. cbn [filter visible]. f_equal.
    rewrite filter_join, map_map. rewrite !filter_app. 
    replace (filter visible (if 2 <=? length t then [TNewline] else [])) with (@nil (tok A)) by (now destruct (2 <=? length t)).
    cbn [filter visible app]. rewrite app_nil_r.
    replace (filter visible (if blank then [] else [TSep])) with (if blank then [] else [@TSep A]) by (destruct blank; reflexivity).
    apply join_map_ext. intros c Hc. apply IH; auto.
    apply (chunk_length (N.to_nat e) _ l); [|exact Hc]. rewrite Hl. cbn [prod]. lia.
Qed.
Lemma values_app (a b : list (tok A)) : values (a ++ b) = values a ++ values b.
Proof. apply flat_map_app. Qed.
Lemma values_join x ls : values x = [] -> values (join x ls) = concat (map values ls) :> list A.
Proof.
  intros Hx. induction ls as [|l ls IH]; [reflexivity|]. destruct ls as [|l' ls].
  - cbn. now rewrite app_nil_r.
  - change (join x (l :: l' :: ls)) with (l ++ x ++ join x (l' :: ls)). rewrite !values_app, Hx, IH. reflexivity.
Qed.
Lemma values_filter (ts : list (tok A)) : values (filter visible ts) = values ts.
Proof. induction ts as [|[| | | | |a] ts IH]; cbn; auto. now f_equal. Qed.
Lemma values_nested blank : forall s (l : list A), length l = N.to_nat (prod s) -> values (nested blank s l) = l.
Proof.
  induction s as [|e s IH]; intros l Hl.
  - cbn. induction l; cbn; [reflexivity|]. f_equal. destruct l; [reflexivity|]. cbn in Hl. lia.
  - cbn [nested]. set (x := if blank then [] else [TSep]).
    change (values (join x (map (nested blank s) (chunks (N.to_nat e) (N.to_nat (prod s)) l)) ++ [TClose]) = l).
    rewrite values_app. rewrite app_nil_r. rewrite values_join by (unfold x; destruct blank; reflexivity).
    rewrite map_map. cbn [prod] in Hl. rewrite N2Nat.inj_mul in Hl.
    rewrite (map_ext_in _ (fun c => c)); [rewrite map_id; now apply concat_chunks|].
    intros c Hc. apply IH. now apply (chunk_length (N.to_nat e) _ l).
Qed.
End Fmt.

(** ** The format specification buffer *)
Lemma upd_middle {B} (p : list B) a b r : upd (p ++ a :: r) (length p) b = p ++ b :: r.
Proof. induction p as [|c p IH]; cbn; [reflexivity|]. now rewrite IH. Qed.
Lemma parse_fits spec : length spec <= 16 -> parse_spec spec = Ok (spec ++ repeat Ascii.zero (16 - length spec)).
Proof.
  intros H. unfold parse_spec.
  destruct (for_range_inv (fun i buf => buf = firstn i spec ++ repeat Ascii.zero (16 - i))
    (fun i buf => do c <- rd spec i; wr buf i c) 0 (length spec) (repeat Ascii.zero 16)) as (b & E & ->).
  - lia.
  - intros i buf Hi ->. rewrite (rd_Ok spec i Ascii.zero) by lia. cbn [bind].
    assert (Hl : length (firstn i spec) = i) by (rewrite firstn_length; lia).
    rewrite wr_Ok by (rewrite app_length, repeat_length; lia). eexists. split; [reflexivity|].
    rewrite (firstn_S_nth spec i (nth i spec Ascii.zero)) by (apply nth_error_nth'; lia).
    replace (16 - i) with (S (16 - S i)) by lia. cbn [repeat]. rewrite <- app_assoc. cbn [app].
    pose proof (upd_middle (firstn i spec) Ascii.zero (nth i spec Ascii.zero) (repeat Ascii.zero (16 - S i))) as E.
    rewrite Hl in E. exact E.
  - reflexivity.
  - rewrite E. now rewrite firstn_all.
Qed.
Lemma parse_overflow spec : 16 < length spec -> parse_spec spec = UB.
Proof.
  intros H. unfold parse_spec, for_range. rewrite Nat.sub_0_r.
  assert (G : forall k i buf, length buf = 16 -> i <= 16 -> 16 < i + k -> i + k = length spec ->
    for_from k i (fun i buf => do c <- rd spec i; wr buf i c) buf = UB).
  { induction k as [|k IH]; intros i buf Hb Hi Hk Hs; [lia|]. cbn [for_from].
    rewrite (rd_Ok spec i Ascii.zero) by lia. cbn [bind]. destruct (Nat.eq_dec i 16) as [->|Hne].
    - rewrite wr_UB by lia. reflexivity.
    - rewrite wr_Ok by lia. cbn [bind]. apply IH; rewrite ?upd_length; lia. }
  apply G; [reflexivity|lia|lia|lia].
Qed.
Lemma c_string_ok s r : ~ In Ascii.zero s -> c_string (s ++ Ascii.zero :: r) = Ok s.
Proof.
  induction s as [|c s IH]; cbn [app c_string In]; intros H; [reflexivity|].
  destruct (Ascii.eqb_spec c Ascii.zero) as [->|_]; [tauto|]. now rewrite IH by tauto.
Qed.
Lemma c_string_unterminated s : ~ In Ascii.zero s -> c_string s = UB.
Proof.
  induction s as [|c s IH]; cbn [c_string In]; intros H; [reflexivity|].
  destruct (Ascii.eqb_spec c Ascii.zero) as [->|_]; [tauto|]. now rewrite IH by tauto.
Qed.

(** ** Characters *)
Lemma find_before (t : list ascii) :
  find_char "."%char t = if existsb (Ascii.eqb ".") t then Some (before_point t) else None.
Proof.
  induction t as [|c t IH]; [reflexivity|]. cbn [find_char existsb before_point].
  rewrite (Ascii.eqb_sym "." c). destruct (Ascii.eqb c "."); [reflexivity|]. cbn [orb]. rewrite IH. now destruct (existsb _ t).
Qed.
Lemma before_none (t : list ascii) : existsb (Ascii.eqb ".") t = false -> before_point t = length t.
Proof.
  induction t as [|c t IH]; [reflexivity|]. cbn [existsb before_point length]. rewrite (Ascii.eqb_sym "." c).
  destruct (Ascii.eqb c "."); [discriminate|]. cbn [orb]. intros H. now rewrite IH.
Qed.
Lemma before_le (t : list ascii) : before_point t <= length t.
Proof. induction t as [|c t IH]; cbn [before_point length]; [lia|]. destruct (Ascii.eqb c "."); lia. Qed.
Lemma before_spaces n (t : list ascii) : before_point (repeat " "%char n ++ t) = n + before_point t.
Proof. induction n; [reflexivity|]. cbn [repeat app before_point]. cbn [Ascii.eqb Bool.eqb]. now rewrite IHn. Qed.
Lemma before_app (t u : list ascii) : before_point (t ++ u) = if existsb (Ascii.eqb ".") t then before_point t else length t + before_point u.
Proof.
  induction t as [|c t IH]; [reflexivity|]. cbn [app before_point existsb length]. rewrite (Ascii.eqb_sym "." c).
  destruct (Ascii.eqb c "."); [reflexivity|]. cbn [orb]. rewrite IH. destruct (existsb _ t); reflexivity.
Qed.
Lemma points_line_up (A : Type) (text : A -> list ascii) bracket separator (x : A) (w : nat * nat) :
  (forall k, k = Integral \/ k = Floating ->
    fst (alignment text k x) <= fst w -> snd (alignment text k x) <= snd w ->
    length (flat_map (render text bracket separator) (padded (alignment text k) w x)) = fst w + snd w) /\
  (fst (alignment text Floating x) <= fst w ->
    before_point (flat_map (render text bracket separator) (padded (alignment text Floating) w x))
    = if existsb (Ascii.eqb ".") (text x) then fst w else fst w + (snd w - snd (alignment text Floating x))) /\
  (before_point (text x) = fst (alignment text Floating x)).
Proof.
  assert (L := before_le (text x)).
  assert (AF : fst (alignment text Floating x) = before_point (text x) /\
               fst (alignment text Floating x) + snd (alignment text Floating x) = length (text x)).
  { unfold alignment. rewrite find_before. destruct (existsb _ (text x)) eqn:E; cbn [fst snd]; [lia|]. rewrite before_none by auto. lia. }
  destruct AF as (F1 & F2).
  split; [|split; [|auto]].
  - intros k Hk H1 H2. unfold padded. cbn [flat_map render]. rewrite app_nil_r, !app_length, !repeat_length.
    assert (T : fst (alignment text k x) + snd (alignment text k x) = length (text x)).
    { destruct Hk as [-> | ->]; [|exact F2]. cbn [alignment fst snd]. lia. }
    lia.
  - intros H1. unfold padded. cbn [flat_map render]. rewrite app_nil_r, before_spaces, before_app.
    destruct (existsb _ (text x)) eqn:E; [lia|].
    rewrite <- (app_nil_r (repeat _ _)), before_spaces. cbn [before_point]. rewrite before_none in F1 by auto. lia.
Qed.
Lemma brackets_match (c : ascii) : snd (brackets c) = mirror (fst (brackets c)) /\
  (fst (brackets c) = "("%char <-> c = "r"%char) /\ (fst (brackets c) = "{"%char <-> c = "c"%char) /\
  (fst (brackets c) = "<"%char <-> c = "a"%char) /\ (fst (brackets c) = "|"%char <-> c = "p"%char).
Proof.
  unfold brackets.
  destruct (Ascii.eqb_spec c "r"); [subst; cbn; repeat split; congruence|].
  destruct (Ascii.eqb_spec c "s"); [subst; cbn; repeat split; congruence|].
  destruct (Ascii.eqb_spec c "c"); [subst; cbn; repeat split; congruence|].
  destruct (Ascii.eqb_spec c "a"); [subst; cbn; repeat split; congruence|].
  destruct (Ascii.eqb_spec c "p"); [subst; cbn; repeat split; congruence|].
  cbn; repeat split; congruence.
Qed.
