(** Theorems C73: assigning an expression that mentions the destination. *)
From Coq Require Import Permutation.
From Verif Require Import Base ShapeModel ShapeSpec ViewModel ViewSpec TransposeModel TransposeSpec MatmulModel MatmulSpec MatmulProofs MatmulProperties.
From Verif Require Import AliasModel AliasSpec AliasProofs.
From Coq Require Import ZifyNat ZifyN ZifyBool.
Ltac Zify.zify_post_hook ::= idtac.

(** ** array = expression, array op= expression.  The destination may occur anywhere as a whole array
    under elementwise functions; other arrays, views and transposes of other arrays are allowed.  Any
    order of the element assignments. *)
Theorem C73_elementwise : forall A mul asserts b junk sched lhs (e : expr A) st s, 0 < b -> dense s ->
  well_shaped st e s -> has_array e -> elementwise_in lhs e ->
  fst (st lhs) = s -> N.of_nat (length (snd (st lhs))) = prod s -> Permutation sched (seq 0 (N.to_nat (prod s))) ->
  exists st', assign_fn mul asserts b junk sched lhs e st = Ok st' /\ only_changes lhs st st' /\ fst (st' lhs) = s /\
    length (snd (st' lhs)) = length (snd (st lhs)) /\
    forall idx, in_range idx s -> element s (snd (st' lhs)) idx = value mul st e idx /\ value mul st e idx <> None.
Proof. intros. eapply assign_fn_ok; eauto. Qed.
Print Assumptions C73_elementwise.
Theorem C73_compound : forall A mul asserts b junk sched f lhs (e : expr A) st s, 0 < b -> dense s ->
  well_shaped st e s -> elementwise_in lhs e ->
  fst (st lhs) = s -> N.of_nat (length (snd (st lhs))) = prod s -> Permutation sched (seq 0 (N.to_nat (prod s))) ->
  exists st', assign_op mul asserts b junk sched f lhs e st = Ok st' /\ only_changes lhs st st' /\ fst (st' lhs) = s /\
    length (snd (st' lhs)) = length (snd (st lhs)) /\
    forall idx, in_range idx s -> exists x y, element s (snd (st lhs)) idx = Some x /\ value mul st e idx = Some y /\
      element s (snd (st' lhs)) idx = Some (f x y).
Proof.
  intros A mul asserts b junk sched f lhs e st s Hb HD HW HE HS HL HP.
  destruct (assign_fn_ok mul asserts b junk sched lhs (EBin f (EArr lhs) e) st s) as (st' & E & H1 & H2 & H3 & H4); cbn; auto.
  exists st'. split; [exact E|]. split; auto. split; auto. split; auto. intros idx HR. destruct (H4 idx HR) as (V1 & V2).
  cbn [value] in V1, V2. rewrite HS in V1, V2. destruct (element s (snd (st lhs)) idx) as [x|]; [|congruence].
  destruct (value mul st e idx) as [y|]; [|congruence]. eauto.
Qed.
Print Assumptions C73_compound.
(** a = (a + t) * transpose(c), 2 x 3, written backwards *)
Example C73_st : store nat := fun j =>
  match j with 0 => ([2; 3]%N, [1; 2; 3; 4; 5; 6]) | 1 => ([3; 2]%N, [1; 10; 2; 20; 3; 30]) | _ => ([2; 3]%N, [7; 7; 7; 9; 9; 9]) end.
Example C73_e : expr nat := EBin Nat.mul (EBin Nat.add (EArr 0) (EArr 2)) (ETrans 3 2 (EArr 1) 1).
Example C73_ex : dense [2; 3]%N /\ well_shaped C73_st C73_e [2; 3]%N /\ has_array C73_e /\ elementwise_in 0 C73_e.
Proof.
  split; [split; [discriminate|split; [repeat constructor|exact (eq_refl : (6 < 2 ^ 32)%N)]]|]. cbn. repeat split; auto.
Qed.
Example C73_ex_run : omap (fun st => st 0) (assign_fn Nat.mul true 2 (fun _ => 99) [5; 4; 3; 2; 1; 0] 0 C73_e C73_st)
  = Ok ([2; 3]%N, [8; 18; 30; 130; 280; 450]).
Proof. reflexivity. Qed.

(** ** a[k0]..[kn] = expression.  The array may occur on the right through any of its sub-arrays of the
    same depth (the destination itself included); nothing else of the array changes. *)
Theorem C73_sub_array : forall A mul asserts b junk fuel id n v (e : expr A) st s, 0 < b -> dense s -> n < length s ->
  fst (st id) = s -> N.of_nat (length (snd (st id))) = prod s ->
  sub_array asserts s n v -> well_shaped st e (v_shape v) -> has_array e -> views_in id (sub_array asserts s n) e ->
  N.to_nat (prod (v_shape v)) <= fuel ->
  exists st', assign_to_view mul asserts b junk fuel id v e st = Ok st' /\ only_changes id st st' /\ fst (st' id) = s /\
    length (snd (st' id)) = length (snd (st id)) /\
    (forall idx, in_range idx (v_shape v) -> view_element v (snd (st' id)) idx = value mul st e idx /\ value mul st e idx <> None) /\
    (forall idx, in_range idx s -> (forall jdx, in_range jdx (v_shape v) -> cell v jdx <> Z.of_N (position idx s)) ->
       element s (snd (st' id)) idx = element s (snd (st id)) idx).
Proof. intros. eapply assign_to_view_ok; eauto. Qed.
Print Assumptions C73_sub_array.
(** a[1] = a[0] * a[1] + c[1] where c is another array *)
Example C73_row (i : Z) : view := {| v_shape := [3]%N; v_stride := [1]%N; v_offset := (3 * i)%Z |}.
Example C73_row_e : expr nat := EBin Nat.add (EBin Nat.mul (EView 0 (C73_row 0)) (EView 0 (C73_row 1))) (EView 2 (C73_row 1)).
Example C73_ex_row : sub_array true [2; 3]%N 1 (C73_row 0) /\ sub_array true [2; 3]%N 1 (C73_row 1) /\
  views_in 0 (sub_array true [2; 3]%N 1) C73_row_e.
Proof.
  assert (R0 : sub_array true [2; 3]%N 1 (C73_row 0)) by (exists [0%N]; split; [auto|split; [repeat constructor|reflexivity]]).
  assert (R1 : sub_array true [2; 3]%N 1 (C73_row 1)) by (exists [1%N]; split; [auto|split; [repeat constructor|reflexivity]]).
  cbn. auto 10.
Qed.
Example C73_ex_row_run : omap (fun st => st 0) (assign_to_view Nat.mul true 2 (fun _ => 99) 3 0 (C73_row 1) C73_row_e C73_st)
  = Ok ([2; 3]%N, [1; 2; 3; 13; 19; 27]).
Proof. reflexivity. Qed.

(** ** array = dot(...): right also when the destination is an operand, whatever it held and whatever
    its shape was (the operands are copied when dot is called). *)
Theorem C73_dot : forall A zero one add mul is_zero asserts sched junk lhs (x y : dexpr A) st m k n f g,
  semiring zero one add mul is_zero -> (forall m n k, interleaving n (column_program m k) (sched m n k)) ->
  dmatrix mul st x m k f -> dmatrix mul st y k n g -> dense [m; n] ->
  exists st' out, assign_dot mul zero one add is_zero asserts sched junk lhs x y st = Ok st' /\ only_changes lhs st st' /\
    st' lhs = ([m; n], out) /\ length out = N.to_nat m * N.to_nat n /\
    forall i j, (i < m)%N -> (j < n)%N ->
      element [m; n] out [i; j] = Some (sum zero add (N.to_nat k) (fun h => mul (f (N.to_nat i) h) (g h (N.to_nat j)))).
Proof. intros. apply assign_dot_ok; auto; apply capture_matrix; auto. Qed.
Print Assumptions C73_dot.
(** a = dot(a, c) for a 2 x 3 and c 3 x 2: the shape of a changes *)
Example C73_ex_dot : dmatrix Nat.mul C73_st (DArr 0) 2 3 (fun i j => 3 * i + j + 1) /\
  omap (fun st => st 0) (assign_dot Nat.mul 0 1 Nat.add (Nat.eqb 0) true (fun m n k => serial_schedule m n k) (fun _ => 99) 0 (DArr 0) (DArr 1) C73_st)
  = Ok ([2; 2]%N, [14; 140; 32; 320]).
Proof.
  split; [|reflexivity]. split; [split; [reflexivity|exact (eq_refl : (6 < 2 ^ 32)%N)]|]. split; [reflexivity|]. intros i j Hi Hj.
  assert (i = 0 \/ i = 1)%N as [-> | ->] by lia; assert (j = 0 \/ j = 1 \/ j = 2)%N as [-> |[-> | ->]] by lia; reflexivity.
Qed.

(** a = dot(transpose(a) * 2, c * 3) for a and c both 2 x 3 *)
Example C73_ex_dot_lazy :
  omap (fun st => st 0) (assign_dot Nat.mul 0 1 Nat.add (Nat.eqb 0) true (fun m n k => serial_schedule m n k) (fun _ => 99) 0
    (DScale (DTrans (DArr 0) 1) 2) (DScale (DArr 2) 3) C73_st)
  = Ok ([3; 3]%N, [258; 258; 258; 354; 354; 354; 450; 450; 450]).
Proof. reflexivity. Qed.

(** ** array = transpose(other array), array = view of another array *)
Theorem C73_transpose_partial : forall A mul asserts b junk sched lhs src alpha (st : store A) rows cols, 0 < b -> lhs <> src ->
  fst (st src) = [rows; cols] -> dense [rows; cols] -> N.of_nat (length (snd (st src))) = prod [rows; cols] ->
  (forall r c, Permutation (sched r c) (generic_ops r c b)) ->
  exists st', assign_transpose mul asserts b junk sched lhs src alpha st = Ok st' /\ only_changes lhs st st' /\
    transpose_of mul alpha (st src) (st' lhs).
Proof. intros. eapply transpose_aside; eauto. Qed.
Print Assumptions C73_transpose_partial.
Example C73_ex_transpose_other : omap (fun st => st 0) (assign_transpose Nat.mul true 2 (fun _ => 99) (fun r c => rev (generic_ops r c 2)) 0 1 2 C73_st)
  = Ok ([2; 3]%N, [2; 4; 6; 20; 40; 60]).
Proof. reflexivity. Qed.
Theorem C73_view_partial : forall A asserts junk lhs src v (st : store A), lhs <> src -> dense (v_shape v) -> view_ok v (snd (st src)) ->
  exists st', assign_view asserts junk lhs src v st = Ok st' /\ only_changes lhs st st' /\ fst (st' lhs) = v_shape v /\
    N.of_nat (length (snd (st' lhs))) = prod (v_shape v) /\
    forall idx, in_range idx (v_shape v) -> element (v_shape v) (snd (st' lhs)) idx = view_element v (snd (st src)) idx.
Proof. intros A asserts junk lhs src v st. apply (assign_view_aside (fun x _ => x)). Qed.
Print Assumptions C73_view_partial.
Example C73_ex_view_other : omap (fun st => st 1) (assign_view true (fun _ => 99) 1 0 (C73_row 1) C73_st) = Ok ([3]%N, [4; 5; 6]).
Proof. reflexivity. Qed.

(** ** a = transpose(a) is refused when assertions are compiled in ... *)
Theorem C73_transpose_refused : forall A mul b junk sched id alpha (st : store A) rows cols,
  fst (st id) = [rows; cols] -> dense [rows; cols] -> N.of_nat (length (snd (st id))) = prod [rows; cols] ->
  assign_transpose mul true b junk sched id id alpha st = Throw RuntimeError.
Proof.
  intros A mul b junk sched id alpha st rows cols HS HD HL. unfold assign_transpose. rewrite HS.
  destruct (dense_size _ (dense_swap _ _ HD)) as (SZ & PO). rewrite SZ. rewrite prod2 in HL, PO. rewrite prod2.
  rewrite (resize_keeps mul) by lia. cbn [bind]. rewrite Nat.eqb_refl. reflexivity.
Qed.
Print Assumptions C73_transpose_refused.
Example C73_ex_transpose_refused : assign_transpose Nat.mul true 2 (fun _ => 99) (fun r c => generic_ops r c 2) 0 0 1 C73_st = Throw RuntimeError.
Proof. reflexivity. Qed.
(** ... and without them leaves a symmetric matrix, whatever the order of the stores: it is the transpose
    exactly when the matrix was symmetric. *)
Theorem C73_transpose_refuted : forall A (mul : A -> A -> A) b junk sched id alpha (st : store A) n, 0 < b -> (forall x, mul x alpha = x) ->
  fst (st id) = [n; n] -> dense [n; n] -> N.of_nat (length (snd (st id))) = prod [n; n] ->
  (forall r c, Permutation (sched r c) (generic_ops r c b)) ->
  exists st', assign_transpose mul false b junk sched id id alpha st = Ok st' /\ symmetric (N.to_nat n) (snd (st' id)) /\
    (transpose_of mul alpha (st id) (st' id) <-> symmetric (N.to_nat n) (snd (st id))).
Proof.
  intros A mul b junk sched id alpha st n Hb HM HS HD HL HP.
  destruct (transpose_inplace mul b junk sched id alpha st n Hb HM HS HD HL HP) as (st' & E & H1 & H2 & H3 & H4 & H5).
  exists st'. split; auto. split; auto. rewrite prod2 in HL.
  assert (HS' : @fst (list N) (list A) (st id) = [n; n]) by exact HS. assert (H2' : @fst (list N) (list A) (st' id) = [n; n]) by exact H2.
  assert (PQ : forall i j, N.to_nat (i * n + j) = N.to_nat i * N.to_nat n + N.to_nat j) by (intros; lia).
  split.
  - intros (rows & cols & T1 & T2 & T3 & T4). rewrite HS' in T1. injection T1 as <- <-. rewrite HS', H2' in T4.
    assert (G : forall i j, i < N.to_nat n -> j < N.to_nat n -> nth_error (snd (st' id)) (j * N.to_nat n + i) = nth_error (snd (st id)) (i * N.to_nat n + j)).
    { intros i j Hi Hj. destruct (T4 (N.of_nat i) (N.of_nat j)) as (x & X1 & X2); [lia|lia|].
      unfold element in X1, X2. rewrite position2, PQ, !Nat2N.id in X1, X2. rewrite HM in X2. exact (eq_trans X2 (eq_sym X1)). }
    intros i j Hi Hj. rewrite <- (G i j), <- (G j i) by auto. apply H4; auto.
  - intros SY. exists n, n. rewrite HS', H2'. split; auto. split; auto. rewrite prod2.
    split; [transitivity (N.of_nat (length (snd (st id)))); [f_equal; exact H3|exact HL]|]. intros i j Hi Hj.
    unfold element. rewrite !position2, !PQ.
    destruct (ViewProofs.nth_error_lt_some (snd (st id)) (N.to_nat i * N.to_nat n + N.to_nat j)) as (x & Ex); [nia|].
    exists x. split; [exact Ex|]. rewrite HM. refine (eq_trans _ Ex).
    destruct (H5 (N.to_nat j) (N.to_nat i)) as [V|V]; [lia|lia| |]; refine (eq_trans V _); auto. apply SY; lia.
Qed.
Print Assumptions C73_transpose_refuted.
Example C73_st2 : store nat := fun j => ([2; 2]%N, [1; 2; 3; 4]).
Example C73_ex_transpose : omap (fun st => snd (st 0)) (assign_transpose Nat.mul false 2 (fun _ => 99) (fun r c => generic_ops r c 2) 0 0 1 C73_st2) = Ok [1; 2; 2; 4]
  /\ ~ symmetric 2 (snd (C73_st2 0)).
Proof. split; [reflexivity|]. intros H. specialize (H 0 1 ltac:(lia) ltac:(lia)). discriminate. Qed.

(** ** a = a + transpose(a) and a += transpose(a) use elements that have already been replaced, with and
    without assertions: element (1,0) of [[1,2],[3,4]] + its transpose comes out as 8 instead of 5. *)
Theorem C73_plus_transpose_refuted : exists (st : store nat) (e : expr nat), well_shaped st e [2; 2]%N /\
  fst (st 0) = [2; 2]%N /\ length (snd (st 0)) = 4 /\ value Nat.mul st e [1; 0]%N = Some 5 /\
  forall asserts junk, exists st', assign_fn Nat.mul asserts 2 junk [0; 1; 2; 3] 0 e st = Ok st' /\
    assign_op Nat.mul asserts 2 junk [0; 1; 2; 3] Nat.add 0 (ETrans 2 2 (EArr 0) 1) st = Ok st' /\
    element [2; 2]%N (snd (st' 0)) [1; 0]%N = Some 8.
Proof.
  exists C73_st2, (EBin Nat.add (EArr 0) (ETrans 2 2 (EArr 0) 1)). split; [cbn; auto|]. split; auto. split; auto. split; auto.
  intros [|] junk; eexists; (split; [reflexivity|split; reflexivity]).
Qed.
Print Assumptions C73_plus_transpose_refuted.

(** ** a = a[i]: the storage is replaced before it is read, so the old row is lost: a = a[0] leaves whatever the
    new block holds, any other row is outside the new block. *)
Theorem C73_row_refuted : forall A asserts junk id v (st : store A) e t i, dense (e :: t) -> t <> [] -> (2 <= e)%N ->
  fst (st id) = e :: t -> N.of_nat (length (snd (st id))) = prod (e :: t) -> (i < e)%N ->
  array_chain asserts (e :: t) [Z.of_N i] = Ok v ->
  if (i =? 0)%N then exists st', assign_view asserts junk id id v st = Ok st' /\ only_changes id st st' /\
                       st' id = (t, map junk (seq 0 (N.to_nat (prod t))))
  else assign_view asserts junk id id v st = UB.
Proof. intros A asserts junk id v st e t i HD HT He HS HL Hi HC. exact (assign_view_row (fun x _ => x) asserts junk id v st e t i HD HT He HS HL Hi HC). Qed.
Print Assumptions C73_row_refuted.
Example C73_ex_row_lost : dense [2; 3]%N /\ array_chain true [2; 3]%N [1]%Z = Ok (C73_row 1) /\
  omap (fun st => st 0) (assign_view true (fun _ => 99) 0 0 (C73_row 0) C73_st) = Ok ([3]%N, [99; 99; 99]) /\
  assign_view true (fun _ => 99) 0 0 (C73_row 1) C73_st = UB.
Proof. split; [apply C73_ex|]. repeat split. Qed.
(** Only when the dropped dimensions all have extent 1 is a = a[0]..[0] right. *)
Theorem C73_row_partial : forall A asserts junk id n v (st : store A) s, dense s -> n < length s -> fst (st id) = s ->
  N.of_nat (length (snd (st id))) = prod s -> sub_array asserts s n v -> prod (firstn n s) = 1%N ->
  exists st', assign_view asserts junk id id v st = Ok st' /\ only_changes id st st' /\ st' id = (v_shape v, snd (st id)) /\
    forall idx, in_range idx (v_shape v) -> element (v_shape v) (snd (st' id)) idx = view_element v (snd (st id)) idx.
Proof. intros A asserts junk id n v st s. apply (assign_view_unit (fun x _ => x)). Qed.
Print Assumptions C73_row_partial.
Example C73_ex_unit : prod (firstn 2 [1; 1; 3]%N) = 1%N /\ sub_array true [1; 1; 3]%N 2 (C73_row 0).
Proof. split; [reflexivity|]. exists [0; 0]%N. split; [auto|split; [repeat constructor|reflexivity]]. Qed.
