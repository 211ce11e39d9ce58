(** C18, C19 — evaluating and assigning lazy elementwise expressions. *)
From Verif Require Import Base ShapeModel ShapeSpec AssignModel AssignSpec AssignProofs.

(** ** C18 *)
(** The examples: a := a + b * 2 on seven elements. *)
Definition ex_st : store nat := fun id => if id =? 0 then [1;2;3;4;5;6;7] else [10;20;30;40;50;60;70].
Definition ex_e : expr nat := EBin plus (EArr 0) (EBin mult (EArr 1) (EScalar 2)).
(** Serial evaluation, with any packet width, vectorised or not; the destination may be an operand. *)
Theorem C18_serial : forall (A : Type) (vectorise : bool) (w n lhs : nat) (e : expr A) (st : store A),
  0 < w -> length (st lhs) = n -> operands_have st e n ->
  exists st', run_serial w lhs e (loops vectorise n w) st = Ok st' /\ assigned st lhs e n st'.
Proof. intros. apply serial_assigned; auto. apply loops_good; auto. Qed.
Print Assumptions C18_serial.
Example C18_ex1 : length (ex_st 0) = 7 /\ operands_have ex_st ex_e 7.
Proof. cbn. auto. Qed.
Example C18_ex2 : match run_serial 4 0 ex_e (loops true 7 4) ex_st with Ok s => s 0 | _ => [] end = [21;42;63;84;105;126;147].
Proof. reflexivity. Qed.

(** Parallel evaluation of dynamically sized arrays: any interleaving of the loads and stores of the
    iterations gives the same result. *)
Theorem C18_parallel : forall (A : Type) (vectorise : bool) (w n lhs : nat) (e : expr A) (st : store A) (sched : list nat),
  0 < w -> length (st lhs) = n -> operands_have st e n ->
  complete w e (fst (loops vectorise n w)) sched ->
  exists st', run_parallel w lhs e (loops vectorise n w) sched st = Ok st' /\ assigned st lhs e n st'.
Proof. intros. apply parallel_assigned; auto. apply loops_good; auto. Qed.
Print Assumptions C18_parallel.
(** Hypotheses satisfiable: a complete schedule exists for every loop … *)
Example C18_complete_exists : forall (A : Type) w (e : expr A) its, exists sched, complete w e its sched.
Proof. intros. eexists. apply sequential_complete. Qed.
(** … and an interleaving in which two iterations alternate. *)
Example C18_ex3 : complete 2 ex_e (fst (loops true 4 2)) [0;1;1;0;0;1;1;0;0;1;1;0].
Proof.
  split; [intros k H; cbn in *; lia|]. intros [|[|[|k]]] it H; cbn in H; inversion H; reflexivity.
Qed.

(** Fixed-size arrays in parallel: right when vectorised.  Missing: the unvectorised case, which is false. *)
Theorem C18_fixed_parallel_partial : forall (A : Type) (w n lhs : nat) (e : expr A) (st : store A) (sched : list nat),
  0 < w -> length (st lhs) = n -> operands_have st e n ->
  complete w e (fst (loops_fixed_parallel true n w)) sched ->
  exists st', run_parallel w lhs e (loops_fixed_parallel true n w) sched st = Ok st' /\ assigned st lhs e n st'.
Proof. intros. rewrite loops_fixed_parallel_vec in *. apply parallel_assigned; auto. apply loops_good; auto. Qed.
Print Assumptions C18_fixed_parallel_partial.
Definition ex_st4 : store nat := fun id => if id =? 0 then [1;2;3;4;5] else [10;20;30;40;50].
Example C18_fixed_parallel_ex : length (ex_st4 0) = 5 /\ operands_have ex_st4 ex_e 5 /\
  complete 2 ex_e (fst (loops_fixed_parallel true 5 2)) [0;1;1;0;0;1;1;0;0;1;1;0] /\
  match run_parallel 2 0 ex_e (loops_fixed_parallel true 5 2) [0;1;1;0;0;1;1;0;0;1;1;0] ex_st4 with Ok s => s 0 | _ => [] end = [21;42;63;84;105].
Proof.
  split; [reflexivity|]. split; [cbn; auto|]. split; [|reflexivity].
  split; [intros k H; cbn in *; lia|]. intros [|[|[|k]]] it H; cbn in H; inversion H; reflexivity.
Qed.

(** Unvectorised, the loop runs no iteration at all, so a fixed-size destination keeps its old contents. *)
Theorem C18_fixed_parallel_refuted : forall (A : Type) (w n lhs : nat) (e : expr A) (st : store A) (sched : list nat),
  complete w e (fst (loops_fixed_parallel false n w)) sched ->
  run_parallel w lhs e (loops_fixed_parallel false n w) sched st = Ok st.
Proof. intros. apply fixed_parallel_noop; auto. Qed.
Print Assumptions C18_fixed_parallel_refuted.
Example C18_fixed_parallel_refuted_ex : complete 1 ex_e (fst (loops_fixed_parallel false 5 2)) [] /\
  run_parallel 1 0 ex_e (loops_fixed_parallel false 5 2) [] ex_st4 = Ok ex_st4.
Proof. split; [split; [intros k []|intros [|k] it H; discriminate H]|reflexivity]. Qed.

(** ** C19 *)
(** Proved: an expression of the destination's own shape is assigned; a rejected expression with as many
    elements leaves the destination intact; construction and assignment of views, transposes and products
    take the source's shape.  Missing: expressions with another number of elements (false, below). *)
Theorem C19_same_shape_partial : forall (A : Type) asserts (junk : nat -> A) dst fs fd,
  a_shape dst = fs -> size fs <> 0%N ->
  array_assign asserts junk dst fs fd = (Ok tt, {| a_shape := fs; a_size := a_size dst; a_data := fd |}).
Proof. intros. apply assign_same_shape; auto. Qed.
Print Assumptions C19_same_shape_partial.
Example C19_same_shape_ex : let dst := {| a_shape := [2;3]%N; a_size := 6%N; a_data := [1;2;3;4;5;6] |} in
  size [2;3]%N <> 0%N /\ array_assign true (fun _ => 99) dst [2;3]%N [6;5;4;3;2;1] = (Ok tt, {| a_shape := [2;3]%N; a_size := 6%N; a_data := [6;5;4;3;2;1] |}).
Proof. split; [discriminate|reflexivity]. Qed.

Theorem C19_same_size_rejected_partial : forall (A : Type) (junk : nat -> A) dst fs fd,
  a_shape dst <> fs -> length (a_data dst) = N.to_nat (size fs) ->
  exists x, array_assign true junk dst fs fd = (Throw x, dst).
Proof. intros. apply assign_same_size_rejected; auto. Qed.
Print Assumptions C19_same_size_rejected_partial.
Example C19_same_size_rejected_ex : let dst := {| a_shape := [2;3]%N; a_size := 6%N; a_data := [1;2;3;4;5;6] |} in
  a_shape dst <> [3;2]%N /\ length (a_data dst) = N.to_nat (size [3;2]%N) /\ array_assign true (fun _ => 99) dst [3;2]%N [6;5;4;3;2;1] = (Throw RangeError, dst).
Proof. cbn. split; [discriminate|]. split; reflexivity. Qed.

Theorem C19_construct : forall (A : Type) asserts (junk : nat -> A) fs fd, size fs <> 0%N ->
  array_construct asserts junk fs fd = (Ok tt, {| a_shape := fs; a_size := size fs; a_data := fd |}).
Proof. intros. apply construct_ok; auto. Qed.
Print Assumptions C19_construct.
Example C19_construct_ex : size [2;2]%N <> 0%N /\ array_construct true (fun _ => 99) [2;2]%N [1;2;3;4] = (Ok tt, {| a_shape := [2;2]%N; a_size := 4%N; a_data := [1;2;3;4] |}).
Proof. split; [discriminate|reflexivity]. Qed.

Theorem C19_view : forall (A : Type) asserts (junk : nat -> A) dst vs vd, size vs <> 0%N ->
  array_assign_view asserts junk dst vs vd = (Ok tt, {| a_shape := vs; a_size := size vs; a_data := vd |}).
Proof. intros. apply assign_view_ok; auto. Qed.
Print Assumptions C19_view.
Example C19_view_ex : size [3;2]%N <> 0%N /\
  array_assign_view true (fun _ => 99) {| a_shape := [2;2]%N; a_size := 4%N; a_data := [1;2;3;4] |} [3;2]%N [6;5;4;3;2;1]
  = (Ok tt, {| a_shape := [3;2]%N; a_size := 6%N; a_data := [6;5;4;3;2;1] |}).
Proof. split; [discriminate|reflexivity]. Qed.

(** Refuted: with assertions the rejection comes after the old elements were thrown away; *)
Theorem C19_mismatch_refuted : forall (A : Type) (junk : nat -> A) dst fs fd,
  size fs <> 0%N -> a_shape dst <> fs -> length (a_data dst) <> N.to_nat (size fs) ->
  array_assign true junk dst fs fd =
  (Throw RangeError,
   {| a_shape := a_shape dst; a_size := a_size dst; a_data := map junk (seq 0 (N.to_nat (size fs))) |}).
Proof. intros. apply assign_mismatch_destroys; auto. Qed.
Print Assumptions C19_mismatch_refuted.
(** without assertions every expression is accepted and the shape stays the old one; *)
Theorem C19_unchecked_refuted : forall (A : Type) (junk : nat -> A) dst fs fd,
  array_assign false junk dst fs fd = (Ok tt, {| a_shape := a_shape dst; a_size := a_size dst; a_data := fd |}).
Proof. intros. apply assign_mismatch_unchecked. Qed.
Print Assumptions C19_unchecked_refuted.
(** and assigning an empty view throws after the shape was replaced. *)
Theorem C19_empty_view_refuted : forall (A : Type) (junk : nat -> A) dst vs vd, size vs = 0%N ->
  array_assign_view true junk dst vs vd
  = (Throw RuntimeError, {| a_shape := vs; a_size := 0; a_data := a_data dst |}).
Proof. intros. apply assign_view_empty; auto. Qed.
Print Assumptions C19_empty_view_refuted.

Example C19_ex : let dst := {| a_shape := [2;2]%N; a_size := 4%N; a_data := [1;2;3;4] |} in
  size [2;3]%N <> 0%N /\ a_shape dst <> [2;3]%N /\ length (a_data dst) <> N.to_nat (size [2;3]%N) /\
  array_assign true (fun _ => 99) dst [2;3]%N [1;2;3;4;5;6]
  = (Throw RangeError, {| a_shape := [2;2]%N; a_size := 4%N; a_data := [99;99;99;99;99;99] |}).
Proof. cbn. repeat split; discriminate. Qed.
