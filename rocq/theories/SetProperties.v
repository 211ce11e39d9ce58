(** C08-C10: librapid::Set. *)
From Coq Require Import Sorted.
From Verif Require Import Base SetModel SetSpec SetProofs.

(** ** C08: any construction and history, with or without assertions. *)
Theorem C08_set_history :
  forall (T : Type) (ltb : T -> T -> bool), total_order ltb ->
  forall asserts init ops r, spec_run asserts ops (fun x => In x init) r ->
    match r with
    | Reported => run ltb asserts ops (of_list ltb init) = Throw RuntimeError
    | Final A => exists d, run ltb asserts ops (of_list ltb init) = Ok d /\ ascending ltb d /\
        (forall x, In x d <-> A x) /\ NoDup d /\
        (forall v, exists b, contains ltb d v = Ok b /\ (b = true <-> A v))
    end.
Proof. exact (@set_history_spec). Qed.
Print Assumptions C08_set_history.

(** Every history has such a specified outcome, so the theorem above covers all of them. *)
Theorem C08_every_history_specified :
  forall (T : Type) (ltb : T -> T -> bool), total_order ltb ->
  forall asserts init ops, exists r, spec_run asserts ops (fun x => In x init) r /\
    match r with
    | Reported => run ltb asserts ops (of_list ltb init) = Throw RuntimeError
    | Final A => exists d, run ltb asserts ops (of_list ltb init) = Ok d /\ ascending ltb d /\
        (forall x, In x d <-> A x) /\ NoDup d /\
        (forall v, exists b, contains ltb d v = Ok b /\ (b = true <-> A v))
    end.
Proof. exact (@set_history). Qed.
Print Assumptions C08_every_history_specified.
Example C08_hypotheses_met : total_order Z.ltb.
Proof. exact Zltb_total. Qed.
Example C08_instance :
  run Z.ltb true [Insert 5; Discard 9; Remove 2; InsertMany [7; 5; 1]]%Z (of_list Z.ltb [3; 2; 3; 9])%Z
  = Ok [1; 3; 5; 7]%Z.
Proof. vm_compute. reflexivity. Qed.
Example C08_instance_reported :
  run Z.ltb true [Insert 5; Remove 4; Insert 6]%Z (of_list Z.ltb [3; 2; 3; 9])%Z = Throw RuntimeError.
Proof. vm_compute. reflexivity. Qed.

(** Two Sets compare equal (equal vectors) exactly when they have the same members. *)
Theorem C08_equality :
  forall (T : Type) (ltb : T -> T -> bool), total_order ltb ->
  forall a b, ascending ltb a -> ascending ltb b -> (a = b <-> forall x, In x a <-> In x b).
Proof. exact (@set_equality). Qed.
Print Assumptions C08_equality.
Example C08_equality_ex : ascending Z.ltb (of_list Z.ltb [5; 1; 3; 1]%Z) /\ of_list Z.ltb [5; 1; 3; 1]%Z = of_list Z.ltb [3; 5; 1]%Z.
Proof. split; [vm_compute; repeat constructor|reflexivity]. Qed.

(** s[i] lists the members in ascending order; an index outside [0, size) is reported. *)
Theorem C08_index_ascending :
  forall (T : Type) (ltb : T -> T -> bool), 
  forall d i j x y, ascending ltb d -> i < j ->
  at_index true d (Z.of_nat i) = Ok x -> at_index true d (Z.of_nat j) = Ok y -> lt ltb x y.
Proof. exact (@index_ascending). Qed.
Print Assumptions C08_index_ascending.
Example C08_index_ascending_ex : at_index true [1; 3; 5]%Z 0 = Ok 1%Z /\ at_index true [1; 3; 5]%Z 2 = Ok 5%Z /\ at_index true [1; 3; 5]%Z 3 = Throw RuntimeError.
Proof. repeat split. Qed.
Theorem C08_index_checked :
  forall (T : Type) (d : list T) i,
  ((0 <= i < Z.of_nat (length d))%Z -> exists x, at_index true d i = Ok x /\ In x d) /\
  (~ (0 <= i < Z.of_nat (length d))%Z -> at_index true d i = Throw RuntimeError).
Proof. exact (@index_total). Qed.
Print Assumptions C08_index_checked.
Example C08_ascending_met : ascending Z.ltb [1; 3; 5]%Z.
Proof. repeat constructor. Qed.

(** ** C09 *)
Theorem C09_union_intersection_difference :
  forall (T : Type) (ltb : T -> T -> bool), total_order ltb ->
  forall a b A B, represents ltb a A -> represents ltb b B ->
  (exists r, union ltb a b = Ok r /\ represents ltb r (fun x => A x \/ B x)) /\
  (exists r, intersection ltb a b = Ok r /\ represents ltb r (fun x => A x /\ B x)) /\
  (exists r, difference ltb a b = Ok r /\ represents ltb r (fun x => A x /\ ~ B x)).
Proof. exact (@set_ops). Qed.
Print Assumptions C09_union_intersection_difference.
Example C09_hypotheses_met : represents Z.ltb (of_list Z.ltb [3; 1; 3]%Z) (fun x => In x [3; 1; 3]%Z).
Proof. exact (of_list_spec Z.ltb Zltb_total _). Qed.
Example C09_instance :
  union Z.ltb [1; 3; 5]%Z [2; 3; 9]%Z = Ok [1; 2; 3; 5; 9]%Z /\
  intersection Z.ltb [1; 3; 5]%Z [2; 3; 9]%Z = Ok [3]%Z /\
  difference Z.ltb [1; 3; 5]%Z [2; 3; 9]%Z = Ok [1; 5]%Z.
Proof. vm_compute. auto. Qed.

(** ** C10: false in the code. *)
Theorem C10_symmetric_difference_refuted :
  exists a b x, ascending Z.ltb a /\ ascending Z.ltb b /\ In x a /\ ~ In x b /\
  symdiff Z.ltb a b = Ok [].
Proof. exact symdiff_refuted. Qed.
Print Assumptions C10_symmetric_difference_refuted.

(** Exactly what it computes: an element of one operand only is kept exactly when the other operand
    has a larger element. *)
Theorem C10_symmetric_difference_exact :
  forall (T : Type) (ltb : T -> T -> bool), total_order ltb ->
  forall a b A B, represents ltb a A -> represents ltb b B ->
  exists r, symdiff ltb a b = Ok r /\
    represents ltb r (fun x => (A x /\ ~ B x /\ exists y, B y /\ lt ltb x y) \/
                              (B x /\ ~ A x /\ exists y, A y /\ lt ltb x y)).
Proof. exact (@symdiff_exact). Qed.
Print Assumptions C10_symmetric_difference_exact.
Example C10_symmetric_difference_exact_ex : symdiff Z.ltb [1; 3; 7]%Z [2; 3; 5]%Z = Ok [1; 2; 5]%Z.
Proof. vm_compute. reflexivity. Qed.

(** The full claim, for operands with the same largest element.  Missing: all other operands. *)
Theorem C10_symmetric_difference_partial :
  forall (T : Type) (ltb : T -> T -> bool), total_order ltb ->
  forall a b A B m, represents ltb a A -> represents ltb b B ->
  A m -> B m -> (forall x, A x \/ B x -> x = m \/ lt ltb x m) ->
  exists r, symdiff ltb a b = Ok r /\
    represents ltb r (fun x => (A x /\ ~ B x) \/ (B x /\ ~ A x)).
Proof. exact (@symdiff_same_max). Qed.
Print Assumptions C10_symmetric_difference_partial.
Example C10_hypotheses_met : symdiff Z.ltb [1; 3; 9]%Z [2; 3; 9]%Z = Ok [1; 2]%Z.
Proof. vm_compute. reflexivity. Qed.
