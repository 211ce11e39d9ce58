(** C54: the map wrappers. *)
From Coq Require Import Permutation.
From Verif Require Import Base BaseProofs MapModel MapSpec MapProofs.

(** After any history of calls the queries of Map agree with the mathematical finite map. *)
Theorem C54_map : forall (K V : Type) (keq : forall a b : K, {a = b} + {a <> b}) (lt : K -> K -> bool)
    (cs : list (call K V)) (k : K) (d : V),
  total_order lt ->
  let m := run lt cs in let f := meaning keq cs in
  (contains lt k m = true <-> f k <> None) /\
  contains_value lt k d m = (match f k with Some v => (true, v) | None => (false, d) end) /\
  get lt k d m = (match f k with Some v => v | None => d end) /\
  fst (subscript lt d k m) = (match f k with Some v => v | None => d end).
Proof. intros K V keq lt cs k d H m f. apply (queries keq lt H), (run_agrees keq lt H). Qed.
Print Assumptions C54_map.

(** The same for UnorderedMap, whatever order the container keeps its pairs in. *)
Theorem C54_unordered_map : forall (K V : Type) (keq : forall a b : K, {a = b} + {a <> b}) (lt : K -> K -> bool)
    (cs : list (call K V)) (m : list (K * V)) (k : K) (d : V),
  total_order lt -> urun lt cs m ->
  let f := meaning keq cs in
  (contains lt k m = true <-> f k <> None) /\
  contains_value lt k d m = (match f k with Some v => (true, v) | None => (false, d) end) /\
  get lt k d m = (match f k with Some v => v | None => d end) /\
  fst (subscript lt d k m) = (match f k with Some v => v | None => d end).
Proof. intros K V keq lt cs m k d H Hu f. apply (queries keq lt H), (urun_agrees keq lt H _ _ Hu). Qed.
Print Assumptions C54_unordered_map.

(** The text lists every key of the map once, with its value; Map in increasing key order. *)
Theorem C54_str : forall (K V : Type) (keq : forall a b : K, {a = b} + {a <> b}) (lt : K -> K -> bool)
    (cs : list (call K V)) (m : list (K * V)),
  total_order lt -> m = run lt cs \/ urun lt cs m ->
  NoDup (map fst m) /\
  (forall k v, In (k, v) m <-> meaning keq cs k = Some v) /\
  (m = run lt cs -> increasing lt m) /\
  str m = [Open] ++ flat_map (fun p => [Indent; Key (fst p); Colon; Value (snd p); Newline]) m ++ [Close].
Proof.
  intros K V keq lt cs m H Hm.
  assert (Ha : agrees lt m (meaning keq cs)).
  { destruct Hm as [->|Hu]; [apply (run_agrees keq lt H)|apply (urun_agrees keq lt H _ _ Hu)]. }
  destruct Ha as [Hn Hf]. split; [exact Hn|]. split; [|split].
  - intros k v. rewrite <- Hf. symmetry. now apply (lookup_In keq lt H).
  - intros ->. now apply run_increasing.
  - apply str_eq.
Qed.
Print Assumptions C54_str.

Example C54_example :
  let cs := [Put 5 50; Insert 3 30; Insert 5 99; Touch 0 7; Put 3 31; Erase 7] in
  total_order Nat.ltb /\ run Nat.ltb cs = [(3, 31); (5, 50)] /\ urun Nat.ltb [Put 1 10; Put 2 20] [(2, 20); (1, 10)] /\
  contains_value Nat.ltb 5 0 (run Nat.ltb cs) = (true, 50) /\ get Nat.ltb 7 8 (run Nat.ltb cs) = 8.
Proof.
  cbn zeta. split; [|split; [reflexivity|split; [|split; reflexivity]]].
  - split; [intros a; apply Nat.ltb_irrefl|]. split.
    + intros a b c. rewrite !Nat.ltb_lt. lia.
    + intros a b Hne. rewrite !Nat.ltb_lt. lia.
  - apply (urun_step Nat.ltb [Put 1 10] (Put 2 20) [(1, 10)]); [|apply perm_swap].
    apply (urun_step Nat.ltb [] (Put 1 10) []); [constructor|reflexivity].
Qed.
