(** C49: the fixed-size Vector. *)
From Coq Require Import Reals Lra.
From Verif Require Import Base BaseProofs VectorModel VectorSpec VectorProofs.
From Coq Require Import ZifyNat ZifyN ZifyBool.
Ltac Zify.zify_post_hook ::= idtac.
Local Open Scope nat_scope.

(** Assigning an expression over N-element vectors stores its elementwise value, for every packet
    width and whatever the padding lanes hold; reading the expression with operator[] gives the
    same values. *)
Theorem C49_elementwise : forall (A : Type) (w : nat) (asserts : bool) (N : nat) (dst v : vec A) (e : expr A),
  0 < w -> dims dst = N -> storage w dst -> conforming w N e ->
  assign w asserts dst e = Ok v ->
  dims v = N /\ storage w v /\
  forall i, i < N ->
    nth_error (elements v) i = value e i /\ exists a, value e i = Some a /\ eat asserts e i = Ok a.
Proof. intros A w asserts N dst v e Hw. now apply assign_elements. Qed.
Print Assumptions C49_elementwise.

(** If every operation is defined on all values, the assignment succeeds; without padding lanes
    (N a multiple of the packet width) it succeeds exactly when each element is defined. *)
Theorem C49_assignment_defined : forall (A : Type) (w : nat) (asserts : bool) (N : nat) (dst : vec A) (e : expr A),
  0 < w -> dims dst = N -> storage w dst -> conforming w N e ->
  (total e -> exists v, assign w asserts dst e = Ok v) /\
  (Nat.divide w N ->
   ((exists v, assign w asserts dst e = Ok v) <-> forall i, i < N -> exists a, value e i = Some a)).
Proof.
  intros A w asserts N dst e Hw Hd Hs He.
  split; [now apply (assign_Ok_total w asserts Hw N)|now apply assign_Ok_aligned].
Qed.
Print Assumptions C49_assignment_defined.

(** The in-place operators, also when the vector itself occurs on the right. *)
Theorem C49_inplace : forall (A : Type) (w : nat) (asserts : bool) (N : nat) (f : A -> A -> outcome A)
    (v v' : vec A) (e : expr A),
  0 < w -> dims v = N -> storage w v -> conforming w N e \/ (exists a, e = K a) ->
  inplace w asserts f v e = Ok v' ->
  forall i x y, i < N -> nth_error (elements v) i = Some x -> value e i = Some y ->
  exists z, f x y = Ok z /\ nth_error (elements v') i = Some z.
Proof.
  intros A w asserts N f v v' e Hw Hd Hs He E i x y Hi Hx Hy.
  assert (Hc : conforming w N (Bin f (V v) e)).
  { split; [|discriminate]. split; [split; assumption|]. destruct He as [[H _]|[a ->]]; [exact H|exact I]. }
  destruct (assign_elements w asserts Hw N v _ v' Hd Hs Hc E) as (_ & _ & H).
  destruct (H i Hi) as (H1 & a & H2 & _). rewrite H2 in H1. cbn in H2. rewrite Hx, Hy in H2.
  destruct (f x y) as [z| |]; try discriminate. exists z. split; congruence.
Qed.
Print Assumptions C49_inplace.

(** Example: (a + b) * 10 on 3 elements in packets of 4, with junk in the padding. *)
Example C49_elementwise_example :
  let f g := fun x y : Z => Ok (g x y) in
  let a := mkv 3 [1; 2; 3; 77]%Z in
  let b := mkv 3 [4; 5; 6; -5]%Z in
  let e := Bin (f Z.mul) (Bin (f Z.add) (V a) (V b)) (K 10%Z) in
  conforming 4 3 e /\ total e /\
  assign 4 true (mkv 3 [0; 0; 0; 9]%Z) e = Ok (mkv 3 [50; 70; 90; 720]%Z).
Proof. cbn. repeat split; eauto. discriminate. Qed.

(** Construction from a list of values, and filling. *)
Theorem C49_construct : forall (A : Type) (w : nat) (asserts : bool) (d : nat) (junk args : list A) (v : vec A) (a : A),
  0 < w -> length junk = packets w d * w ->
  (length args = d -> exists v, of_list asserts d junk args = Ok v /\ dims v = d /\ storage w v /\ elements v = args) /\
  (length args <= d -> exists v, of_list asserts d junk args = Ok v /\ dims v = d /\
     firstn (length args) (elements v) = args) /\
  (storage w v -> exists v', fill asserts v a = Ok v' /\ dims v' = dims v /\ storage w v' /\
     elements v' = repeat a (dims v)).
Proof.
  intros A w asserts d junk args v a Hw Hj. split; [|split].
  - intros Ha. destruct (of_list_spec w asserts Hw d junk args Hj) as (u & E & _); [lia|].
    exists u. split; [exact E|]. now apply (of_list_elements w asserts Hw d junk).
  - intros Ha. destruct (of_list_spec w asserts Hw d junk args Hj Ha) as (u & E & H1 & H2 & H3).
    exists u. split; [exact E|]. split; [exact H1|].
    pose proof (elements_length w Hw u H2) as HL.
    apply (list_ext w Hw); [rewrite firstn_length; lia|].
    intros i Hi. rewrite firstn_length in Hi. rewrite nth_error_firstn. unfold elements.
    rewrite nth_error_firstn, H3.
    destruct (Nat.ltb_spec i (length args)); [|lia]. now destruct (Nat.ltb_spec i (dims u)); [|lia].
  - intros Hs. destruct (fill_spec w asserts Hw v a Hs) as (v' & E & H1 & H2 & H3 & _). eauto.
Qed.
Print Assumptions C49_construct.
Example C49_construct_ex : of_list true 3 [9; 9; 9; 9]%Z [1; 2; 3]%Z = Ok (mkv 3 [1; 2; 3; 9]%Z) /\ of_list true 3 [9; 9; 9; 9]%Z [1; 2]%Z = Ok (mkv 3 [1; 2; 9; 9]%Z).
Proof. split; reflexivity. Qed.

(** sum, mag2 and dot: right when there are no padding lanes (in particular for scalar storage,
    w = 1).  Missing for the full claim: N not a multiple of the packet width, where it is false. *)
Theorem C49_reductions_partial : forall (A : Type) (w : nat) (asserts : bool) (zero one : A) (add mul : A -> A -> A)
    (N : nat) (junk : list A) (l r : expr A) (f g : nat -> A),
  semi_ring_theory zero one add mul eq ->
  0 < w -> Nat.divide w N -> length junk = packets w N * w ->
  conforming w N l -> conforming w N r -> values l N f -> values r N g ->
  vsum w asserts zero add junk l = Ok (sum_below zero add N f) /\
  mag2 w asserts zero add mul junk l = Ok (sum_below zero add N (fun i => mul (f i) (f i))) /\
  dot w asserts zero add mul junk l r = Ok (sum_below zero add N (fun i => mul (f i) (g i))).
Proof.
  intros A w asserts zero one add mul N junk l r f g SR Hw Hd Hj Hl Hr Vl Vr. split; [|split].
  - now apply (vsum_aligned w asserts zero one add mul Hw SR).
  - now apply (mag2_aligned w asserts zero one add mul Hw SR).
  - now apply (dot_aligned w asserts zero one add mul Hw SR).
Qed.
Print Assumptions C49_reductions_partial.

Example C49_reductions_example :
  let a := mkv 4 [1; 2; 3; 4]%Z in let b := mkv 4 [5; 6; 7; 8]%Z in
  conforming 2 4 (V a) /\ values (V a) 4 (fun i => Z.of_nat i + 1)%Z /\ Nat.divide 2 4 /\
  dot 2 false 0%Z Z.add Z.mul [9; 9; 9; 9]%Z (V a) (V b) = Ok 70%Z /\
  dot 1 false 0%Z Z.add Z.mul [9; 9; 9; 9]%Z (V a) (V b) = Ok 70%Z.
Proof.
  cbn zeta. split; [split; [split; reflexivity|discriminate]|]. split.
  - intros i Hi. do 4 (destruct i as [|i]; [reflexivity|]). lia.
  - split; [exists 2; reflexivity|]. split; reflexivity.
Qed.

(** What the reductions return in general: the padding lanes are included. *)
Theorem C49_reductions_include_padding : forall (A : Type) (w : nat) (zero one : A) (add mul : A -> A -> A) (v : vec A),
  semi_ring_theory zero one add mul eq -> 0 < w -> storage w v ->
  ssum w zero add v = Ok (add (total_of zero add (elements v)) (total_of zero add (padding v))) /\
  ssum2 w zero add mul v = Ok (add (total_of zero add (squares mul (elements v)))
                                   (total_of zero add (squares mul (padding v)))).
Proof.
  intros A w zero one add mul v SR Hw Hs.
  split; [now apply (ssum_spec w zero one add mul Hw SR)|now apply (ssum2_spec w zero one add mul Hw SR)].
Qed.
Print Assumptions C49_reductions_include_padding.
Example C49_padding_ex : storage 4 (mkv 3 [1; 2; 3; 100]%Z) /\ ssum 4 0%Z Z.add (mkv 3 [1; 2; 3; 100]%Z) = Ok 106%Z.
Proof. split; reflexivity. Qed.

(** False when there is padding: two vectors with elements 1, 2, 3 and different sums (their
    constructors leave the fourth lane uninitialised), a broadcast that fills the padding, and a
    narrowing cast of 1, 2, 3, 4 to two elements whose sum is 10. *)
Theorem C49_reductions_refuted :
  (exists junk1 junk2 v1 v2 : vec Z,
     of_list true 3 (cells junk1) [1; 2; 3]%Z = Ok v1 /\ of_list true 3 (cells junk2) [1; 2; 3]%Z = Ok v2 /\
     elements v1 = elements v2 /\ storage 4 v1 /\ storage 4 v2 /\
     ssum 4 0%Z Z.add v1 = Ok 6%Z /\ ssum 4 0%Z Z.add v2 = Ok 106%Z /\
     mag2 4 true 0%Z Z.add Z.mul [0; 0; 0; 0]%Z (V v2) = Ok 10014%Z /\
     dot 4 true 0%Z Z.add Z.mul [0; 0; 0; 0]%Z (V v2) (V v2) = Ok 10014%Z) /\
  (exists v : vec Z,
     elements v = [1; 2; 3]%Z /\ padding v = [0]%Z /\
     vsum 4 true 0%Z Z.add [0; 0; 0; 0]%Z (Bin (fun x y => Ok (x + y)%Z) (V v) (K 1%Z)) = Ok 10%Z) /\
  (exists v v' : vec Z,
     of_list true 4 [0; 0; 0; 0]%Z [1; 2; 3; 4]%Z = Ok v /\ cast_simd 4 v 2 [0; 0; 0; 0]%Z = Ok v' /\
     elements v' = [1; 2]%Z /\ ssum 4 0%Z Z.add v' = Ok 10%Z).
Proof.
  split; [|split].
  - exists (mkv 3 [0; 0; 0; 0]%Z), (mkv 3 [0; 0; 0; 100]%Z), (mkv 3 [1; 2; 3; 0]%Z), (mkv 3 [1; 2; 3; 100]%Z).
    repeat split.
  - exists (mkv 3 [1; 2; 3; 0]%Z). repeat split.
  - exists (mkv 4 [1; 2; 3; 4]%Z), (mkv 2 [1; 2; 3; 4]%Z). repeat split.
Qed.
Print Assumptions C49_reductions_refuted.

(** They are right for any expression that keeps zero padding zero: no broadcast of a nonzero
    scalar, and operations that map zeros to zero (+, -, * but not /). *)
Theorem C49_zero_padding_partial : forall (A : Type) (w : nat) (asserts : bool) (zero one : A) (add mul : A -> A -> A)
    (N : nat) (junk : list A) (e : expr A) (v : vec A),
  semi_ring_theory zero one add mul eq -> 0 < w -> conforming w N e -> keeps_zero zero e ->
  length junk = packets w N * w -> eval w asserts junk e = Ok v ->
  ssum w zero add v = Ok (total_of zero add (elements v)) /\
  ssum2 w zero add mul v = Ok (total_of zero add (squares mul (elements v))).
Proof.
  intros A w asserts zero one add mul N junk e v SR Hw He Hz Hj E.
  now apply (sums_zero_padding w asserts zero one add mul Hw SR junk N e v).
Qed.
Print Assumptions C49_zero_padding_partial.
Example C49_zero_padding_ex :
  let e := Bin (fun x y => Ok (x + y)%Z) (V (mkv 3 [1; 2; 3; 0]%Z)) (V (mkv 3 [4; 5; 6; 0]%Z)) in
  conforming 4 3 e /\ eval 4 true [9; 9; 9; 9]%Z e = Ok (mkv 3 [5; 7; 9; 0]%Z) /\ ssum 4 0%Z Z.add (mkv 3 [5; 7; 9; 0]%Z) = Ok 21%Z.
Proof. repeat split. discriminate. Qed.

(** Dividing integer vectors all of whose N divisors are nonzero can still divide by zero in the
    padding lanes (undefined behaviour). *)
Theorem C49_division_refuted :
  let div x y := if (y =? 0)%Z then UB else Ok (Z.quot x y) in
  exists a b : vec Z, conforming 4 3 (Bin div (V a) (V b)) /\
    (forall i, i < 3 -> exists q, value (Bin div (V a) (V b)) i = Some q) /\
    eval 4 true [0; 0; 0; 0]%Z (Bin div (V a) (V b)) = UB.
Proof.
  cbn zeta. exists (mkv 3 [6; 8; 9; 1]%Z), (mkv 3 [2; 4; 3; 0]%Z). split; [|split].
  - split; [repeat split|discriminate].
  - intros i Hi. do 3 (destruct i as [|i]; [eexists; reflexivity|]). lia.
  - reflexivity.
Qed.
Print Assumptions C49_division_refuted.

(** Casting to another size: scalar storage keeps the common elements and leaves the rest as the
    new vector was (zero); SIMD storage keeps the common elements when the new size needs no more
    packets… *)
Theorem C49_cast_partial : forall (A : Type) (w : nat) (asserts : bool) (v : vec A) (d : nat) (junk : list A),
  0 < w -> storage w v -> length junk = packets w d * w ->
  (exists v', cast_generic asserts v d junk = Ok v' /\ dims v' = d /\ storage w v' /\
     forall i, i < d -> nth_error (elements v') i =
       if i <? dims v then nth_error (elements v) i else nth_error junk i) /\
  (packets w d <= packets w (dims v) ->
   exists v', cast_simd w v d junk = Ok v' /\ dims v' = d /\ storage w v' /\
     forall i, i < d -> i < dims v -> nth_error (elements v') i = nth_error (elements v) i).
Proof.
  intros A w asserts v d junk Hw Hs Hj. split.
  - destruct (cast_generic_spec w asserts Hw v d junk Hs Hj) as (v' & E & H1 & H2 & H3).
    exists v'. split; [exact E|]. split; [exact H1|]. split; [exact H2|]. intros i Hi.
    unfold elements at 1. rewrite nth_error_firstn, H1, H3.
    destruct (Nat.ltb_spec i d); [|lia].
    destruct (Nat.ltb_spec i (Nat.min d (dims v))), (Nat.ltb_spec i (dims v)); try lia; reflexivity.
  - intros Hp. destruct (cast_simd_spec w Hw v d junk Hs Hj Hp) as (v' & E & H1 & H2 & H3).
    exists v'. split; [exact E|]. split; [exact H1|]. split; [exact H2|]. intros i Hi Hi'.
    unfold elements. rewrite !nth_error_firstn, H1.
    destruct (Nat.ltb_spec i d); [|lia]. destruct (Nat.ltb_spec i (dims v)); [|lia].
    apply H3. pose proof (packets_cover w Hw d). lia.
Qed.
Print Assumptions C49_cast_partial.
Example C49_cast_ex : cast_generic true (mkv 3 [1; 2; 3; 50]%Z) 2 [8; 8; 8; 8]%Z = Ok (mkv 2 [1; 2; 8; 8]%Z) /\
  cast_generic true (mkv 2 [1; 2; 50; 50]%Z) 4 [8; 8; 8; 8]%Z = Ok (mkv 4 [1; 2; 8; 8]%Z).
Proof. split; reflexivity. Qed.

(** … and otherwise reads past the source vector, for every content; within the same number of
    packets the new elements are the padding of the source. *)
Theorem C49_cast_refuted :
  (forall (A : Type) (w : nat) (v : vec A) (d : nat) (junk : list A),
     0 < w -> packets w (dims v) < packets w d -> cast_simd w v d junk = UB) /\
  packets 4 2 < packets 4 5 /\
  (exists v v' : vec Z, storage 4 v /\ elements v = [1; 2; 3]%Z /\
     cast_simd 4 v 4 [0; 0; 0; 0]%Z = Ok v' /\ elements v' = [1; 2; 3; 77]%Z).
Proof.
  split; [|split].
  - intros A w v d junk Hw. now apply cast_simd_UB.
  - cbn. lia.
  - exists (mkv 3 [1; 2; 3; 77]%Z), (mkv 4 [1; 2; 3; 77]%Z). repeat split.
Qed.
Print Assumptions C49_cast_refuted.

(** cross(a, b): the vector product; orthogonal to both operands, antisymmetric, and its squared
    length satisfies Lagrange's identity |a x b|^2 + (a.b)^2 = |a|^2 |b|^2. *)
Theorem C49_cross : forall (A : Type) (w : nat) (asserts : bool) (zero one : A) (add mul sub : A -> A -> A) (opp : A -> A)
    (junk junk' : list A) (a b : expr A) (f g : nat -> A),
  ring_theory zero one add mul sub opp eq ->
  0 < w -> length junk = packets w 3 * w -> length junk' = packets w 3 * w ->
  conforming w 3 a -> conforming w 3 b -> values a 3 f -> values b 3 g ->
  exists v v', cross asserts mul sub junk a b = Ok v /\ cross asserts mul sub junk' b a = Ok v' /\
    dims v = 3 /\ storage w v /\
    let product l h := total_of zero add (products mul l (map h (seq 0 3))) in
    product (elements v) f = zero /\ product (elements v) g = zero /\
    elements v' = map opp (elements v) /\
    add (total_of zero add (squares mul (elements v)))
        (mul (product (map f (seq 0 3)) g) (product (map f (seq 0 3)) g)) =
    mul (product (map f (seq 0 3)) f) (product (map g (seq 0 3)) g).
Proof.
  intros A w asserts zero one add mul sub opp junk junk' a b f g RT Hw Hj Hj' Ha Hb Va Vb.
  destruct (cross_spec w asserts mul sub Hw junk a b (f 0) (f 1) (f 2) (g 0) (g 1) (g 2))
    as (v & E & H1 & H2 & H3); auto.
  destruct (cross_spec w asserts mul sub Hw junk' b a (g 0) (g 1) (g 2) (f 0) (f 1) (f 2))
    as (v' & E' & _ & _ & H3'); auto.
  exists v, v'. split; [exact E|]. split; [exact E'|]. split; [exact H1|]. split; [exact H2|].
  cbn zeta. rewrite H3, H3'. now apply (cross_identities zero one add mul sub opp RT).
Qed.
Print Assumptions C49_cross.

Example C49_cross_example :
  let a := mkv 3 [1; 2; 3; 50]%Z in let b := mkv 3 [4; 5; 6; 60]%Z in
  conforming 4 3 (V a) /\ values (V a) 3 (fun i => nth i [1; 2; 3]%Z 0%Z) /\
  cross true Z.mul Z.sub [0; 0; 0; 7]%Z (V a) (V b) = Ok (mkv 3 [-3; 6; -3; 7]%Z).
Proof.
  cbn zeta. split; [split; [split; reflexivity|discriminate]|]. split; [|reflexivity].
  intros i Hi. do 3 (destruct i as [|i]; [reflexivity|]). lia.
Qed.

(** norm (over the reals, without padding lanes): a positive multiple of the vector, of length 1. *)
Theorem C49_norm_partial : forall (w : nat) (asserts : bool) (N : nat) (junk junk' : list R) (e : expr R) (f : nat -> R),
  0 < w -> conforming w N e -> Nat.divide w N -> length junk = packets w N * w ->
  length junk' = packets w N * w -> values e N f -> (exists i, i < N /\ f i <> 0%R) ->
  exists v, norm w asserts 0%R Rplus Rmult Rdiv sqrt junk junk' e = Ok v /\ dims v = N /\ storage w v /\
    total_of 0%R Rplus (squares Rmult (elements v)) = 1%R /\
    exists m, (0 < m)%R /\ forall i, i < N -> nth_error (elements v) i = Some (f i / m)%R.
Proof. exact norm_unit. Qed.
Print Assumptions C49_norm_partial.

Example C49_norm_example :
  let a := mkv 2 [3; 4]%R in
  conforming 2 2 (V a) /\ Nat.divide 2 2 /\ values (V a) 2 (fun i => nth i [3; 4]%R 0%R) /\ (3 <> 0)%R.
Proof.
  cbn zeta. split; [split; [split; reflexivity|discriminate]|]. split; [exists 1; reflexivity|].
  split; [|lra]. intros i Hi. do 2 (destruct i as [|i]; [reflexivity|]). lia.
Qed.

(** fromPolar: a vector of length |r| (2 and 3 dimensions). *)
Theorem C49_fromPolar : forall (w : nat) (asserts : bool) (junk2 junk3 : list R) (r theta phi : R),
  0 < w -> length junk2 = packets w 2 * w -> length junk3 = packets w 3 * w ->
  (exists v, fromPolar2 asserts Rmult cos sin junk2 r theta = Ok v /\ dims v = 2 /\ storage w v /\
     total_of 0%R Rplus (squares Rmult (elements v)) = (r * r)%R) /\
  (exists v, fromPolar3 asserts Rmult cos sin junk3 r theta phi = Ok v /\ dims v = 3 /\ storage w v /\
     total_of 0%R Rplus (squares Rmult (elements v)) = (r * r)%R).
Proof. intros w asserts junk2 junk3 r theta phi Hw. now apply polar_length. Qed.
Print Assumptions C49_fromPolar.

(** The text of a vector shows its elements in order between brackets. *)
Theorem C49_str : forall (A : Type) (w : nat) (asserts : bool) (v : vec A) (x : A) (l : list A),
  0 < w -> storage w v -> elements v = x :: l ->
  str asserts v = Ok (Open :: Elem x :: flat_map (fun y => [Comma; Elem y]) l ++ [Close]).
Proof. intros A w asserts v x l Hw Hs E. now apply (str_spec w asserts Hw v Hs). Qed.
Print Assumptions C49_str.
Example C49_str_ex : str true (mkv 3 [1; 2; 3; 50]%Z) = Ok [Open; Elem 1; Comma; Elem 2; Comma; Elem 3; Close]%Z.
Proof. reflexivity. Qed.
