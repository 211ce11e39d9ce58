(** C55: strided level 1 routines.  [elt x inc n i] is the address of element i (BlasSpec). *)
From Coq Require Import ZArith.
From Verif Require Import Base BaseProofs MatmulSpec BlasModel BlasSpec BlasProofs.
From Coq Require Import ZifyNat ZifyN ZifyBool.
Ltac Zify.zify_post_hook ::= idtac.
Local Open Scope Z_scope.

(** copy writes element i of x to element i of y and nothing else, for any non-zero incY and any
    incX; x and y may overlap as long as no element of x is overwritten before it is read. *)
Theorem C55_copy : forall (A : Type) (d : A) n x incX y incY (m : list A),
  inside m x incX n -> inside m y incY n -> incY <> 0 \/ n <= 1 -> read_first x incX y incY n ->
  exists m', copy n x incX y incY m = Ok m' /\
    (forall i, 0 <= i < n -> val d m' (elt y incY n i) = val d m (elt x incX n i)) /\
    changes d m m' (in_vector y incY n).
Proof. intros. now apply copy_ok. Qed.
Print Assumptions C55_copy.
(** copy shifted down by one cell inside the same memory *)
Example C55_copy_ex : read_first 1 1 0 1 3 /\ copy 3 1 1 0 1 [1; 2; 3; 4] = Ok [2; 3; 4; 4].
Proof. split; [intros i j A B C; change (0 + i * 1 <> 1 + j * 1); lia|reflexivity]. Qed.

Theorem C55_axpy : forall (A : Type) (d : A) (add mul : A -> A -> A) n alpha x incX y incY (m : list A),
  inside m x incX n -> inside m y incY n -> incY <> 0 \/ n <= 1 -> read_first x incX y incY n ->
  exists m', axpy add mul n alpha x incX y incY m = Ok m' /\
    (forall i, 0 <= i < n ->
       val d m' (elt y incY n i) = add (val d m (elt y incY n i)) (mul alpha (val d m (elt x incX n i)))) /\
    changes d m m' (in_vector y incY n).
Proof. intros. now apply axpy_ok. Qed.
Print Assumptions C55_axpy.

Theorem C55_scal : forall (A : Type) (d zero : A) (mul : A -> A -> A) (is_zero : A -> bool) n alpha x incX (m : list A),
  inside m x incX n -> incX <> 0 \/ n <= 1 ->
  (exists m', scal mul n alpha x incX m = Ok m' /\
    (forall i, 0 <= i < n -> val d m' (elt x incX n i) = mul (val d m (elt x incX n i)) alpha) /\
    changes d m m' (in_vector x incX n)) /\
  (exists m', scal_init zero mul is_zero n alpha x incX m = Ok m' /\
    (forall i, 0 <= i < n -> val d m' (elt x incX n i) =
       if is_zero alpha then zero else mul (val d m (elt x incX n i)) alpha) /\
    changes d m m' (in_vector x incX n)).
Proof. intros. split; [now apply scal_ok|now apply scal_init_ok]. Qed.
Print Assumptions C55_scal.
Example C55_scal_ex : scal Z.mul 2 10 1 (-2) [1; 2; 3; 4] = Ok [1; 20; 3; 40] /\ scal_init 0 Z.mul (Z.eqb 0) 2 0 1 (-2) [1; 2; 3; 4] = Ok [1; 0; 3; 0].
Proof. split; reflexivity. Qed.

Theorem C55_swap : forall (A : Type) (d : A) n x incX y incY (m : list A),
  inside m x incX n -> inside m y incY n -> incX <> 0 \/ n <= 1 -> incY <> 0 \/ n <= 1 ->
  disjoint x incX y incY n ->
  exists m', swap n x incX y incY m = Ok m' /\
    (forall i, 0 <= i < n -> val d m' (elt x incX n i) = val d m (elt y incY n i) /\
                             val d m' (elt y incY n i) = val d m (elt x incX n i)) /\
    changes d m m' (fun p => in_vector x incX n p \/ in_vector y incY n p).
Proof. intros. now apply (write_xy d (fun _ v => v) (fun u _ => u)). Qed.
Print Assumptions C55_swap.

Theorem C55_rot : forall (A : Type) (d : A) (add mul : A -> A -> A) (neg : A -> A) n x incX y incY c s (m : list A),
  inside m x incX n -> inside m y incY n -> incX <> 0 \/ n <= 1 -> incY <> 0 \/ n <= 1 ->
  disjoint x incX y incY n ->
  exists m', rot add mul neg n x incX y incY c s m = Ok m' /\
    (forall i, 0 <= i < n ->
       let u := val d m (elt x incX n i) in let v := val d m (elt y incY n i) in
       val d m' (elt x incX n i) = add (mul c u) (mul s v) /\
       val d m' (elt y incY n i) = add (mul (neg s) u) (mul c v)) /\
    changes d m m' (fun p => in_vector x incX n p \/ in_vector y incY n p).
Proof. intros. now apply (write_xy d (fun u v => add (mul c u) (mul s v)) (fun u v => add (mul (neg s) u) (mul c v))). Qed.
Print Assumptions C55_rot.
Example C55_rot_ex : disjoint 0 2 1 2 2 /\ rot Z.add Z.mul Z.opp 2 0 2 1 2 3 4 [1; 10; 2; 20] = Ok [43; 26; 86; 52].
Proof. split; [intros i j A B; change (1 + i * 2 <> 0 + j * 2); lia|reflexivity]. Qed.

(** With a zero increment every element is the same cell: copy leaves the last element of x there,
    axpy accumulates the whole of x, scal multiplies n times. *)
Theorem C55_zero_increment : forall (A : Type) (d : A) (add mul : A -> A -> A) n alpha x incX y (m : list A), 0 < n ->
  inside m x incX n -> 0 <= y < Z.of_nat (length m) -> (forall i, 0 < i < n -> elt x incX n i <> y) ->
  (exists m', copy n x incX y 0 m = Ok m' /\ val d m' y = val d m (elt x incX n (n - 1)) /\
     changes d m m' (fun p => p = y)) /\
  (exists m', axpy add mul n alpha x incX y 0 m = Ok m' /\
     val d m' y = sum (val d m y) add (Z.to_nat n) (fun i => mul alpha (val d m (elt x incX n (Z.of_nat i)))) /\
     changes d m m' (fun p => p = y)) /\
  (exists m', scal mul n alpha y 0 m = Ok m' /\ val d m' y = power (val d m y) mul alpha (Z.to_nat n) /\
     changes d m m' (fun p => p = y)).
Proof.
  intros A d add mul n alpha x incX y m Hn Hx Hy Hr.
  assert (Hy0 : inside m y 0 n) by (intros i Hi; now rewrite elt_zero).
  split; [now apply copy_zero|]. split; [|now apply scal_zero].
  destruct (axpy_zero d add mul n alpha x incX y m ltac:(lia) Hx Hy0 Hr) as (m' & E & H1 & H2 & H3).
  exists m'. split; [exact E|]. split; [now apply H1|]. split; [exact H2|]. intros p Hp Hne. apply H3; tauto.
Qed.
Print Assumptions C55_zero_increment.
Example C55_zero_increment_ex : copy 3 0 1 3 0 [1; 2; 3; 100] = Ok [1; 2; 3; 3] /\
  axpy Z.add Z.mul 3 2 0 1 3 0 [1; 2; 3; 100] = Ok [1; 2; 3; 112] /\ scal Z.mul 3 2 3 0 [1; 2; 3; 100] = Ok [1; 2; 3; 800].
Proof. repeat split. Qed.

(** The reductions, for every increment, zero included. *)
Theorem C55_dot : forall (A : Type) (d zero : A) (add mul : A -> A -> A) (conj abs1 : A -> A) n x incX y incY (m : list A),
  inside m x incX n -> inside m y incY n ->
  let X := fun i => val d m (elt x incX n (Z.of_nat i)) in
  let Y := fun i => val d m (elt y incY n (Z.of_nat i)) in
  dot zero add mul conj n x incX y incY m = Ok (sum zero add (Z.to_nat n) (fun i => mul (conj (X i)) (Y i))) /\
  dotu zero add mul n x incX y incY m = Ok (sum zero add (Z.to_nat n) (fun i => mul (X i) (Y i))) /\
  asum zero add abs1 n x incX m = Ok (sum zero add (Z.to_nat n) (fun i => abs1 (X i))).
Proof. intros. split; [now apply dot_ok|]. split; [now apply dotu_ok|now apply asum_ok]. Qed.
Print Assumptions C55_dot.

(** iamax: the first index whose modulus is not exceeded, -1 for an empty vector.  [gt] must be a
    strict weak order, which excludes NaN. *)
Theorem C55_iamax : forall (A B : Type) (d : A) (abs : A -> B) (gt : B -> B -> bool) n x incX (m : list A),
  (forall a b, gt a b = true -> gt b a = false) ->
  (forall a b c, gt a b = false -> gt b c = false -> gt a c = false) ->
  inside m x incX n ->
  let X := fun i => abs (val d m (elt x incX n i)) in
  (n <= 0 -> iamax abs gt n x incX m = Ok (-1)) /\
  (0 < n -> exists i, iamax abs gt n x incX m = Ok i /\ 0 <= i < n /\
    (forall j, 0 <= j < n -> gt (X j) (X i) = false) /\
    (forall j, 0 <= j < i -> gt (X i) (X j) = true)).
Proof.
  intros A B d abs gt n x incX m H1 H2 Hx X. split.
  - intros Hn. unfold iamax. replace (n <=? 0) with true by lia. reflexivity.
  - intros Hn. now apply iamax_ok.
Qed.
Print Assumptions C55_iamax.

(** An access outside the memory is reached as soon as one element lies outside it. *)
Theorem C55_outside : forall (A : Type) (zero : A) (add mul : A -> A -> A) (conj : A -> A) n x incX (m : list A) i,
  0 <= i < n -> ~ (0 <= elt x incX n i < Z.of_nat (length m)) ->
  dot zero add mul conj n x incX x incX m = UB.
Proof.
  intros A zero add mul conj n x incX m i Hi Hout. unfold dot, walk.
  cut (forall k j r, 0 <= j <= i -> i < j + Z.of_nat k ->
    rounds k (j * incX) incX (j * incX) incX (fun iX iY r => do u <- load m (start x incX n + iX);
      do v <- load m (start x incX n + iY); Ok (add r (mul (conj u) v))) r = UB).
  { intros H. apply (H (Z.to_nat n) 0 zero); lia. }
  induction k as [|k IH]; intros j r Hj Hk; [lia|]. cbn [rounds]. rewrite start_elt.
  assert (Hl : forall p, load m p = UB \/ exists v, load m p = Ok v /\ 0 <= p < Z.of_nat (length m)).
  { intros p. unfold load. destruct (p <? 0) eqn:E; [auto|]. unfold rd.
    destruct (nth_error m (Z.to_nat p)) eqn:E2; [|auto]. right. exists a. split; [reflexivity|].
    assert (nth_error m (Z.to_nat p) <> None) as H%nth_error_Some by congruence. lia. }
  destruct (Hl (elt x incX n j)) as [->|(v & -> & Hin)]; [reflexivity|]. cbn [bind].
  assert (j <> i) by (intros ->; tauto).
  replace (j * incX + incX) with ((j + 1) * incX) by ring. apply IH; lia.
Qed.
Print Assumptions C55_outside.
Example C55_outside_ex : elt 1 2 3 2 = 5 /\ dot 0 Z.add Z.mul (fun a => a) 3 1 2 1 2 [1; 2; 3; 4] = UB.
Proof. split; reflexivity. Qed.

(** Overlapping operands where a write comes before the read give a different result: why
    [read_first] is needed. *)
Theorem C55_overlap_order : exists n x incX y incY (m : list nat),
  inside m x incX n /\ inside m y incY n /\ incY <> 0 /\
  exists m' i, copy n x incX y incY m = Ok m' /\ 0 <= i < n /\
    val 0%nat m' (elt y incY n i) <> val 0%nat m (elt x incX n i).
Proof.
  exists 2, 0, 1, 1, 1, [5%nat; 6%nat; 7%nat].
  split; [intros i Hi; unfold elt; change (0 <= 0 + i * 1 < 3); lia|].
  split; [intros i Hi; unfold elt; change (0 <= 1 + i * 1 < 3); lia|]. split; [discriminate|].
  exists [5%nat; 5%nat; 5%nat], 1. split; [reflexivity|]. split; [lia|]. cbn. discriminate.
Qed.
Print Assumptions C55_overlap_order.

(** x = (1, 2, 3) read backwards with stride 2, y at 6 forwards. *)
Example C55_example :
  let m := [3; 0; 2; 0; 1; 0; 10; 20; 30] in
  inside m 0 (-2) 3 /\ inside m 6 1 3 /\ disjoint 0 (-2) 6 1 3 /\ read_first 0 (-2) 6 1 3 /\
  axpy Z.add Z.mul 3 2 0 (-2) 6 1 m = Ok [3; 0; 2; 0; 1; 0; 12; 24; 36] /\
  swap 3 0 (-2) 6 1 m = Ok [30; 0; 20; 0; 10; 0; 1; 2; 3] /\
  dot 0 Z.add Z.mul (fun a => a) 3 0 (-2) 6 1 m = Ok 140 /\
  iamax Z.abs Z.gtb 3 0 (-2) m = Ok 2.
Proof.
  cbn zeta. split; [|split; [|split; [|split; [|repeat split]]]].
  - intros i Hi. change (0 <= 0 + (3 - 1 - i) * 2 < 9). lia.
  - intros i Hi. change (0 <= 6 + i * 1 < 9). lia.
  - intros i j Hi Hj. change (6 + i * 1 <> 0 + (3 - 1 - j) * 2). lia.
  - intros i j Hi Hij Hj. change (6 + i * 1 <> 0 + (3 - 1 - j) * 2). lia.
Qed.
