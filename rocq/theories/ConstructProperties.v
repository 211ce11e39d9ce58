(** C25 (arrays from nested lists), C26 (arange, linspace, ...) and C27 (comma initialisation). *)
From Coq Require Import Reals Lra.
From Verif Require Import Base ShapeModel ShapeSpec ViewSpec ConstructModel ConstructSpec ConstructProofs.
From Coq Require Import ZifyNat ZifyN ZifyBool.
Ltac Zify.zify_post_hook ::= idtac.

(** ** C25 *)
(** Every depth, every rectangular non-empty data with fewer than 2^32 scalars, both debug and release,
    whatever the new storage contained. *)
Theorem C25_from_data : forall A asserts vec (junk : nat -> A) k (d : nest A k) s,
  1 <= k -> has_shape k d s -> (N.of_nat (count k d) < 2 ^ 32)%N ->
  exists a, from_data asserts vec junk k d = Ok a /\ fst a = s /\ holds k d a.
Proof.
  intros. exists (s, flatten k d). split; [apply from_data_ok; auto|]. split; auto.
  pose proof (has_shape_props k d s H0) as (_ & _ & L & _ & E). split; [exact H0|]. split; [exact L|exact E].
Qed.
Print Assumptions C25_from_data.

(** With the library's assertions on, any other data is rejected. *)
Theorem C25_rejects : forall A vec (junk : nat -> A) k (d : nest A k),
  1 <= k -> (N.of_nat (count k d) < 2 ^ 32)%N -> ~ (exists s, has_shape k d s) ->
  exists e, from_data true vec junk k d = Throw e.
Proof. intros A vec junk k d Hk C N. destruct (from_data_either vec junk k d Hk C); [contradiction|auto]. Qed.
Print Assumptions C25_rejects.

(** Matrices (static two-dimensional shape) take another path. *)
Theorem C25_matrix : forall A asserts (junk : nat -> A) (d : nest A 2) s,
  has_shape 2 d s -> (N.of_nat (count 2 d) < 2 ^ 32)%N ->
  exists a, from_matrix asserts junk d = Ok a /\ fst a = s /\ holds 2 d a.
Proof.
  intros. exists (s, flatten 2 d). split; [apply from_matrix_ok; auto|]. split; auto.
  pose proof (has_shape_props 2 d s H) as (_ & _ & L & _ & E). split; [exact H|]. split; [exact L|exact E].
Qed.
Print Assumptions C25_matrix.
Example C25_matrix_ex : has_shape 2 ([[1; 2; 3]; [4; 5; 6]] : nest nat 2) [2; 3]%N /\ from_matrix true (fun _ => 9) [[1; 2; 3]; [4; 5; 6]] = Ok ([2; 3]%N, [1; 2; 3; 4; 5; 6]).
Proof. split; [vm_compute; repeat split; try congruence; repeat constructor; congruence|reflexivity]. Qed.
(** Missing from the full property: a matrix of empty rows is accepted. *)
Theorem C25_matrix_rejects_partial : forall A (junk : nat -> A) (d : list (list A)),
  (N.of_nat (count 2 d) < 2 ^ 32)%N -> (N.of_nat (length d) < 2 ^ 32)%N ->
  (N.of_nat (length d * length (hd [] d)) < 2 ^ 32)%N -> Forall (fun r => r <> []) d ->
  ~ (exists s, has_shape 2 d s) -> exists e, from_matrix true junk d = Throw e.
Proof. intros. destruct (from_matrix_either junk d); auto. contradiction. Qed.
Print Assumptions C25_matrix_rejects_partial.
Theorem C25_matrix_empty_refuted :
  ~ (forall (junk : nat -> nat) (d : list (list nat)), ~ (exists s, has_shape 2 d s) ->
       exists e, from_matrix true junk d = Throw e).
Proof.
  intros H. destruct (H (fun _ => 0) [[]; []]) as [e E]; [|discriminate E].
  intros (s & Hs). destruct s as [|x [|y s]]; cbn in Hs; try contradiction;
    destruct Hs as (_ & _ & F); inversion F as [|? ? G _]; subst; try contradiction. apply G. reflexivity.
Qed.
Print Assumptions C25_matrix_empty_refuted.

Example C25_example :
  let d : nest nat 3 := [[[1; 2]; [3; 4]; [5; 6]]; [[7; 8]; [9; 10]; [11; 12]]] in
  has_shape 3 d [2; 3; 2]%N /\ (N.of_nat (count 3 d) < 2 ^ 32)%N /\ entry 3 d [1; 2; 0]%N = Some 11 /\
  from_data true false (fun _ => 99) 3 d = Ok ([2; 3; 2]%N, seq 1 12).
Proof. vm_compute. repeat split; try congruence; repeat constructor; congruence. Qed.
Example C25_ragged :
  let d : nest nat 3 := [[[1; 2]; [3; 4]]; [[7; 8]; [9]]] in
  ~ (exists s, has_shape 3 d s) /\ from_data true false (fun _ => 99) 3 d = Throw LengthError.
Proof.
  split; [|vm_compute; reflexivity].
  intros (s & H). destruct s as [|a [|b [|c s]]]; cbn in H; try (now repeat match goal with
    | X : _ /\ _ |- _ => destruct X | X : Forall _ (_ :: _) |- _ => inversion X; clear X; subst | X : False |- _ => contradiction end).
Qed.
Example C25_matrix_ragged : from_matrix true (fun _ => 9) [[1; 2]; [3]] = Throw RangeError.
Proof. reflexivity. Qed.

(** ** C26 *)
(** Integer arange into a signed 64-bit array, any sign of the step: the documented number of terms of
    the progression, all inside [start, stop). *)
Theorem C26_arange_int : forall asserts start stop step,
  (- 2 ^ 63 <= start < 2 ^ 63)%Z -> (- 2 ^ 63 <= stop < 2 ^ 63)%Z ->
  step <> 0%Z -> (0 < Z.quot (stop - start) step)%Z ->
  exists l n, arange asserts to_int64 start stop step = Ok l /\ documented_count start stop step n /\
    progression start step n l /\
    forall x, In x l -> (0 <= (x - start) * step /\ 0 < (stop - x) * step)%Z.
Proof.
  intros asserts start stop step R1 R2 Hs Hq. set (n := Z.to_nat (arange_count start stop step)).
  pose proof (arange_count_spec start stop step Hs) as D. fold n in D. pose proof (quot_pos_sign _ _ Hq Hs) as P.
  exists (map (fun i => to_int64 (arange_raw start step i)) (seq 0 n)), n.
  split; [apply arange_ok; auto|]. split; [exact D|].
  assert (V : forall i, i < n -> to_int64 (arange_raw start step i) = (start + Z.of_nat i * step)%Z).
  { intros i Hi. apply arange_raw_int64. pose proof (between_progression start stop step i n R1 R2 D P Hi). lia. }
  split; [split|].
  - rewrite map_length, seq_length. reflexivity.
  - intros i Hi. rewrite map_seq_nth by auto. rewrite V; auto.
  - intros x Hx. apply in_map_iff in Hx. destruct Hx as (i & <- & Hi). apply in_seq in Hi. rewrite V by lia.
    apply documented_inside with (n := n); auto. lia.
Qed.
Print Assumptions C26_arange_int.
(** A zero step, or a step in the wrong direction, is rejected when assertions are on. *)
Theorem C26_arange_rejects : forall B (conv : Z -> B) start stop step,
  step = 0%Z \/ (Z.quot (stop - start) step <= 0)%Z -> arange true conv start stop step = Throw InvalidArgument.
Proof.
  intros B conv start stop step H. unfold arange. destruct (Z.eqb_spec step 0) as [E|E]; [reflexivity|].
  destruct (Z.ltb_spec 0 (Z.quot (stop - start) step)) as [Q|Q]; [|reflexivity]. exfalso. destruct H as [H|H]; [auto|].
  apply Z.lt_nge in Q. auto.
Qed.
Print Assumptions C26_arange_rejects.
Example C26_arange_rejects_ex : arange true to_int64 0 5 0 = Throw InvalidArgument /\ arange true to_int64 0 5 (-1) = Throw InvalidArgument /\ (Z.quot (5 - 0) (-1) <= 0)%Z.
Proof. split; [reflexivity|]. split; [reflexivity|discriminate]. Qed.
(** Floating element type: proved when all the values are non-negative. *)
Theorem C26_arange_double_partial : forall asserts start stop step,
  (0 <= start < 2 ^ 63)%Z -> (0 <= stop < 2 ^ 63)%Z -> step <> 0%Z -> (0 < Z.quot (stop - start) step)%Z ->
  exists l n, arange asserts to_double start stop step = Ok l /\ documented_count start stop step n /\
    progression start step n l.
Proof.
  intros asserts start stop step R1 R2 Hs Hq. set (n := Z.to_nat (arange_count start stop step)).
  pose proof (arange_count_spec start stop step Hs) as D. fold n in D. pose proof (quot_pos_sign _ _ Hq Hs) as P.
  exists (map (fun i => to_double (arange_raw start step i)) (seq 0 n)), n.
  split; [apply arange_ok; auto|]. split; [exact D|]. split.
  - rewrite map_length, seq_length. reflexivity.
  - intros i Hi. rewrite map_seq_nth by auto. f_equal. apply arange_raw_double.
    assert (R1' : (- 2 ^ 63 <= start < 2 ^ 63)%Z) by lia. assert (R2' : (- 2 ^ 63 <= stop < 2 ^ 63)%Z) by lia.
    pose proof (between_progression start stop step i n R1' R2' D P Hi). lia.
Qed.
Print Assumptions C26_arange_double_partial.
Example C26_arange_double_ex : (0 < Z.quot (10 - 2) 3)%Z /\ arange true to_double 2 10 3 = Ok [2; 5]%Z /\ documented_count 2 10 3 2.
Proof. split; [reflexivity|]. split; [reflexivity|]. split; [discriminate|reflexivity]. Qed.
(** Negative values come out as about 1.8e19: arange<double>(-2, 2, 1). *)
Theorem C26_arange_double_refuted :
  ~ (forall start stop step, step <> 0%Z -> (0 < Z.quot (stop - start) step)%Z ->
     (- 2 ^ 63 <= start < 2 ^ 63)%Z -> (- 2 ^ 63 <= stop < 2 ^ 63)%Z ->
     exists l n, arange true to_double start stop step = Ok l /\ progression start step n l /\ 0 < n).
Proof.
  intros H. destruct (H (-2) 2 1)%Z as (l & n & E & P & Hn); [lia|reflexivity|lia|lia|].
  destruct P as [_ P]. specialize (P 0 Hn). vm_compute in E. injection E as <-. discriminate P.
Qed.
Print Assumptions C26_arange_double_refuted.
(** A last multiple of step before stop is left out when step does not divide the range:
    arange(0, 5, 2) is [0, 2]. *)
Theorem C26_covers_refuted :
  ~ (forall start stop step x l, arange true to_int64 start stop step = Ok l -> (0 < step)%Z ->
     (exists i : nat, x = start + Z.of_nat i * step)%Z -> (x < stop)%Z -> In x l).
Proof.
  intros H. specialize (H 0 5 2 4 [0; 2] eq_refl)%Z.
  assert (I : In 4%Z [0%Z; 2%Z]) by (apply H; [lia|exists 2; reflexivity|lia]).
  cbn in I. lia.
Qed.
Print Assumptions C26_covers_refuted.
(** When step divides the range, it is covered. *)
Theorem C26_covers_partial : forall asserts start stop step x l,
  (- 2 ^ 63 <= start < 2 ^ 63)%Z -> (- 2 ^ 63 <= stop < 2 ^ 63)%Z ->
  (0 < step)%Z -> (start < stop)%Z -> (step | stop - start)%Z ->
  arange asserts to_int64 start stop step = Ok l ->
  (exists i : nat, x = start + Z.of_nat i * step)%Z -> (x < stop)%Z -> In x l.
Proof.
  intros asserts start stop step x l R1 R2 Hs Hlt (q & Hq) E (i & ->) Hx.
  assert (Q : Z.quot (stop - start) step = q) by (rewrite Hq; apply Z.quot_mul; lia).
  assert (Q0 : (0 < q)%Z) by (apply (Z.mul_pos_cancel_r q step); lia).
  destruct (C26_arange_int asserts start stop step) as (l' & n & E' & D & (Ln & P) & _); auto; try lia.
  rewrite E in E'. injection E' as <-.
  apply (nth_error_In l i). apply P. unfold documented_count in D.
  rewrite Hq, Z.abs_eq, Z.abs_eq in D by (try apply Z.mul_nonneg_nonneg; lia).
  assert (Z.of_nat i < q)%Z by (apply (Z.mul_lt_mono_pos_r step); lia).
  destruct D as [_ D]. apply (Z.mul_lt_mono_pos_r step) in D; lia.
Qed.
Print Assumptions C26_covers_partial.
Example C26_covers_ex : (3 | 11 - 2)%Z /\ arange true to_int64 2 11 3 = Ok [2; 5; 8]%Z /\ (8 = 2 + Z.of_nat 2 * 3)%Z.
Proof. split; [now exists 3%Z|]. split; reflexivity. Qed.

(** arange(start, stop) and arange(stop) *)
Theorem C26_arange2 : forall asserts start stop, (- 2 ^ 63 <= start < 2 ^ 63)%Z -> (- 2 ^ 63 <= stop < 2 ^ 63)%Z ->
  (start < stop)%Z ->
  exists l, arange2 asserts to_int64 start stop = Ok l /\ progression start 1 (Z.to_nat (stop - start)) l.
Proof.
  intros asserts start stop R1 R2 H. unfold arange2. replace (0 <? stop - start)%Z with true by lia.
  assert (C : check asserts InvalidArgument true = Ok tt) by (destruct asserts; reflexivity). rewrite C. cbn [bind].
  rewrite Z.abs_eq by lia. eexists. split; [reflexivity|]. split; [rewrite map_length, seq_length; reflexivity|].
  intros i Hi. rewrite map_seq_nth by auto. f_equal.
  pose proof (arange_raw_int64 start 1 i) as A. unfold arange_raw in A. change (u64z 1) with 1%Z in A. rewrite Z.mul_1_r in *.
  unfold u64z in *. rewrite Z.add_mod_idemp_r in A by lia. apply A. lia.
Qed.
Print Assumptions C26_arange2.
Example C26_arange2_ex : arange2 true to_int64 (-2) 3 = Ok [-2; -1; 0; 1; 2]%Z.
Proof. reflexivity. Qed.
Theorem C26_arange1_partial : forall stop, (0 <= stop)%Z -> progression 0 1 (Z.to_nat stop) (arange1 (fun x => x) stop).
Proof.
  intros stop H. unfold arange1. rewrite Z.abs_eq by lia. split; [rewrite map_length, seq_length; reflexivity|].
  intros i Hi. rewrite map_seq_nth by auto. f_equal. lia.
Qed.
Print Assumptions C26_arange1_partial.
Example C26_arange1_ex : arange1 (fun x => x) 4 = [0; 1; 2; 3]%Z.
Proof. reflexivity. Qed.
(** A negative stop gives an ascending, non-empty sequence outside the range [0, stop). *)
Theorem C26_arange1_negative_refuted : ~ (forall stop, (stop <= 0)%Z -> arange1 (fun x => x) stop = []).
Proof. intros H. assert (E : (-3 <= 0)%Z) by lia; discriminate (H _ E). Qed.
Print Assumptions C26_arange1_negative_refuted.

Local Open Scope R_scope.
(** Floating start, stop and step, over the reals. *)
Theorem C26_arange_real : forall asserts start stop step, 0 < (stop - start) / step ->
  exists l n, arange_real asserts start stop step = Ok l /\
    INR n <= (stop - start) / step < INR n + 1 /\ rprogression start step n l.
Proof.
  intros asserts start stop step H. destruct (arange_real_ok asserts start stop step H) as (n & B & E).
  exists (map (fun i => start + INR i * step) (seq 0 n)), n. split; [exact E|]. split; [exact B|]. split.
  - rewrite map_length, seq_length. reflexivity.
  - intros i Hi. rewrite map_seq_nth by auto. reflexivity.
Qed.
Print Assumptions C26_arange_real.

(** linspace: [n] equally spaced values from [start]; with the end point, the last one is [stop].
    Missing: one value with the end point included. *)
Theorem C26_linspace_partial : forall asserts start stop n (includeEnd : bool),
  (0 < n)%nat -> (includeEnd = true -> (1 < n)%nat) ->
  exists l, linspace asserts start stop (Z.of_nat n) includeEnd = Ok (map Some l) /\
    rprogression start ((stop - start) / (INR n - if includeEnd then 1 else 0)) n l /\
    nth_error l 0 = Some start /\ (includeEnd = true -> nth_error l (n - 1) = Some stop).
Proof.
  intros asserts start stop n b H1 H2. destruct (linspace_ok asserts start stop n b H1 H2) as (l & E & L & P).
  exists l. split; auto. split; [split; auto|]. split.
  - rewrite P by auto. f_equal. cbn [INR]. lra.
  - intros ->. specialize (H2 eq_refl). rewrite P by lia. f_equal. rewrite minus_INR by lia.
    pose proof (lt_INR 1 n H2) as G. cbn [INR] in *. field. lra.
Qed.
Print Assumptions C26_linspace_partial.
Theorem C26_linspace_one_refuted :
  ~ (forall start stop n, (0 < n)%nat -> exists l, linspace true start stop (Z.of_nat n) true = Ok (map Some l)).
Proof.
  intros H. destruct (H 2 5 1%nat) as [l E]; [lia|]. change (Z.of_nat 1) with 1%Z in E. rewrite linspace_one in E.
  destruct l; discriminate E.
Qed.
Print Assumptions C26_linspace_one_refuted.
Theorem C26_linspace_int_refuted : linspace_int true 2 5 1 true = UB.
Proof. reflexivity. Qed.
Print Assumptions C26_linspace_int_refuted.
Theorem C26_linspace_rejects : forall asserts start stop n b, (n <= 0)%Z -> asserts = true ->
  linspace asserts start stop n b = Throw InvalidArgument.
Proof. intros asserts start stop n b H ->. unfold linspace. replace (0 <? n)%Z with false by lia. reflexivity. Qed.
Print Assumptions C26_linspace_rejects.
(** logspace: equally spaced logarithms. *)
Theorem C26_logspace_partial : forall asserts start stop n (includeEnd : bool),
  0 < start -> 0 < stop -> (0 < n)%nat -> (includeEnd = true -> (1 < n)%nat) ->
  exists l, logspace asserts start stop (Z.of_nat n) includeEnd = Ok (map Some l) /\ length l = n /\
    nth_error l 0 = Some start /\ (includeEnd = true -> nth_error l (n - 1) = Some stop) /\
    forall i, (i < n)%nat -> exists x, nth_error l i = Some x /\ 0 < x /\
      ln x = ln start + INR i * ((ln stop - ln start) / (INR n - if includeEnd then 1 else 0)).
Proof.
  intros asserts start stop n b P1 P2 H1 H2.
  destruct (logspace_ok asserts start stop n b P1 P2 H1 H2) as (l & E & L & P).
  exists l. split; auto. split; auto. split; [|split; [|exact P]].
  - destruct (P 0%nat H1) as (x & -> & X & Y). f_equal. apply ln_inv; auto. rewrite Y. cbn [INR]. lra.
  - intros ->. specialize (H2 eq_refl). destruct (P (n - 1)%nat) as (x & -> & X & Y); [lia|]. f_equal. apply ln_inv; auto.
    rewrite Y, minus_INR by lia. pose proof (lt_INR 1 n H2) as G. cbn [INR] in *. field. lra.
Qed.
Print Assumptions C26_logspace_partial.

Local Close Scope R_scope.
(** zeros, ones and ordered *)
Theorem C26_filled : forall A (s : list N) (x : A), (prod s < 2 ^ 64)%N ->
  fst (filled s x) = s /\ N.of_nat (length (snd (filled s x))) = prod s /\ Forall (eq x) (snd (filled s x)).
Proof.
  intros A s x H. cbn [filled fst snd]. split; auto. rewrite repeat_length, ShapeProofs.size_exact by auto. split; [lia|].
  apply Forall_forall. intros y Hy. symmetry. eapply repeat_spec; eauto.
Qed.
Print Assumptions C26_filled.
Example C26_filled_ex : filled [2; 3]%N 7 = ([2; 3]%N, [7; 7; 7; 7; 7; 7]) /\ (prod [2; 3] < 2 ^ 64)%N.
Proof. split; reflexivity. Qed.
Theorem C26_ordered : forall A (of_nat : nat -> A) (s : list N) idx, (prod s < 2 ^ 64)%N -> in_range idx s ->
  element s (snd (ordered of_nat s)) idx = Some (of_nat (N.to_nat (position idx s))).
Proof.
  intros A of_nat s idx H R. cbn [ordered snd]. unfold element. rewrite ShapeProofs.size_exact by auto.
  apply map_seq_nth. pose proof (ShapeProofs.position_lt _ _ R). lia.
Qed.
Print Assumptions C26_ordered.
Example C26_ordered_ex : ordered (fun n => 10 * n) [2; 2]%N = ([2; 2]%N, [0; 10; 20; 30]).
Proof. reflexivity. Qed.

Example C26_example :
  arange true to_int64 5 (-4) (-2) = Ok [5; 3; 1; -1]%Z /\ arange true to_int64 0 5 2 = Ok [0; 2]%Z /\
  arange true to_double (-2) 2 1 = Ok [18446744073709551614; 18446744073709551615; 0; 1]%Z /\
  in_range [1; 2]%N [2; 3]%N /\ (0 < Z.quot (-4 - 5) (-2))%Z.
Proof. repeat split; try reflexivity. repeat constructor. Qed.
Example C26_linspace_example : linspace_int true 0 10 6 true = Ok [0; 2; 4; 6; 8; 10]%Z.
Proof. reflexivity. Qed.

(** ** C27 *)
Theorem C27_comma : forall A asserts (vs data : list A), length vs <= length data ->
  exists new, comma asserts 0 vs data = (Ok tt, new) /\ overwritten vs data new.
Proof.
  intros A asserts vs data H. destruct (comma_ok asserts vs 0 data H) as (new & E & L & P).
  exists new. split; auto. split; auto. intros i. rewrite P. cbn [Nat.leb andb Nat.add]. rewrite Nat.sub_0_r. reflexivity.
Qed.
Print Assumptions C27_comma.
(** Too many values are reported when assertions are on; otherwise they are written out of bounds. *)
Theorem C27_too_many_partial : forall A (vs data : list A), length data < length vs ->
  fst (comma true 0 vs data) = Throw RuntimeError.
Proof. intros A vs data H. rewrite comma_overflow; auto; lia. Qed.
Print Assumptions C27_too_many_partial.
Example C27_too_many_ex : length [7; 8] < length [1; 2; 3] /\ comma true 0 [1; 2; 3] [7; 8] = (Throw RuntimeError, [1; 2]).
Proof. split; [repeat constructor|reflexivity]. Qed.
Theorem C27_too_many_refuted : ~ (forall A (vs data : list A), length data < length vs ->
  exists e, fst (comma false 0 vs data) = Throw e).
Proof. intros H. destruct (H nat [1; 2] [0]) as [e E]; [auto|discriminate E]. Qed.
Print Assumptions C27_too_many_refuted.
Example C27_example : comma true 0 [1; 2] [7; 8; 9] = (Ok tt, [1; 2; 9]).
Proof. reflexivity. Qed.
