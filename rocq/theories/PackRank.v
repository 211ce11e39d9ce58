(** Packed cells, and rank updates of packed matrices. *)
From Coq Require Import ZArith Ring_theory Ring.
From Verif Require Import Base BaseProofs MatmulModel MatmulSpec BlasModel BlasSpec BlasProofs TriModel TriSpec TriProofs
  SymModel SymSpec SymProofs PackModel PackSpec PackLinear PackSolve PackTri PackProofs PackSym.
From Coq Require Import ZifyNat ZifyN ZifyBool.
Ltac Zify.zify_post_hook ::= idtac.
Local Open Scope Z_scope.

(** ** Where packed entries are *)
Definition tri_num (i : Z) : Z := i * (i + 1) / 2.
Lemma tri_twice i : 2 * tri_num i = i * (i + 1).
Proof.
  unfold tri_num. pose proof (Z.div_mod (i * (i + 1)) 2 ltac:(lia)) as D.
  assert (E : (i * (i + 1)) mod 2 = 0).
  { pose proof (Z.div_mod i 2 ltac:(lia)) as Di. pose proof (Z.mod_pos_bound i 2 ltac:(lia)) as B. set (h := i / 2) in *. set (r := i mod 2) in *.
    assert (R : r = 0 \/ r = 1) by lia. rewrite Di. destruct R as [-> | ->].
    - replace ((2 * h + 0) * (2 * h + 0 + 1)) with ((h * (2 * h + 1)) * 2) by ring. apply Z.mod_mul. lia.
    - replace ((2 * h + 1) * (2 * h + 1 + 1)) with (((2 * h + 1) * (h + 1)) * 2) by ring. apply Z.mod_mul. lia. }
  lia.
Qed.
Lemma tri_next i : tri_num (i + 1) = tri_num i + i + 1.
Proof. pose proof (tri_twice i). pose proof (tri_twice (i + 1)). nia. Qed.
Lemma tri_mono i j : 0 <= i < j -> tri_num i + i + 1 <= tri_num j.
Proof. intros H. pose proof (tri_twice i). pose proof (tri_twice j). nia. Qed.
Lemma tri_pos i : 0 <= i -> 0 <= tri_num i.
Proof. intros H. pose proof (tri_twice i). nia. Qed.
Lemma lower_inj i j i' j' : 0 <= j <= i -> 0 <= j' <= i' -> tri_num i + j = tri_num i' + j' -> i = i' /\ j = j'.
Proof.
  intros H H' E. destruct (Z.lt_trichotomy i i') as [L|[->|L]].
  - pose proof (tri_mono i i' ltac:(lia)). lia.
  - lia.
  - pose proof (tri_mono i' i ltac:(lia)). lia.
Qed.
Lemma lower_range n i j : 0 <= j <= i -> i < n -> 0 <= tri_num i + j < tri_num n.
Proof. intros H Hn. pose proof (tri_mono i n ltac:(lia)). pose proof (tri_pos i ltac:(lia)). lia. Qed.
Lemma lower_onto n p : 0 <= n -> 0 <= p < tri_num n -> exists i j, 0 <= j <= i /\ i < n /\ p = tri_num i + j.
Proof.
  intros Hn. revert n Hn p. apply (natlike_ind (fun n => forall p, 0 <= p < tri_num n -> exists i j, 0 <= j <= i /\ i < n /\ p = tri_num i + j)).
  - intros p H. cbn in H. lia.
  - intros n Hn IH p H. unfold Z.succ in *. rewrite tri_next in H. destruct (Z_lt_ge_dec p (tri_num n)) as [L|L].
    + destruct (IH p ltac:(lia)) as (i & j & B & Bi & E). exists i, j. lia.
    + exists n, (p - tri_num n). lia.
Qed.
(** the upper rows, read backwards *)
Lemma upper_mirror n i j : i * (2 * n - i - 1) / 2 + j = tri_num n - 1 - (tri_num (n - 1 - i) + (n - 1 - j)).
Proof.
  assert (E : i * (2 * n - i - 1) / 2 = tri_num n - tri_num (n - 1 - i) - n).
  { pose proof (tri_twice n). pose proof (tri_twice (n - 1 - i)).
    replace (i * (2 * n - i - 1)) with ((tri_num n - tri_num (n - 1 - i) - n) * 2) by nia. apply Z.div_mul. lia. }
  lia.
Qed.
Definition packed_row_cell (up : uplo) (n i j : Z) : Z := match up with Upper => tri_num n - 1 - (tri_num (n - 1 - i) + (n - 1 - j)) | Lower => tri_num i + j end.
Lemma packed_row_eq up n a i j : packed_cell RowMajor up n a i j = a + packed_row_cell up n i j.
Proof. destruct up; cbn [packed_cell packed_row_cell]; [|unfold tri_num; lia]. pose proof (upper_mirror n i j). lia. Qed.
Lemma kept_bounds up i j : kept up NonUnit i j = true -> match up with Upper => i <= j | Lower => j <= i end.
Proof. unfold kept. destruct up; lia. Qed.
Lemma packed_row_inj up n a i j i' j' : 0 <= i < n -> 0 <= j < n -> 0 <= i' < n -> 0 <= j' < n ->
  kept up NonUnit i j = true -> kept up NonUnit i' j' = true -> packed_cell RowMajor up n a i j = packed_cell RowMajor up n a i' j' -> i = i' /\ j = j'.
Proof.
  intros Hi Hj Hi' Hj' K K'. apply kept_bounds in K. apply kept_bounds in K'. rewrite !packed_row_eq. destruct up; cbn [packed_row_cell]; intros E.
  - destruct (lower_inj (n - 1 - i) (n - 1 - j) (n - 1 - i') (n - 1 - j')); lia.
  - apply lower_inj; lia.
Qed.
Lemma packed_row_range up n a i j : 0 <= i < n -> 0 <= j < n -> kept up NonUnit i j = true ->
  a <= packed_cell RowMajor up n a i j < a + n * (n + 1) / 2.
Proof.
  intros Hi Hj K. apply kept_bounds in K. rewrite packed_row_eq. change (n * (n + 1) / 2) with (tri_num n). destruct up; cbn [packed_row_cell].
  - pose proof (lower_range n (n - 1 - i) (n - 1 - j)). lia.
  - pose proof (lower_range n i j). lia.
Qed.
Lemma packed_row_onto up n a p : 0 <= n -> a <= p < a + n * (n + 1) / 2 ->
  exists i j, 0 <= i < n /\ 0 <= j < n /\ kept up NonUnit i j = true /\ packed_cell RowMajor up n a i j = p.
Proof.
  intros Hn H. change (n * (n + 1) / 2) with (tri_num n) in H. destruct up.
  - destruct (lower_onto n (tri_num n - 1 - (p - a)) Hn ltac:(lia)) as (i & j & B & Bi & E). exists (n - 1 - i), (n - 1 - j).
    split; [lia|]. split; [lia|]. split; [unfold kept; lia|]. rewrite packed_row_eq. cbn [packed_row_cell].
    replace (n - 1 - (n - 1 - i)) with i by lia. replace (n - 1 - (n - 1 - j)) with j by lia. lia.
  - destruct (lower_onto n (p - a) Hn ltac:(lia)) as (i & j & B & Bi & E). exists i, j.
    split; [lia|]. split; [lia|]. split; [unfold kept; lia|]. rewrite packed_row_eq. cbn [packed_row_cell]. lia.
Qed.
Lemma packed_cells o up n a p : 0 <= n ->
  (a <= p < a + n * (n + 1) / 2 <-> exists i j, 0 <= i < n /\ 0 <= j < n /\ kept up NonUnit i j = true /\ packed_cell o up n a i j = p).
Proof.
  intros Hn. split.
  - intros H. destruct (packed_row_onto (row_uplo o up) n a p Hn H) as (i & j & Hi & Hj & K & E). destruct o; cbn [row_uplo] in *.
    + exists i, j. auto.
    + exists j, i. rewrite packed_flip. rewrite kept_other in K. auto.
  - intros (i & j & Hi & Hj & K & <-). rewrite (kept_turned o) in K. rewrite packed_turned. destruct o; cbn [turned] in *; now apply packed_row_range.
Qed.
Lemma packed_inj o up n a i j i' j' : 0 <= i < n -> 0 <= j < n -> 0 <= i' < n -> 0 <= j' < n ->
  kept up NonUnit i j = true -> kept up NonUnit i' j' = true -> packed_cell o up n a i j = packed_cell o up n a i' j' -> i = i' /\ j = j'.
Proof.
  intros Hi Hj Hi' Hj' K K' E. rewrite (kept_turned o) in K, K'. rewrite !packed_turned in E. destruct o; cbn [turned] in *.
  - exact (packed_row_inj (row_uplo RowMajor up) n a i j i' j' Hi Hj Hi' Hj' K K' E).
  - destruct (packed_row_inj (row_uplo ColMajor up) n a j i j' i' Hj Hi Hj' Hi' K K' E). auto.
Qed.

(** ** Rank updates *)
Definition pmem (ru : uplo) (n : Z) (p : Z * Z) : Prop := 0 <= fst p < n /\ 0 <= snd p < n /\ kept ru NonUnit (fst p) (snd p) = true.
Definition paddr (ru : uplo) (n a : Z) (p : Z * Z) : Z := packed_cell RowMajor ru n a (fst p) (snd p).
Definition ord (o : order) (i j : Z) : Z * Z := match o with RowMajor => (i, j) | ColMajor => (j, i) end.
Section Places.
Variables (o : order) (up : uplo) (n a : Z).
Local Notation ru := (row_uplo o up).
Local Notation mem := (pmem ru n).
Local Notation addr := (paddr ru n a).
Local Notation cells := (held_cells (kept up NonUnit) (packed_cell o up n a) n n).
Local Notation region := (region addr mem).
Lemma mem_bounds p : mem p -> 0 <= fst p < n /\ 0 <= snd p < n.
Proof using Type. intros (H1 & H2 & _). auto. Qed.
Lemma addr_inj p q : mem p -> mem q -> addr p = addr q -> p = q.
Proof using Type.
  destruct p as [i j], q as [i' j']. intros (H1 & H2 & H3) (H4 & H5 & H6) E. cbn [fst snd] in *.
  destruct (packed_row_inj ru n a i j i' j' H1 H2 H4 H5 H3 H6 E) as [-> ->]. reflexivity.
Qed.
Lemma mem_ord i j : 0 <= i < n -> 0 <= j < n -> kept up NonUnit i j = true -> mem (ord o i j) /\ addr (ord o i j) = packed_cell o up n a i j.
Proof using Type.
  intros Hi Hj K. rewrite (kept_turned o) in K. rewrite packed_turned. unfold pmem, paddr. destruct o; cbn [ord fst snd turned] in *; auto.
Qed.
Lemma region_cells w : region w <-> cells w.
Proof using Type.
  split.
  - intros ([i j] & (H1 & H2 & H3) & ->). cbn [fst snd] in *. unfold paddr. cbn [fst snd]. destruct o; cbn [row_uplo] in *.
    + exists i, j. auto.
    + exists j, i. rewrite packed_flip. rewrite kept_other in H3. auto.
  - intros (i & j & Hi & Hj & K & ->). destruct (mem_ord i j Hi Hj K) as [M E]. exists (ord o i j). auto.
Qed.
Lemma diagonal_place k : 0 <= k < n -> mem (k, k) /\
  match ru with Upper => a + (k + k * (2 * n - k - 1) / 2) | Lower => a + (k + k * (k + 1) / 2) end = addr (k, k).
Proof using Type.
  intros Hk. split; [split; [exact Hk|split; [exact Hk|]]; unfold kept; cbn [fst snd]; destruct ru; lia|].
  unfold paddr. cbn [fst snd]. destruct ru; cbn [packed_cell]; lia.
Qed.
End Places.
Section Rank.
Context {A : Type} (d zero one : A) (add mul : A -> A -> A) (conj : A -> A).
Hypothesis SR : semi_ring_theory zero one add mul eq.
Variables (o : order) (up : uplo) (n a : Z) (m : list A).
Hypothesis Hin : held_inside (kept up NonUnit) (packed_cell o up n a) m n n.
Local Notation ru := (row_uplo o up).
Local Notation mem := (pmem ru n).
Local Notation addr := (paddr ru n a).
Local Notation cells := (held_cells (kept up NonUnit) (packed_cell o up n a) n n).
Local Notation gain := (gain d add addr mem).
Local Notation region := (region addr mem).
Lemma addr_in p : mem p -> 0 <= addr p < Z.of_nat (length m).
Proof using Hin.
  destruct p as [i j]. intros (H1 & H2 & H3). cbn [fst snd] in *. unfold paddr. cbn [fst snd]. destruct o.
  - now apply Hin.
  - cbn [row_uplo] in *. rewrite <- packed_flip. apply Hin; try assumption. now rewrite <- kept_other.
Qed.
Local Notation fixed := (fixed addr mem m).
Lemma vector_fixed x incX : vector_apart m x incX n cells -> forall j, 0 <= j < n -> fixed (start x incX n + j * incX).
Proof using Type. intros H j Hj. rewrite start_elt. destruct (H j Hj) as [P N]. split; [exact P|]. intros Q. apply N. now apply (region_cells o up n a). Qed.
Lemma packed_row_gain c al x incX i s : 0 <= i < n -> changes d m s region -> vector_apart m x incX n cells ->
  exists s', packed_row add mul conj c ru n al (start x incX n) incX a i s = Ok s' /\
    gain (fun p => if fst p =? i then mul al (cj conj c (val d m (elt x incX n (snd p)))) else zero) s s'.
Proof using SR Hin.
  intros Hi Cs Hx. unfold packed_row.
  assert (X : forall lo cnt w, (forall j, mem (i, j) <-> lo <= j < lo + cnt) -> (forall k, 0 <= k < cnt -> addr (i, lo + k) = w + k) ->
    forall z, z = start x incX n + lo * incX -> exists s', axpy_gen add mul conj c cnt al z incX w 1 s = Ok s' /\
    gain (fun p => if fst p =? i then mul al (cj conj c (val d m (elt x incX n (snd p)))) else zero) s s').
  { intros lo cnt w H1 H2 z Ez.
    destruct (grid_row d zero one add mul SR conj n addr mem m (mem_bounds o up n) (addr_inj o up n a) addr_in c cnt al (start x incX n) incX i lo w s Hi Cs H1 H2 (vector_fixed x incX Hx) z Ez) as (s' & E & G).
    exists s'. split; [exact E|]. eapply gain_ext; [|exact G]. intros p _. cbv beta. now rewrite start_elt. }
  destruct ru eqn:Eu.
  - apply (X i); [| |reflexivity].
    + intros j. unfold pmem, kept. cbn [fst snd]. lia.
    + intros k Hk. unfold paddr. cbn [fst snd packed_cell]. rewrite half_upper. lia.
  - apply (X 0); [| |ring].
    + intros j. unfold pmem, kept. cbn [fst snd]. lia.
    + intros k Hk. unfold paddr. cbn [fst snd packed_cell]. lia.
Qed.
(** the rows together *)
Lemma whole_gain F m' : gain (fun p => F (fst p) (snd p)) m m' -> changes d m m' cells /\
  forall i j, 0 <= i < n -> 0 <= j < n -> kept up NonUnit i j = true ->
    val d m' (packed_cell o up n a i j) = add (val d m (packed_cell o up n a i j)) (match o with RowMajor => F i j | ColMajor => F j i end).
Proof using Hin.
  intros [C V]. split; [exact (changes_iff d _ _ _ _ (region_cells o up n a) C)|]. intros i j Hi Hj K. destruct (mem_ord o up n a i j Hi Hj K) as [M E].
  rewrite <- E, (V _ M). f_equal. now destruct o.
Qed.
Lemma packed_real_ok re F m1 : gain (fun p => F (fst p) (snd p)) m m1 ->
  exists m', packed_real re ru n a m1 = Ok m' /\ changes d m m' cells /\
  forall i j, 0 <= i < n -> 0 <= j < n -> kept up NonUnit i j = true ->
    val d m' (packed_cell o up n a i j) = (if i =? j then re else fun v => v)
      (add (val d m (packed_cell o up n a i j)) (match o with RowMajor => F i j | ColMajor => F j i end)).
Proof using Hin.
  intros G. destruct (grid_diagonal d n addr mem m (mem_bounds o up n) (addr_inj o up n a) addr_in re
    (fun i => match ru with Upper => a + (i + i * (2 * n - i - 1) / 2) | Lower => a + (i + i * (i + 1) / 2) end) m1) as (m' & E & C & V).
  - exact (diagonal_place o up n a).
  - apply G.
  - exists m'. split; [exact E|]. split.
    + apply (changes_iff d _ _ _ _ (region_cells o up n a)). apply (changes_then d addr mem m m1 m'); [apply G|exact C].
    + intros i j Hi Hj K. destruct (mem_ord o up n a i j Hi Hj K) as [M Ea]. rewrite <- Ea, (V _ M). destruct G as [_ G]. rewrite (G _ M).
      destruct o; cbn [ord fst snd]; [|rewrite (Z.eqb_sym j i)]; destruct (i =? j); reflexivity.
Qed.
End Rank.

Section Updates.
Context {A : Type} (d zero one : A) (add mul : A -> A -> A) (conj re : A -> A) (is_zero : A -> bool).
Hypothesis SR : semi_ring_theory zero one add mul eq.
Add Ring PackRing6 : SR.
Variables (o : order) (up : uplo) (n a : Z) (m : list A).
Hypothesis Hin : held_inside (kept up NonUnit) (packed_cell o up n a) m n n.
Local Notation ru := (row_uplo o up).
Local Notation mem := (pmem ru n).
Local Notation addr := (paddr ru n a).
Local Notation at_ := (packed_cell o up n a).
Local Notation cells := (held_cells (kept up NonUnit) at_ n n).
Local Notation gain := (gain d add addr mem).
Local Notation region := (region addr mem).
Variables (alpha : A) (x incX y incY : Z).
Hypothesis Hx : vector_apart m x incX n cells.
Local Notation xv i := (val d m (elt x incX n i)).
Local Notation yv i := (val d m (elt y incY n i)).
Lemma load_vec z incZ s i : vector_apart m z incZ n cells -> 0 <= i < n -> changes d m s region -> load s (start z incZ n + i * incZ) = Ok (val d m (elt z incZ n i)).
Proof using Type. intros H Hi Cs. rewrite <- start_elt. exact (fixed_load d _ _ _ _ _ (vector_fixed o up n a m z incZ H i Hi) Cs). Qed.
Lemma spr_ok : exists m', spr add mul conj o up n alpha x incX a m = Ok m' /\ changes d m m' cells /\
  forall i j, 0 <= i < n -> 0 <= j < n -> kept up NonUnit i j = true ->
    val d m' (at_ i j) = add (val d m (at_ i j)) (mul alpha (mul (xv i) (xv j))).
Proof using SR Hin Hx.
  unfold spr.
  destruct (grid_rows d zero one add mul SR n addr mem m (mem_bounds o up n) (fun i j => mul (mul alpha (xv i)) (xv j))
    (fun i m => do u <- load m (start x incX n + i * incX); packed_row add mul conj false ru n (mul alpha u) (start x incX n) incX a i m) m) as (m' & E & G).
  - apply changes_refl.
  - intros i s Hi Cs. rewrite (load_vec x incX s i Hx Hi Cs). cbn [bind].
    destruct (packed_row_gain d zero one add mul conj SR o up n a m Hin false (mul alpha (xv i)) x incX i s Hi Cs Hx) as (s' & E & G). now exists s'.
  - apply (whole_gain d add o up n a m Hin (fun i j => mul (mul alpha (xv i)) (xv j))) in G. destruct G as [C V]. exists m'. split; [exact E|]. split; [exact C|].
    intros i j Hi Hj K. rewrite V by assumption. f_equal. destruct o; ring.
Qed.
Lemma hpr_ok : is_zero alpha = false ->
  exists m', hpr add mul conj re is_zero o up n alpha x incX a m = Ok m' /\ changes d m m' cells /\
  forall i j, 0 <= i < n -> 0 <= j < n -> kept up NonUnit i j = true ->
    val d m' (at_ i j) = (if i =? j then re else fun v => v) (add (val d m (at_ i j)) (mul alpha (mul (xv i) (conj (xv j))))).
Proof using SR Hin Hx.
  intros Hz. unfold hpr. rewrite Hz.
  destruct (grid_rows d zero one add mul SR n addr mem m (mem_bounds o up n) (fun i j => mul (mul alpha (cj conj (row_conj o) (xv i))) (cj conj (negb (row_conj o)) (xv j)))
    (fun i m => do u <- load m (start x incX n + i * incX);
       if row_conj o then packed_row add mul conj false ru n (mul alpha (conj u)) (start x incX n) incX a i m
       else packed_row add mul conj true ru n (mul alpha u) (start x incX n) incX a i m) m) as (m1 & E & G).
  - apply changes_refl.
  - intros i s Hi Cs. rewrite (load_vec x incX s i Hx Hi Cs). cbn [bind].
    destruct (packed_row_gain d zero one add mul conj SR o up n a m Hin (negb (row_conj o)) (mul alpha (cj conj (row_conj o) (xv i))) x incX i s Hi Cs Hx) as (s' & E & G).
    exists s'. split; [|exact G]. destruct o; exact E.
  - rewrite E. cbn [bind].
    destruct (packed_real_ok d add o up n a m Hin re (fun i j => mul (mul alpha (cj conj (row_conj o) (xv i))) (cj conj (negb (row_conj o)) (xv j))) m1 G) as (m' & E' & C & V).
    exists m'. split; [exact E'|]. split; [exact C|]. intros i j Hi Hj K. rewrite V by assumption. f_equal. f_equal. destruct o; cbn [row_conj negb cj]; ring.
Qed.
Hypothesis Hy : vector_apart m y incY n cells.
Lemma two_rows c al be i s : 0 <= i < n -> changes d m s region ->
  exists s1 s', packed_row add mul conj c ru n al (start y incY n) incY a i s = Ok s1 /\ load s1 (start y incY n + i * incY) = Ok (yv i) /\
    packed_row add mul conj c ru n be (start x incX n) incX a i s1 = Ok s' /\
    gain (fun p => if fst p =? i then add (mul al (cj conj c (yv (snd p)))) (mul be (cj conj c (xv (snd p)))) else zero) s s'.
Proof using SR Hin Hx Hy.
  intros Hi Cs.
  destruct (packed_row_gain d zero one add mul conj SR o up n a m Hin c al y incY i s Hi Cs Hy) as (s1 & E1 & G1).
  assert (C1 : changes d m s1 region) by (apply (changes_then d addr mem m s s1 Cs); apply G1).
  destruct (packed_row_gain d zero one add mul conj SR o up n a m Hin c be x incX i s1 Hi C1 Hx) as (s2 & E2 & G2).
  exists s1, s2. split; [exact E1|]. split; [now apply load_vec|]. split; [exact E2|].
  eapply gain_ext; [|exact (gain_trans d zero one add mul SR _ _ _ _ _ _ _ G1 G2)]. intros p _. cbv beta. apply (if_add zero one add mul SR).
Qed.
Lemma spr2_ok : exists m', spr2 add mul conj o up n alpha x incX y incY a m = Ok m' /\ changes d m m' cells /\
  forall i j, 0 <= i < n -> 0 <= j < n -> kept up NonUnit i j = true ->
    val d m' (at_ i j) = add (val d m (at_ i j)) (mul alpha (add (mul (xv i) (yv j)) (mul (yv i) (xv j)))).
Proof using SR Hin Hx Hy.
  unfold spr2.
  destruct (grid_rows d zero one add mul SR n addr mem m (mem_bounds o up n) (fun i j => add (mul (mul alpha (xv i)) (yv j)) (mul (mul alpha (yv i)) (xv j)))
    (fun i m => do u <- load m (start x incX n + i * incX);
      do m1 <- packed_row add mul conj false ru n (mul alpha u) (start y incY n) incY a i m;
      do v <- load m1 (start y incY n + i * incY);
      packed_row add mul conj false ru n (mul alpha v) (start x incX n) incX a i m1) m) as (m' & E & G).
  - apply changes_refl.
  - intros i s Hi Cs. rewrite (load_vec x incX s i Hx Hi Cs). cbn [bind].
    destruct (two_rows false (mul alpha (xv i)) (mul alpha (yv i)) i s Hi Cs) as (s1 & s' & E1 & El & E2 & G). exists s'. split; [|exact G].
    rewrite E1. cbn [bind]. rewrite El. exact E2.
  - apply (whole_gain d add o up n a m Hin (fun i j => add (mul (mul alpha (xv i)) (yv j)) (mul (mul alpha (yv i)) (xv j)))) in G. destruct G as [C V].
    exists m'. split; [exact E|]. split; [exact C|]. intros i j Hi Hj K. rewrite V by assumption. f_equal. destruct o; ring.
Qed.
Lemma hpr2_ok : is_zero alpha = false -> (forall u v, conj (mul u v) = mul (conj u) (conj v)) ->
  exists m', hpr2 add mul conj re is_zero o up n alpha x incX y incY a m = Ok m' /\ changes d m m' cells /\
  forall i j, 0 <= i < n -> 0 <= j < n -> kept up NonUnit i j = true ->
    val d m' (at_ i j) = (if i =? j then re else fun v => v)
      (add (val d m (at_ i j)) (add (mul alpha (mul (xv i) (conj (yv j)))) (mul (conj alpha) (mul (yv i) (conj (xv j)))))).
Proof using SR Hin Hx Hy.
  intros Hz CM. unfold hpr2. rewrite Hz.
  set (F := fun i j => if row_conj o then add (mul (conj (mul alpha (xv i))) (yv j)) (mul (mul alpha (conj (yv i))) (xv j))
                       else add (mul (mul alpha (xv i)) (conj (yv j))) (mul (mul (conj alpha) (yv i)) (conj (xv j)))).
  destruct (grid_rows d zero one add mul SR n addr mem m (mem_bounds o up n) F
    (fun i m => do u <- load m (start x incX n + i * incX);
      if row_conj o then
        do m1 <- packed_row add mul conj false ru n (conj (mul alpha u)) (start y incY n) incY a i m;
        do v <- load m1 (start y incY n + i * incY);
        packed_row add mul conj false ru n (mul alpha (conj v)) (start x incX n) incX a i m1
      else
        do m1 <- packed_row add mul conj true ru n (mul alpha u) (start y incY n) incY a i m;
        do v <- load m1 (start y incY n + i * incY);
        packed_row add mul conj true ru n (mul (conj alpha) v) (start x incX n) incX a i m1) m) as (m1 & E & G).
  - apply changes_refl.
  - intros i s Hi Cs. rewrite (load_vec x incX s i Hx Hi Cs). cbn [bind]. unfold F.
    destruct (two_rows (negb (row_conj o)) (if row_conj o then conj (mul alpha (xv i)) else mul alpha (xv i))
      (if row_conj o then mul alpha (conj (yv i)) else mul (conj alpha) (yv i)) i s Hi Cs) as (s1 & s' & E1 & El & E2 & G).
    exists s'. destruct (row_conj o); cbn [negb cj] in *; (split; [rewrite E1; cbn [bind]; rewrite El; exact E2|exact G]).
  - rewrite E. cbn [bind]. destruct (packed_real_ok d add o up n a m Hin re F m1 G) as (m' & E' & C & V).
    exists m'. split; [exact E'|]. split; [exact C|]. intros i j Hi Hj K. rewrite V by assumption. f_equal. f_equal. unfold F.
    destruct o; cbn [row_conj]; rewrite ?CM; ring.
Qed.
End Updates.
