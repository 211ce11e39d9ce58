(** Triangular products and systems with contiguous rows. *)
From Coq Require Import ZArith Ring_theory Ring Field_theory Field.
From Verif Require Import Base BaseProofs MatmulModel MatmulSpec BlasModel BlasSpec BlasProofs TriModel TriSpec TriProofs
  SymModel SymSpec SymProofs PackModel PackSpec PackLinear PackSolve.
From Coq Require Import ZifyNat ZifyN ZifyBool.
Ltac Zify.zify_post_hook ::= idtac.
Local Open Scope Z_scope.

Definition diag_kept (dg : diag) : bool := match dg with Unit => false | NonUnit => true end.
(** Row i keeps the columns lo(i), ..., lo(i) + len(i) - 1 at p(i), p(i) + 1, ...; its diagonal is at q(i),
    beside them. *)
Definition rowed (up : uplo) (kd : bool) (held : Z -> Z -> bool) (at_ : Z -> Z -> Z) (n : Z) (lo len p q : Z -> Z) : Prop :=
  forall i, 0 <= i < n ->
    (0 <= len i /\ 0 <= lo i /\ lo i + len i <= n) /\
    match up with Upper => lo i = i + 1 /\ p i = q i + 1 | Lower => lo i + len i = i /\ q i = p i + len i end /\
    (q i = at_ i i /\ held i i = kd) /\
    (forall k, 0 <= k < len i -> held i (lo i + k) = true /\ at_ i (lo i + k) = p i + k) /\
    (forall j, 0 <= j < n -> j <> i -> ~ lo i <= j < lo i + len i -> held i j = false).

Lemma op_row {A} (conj : A -> A) t M i j : is_trans t = false -> op conj t M i j = cj conj (is_conj t) (M i j).
Proof. destruct t; cbn; congruence. Qed.
Lemma op_column {A} (conj : A -> A) t M i j : is_trans t = true -> op conj t M i j = cj conj (is_conj t) (M j i).
Proof. destruct t; cbn; congruence. Qed.

Lemma up_dec (up : uplo) : {up = Upper} + {up = Lower}.
Proof. destruct up; auto. Qed.
Lemma dg_dec (dg : diag) : {dg = Unit} + {dg = NonUnit}.
Proof. destruct dg; auto. Qed.

Section Rowed.
Context {A : Type} (d zero one : A) (conj : A -> A).
Variables (up : uplo) (t : trans) (dg : diag) (n x inc : Z) (m : list A).
Variables (held : Z -> Z -> bool) (at_ : Z -> Z -> Z) (lo len p q : Z -> Z).
Hypothesis CJ : conjugate zero one conj.
Hypothesis Hrow : rowed up (diag_kept dg) held at_ n lo len p q.
Hypothesis Hap : held_apart held at_ m n n (in_vector x inc n).
Hypothesis Hinc : inc <> 0.
Hypothesis Hin : inside m x inc n.
Local Notation M := (triangular_of d zero one held at_ m).
Local Notation R := (op conj t M).
Local Notation c := (is_conj t).
Local Notation e := (elt x inc n).
Local Notation x0 := (start x inc n).
Local Notation V := (in_vector x inc n).
Lemma cj_zero b : cj conj b zero = zero.
Proof using CJ. destruct CJ, b; cbn; congruence. Qed.
Lemma cj_one b : cj conj b one = one.
Proof using CJ. destruct CJ, b; cbn; congruence. Qed.
Lemma M_strict i k : 0 <= i < n -> 0 <= k < len i -> M i (lo i + k) = val d m (p i + k).
Proof using Hrow. intros Hi Hk. destruct (Hrow i Hi) as (_ & _ & _ & H & _). destruct (H k Hk) as [H1 H2]. unfold triangular_of. now rewrite H1, H2. Qed.
Lemma M_none i j : 0 <= i < n -> 0 <= j < n -> j <> i -> ~ lo i <= j < lo i + len i -> M i j = zero.
Proof using Hrow.
  intros Hi Hj Ne N. destruct (Hrow i Hi) as (_ & _ & _ & _ & H). unfold triangular_of. rewrite (H j Hj Ne N). now replace (i =? j) with false by lia.
Qed.
Lemma M_diag i : 0 <= i < n -> M i i = match dg with Unit => one | NonUnit => val d m (q i) end.
Proof using Hrow. intros Hi. destruct (Hrow i Hi) as (_ & _ & [-> H] & _). unfold triangular_of. rewrite H, Z.eqb_refl. now destruct dg. Qed.
Lemma lo_len i : 0 <= i < n -> 0 <= len i /\ 0 <= lo i /\ lo i + len i <= n.
Proof using Hrow. intros Hi. now destruct (Hrow i Hi) as (H & _). Qed.
Lemma lo_side i k : 0 <= i < n -> 0 <= k < len i -> lo i + k <> i.
Proof using Hrow. intros Hi Hk. destruct (Hrow i Hi) as (_ & H & _). destruct up; lia. Qed.
Lemma M_side i j : 0 <= i < n -> 0 <= j < n -> match up with Upper => j < i | Lower => i < j end -> M i j = zero.
Proof using Hrow. intros Hi Hj Hs. apply M_none; try assumption; destruct (Hrow i Hi) as (_ & H & _); destruct up; lia. Qed.
Lemma at_strict i k : 0 <= i < n -> 0 <= k < len i -> 0 <= p i + k < Z.of_nat (length m) /\ ~ V (p i + k).
Proof using Hrow Hap.
  intros Hi Hk. destruct (Hrow i Hi) as (H0 & _ & _ & H & _). destruct (H k Hk) as [H1 <-]. apply Hap; [exact Hi|lia|exact H1].
Qed.
Lemma at_diag i : 0 <= i < n -> dg = NonUnit -> 0 <= q i < Z.of_nat (length m) /\ ~ V (q i).
Proof using Hrow Hap. intros Hi E. destruct (Hrow i Hi) as (_ & _ & [-> H] & _). rewrite E in H. now apply Hap. Qed.
Lemma inside_now s : changes d m s V -> inside s x inc n.
Proof using Hin. intros [L _] i Hi. rewrite L. now apply Hin. Qed.
Lemma val_now s w : changes d m s V -> 0 <= w < Z.of_nat (length m) /\ ~ V w -> 0 <= w < Z.of_nat (length s) /\ val d s w = val d m w.
Proof using Type. intros [L H] [H1 H2]. rewrite L. split; [exact H1|]. now apply H. Qed.

Lemma load_x s i : changes d m s V -> 0 <= i < n -> load s (x0 + i * inc) = Ok (val d s (e i)).
Proof using Hin. intros Cs Hi. rewrite start_elt. apply load_ok. now apply inside_now. Qed.
Section Semi.
Variables (add mul : A -> A -> A).
Hypothesis SR : semi_ring_theory zero one add mul eq.
Local Notation zs := (zsum zero add).
Lemma strict_dot i s : 0 <= i < n -> changes d m s V -> is_trans t = false ->
  dot_gen zero add mul conj c (len i) (p i) 1 (x0 + lo i * inc) inc s = Ok (zs n (fun j => mul (off zero R i j) (val d s (e j)))).
Proof using SR CJ Hrow Hap Hin.
  intros Hi Cs Ht. apply (seg_dot d zero one add mul SR conj n x inc c (len i) (p i) (lo i) s (fun j => off zero R i j)).
  - now apply inside_now.
  - intros k Hk. pose proof (lo_len i Hi). split; [lia|]. destruct (val_now s (p i + k) Cs (at_strict i k Hi Hk)) as [H1 H2].
    split; [exact H1|]. unfold off. pose proof (lo_side i k Hi Hk). replace (i =? lo i + k) with false by lia. rewrite (op_row conj t) by exact Ht. now rewrite M_strict, H2.
  - intros j Hj N. unfold off. destruct (i =? j) eqn:E; [reflexivity|]. rewrite (op_row conj t) by exact Ht. rewrite M_none; [apply cj_zero|exact Hi|exact Hj|lia|exact N].
  - reflexivity.
Qed.
Lemma full_dot i s : 0 <= i < n -> changes d m s V -> is_trans t = false -> dg = NonUnit ->
  dot_gen zero add mul conj c (len i + 1) (match up with Upper => q i | Lower => p i end) 1
    (x0 + (match up with Upper => i | Lower => lo i end) * inc) inc s = Ok (zs n (fun j => mul (R i j) (val d s (e j)))).
Proof using SR CJ Hrow Hap Hin.
  intros Hi Cs Ht Hd. pose proof (lo_len i Hi) as HL. destruct (Hrow i Hi) as (_ & HU & _).
  assert (Dg : R i i = cj conj c (val d m (q i))) by (rewrite (op_row conj t) by exact Ht; rewrite M_diag, Hd by exact Hi; reflexivity).
  apply (seg_dot d zero one add mul SR conj n x inc c (len i + 1) (match up with Upper => q i | Lower => p i end)
    (match up with Upper => i | Lower => lo i end) s (fun j => R i j)).
  - now apply inside_now.
  - intros k Hk. destruct (up_dec up) as [Eu|Eu]; rewrite Eu in HU |- *.
    + split; [lia|]. destruct (Z.eq_dec k 0) as [->|Nk].
      * rewrite !Z.add_0_r. destruct (val_now s (q i) Cs (at_diag i Hi Hd)) as [H1 H2]. split; [exact H1|]. now rewrite H2.
      * replace (i + k) with (lo i + (k - 1)) by lia. replace (q i + k) with (p i + (k - 1)) by lia.
        destruct (val_now s (p i + (k - 1)) Cs (at_strict i (k - 1) Hi ltac:(lia))) as [H1 H2]. split; [exact H1|].
        rewrite (op_row conj t) by exact Ht. rewrite M_strict, H2; [reflexivity|exact Hi|lia].
    + split; [lia|]. destruct (Z.eq_dec k (len i)) as [->|Nk].
      * replace (lo i + len i) with i by lia. replace (p i + len i) with (q i) by lia.
        destruct (val_now s (q i) Cs (at_diag i Hi Hd)) as [H1 H2]. split; [exact H1|]. now rewrite H2.
      * destruct (val_now s (p i + k) Cs (at_strict i k Hi ltac:(lia))) as [H1 H2]. split; [exact H1|].
        rewrite (op_row conj t) by exact Ht. rewrite M_strict, H2; [reflexivity|exact Hi|lia].
  - intros j Hj N. rewrite (op_row conj t) by exact Ht. rewrite M_none; [apply cj_zero|exact Hi|exact Hj| |]; destruct (up_dec up) as [Eu|Eu]; rewrite Eu in *; lia.
  - reflexivity.
Qed.
Lemma column_axpy i al s : 0 <= i < n -> changes d m s V -> is_trans t = true ->
  exists s', axpy_gen add mul conj c (len i) al (p i) 1 (x0 + lo i * inc) inc s = Ok s' /\ changes d s s' V /\
    forall l, 0 <= l < n -> val d s' (e l) = if l =? i then val d s (e l) else add (val d s (e l)) (mul al (R l i)).
Proof using SR CJ Hrow Hap Hinc Hin.
  intros Hi Cs Ht.
  destruct (seg_axpy d zero one add mul SR conj n x inc m Hinc Hin c (len i) al (p i) (lo i) s (fun l => if l =? i then zero else R l i)) with (z := x0 + lo i * inc) as (s' & E & C & G).
  - exact Cs.
  - intros k Hk. pose proof (lo_len i Hi). split; [lia|]. split.
    + exact (at_strict i k Hi Hk).
    + pose proof (lo_side i k Hi Hk). replace (lo i + k =? i) with false by lia. rewrite (op_column conj t) by exact Ht. now rewrite M_strict.
  - intros l Hl N. destruct (l =? i) eqn:El; [reflexivity|]. rewrite (op_column conj t) by exact Ht. rewrite M_none; [apply cj_zero|exact Hi|exact Hl|lia|exact N].
  - reflexivity.
  - exists s'. split; [exact E|]. split; [exact C|]. intros l Hl. rewrite (G l Hl). destruct (l =? i); [|reflexivity].
    rewrite (SRmul_comm SR), (SRmul_0_l SR), (SRadd_comm SR). apply (SRadd_0_l SR).
Qed.
Local Notation multiplied := (multiplied d zero add mul n x inc m R).
(** x[i] = row i times x, or x[i] += its strict part *)
Definition dot_body (i : Z) (s : list A) : outcome (list A) :=
  match dg with
  | NonUnit => do r <- dot_gen zero add mul conj c (len i + 1) (match up with Upper => q i | Lower => p i end) 1
                        (x0 + (match up with Upper => i | Lower => lo i end) * inc) inc s; store s (x0 + i * inc) r
  | Unit => do r <- dot_gen zero add mul conj c (len i) (p i) 1 (x0 + lo i * inc) inc s; plus_at add s (x0 + i * inc) r
  end.
Definition axpy_body (i : Z) (s : list A) : outcome (list A) :=
  do u <- load s (x0 + i * inc);
  do s1 <- axpy_gen add mul conj c (len i) u (p i) 1 (x0 + lo i * inc) inc s;
  match dg with NonUnit => times_at mul conj c s1 (x0 + i * inc) (q i) | Unit => Ok s1 end.
Lemma R_diag i : 0 <= i < n -> R i i = match dg with Unit => one | NonUnit => cj conj c (val d m (q i)) end.
Proof using CJ Hrow.
  intros Hi. replace (R i i) with (cj conj c (M i i)) by (destruct (is_trans t) eqn:Ht; [now rewrite (op_column conj t)|now rewrite (op_row conj t)]).
  rewrite M_diag by exact Hi. destruct dg; [apply cj_one|reflexivity].
Qed.
Lemma dot_body_ok i s : 0 <= i < n -> changes d m s V -> is_trans t = false ->
  dot_body i s = store s (e i) (zs n (fun j => mul (R i j) (val d s (e j)))).
Proof using SR CJ Hrow Hap Hin.
  intros Hi Cs Ht. unfold dot_body. destruct (dg_dec dg) as [Ed|Ed]; rewrite Ed.
  - rewrite strict_dot by assumption. cbn [bind]. rewrite start_elt, (plus_at_ok d) by (apply inside_now; assumption).
    f_equal. rewrite (zsum_diag zero one add mul SR n R i) by exact Hi. f_equal.
    rewrite (R_diag i Hi), Ed. symmetry. apply (SRmul_1_l SR).
  - rewrite full_dot by assumption. cbn [bind]. now rewrite start_elt.
Qed.
Lemma times_at_ok b s w w' : 0 <= w < Z.of_nat (length s) -> 0 <= w' < Z.of_nat (length s) ->
  times_at mul conj b s w w' = store s w (mul (val d s w) (cj conj b (val d s w'))).
Proof using Type. intros H1 H2. unfold times_at. rewrite (load_ok d) by exact H1. cbn [bind]. rewrite (load_ok d) by exact H2. now destruct b. Qed.
Lemma axpy_body_ok i s : 0 <= i < n -> changes d m s V -> is_trans t = true ->
  exists s', axpy_body i s = Ok s' /\ changes d s s' V /\
    forall l, 0 <= l < n -> val d s' (e l) = if l =? i then mul (val d s (e i)) (R i i) else add (val d s (e l)) (mul (val d s (e i)) (R l i)).
Proof using SR CJ Hrow Hap Hinc Hin.
  intros Hi Cs Ht. unfold axpy_body. rewrite load_x by assumption. cbn [bind].
  destruct (column_axpy i (val d s (e i)) s Hi Cs Ht) as (s1 & E1 & C1 & V1). rewrite E1. cbn [bind].
  assert (C1' : changes d m s1 V) by (eapply changes_weaken; [|exact (changes_trans d _ _ _ _ _ Cs C1)]; cbv beta; tauto).
  pose proof (R_diag i Hi) as D. destruct (dg_dec dg) as [Ed|Ed]; rewrite Ed in D |- *.
  - exists s1. split; [reflexivity|]. split; [exact C1|]. intros l Hl. rewrite V1 by exact Hl. destruct (l =? i) eqn:El; [|reflexivity].
    replace l with i by lia. rewrite D, (SRmul_comm SR). symmetry. apply (SRmul_1_l SR).
  - destruct (val_now s1 (q i) C1' (at_diag i Hi Ed)) as [H1 H2].
    rewrite start_elt, times_at_ok; [|now apply inside_now|exact H1].
    destruct (store_ok d s1 (e i) (mul (val d s1 (e i)) (cj conj c (val d s1 (q i)))) (inside_now s1 C1' i Hi)) as (s2 & E2 & L2 & V2).
    exists s2. split; [exact E2|]. split.
    + eapply changes_weaken; [|apply (changes_trans d _ _ _ _ V C1)]; [cbv beta; intros w [Hw|Hw]; exact Hw|].
      split; [exact L2|]. intros w Hw N. rewrite V2 by exact Hw. destruct (w =? e i) eqn:Ew; [|reflexivity]. exfalso. apply N. exists i. split; [exact Hi|lia].
    + intros l Hl. rewrite V2 by now apply (inside_now s1 C1'). destruct (l =? i) eqn:El.
      * replace l with i by lia. rewrite Z.eqb_refl. rewrite (V1 i Hi), Z.eqb_refl. now rewrite D, H2.
      * replace (e l =? e i) with false. { rewrite (V1 l Hl), El. reflexivity. }
        symmetry. apply Z.eqb_neq. intros Q. apply elt_inj in Q; [lia|exact Hinc].
Qed.
(** the four loops *)
Lemma R_side i j : 0 <= i < n -> 0 <= j < n ->
  match up, is_trans t with Upper, false | Lower, true => j < i | Lower, false | Upper, true => i < j end -> R i j = zero.
Proof using CJ Hrow.
  intros Hi Hj Hs. destruct (is_trans t) eqn:Ht.
  - rewrite (op_column conj t) by exact Ht. rewrite M_side; [apply cj_zero|exact Hj|exact Hi|]. destruct up; exact Hs.
  - rewrite (op_row conj t) by exact Ht. rewrite M_side; [apply cj_zero|exact Hi|exact Hj|]. destruct up; exact Hs.
Qed.
Lemma mv_loop body : (forall i s, 0 <= i < n -> body (i * inc) i s = if is_trans t then axpy_body i s else dot_body i s) ->
  exists m', match up, is_trans t with
             | Upper, false | Lower, true => ascend n inc body m
             | Lower, false | Upper, true => descend n n inc body m
             end = Ok m' /\ multiplied m'.
Proof using SR CJ Hrow Hap Hinc Hin.
  intros Hb. pose proof R_side as HS. destruct (up_dec up) as [Eu|Eu]; rewrite Eu in HS |- *; destruct (is_trans t) eqn:Ht.
  - apply columns_descend with (one := one); [exact SR|exact Hin| |].
    + intros i s Hi Cs. rewrite Hb by exact Hi. now apply axpy_body_ok.
    + intros i j Hi Hj. apply HS; lia.
  - apply product_ascend with (one := one); [exact SR|exact Hinc|exact Hin| |].
    + intros i s Hi Cs. rewrite Hb by exact Hi. now apply dot_body_ok.
    + intros i j Hi Hj. apply HS; lia.
  - apply columns_ascend with (one := one); [exact SR|exact Hin| |].
    + intros i s Hi Cs. rewrite Hb by exact Hi. now apply axpy_body_ok.
    + intros i j Hi Hj. apply HS; lia.
  - apply product_descend with (one := one); [exact SR|exact Hinc|exact Hin| |].
    + intros i s Hi Cs. rewrite Hb by exact Hi. now apply dot_body_ok.
    + intros i j Hi Hj. apply HS; lia.
Qed.
End Semi.

Section Fielded.
Variables (add sub mul div : A -> A -> A) (opp inv : A -> A).
Hypothesis FT : field_theory zero one add mul sub opp div inv eq.
Add Field PackField2 : FT.
Let SR : semi_ring_theory zero one add mul eq := field_semi zero one add sub mul div opp inv FT.
Hypothesis Hinv : invertible zero conj n M.
Local Notation zs := (zsum zero add).
Local Notation solved := (solved d zero add mul n x inc m R).
Lemma R_nonzero i : 0 <= i < n -> R i i <> zero.
Proof using Hinv. intros Hi. destruct (Hinv i Hi) as [H1 H2]. destruct t; cbn [op]; assumption. Qed.
Lemma minus_at_ok s w r : 0 <= w < Z.of_nat (length s) -> minus_at sub s w r = store s w (sub (val d s w) r).
Proof using Type. intros H. unfold minus_at. now rewrite (load_ok d) by exact H. Qed.
Lemma over_at_ok b s w w' : 0 <= w < Z.of_nat (length s) -> 0 <= w' < Z.of_nat (length s) ->
  over_at div conj b s w w' = store s w (div (val d s w) (cj conj b (val d s w'))).
Proof using Type. intros H1 H2. unfold over_at. rewrite (load_ok d) by exact H1. cbn [bind]. rewrite (load_ok d) by exact H2. now destruct b. Qed.
Lemma div_one u : div u one = u.
Proof using FT. field. apply (F_1_neq_0 FT). Qed.
Definition dot_solve (i : Z) (s : list A) : outcome (list A) :=
  do r <- dot_gen zero add mul conj c (len i) (p i) 1 (x0 + lo i * inc) inc s;
  do s1 <- minus_at sub s (x0 + i * inc) r;
  match dg with NonUnit => over_at div conj c s1 (x0 + i * inc) (q i) | Unit => Ok s1 end.
Definition axpy_solve (i : Z) (s : list A) : outcome (list A) :=
  do s1 <- match dg with NonUnit => over_at div conj c s (x0 + i * inc) (q i) | Unit => Ok s end;
  do u <- load s1 (x0 + i * inc);
  axpy_gen add mul conj c (len i) (opp u) (p i) 1 (x0 + lo i * inc) inc s1.
Lemma dot_solve_ok i s : 0 <= i < n -> changes d m s V -> is_trans t = false ->
  dot_solve i s = store s (e i) (div (sub (val d s (e i)) (zs n (fun j => mul (off zero R i j) (val d s (e j))))) (R i i)).
Proof using FT CJ Hrow Hap Hinc Hin.
  intros Hi Cs Ht. unfold dot_solve. rewrite (strict_dot add mul SR) by assumption. cbn [bind]. rewrite start_elt.
  pose proof (inside_now s Cs i Hi) as P. rewrite minus_at_ok by exact P. pose proof (R_diag i Hi) as D.
  set (r := sub _ _). destruct (store_ok d s (e i) r P) as (s1 & E1 & L1 & V1). rewrite E1. cbn [bind]. destruct (dg_dec dg) as [Ed|Ed]; rewrite Ed in D |- *.
  - rewrite D, div_one. now rewrite E1.
  - destruct (at_diag i Hi Ed) as [Q1 Q2]. destruct (val_now s (q i) Cs (at_diag i Hi Ed)) as [H1 H2].
    rewrite over_at_ok by (rewrite L1; assumption). rewrite (store_store d s s1 (e i) r _ E1). f_equal.
    rewrite !V1 by assumption. rewrite Z.eqb_refl. replace (q i =? e i) with false; [now rewrite H2, D|].
    symmetry. apply Z.eqb_neq. intros Q. apply Q2. exists i. now split.
Qed.
Lemma axpy_solve_ok i s : 0 <= i < n -> changes d m s V -> is_trans t = true ->
  exists s', axpy_solve i s = Ok s' /\ changes d s s' V /\
    forall l, 0 <= l < n -> val d s' (e l) = if l =? i then div (val d s (e i)) (R i i) else sub (val d s (e l)) (mul (div (val d s (e i)) (R i i)) (R l i)).
Proof using FT CJ Hrow Hap Hinc Hin.
  intros Hi Cs Ht. unfold axpy_solve. pose proof (R_diag i Hi) as D. pose proof (inside_now s Cs i Hi) as P.
  assert (X : exists s1, match dg with NonUnit => over_at div conj c s (x0 + i * inc) (q i) | Unit => Ok s end = Ok s1 /\ changes d s s1 V /\
    forall l, 0 <= l < n -> val d s1 (e l) = if l =? i then div (val d s (e i)) (R i i) else val d s (e l)).
  { destruct (dg_dec dg) as [Ed|Ed]; rewrite Ed in D |- *.
    - exists s. split; [reflexivity|]. split; [apply changes_refl|]. intros l Hl. destruct (l =? i) eqn:El; [|reflexivity].
      replace l with i by lia. now rewrite D, div_one.
    - destruct (val_now s (q i) Cs (at_diag i Hi Ed)) as [H1 H2]. rewrite start_elt, over_at_ok by assumption. rewrite H2, <- D.
      destruct (store_ok d s (e i) (div (val d s (e i)) (R i i)) P) as (s1 & E1 & L1 & V1). exists s1. split; [exact E1|]. split.
      + split; [exact L1|]. intros w Hw N. rewrite V1 by exact Hw. destruct (w =? e i) eqn:Ew; [|reflexivity]. exfalso. apply N. exists i. split; [exact Hi|lia].
      + intros l Hl. rewrite V1 by now apply (inside_now s Cs). destruct (l =? i) eqn:El.
        * replace l with i by lia. now rewrite Z.eqb_refl.
        * replace (e l =? e i) with false; [reflexivity|]. symmetry. apply Z.eqb_neq. intros Q. apply elt_inj in Q; [lia|exact Hinc]. }
  destruct X as (s1 & E1 & C1 & V1). rewrite E1. cbn [bind].
  assert (C1' : changes d m s1 V) by (eapply changes_weaken; [|exact (changes_trans d _ _ _ _ _ Cs C1)]; cbv beta; tauto).
  rewrite load_x by assumption. cbn [bind].
  destruct (column_axpy add mul SR i (opp (val d s1 (e i))) s1 Hi C1' Ht) as (s2 & E2 & C2 & V2). exists s2. split; [exact E2|]. split.
  - eapply changes_weaken; [|exact (changes_trans d _ _ _ _ _ C1 C2)]; cbv beta; tauto.
  - intros l Hl. rewrite V2 by exact Hl. rewrite !V1 by assumption. rewrite Z.eqb_refl. destruct (l =? i); [reflexivity|]. ring.
Qed.
Lemma sv_loop body : (forall i s, 0 <= i < n -> body (i * inc) i s = if is_trans t then axpy_solve i s else dot_solve i s) ->
  exists m', match up, is_trans t with
             | Upper, false | Lower, true => descend n n inc body m
             | Lower, false | Upper, true => ascend n inc body m
             end = Ok m' /\ solved m'.
Proof using FT CJ Hrow Hap Hinc Hin Hinv.
  intros Hb. pose proof R_side as HS. pose proof R_nonzero as HN. destruct (up_dec up) as [Eu|Eu]; rewrite Eu in HS |- *; destruct (is_trans t) eqn:Ht.
  - eapply system_columns_ascend; [exact FT|exact Hin|exact HN| |].
    + intros i s Hi Cs. rewrite Hb by exact Hi. now apply axpy_solve_ok.
    + intros i j Hi Hj. apply HS; lia.
  - eapply system_descend; [exact FT|exact Hinc|exact Hin|exact HN| |].
    + intros i s Hi Cs. rewrite Hb by exact Hi. now apply dot_solve_ok.
    + intros i j Hi Hj. apply HS; lia.
  - eapply system_columns_descend; [exact FT|exact Hin|exact HN| |].
    + intros i s Hi Cs. rewrite Hb by exact Hi. now apply axpy_solve_ok.
    + intros i j Hi Hj. apply HS; lia.
  - eapply system_ascend; [exact FT|exact Hinc|exact Hin|exact HN| |].
    + intros i s Hi Cs. rewrite Hb by exact Hi. now apply dot_solve_ok.
    + intros i j Hi Hj. apply HS; lia.
Qed.
End Fielded.
End Rowed.
