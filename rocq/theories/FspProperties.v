(** C118: the product of a sparse matrix and a vector of float and double. *)
From Coq Require Import ZArith Reals List Lia Lra Bool.
From Flocq Require Import Core BinarySingleNaN.
From Verif Require Import Base MatmulModel MatmulSpec BlasModel BlasSpec TriModel TriSpec SymSpec CrsModel CrsSpec AccModel AccSpec NumModel NumBasics FspModel FspSpec FspProofs FstProofs.
From Coq Require Import ZifyNat ZifyN ZifyBool.
Ltac Zify.zify_post_hook ::= idtac.
Import ListNotations.
Local Open Scope R_scope.

Local Notation num64 := (binary_float 53 1024).
Local Notation dbl := (fint 53 1024 eq_refl eq_refl).
Local Notation values l := (map (fun k => B2SF (dbl k)) l).
Local Notation finite x := (is_finite x = true).

(** y := beta y + alpha M x: only y changes, and each element is within [product_error] of the exact product, however many entries its
    row has; nothing overflows as long as the moduli and that error stay below 2^(emax-2).  If beta is zero the old y may be anything. *)
Theorem C118_product : forall prec emax (Hp : Prec_gt_0 prec) (Hm : Prec_lt_emax prec emax), (24 <= prec)%Z -> (3 * prec + 8 <= emax)%Z ->
  forall (d : binary_float prec emax) t rows cols alpha beta a x y ia ja m, is_trans t = false -> compressed rows cols ia ja ->
  segment_inside m y rows -> segment_apart m x cols (segment y rows) -> segment_apart m a (first_of ia rows) (segment y rows) ->
  exists m', fgecrsmv prec emax Hp Hm t rows cols alpha a ia ja x beta y m = Ok m' /\ changes d m m' (segment y rows) /\
    forall i, (0 <= i < rows)%Z -> product_operands d a ia ja x m alpha beta y i ->
      product_moduli d a ia ja x m alpha beta y i + product_error d a ia ja x m alpha beta y i <= bpow radix2 (emax - 2) ->
      finite (val d m' (y + i)) /\
      Rabs (B2R (val d m' (y + i)) - exact_product d a ia ja x m cols alpha beta y i) <= product_error d a ia ja x m alpha beta y i.
Proof.
  intros prec emax Hp Hm P E d t rows cols alpha beta a x y ia ja m Et C Hy Hx Ha.
  destruct (fgecrsmv_run prec emax Hp Hm d t rows cols alpha beta a x y ia ja m Et C Hy Hx Ha) as (m' & K & H & V). exists m'. split; [exact K|]. split; [exact H|].
  intros i Hi HO W. eapply (product_accurate prec emax Hp Hm P E); eauto.
Qed.
Print Assumptions C118_product.
(** M = (1 0 2; 0 3 0), x = (10, 20, 30), y = (5, nan) and beta = 0; then beta = 2 and y = (5, 7) *)
Example C118_product_ex :
  match (fgecrsmv 53 1024 eq_refl eq_refl NoTrans 2 3 (dbl 2) 0 [1; 3; 4] [1; 3; 2] 3 (dbl 0) 6 [dbl 1; dbl 2; dbl 3; dbl 10; dbl 20; dbl 30; dbl 5; B754_nan])%Z with
    Ok m => map B2SF m = values [1; 2; 3; 10; 20; 30; 140; 120]%Z | _ => False end /\
  match (fgecrsmv 53 1024 eq_refl eq_refl NoTrans 2 3 (dbl 2) 0 [1; 3; 4] [1; 3; 2] 3 (dbl 2) 6 [dbl 1; dbl 2; dbl 3; dbl 10; dbl 20; dbl 30; dbl 5; dbl 7])%Z with
    Ok m => map B2SF m = values [1; 2; 3; 10; 20; 30; 150; 134]%Z | _ => False end.
Proof. vm_compute. split; reflexivity. Qed.

(** Integers: the result is exact as long as the moduli are at most 2^prec. *)
Theorem C118_integers : forall prec emax (Hp : Prec_gt_0 prec) (Hm : Prec_lt_emax prec emax), (24 <= prec)%Z -> (3 * prec + 8 <= emax)%Z ->
  forall (d : binary_float prec emax) t rows cols alpha beta a x y ia ja m, is_trans t = false -> compressed rows cols ia ja ->
  segment_inside m y rows -> segment_apart m x cols (segment y rows) -> segment_apart m a (first_of ia rows) (segment y rows) ->
  exists m', fgecrsmv prec emax Hp Hm t rows cols alpha a ia ja x beta y m = Ok m' /\ changes d m m' (segment y rows) /\
    forall i, (0 <= i < rows)%Z -> product_operands d a ia ja x m alpha beta y i -> integer_operands d a ia ja x m alpha beta y i ->
      product_moduli d a ia ja x m alpha beta y i <= bpow radix2 prec ->
      finite (val d m' (y + i)) /\ B2R (val d m' (y + i)) = exact_product d a ia ja x m cols alpha beta y i.
Proof.
  intros prec emax Hp Hm P E d t rows cols alpha beta a x y ia ja m Et C Hy Hx Ha.
  destruct (fgecrsmv_run prec emax Hp Hm d t rows cols alpha beta a x y ia ja m Et C Hy Hx Ha) as (m' & K & H & V). exists m'. split; [exact K|]. split; [exact H|].
  intros i Hi HO HI W. eapply (product_exact prec emax Hp Hm P E); eauto.
Qed.
Print Assumptions C118_integers.
(** The operands of the first line of (1 2) (3, 4) meet the conditions, and 1 * 3 + 2 * 4 = 11. *)
Example C118_integers_ex :
  let m := [dbl 1; dbl 2; dbl 3; dbl 4; B754_nan] in let op P := P (dbl 0) 0%Z [0; 2]%Z [0; 1]%Z 2%Z m (dbl 1) (dbl 0) 4%Z 0%Z : Prop in
  compressed 1 2 [0; 2]%Z [0; 1]%Z /\ segment_inside m 4 1 /\ segment_apart m 2 2 (segment 4 1) /\ segment_apart m 0 (first_of [0; 2]%Z 1) (segment 4 1) /\
  op product_operands /\ op integer_operands /\ product_moduli (dbl 0) 0 [0; 2]%Z [0; 1]%Z 2 m (dbl 1) (dbl 0) 4 0 = 11 /\
  exact_product (dbl 0) 0 [0; 2]%Z [0; 1]%Z 2 m 2 (dbl 1) (dbl 0) 4 0 = 11.
Proof.
  assert (V : forall k, (Z.abs k <= 2 ^ 53)%Z -> B2R (dbl k) = IZR k) by (intros k Hk; apply (fint_exact 53 1024 eq_refl eq_refl); exact Hk).
  assert (V0 := V 0%Z ltac:(lia)). assert (V1 := V 1%Z ltac:(lia)). assert (V2 := V 2%Z ltac:(lia)). assert (V3 := V 3%Z ltac:(lia)). assert (V4 := V 4%Z ltac:(lia)).
  assert (L : forall k, (0 <= k < 2)%Z -> k = 0%Z \/ k = 1%Z) by lia.
  assert (I : forall k : Z, integral (IZR k)) by (intros k; now exists k).
  cbv zeta. split; [|split; [|split; [|split; [|split; [|split; [|split]]]]]].
  - split; [cbn; lia|]. split; [intros i Hi; replace i with 0%Z by lia; vm_compute; discriminate|]. intros k Hk. change (first_of [0; 2]%Z 1) with 2%Z in Hk. destruct (L k Hk) as [-> | ->]; vm_compute; repeat split; discriminate.
  - intros p Hp. unfold segment in Hp. cbn. lia.
  - intros p Hp. unfold segment in *. cbn. lia.
  - intros p Hp. unfold segment in *. change (first_of [0; 2]%Z 1) with 2%Z in Hp. cbn. lia.
  - split; [reflexivity|]. split; [reflexivity|]. split; [left; exact V0|]. intros q Hq. change (entries [0; 2]%Z 0) with 2%Z in Hq.
    assert (B : forall r, Rabs r <= 8 -> Rabs r <= bpow radix2 (1024 - 2)) by (intros r Hr; apply Rle_trans with (1 := Hr); change 8 with (bpow radix2 3); apply bpow_le; lia).
    destruct (L q Hq) as [-> | ->]; (split; [reflexivity|]); (split; [reflexivity|]); apply B.
    + change (Rabs (B2R (dbl 1) * B2R (dbl 1)) <= 8). rewrite V1, Rabs_pos_eq; lra.
    + change (Rabs (B2R (dbl 1) * B2R (dbl 2)) <= 8). rewrite V1, V2, Rabs_pos_eq; lra.
  - split; [rewrite V1; apply I|]. split; [rewrite V0; apply I|]. split; [exact (I 0%Z)|]. intros q Hq. change (entries [0; 2]%Z 0) with 2%Z in Hq.
    assert (B : forall r, Rabs r <= 8 -> Rabs r <= bpow radix2 53) by (intros r Hr; apply Rle_trans with (1 := Hr); change 8 with (bpow radix2 3); apply bpow_le; lia).
    destruct (L q Hq) as [-> | ->].
    + change (integral (B2R (dbl 1)) /\ integral (B2R (dbl 3)) /\ Rabs (B2R (dbl 1) * B2R (dbl 1)) <= bpow radix2 53). rewrite V1, V3.
      split; [apply I|]. split; [apply I|]. apply B. rewrite Rabs_pos_eq; lra.
    + change (integral (B2R (dbl 2)) /\ integral (B2R (dbl 4)) /\ Rabs (B2R (dbl 1) * B2R (dbl 2)) <= bpow radix2 53). rewrite V1, V2, V4.
      split; [apply I|]. split; [apply I|]. apply B. rewrite Rabs_pos_eq; lra.
  - change (Rabs (B2R (dbl 0) * 0) + (0 + Rabs (B2R (dbl 1) * B2R (dbl 1) * B2R (dbl 3)) + Rabs (B2R (dbl 1) * B2R (dbl 2) * B2R (dbl 4))) = 11).
    rewrite V0, V1, V2, V3, V4. rewrite !Rabs_pos_eq; lra.
  - change (B2R (dbl 0) * 0 + B2R (dbl 1) * (0 + (0 + B2R (dbl 1) + 0) * B2R (dbl 3) + (0 + 0 + B2R (dbl 2)) * B2R (dbl 4)) = 11).
    rewrite V0, V1, V2, V3, V4. lra.
Qed.

(** y := beta y + alpha M^T x: the same, with the stored entries of the column in place of those of the row. *)
Theorem C118_transposed : forall prec emax (Hp : Prec_gt_0 prec) (Hm : Prec_lt_emax prec emax), (24 <= prec)%Z -> (3 * prec + 8 <= emax)%Z ->
  forall (d : binary_float prec emax) t rows cols alpha beta a x y ia ja m, is_trans t = true -> (0 <= cols)%Z -> compressed rows cols ia ja ->
  segment_inside m y cols -> segment_apart m x rows (segment y cols) -> segment_apart m a (first_of ia rows) (segment y cols) ->
  exists m', fgecrsmv prec emax Hp Hm t rows cols alpha a ia ja x beta y m = Ok m' /\ changes d m m' (segment y cols) /\
    forall r, (0 <= r < cols)%Z -> transposed_operands d a ia ja x rows m alpha beta y r ->
      transposed_moduli d a ia ja x rows m alpha beta y r + transposed_error d a ia ja x rows m alpha beta y r <= bpow radix2 (emax - 2) ->
      finite (val d m' (y + r)) /\
      Rabs (B2R (val d m' (y + r)) - exact_transposed d a ia ja x rows m alpha beta y r) <= transposed_error d a ia ja x rows m alpha beta y r.
Proof.
  intros prec emax Hp Hm P E d t rows cols alpha beta a x y ia ja m Et Hc C Hy Hx Ha.
  destruct (transposed_run prec emax Hp Hm d t rows cols alpha beta a x y ia ja m Et Hc C Hy Hx Ha) as (m' & K & H & V). exists m'. split; [exact K|]. split; [exact H|].
  intros r Hr HO W. rewrite (V r Hr). apply (transposed_accurate prec emax Hp Hm P E d rows cols alpha beta a x y ia ja m r C); auto. intros p S. now apply Ha.
Qed.
Print Assumptions C118_transposed.
(** The matrix (1 0 2; 0 3 4) transposed times (10, 20): the entries of its last column are those at positions 1 and 3. *)
Example C118_transposed_ex :
  match (fgecrsmv 53 1024 eq_refl eq_refl Trans 2 3 (dbl 1) 0 [1; 3; 5] [1; 3; 2; 3] 4 (dbl 0) 6
    [dbl 1; dbl 2; dbl 3; dbl 4; dbl 10; dbl 20; B754_nan; dbl 7; dbl 8])%Z with Ok m => map B2SF m = values [1; 2; 3; 4; 10; 20; 10; 60; 100]%Z | _ => False end /\
  column_hits [1; 3; 5]%Z [1; 3; 2; 3]%Z 2 2 = [(0, 1); (1, 3)]%Z.
Proof. vm_compute. split; reflexivity. Qed.

(** C := beta C + alpha M B for matrices B and C kept by columns: the same for each element, and nothing but C changes. *)
Theorem C118_columns : forall prec emax (Hp : Prec_gt_0 prec) (Hm : Prec_lt_emax prec emax), (24 <= prec)%Z -> (3 * prec + 8 <= emax)%Z ->
  forall (d : binary_float prec emax) t rows n cols alpha beta a b ldb c ldc ia ja m, is_trans t = false -> (0 <= n)%Z -> compressed rows cols ia ja -> (rows <= ldc)%Z ->
  block_inside m ColMajor c ldc rows n -> block_apart m ColMajor b ldb cols n (block ColMajor c ldc rows n) ->
  segment_apart m a (first_of ia rows) (block ColMajor c ldc rows n) ->
  exists m', fgecrsmm prec emax Hp Hm t rows n cols alpha a ia ja b ldb beta c ldc m = Ok m' /\ changes d m m' (block ColMajor c ldc rows n) /\
    forall i j, (0 <= i < rows)%Z -> (0 <= j < n)%Z ->
      let x := (b + j * ldb)%Z in let y := (c + j * ldc)%Z in let r := entry d ColMajor c ldc m' i j in
      product_operands d a ia ja x m alpha beta y i ->
      (product_moduli d a ia ja x m alpha beta y i + product_error d a ia ja x m alpha beta y i <= bpow radix2 (emax - 2) ->
       finite r /\ Rabs (B2R r - exact_product d a ia ja x m cols alpha beta y i) <= product_error d a ia ja x m alpha beta y i) /\
      (integer_operands d a ia ja x m alpha beta y i -> product_moduli d a ia ja x m alpha beta y i <= bpow radix2 prec ->
       finite r /\ B2R r = exact_product d a ia ja x m cols alpha beta y i).
Proof.
  intros prec emax Hp Hm P E d t rows n cols alpha beta a b ldb c ldc ia ja m Et Hn C Hl Hc Hb Ha.
  destruct (fgecrsmm_run prec emax Hp Hm d t rows n cols alpha beta a b ldb c ldc ia ja m Et Hn C Hl Hc Hb Ha) as (m' & K & H & V). exists m'. split; [exact K|]. split; [exact H|].
  intros i j Hi Hj x y r HO. pose proof (columns_apart_segment prec emax m rows n cols b ldb c ldc j Hj Hb) as Hx. pose proof (stored_apart_segment prec emax m rows n a (first_of ia rows) c ldc j Hj Ha) as Ha'.
  split.
  - intros W. eapply (product_accurate prec emax Hp Hm P E); eauto.
  - intros HI W. eapply (product_exact prec emax Hp Hm P E); eauto.
Qed.
Print Assumptions C118_columns.
(** (1 2) times ((3, 4), (5, 6)) by columns, with beta = 1 and C = (100 200) *)
Example C118_columns_ex :
  match (fgecrsmm 53 1024 eq_refl eq_refl NoTrans 1 2 2 (dbl 1) 0 [0; 2] [0; 1] 2 2 (dbl 1) 6 1 [dbl 1; dbl 2; dbl 3; dbl 4; dbl 5; dbl 6; dbl 100; dbl 200])%Z with
    Ok m => map B2SF m = values [1; 2; 3; 4; 5; 6; 111; 217]%Z | _ => False end.
Proof. vm_compute. reflexivity. Qed.

(** The result does not depend on alpha = 0 being special: an infinite element of x that meets a stored entry spoils it, although
    alpha M x is zero for every finite x. *)
Theorem C118_alpha_zero_refuted : ~ (forall (d : num64) rows cols a x y ia ja m, compressed rows cols ia ja ->
  segment_inside m y rows -> segment_apart m x cols (segment y rows) -> segment_apart m a (first_of ia rows) (segment y rows) ->
  exists m', fgecrsmv 53 1024 eq_refl eq_refl NoTrans rows cols (dbl 0) a ia ja x (dbl 1) y m = Ok m' /\
    forall i, (0 <= i < rows)%Z -> finite (val d m (y + i)) -> finite (val d m' (y + i))).
Proof.
  intros H. set (m := [dbl 1; B754_infinity false; dbl 5]).
  destruct (H (dbl 0) 1 1 0 1 2 [0; 1] [0] m)%Z as (m' & E & V).
  - split; [cbn; lia|]. split; [intros i Hi; replace i with 0%Z by lia; vm_compute; discriminate|]. intros k Hk. change (first_of [0; 1]%Z 1) with 1%Z in Hk. replace k with 0%Z by lia. vm_compute. repeat split; discriminate.
  - intros p Hp. unfold segment in Hp. cbn. lia.
  - intros p Hp. unfold segment in *. cbn. lia.
  - intros p Hp. unfold segment in *. change (first_of [0; 1]%Z 1) with 1%Z in Hp. cbn. lia.
  - specialize (V 0%Z ltac:(lia) eq_refl). assert (N : is_finite (val (dbl 0) (match fgecrsmv 53 1024 eq_refl eq_refl NoTrans 1 1 (dbl 0) 0 [0; 1] [0] 1 (dbl 1) 2 m with Ok r => r | _ => [] end)%Z (2 + 0)) = false) by (vm_compute; reflexivity).
    rewrite E in N. rewrite N in V. discriminate V.
Qed.
Print Assumptions C118_alpha_zero_refuted.

(** Listing the entries of a row in another order describes the same matrix, but may give another result. *)
Theorem C118_order_refuted : ~ (forall (d : num64) rows cols a x y ia ja ja' m m1, compressed rows cols ia ja -> compressed rows cols ia ja' ->
  segment_inside m y rows -> segment_apart m x cols (segment y rows) -> segment_apart m a (first_of ia rows) (segment y rows) ->
  length m = length m1 -> (forall p, ~ segment a (first_of ia rows) p -> val d m p = val d m1 p) ->
  (forall i j, (0 <= i < rows)%Z -> (0 <= j < cols)%Z -> real_entry a ia ja m i j = real_entry a ia ja' m1 i j) ->
  forall r r', fgecrsmv 53 1024 eq_refl eq_refl NoTrans rows cols (dbl 1) a ia ja x (dbl 0) y m = Ok r ->
    fgecrsmv 53 1024 eq_refl eq_refl NoTrans rows cols (dbl 1) a ia ja' x (dbl 0) y m1 = Ok r' ->
    forall i, (0 <= i < rows)%Z -> B2SF (val d r (y + i)) = B2SF (val d r' (y + i))).
Proof.
  intros H. set (big := 9007199254740992%Z).
  set (m := [dbl big; dbl 1; dbl (- big); dbl 1; dbl 1; dbl 1; dbl 0]). set (m1 := [dbl big; dbl (- big); dbl 1; dbl 1; dbl 1; dbl 1; dbl 0]).
  assert (L : forall k, (0 <= k < 3)%Z -> k = 0%Z \/ k = 1%Z \/ k = 2%Z) by lia.
  assert (C : forall l, (l = [0; 1; 2] \/ l = [0; 2; 1])%Z -> compressed 1 3 [0; 3]%Z l).
  { intros l Hl. split; [cbn; lia|]. split; [intros i Hi; replace i with 0%Z by lia; vm_compute; discriminate|]. intros k Hk. change (first_of [0; 3]%Z 1) with 3%Z in Hk.
    destruct Hl as [-> | ->]; destruct (L k Hk) as [-> | [-> | ->]]; vm_compute; repeat split; discriminate. }
  pose proof (H (dbl 0) 1 3 0 3 6 [0; 3] [0; 1; 2] [0; 2; 1] m m1)%Z as K. clear H.
  assert (K' : forall r r', fgecrsmv 53 1024 eq_refl eq_refl NoTrans 1 3 (dbl 1) 0 [0; 3]%Z [0; 1; 2]%Z 3 (dbl 0) 6 m = Ok r ->
    fgecrsmv 53 1024 eq_refl eq_refl NoTrans 1 3 (dbl 1) 0 [0; 3]%Z [0; 2; 1]%Z 3 (dbl 0) 6 m1 = Ok r' -> B2SF (val (dbl 0) r 6) = B2SF (val (dbl 0) r' 6)).
  { intros r r' E1 E2. apply (K (C _ (or_introl eq_refl)) (C _ (or_intror eq_refl))) with (r := r) (r' := r') (i := 0%Z); auto; try lia; clear.
    - intros p Hp. unfold segment in Hp. cbn. lia.
    - intros p Hp. unfold segment in *. cbn. lia.
    - intros p Hp. unfold segment in *. change (first_of [0; 3]%Z 1) with 3%Z in Hp. cbn. lia.
    - intros p Hp. unfold segment in Hp. change (first_of [0; 3]%Z 1) with 3%Z in Hp. unfold val. destruct (Z_lt_le_dec p 0) as [N|N]; [now replace (Z.to_nat p) with O by lia|].
      destruct (Z.to_nat p) as [|[|[|k]]] eqn:Q; try lia. reflexivity.
    - intros i j Hi Hj. replace i with 0%Z by lia. assert (J : j = 0%Z \/ j = 1%Z \/ j = 2%Z) by lia. destruct J as [-> | [-> | ->]].
      + change (0 + B2R (dbl big) + 0 + 0 = 0 + B2R (dbl big) + 0 + 0). reflexivity.
      + change (0 + 0 + B2R (dbl 1) + 0 = 0 + 0 + 0 + B2R (dbl 1)). lra.
      + change (0 + 0 + 0 + B2R (dbl (- big)) = 0 + 0 + B2R (dbl (- big)) + 0). lra. }
  clear K. pose (R1 := fgecrsmv 53 1024 eq_refl eq_refl NoTrans 1 3 (dbl 1) 0 [0; 3]%Z [0; 1; 2]%Z 3 (dbl 0) 6 m).
  pose (R2 := fgecrsmv 53 1024 eq_refl eq_refl NoTrans 1 3 (dbl 1) 0 [0; 3]%Z [0; 2; 1]%Z 3 (dbl 0) 6 m1).
  assert (Q : match R1, R2 with Ok r, Ok r' => Is_true (negb (Beqb (val (dbl 0) r 6) (val (dbl 0) r' 6))) /\ finite (val (dbl 0) r 6) /\ finite (val (dbl 0) r' 6) | _, _ => False end)
    by (vm_compute; repeat split; reflexivity).
  fold R1 R2 in K'. destruct R1 as [r| |]; try contradiction; destruct R2 as [r'| |]; try contradiction. specialize (K' r r' eq_refl eq_refl). destruct Q as (Q & F1 & F2).
  apply B2SF_inj in K'. rewrite K' in Q. rewrite Beqb_refl in Q. destruct (val (dbl 0) r' 6); try discriminate F2; exact Q.
Qed.
Print Assumptions C118_order_refuted.
