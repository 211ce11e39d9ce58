(** Proofs for C118. *)
From Coq Require Import ZArith Reals List Lia Lra Bool.
From Flocq Require Import Core Relative Plus_error BinarySingleNaN.
From Verif Require Import Base BaseProofs MatmulModel MatmulSpec BlasModel BlasSpec BlasProofs TriModel TriSpec TriProofs SymSpec CrsModel CrsSpec CrsProofs
  AccModel AccSpec AccProofs NumModel NumSpec NumBasics NrmModel NrmFloat CsqModel CsqError GrtProofs FadModel FadSpec FadProofs SolProofs FspModel FspSpec.
From Coq Require Import ZifyNat ZifyN ZifyBool.
Ltac Zify.zify_post_hook ::= idtac.
Import ListNotations.

(** ** The loop, without laws *)
Section Cells.
Local Open Scope Z_scope.
Context {A : Type} (d : A).
Lemma put_cell (m s : list A) y len Y p v : segment_inside m y len -> holds d m y len s Y -> 0 <= p < len ->
  exists s', store s (y + p) v = Ok s' /\ holds d m y len s' (fun q => if q =? p then v else Y q).
Proof.
  intros Hy H Hp. destruct H as ((Ls & Hc) & HY). assert (I : 0 <= y + p < Z.of_nat (length s)) by (rewrite Ls; apply Hy; unfold segment; lia).
  destruct (store_ok d s (y + p) v I) as (s' & E & L & V). exists s'. split; [exact E|]. split.
  - split; [lia|]. intros q Hq N. rewrite V by lia. replace (q =? y + p) with false by (unfold segment in N; lia). now apply Hc.
  - intros q Hq. rewrite V by (rewrite Ls; apply Hy; unfold segment; lia). replace (y + q =? y + p) with (q =? p) by lia. destruct (q =? p); auto.
Qed.
Lemma get_cell (m s : list A) y len Y p : segment_inside m y len -> holds d m y len s Y -> 0 <= p < len -> load s (y + p) = Ok (Y p).
Proof.
  intros Hy ((Ls & Hc) & HY) Hp. rewrite (load_ok d) by (rewrite Ls; apply Hy; unfold segment; lia). f_equal. now apply HY.
Qed.
Lemma get_other (m s : list A) y len Y q : holds d m y len s Y -> 0 <= q < Z.of_nat (length m) -> ~ segment y len q -> load s q = Ok (val d m q).
Proof. intros ((L & H) & _) Hq N. rewrite (load_ok d) by lia. now rewrite H. Qed.
End Cells.
Section Run.
Local Open Scope Z_scope.
Context {A : Type} (add : A -> A -> A).
(** s, then one term after the other added *)
Fixpoint run (s : A) (T : Z -> A) (n : nat) : A := match n with O => s | S n' => add (run s T n') (T (Z.of_nat n')) end.
Lemma run_ext s s' T T' n : s = s' -> (forall q, 0 <= q < Z.of_nat n -> T q = T' q) -> run s T n = run s' T' n.
Proof. intros -> H. induction n as [|n IH]; [reflexivity|]. cbn [run]. rewrite IH by (intros; apply H; lia). now rewrite H by lia. Qed.
End Run.
Section Loop.
Local Open Scope Z_scope.
Context {A : Type} (d zero : A) (add mul : A -> A -> A) (conj : A -> A) (is_zero is_one : A -> bool).
Definition scaled (beta v : A) : A := if is_zero beta then zero else if is_one beta then v else mul v beta.

Lemma gecrsmv_plain t rows cols alpha a ia ja x beta y (m : list A) :
  is_trans t = false -> compressed rows cols ia ja ->
  segment_inside m y rows -> segment_apart m x cols (segment y rows) -> segment_apart m a (first_of ia rows) (segment y rows) ->
  exists m', gecrsmv zero add mul conj is_zero is_one t rows cols alpha a ia ja x beta y m = Ok m' /\ changes d m m' (segment y rows) /\
    forall i, 0 <= i < rows -> val d m' (y + i) =
      run add (scaled beta (val d m (y + i))) (fun q => let k := first_of ia i + q in
        mul (mul alpha ((if is_conj t then conj else fun v => v) (val d m (a + k)))) (val d m (x + place ia ja k))) (Z.to_nat (first_of ia (i + 1) - first_of ia i)).
Proof.
  intros Et C Hy Hx Ha. pose proof C as ((Hr & Hr2) & _). unfold gecrsmv. rewrite (load_ptr rows cols ia ja C) by lia. cbn [bind]. rewrite Et. cbv zeta.
  set (f := if is_conj t then conj else fun v => v).
  set (T := fun i q => let k := first_of ia i + q in mul (mul alpha (f (val d m (a + k)))) (val d m (x + place ia ja k))).
  set (R := fun r => run add (scaled beta (val d m (y + r))) (T r) (Z.to_nat (first_of ia (r + 1) - first_of ia r))).
  destruct (each_inv (fun i s => holds d m y rows s (fun r => if r <? i - 1 then R r else val d m (y + r)))
      1 (rows + 1) (fun i m =>
      do m1 <- rescale zero mul is_zero is_one beta (y + (i - 1)) m;
      do lo <- load ia (i - 1); do hi <- load ia i;
      each lo hi (fun k m => do j <- load ja (k - val 0 ia 0); add_term add mul alpha f (y + (i - 1)) (a + (k - val 0 ia 0)) (x + (j - val 0 ia 0)) m) m1) m) as (m' & E & H).
  - lia.
  - apply (holds_ext d m y rows m (fun r => val d m (y + r))); [|apply holds_start]. intros r Hrr. now replace (r <? 1 - 1) with false by lia.
  - intros i s Hi H. set (Y0 := fun r => if r <? i - 1 then R r else val d m (y + r)) in H.
    assert (RS : exists s1, rescale zero mul is_zero is_one beta (y + (i - 1)) s = Ok s1 /\
      holds d m y rows s1 (fun r => if r =? i - 1 then scaled beta (val d m (y + (i - 1))) else Y0 r)).
    { assert (Yi : Y0 (i - 1) = val d m (y + (i - 1))) by (unfold Y0; now replace (i - 1 <? i - 1) with false by lia).
      unfold rescale, scaled. destruct (is_zero beta); [|destruct (is_one beta)].
      - apply put_cell; auto; lia.
      - exists s. split; [reflexivity|]. apply (holds_ext d m y rows s Y0); [|exact H]. intros r Hrr. destruct (Z.eqb_spec r (i - 1)) as [->|]; auto.
      - rewrite (get_cell d m s y rows Y0 (i - 1) Hy H) by lia. cbn [bind]. rewrite Yi. apply put_cell; auto; lia. }
    destruct RS as (s1 & -> & H1). cbn [bind].
    rewrite (load_ptr rows cols ia ja C) by lia. cbn [bind]. rewrite (load_ptr rows cols ia ja C) by lia. cbn [bind].
    pose proof (first_mono rows cols ia ja C (i - 1) ltac:(lia)) as M. replace (i - 1 + 1) with i in M by lia. unfold first_of in M.
    set (S0 := scaled beta (val d m (y + (i - 1)))) in *.
    destruct (each_inv (fun k s => holds d m y rows s (fun r => if r =? i - 1 then run add S0 (T (i - 1)) (Z.to_nat (k - val 0 ia (i - 1))) else Y0 r))
      (val 0 ia (i - 1)) (val 0 ia i)
      (fun k m => do j <- load ja (k - val 0 ia 0); add_term add mul alpha f (y + (i - 1)) (a + (k - val 0 ia 0)) (x + (j - val 0 ia 0)) m) s1) as (s' & E & H').
    + lia.
    + apply (holds_ext d m y rows s1 _) with (2 := H1). intros r Hrr. rewrite Z.sub_diag. reflexivity.
    + intros k s2 Hk H2. assert (K : in_line ia (i - 1) (k - val 0 ia 0)) by (unfold in_line, first_of; replace (i - 1 + 1) with i by lia; lia).
      rewrite (load_idx rows cols ia ja C (i - 1) _ ltac:(lia) K). cbn [bind].
      pose proof (line_position rows cols ia ja C (i - 1) _ ltac:(lia) K) as K2. pose proof (line_place rows cols ia ja C (i - 1) _ ltac:(lia) K) as K3.
      destruct (Ha (a + (k - val 0 ia 0)) ltac:(unfold segment; lia)) as (A1 & A2). destruct (Hx (x + place ia ja (k - val 0 ia 0)) ltac:(unfold segment; lia)) as (X1 & X2).
      unfold add_term. rewrite (get_cell d m s2 y rows _ (i - 1) Hy H2) by lia. cbn [bind]. rewrite (get_other d m s2 y rows _ _ H2 A1 A2). cbn [bind].
      change (val 0 ja (k - val 0 ia 0) - val 0 ia 0) with (place ia ja (k - val 0 ia 0)). rewrite (get_other d m s2 y rows _ _ H2 X1 X2). cbn [bind].
      rewrite Z.eqb_refl.
      destruct (put_cell d m s2 y rows _ (i - 1) (add (run add S0 (T (i - 1)) (Z.to_nat (k - val 0 ia (i - 1))))
        (mul (mul alpha (f (val d m (a + (k - val 0 ia 0))))) (val d m (x + place ia ja (k - val 0 ia 0))))) Hy H2 ltac:(lia)) as (s3 & E3 & H3).
      exists s3. split; [exact E3|]. apply (holds_ext d m y rows s3 _) with (2 := H3). intros r Hrr. cbn beta. destruct (Z.eqb_spec r (i - 1)) as [Er|Er]; [|reflexivity].
      replace (Z.to_nat (k + 1 - val 0 ia (i - 1))) with (S (Z.to_nat (k - val 0 ia (i - 1)))) by lia. cbn [run]. f_equal. unfold T. cbv zeta.
      rewrite Z2Nat.id by lia. now replace (first_of ia (i - 1) + (k - val 0 ia (i - 1))) with (k - val 0 ia 0) by (unfold first_of; lia).
    + exists s'. split; [exact E|]. apply (holds_ext d m y rows s' _) with (2 := H'). intros r Hrr. cbn beta.
      destruct (Z.eqb_spec r (i - 1)) as [Er|Er].
      * replace (r <? i + 1 - 1) with true by lia. subst r. unfold R. replace (i - 1 + 1) with i by lia.
        now replace (first_of ia i - first_of ia (i - 1)) with (val 0 ia i - val 0 ia (i - 1)) by (unfold first_of; lia).
      * unfold Y0. now replace (r <? i + 1 - 1) with (r <? i - 1) by lia.
  - exists m'. split; [exact E|]. destruct H as (H1 & H2). split; [exact H1|]. intros r Hrr. rewrite H2 by exact Hrr.
    now replace (r <? rows + 1 - 1) with true by lia.
Qed.
(** every column of a matrix *)
Lemma gecrsmm_plain t rows n cols alpha a ia ja b ldb beta c ldc (m : list A) :
  is_trans t = false -> 0 <= n -> compressed rows cols ia ja -> rows <= ldc ->
  block_inside m ColMajor c ldc rows n -> block_apart m ColMajor b ldb cols n (block ColMajor c ldc rows n) ->
  segment_apart m a (first_of ia rows) (block ColMajor c ldc rows n) ->
  exists m', gecrsmm zero add mul conj is_zero is_one t rows n cols alpha a ia ja b ldb beta c ldc m = Ok m' /\ changes d m m' (block ColMajor c ldc rows n) /\
    forall i j, 0 <= i < rows -> 0 <= j < n -> val d m' (c + j * ldc + i) =
      run add (scaled beta (val d m (c + j * ldc + i))) (fun q => let k := first_of ia i + q in
        mul (mul alpha ((if is_conj t then conj else fun v => v) (val d m (a + k)))) (val d m (b + j * ldb + place ia ja k))) (Z.to_nat (first_of ia (i + 1) - first_of ia i)).
Proof.
  intros Et Hn C Hl Hc Hb Ha. pose proof C as ((Hr & _) & _). unfold gecrsmm. set (f := if is_conj t then conj else fun v => v).
  set (cells := block ColMajor c ldc rows n) in *.
  set (R := fun i j => run add (scaled beta (val d m (c + j * ldc + i))) (fun q => let k := first_of ia i + q in
        mul (mul alpha (f (val d m (a + k)))) (val d m (b + j * ldb + place ia ja k))) (Z.to_nat (first_of ia (i + 1) - first_of ia i))).
  assert (CC : forall j p, 0 <= j < n -> segment (c + j * ldc) rows p -> cells p) by (intros j p Hj S; exists (p - (c + j * ldc)), j; unfold segment in S; cbn [cell]; lia).
  assert (CI : forall j p, 0 <= j < n -> segment (c + j * ldc) rows p -> 0 <= p < Z.of_nat (length m)).
  { intros j p Hj S. unfold segment in S. specialize (Hc (p - (c + j * ldc)) j ltac:(lia) Hj). cbn [cell] in Hc. lia. }
  assert (CB : forall j p, 0 <= j < n -> segment (b + j * ldb) cols p -> 0 <= p < Z.of_nat (length m) /\ ~ cells p).
  { intros j p Hj S. unfold segment in S. specialize (Hb (p - (b + j * ldb)) j ltac:(lia) Hj). cbn [cell] in Hb. now replace (b + j * ldb + (p - (b + j * ldb))) with p in Hb by lia. }
  destruct (each_inv (fun q s => changes d m s cells /\ forall i j, 0 <= i < rows -> 0 <= j < n -> val d s (c + j * ldc + i) = if j <? q then R i j else val d m (c + j * ldc + i))
    0 n (fun i s => gecrsmv zero add mul conj is_zero is_one t rows cols alpha a ia ja (b + i * ldb) beta (c + i * ldc) s) m Hn) as (m' & E & H1 & H2).
  - split; [apply changes_refl|]. intros i j Hi Hj. now replace (j <? 0) with false by lia.
  - intros q s Hq ((L & H1) & H2).
    destruct (gecrsmv_plain t rows cols alpha a ia ja (b + q * ldb) beta (c + q * ldc) s Et C) as (s' & E & C' & V).
    + intros p S. rewrite L. now apply (CI q).
    + intros p S. rewrite L. destruct (CB q p Hq S) as (B1 & B2). split; [exact B1|]. intros S'. apply B2. now apply (CC q).
    + intros p S. rewrite L. destruct (Ha p S) as (B1 & B2). split; [exact B1|]. intros S'. apply B2. now apply (CC q).
    + exists s'. split; [exact E|]. destruct C' as (L' & C'). split.
      * split; [lia|]. intros p Hp N. rewrite C', H1; auto; [lia|]. intros S. apply N. now apply (CC q).
      * intros i j Hi Hj. destruct (Z.eqb_spec j q) as [->|Nq].
        -- replace (q <? q + 1) with true by lia. rewrite V by exact Hi. unfold R. apply run_ext.
           ++ f_equal. rewrite H2 by auto. now replace (q <? q) with false by lia.
           ++ intros r Hrr. cbv zeta. pose proof (line_position rows cols ia ja C i (first_of ia i + r) Hi ltac:(unfold in_line; lia)) as K2.
              pose proof (line_place rows cols ia ja C i (first_of ia i + r) Hi ltac:(unfold in_line; lia)) as K3.
              destruct (Ha (a + (first_of ia i + r)) ltac:(unfold segment; lia)) as (A1 & A2). destruct (CB q (b + q * ldb + place ia ja (first_of ia i + r)) Hq ltac:(unfold segment; lia)) as (B1 & B2).
              rewrite (H1 _ A1 A2), (H1 _ B1 B2). reflexivity.
        -- replace (j <? q + 1) with (j <? q) by lia. rewrite <- H2 by auto. apply C'.
           ++ rewrite L. apply (CI j); [exact Hj|unfold segment; lia].
           ++ intros (S1 & S2). destruct (Z_lt_ge_dec q j) as [G|G].
              ** assert ((q + 1) * ldc <= j * ldc) by (apply Z.mul_le_mono_nonneg_r; lia). lia.
              ** assert ((j + 1) * ldc <= q * ldc) by (apply Z.mul_le_mono_nonneg_r; lia). lia.
  - exists m'. split; [exact E|]. split; [exact H1|]. intros i j Hi Hj. rewrite H2 by auto. now replace (j <? n) with true by lia.
Qed.
End Loop.

Local Open Scope R_scope.
(** ** The exact product as a sum over the stored entries *)
Local Notation rs := (zsum 0 Rplus).
Lemma real_val {prec emax} (d : binary_float prec emax) m p : (0 <= p < Z.of_nat (length m))%Z -> val 0 (map B2R m) p = B2R (val d m p).
Proof. intros H. unfold val. rewrite (nth_indep _ 0 (B2R d)) by (rewrite map_length; lia). apply map_nth. Qed.
Lemma exact_terms {prec emax} (d : binary_float prec emax) a ia ja x m rows cols alpha beta y i :
  compressed rows cols ia ja -> segment_inside m a (first_of ia rows) -> segment_inside m x cols -> (0 <= i < rows)%Z ->
  exact_product d a ia ja x m cols alpha beta y i =
  B2R beta * B2R (val d m (y + i)) + rs (entries ia i) (fun q => B2R alpha * nth_entry d a ia m i q * nth_factor d ia ja x m i q).
Proof.
  intros C Ha Hx Hi. unfold exact_product. f_equal. unfold real_entry, entries.
  assert (Z0 : forall v, (if Req_EM_T v 0 then true else false) = true <-> v = 0) by (intros v; destruct (Req_EM_T v 0); split; auto; discriminate).
  assert (O1 : forall v, (if Req_EM_T v 1 then true else false) = true <-> v = 1) by (intros v; destruct (Req_EM_T v 1); split; auto; discriminate).
  rewrite <- (line_sum 0 0 1 Rplus Rmult (fun v => v) (fun v => v) _ _ R_semi Z0 O1 (map B2R m) a rows cols ia ja C i (B2R alpha) (fun _ v => v) (fun j => B2R (val d m (x + j))) Hi).
  - apply zsum_ext. intros q Hq. cbv zeta. unfold nth_entry, nth_factor. f_equal. f_equal. apply real_val. apply Ha. unfold segment.
    pose proof (line_position rows cols ia ja C i (first_of ia i + q) Hi ltac:(unfold in_line; lia)). lia.
  - intros j. split; [reflexivity|]. intros; reflexivity.
Qed.

Lemma sum_pos n (g : Z -> R) : (forall k, 0 <= g k) -> 0 <= rs (Z.of_nat n) g.
Proof.
  intros G. induction n as [|n IH]; [rewrite zsum_nonpos by lia; lra|]. replace (Z.of_nat (S n)) with (Z.of_nat n + 1)%Z by lia. rewrite zsum_S by lia. specialize (G (Z.of_nat n)). lra.
Qed.
Lemma sum_next n (g : Z -> R) : rs (Z.of_nat (S n)) g = rs (Z.of_nat n) g + g (Z.of_nat n).
Proof. replace (Z.of_nat (S n)) with (Z.of_nat n + 1)%Z by lia. apply zsum_S. lia. Qed.
Lemma abs_sum e0 (q : Z -> R) n : Rabs (e0 + rs (Z.of_nat n) q) <= Rabs e0 + rs (Z.of_nat n) (fun k => Rabs (q k)).
Proof.
  induction n as [|n IH]; [rewrite !zsum_nonpos by lia; rewrite !Rplus_0_r; lra|]. rewrite !sum_next.
  replace (e0 + (rs (Z.of_nat n) q + q (Z.of_nat n))) with (e0 + rs (Z.of_nat n) q + q (Z.of_nat n)) by ring.
  pose proof (Rabs_triang (e0 + rs (Z.of_nat n) q) (q (Z.of_nat n))). lra.
Qed.

(** ** Values *)
Section Float.
Variables prec emax : Z.
Context (Hp : Prec_gt_0 prec) (Hm : Prec_lt_emax prec emax).
Hypothesis (P24 : (24 <= prec)%Z) (PE : (3 * prec + 8 <= emax)%Z).
Local Notation num := (binary_float prec emax).
Local Notation fadd := (fadd prec emax Hp Hm).
Local Notation fmul := (fmul prec emax Hp Hm).
Local Notation rn := (nearest prec emax).
Local Notation u := (unit_roundoff prec).
Local Notation eta := (underflow_unit prec emax).

Lemma term_value (alpha x y : num) : is_finite alpha = true -> is_finite x = true -> is_finite y = true ->
  Rabs (B2R alpha * B2R x) <= bpow radix2 (emax - 2) -> let q := B2R alpha * B2R x * B2R y in Rabs q <= bpow radix2 (emax - 2) ->
  is_finite (fmul (fmul alpha x) y) = true /\ Rabs (B2R (fmul (fmul alpha x) y) - q) <= 3 * u * Rabs q + 2 * (1 + Rabs (B2R y)) * eta.
Proof.
  intros F1 F2 F3 B1 q W. pose proof (u_ok prec P24) as U. pose proof (eta_ok prec emax P24 PE) as E. pose proof (twice emax) as T. pose proof (large prec emax P24 PE) as L.
  destruct (product prec emax Hp Hm P24 PE alpha x F1 F2 B1) as [G1 V1]. set (p := fmul alpha x) in *. set (t := B2R alpha * B2R x) in *.
  assert (QE : q = t * B2R y) by reflexivity. clearbody q. pose proof (Rabs_pos q) as Q0. pose proof (Rabs_pos (B2R y)) as Y0.
  assert (PQ : Rabs (B2R p * B2R y - q) <= u * Rabs q + eta * Rabs (B2R y)).
  { rewrite QE. replace (B2R p * B2R y - t * B2R y) with ((B2R p - t) * B2R y) by ring. rewrite !Rabs_mult.
    apply Rle_trans with ((u * Rabs t + eta) * Rabs (B2R y)); [apply Rmult_le_compat_r; auto|right; ring]. }
  assert (EY : 0 <= eta * Rabs (B2R y) <= / 1024).
  { split; [apply Rmult_le_pos; lra|]. apply Rle_trans with (eta * bpow radix2 emax); [apply Rmult_le_compat_l; [lra|left; apply abs_B2R_lt_emax]|].
    rewrite eta_pow, <- bpow_plus. change (/ 1024) with (bpow radix2 (-10)). apply bpow_le. lia. }
  assert (UQ : 0 <= u * Rabs q <= / 1048576 * Rabs q) by (split; [apply Rmult_le_pos; lra|apply Rmult_le_compat_r; lra]).
  assert (PB : Rabs (B2R p * B2R y) <= Rabs q + (u * Rabs q + eta * Rabs (B2R y))).
  { replace (B2R p * B2R y) with ((B2R p * B2R y - q) + q) by ring. eapply Rle_trans; [apply Rabs_triang|]. lra. }
  destruct (fmul_small prec emax Hp Hm p y G1 F3) as [G2 V2]; [apply (fit prec emax Hp P24 PE); lra|]. split; [exact G2|].
  pose proof (rn_rel prec emax Hp (B2R p * B2R y)) as RR. rewrite <- V2 in RR.
  assert (UP : u * Rabs (B2R p * B2R y) <= u * (Rabs q + (u * Rabs q + eta * Rabs (B2R y)))) by (apply Rmult_le_compat_l; lra).
  assert (UU : u * (u * Rabs q) <= / 1048576 * (u * Rabs q)) by (apply Rmult_le_compat_r; lra).
  assert (UE : u * (eta * Rabs (B2R y)) <= / 1048576 * (eta * Rabs (B2R y))) by (apply Rmult_le_compat_r; lra).
  replace (2 * (1 + Rabs (B2R y)) * eta) with (2 * eta + 2 * (eta * Rabs (B2R y))) by ring.
  replace (B2R (fmul p y) - q) with ((B2R (fmul p y) - B2R p * B2R y) + (B2R p * B2R y - q)) by ring. eapply Rle_trans; [apply Rabs_triang|]. lra.
Qed.

(** the sum of the terms, one after the other *)
Section Sum.
Variables (s0 : num) (e0 : R) (T : Z -> num) (q f : Z -> R) (K : nat).
Local Notation W n := (Rabs e0 + rs (Z.of_nat n) (fun k => Rabs (q k))).
Local Notation H n := (eta * (1 + rs (Z.of_nat n) (fun k => 2 * (1 + Rabs (f k))))).
Local Notation Er n := ((1 + u) ^ n * ((INR n + 3) * u * W n + H n)).
Lemma W_pos n : 0 <= W n.
Proof. pose proof (Rabs_pos e0). pose proof (sum_pos n (fun k => Rabs (q k)) (fun k => Rabs_pos _)). lra. Qed.
Lemma H_pos n : 0 <= H n.
Proof.
  pose proof (eta_ok prec emax P24 PE) as E. apply Rmult_le_pos; [lra|].
  assert (0 <= rs (Z.of_nat n) (fun k => 2 * (1 + Rabs (f k)))); [|lra]. apply sum_pos. intros k. pose proof (Rabs_pos (f k)). lra.
Qed.
Lemma one_step n (w w' h h' e : R) : 0 <= w -> 0 <= h -> 0 <= e -> w' = w + e -> h <= h' ->
  (1 + u) * ((1 + u) ^ n * ((INR n + 3) * u * w + h)) + u * w' + (1 + u) * (3 * u * e + (h' - h)) <=
  (1 + u) ^ S n * ((INR (S n) + 3) * u * w' + h').
Proof.
  intros W0 H0 E0 We Hh. pose proof (u_ok prec P24) as U. assert (N0 : 0 <= INR n) by apply pos_INR.
  assert (P1 : 1 <= (1 + u) ^ n) by (apply pow_R1_Rle; lra). set (p := (1 + u) ^ n) in *. rewrite S_INR. cbn [pow]. fold p.
  assert (UE : 0 <= u * e) by (apply Rmult_le_pos; lra). assert (UW : 0 <= u * w) by (apply Rmult_le_pos; lra).
  assert (C1 : (1 + u) * p * ((INR n + 1 + 3) * u * w' + h') = (1 + u) * (p * ((INR n + 3) * u * w + h)) +
    ((1 + u) * p) * (u * w' + (3 * u * e + (h' - h)) + INR n * (u * e))) by (rewrite We; ring).
  rewrite C1.
  assert (NE : 0 <= INR n * (u * e)) by (apply Rmult_le_pos; auto).
  assert (UW' : 0 <= u * w') by (rewrite We; lra).
  assert (C2 : (1 + u) * (u * w' + (3 * u * e + (h' - h)) + INR n * (u * e)) <= (1 + u) * p * (u * w' + (3 * u * e + (h' - h)) + INR n * (u * e))).
  { apply Rmult_le_compat_r; [lra|]. rewrite <- (Rmult_1_r (1 + u)) at 1. apply Rmult_le_compat_l; lra. }
  assert (C3 : 0 <= u * (u * w')) by (apply Rmult_le_pos; lra). assert (C4 : 0 <= u * (INR n * (u * e))) by (apply Rmult_le_pos; lra). lra.
Qed.
Lemma Er_pos n : 0 <= Er n.
Proof.
  pose proof (u_ok prec P24) as U. pose proof (W_pos n). pose proof (H_pos n). assert (0 <= INR n) by apply pos_INR. apply Rmult_le_pos; [apply pow_le; lra|].
  assert (0 <= (INR n + 3) * u * W n); [|lra]. apply Rmult_le_pos; [apply Rmult_le_pos; lra|auto].
Qed.
Lemma grows n : W n <= W (S n) /\ H n <= H (S n) /\ W (S n) = W n + Rabs (q (Z.of_nat n)) /\ H (S n) - H n = 2 * (1 + Rabs (f (Z.of_nat n))) * eta.
Proof.
  pose proof (eta_ok prec emax P24 PE) as E. rewrite !sum_next. pose proof (Rabs_pos (q (Z.of_nat n))). pose proof (Rabs_pos (f (Z.of_nat n))).
  assert (0 <= eta * (2 * (1 + Rabs (f (Z.of_nat n))))) by (apply Rmult_le_pos; lra). repeat split; lra.
Qed.
Lemma Er_step n : (1 + u) * Er n + u * W (S n) + (1 + u) * (3 * u * Rabs (q (Z.of_nat n)) + 2 * (1 + Rabs (f (Z.of_nat n))) * eta) <= Er (S n).
Proof.
  destruct (grows n) as (G1 & G2 & G3 & G4). rewrite <- G4. apply one_step; auto; [apply W_pos|apply H_pos|apply Rabs_pos].
Qed.
Lemma Er_mono n n' : (n <= n')%nat -> W n <= W n' /\ Er n <= Er n'.
Proof.
  induction 1 as [|k L [I1 I2]]; [split; lra|]. destruct (grows k) as (G1 & G2 & G3 & G4). split; [lra|].
  pose proof (Er_step k). pose proof (u_ok prec P24) as U. pose proof (Er_pos k) as E0. assert (0 <= u * Er k) by (apply Rmult_le_pos; lra).
  assert (0 <= u * W (S k)) by (apply Rmult_le_pos; [lra|apply W_pos]). pose proof (Rabs_pos (q (Z.of_nat k))) as Q. pose proof (H_pos k).
  assert (0 <= 3 * u * Rabs (q (Z.of_nat k)) + 2 * (1 + Rabs (f (Z.of_nat k))) * eta) as B by (assert (0 <= 3 * u * Rabs (q (Z.of_nat k))) by (apply Rmult_le_pos; lra); lra).
  assert (0 <= u * (3 * u * Rabs (q (Z.of_nat k)) + 2 * (1 + Rabs (f (Z.of_nat k))) * eta)) by (apply Rmult_le_pos; lra). lra.
Qed.
Hypothesis F0 : is_finite s0 = true.
Hypothesis V0 : Rabs (B2R s0 - e0) <= 3 * u * Rabs e0 + eta.
Hypothesis HT : forall k, (0 <= k < Z.of_nat K)%Z -> is_finite (T k) = true /\ Rabs (B2R (T k) - q k) <= 3 * u * Rabs (q k) + 2 * (1 + Rabs (f k)) * eta.
Hypothesis HW : W K + Er K <= bpow radix2 (emax - 2).
Lemma run_value n : (n <= K)%nat -> is_finite (run fadd s0 T n) = true /\ Rabs (B2R (run fadd s0 T n) - (e0 + rs (Z.of_nat n) q)) <= Er n.
Proof.
  pose proof (u_ok prec P24) as U. pose proof (eta_ok prec emax P24 PE) as E. pose proof (twice emax) as TW.
  induction n as [|n IH]; intros L.
  - cbn [run]. split; [exact F0|]. change (Z.of_nat 0) with 0%Z. rewrite !zsum_nonpos by lia. rewrite !Rplus_0_r. cbn [pow INR]. lra.
  - destruct IH as [G B]; [lia|]. cbn [run]. set (r := run fadd s0 T n) in *. destruct (HT (Z.of_nat n) ltac:(lia)) as [GT BT].
    pose proof (Er_mono (S n) K L) as [M1 M2]. pose proof (Er_step n) as ST. destruct (grows n) as (G1 & G2 & G3 & G4).
    set (x := q (Z.of_nat n)) in *. set (b := 3 * u * Rabs x + 2 * (1 + Rabs (f (Z.of_nat n))) * eta) in *.
    pose proof (H_pos n) as H0. pose proof (W_pos n) as W0. pose proof (Er_pos n) as E0. pose proof (Rabs_pos x) as X0.
    assert (B0 : 0 <= b) by (unfold b; assert (0 <= 3 * u * Rabs x) by (apply Rmult_le_pos; lra); lra).
    assert (RB : Rabs (B2R r) <= W n + Er n).
    { replace (B2R r) with ((B2R r - (e0 + rs (Z.of_nat n) q)) + (e0 + rs (Z.of_nat n) q)) by ring. eapply Rle_trans; [apply Rabs_triang|]. pose proof (abs_sum e0 q n). lra. }
    assert (0 <= u * Er n) by (apply Rmult_le_pos; lra). assert (0 <= u * W (S n)) by (apply Rmult_le_pos; lra). assert (0 <= u * b) by (apply Rmult_le_pos; lra).
    destruct (added prec emax Hp Hm P24 PE r (T (Z.of_nat n)) x b G GT B0 BT) as [G' B']; [pose proof (W_pos K); pose proof (Er_pos K); lra|].
    split; [exact G'|]. rewrite sum_next. fold x.
    replace (B2R (fadd r (T (Z.of_nat n))) - (e0 + (rs (Z.of_nat n) q + x)))
      with ((B2R (fadd r (T (Z.of_nat n))) - (B2R r + x)) + (B2R r - (e0 + rs (Z.of_nat n) q))) by ring.
    eapply Rle_trans; [apply Rabs_triang|].
    assert (u * (Rabs (B2R r) + Rabs x) <= u * (W (S n) + Er n)) by (apply Rmult_le_compat_l; lra). lra.
Qed.
End Sum.

(** beta y *)
Local Notation scaled := (scaled (fzero prec emax) fmul (fis_zero prec emax) (fis_one prec emax Hp Hm)).
Lemma fis_one_ok (v : num) : is_finite v = true -> fis_one prec emax Hp Hm v = true -> B2R v = 1.
Proof.
  intros F. unfold fis_one, AccModel.fone. pose proof (Bone_correct prec emax Hp Hm) as B1. pose proof (is_finite_Bone prec emax Hp Hm) as F1.
  rewrite Beqb_correct by assumption. rewrite B1. intros H. destruct (Req_bool_spec (B2R v) 1); [assumption|discriminate].
Qed.
Lemma fis_zero_ok (v : num) : is_finite v = true -> if fis_zero prec emax v then B2R v = 0 else B2R v <> 0.
Proof.
  destruct v as [s|s| |s mv ev Bv]; try discriminate; intros _; cbn [fis_zero B2R]; [reflexivity|]. intros Q. apply eq_0_F2R in Q. destruct s; discriminate Q.
Qed.
Lemma scaled_value (beta v : num) : is_finite beta = true -> B2R beta = 0 \/ is_finite v = true -> Rabs (B2R beta * B2R v) <= bpow radix2 (emax - 2) ->
  is_finite (scaled beta v) = true /\ Rabs (B2R (scaled beta v) - B2R beta * B2R v) <= 3 * u * Rabs (B2R beta * B2R v) + eta.
Proof.
  intros FB FV W. pose proof (u_ok prec P24) as U. pose proof (eta_ok prec emax P24 PE) as E. pose proof (Rabs_pos (B2R beta * B2R v)) as A0.
  assert (A1 : 0 <= u * Rabs (B2R beta * B2R v)) by (apply Rmult_le_pos; lra).
  pose proof (fis_zero_ok beta FB) as Z. unfold FspProofs.scaled. destruct (fis_zero prec emax beta).
  - split; [reflexivity|]. rewrite Z, Rmult_0_l. cbn [AccModel.fzero B2R]. rewrite Rminus_0_r, Rabs_R0. lra.
  - destruct FV as [FV|FV]; [contradiction|]. destruct (fis_one prec emax Hp Hm beta) eqn:O1.
    + split; [exact FV|]. rewrite (fis_one_ok beta FB O1) in *. rewrite Rmult_1_l in *. rewrite Rminus_diag_eq, Rabs_R0 by reflexivity. lra.
    + rewrite (Rmult_comm (B2R beta)) in *. destruct (product prec emax Hp Hm P24 PE v beta FV FB W) as [G B]. split; [exact G|]. lra.
Qed.

(** integers *)
Lemma int_id z : Rabs (IZR z) <= bpow radix2 prec -> rn (IZR z) = IZR z /\ Rabs (rn (IZR z)) < bpow radix2 emax.
Proof.
  intros Z. assert (Z' : (Z.abs z <= 2 ^ prec)%Z) by (apply le_IZR; rewrite abs_IZR; change 2%Z with (radix_val radix2); rewrite IZR_Zpower by lia; exact Z).
  split; [apply (rn_id prec emax), fmt_int; auto; lia|]. apply (rn_small prec emax Hp _ prec); [lia|lia|exact Z].
Qed.
Lemma int_mul (x y : num) : is_finite x = true -> is_finite y = true -> integral (B2R x) -> integral (B2R y) -> Rabs (B2R x * B2R y) <= bpow radix2 prec ->
  is_finite (fmul x y) = true /\ B2R (fmul x y) = B2R x * B2R y /\ integral (B2R x * B2R y).
Proof.
  intros F1 F2 (p & X) (q & Y) W. assert (I : B2R x * B2R y = IZR (p * q)) by (rewrite X, Y, mult_IZR; reflexivity). rewrite I in *. destruct (int_id _ W) as [I1 I2].
  destruct (fmul_small prec emax Hp Hm x y F1 F2) as [G V]; [rewrite I; exact I2|]. split; [exact G|]. rewrite V, I. split; [exact I1|]. now exists (p * q)%Z.
Qed.
Lemma int_add (x y : num) : is_finite x = true -> is_finite y = true -> integral (B2R x) -> integral (B2R y) -> Rabs (B2R x + B2R y) <= bpow radix2 prec ->
  is_finite (fadd x y) = true /\ B2R (fadd x y) = B2R x + B2R y /\ integral (B2R x + B2R y).
Proof.
  intros F1 F2 (p & X) (q & Y) W. assert (I : B2R x + B2R y = IZR (p + q)) by (rewrite X, Y, plus_IZR; reflexivity). rewrite I in *. destruct (int_id _ W) as [I1 I2].
  destruct (fadd_small prec emax Hp Hm x y F1 F2) as [G V]; [rewrite I; exact I2|]. split; [exact G|]. rewrite V, I. split; [exact I1|]. now exists (p + q)%Z.
Qed.
Lemma run_exact (s0 : num) e0 (T : Z -> num) (q : Z -> R) K :
  is_finite s0 = true -> B2R s0 = e0 -> integral e0 ->
  (forall k, (0 <= k < Z.of_nat K)%Z -> is_finite (T k) = true /\ B2R (T k) = q k /\ integral (q k)) ->
  Rabs e0 + rs (Z.of_nat K) (fun k => Rabs (q k)) <= bpow radix2 prec ->
  is_finite (run fadd s0 T K) = true /\ B2R (run fadd s0 T K) = e0 + rs (Z.of_nat K) q /\ integral (e0 + rs (Z.of_nat K) q).
Proof.
  intros F0 V0 I0 HT HW. induction K as [|n IH].
  - cbn [run]. change (Z.of_nat 0) with 0%Z. rewrite zsum_nonpos by lia. rewrite Rplus_0_r. auto.
  - pose proof (abs_sum e0 q (S n)) as AS. rewrite !sum_next in *. pose proof (Rabs_pos (q (Z.of_nat n))) as Q0.
    destruct IH as (G & V & I); [intros k Hk; apply HT; lia|lra|]. destruct (HT (Z.of_nat n) ltac:(lia)) as (GT & VT & IT).
    cbn [run]. destruct (int_add (run fadd s0 T n) (T (Z.of_nat n))) as (G' & V' & I'); auto; try (rewrite V || rewrite VT); auto.
    + rewrite VT. rewrite Rplus_assoc. lra.
    + rewrite V, VT, Rplus_assoc in V', I'. auto.
Qed.
Lemma scaled_exact (beta v : num) : is_finite beta = true -> B2R beta = 0 \/ is_finite v = true -> integral (B2R beta) -> integral (B2R v) ->
  Rabs (B2R beta * B2R v) <= bpow radix2 prec ->
  is_finite (scaled beta v) = true /\ B2R (scaled beta v) = B2R beta * B2R v /\ integral (B2R beta * B2R v).
Proof.
  intros FB FV IB IV W. pose proof (fis_zero_ok beta FB) as Z. unfold FspProofs.scaled. destruct (fis_zero prec emax beta).
  - split; [reflexivity|]. rewrite Z, Rmult_0_l. split; [reflexivity|]. now exists 0%Z.
  - destruct FV as [FV|FV]; [contradiction|]. destruct (fis_one prec emax Hp Hm beta) eqn:O1.
    + rewrite (fis_one_ok beta FB O1), Rmult_1_l. auto.
    + rewrite (Rmult_comm (B2R beta)) in *. now apply int_mul.
Qed.

(** ** The product *)
Section Product.
Variables (d : num) (t : trans) (rows cols : Z) (alpha beta : num) (a x y : Z) (ia ja : list Z) (m : list num).
Hypothesis Et : is_trans t = false.
Hypothesis C : compressed rows cols ia ja.
Hypothesis Hy : segment_inside m y rows.
Hypothesis Hx : segment_apart m x cols (segment y rows).
Hypothesis Ha : segment_apart m a (first_of ia rows) (segment y rows).
Lemma fgecrsmv_run : exists m', fgecrsmv prec emax Hp Hm t rows cols alpha a ia ja x beta y m = Ok m' /\ changes d m m' (segment y rows) /\
  forall i, (0 <= i < rows)%Z -> val d m' (y + i) = run fadd (scaled beta (val d m (y + i)))
    (fun q => fmul (fmul alpha (val d m (a + (first_of ia i + q)))) (val d m (x + place ia ja (first_of ia i + q)))) (Z.to_nat (entries ia i)).
Proof.
  destruct (gecrsmv_plain d (fzero prec emax) fadd fmul (fun v => v) (fis_zero prec emax) (fis_one prec emax Hp Hm) t rows cols alpha a ia ja x beta y m Et C Hy Hx Ha) as (m' & E & H & V).
  exists m'. split; [exact E|]. split; [exact H|]. intros i Hi. rewrite (V i Hi). cbv zeta. destruct (is_conj t); reflexivity.
Qed.
Lemma entries_nat i : (0 <= i < rows)%Z -> Z.of_nat (Z.to_nat (entries ia i)) = entries ia i.
Proof. intros Hi. pose proof (first_mono rows cols ia ja C i Hi). unfold entries. lia. Qed.
Lemma term_le i k (g : Z -> R) : (forall k, 0 <= g k) -> (0 <= k < entries ia i)%Z -> g k <= rs (entries ia i) g.
Proof.
  intros G Hk. assert (M : forall n, (0 <= k < n)%Z -> g k <= rs n g); [|auto].
  intros n Hn. apply (zsum_ind (fun n => (k < n)%Z -> g k <= rs n g) n); [lia| |lia|lia].
  intros j Hj I L. rewrite zsum_S by lia. destruct (Z.eq_dec k j) as [->|N].
  - replace j with (Z.of_nat (Z.to_nat j)) at 2 by lia. pose proof (sum_pos (Z.to_nat j) g G). lra.
  - specialize (I ltac:(lia)). specialize (G j). lra.
Qed.
Lemma product_accurate i s : (0 <= i < rows)%Z ->
  s = run fadd (scaled beta (val d m (y + i)))
    (fun q => fmul (fmul alpha (val d m (a + (first_of ia i + q)))) (val d m (x + place ia ja (first_of ia i + q)))) (Z.to_nat (entries ia i)) ->
  product_operands d a ia ja x m alpha beta y i ->
  product_moduli d a ia ja x m alpha beta y i + product_error d a ia ja x m alpha beta y i <= bpow radix2 (emax - 2) ->
  is_finite s = true /\ Rabs (B2R s - exact_product d a ia ja x m cols alpha beta y i) <= product_error d a ia ja x m alpha beta y i.
Proof.
  intros Hi S (FA & FB & FY & FT) W. pose proof (entries_nat i Hi) as KN.
  assert (Ha' : segment_inside m a (first_of ia rows)) by (intros p Hq; now apply Ha). assert (Hx' : segment_inside m x cols) by (intros p Hq; now apply Hx).
  rewrite (exact_terms d a ia ja x m rows cols alpha beta y i C Ha' Hx' Hi).
  set (e0 := B2R beta * B2R (val d m (y + i))). set (q := fun k => B2R alpha * nth_entry d a ia m i k * nth_factor d ia ja x m i k).
  set (K := Z.to_nat (entries ia i)) in *.
  assert (EP : 0 <= product_error d a ia ja x m alpha beta y i).
  { unfold product_error, product_moduli. rewrite <- KN, <- INR_IZR_INZ. rewrite !Nat2Z.id. apply Er_pos. }
  assert (MT : forall k, (0 <= k < entries ia i)%Z -> Rabs (q k) <= rs (entries ia i) (fun k => Rabs (q k))) by (intros k Hk; apply (term_le i k (fun k => Rabs (q k))); auto; intros; apply Rabs_pos).
  assert (M0 : 0 <= rs (entries ia i) (fun k => Rabs (q k))) by (rewrite <- KN; apply sum_pos; intros; apply Rabs_pos).
  assert (PM : product_moduli d a ia ja x m alpha beta y i = Rabs e0 + rs (entries ia i) (fun k => Rabs (q k))) by reflexivity.
  pose proof (Rabs_pos e0) as E0. destruct (scaled_value beta (val d m (y + i)) FB FY) as [G0 V0]; [fold e0; lra|].
  subst s. unfold product_error in *. rewrite PM in *. rewrite <- KN, <- INR_IZR_INZ in *. rewrite !Nat2Z.id in *.
  apply (run_value _ e0 _ q (nth_factor d ia ja x m i) K); auto.
  intros k Hk. rewrite KN in *. destruct (FT k Hk) as (FE & FX & B). apply term_value; auto. specialize (MT k Hk). change (Rabs (q k) <= bpow radix2 (emax - 2)). lra.
Qed.
Lemma product_exact i s : (0 <= i < rows)%Z ->
  s = run fadd (scaled beta (val d m (y + i)))
    (fun q => fmul (fmul alpha (val d m (a + (first_of ia i + q)))) (val d m (x + place ia ja (first_of ia i + q)))) (Z.to_nat (entries ia i)) ->
  product_operands d a ia ja x m alpha beta y i -> integer_operands d a ia ja x m alpha beta y i ->
  product_moduli d a ia ja x m alpha beta y i <= bpow radix2 prec ->
  is_finite s = true /\ B2R s = exact_product d a ia ja x m cols alpha beta y i.
Proof.
  intros Hi S (FA & FB & FY & FT) (IA & IB & IY & IT) W. pose proof (entries_nat i Hi) as KN.
  assert (Ha' : segment_inside m a (first_of ia rows)) by (intros p Hq; now apply Ha). assert (Hx' : segment_inside m x cols) by (intros p Hq; now apply Hx).
  rewrite (exact_terms d a ia ja x m rows cols alpha beta y i C Ha' Hx' Hi).
  set (e0 := B2R beta * B2R (val d m (y + i))). set (q := fun k => B2R alpha * nth_entry d a ia m i k * nth_factor d ia ja x m i k).
  set (K := Z.to_nat (entries ia i)) in *.
  assert (MT : forall k, (0 <= k < entries ia i)%Z -> Rabs (q k) <= rs (entries ia i) (fun k => Rabs (q k))) by (intros k Hk; apply (term_le i k (fun k => Rabs (q k))); auto; intros; apply Rabs_pos).
  assert (M0 : 0 <= rs (entries ia i) (fun k => Rabs (q k))) by (rewrite <- KN; apply sum_pos; intros; apply Rabs_pos).
  assert (PM : product_moduli d a ia ja x m alpha beta y i = Rabs e0 + rs (entries ia i) (fun k => Rabs (q k))) by reflexivity.
  pose proof (Rabs_pos e0) as E0. destruct (scaled_exact beta (val d m (y + i)) FB FY IB IY) as (G0 & V0 & I0); [fold e0; lra|].
  subst s. rewrite PM in W. rewrite <- KN in W |- *.
  destruct (run_exact _ e0 (fun q => fmul (fmul alpha (val d m (a + (first_of ia i + q)))) (val d m (x + place ia ja (first_of ia i + q)))) q K G0 V0 I0) as (G & V & _); auto.
  intros k Hk. rewrite KN in *. destruct (FT k Hk) as (FE & FX & _). destruct (IT k Hk) as (IE & IX & B).
  destruct (int_mul alpha (val d m (a + (first_of ia i + k))) FA FE IA IE B) as (G1 & V1 & I1). specialize (MT k Hk).
  destruct (int_mul (fmul alpha (val d m (a + (first_of ia i + k)))) (val d m (x + place ia ja (first_of ia i + k))) G1 FX) as (G2 & V2 & I2).
  - now rewrite V1.
  - exact IX.
  - rewrite V1. change (Rabs (q k) <= bpow radix2 prec). lra.
  - rewrite V1 in V2, I2. auto.
Qed.
End Product.
Lemma fgecrsmm_run (d : num) t rows n cols alpha beta a b ldb c ldc ia ja m : is_trans t = false -> (0 <= n)%Z -> compressed rows cols ia ja -> (rows <= ldc)%Z ->
  block_inside m ColMajor c ldc rows n -> block_apart m ColMajor b ldb cols n (block ColMajor c ldc rows n) ->
  segment_apart m a (first_of ia rows) (block ColMajor c ldc rows n) ->
  exists m', fgecrsmm prec emax Hp Hm t rows n cols alpha a ia ja b ldb beta c ldc m = Ok m' /\ changes d m m' (block ColMajor c ldc rows n) /\
  forall i j, (0 <= i < rows)%Z -> (0 <= j < n)%Z -> val d m' (c + j * ldc + i) = run fadd (scaled beta (val d m (c + j * ldc + i)))
    (fun q => fmul (fmul alpha (val d m (a + (first_of ia i + q)))) (val d m (b + j * ldb + place ia ja (first_of ia i + q)))) (Z.to_nat (entries ia i)).
Proof.
  intros Et Hn C Hl Hc Hb Ha.
  destruct (gecrsmm_plain d (fzero prec emax) fadd fmul (fun v => v) (fis_zero prec emax) (fis_one prec emax Hp Hm) t rows n cols alpha a ia ja b ldb beta c ldc m Et Hn C Hl Hc Hb Ha) as (m' & E & H & V).
  exists m'. split; [exact E|]. split; [exact H|]. intros i j Hi Hj. rewrite (V i j Hi Hj). cbv zeta. destruct (is_conj t); reflexivity.
Qed.
Lemma columns_apart_segment (m : list num) rows n cols b ldb c ldc j : (0 <= j < n)%Z ->
  block_apart m ColMajor b ldb cols n (block ColMajor c ldc rows n) -> segment_apart m (b + j * ldb) cols (segment (c + j * ldc) rows).
Proof.
  intros Hj Hb p S. unfold segment in S. destruct (Hb (p - (b + j * ldb))%Z j ltac:(lia) Hj) as (B1 & B2). cbn [cell] in *.
  replace (b + j * ldb + (p - (b + j * ldb)))%Z with p in * by lia. split; [exact B1|]. intros S'. apply B2. exists (p - (c + j * ldc))%Z, j. unfold segment in S'. cbn [cell]. lia.
Qed.
Lemma stored_apart_segment (m : list num) rows n a len c ldc j : (0 <= j < n)%Z ->
  segment_apart m a len (block ColMajor c ldc rows n) -> segment_apart m a len (segment (c + j * ldc) rows).
Proof.
  intros Hj Ha p S. destruct (Ha p S) as (B1 & B2). split; [exact B1|]. intros S'. apply B2. exists (p - (c + j * ldc))%Z, j. unfold segment in S'. cbn [cell]. lia.
Qed.
End Float.
