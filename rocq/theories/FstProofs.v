(** Proofs for C118: the transposed product. *)
From Coq Require Import ZArith Reals List Lia Lra Bool.
From Flocq Require Import Core BinarySingleNaN.
From Verif Require Import Base BaseProofs MatmulModel MatmulSpec BlasModel BlasSpec BlasProofs TriModel TriSpec TriProofs SymSpec CrsModel CrsSpec CrsProofs
  AccModel AccSpec AccProofs NumModel NumSpec NumBasics SolProofs GrtProofs FspModel FspSpec FspProofs.
From Coq Require Import ZifyNat ZifyN ZifyBool.
Ltac Zify.zify_post_hook ::= idtac.
Import ListNotations.

(** ** The loop, without laws *)
Section Run.
Local Open Scope Z_scope.
Context {A : Type} (add : A -> A -> A).
Definition runl (T : Z * Z -> A) (l : list (Z * Z)) (s : A) : A := fold_left (fun v p => add v (T p)) l s.
Lemma runl_app T l l' s : runl T (l ++ l') s = runl T l' (runl T l s).
Proof. apply fold_left_app. Qed.
Lemma runl_run T l s : runl T l s = run add s (fun q => T (nth (Z.to_nat q) l (0, 0))) (length l).
Proof.
  induction l as [|p l IH] using rev_ind; [reflexivity|]. rewrite runl_app, app_length. cbn [length]. replace (length l + 1)%nat with (S (length l)) by lia. cbn [run].
  unfold runl at 1. cbn [fold_left]. rewrite IH. rewrite Nat2Z.id, app_nth2 by lia. rewrite Nat.sub_diag. cbn [nth]. f_equal.
  apply run_ext; [reflexivity|]. intros q Hq. now rewrite app_nth1 by lia.
Qed.
End Run.
Local Open Scope Z_scope.
Lemma line_hits_next ia ja r i n : line_hits ia ja r i (S n) =
  line_hits ia ja r i n ++ (if place ia ja (first_of ia i + Z.of_nat n) =? r then [(i, first_of ia i + Z.of_nat n)] else []).
Proof. unfold line_hits. rewrite seq_S, map_app, filter_app. cbn [map filter snd Nat.add]. destruct (_ =? r); reflexivity. Qed.
Lemma column_hits_next ia ja r l : column_hits ia ja r (S l) = column_hits ia ja r l ++ line_hits ia ja r (Z.of_nat l) (Z.to_nat (entries ia (Z.of_nat l))).
Proof. unfold column_hits. rewrite seq_S, flat_map_app. cbn [flat_map Nat.add]. now rewrite app_nil_r. Qed.

Section Loop.
Local Open Scope Z_scope.
Context {A : Type} (d zero : A) (add mul : A -> A -> A) (conj : A -> A) (is_zero is_one : A -> bool).
Local Notation scaled := (scaled zero mul is_zero is_one).
Lemma rescale_all_plain (m : list A) y len beta : segment_inside m y len -> 0 <= len ->
  exists s, rescale_all zero mul is_zero is_one len beta y m = Ok s /\ holds d m y len s (fun r => scaled beta (val d m (y + r))).
Proof.
  intros Hy Hl. set (Y0 := fun r => val d m (y + r)).
  assert (Step : forall body g, (forall i s, body i s = do v <- load s (y + (i - 1)); store s (y + (i - 1)) (g v)) ->
    exists s, each 1 (len + 1) body m = Ok s /\ holds d m y len s (fun r => g (Y0 r))).
  { intros body g Hb. destruct (each_inv (fun i s => holds d m y len s (fun r => if r <? i - 1 then g (Y0 r) else Y0 r)) 1 (len + 1) body m) as (s & E & H); [lia| | |].
    - apply (holds_ext d m y len _ Y0); [|apply holds_start]. intros r Hr. now replace (r <? 1 - 1) with false by lia.
    - intros j s Hj H. rewrite Hb. rewrite (get_cell d m s y len _ (j - 1) Hy H) by lia. cbn [bind]. replace (j - 1 <? j - 1) with false by lia.
      destruct (put_cell d m s y len _ (j - 1) (g (Y0 (j - 1))) Hy H ltac:(lia)) as (s' & E & H'). exists s'. split; [exact E|].
      apply (holds_ext d m y len _ _) with (2 := H'). intros r Hr. cbn beta. destruct (Z.eqb_spec r (j - 1)) as [->|Er].
      + now replace (j - 1 <? j + 1 - 1) with true by lia.
      + replace (r <? j + 1 - 1) with (r <? j - 1) by lia. reflexivity.
    - exists s. split; [exact E|]. apply (holds_ext d m y len _ _) with (2 := H). intros r Hr. cbn beta. now replace (r <? len + 1 - 1) with true by lia. }
  unfold rescale_all, FspProofs.scaled. destruct (is_zero beta); [|destruct (is_one beta)].
  - destruct (each_inv (fun i s => holds d m y len s (fun r => if r <? i - 1 then zero else Y0 r)) 1 (len + 1) (fun i m => store m (y + (i - 1)) zero) m) as (s & E & H); [lia| | |].
    + apply (holds_ext d m y len _ Y0); [|apply holds_start]. intros r Hr. now replace (r <? 1 - 1) with false by lia.
    + intros j s Hj H. destruct (put_cell d m s y len _ (j - 1) zero Hy H ltac:(lia)) as (s' & E & H'). exists s'. split; [exact E|].
      apply (holds_ext d m y len _ _) with (2 := H'). intros r Hr. cbn beta. destruct (Z.eqb_spec r (j - 1)) as [->|Er].
      * now replace (j - 1 <? j + 1 - 1) with true by lia.
      * replace (r <? j + 1 - 1) with (r <? j - 1) by lia. reflexivity.
    + exists s. split; [exact E|]. apply (holds_ext d m y len _ _) with (2 := H). intros r Hr. cbn beta. now replace (r <? len + 1 - 1) with true by lia.
  - exists m. split; [reflexivity|]. apply holds_start.
  - apply (Step _ (fun v => mul v beta)). reflexivity.
Qed.
Lemma gecrsmv_trans_plain t rows cols alpha a ia ja x beta y (m : list A) :
  is_trans t = true -> 0 <= cols -> compressed rows cols ia ja ->
  segment_inside m y cols -> segment_apart m x rows (segment y cols) -> segment_apart m a (first_of ia rows) (segment y cols) ->
  exists m', gecrsmv zero add mul conj is_zero is_one t rows cols alpha a ia ja x beta y m = Ok m' /\ changes d m m' (segment y cols) /\
    forall r, 0 <= r < cols -> val d m' (y + r) =
      runl add (fun p => mul (mul alpha ((if is_conj t then conj else fun v => v) (val d m (a + snd p)))) (val d m (x + fst p)))
        (column_hits ia ja r (Z.to_nat rows)) (scaled beta (val d m (y + r))).
Proof.
  intros Et Hc C Hy Hx Ha. pose proof C as ((Hr & Hr2) & _). unfold gecrsmv. rewrite (load_ptr rows cols ia ja C) by lia. cbn [bind]. rewrite Et. cbv zeta.
  set (f := if is_conj t then conj else fun v => v).
  set (T := fun p : Z * Z => mul (mul alpha (f (val d m (a + snd p)))) (val d m (x + fst p))).
  destruct (rescale_all_plain m y cols beta Hy Hc) as (m0 & -> & H0). cbn [bind].
  destruct (each_inv (fun i s => holds d m y cols s (fun r => runl add T (column_hits ia ja r (Z.to_nat (i - 1))) (scaled beta (val d m (y + r)))))
    1 (rows + 1) (fun i m =>
      do lo <- load ia (i - 1); do hi <- load ia i;
      each lo hi (fun k m => do j <- load ja (k - val 0 ia 0); add_term add mul alpha f (y + (j - val 0 ia 0)) (a + (k - val 0 ia 0)) (x + (i - 1)) m) m) m0) as (m' & E & H).
  - lia.
  - apply (holds_ext d m y cols _ _) with (2 := H0). intros r Hrr. reflexivity.
  - intros i s Hi H. set (Y0 := fun r => runl add T (column_hits ia ja r (Z.to_nat (i - 1))) (scaled beta (val d m (y + r)))) in H.
    rewrite (load_ptr rows cols ia ja C) by lia. cbn [bind]. rewrite (load_ptr rows cols ia ja C) by lia. cbn [bind].
    pose proof (first_mono rows cols ia ja C (i - 1) ltac:(lia)) as M. replace (i - 1 + 1) with i in M by lia. unfold first_of in M.
    destruct (each_inv (fun k s => holds d m y cols s (fun r => runl add T (line_hits ia ja r (i - 1) (Z.to_nat (k - val 0 ia (i - 1)))) (Y0 r)))
      (val 0 ia (i - 1)) (val 0 ia i)
      (fun k m => do j <- load ja (k - val 0 ia 0); add_term add mul alpha f (y + (j - val 0 ia 0)) (a + (k - val 0 ia 0)) (x + (i - 1)) m) s) as (s' & E & H').
    + lia.
    + apply (holds_ext d m y cols s _) with (2 := H). intros r Hrr. rewrite Z.sub_diag. reflexivity.
    + intros k s2 Hk H2. assert (K : in_line ia (i - 1) (k - val 0 ia 0)) by (unfold in_line, first_of; replace (i - 1 + 1) with i by lia; lia).
      rewrite (load_idx rows cols ia ja C (i - 1) _ ltac:(lia) K). cbn [bind].
      pose proof (line_position rows cols ia ja C (i - 1) _ ltac:(lia) K) as K2. pose proof (line_place rows cols ia ja C (i - 1) _ ltac:(lia) K) as K3.
      destruct (Ha (a + (k - val 0 ia 0)) ltac:(unfold segment; lia)) as (A1 & A2). destruct (Hx (x + (i - 1)) ltac:(unfold segment; lia)) as (X1 & X2).
      change (val 0 ja (k - val 0 ia 0) - val 0 ia 0) with (place ia ja (k - val 0 ia 0)). set (j := place ia ja (k - val 0 ia 0)) in *.
      unfold add_term. rewrite (get_cell d m s2 y cols _ j Hy H2) by lia. cbn [bind]. rewrite (get_other d m s2 y cols _ _ H2 A1 A2). cbn [bind].
      rewrite (get_other d m s2 y cols _ _ H2 X1 X2). cbn [bind].
      destruct (put_cell d m s2 y cols _ j (add (runl add T (line_hits ia ja j (i - 1) (Z.to_nat (k - val 0 ia (i - 1)))) (Y0 j))
        (mul (mul alpha (f (val d m (a + (k - val 0 ia 0))))) (val d m (x + (i - 1))))) Hy H2 ltac:(lia)) as (s3 & E3 & H3).
      exists s3. split; [exact E3|]. apply (holds_ext d m y cols s3 _) with (2 := H3). intros r Hrr. cbn beta.
      replace (Z.to_nat (k + 1 - val 0 ia (i - 1))) with (S (Z.to_nat (k - val 0 ia (i - 1)))) by lia. rewrite line_hits_next, Z2Nat.id by lia.
      replace (first_of ia (i - 1) + (k - val 0 ia (i - 1))) with (k - val 0 ia 0) by (unfold first_of; lia). fold j. rewrite runl_app.
      rewrite (Z.eqb_sym r j). destruct (Z.eqb_spec j r) as [<-|Er]; reflexivity.
    + exists s'. split; [exact E|]. apply (holds_ext d m y cols s' _) with (2 := H'). intros r Hrr. cbn beta.
      replace (Z.to_nat (i + 1 - 1)) with (S (Z.to_nat (i - 1))) by lia. rewrite column_hits_next, runl_app, Z2Nat.id by lia. unfold entries.
      replace (i - 1 + 1) with i by lia. now replace (first_of ia i - first_of ia (i - 1)) with (val 0 ia i - val 0 ia (i - 1)) by (unfold first_of; lia).
  - exists m'. split; [exact E|]. destruct H as (H1 & H2). split; [exact H1|]. intros r Hrr. rewrite H2 by exact Hrr.
    now replace (rows + 1 - 1) with rows by lia.
Qed.
End Loop.

Local Open Scope R_scope.
Local Notation rs := (zsum 0 Rplus).
(** ** Sums over the entries of a column *)
Lemma exact_sum_app l l' : exact_sum (l ++ l') = exact_sum l + exact_sum l'.
Proof. induction l as [|v l IH]; cbn [app exact_sum fold_right]; [unfold exact_sum; cbn; ring|]. unfold exact_sum in *. rewrite IH. ring. Qed.
Lemma line_hits_sum ia ja r i n (g : Z * Z -> R) : exact_sum (map g (line_hits ia ja r i n)) =
  rs (Z.of_nat n) (fun t => if (place ia ja (first_of ia i + t) =? r)%Z then g (i, first_of ia i + t)%Z else 0).
Proof.
  induction n as [|n IH]; [reflexivity|]. rewrite line_hits_next, map_app, exact_sum_app, IH, sum_next. f_equal.
  destruct (_ =? r)%Z; unfold exact_sum; cbn; ring.
Qed.
Lemma column_hits_sum ia ja r l (g : Z * Z -> R) : (forall i, (0 <= i < Z.of_nat l)%Z -> (0 <= entries ia i)%Z) ->
  exact_sum (map g (column_hits ia ja r l)) =
  rs (Z.of_nat l) (fun i => rs (entries ia i) (fun t => if (place ia ja (first_of ia i + t) =? r)%Z then g (i, first_of ia i + t)%Z else 0)).
Proof.
  intros E. induction l as [|l IH]; [reflexivity|]. rewrite column_hits_next, map_app, exact_sum_app, IH, sum_next by (intros; apply E; lia). f_equal.
  rewrite line_hits_sum. now rewrite Z2Nat.id by (apply E; lia).
Qed.
Lemma list_sum_index (l : list (Z * Z)) (g : Z * Z -> R) : rs (Z.of_nat (length l)) (fun k => g (nth (Z.to_nat k) l (0, 0)%Z)) = exact_sum (map g l).
Proof.
  induction l as [|p l IH] using rev_ind; [reflexivity|]. rewrite app_length. cbn [length]. replace (length l + 1)%nat with (S (length l)) by lia.
  rewrite sum_next, map_app, exact_sum_app, <- IH. rewrite Nat2Z.id, app_nth2 by lia. rewrite Nat.sub_diag. cbn [nth map]. f_equal; [|unfold exact_sum; cbn; ring].
  apply zsum_ext. intros k Hk. now rewrite app_nth1 by lia.
Qed.
Lemma one_term n k (g : Z -> R) : (forall k, 0 <= g k) -> (0 <= k < Z.of_nat n)%Z -> g k <= rs (Z.of_nat n) g.
Proof.
  intros G. induction n as [|n IH]; intros Hk; [lia|]. rewrite sum_next. destruct (Z.eq_dec k (Z.of_nat n)) as [->|N].
  - pose proof (sum_pos n g G). lra.
  - specialize (IH ltac:(lia)). specialize (G (Z.of_nat n)). lra.
Qed.
Lemma exact_hits {prec emax} (d : binary_float prec emax) a ia ja x m rows cols alpha beta y r :
  compressed rows cols ia ja -> segment_inside m a (first_of ia rows) ->
  exact_transposed d a ia ja x rows m alpha beta y r =
  B2R beta * B2R (val d m (y + r)) + exact_sum (map (fun p => B2R alpha * B2R (val d m (a + snd p)) * B2R (val d m (x + fst p))) (column_hits ia ja r (Z.to_nat rows))).
Proof.
  intros C Ha. pose proof C as ((Hr & _) & _). unfold exact_transposed. f_equal. unfold real_entry.
  pose proof (column_sum 0 0 1 Rplus Rmult R_semi (map B2R m) a rows ia ja r (B2R alpha) (fun _ v => v) (fun i => B2R (val d m (x + i)))) as CS.
  cbv beta in CS. rewrite <- CS by (intros i; split; [reflexivity|intros; reflexivity]).
  rewrite column_hits_sum, Z2Nat.id by (lia || (intros i Hi; pose proof (first_mono rows cols ia ja C i ltac:(lia)); unfold entries; lia)).
  apply zsum_ext. intros i Hi. unfold entries. apply zsum_ext. intros q Hq. cbv zeta. rewrite Z.eqb_sym. destruct (_ =? r)%Z; [|reflexivity]. cbn [fst snd]. f_equal. f_equal.
  apply real_val. apply Ha. unfold segment. pose proof (line_position rows cols ia ja C i (first_of ia i + q) Hi ltac:(unfold in_line; lia)). lia.
Qed.

(** ** Values *)
Section Float.
Variables prec emax : Z.
Context (Hp : Prec_gt_0 prec) (Hm : Prec_lt_emax prec emax).
Hypothesis (P24 : (24 <= prec)%Z) (PE : (3 * prec + 8 <= emax)%Z).
Local Notation num := (binary_float prec emax).
Local Notation fadd := (fadd prec emax Hp Hm).
Local Notation fmul := (fmul prec emax Hp Hm).
Local Notation scaled := (scaled (fzero prec emax) fmul (fis_zero prec emax) (fis_one prec emax Hp Hm)).
Lemma transposed_run (d : num) t rows cols alpha beta a x y ia ja m : is_trans t = true -> (0 <= cols)%Z -> compressed rows cols ia ja ->
  segment_inside m y cols -> segment_apart m x rows (segment y cols) -> segment_apart m a (first_of ia rows) (segment y cols) ->
  exists m', fgecrsmv prec emax Hp Hm t rows cols alpha a ia ja x beta y m = Ok m' /\ changes d m m' (segment y cols) /\
  forall r, (0 <= r < cols)%Z -> val d m' (y + r) = runl fadd (fun p => fmul (fmul alpha (val d m (a + snd p))) (val d m (x + fst p)))
    (column_hits ia ja r (Z.to_nat rows)) (scaled beta (val d m (y + r))).
Proof.
  intros Et Hc C Hy Hx Ha.
  destruct (gecrsmv_trans_plain d (fzero prec emax) fadd fmul (fun v => v) (fis_zero prec emax) (fis_one prec emax Hp Hm) t rows cols alpha a ia ja x beta y m Et Hc C Hy Hx Ha) as (m' & E & H & V).
  exists m'. split; [exact E|]. split; [exact H|]. intros r Hr. rewrite (V r Hr). destruct (is_conj t); reflexivity.
Qed.
Lemma transposed_accurate (d : num) rows cols alpha beta a x y ia ja m r : compressed rows cols ia ja -> segment_inside m a (first_of ia rows) ->
  let s := runl fadd (fun p => fmul (fmul alpha (val d m (a + snd p))) (val d m (x + fst p))) (column_hits ia ja r (Z.to_nat rows)) (scaled beta (val d m (y + r))) in
  transposed_operands d a ia ja x rows m alpha beta y r ->
  transposed_moduli d a ia ja x rows m alpha beta y r + transposed_error d a ia ja x rows m alpha beta y r <= bpow radix2 (emax - 2) ->
  is_finite s = true /\ Rabs (B2R s - exact_transposed d a ia ja x rows m alpha beta y r) <= transposed_error d a ia ja x rows m alpha beta y r.
Proof.
  intros C Ha s (FA & FB & FY & FT) W. rewrite (exact_hits d a ia ja x m rows cols) by auto. unfold s. rewrite runl_run. clear s.
  unfold transposed_error in *. unfold transposed_moduli in *. set (l := column_hits ia ja r (Z.to_nat rows)) in *.
  rewrite <- !list_sum_index in *. cbv beta in *.
  set (e0 := B2R beta * B2R (val d m (y + r))) in *. set (q := fun k : Z => B2R alpha * B2R (val d m (a + snd (nth (Z.to_nat k) l (0, 0)%Z))) * B2R (val d m (x + fst (nth (Z.to_nat k) l (0, 0)%Z)))).
  set (f := fun k : Z => B2R (val d m (x + fst (nth (Z.to_nat k) l (0, 0)%Z)))).
  pose proof (Er_pos prec emax P24 PE e0 q f (length l)) as EP. pose proof (Rabs_pos e0) as E0. pose proof (sum_pos (length l) (fun k => Rabs (q k)) (fun k => Rabs_pos _)) as S0.
  change (Rabs e0 + rs (Z.of_nat (length l)) (fun k => Rabs (q k)) + (1 + unit_roundoff prec) ^ length l *
    ((INR (length l) + 3) * unit_roundoff prec * (Rabs e0 + rs (Z.of_nat (length l)) (fun k => Rabs (q k))) +
     underflow_unit prec emax * (1 + rs (Z.of_nat (length l)) (fun k => 2 * (1 + Rabs (f k))))) <= bpow radix2 (emax - 2)) in W.
  destruct (scaled_value prec emax Hp Hm P24 PE beta (val d m (y + r)) FB FY) as [G0 V0]; [fold e0; lra|]. fold e0 in V0.
  apply (run_value prec emax Hp Hm P24 PE _ e0 _ q f (length l) G0 V0); auto.
  intros k Hk. destruct (FT (nth (Z.to_nat k) l (0, 0)%Z)) as (FE & FX & B); [apply nth_In; lia|].
  apply (term_value prec emax Hp Hm P24 PE); auto. pose proof (one_term (length l) k (fun k => Rabs (q k)) (fun k => Rabs_pos _) Hk) as O1. cbv beta in O1.
  change (Rabs (q k) <= bpow radix2 (emax - 2)). lra.
Qed.
End Float.
