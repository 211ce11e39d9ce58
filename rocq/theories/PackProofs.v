(** Triangular products and systems of packed and banded matrices. *)
From Coq Require Import ZArith Ring_theory Ring Field_theory Field.
From Verif Require Import Base BaseProofs MatmulModel MatmulSpec BlasModel BlasSpec BlasProofs TriModel TriSpec TriProofs
  SymModel SymSpec SymProofs PackModel PackSpec PackLinear PackSolve PackTri.
From Coq Require Import ZifyNat ZifyN ZifyBool.
Ltac Zify.zify_post_hook ::= idtac.
Local Open Scope Z_scope.

(** ** Equal calls *)
Lemma bind_cong {X Y} (a b : outcome X) (f g : X -> outcome Y) : a = b -> (forall v, f v = g v) -> bind a f = bind b g.
Proof. intros <- H. destruct a; cbn [bind]; auto. Qed.
Lemma bind_ret {X} (a : outcome X) : (do v <- a; Ok v) = a.
Proof. now destruct a. Qed.
Section Calls.
Context {A : Type} (zero : A) (add sub mul div : A -> A -> A) (conj : A -> A).
Lemma dot_cong c l p ip x ix s l' p' x' : l = l' -> p = p' -> x = x' ->
  dot_gen zero add mul conj c l p ip x ix s = dot_gen zero add mul conj c l' p' ip x' ix s.
Proof. now intros <- <- <-. Qed.
Lemma axpy_cong c l u p ip x ix s l' u' p' x' : l = l' -> u = u' -> p = p' -> x = x' ->
  axpy_gen add mul conj c l u p ip x ix s = axpy_gen add mul conj c l' u' p' ip x' ix s.
Proof. now intros <- <- <- <-. Qed.
Lemma load_cong (s : list A) p p' : p = p' -> load s p = load s p'.
Proof. now intros <-. Qed.
Lemma store_cong (s : list A) p p' v : p = p' -> store s p v = store s p' v.
Proof. now intros <-. Qed.
Lemma plus_cong s p p' (v v' : A) : p = p' -> v = v' -> plus_at add s p v = plus_at add s p' v'.
Proof. now intros <- <-. Qed.
Lemma minus_cong s p p' (v : A) : p = p' -> minus_at sub s p v = minus_at sub s p' v.
Proof. now intros <-. Qed.
Lemma times_cong c s p p' q q' : p = p' -> q = q' -> times_at mul conj c s p q = times_at mul conj c s p' q'.
Proof. now intros <- <-. Qed.
Lemma over_cong c s p p' q q' : p = p' -> q = q' -> over_at div conj c s p q = over_at div conj c s p' q'.
Proof. now intros <- <-. Qed.
End Calls.
Ltac same :=
  lazymatch goal with
  | |- @eq Z _ _ => ring
  | |- bind ?a (fun v => Ok v) = ?b => rewrite (bind_ret a); same
  | |- ?b = bind ?a (fun v => Ok v) => rewrite (bind_ret a); same
  | |- bind (Ok _) _ = _ => cbn [bind]; same
  | |- _ = bind (Ok _) _ => cbn [bind]; same
  | |- bind _ _ = bind _ _ => apply bind_cong; [same|intros ?; same]
  | |- dot_gen _ _ _ _ _ _ _ _ _ _ _ = _ => apply dot_cong; same
  | |- axpy_gen _ _ _ _ _ _ _ _ _ _ _ = _ => apply axpy_cong; same
  | |- load _ _ = _ => apply load_cong; same
  | |- store _ _ _ = _ => apply store_cong; same
  | |- plus_at _ _ _ _ = _ => apply plus_cong; same
  | |- minus_at _ _ _ _ = _ => apply minus_cong; same
  | |- times_at _ _ _ _ _ _ = _ => apply times_cong; same
  | |- over_at _ _ _ _ _ _ = _ => apply over_cong; same
  | |- _ => first [reflexivity | match goal with H : semi_ring_theory _ _ _ _ eq |- _ => apply (SRmul_comm H) end]
  end.

(** ** Packed rows *)
Definition tlo (up : uplo) (i : Z) : Z := match up with Upper => i + 1 | Lower => 0 end.
Definition tlen (up : uplo) (n i : Z) : Z := match up with Upper => n - 1 - i | Lower => i end.
Definition tp (up : uplo) (n a i : Z) : Z := match up with Upper => a + i * (2 * n - i + 1) / 2 + 1 | Lower => a + i * (i + 1) / 2 end.
Definition tq (up : uplo) (n a i : Z) : Z := match up with Upper => a + i * (2 * n - i + 1) / 2 | Lower => a + i * (i + 3) / 2 end.
Lemma half_upper i n : i * (2 * n - i + 1) / 2 = i * (2 * n - i - 1) / 2 + i.
Proof. replace (i * (2 * n - i + 1)) with (i * (2 * n - i - 1) + i * 2) by ring. now rewrite Z.div_add by lia. Qed.
Lemma half_lower i : i * (i + 3) / 2 = i * (i + 1) / 2 + i.
Proof. replace (i * (i + 3)) with (i * (i + 1) + i * 2) by ring. now rewrite Z.div_add by lia. Qed.
Lemma kept_diag up dg i : kept up dg i i = diag_kept dg.
Proof. destruct up, dg; unfold kept; cbn; lia. Qed.
Lemma packed_rowed up dg n a : rowed up (diag_kept dg) (kept up dg) (packed_cell RowMajor up n a) n (tlo up) (tlen up n) (tp up n a) (tq up n a).
Proof.
  intros i Hi. split; [|split; [|split; [split; [|apply kept_diag]|split]]].
  - destruct up; cbn; lia.
  - destruct up; cbn [tlo tlen tp tq]; [lia|]. rewrite half_lower. lia.
  - destruct up; cbn [tq packed_cell]; rewrite ?half_upper, ?half_lower; lia.
  - intros k Hk. unfold kept. destruct up; cbn [tlo tlen tp packed_cell] in *.
    + split; [destruct dg; lia|]. rewrite half_upper. lia.
    + split; [destruct dg; lia|]. lia.
  - intros j Hj Ne N. unfold kept. destruct up; cbn [tlo tlen] in *; destruct dg; lia.
Qed.
(** ** Rows of a band *)
Definition blo (up : uplo) (k i : Z) : Z := match up with Upper => i + 1 | Lower => Z.max (i - k) 0 end.
Definition blen (up : uplo) (n k i : Z) : Z := match up with Upper => Z.min (k + 1) (n - i) - 1 | Lower => Z.min k i end.
Definition bp (up : uplo) (k a lda i : Z) : Z := match up with Upper => a + lda * i + 1 | Lower => a + lda * i + Z.max (k - i) 0 end.
Definition bq (up : uplo) (k a lda i : Z) : Z := match up with Upper => a + lda * i | Lower => a + lda * i + Z.max (k - i) 0 + Z.min k i end.
Lemma band_rowed up dg n k a lda : 0 <= k ->
  rowed up (diag_kept dg) (band_kept up dg k) (band_cell RowMajor up k a lda) n (blo up k) (blen up n k) (bp up k a lda) (bq up k a lda).
Proof.
  intros Hk0 i Hi. split; [|split; [|split; [split|split]]].
  - destruct up; cbn; lia.
  - destruct up; cbn [blo blen bp bq]; lia.
  - destruct up; cbn [bq band_cell]; lia.
  - unfold band_kept. rewrite kept_diag. replace (Z.abs (i - i) <=? k) with true by lia. apply andb_true_r.
  - intros j Hj. unfold band_kept, kept. destruct up; cbn [blo blen bp band_cell] in *; (split; [destruct dg; lia|lia]).
  - intros j Hj Ne N. unfold band_kept, kept. destruct up; cbn [blo blen] in *; destruct dg; lia.
Qed.

(** ** From rows to columns *)
Definition row_cell (o : order) (f : Z -> Z -> Z) (i j : Z) : Z := match o with RowMajor => f i j | ColMajor => f j i end.
Lemma packed_flip up n a i j : packed_cell ColMajor up n a i j = packed_cell RowMajor (other up) n a j i.
Proof. destruct up; reflexivity. Qed.
Lemma band_flip up k a lda i j : band_cell ColMajor up k a lda i j = band_cell RowMajor (other up) k a lda j i.
Proof. destruct up; cbn; lia. Qed.
Lemma band_kept_other up dg k i j : band_kept (other up) dg k j i = band_kept up dg k i j.
Proof. unfold band_kept. rewrite kept_other. now replace (Z.abs (j - i)) with (Z.abs (i - j)) by lia. Qed.
Section Flip.
Context {A : Type} (d zero one : A) (add mul : A -> A -> A) (conj : A -> A).
Variables (held held' : Z -> Z -> bool) (at_ at_' : Z -> Z -> Z) (m : list A) (n x inc : Z) (t : trans).
Hypothesis Hh : forall i j, held' j i = held i j.
Hypothesis Ha : forall i j, at_' j i = at_ i j.
Lemma flip_apart cells : held_apart held at_ m n n cells -> held_apart held' at_' m n n cells.
Proof using Hh Ha. intros H i j Hi Hj K. rewrite Ha. apply H; [exact Hj|exact Hi|]. now rewrite <- Hh. Qed.
Lemma flip_entry i j : triangular_of d zero one held' at_' m i j = triangular_of d zero one held at_ m j i.
Proof using Hh Ha. unfold triangular_of. now rewrite Hh, Ha, (Z.eqb_sym i j). Qed.
Lemma flip_op i j : op conj (flip t) (triangular_of d zero one held' at_' m) i j = op conj t (triangular_of d zero one held at_ m) i j.
Proof using Hh Ha. destruct t; cbn [op flip]; now rewrite flip_entry. Qed.
Lemma flip_multiplied m' :
  multiplied d zero add mul n x inc m (op conj (flip t) (triangular_of d zero one held' at_' m)) m' ->
  multiplied d zero add mul n x inc m (op conj t (triangular_of d zero one held at_ m)) m'.
Proof using Hh Ha. intros [C H]. split; [exact C|]. intros i Hi. rewrite (H i Hi). apply zsum_ext. intros j Hj. now rewrite flip_op. Qed.
Lemma flip_solved m' :
  solved d zero add mul n x inc m (op conj (flip t) (triangular_of d zero one held' at_' m)) m' ->
  solved d zero add mul n x inc m (op conj t (triangular_of d zero one held at_ m)) m'.
Proof using Hh Ha. intros [C H]. split; [exact C|]. intros i Hi. rewrite <- (H i Hi). apply zsum_ext. intros j Hj. now rewrite flip_op. Qed.
Lemma flip_invertible : invertible zero conj n (triangular_of d zero one held at_ m) -> invertible zero conj n (triangular_of d zero one held' at_' m).
Proof using Hh Ha. intros H i Hi. rewrite flip_entry. now apply H. Qed.
End Flip.

Section Products.
Context {A : Type} (d zero one : A) (add mul : A -> A -> A) (conj : A -> A).
Hypothesis SR : semi_ring_theory zero one add mul eq.
Hypothesis CJ : conjugate zero one conj.
Lemma store_same (s : list A) w v t : load s w = Ok v -> store s w v = Ok t -> t = s.
Proof using d.
  unfold load, store. destruct (w <? 0); [discriminate|]. unfold rd, wr. destruct (nth_error s (Z.to_nat w)) as [v'|] eqn:E; [|discriminate].
  intros H. injection H as ->. destruct (_ <? _)%nat; [|discriminate]. intros H. injection H as <-. apply (list_eq_nth d).
  - apply upd_length.
  - intros i Hi. rewrite nth_upd. destruct (_ && _) eqn:B; [|reflexivity]. apply andb_prop in B. destruct B as [B _].
    apply Nat.eqb_eq in B. subst i. symmetry. now apply nth_error_nth.
Qed.
Lemma plus_zero s w (t : list A) : plus_at add s w zero = Ok t -> t = s.
Proof using d SR.
  unfold plus_at. destruct (load s w) as [v|ex|] eqn:E; cbn [bind]; try discriminate. intros H.
  rewrite (SRadd_comm SR), (SRadd_0_l SR) in H. exact (store_same s w v t E H).
Qed.
Lemma dot_none c l p ip z iz (s : list A) : l <= 0 -> dot_gen zero add mul conj c l p ip z iz s = Ok zero.
Proof using Type. intros H. unfold dot_gen. now rewrite walk_nonpos by exact H. Qed.
Lemma axpy_none c l u p ip z iz (s : list A) : l <= 0 -> axpy_gen add mul conj c l u p ip z iz s = Ok s.
Proof using Type. intros H. unfold axpy_gen. now rewrite walk_nonpos by exact H. Qed.
Lemma tpmv_row_ok up t dg n a x inc m : inc <> 0 -> inside m x inc n ->
  held_apart (kept up dg) (packed_cell RowMajor up n a) m n n (in_vector x inc n) ->
  exists m', tpmv_row zero add mul conj up t dg n a x inc m = Ok m' /\
    multiplied d zero add mul n x inc m (op conj t (triangular_of d zero one (kept up dg) (packed_cell RowMajor up n a) m)) m'.
Proof using SR CJ.
  intros Hinc Hin Hap.
  pose proof (fun body => mv_loop d zero one conj up t dg n x inc m _ _ _ _ _ _ CJ (packed_rowed up dg n a) Hap Hinc Hin add mul SR body) as L.
  unfold tpmv_row. set (R := op conj t _) in *. clearbody R.
  destruct (is_trans t) eqn:Ht, up, dg; cbn [tlo tlen tp tq] in L;
    match goal with |- exists m', ?f ?n' ?inc ?body ?mm = Ok m' /\ _ => specialize (L body) | |- exists m', ?f ?n' ?n'' ?inc ?body ?mm = Ok m' /\ _ => specialize (L body) end;
    (destruct L as (m' & E & P); [intros i s Hi; unfold axpy_body, dot_body; cbn [tlo tlen tp tq]; same|]); exists m'; (split; [|exact P]); try exact E.
  - apply ascend_skip_first; [|exact E]. intros s s' Hn. destruct (load s _); cbn [bind]; try discriminate. rewrite axpy_none by lia. congruence.
  - apply ascend_skip_last; [|exact E]. intros s s' Hn. rewrite dot_none by lia. apply plus_zero.
  - apply descend_skip_last; [|exact E]. intros s s' Hn. rewrite dot_none by lia. apply plus_zero.
Qed.
Lemma tpmv_ok o up t dg n a x inc m : inc <> 0 -> inside m x inc n ->
  held_apart (kept up dg) (packed_cell o up n a) m n n (in_vector x inc n) ->
  exists m', tpmv zero add mul conj o up t dg n a x inc m = Ok m' /\
    multiplied d zero add mul n x inc m (op conj t (triangular_of d zero one (kept up dg) (packed_cell o up n a) m)) m'.
Proof using SR CJ.
  intros Hinc Hin Hap. destruct o; [now apply tpmv_row_ok|].
  destruct (tpmv_row_ok (other up) (flip t) dg n a x inc m Hinc Hin) as (m' & E & P).
  - eapply flip_apart; [| |exact Hap]; intros i j; [apply kept_other|now rewrite packed_flip].
  - exists m'. split; [exact E|]. eapply flip_multiplied; [| |exact P]; intros i j; [apply kept_other|now rewrite packed_flip].
Qed.
Lemma tbmv_row_ok up t dg n k a lda x inc m : inc <> 0 -> 0 <= k -> inside m x inc n ->
  held_apart (band_kept up dg k) (band_cell RowMajor up k a lda) m n n (in_vector x inc n) ->
  exists m', tbmv_row zero add mul conj up t dg n k a lda x inc m = Ok m' /\
    multiplied d zero add mul n x inc m (op conj t (triangular_of d zero one (band_kept up dg k) (band_cell RowMajor up k a lda) m)) m'.
Proof using SR CJ.
  intros Hinc Hk Hin Hap.
  pose proof (fun body => mv_loop d zero one conj up t dg n x inc m _ _ _ _ _ _ CJ (band_rowed up dg n k a lda Hk) Hap Hinc Hin add mul SR body) as L.
  unfold tbmv_row. set (R := op conj t _) in *. clearbody R.
  destruct (is_trans t) eqn:Ht, up; cbn [blo blen bp bq] in L;
    match goal with |- exists m', ?f ?n' ?inc ?body ?mm = Ok m' /\ _ => specialize (L body) | |- exists m', ?f ?n' ?n'' ?inc ?body ?mm = Ok m' /\ _ => specialize (L body) end;
    (destruct L as (m' & E & P); [intros i s Hi; unfold axpy_body, dot_body; cbv zeta; cbn [blo blen bp bq]; destruct dg; same|]); exists m'; (split; [exact E|exact P]).
Qed.
Lemma tbmv_ok o up t dg n k a lda x inc m : inc <> 0 -> 0 <= k -> inside m x inc n ->
  held_apart (band_kept up dg k) (band_cell o up k a lda) m n n (in_vector x inc n) ->
  exists m', tbmv zero add mul conj o up t dg n k a lda x inc m = Ok m' /\
    multiplied d zero add mul n x inc m (op conj t (triangular_of d zero one (band_kept up dg k) (band_cell o up k a lda) m)) m'.
Proof using SR CJ.
  intros Hinc Hk Hin Hap. unfold tbmv. destruct (n =? 0) eqn:En.
  { exists m. split; [reflexivity|]. split; [apply changes_refl|]. intros; lia. }
  destruct o; [now apply tbmv_row_ok|].
  destruct (tbmv_row_ok (other up) (flip t) dg n k a lda x inc m Hinc Hk Hin) as (m' & E & P).
  - eapply flip_apart; [| |exact Hap]; intros i j; [apply band_kept_other|now rewrite band_flip].
  - exists m'. split; [exact E|]. eapply flip_multiplied; [| |exact P]; intros i j; [apply band_kept_other|now rewrite band_flip].
Qed.
End Products.

Section Systems.
Context {A : Type} (d zero one : A) (add sub mul div : A -> A -> A) (opp inv conj : A -> A).
Hypothesis FT : field_theory zero one add mul sub opp div inv eq.
Hypothesis CJ : conjugate zero one conj.
Add Field PackField3 : FT.
Lemma minus_zero s w (t : list A) : minus_at sub s w zero = Ok t -> t = s.
Proof using d FT.
  unfold minus_at. destruct (load s w) as [v|ex|] eqn:E; cbn [bind]; try discriminate. intros H.
  replace (sub v zero) with v in H by ring. exact (store_same d s w v t E H).
Qed.
Lemma tpsv_row_ok up t dg n a x inc m : inc <> 0 -> inside m x inc n ->
  held_apart (kept up dg) (packed_cell RowMajor up n a) m n n (in_vector x inc n) ->
  invertible zero conj n (triangular_of d zero one (kept up dg) (packed_cell RowMajor up n a) m) ->
  exists m', tpsv_row zero add sub mul div opp conj up t dg n a x inc m = Ok m' /\
    solved d zero add mul n x inc m (op conj t (triangular_of d zero one (kept up dg) (packed_cell RowMajor up n a) m)) m'.
Proof using FT CJ.
  intros Hinc Hin Hap Hinv.
  pose proof (fun body => sv_loop d zero one conj up t dg n x inc m _ _ _ _ _ _ CJ (packed_rowed up dg n a) Hap Hinc Hin add sub mul div opp inv FT Hinv body) as L.
  unfold tpsv_row. set (R := op conj t _) in *. clearbody R.
  destruct (is_trans t) eqn:Ht, up, dg; cbn [tlo tlen tp tq] in L;
    match goal with |- exists m', ?f ?n' ?inc ?body ?mm = Ok m' /\ _ => specialize (L body) | |- exists m', ?f ?n' ?n'' ?inc ?body ?mm = Ok m' /\ _ => specialize (L body) end;
    (destruct L as (m' & E & P); [intros i s Hi; unfold axpy_solve, dot_solve; cbn [tlo tlen tp tq]; same|]); exists m'; (split; [|exact P]); try exact E.
  - apply ascend_skip_last; [|exact E]. intros s s' Hn. destruct (load s _); cbn [bind]; try discriminate. rewrite axpy_none by lia. congruence.
  - apply descend_skip_last; [|exact E]. intros s s' Hn. destruct (load s _); cbn [bind]; try discriminate. rewrite axpy_none by lia. congruence.
  - apply ascend_skip_first; [|exact E]. intros s s' Hn. rewrite dot_none by lia. apply minus_zero.
Qed.
Lemma tpsv_ok o up t dg n a x inc m : inc <> 0 -> inside m x inc n ->
  held_apart (kept up dg) (packed_cell o up n a) m n n (in_vector x inc n) ->
  invertible zero conj n (triangular_of d zero one (kept up dg) (packed_cell o up n a) m) ->
  exists m', tpsv zero add sub mul div opp conj o up t dg n a x inc m = Ok m' /\
    solved d zero add mul n x inc m (op conj t (triangular_of d zero one (kept up dg) (packed_cell o up n a) m)) m'.
Proof using FT CJ.
  intros Hinc Hin Hap Hinv. destruct o; [now apply tpsv_row_ok|].
  destruct (tpsv_row_ok (other up) (flip t) dg n a x inc m Hinc Hin) as (m' & E & P).
  - eapply flip_apart; [| |exact Hap]; intros i j; [apply kept_other|now rewrite packed_flip].
  - eapply flip_invertible; [| |exact Hinv]; intros i j; [apply kept_other|now rewrite packed_flip].
  - exists m'. split; [exact E|]. eapply flip_solved; [| |exact P]; intros i j; [apply kept_other|now rewrite packed_flip].
Qed.
Lemma tbsv_row_ok up t dg n k a lda x inc m : inc <> 0 -> 0 <= k -> inside m x inc n ->
  held_apart (band_kept up dg k) (band_cell RowMajor up k a lda) m n n (in_vector x inc n) ->
  invertible zero conj n (triangular_of d zero one (band_kept up dg k) (band_cell RowMajor up k a lda) m) ->
  exists m', tbsv_row zero add sub mul div opp conj up t dg n k a lda x inc m = Ok m' /\
    solved d zero add mul n x inc m (op conj t (triangular_of d zero one (band_kept up dg k) (band_cell RowMajor up k a lda) m)) m'.
Proof using FT CJ.
  intros Hinc Hk Hin Hap Hinv.
  pose proof (fun body => sv_loop d zero one conj up t dg n x inc m _ _ _ _ _ _ CJ (band_rowed up dg n k a lda Hk) Hap Hinc Hin add sub mul div opp inv FT Hinv body) as L.
  unfold tbsv_row. set (R := op conj t _) in *. clearbody R.
  destruct (is_trans t) eqn:Ht, up; cbn [blo blen bp bq] in L;
    match goal with |- exists m', ?f ?n' ?inc ?body ?mm = Ok m' /\ _ => specialize (L body) | |- exists m', ?f ?n' ?n'' ?inc ?body ?mm = Ok m' /\ _ => specialize (L body) end;
    (destruct L as (m' & E & P); [intros i s Hi; unfold axpy_solve, dot_solve; cbv zeta; cbn [blo blen bp bq]; destruct dg; same|]); exists m'; (split; [exact E|exact P]).
Qed.
Lemma tbsv_ok o up t dg n k a lda x inc m : inc <> 0 -> 0 <= k -> inside m x inc n ->
  held_apart (band_kept up dg k) (band_cell o up k a lda) m n n (in_vector x inc n) ->
  invertible zero conj n (triangular_of d zero one (band_kept up dg k) (band_cell o up k a lda) m) ->
  exists m', tbsv zero add sub mul div opp conj o up t dg n k a lda x inc m = Ok m' /\
    solved d zero add mul n x inc m (op conj t (triangular_of d zero one (band_kept up dg k) (band_cell o up k a lda) m)) m'.
Proof using FT CJ.
  intros Hinc Hk Hin Hap Hinv. unfold tbsv. destruct (n =? 0) eqn:En.
  { exists m. split; [reflexivity|]. split; [apply changes_refl|]. intros; lia. }
  destruct o; [now apply tbsv_row_ok|].
  destruct (tbsv_row_ok (other up) (flip t) dg n k a lda x inc m Hinc Hk Hin) as (m' & E & P).
  - eapply flip_apart; [| |exact Hap]; intros i j; [apply band_kept_other|now rewrite band_flip].
  - eapply flip_invertible; [| |exact Hinv]; intros i j; [apply band_kept_other|now rewrite band_flip].
  - exists m'. split; [exact E|]. eapply flip_solved; [| |exact P]; intros i j; [apply band_kept_other|now rewrite band_flip].
Qed.
End Systems.

(** ** There and back *)
Lemma entry_side {A} (d zero one : A) up held at_ m i j : (forall i j, held i j = true -> kept up NonUnit i j = true) ->
  match up with Upper => j < i | Lower => i < j end -> triangular_of d zero one held at_ m i j = zero.
Proof.
  intros Hside H. unfold triangular_of. destruct (held i j) eqn:K.
  - apply Hside in K. unfold kept in K. destruct up; lia.
  - now replace (i =? j) with false by (destruct up; lia).
Qed.
Section Back.
Context {A : Type} (d zero one : A) (add sub mul div : A -> A -> A) (opp inv conj : A -> A).
Hypothesis FT : field_theory zero one add mul sub opp div inv eq.
Hypothesis CJ : conjugate zero one conj.
Variables (up : uplo) (t : trans) (n x inc : Z) (held : Z -> Z -> bool) (at_ : Z -> Z -> Z) (mv sv : list A -> outcome (list A)).
Local Notation V := (in_vector x inc n).
Local Notation M := (triangular_of d zero one held at_).
Local Notation R m := (op conj t (M m)).
Hypothesis Hside : forall i j, held i j = true -> kept up NonUnit i j = true.
Hypothesis Hmv : forall m, inside m x inc n -> held_apart held at_ m n n V -> exists m', mv m = Ok m' /\ multiplied d zero add mul n x inc m (R m) m'.
Hypothesis Hsv : forall m, inside m x inc n -> held_apart held at_ m n n V -> invertible zero conj n (M m) -> exists m', sv m = Ok m' /\ solved d zero add mul n x inc m (R m) m'.
Lemma unique_entries m u v : invertible zero conj n (M m) ->
  (forall i, 0 <= i < n -> zsum zero add n (fun j => mul (R m i j) (u j)) = zsum zero add n (fun j => mul (R m i j) (v j))) ->
  forall i, 0 <= i < n -> u i = v i.
Proof using FT CJ Hside.
  clear Hmv Hsv mv sv x inc. intros Hd. assert (Nz : forall i, 0 <= i < n -> R m i i <> zero) by (intros i Hi; destruct (Hd i Hi) as [D1 D2]; destruct t; cbn [op]; assumption).
  assert (Zr : forall i j, match up, is_trans t with Upper, false | Lower, true => j < i | Lower, false | Upper, true => i < j end -> R m i j = zero).
  { intros i j H. pose proof (entry_side d zero one up held at_ m i j Hside) as E1. pose proof (entry_side d zero one up held at_ m j i Hside) as E2. destruct CJ as [J0 _].
    destruct t, up; cbn [op is_trans] in *; rewrite ?E1, ?E2 by exact H; auto. }
  destruct up, (is_trans t) eqn:Ht.
  - apply (unique_left zero one add mul sub div opp inv FT n (R m) u v); [intros i j H1 H2; apply Zr; lia|exact Nz].
  - apply (unique_right zero one add mul sub div opp inv FT n (R m) u v); [intros i j H1 H2; apply Zr; lia|exact Nz].
  - apply (unique_right zero one add mul sub div opp inv FT n (R m) u v); [intros i j H1 H2; apply Zr; lia|exact Nz].
  - apply (unique_left zero one add mul sub div opp inv FT n (R m) u v); [intros i j H1 H2; apply Zr; lia|exact Nz].
Qed.
Lemma packed_back m : inside m x inc n -> held_apart held at_ m n n V -> invertible zero conj n (M m) ->
  (exists m1, mv m = Ok m1 /\ sv m1 = Ok m) /\ (exists m1, sv m = Ok m1 /\ mv m1 = Ok m).
Proof using FT CJ Hside Hmv Hsv.
  intros Hin HA Hd.
  assert (Same : forall m1, changes d m m1 V -> (forall i j, 0 <= i < n -> 0 <= j < n -> M m1 i j = M m i j) /\
    (forall i j, 0 <= i < n -> 0 <= j < n -> R m1 i j = R m i j) /\ inside m1 x inc n /\ held_apart held at_ m1 n n V /\ invertible zero conj n (M m1)).
  { intros m1 C. assert (T : forall i j, 0 <= i < n -> 0 <= j < n -> M m1 i j = M m i j).
    { intros i j Hi Hj. unfold triangular_of. destruct (held i j) eqn:K; [|reflexivity]. destruct (HA i j Hi Hj K) as [P N]. now apply C. }
    split; [exact T|]. split; [|split; [|split]].
    - intros i j Hi Hj. destruct t; cbn [op]; now rewrite T.
    - intros i Hi. destruct C as [L _]. rewrite L. now apply Hin.
    - intros i j Hi Hj K. destruct C as [L _]. rewrite L. now apply HA.
    - intros i Hi. rewrite T by assumption. now apply Hd. }
  assert (Fin : forall m1 m2, changes d m m1 V -> changes d m1 m2 V ->
    (forall i, 0 <= i < n -> val d m2 (elt x inc n i) = val d m (elt x inc n i)) -> m2 = m).
  { intros m1 m2 [L1 C1] [L2 C2] E. apply (memory_eq d); [congruence|]. intros p Hp.
    destruct (in_vector_dec x inc n p) as [(i & Hi & ->)|N]; [now apply E|]. rewrite C2, C1; auto. now rewrite L1. }
  split.
  - destruct (Hmv m Hin HA) as (m1 & E1 & C1 & V1). destruct (Same m1 C1) as (_ & T & Hin1 & HA1 & Hd1).
    destruct (Hsv m1 Hin1 HA1 Hd1) as (m2 & E2 & C2 & V2). exists m1. split; [exact E1|]. rewrite E2. f_equal. apply (Fin m1 m2 C1 C2).
    apply (unique_entries m (fun i => val d m2 (elt x inc n i)) (fun i => val d m (elt x inc n i)) Hd).
    intros i Hi. rewrite <- V1 by exact Hi. rewrite <- V2 by exact Hi. apply zsum_ext. intros j Hj. now rewrite T.
  - destruct (Hsv m Hin HA Hd) as (m1 & E1 & C1 & V1). destruct (Same m1 C1) as (_ & T & Hin1 & HA1 & _).
    destruct (Hmv m1 Hin1 HA1) as (m2 & E2 & C2 & V2). exists m1. split; [exact E1|]. rewrite E2. f_equal. apply (Fin m1 m2 C1 C2).
    intros i Hi. rewrite V2 by exact Hi. rewrite <- V1 by exact Hi. apply zsum_ext. intros j Hj. now rewrite T.
Qed.
End Back.
