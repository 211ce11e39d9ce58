From Coq Require Import ZArith QArith Qpower Lia.
From Verif Require Import Base MpfModel MpfSpec.
Local Open Scope nat_scope.

Lemma fold_horner b l acc : fold_left (fun acc d => (acc * b + Z.of_nat d)%Z) l acc = (acc * b ^ Z.of_nat (length l) + horner b l)%Z.
Proof.
  revert acc. induction l as [|x l IH]; intros acc; unfold horner; cbn [fold_left length].
  - rewrite Z.pow_0_r. lia.
  - rewrite IH, (IH (0 * b + Z.of_nat x)%Z). rewrite Nat2Z.inj_succ, Z.pow_succ_r by lia. lia.
Qed.
Lemma horner_app b l r : horner b (l ++ r) = (horner b l * b ^ Z.of_nat (length r) + horner b r)%Z.
Proof. unfold horner at 1. rewrite fold_left_app. apply fold_horner. Qed.
Lemma horner_zeros b k : horner b (repeat 0 k) = 0%Z.
Proof.
  induction k; [reflexivity|]. change (repeat 0 (S k)) with ([0] ++ repeat 0 k). rewrite horner_app, IHk.
  change (horner b [0]) with (0 * b + 0)%Z. lia.
Qed.
Lemma take_digits_map ds r : (forall d r', r <> Dig d :: r') -> take_digits (map Dig ds ++ r) = (ds, r).
Proof.
  intros H. induction ds as [|d ds IH]; cbn [map app take_digits].
  - destruct r as [|[d| |] r]; auto. exfalso. now apply (H d r).
  - now rewrite IH.
Qed.
Lemma read_digits b is fs : is <> [] -> read_unsigned b (map Dig is ++ Dot :: map Dig fs) =
  Some (inject_Z (horner b (is ++ fs)) * Qpower (inject_Z b) (- Z.of_nat (length fs)))%Q.
Proof.
  intros H. unfold read_unsigned. rewrite take_digits_map by discriminate. destruct is as [|i is]; [congruence|].
  rewrite <- (app_nil_r (map Dig fs)), take_digits_map by discriminate. reflexivity.
Qed.
Lemma insert_dot_digits l e : e <= length l -> insert_dot e (map Dig l) = Ok (map Dig (firstn e l) ++ Dot :: map Dig (skipn e l)).
Proof.
  intros H. unfold insert_dot. rewrite map_length. replace (e <=? length l) with true by (symmetry; now apply Nat.leb_le).
  now rewrite firstn_map, skipn_map.
Qed.
Lemma zeros_map k : zeros k = map Dig (repeat 0 k).
Proof. unfold zeros. now induction k; cbn; [|rewrite IHk]. Qed.

Lemma read_split b l e : 1 <= e <= length l ->
  read_unsigned b (map Dig (firstn e l) ++ Dot :: map Dig (skipn e l)) =
  Some (inject_Z (horner b l) * Qpower (inject_Z b) (Z.of_nat e - Z.of_nat (length l)))%Q.
Proof.
  intros H. rewrite read_digits. 2: { intros E. apply (f_equal (@length _)) in E. rewrite firstn_length in E. cbn in E. lia. }
  rewrite firstn_skipn, skipn_length. do 3 f_equal. lia.
Qed.

(** the unsigned part of the function *)
Definition place (ds : list nat) (exp : Z) : list nat * nat :=
  if (0 <? exp)%Z then let e := Z.to_nat exp in (if length ds <=? e then ds ++ repeat 0 (e - length ds + 1) else ds, e)
  else (repeat 0 (Z.to_nat (- exp + 1)) ++ ds, 1).
Lemma place_ok ds exp : let (l, e) := place ds exp in 1 <= e <= length l.
Proof.
  unfold place. destruct (0 <? exp)%Z eqn:E.
  - apply Z.ltb_lt in E. cbv zeta. destruct (length ds <=? Z.to_nat exp) eqn:L.
    + apply Nat.leb_le in L. rewrite app_length, repeat_length. lia.
    + apply Nat.leb_gt in L. lia.
  - apply Z.ltb_ge in E. rewrite app_length, repeat_length. lia.
Qed.
Lemma str_place negative ds exp : str_mpf (get_str negative ds) exp =
  let (l, e) := place ds exp in Ok ((if negative then [Minus] else []) ++ map Dig (firstn e l) ++ Dot :: map Dig (skipn e l)).
Proof.
  unfold str_mpf, get_str. assert (E : strip_sign ((if negative then [Minus] else []) ++ map Dig ds) = (negative, map Dig ds)).
  { destruct negative; [reflexivity|]. now destruct ds. }
  rewrite E. clear E. pose proof (place_ok ds exp) as P. unfold place in *. destruct (0 <? exp)%Z.
  - cbv zeta in *. rewrite map_length. destruct (length ds <=? Z.to_nat exp).
    + rewrite zeros_map, <- map_app, insert_dot_digits by apply P. cbn [bind]. now destruct negative.
    + rewrite insert_dot_digits by apply P. cbn [bind]. now destruct negative.
  - rewrite zeros_map, <- map_app, insert_dot_digits by apply P. cbn [bind]. now destruct negative.
Qed.
Lemma place_value b ds exp : (2 <= b)%Z -> let (l, e) := place ds exp in
  (inject_Z (horner b l) * Qpower (inject_Z b) (Z.of_nat e - Z.of_nat (length l)) ==
   inject_Z (horner b ds) * Qpower (inject_Z b) (exp - Z.of_nat (length ds)))%Q.
Proof.
  intros Hb. assert (B0 : ~ (inject_Z b == 0)%Q). { intros X. unfold Qeq in X. cbn in X. lia. }
  unfold place. destruct (0 <? exp)%Z eqn:E.
  - apply Z.ltb_lt in E. cbv zeta. destruct (length ds <=? Z.to_nat exp) eqn:L.
    + apply Nat.leb_le in L. rewrite horner_app, horner_zeros, app_length, repeat_length, Z.add_0_r, inject_Z_mult, Zpower_Qpower by lia.
      rewrite <- Qmult_assoc, <- Qpower_plus by exact B0.
      replace (Z.of_nat (Z.to_nat exp - length ds + 1) + (Z.of_nat (Z.to_nat exp) - Z.of_nat (length ds + (Z.to_nat exp - length ds + 1))))%Z
        with (exp - Z.of_nat (length ds))%Z by lia. reflexivity.
    + rewrite Z2Nat.id by lia. reflexivity.
  - apply Z.ltb_ge in E. rewrite horner_app, horner_zeros, app_length, repeat_length.
    replace (0 * b ^ Z.of_nat (length ds) + horner b ds)%Z with (horner b ds) by lia.
    replace (Z.of_nat 1 - Z.of_nat (Z.to_nat (- exp + 1) + length ds))%Z with (exp - Z.of_nat (length ds))%Z by lia. reflexivity.
Qed.
