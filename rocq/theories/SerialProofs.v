(** Proofs about serialisation. *)
From Coq Require Import String.
From Verif Require Import Base BaseProofs SerialModel SerialSpec.
From Coq Require Import ZifyNat ZifyN ZifyBool.
Ltac Zify.zify_post_hook ::= idtac.
Local Open Scope nat_scope.

Lemma bytes_of_length n v : length (bytes_of n v) = n.
Proof. revert v. induction n as [|n IH]; intros v; cbn; [reflexivity|]. now rewrite IH. Qed.
Lemma bytes_of_byte n v : Forall is_byte (bytes_of n v).
Proof.
  revert v. induction n as [|n IH]; intros v; cbn [bytes_of]; constructor; auto.
  apply N.mod_lt. discriminate.
Qed.
Lemma of_bytes_bytes n v : (v < 256 ^ N.of_nat n)%N -> of_bytes (bytes_of n v) = v.
Proof.
  revert v. induction n as [|n IH]; intros v H; cbn [bytes_of of_bytes].
  - cbn in H. lia.
  - rewrite IH.
    + rewrite (N.div_mod v 256) at 3 by discriminate. lia.
    + rewrite Nat2N.inj_succ, N.pow_succ_r in H by lia. apply N.div_lt_upper_bound; [discriminate|exact H].
Qed.
Lemma bytes_of_bytes l : Forall is_byte l -> bytes_of (length l) (of_bytes l) = l.
Proof.
  induction 1 as [|b l Hb Hl IH]; [reflexivity|]. cbn [length bytes_of of_bytes].
  unfold is_byte in Hb. f_equal.
  - rewrite N.mul_comm, N.mod_add by discriminate. now apply N.mod_small.
  - rewrite N.mul_comm, N.div_add by discriminate. rewrite (N.div_small b) by exact Hb. exact IH.
Qed.

Lemma in_firstn {A} (x : A) n l : In x (firstn n l) -> In x l.
Proof. intros H. rewrite <- (firstn_skipn n l). apply in_or_app. now left. Qed.
Lemma in_skipn {A} (x : A) n l : In x (skipn n l) -> In x l.
Proof. intros H. rewrite <- (firstn_skipn n l). apply in_or_app. now right. Qed.

Section S.
Variable hash : string -> N.
Variable asserts : bool.

Lemma hasher_lt T : (hasher hash T < 256 ^ 8)%N.
Proof. unfold hasher. change (256 ^ 8)%N with (2 ^ 64)%N. apply N.mod_lt. discriminate. Qed.

Lemma serialize_eq T obj : length obj = size T ->
  serialize hash T obj = Ok (obj ++ bytes_of 8 (hasher hash T)).
Proof.
  intros HL. unfold serialize, copy_in. cbn [bind].
  rewrite bytes_of_length, repeat_length, Nat.leb_refl. cbn [bind].
  rewrite skipn_all2 by (rewrite repeat_length; lia). rewrite app_nil_r.
  rewrite app_length, firstn_length, repeat_length, bytes_of_length, HL.
  destruct (Nat.leb_spec (0 + size T) (Nat.min (size T) (size T + 8) + 8)); [|lia].
  cbn [firstn app Nat.add]. do 2 f_equal.
  rewrite skipn_app, firstn_length, repeat_length.
  rewrite (skipn_all2 (firstn _ _)) by (rewrite firstn_length, repeat_length; lia).
  replace (size T - Nat.min (size T) (size T + 8)) with 0 by lia. reflexivity.
Qed.

Lemma deserialize_eq T data : Forall is_byte data ->
  deserialize hash asserts T data =
  if length data <? size T + 8 then UB
  else if asserts && negb (if list_eq_dec N.eq_dec (identity T data) (bytes_of 8 (hasher hash T)) then true else false)
  then Throw RuntimeError else Ok (firstn (size T) data).
Proof.
  intros Hb. unfold deserialize, copy_out.
  destruct (Nat.ltb_spec (length data) (size T + 8)), (Nat.leb_spec (size T + 8) (length data)); try lia; [reflexivity|].
  cbn [bind]. fold (identity T data).
  assert (HL : length (identity T data) = 8).
  { unfold identity. rewrite firstn_length, skipn_length. lia. }
  assert (HB : Forall is_byte (identity T data)).
  { unfold identity. rewrite Forall_forall in *. intros x Hx. apply Hb.
    now apply in_firstn, in_skipn in Hx. }
  assert (E : (hasher hash T =? of_bytes (identity T data))%N =
              if list_eq_dec N.eq_dec (identity T data) (bytes_of 8 (hasher hash T)) then true else false).
  { destruct (list_eq_dec _ _ _) as [->|Hne].
    - rewrite (of_bytes_bytes 8) by apply hasher_lt. apply N.eqb_refl.
    - apply N.eqb_neq. intros He. apply Hne. rewrite He. rewrite <- HL. now rewrite bytes_of_bytes. }
  rewrite E. destruct (asserts && _)%bool; [reflexivity|].
  destruct (Nat.leb_spec (0 + size T) (length data)); [reflexivity|lia].
Qed.
End S.

(** Text mode. *)
Lemma to_text_id l : ~ In 10%N l -> to_text l = l.
Proof.
  induction l as [|b l IH]; cbn; intros H; [reflexivity|].
  destruct (N.eqb_spec b 10); [exfalso; auto|]. f_equal. auto.
Qed.
Lemma to_text_length l : length l <= length (to_text l) /\ (In 10%N l -> length l < length (to_text l)).
Proof.
  induction l as [|b l [IH1 IH2]]; cbn; [split; [lia|easy]|].
  destruct (N.eqb_spec b 10); cbn; split; try lia. intros [->|H]; [congruence|]. specialize (IH2 H). lia.
Qed.
Lemma of_text_to_text l : ~ In 26%N l -> ~ In 13%N l -> of_text (to_text l) = l.
Proof.
  induction l as [|b l IH]; intros H1 H2; [reflexivity|].
  cbn [to_text]. destruct (N.eqb_spec b 10) as [->|Hb].
  - cbn. f_equal. apply IH; intros H; [apply H1|apply H2]; now right.
  - cbn [of_text]. destruct (N.eqb_spec b 26) as [->|_]; [exfalso; apply H1; now left|].
    assert (IH' : of_text (to_text l) = l) by (apply IH; intros H; [apply H1|apply H2]; now right).
    destruct (N.eqb_spec b 13) as [->|_]; [exfalso; apply H2; now left|]. cbn [andb].
    destruct (to_text l) as [|c t] eqn:E.
    + destruct l as [|x l]; [reflexivity|]. cbn in E. destruct (x =? 10)%N; discriminate.
    + now rewrite IH'.
Qed.
