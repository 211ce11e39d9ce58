(** C50: serialisation. *)
From Coq Require Import String.
From Verif Require Import Base BaseProofs SerialModel SerialSpec SerialProofs.
From Coq Require Import ZifyNat ZifyN ZifyBool.
Ltac Zify.zify_post_hook ::= idtac.
Local Open Scope nat_scope.

(** Deserialising what was serialised gives the object back; different objects have different
    serialised forms. *)
Theorem C50_round_trip : forall (hash : string -> N) (asserts : bool) (T : type) (obj : list N),
  object_of T obj ->
  exists data, serialize hash T obj = Ok data /\ length data = size T + 8 /\ Forall is_byte data /\
    deserialize hash asserts T data = Ok obj /\
    forall obj', object_of T obj' -> serialize hash T obj' = Ok data -> obj' = obj.
Proof.
  intros hash asserts T obj [HL HB]. rewrite (serialize_eq hash T obj HL). eexists. split; [reflexivity|].
  assert (Hd : Forall is_byte (obj ++ bytes_of 8 (hasher hash T))).
  { apply Forall_app. split; [exact HB|apply bytes_of_byte]. }
  assert (Hlen : length (obj ++ bytes_of 8 (hasher hash T)) = size T + 8).
  { rewrite app_length, bytes_of_length, HL. reflexivity. }
  split; [exact Hlen|]. split; [exact Hd|]. split.
  - rewrite deserialize_eq, Hlen by exact Hd. destruct (Nat.ltb_spec (size T + 8) (size T + 8)); [lia|].
    replace (identity T _) with (bytes_of 8 (hasher hash T)).
    2: { unfold identity. rewrite skipn_app, skipn_all2, HL, Nat.sub_diag by lia. cbn [app skipn].
         now rewrite firstn_all2 by (rewrite bytes_of_length; lia). }
    destruct (list_eq_dec _ _ _); [|congruence]. rewrite andb_false_r.
    rewrite firstn_app, HL, Nat.sub_diag, firstn_O, app_nil_r, <- HL. now rewrite firstn_all.
  - intros obj' [HL' _] E. rewrite (serialize_eq hash T obj' HL') in E. injection E as E.
    now apply app_inv_tail in E.
Qed.
Print Assumptions C50_round_trip.

(** With assertions enabled, data of at least the right length is accepted exactly when it carries
    the type's identity; data serialised from a type of the same size is rejected unless the two
    names have the same hash.  Missing: shorter data and disabled assertions (see below). *)
Theorem C50_type_check_partial : forall (hash : string -> N) (T T' : type) (data obj : list N),
  (Forall is_byte data -> size T + 8 <= length data ->
   (identity T data = bytes_of 8 (hasher hash T) -> deserialize hash true T data = Ok (firstn (size T) data)) /\
   (identity T data <> bytes_of 8 (hasher hash T) -> deserialize hash true T data = Throw RuntimeError)) /\
  (object_of T' obj -> size T = size T' -> hasher hash T <> hasher hash T' ->
   exists data', serialize hash T' obj = Ok data' /\ deserialize hash true T data' = Throw RuntimeError).
Proof.
  intros hash T T' data obj. split.
  - intros HB HL. rewrite (deserialize_eq hash true T data HB).
    destruct (Nat.ltb_spec (length data) (size T + 8)); [lia|].
    destruct (list_eq_dec _ _ _); split; intros; cbn; congruence.
  - intros [HL HB] Hs Hne. rewrite (serialize_eq hash T' obj HL). eexists. split; [reflexivity|].
    assert (Hd : Forall is_byte (obj ++ bytes_of 8 (hasher hash T'))).
    { apply Forall_app. split; [exact HB|apply bytes_of_byte]. }
    rewrite (deserialize_eq hash true T _ Hd), app_length, bytes_of_length, HL.
    destruct (Nat.ltb_spec (size T' + 8) (size T + 8)); [lia|].
    destruct (list_eq_dec _ _ _) as [He|]; [|reflexivity]. exfalso. apply Hne.
    unfold identity in He. rewrite skipn_app, skipn_all2 in He by lia.
    replace (size T - length obj) with 0 in He by lia. cbn [app skipn] in He.
    rewrite firstn_all2 in He by (rewrite bytes_of_length; lia).
    apply (f_equal of_bytes) in He. rewrite !(of_bytes_bytes 8) in He by apply hasher_lt. congruence.
Qed.
Print Assumptions C50_type_check_partial.

(** Data that is too short (in particular any proper prefix of serialised data) is not rejected:
    the read is out of bounds. *)
Theorem C50_truncated_refuted : forall (hash : string -> N) (asserts : bool) (T : type) (obj data : list N) (n : nat),
  object_of T obj -> serialize hash T obj = Ok data -> n < length data ->
  deserialize hash asserts T (firstn n data) = UB.
Proof.
  intros hash asserts T obj data n [HL HB] E Hn. rewrite (serialize_eq hash T obj HL) in E.
  assert (Hd : data = obj ++ bytes_of 8 (hasher hash T)) by congruence. clear E. subst data.
  unfold deserialize, copy_out. rewrite app_length, bytes_of_length, HL in Hn. rewrite firstn_length, app_length, bytes_of_length, HL.
  destruct (Nat.leb_spec (size T + 8) (Nat.min n (size T + 8))); [lia|reflexivity].
Qed.
Print Assumptions C50_truncated_refuted.

(** Without assertions nothing is checked; with them two types whose names have the same hash are
    not told apart, and a larger type's bytes can imitate the identity. *)
Theorem C50_other_type_refuted :
  (forall (hash : string -> N) (T : type) (data : list N), Forall is_byte data -> size T + 8 <= length data ->
     deserialize hash false T data = Ok (firstn (size T) data)) /\
  (forall hash : string -> N, exists T T' obj data,
     name T <> name T' /\ object_of T' obj /\ serialize hash T' obj = Ok data /\
     deserialize hash true T data <> Throw RuntimeError /\
     deserialize hash true T data = Ok (repeat 7%N (size T))).
Proof.
  split.
  - intros hash T data HB HL. rewrite deserialize_eq by exact HB.
    destruct (Nat.ltb_spec (length data) (size T + 8)); [lia|reflexivity].
  - intros hash. set (T := mkt 4 "int"). set (T' := mkt 12 "struct").
    set (obj := repeat 7%N 4 ++ bytes_of 8 (hasher hash T)).
    assert (HO : object_of T' obj).
    { split; [unfold obj; rewrite app_length, bytes_of_length; reflexivity|].
      apply Forall_app. split; [repeat constructor|apply bytes_of_byte]. }
    exists T, T', obj, (obj ++ bytes_of 8 (hasher hash T')).
    split; [discriminate|]. split; [exact HO|]. split; [now apply serialize_eq; apply HO|].
    assert (E : deserialize hash true T (obj ++ bytes_of 8 (hasher hash T')) = Ok (repeat 7%N (size T))).
    { rewrite deserialize_eq by (apply Forall_app; split; [apply HO|apply bytes_of_byte]).
      rewrite app_length, bytes_of_length, (proj1 HO). cbn [size T T' Nat.ltb Nat.leb Nat.add].
      destruct (list_eq_dec _ _ _) as [He|Hne]; [reflexivity|]. exfalso. apply Hne.
      unfold identity. cbn [size T]. unfold obj. rewrite <- app_assoc. cbn [repeat app skipn].
      rewrite firstn_app, bytes_of_length, Nat.sub_diag, firstn_O, app_nil_r.
      apply firstn_all2. rewrite bytes_of_length. lia. }
    split; [rewrite E; discriminate|exact E].
Qed.
Print Assumptions C50_other_type_refuted.

Example C50_example :
  let T := mkt 4 "int" in let hash s := N.of_nat (String.length s) in
  object_of T [1; 2; 3; 4]%N /\
  serialize hash T [1; 2; 3; 4]%N = Ok [1; 2; 3; 4; 3; 0; 0; 0; 0; 0; 0; 0]%N /\
  hasher hash T <> hasher hash (mkt 4 "float").
Proof. split; [|split; [reflexivity|discriminate]]. split; [reflexivity|]. repeat constructor. Qed.

(** Through a file: what was written is read back and both calls report success, on systems where
    text mode is transparent or when the path contains ".bin"; other files are unchanged. *)
Theorem C50_file_round_trip : forall (windows : bool) (f : fs) (path : string) (data old : list N),
  windows = false \/ binary path = true ->
  read windows (write windows f path data) path old = (true, data) /\
  forall p, p <> path -> write windows f path data p = f p.
Proof.
  intros windows f path data old H. split.
  - unfold read, write. rewrite String.eqb_refl.
    replace (windows && negb (binary path)) with false.
    2: { destruct H as [-> | ->]; [reflexivity|now rewrite andb_false_r]. }
    now rewrite Nat.eqb_refl, Nat.sub_diag, app_nil_r.
  - intros p Hp. unfold write. destruct (String.eqb_spec p path); [contradiction|reflexivity].
Qed.
Print Assumptions C50_file_round_trip.

(** On Windows with another path, data containing a line feed but no carriage return or Ctrl-Z is
    reported as failed; Ctrl-Z truncates it. *)
Theorem C50_text_file_refuted :
  (forall (f : fs) (path : string) (data old : list N),
     binary path = false -> In 10%N data -> ~ In 13%N data -> ~ In 26%N data ->
     fst (read true (write true f path data) path old) = false) /\
  binary "object.dat" = false /\ binary "object.bin" = true /\
  (forall f old, read true (write true f "object.dat" [1; 26; 3]%N) "object.dat" old = (false, [1; 0; 0]%N)).
Proof.
  split; [|repeat split].
  intros f path data old Hb H10 H13 H26. unfold read, write. rewrite String.eqb_refl, Hb. cbn [andb negb fst].
  rewrite of_text_to_text by assumption. apply Nat.eqb_neq.
  pose proof (proj2 (to_text_length data) H10). lia.
Qed.
Print Assumptions C50_text_file_refuted.
