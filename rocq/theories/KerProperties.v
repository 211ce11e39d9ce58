(** C103: loading CUDA kernels; C104: the names of OpenCL error codes. *)
From Coq Require Import ZArith String Ascii Lia.
From Coq Require Import ZifyNat ZifyN ZifyBool.
From Verif Require Import Base KerModel KerSpec KerProofs.
Ltac Zify.zify_post_hook ::= idtac.
Local Open Scope string_scope.

(** With assertions enabled: in every history of loads, with files that come, go and change in between, a load gives the text of the
    first load of that path that found its files, and an exception if there is none; a failed load leaves nothing behind. *)
Theorem C103_history : forall root h n l, nth_error h n = Some l -> Forall (fun x => sound_files root (files x)) h ->
  (forall t, first_text root (path l) (firstn (S n) h) t -> nth_error (loads true root none h) n = Some (Ok t)) /\
  ((forall t, ~ first_text root (path l) (firstn (S n) h) t) -> nth_error (loads true root none h) n = Some (Throw RuntimeError)).
Proof. intros root h n l N F. now apply loads_history. Qed.
Print Assumptions C103_history.

Definition ex_file (t : string) : option file := Some {| text := t; writable := true |}.
Definition ex_fs (kernel : option file) : fsys := fun p =>
  if String.eqb p "/src/include/librapid/cuda/kernels//kernelHelper.cuh" then ex_file "H"
  else if String.eqb p "/src/include/librapid/cuda/kernels//vectorOps.cuh" then ex_file "V"
  else if String.eqb p "/src/include/librapid/autodiff/dual.hpp" then ex_file "D"
  else if String.eqb p "/src/include/librapid/cuda/kernels//fill.cu" then kernel
  else if String.eqb p "fill.cu" then ex_file "mine" else None.
Definition ex_load (kernel : option file) : load := {| files := ex_fs kernel; path := "fill"; relative := true |}.

Example C103_ex_history : loads true "/src" none [ex_load None; ex_load (ex_file "K1"); ex_load (ex_file "K2"); ex_load None] =
  [Throw RuntimeError; Ok (program "fill" "H" "V" "D" "K1"); Ok (program "fill" "H" "V" "D" "K1"); Ok (program "fill" "H" "V" "D" "K1")].
Proof. vm_compute. reflexivity. Qed.
Example C103_ex_sound : forall k, sound_files "/src" (ex_fs k).
Proof. intros k. unfold sound_files. rewrite <- !fopen_reads. now repeat split. Qed.
Example C103_ex_first : first_text "/src" "fill" [ex_load None; ex_load (ex_file "K1"); ex_load (ex_file "K2")]
  (program "fill" "H" "V" "D" "K1").
Proof.
  apply first_later.
  - intros _. do 3 right. rewrite <- fopen_unreadable. reflexivity.
  - apply first_here; [reflexivity|]. exists "H", "V", "D", "K1". rewrite <- !fopen_reads. now repeat split.
Qed.

(** Assertions enabled or not: the first load of a path that finds its files gives the whole program. *)
Theorem C103_fresh : forall asserts root h l t, Forall (fun x => path x <> path l) h ->
  sound_files root (files l) -> source root (files l) (path l) (relative l) t ->
  nth_error (loads asserts root none (h ++ [l])) (length h) = Some (Ok t).
Proof.
  intros a root h l t F S T. assert (G : none (path l) = None) by reflexivity. revert F G. generalize none as c.
  induction h as [|x h IH]; intros c F G; cbn [app loads length].
  - now rewrite (load_found a root _ _ _ _ _ G S T).
  - inversion F as [|? ? P Fh]; subst. destruct (loadKernel a root (files x) c (path x) (relative x)) as [c' b] eqn:E. cbn.
    apply IH; [exact Fh|]. unfold loadKernel in E. destruct (c (path x)) as [w|]; [injection E as <- <-; exact G|].
    repeat match type of E with context [if ?b then _ else _] => destruct b; [injection E as <- <-; exact G|] end.
    injection E as <- <-. rewrite remember_other by congruence. exact G.
Qed.
Print Assumptions C103_fresh.

Example C103_ex_fresh : nth_error (loads false "/src" none [ex_load (ex_file "K")]) 0 =
  Some (Ok ("fill" ++ nl ++ "H" ++ nl ++ nl ++ "V" ++ nl ++ nl ++ "D" ++ nl ++ nl ++ "K")).
Proof. reflexivity. Qed.

(** Once a path has been answered, every later load of it gets the same text: references handed out are never overwritten. *)
Theorem C103_stable : forall asserts root h i j l m t, (i <= j)%nat -> nth_error h i = Some l -> nth_error h j = Some m ->
  path l = path m -> nth_error (loads asserts root none h) i = Some (Ok t) -> nth_error (loads asserts root none h) j = Some (Ok t).
Proof. intros. eapply loads_stable; eauto. Qed.
Print Assumptions C103_stable.

Example C103_ex_stable : nth_error (loads false "/src" none [ex_load (ex_file "K1"); ex_load (ex_file "K2")]) 1 =
  Some (Ok (program "fill" "H" "V" "D" "K1")).
Proof. vm_compute. reflexivity. Qed.

(** The texts of two different paths are different, so a compiled program is never taken for another one. *)
Theorem C103_distinct : forall asserts root h i j l m t, nth_error h i = Some l -> nth_error h j = Some m ->
  one_line (path l) -> one_line (path m) ->
  nth_error (loads asserts root none h) i = Some (Ok t) -> nth_error (loads asserts root none h) j = Some (Ok t) -> path l = path m.
Proof.
  intros a root h i j l m t NI NJ OI OJ AI AJ.
  destruct (loads_line a root h none i l t) as [b B]; [discriminate|exact NI|exact AI|].
  destruct (loads_line a root h none j m t) as [b' B']; [discriminate|exact NJ|exact AJ|].
  rewrite B in B'. now apply (line_inj _ _ _ _ OI OJ) in B'.
Qed.
Print Assumptions C103_distinct.

Example C103_ex_distinct : program "a" "H" "V" "D" "K" <> program "b" "H" "V" "D" "K" /\ one_line "fill".
Proof. split; [discriminate|]. cbn. repeat split; discriminate. Qed.

(** It is false that a load gives the kernel that was asked for: the cache forgets whether a path was relative, so a kernel of the
    user's with the name of one of the library's gets the library's text, and the other way round. *)
Theorem C103_relative_refuted : ~ forall root l m t, sound_files root (files m) -> source root (files m) (path m) (relative m) t ->
  nth_error (loads true root none [l; m]) 1 = Some (Ok t) \/ (path l = path m /\ relative l = relative m).
Proof.
  intros H. specialize (H "/src" (ex_load (ex_file "K")) {| files := ex_fs (ex_file "K"); path := "fill"; relative := false |}
    (program "fill" "H" "V" "D" "mine")).
  destruct H as [H|[_ H]]; [apply C103_ex_sound| | |].
  - exists "H", "V", "D", "mine". rewrite <- !fopen_reads. now repeat split.
  - vm_compute in H. discriminate.
  - discriminate.
Qed.
Print Assumptions C103_relative_refuted.

(** Without assertions a load that finds no file is not reported, and the broken text it gives stays for ever. *)
Theorem C103_unchecked_refuted : ~ forall root l m t, path l = path m -> relative l = relative m -> sound_files root (files m) ->
  missing root (files l) (path l) (relative l) -> source root (files m) (path m) (relative m) t ->
  nth_error (loads false root none [l; m]) 1 = Some (Ok t).
Proof.
  intros H. specialize (H "/src" (ex_load None) (ex_load (ex_file "K")) (program "fill" "H" "V" "D" "K") eq_refl eq_refl (C103_ex_sound _)).
  assert (X : missing "/src" (files (ex_load None)) "fill" true).
  { do 3 right. rewrite <- fopen_unreadable. reflexivity. }
  specialize (H X). assert (Y : source "/src" (files (ex_load (ex_file "K"))) "fill" true (program "fill" "H" "V" "D" "K")).
  { exists "H", "V", "D", "K". rewrite <- !fopen_reads. now repeat split. }
  specialize (H Y). vm_compute in H. discriminate.
Qed.
Print Assumptions C103_unchecked_refuted.

(** The preludes have to contain something: an empty one puts the buffer into a failed state and everything after it is lost,
    without a failed assertion; a file that may be read but not written counts as missing. *)
Theorem C103_empty_prelude_refuted : ~ forall root fs path relative t, source root fs path relative t ->
  snd (loadKernel true root fs none path relative) = Ok t.
Proof.
  intros H. specialize (H "" (fun p => if String.eqb p "/include/librapid/cuda/kernels//kernelHelper.cuh" then ex_file "" else ex_file "K")
    "p" true (program "p" "" "K" "K" "K")).
  assert (X : source "" (fun p => if String.eqb p "/include/librapid/cuda/kernels//kernelHelper.cuh" then ex_file "" else ex_file "K")
    "p" true (program "p" "" "K" "K" "K")).
  { exists "", "K", "K", "K". rewrite <- !fopen_reads. now repeat split. }
  specialize (H X). vm_compute in H. discriminate.
Qed.
Print Assumptions C103_empty_prelude_refuted.
(** What such a load gives instead: everything after the empty prelude is lost, the kernel included. *)
Theorem C103_cut : forall asserts root fs path relative h v d k,
  reads fs (helperPath root) h -> reads fs (vectorOpsPath root) v -> reads fs (dualPath root) d -> reads fs (kernelPath root relative path) k ->
  snd (loadKernel asserts root fs none path relative) = Ok (path ++ nl ++ cut [h; v; d; k]%list).
Proof.
  intros asserts root fs path relative h v d k Rh Rv Rd Rk. apply fopen_reads in Rh, Rv, Rd, Rk.
  unfold loadKernel. cbn [none]. rewrite Rh, Rv, Rd, Rk. cbn [is_open negb]. rewrite !Bool.andb_false_r. cbn [snd].
  f_equal. f_equal. f_equal.
  destruct h as [|ch h]; [reflexivity|]. destruct v as [|cv v]; [cbn; rewrite ?app_assoc; reflexivity|].
  destruct d as [|cd d]; [cbn; rewrite ?app_assoc; reflexivity|]. destruct k as [|ck k]; cbn; rewrite ?app_assoc; reflexivity.
Qed.
Print Assumptions C103_cut.
Example C103_ex_cut : cut ["H"; "V"; ""; "K"]%list = "H" ++ nl ++ nl ++ "V" ++ nl ++ nl.
Proof. reflexivity. Qed.

Example C103_ex_read_only : snd (loadKernel true "/src" (ex_fs (Some {| text := "K"; writable := false |})) none "fill" true) =
  Throw RuntimeError.
Proof. reflexivity. Qed.

(** For every 64-bit error code the table is read inside its bounds, and codes outside -63..0 are reported as unknown. *)
Theorem C104_total : forall e, (exists s, errorString e = Ok s) /\
  ((e < -63 \/ 0 < e)%Z -> errorString e = Ok "CL_UNKNOWN_ERROR_CODE").
Proof.
  intros e. unfold errorString. destruct ((-63 <=? e) && (e <=? 0))%Z eqn:B.
  - split; [|lia]. destruct (error_small e ltac:(lia)) as (k & K & ->). rewrite Z.opp_involutive. unfold entry.
    replace (Z.of_nat k <? 0)%Z with false by lia. rewrite Nat2Z.id. destruct (nth_error strings k) as [s|] eqn:E; [eauto|].
    apply nth_error_None in E. cbn [length strings] in E. lia.
  - split; [exists "CL_UNKNOWN_ERROR_CODE"|intros _]; reflexivity.
Qed.
Print Assumptions C104_total.

Example C104_ex_total : errorString (-9223372036854775808) = Ok "CL_UNKNOWN_ERROR_CODE" /\ errorString 1 = Ok "CL_UNKNOWN_ERROR_CODE".
Proof. now split. Qed.

(** Two different error codes never get the same name, unless it is the empty or the unknown one; and the codes of the standard get
    their own names. *)
Theorem C104_names : (forall e f s, s <> "" -> s <> "CL_UNKNOWN_ERROR_CODE" -> errorString e = Ok s -> errorString f = Ok s -> e = f) /\
  (forall c s, In (c, s) common_codes -> errorString c = Ok s).
Proof.
  split.
  - assert (G : forall e s, s <> "CL_UNKNOWN_ERROR_CODE" -> errorString e = Ok s ->
      exists k, (k < 64)%nat /\ e = (- Z.of_nat k)%Z /\ nth_error strings k = Some s).
    { intros e s N E. destruct ((-63 <=? e) && (e <=? 0))%Z eqn:B.
      - destruct (error_small e ltac:(lia)) as (k & K & ->). exists k. split; [exact K|split; [reflexivity|]].
        unfold errorString in E. rewrite B, Z.opp_involutive in E. unfold entry in E. replace (Z.of_nat k <? 0)%Z with false in E by lia.
        rewrite Nat2Z.id in E. destruct (nth_error strings k); congruence.
      - unfold errorString in E. rewrite B in E. cbv in E. congruence. }
    assert (U : forall i j s, (i < 64)%nat -> (j < 64)%nat -> s <> "" -> nth_error strings i = Some s -> nth_error strings j = Some s -> i = j).
    { assert (V : forallb (fun i => forallb (fun j => Nat.eqb i j || match nth_error strings i, nth_error strings j with
        | Some s, Some t => String.eqb s "" || negb (String.eqb s t) | _, _ => true end) (seq 0 64)) (seq 0 64) = true)
        by (vm_compute; reflexivity).
      intros i j s I J N Ei Ej. rewrite forallb_forall in V. specialize (V i ltac:(apply in_seq; lia)).
      rewrite forallb_forall in V. specialize (V j ltac:(apply in_seq; lia)). rewrite Ei, Ej, String.eqb_refl in V.
      destruct (String.eqb_spec s ""); [contradiction|]. cbn in V. rewrite orb_false_r in V. now apply Nat.eqb_eq. }
    intros e f s N M E F. destruct (G e s M E) as (i & I & -> & Ei). destruct (G f s M F) as (j & J & -> & Ej).
    now rewrite (U i j s I J N Ei Ej).
  - intros c s H. cbn in H. repeat (destruct H as [[= <- <-]|H]; [reflexivity|]). contradiction.
Qed.
Print Assumptions C104_names.

Example C104_ex_names : errorString (-54) = Ok "CL_INVALID_WORK_GROUP_SIZE" /\ errorString (-5) = Ok "CL_OUT_OF_RESOURCES".
Proof. now split. Qed.

(** The codes that OpenCL 1.1 and 1.2 added have no name: the message is empty. *)
Theorem C104_newer_refuted : ~ (forall c s, In (c, s) newer_codes -> errorString c = Ok s) /\
  (forall c s, In (c, s) newer_codes -> errorString c = Ok "").
Proof.
  split.
  - intros H. specialize (H (-13)%Z "CL_MISALIGNED_SUB_BUFFER_OFFSET" (or_introl eq_refl)). cbv in H. discriminate.
  - intros c s H. cbn in H. repeat (destruct H as [[= <- <-]|H]; [reflexivity|]). contradiction.
Qed.
Print Assumptions C104_newer_refuted.
