(** C67: which OpenCL device is used. *)
From Coq Require Import ZArith Lia.
From Verif Require Import Base SelectModel SelectSpec SelectProofs.

(** The device chosen by default has passed the self-test and is the first with the highest score. *)
Theorem C67_default_is_best : forall asserts platforms,
  (exists d, In d (concat platforms) /\ works d = true /\ (0 < score d)%Z) ->
  exists d, find_fastest asserts (update_devices [] platforms) = Ok (Some d) /\ works d = true /\ In d (concat platforms) /\
    first_best (filter works (concat platforms)) d.
Proof.
  intros asserts platforms (d0 & Hin & Hw & Hs). rewrite update_filter. cbn [app]. set (ds := filter works (concat platforms)).
  assert (In0 : In d0 ds) by (apply filter_In; auto). unfold find_fastest.
  replace (length ds =? 0) with false by (symmetry; apply Nat.eqb_neq; destruct ds; [destruct In0|discriminate]).
  rewrite Bool.andb_false_r. destruct (scan_spec ds None 0%Z) as [(_ & H)|(d & -> & _ & B)].
  - specialize (H d0 In0). lia.
  - exists d. cbn [fst]. split; auto. assert (Hd : In d ds). { destruct B as (b & a & -> & _). apply in_or_app. right. now left. }
    apply filter_In in Hd. destruct Hd. auto.
Qed.
Print Assumptions C67_default_is_best.

(** With [ask], the device is the one at the first valid index typed. *)
Theorem C67_prompt : forall ds bad i rest d, (forall x, In x bad -> (x < 0 \/ Z.of_nat (length ds) <= x)%Z) -> (0 <= i)%Z ->
  nth_error ds (Z.to_nat i) = Some d -> prompt ds (bad ++ i :: rest) = Some d.
Proof. exact prompt_first. Qed.
Print Assumptions C67_prompt.

Theorem C67_prompt_sound : forall ds input d, prompt ds input = Some d -> exists i, In i input /\ (0 <= i)%Z /\ nth_error ds (Z.to_nat i) = Some d.
Proof. exact prompt_spec. Qed.
Print Assumptions C67_prompt_sound.

(** Without a working device: an exception if assertions are on. *)
Theorem C67_no_device : find_fastest true [] = Throw RuntimeError /\ forall known platforms, Forall (fun d => works d = false) (concat platforms) ->
  update_devices known platforms = known.
Proof.
  split; [reflexivity|]. intros known platforms H. rewrite update_filter. replace (filter works (concat platforms)) with (@nil device).
  - apply app_nil_r.
  - symmetry. induction H as [|d l Hd Hl IH]; cbn [filter]; auto. now rewrite Hd.
Qed.
Print Assumptions C67_no_device.

(** A graphics card beats any other kind of device of the same vendor class whose own figures are at most a million higher. *)
Theorem C67_gpu_preferred : forall g c, reported g -> reported c -> is_gpu g = true -> is_gpu c = false -> (is_nvidia c = true -> is_nvidia g = true) ->
  ((units c * clock c) mod 2 ^ 32 + memory c / 2 ^ 20 < 1000000)%Z -> (score c < score g)%Z.
Proof.
  intros g c Hg Hc Gg Gc N H. pose proof Hg as (Hu & Hcl & Hm). unfold score. rewrite Gg, Gc.
  pose proof (Z.mod_pos_bound (units g * clock g) (2 ^ 32) ltac:(lia)). change (2 ^ 20)%Z with (1024 * 1024)%Z in H.
  pose proof (Z.div_pos (memory g) (1024 * 1024) ltac:(lia) ltac:(lia)).
  destruct (is_nvidia c); [rewrite N by auto; lia|]. destruct (is_nvidia g); lia.
Qed.
Print Assumptions C67_gpu_preferred.

Example C67_ex : let a := Build_device 8 3000 (16 * 2 ^ 30) false false true in
  let g := Build_device 20 1500 (8 * 2 ^ 30) true true true in
  let b := Build_device 99 9000 (8 * 2 ^ 30) true true false in
  find_fastest true (update_devices [] [[a]; [b; g]]) = Ok (Some g) /\ score g = 2038192%Z.
Proof. split; reflexivity. Qed.
