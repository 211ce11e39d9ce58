(** C63 - C65: elementwise evaluation on a GPU. *)
From Coq Require Import ZArith Lia Bool.
From Coq Require Import ZifyNat ZifyN ZifyBool.
From Verif Require Import Base BaseProofs CudaModel DeviceModel DeviceSpec DeviceProofs.
Ltac Zify.zify_post_hook ::= idtac.

(** C63: a kernel launched over [n] elements computes every element of the destination exactly once from the original
    arguments, whatever the interleaving of its threads, even if the destination is one of the arguments. *)
Theorem C63_cuda_kernel_elementwise : forall (A T : Type) (ty_eqb : T -> T -> bool), (forall a b, ty_eqb a b = true <-> a = b) ->
  forall asserts n (k : kernel A T) m sched, 1 <= n -> (Z.of_nat n <= 2 ^ 32)%Z -> length (k_args k) <= 2 ->
  holds (k_ty k) n m (k_dst k) -> Forall (usable (k_ty k) n m) (k_args k) -> complete (cuda_threads n) sched ->
  exists m', launch ty_eqb asserts (cuda 1) n k m sched = Ok m' /\ elementwise n k m m'.
Proof.
  intros A T eqb Heq asserts n k m sched H1 H2 Hl Hd Ha Hc.
  destruct (launch_elementwise eqb Heq asserts (cuda 1) n k m sched) as (m' & E & W & _); rewrite ?lanes_cuda_1 in *; eauto.
  apply cuda_sound; rewrite ?lanes_cuda_1; auto.
Qed.
Print Assumptions C63_cuda_kernel_elementwise.

Theorem C63_opencl_kernel_elementwise : forall (A T : Type) (ty_eqb : T -> T -> bool), (forall a b, ty_eqb a b = true <-> a = b) ->
  forall asserts n (k : kernel A T) m sched, 1 <= n -> (Z.of_nat n <= 2 ^ 31)%Z -> length (k_args k) <= 2 ->
  holds (k_ty k) n m (k_dst k) -> Forall (usable (k_ty k) n m) (k_args k) -> complete n sched ->
  exists m', launch ty_eqb asserts opencl n k m sched = Ok m' /\ elementwise n k m m'.
Proof.
  intros A T eqb Heq asserts n k m sched H1 H2 Hl Hd Ha Hc.
  destruct (launch_elementwise eqb Heq asserts opencl n k m sched) as (m' & E & W & _); eauto. now apply opencl_sound.
Qed.
Print Assumptions C63_opencl_kernel_elementwise.

(** the threads of a CUDA launch: at least one per element, all with different indices, at most 511 idle *)
Theorem C63_cuda_grid : forall n, 1 <= n -> (Z.of_nat n <= 2 ^ 32)%Z ->
  threadsPerBlock n <= 512 /\ n <= cuda_threads n < n + 512 /\ forall q, q < cuda_threads n -> cuda_index q = Ok q.
Proof.
  intros n H1 H2. destruct (cuda_threads_bounds n H1) as (B1 & B2 & B3). pose proof (cuda_threads_fit n H1 H2). split; [|split].
  - unfold threadsPerBlock. destruct (n <? 512) eqn:E; lia.
  - split; auto. destruct (Nat.lt_ge_cases n 512) as [L|L]; [rewrite B2 by auto; lia|]. destruct (B3 L) as (j & _ & Hj). exact Hj.
  - intros q Hq. apply cuda_index_small. lia.
Qed.
Print Assumptions C63_cuda_grid.

(** C64: [d = e] on a device, for every expression tree of unary and binary functions, arrays and scalars, also when [d]
    occurs in [e]: the result is the elementwise value in the original memory; all other arrays keep their contents.
    CUDA: every type, packets of a width that divides 32. *)
Theorem C64_cuda_assign : forall (A T : Type) (ty_eqb : T -> T -> bool), (forall a b, ty_eqb a b = true <-> a = b) ->
  forall junk promote dflt asserts w n sched d (e : expr A T) m,
  (exists j, 1 <= j /\ w * j = 32) -> 1 <= n -> (Z.of_nat (pad n) <= 2 ^ 32)%Z ->
  (forall d', complete (cuda_threads (lanes (cuda w) n)) (sched d')) ->
  is_function e = true -> arrays_in (pad n) m e -> holds None (pad n) m d ->
  exists m', assign ty_eqb junk promote dflt asserts (cuda w) n sched d e m = Ok m' /\ assigned n d e m m'.
Proof.
  intros A T eqb Heq junk promote dflt asserts w n sched d e m Hw Hn Hp Hs Hf Ha Hd.
  pose proof (lanes_in_padding w n Hw) as L. assert (W1 : 1 <= w) by (destruct Hw as (j & Hj & Hw'); destruct w; lia).
  assert (Hmono : forall o p, holds o (pad n) m p -> holds o (lanes (cuda w) n) m p).
  { intros o p (b & Hb & Hl & Ht). exists b. split; auto. split; auto. lia. }
  apply (assign_correct eqb Heq junk promote dflt (cuda w) n) with (t := dflt); auto.
  - apply cuda_sound; auto. lia.
  - clear -Ha Hmono. induction e; cbn [arrays_in] in *; auto; intuition.
  - intros X. discriminate X.
Qed.
Print Assumptions C64_cuda_assign.

(** OpenCL: arrays and intermediate results of one type *)
Theorem C64_opencl_assign : forall (A T : Type) (ty_eqb : T -> T -> bool), (forall a b, ty_eqb a b = true <-> a = b) ->
  forall junk promote dflt asserts n sched d (e : expr A T) m t,
  1 <= n -> (Z.of_nat n <= 2 ^ 31)%Z -> (forall d', complete n (sched d')) ->
  is_function e = true -> arrays_in n m e -> one_typed promote dflt t m e -> holds (Some t) n m d ->
  exists m', assign ty_eqb junk promote dflt asserts opencl n sched d e m = Ok m' /\ assigned n d e m m'.
Proof.
  intros A T eqb Heq junk promote dflt asserts n sched d e m t Hn Hp Hs Hf Ha Ho Hd.
  apply (assign_correct eqb Heq junk promote dflt opencl n) with (t := t); auto.
  - now apply opencl_sound.
  - intros _. exact Ho.
Qed.
Print Assumptions C64_opencl_assign.

(** C65: the same for arrays of every size and any mixture of element types: false. *)
(** Elements from 2^32 on are never written by a CUDA kernel: the thread index is computed in 32 bits. *)
Theorem C65_cuda_large_refuted : forall (A T : Type) (ty_eqb : T -> T -> bool) asserts w n (k : kernel A T) m sched m',
  launch ty_eqb asserts (cuda w) n k m sched = Ok m' ->
  forall i, (2 ^ 32 <= Z.of_nat i)%Z -> val m' (k_dst k) i = val m (k_dst k) i.
Proof.
  intros A T eqb asserts w n k m sched m'. unfold launch. destruct (threads (cuda w) (lanes (cuda w) n) =? 0).
  - destruct asserts; [discriminate|]. now intros [= <-].
  - intros E i Hi. apply (krun_untouched eqb (conf (cuda w) (lanes (cuda w) n)) k m sched m' i); auto.
    intros q j Hj ->. apply cuda_index_bound in Hj. lia.
Qed.
Print Assumptions C65_cuda_large_refuted.

(** The first work-item past 2^31 elements has no valid index. *)
Theorem C65_opencl_large_refuted : forall (A T : Type) (ty_eqb : T -> T -> bool) n (k : kernel A T) st q,
  (2 ^ 31 <= Z.of_nat q)%Z -> kstep ty_eqb (opencl_conf n) k st q = UB.
Proof.
  intros A T eqb n k st q H. unfold kstep. cbn [c_index opencl_conf]. unfold opencl_index.
  replace (Z.of_nat q <? 2 ^ 31)%Z with false; auto. symmetry. apply Z.ltb_ge. exact H.
Qed.
Print Assumptions C65_opencl_large_refuted.

(** Assigning an expression over empty arrays throws if assertions are on. *)
Theorem C65_empty_refuted : forall (A T : Type) (ty_eqb : T -> T -> bool) junk promote dflt sched d f a (m : memory A T),
  assign ty_eqb junk promote dflt true opencl 0 sched d (EUn f (EArr a)) m = Throw RuntimeError /\
  assign ty_eqb junk promote dflt true (cuda 1) 0 sched d (EUn f (EArr a)) m = Throw RuntimeError.
Proof. intros. split; reflexivity. Qed.
Print Assumptions C65_empty_refuted.

(** On OpenCL, an array times a scalar of a wider type reads the array's storage as the wider type: [ints * 0.5]. *)
Inductive ety := I32 | F64.
Definition ety_eqb (a b : ety) : bool := match a, b with I32, I32 | F64, F64 => true | _, _ => false end.
Definition epromote (a b : ety) : ety := match a, b with I32, I32 => I32 | _, _ => F64 end.
Theorem C65_opencl_mixed_refuted : exists (d : nat) (e : expr nat ety) m n sched,
  1 <= n /\ complete n (sched d) /\ is_function e = true /\ arrays_in n m e /\ holds (Some (ty_of epromote I32 m e)) n m d /\
  assign ety_eqb (fun _ _ => 0) epromote I32 true opencl n sched d e m = UB.
Proof.
  exists 1, (EBin Nat.mul (EArr 0) (EScal F64 2)), [{| b_ty := I32; b_data := [5; 6] |}; {| b_ty := F64; b_data := [0; 0] |}], 2,
    (fun _ => [0; 1; 0; 1; 0; 1]).
  split; [lia|]. split.
  { split; [repeat constructor; lia|]. intros [|[|q]] Hq; cbn; lia. }
  split; [reflexivity|]. split.
  { split; [|exact I]. eexists. split; [reflexivity|]. split; [cbn; lia|discriminate]. }
  split; [|reflexivity]. eexists. split; [reflexivity|]. split; [cbn; lia|]. cbn. congruence.
Qed.
Print Assumptions C65_opencl_mixed_refuted.

(** CUDA packets of width 3 reach past the allocated block (32 elements allocated, 33 processed). *)
Theorem C65_cuda_width3_refuted : forall (A T : Type) (ty_eqb : T -> T -> bool) (x y : A) (t : T),
  exists q, q < cuda_threads (lanes (cuda 3) 32) /\ pad 32 = 32 /\
  let k := {| k_args := [AScal x]; k_dst := 0; k_fun := fun _ => x; k_ty := None |} in
  forall asserts, launch ty_eqb asserts (cuda 3) 32 k [{| b_ty := t; b_data := repeat y (pad 32) |}] [q; q] = UB.
Proof. intros. exists 32. split; [vm_compute; lia|]. split; [reflexivity|]. intros k [|]; reflexivity. Qed.
Print Assumptions C65_cuda_width3_refuted.

(** ** Examples *)
Definition mem3 : memory nat ety := [{| b_ty := I32; b_data := [1; 2; 3] |}; {| b_ty := I32; b_data := [10; 20; 30] |}].
Definition rounds : nat -> list nat := fun _ => [2; 0; 1; 1; 2; 0; 0; 2; 1].
(** a = (a + b) * a, all three arguments aliasing or temporary, on an interleaved schedule *)
Example C64_ex_opencl : omap (fun m => map (@b_data _ _) (firstn 2 m))
    (assign ety_eqb (fun _ _ => 99) epromote I32 true opencl 3 rounds 0 (EBin Nat.mul (EBin Nat.add (EArr 0) (EArr 1)) (EArr 0)) mem3) =
  Ok [[11; 44; 99]; [10; 20; 30]].
Proof. reflexivity. Qed.
Example C64_ex_complete : complete 3 (rounds 0).
Proof. split; [repeat constructor; lia|]. intros [|[|[|q]]] Hq; cbn; lia. Qed.
Definition mem32 : memory nat ety := [{| b_ty := I32; b_data := seq 0 32 |}; {| b_ty := F64; b_data := repeat 7 32 |}].
Definition rounds4 : nat -> list nat := fun _ => concat (repeat (rev (seq 0 4)) 3).
(** 3 elements with packets of 4: the padding is written too *)
Example C64_ex_cuda : omap (fun m => map (fun b => firstn 5 (b_data b)) (firstn 2 m))
    (assign ety_eqb (fun _ _ => 99) epromote I32 true (cuda 4) 3 rounds4 1 (EBin Nat.add (EUn S (EArr 0)) (EArr 1)) mem32) =
  Ok [[0; 1; 2; 3; 4]; [8; 9; 10; 11; 7]].
Proof. reflexivity. Qed.
Example C64_ex_cuda_complete : complete (cuda_threads (lanes (cuda 4) 3)) (rounds4 0).
Proof. split; [repeat constructor; vm_compute; lia|]. intros [|[|[|[|q]]]] Hq; vm_compute in *; lia. Qed.
Example C63_ex_blocks : (blocksPerGrid 512, blocksPerGrid 513, threadsPerBlock 511, cuda_threads 1025) = (1, 2, 511, 1536).
Proof. reflexivity. Qed.
