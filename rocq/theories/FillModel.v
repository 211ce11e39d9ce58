(** Model of filling arrays with random numbers: array/fill.hpp, and the fillRandom kernels of opencl/kernels/fill.cl l.158-176 and
    cuda/kernels/fill.cu l.163-195.  The generators and the conversion of a drawn number to an element are
    parameters; mt_start/mt_draw below are the ones of the kernels. *)
From Coq Require Import ZArith QArith SpecFloat.
From Verif Require Import Base RoundModel RandomModel.

(** ** The kernels.  Simplification: fewer than 2^32 threads, so that the thread numbers and strides, 32-bit unsigned in
    fill.cu, are exact. *)
Section Kernel.
Context {Sd G U V : Type}.
Variable start : Sd -> G.              (** mt19937_seed *)
Variable draw : G -> U * G.            (** mt19937_double / mt19937_float *)
Variable next_seed : G -> Sd.          (** the (int64_t) mt19937_ulong stored at the end *)
Variable val : U -> V.                 (** u * (upper - lower) + lower *)
Variables (numSeeds elements threads : nat).

(** A thread has not begun, is about to test element [i] with generator [g], or has ended. *)
Inductive phase := Waiting | Running (g : G) (i : nat) | Ended.
Record kstate := { k_data : list V; k_seeds : list Sd; k_phase : nat -> phase }.
Definition set_phase (ph : nat -> phase) (q : nat) (p : phase) : nat -> phase := fun x => if x =? q then p else ph x.
(** One step of thread [q]: reading its seed, one round of the loop, or replacing the seed.  The accesses to a seed
    shared by several threads are not ordered. *)
Definition kstep (q : nat) (st : kstate) : outcome kstate :=
  let slot := q mod numSeeds in
  match k_phase st q with
  | Waiting => do s <- rd (k_seeds st) slot;
               Ok {| k_data := k_data st; k_seeds := k_seeds st; k_phase := set_phase (k_phase st) q (Running (start s) q) |}
  | Running g i =>
      if i <? elements then
        let (u, g') := draw g in
        do d <- wr (k_data st) i (val u);
        Ok {| k_data := d; k_seeds := k_seeds st; k_phase := set_phase (k_phase st) q (Running g' (i + threads)) |}
      else
        do sd <- wr (k_seeds st) slot (next_seed g);
        Ok {| k_data := k_data st; k_seeds := sd; k_phase := set_phase (k_phase st) q Ended |}
  | Ended => Ok st
  end.
(** A schedule is the sequence of threads that make a step. *)
Definition krun (data : list V) (seeds : list Sd) (sched : list nat) : outcome kstate :=
  for_list sched kstep {| k_data := data; k_seeds := seeds; k_phase := fun _ => Waiting |}.
End Kernel.
Arguments phase : clear implicits.
Arguments kstate : clear implicits.

(** ** The generator of the kernels (RandomModel.v) *)
Definition ok_or {A} (d : A) (o : outcome A) : A := match o with Ok x => x | _ => d end.
(** the private array before mt19937_seed: arbitrary *)
Definition mt_start (junk : list N) (s : Z) : mt_state :=
  ok_or (MT junk MT_N) (mt_seed junk (Z.to_N (s mod 2 ^ 32))).
(** mt19937_ulong, fill.cl l.135: two calls in an order that the language does not fix ([swap]) *)
Definition mt_ulong (swap : bool) (st : mt_state) : N * mt_state :=
  let '(a, st) := ok_or (0%N, st) (mt_uint st) in
  let '(b, st) := ok_or (0%N, st) (mt_uint st) in
  ((if swap then b * 2 ^ 32 + a else a * 2 ^ 32 + b)%N, st).
(** stored into an int64_t *)
Definition mt_next_seed (swap : bool) (st : mt_state) : Z :=
  let u := Z.of_N (fst (mt_ulong swap st)) in if (u <? 2 ^ 63)%Z then u else (u - 2 ^ 64)%Z.

(** ** The element from a drawn 64-bit number *)
(** exact arithmetic: floating and integral element types, fill.cl l.171 *)
Definition fill_real (lower upper : Q) (u : N) : Q := (inject_Z (Z.of_N u) * (1 # 2 ^ 64) * (upper - lower) + lower)%Q.
Definition fill_integral (lower upper : Z) (u : N) : Z := qtrunc (fill_real (inject_Z lower) (inject_Z upper) u).
(** binary64: the number is rounded when it is converted to double; the factor is 2^-64 *)
Definition two_m64 : spec_float := SFldexp 53 1024 (f64 1) (-64).
Definition fill_double (lower upper : spec_float) (u : N) : spec_float :=
  SFadd 53 1024 (SFmul 53 1024 (SFmul 53 1024 (f64 (Z.of_N u)) two_m64) (SFsub 53 1024 upper lower)) lower.

(** ** The host side *)
Section Host.
Context {G : Type}.
Variable mkgen : N -> G.
Variable draw : G -> Q * G.

(** fillRandom on the host, fill.hpp l.17-32, one thread: [i] is the instantiation random<StorageScalar, StorageScalar> *)
Fixpoint host_fill (i n : nat) (lower upper : Q) (st : rstate G) : list Q * rstate G :=
  match n with
  | O => ([], st)
  | S n => let '(u, st) := next mkgen draw i st in
           let '(l, st) := host_fill i n lower upper st in
           (random_real lower upper u :: l, st)
  end.

(** The same under [#pragma omp parallel for]: the iterations share the static generator.  Here an iteration loads
    the generator in one step and stores it, and its element, in another; C++ calls this a data race. *)
Inductive hphase := HWaiting | HLoaded (g : G) | HEnded.
Record hstate := { h_data : list Q; h_rand : rstate G; h_phase : nat -> hphase }.
Definition hstep (i : nat) (lower upper : Q) (k : nat) (st : hstate) : outcome hstate :=
  let r := h_rand st in
  match h_phase st k with
  | HWaiting =>
      let g := if reseed r then mkgen (seed32 (randomSeed r))
               else match gens r i with Some g => g | None => mkgen (seed32 (randomSeed r)) end in
      Ok {| h_data := h_data st; h_rand := r; h_phase := fun x => if x =? k then HLoaded g else h_phase st x |}
  | HLoaded g =>
      let (u, g') := draw g in
      do d <- wr (h_data st) k (random_real lower upper u);
      Ok {| h_data := d; h_rand := RState (randomSeed r) false (put (gens r) i (Some g')) (pending r);
            h_phase := fun x => if x =? k then HEnded else h_phase st x |}
  | HEnded => Ok st
  end.
Definition hrun (i : nat) (lower upper : Q) (data : list Q) (r : rstate G) (sched : list nat) : outcome hstate :=
  for_list sched (hstep i lower upper) {| h_data := data; h_rand := r; h_phase := fun _ => HWaiting |}.

(** The seeds of the device, fill.hpp l.66-74 and l.101-108: [None] before they are initialised *)
Fixpoint draw_seeds (n : nat) (st : rstate G) : list Z * rstate G :=
  match n with
  | O => ([], st)
  | S n => let '(u, st) := next mkgen draw inst_double_double st in
           let '(l, st) := draw_seeds n st in
           (randint 0 (2 ^ 63 - 1) u :: l, st)
  end.
Definition NUM_SEEDS : nat := 1024.
Definition prepare (seeds : option (list Z)) (st : rstate G) : list Z * rstate G :=
  match seeds with
  | Some l => if reseed st then draw_seeds NUM_SEEDS st else (l, st)
  | None => draw_seeds NUM_SEEDS st
  end.
End Host.
Arguments hphase : clear implicits.
Arguments hstate : clear implicits.
