(** Model of math/random.hpp (random, randint, randomGaussian), setSeed of src/global.cpp and the device
    generator of opencl/kernels/fill.cl (the CUDA copy cuda/kernels/fill.cu has the same text up to type names). *)
From Coq Require Import QArith Qround SpecFloat.
From Verif Require Import Base RoundModel.

(** * random and randint as functions of the generator's output u in [0, 1) *)

(* random.hpp l.21-22, exact arithmetic, floating-point Scalar. *)
Definition random_real (lower upper u : Q) : Q := (lower + (upper - lower) * u)%Q.
(* the same with integral Lower and Upper: the value is cast to their common type. *)
Definition random_integral (lower upper : Z) (u : Q) : Z :=
  qtrunc (random_real (inject_Z lower) (inject_Z upper) u).
(* random.hpp l.25-28. *)
Definition randint (lower upper : Z) (u : Q) : Z :=
  qtrunc (random_real (inject_Z (lower - (if (lower <? 0)%Z then 1 else 0))) (inject_Z upper + 1) u).

(** The same with IEEE binary64 arithmetic. *)
Definition f64 (z : Z) : spec_float := binary_normalize 53 1024 z 0 false.
Definition f64_trunc (x : spec_float) : outcome Z :=
  match x with
  | S754_zero _ => Ok 0%Z
  | S754_finite s m e =>
      let a := if (0 <=? e)%Z then (Z.pos m * 2 ^ e)%Z else (Z.pos m / 2 ^ (- e))%Z in
      let v := if s then (- a)%Z else a in
      if (- 2 ^ 63 <=? v)%Z && (v <? 2 ^ 63)%Z then Ok v else UB
  | _ => UB
  end.
Definition random64 (lower upper u : spec_float) : spec_float :=
  SFadd 53 1024 lower (SFmul 53 1024 (SFsub 53 1024 upper lower) u).
Definition randint64 (lower upper : Z) (u : spec_float) : outcome Z :=
  f64_trunc (random64 (f64 (lower - (if (lower <? 0)%Z then 1 else 0))) (SFadd 53 1024 (f64 upper) (f64 1)) u).

(** * The hidden state: one generator per instantiation of random<Lower, Upper>, one pending value per
    instantiation of randomGaussian<T>, and the global seed and reseed flag *)
Section Stream.
  Context {G : Type}.
  Context (mkgen : N -> G).            (* std::mt19937(uint32_t) *)
  Context (draw : G -> Q * G).         (* distribution(generator) *)
  Context (gauss1 gauss2 : Q -> Q -> Q). (* v1 * multiplier, v2 * multiplier *)

  Record rstate : Type := RState {
    randomSeed : N;
    reseed : bool;
    gens : nat -> option G;     (* None: the static has not been initialised yet *)
    pending : nat -> option Q;  (* nextGaussian when hasNextGaussian *)
  }.
  Definition put {A} (f : nat -> option A) (i : nat) (a : option A) : nat -> option A :=
    fun j => if j =? i then a else f j.
  Definition seed32 (s : N) : N := (s mod 2 ^ 32)%N.

  (* src/global.cpp l.76-79. *)
  Definition setSeed (s : N) (st : rstate) : rstate := RState s true (gens st) (pending st).

  (* random.hpp l.6-20: the draw made by instantiation i. *)
  Definition next (i : nat) (st : rstate) : Q * rstate :=
    let g := match gens st i with Some g => g | None => mkgen (seed32 (randomSeed st)) end in
    let '(g, r) := if reseed st then (mkgen (seed32 (randomSeed st)), false) else (g, reseed st) in
    let '(u, g) := draw g in
    (u, RState (randomSeed st) r (put (gens st) i (Some g)) (pending st)).

  (* randint calls random<double, double>; randomGaussian calls random<double>(-1, 1), that is
     random<double, int>. *)
  Definition inst_double_double : nat := 0.
  Definition inst_double_int : nat := 1.

  (* random.hpp l.55-80; the do-while loop has fuel. *)
  Fixpoint gauss_loop (fuel : nat) (st : rstate) : option (Q * Q * rstate) :=
    match fuel with
    | O => None
    | S fuel =>
        let '(u1, st) := next inst_double_int st in
        let '(u2, st) := next inst_double_int st in
        let v1 := random_real (-1) 1 u1 in
        let v2 := random_real (-1) 1 u2 in
        let s := (v1 * v1 + v2 * v2)%Q in
        if Qle_bool 1 s || Qeq_bool s 0 then gauss_loop fuel st else Some (v1, v2, st)
    end.
  Definition set_pending (t : nat) (q : option Q) (st : rstate) : rstate :=
    RState (randomSeed st) (reseed st) (gens st) (put (pending st) t q).
  Definition randomGaussian (fuel : nat) (t : nat) (st : rstate) : option (Q * rstate) :=
    match pending st t with
    | Some q => Some (q, set_pending t None st)
    | None =>
        match gauss_loop fuel st with
        | None => None
        | Some (v1, v2, st) => Some (gauss1 v1 v2, set_pending t (Some (gauss2 v1 v2)) st)
        end
    end.

  Inductive call : Type :=
  | SetSeed (s : N)
  | Random (i : nat) (lower upper : Q)  (* random<L, U> with instantiation number i *)
  | Randint (lower upper : Z)
  | Gaussian (t : nat).

  Definition step (fuel : nat) (c : call) (st : rstate) : option (option Q * rstate) :=
    match c with
    | SetSeed s => Some (None, setSeed s st)
    | Random i lo hi => let '(u, st) := next i st in Some (Some (random_real lo hi u), st)
    | Randint lo hi => let '(u, st) := next inst_double_double st in Some (Some (inject_Z (randint lo hi u)), st)
    | Gaussian t => option_map (fun '(q, st) => (Some q, st)) (randomGaussian fuel t st)
    end.
  Fixpoint run (fuel : nat) (cs : list call) (st : rstate) : option (list (option Q) * rstate) :=
    match cs with
    | [] => Some ([], st)
    | c :: cs =>
        match step fuel c st with
        | None => None
        | Some (r, st) => option_map (fun '(rs, st) => (r :: rs, st)) (run fuel cs st)
        end
    end.
End Stream.
Arguments rstate : clear implicits.
Arguments call : clear implicits.

(** * MT19937 on the device *)
Definition MT_N : nat := 624.
Definition MT_M : nat := 397.
Definition MATRIX_A : N := 2567483615.    (* 0x9908b0df *)
Definition UPPER_MASK : N := 2147483648.  (* 0x80000000 *)
Definition LOWER_MASK : N := 2147483647.  (* 0x7fffffff *)
Definition w32 (x : N) : N := (x mod 2 ^ 32)%N.
Record mt_state : Type := MT { mt : list N; mti : nat }.

(* fill.cl l.43-44 and repeated in each branch: y and the new word. *)
Definition twist_word (a b m : N) : N :=
  let y := N.lor (N.land a UPPER_MASK) (N.land b LOWER_MASK) in
  N.lxor (N.lxor m (N.shiftr y 1)) (if N.odd y then MATRIX_A else 0).
(* fill.cl l.59-63: tempering. *)
Definition temper (y : N) : N :=
  let y := N.lxor y (N.shiftr y 11) in
  let y := N.lxor y (N.land (w32 (N.shiftl y 7)) 2636928640) in  (* 0x9d2c5680 *)
  let y := N.lxor y (N.land (w32 (N.shiftl y 15)) 4022730752) in (* 0xefc60000 *)
  N.lxor y (N.shiftr y 18).

(* mt[dst] = mt[far] ^ twist(mt[a], mt[b]). *)
Definition twist_at (m : list N) (dst a b far : nat) : outcome (list N) :=
  do x <- rd m a; do y <- rd m b; do f <- rd m far; wr m dst (twist_word x y f).

(* fill.cl: _mt19937_uint. *)
Definition mt_uint (st : mt_state) : outcome (N * mt_state) :=
  do st <- (if mti st <? MT_N - MT_M then
              do m <- twist_at (mt st) (mti st) (mti st) (mti st + 1) (mti st + MT_M); Ok (MT m (mti st))
            else if mti st <? MT_N - 1 then
              do m <- twist_at (mt st) (mti st) (mti st) (mti st + 1) (mti st + MT_M - MT_N); Ok (MT m (mti st))
            else
              do m <- twist_at (mt st) (MT_N - 1) (MT_N - 1) 0 (MT_M - 1); Ok (MT m 0));
  do y <- rd (mt st) (mti st);
  Ok (temper y, MT (mt st) (mti st + 1)).

(* fill.cl: _mt19937_loop_uint. *)
Definition mt_loop_uint (st : mt_state) : outcome (N * mt_state) :=
  do st <- (if MT_N <=? mti st then
              do m <- for_range 0 (MT_N - MT_M) (fun kk m => twist_at m kk kk (kk + 1) (kk + MT_M)) (mt st);
              do m <- for_range (MT_N - MT_M) (MT_N - 1) (fun kk m => twist_at m kk kk (kk + 1) (kk + MT_M - MT_N)) m;
              do m <- twist_at m (MT_N - 1) (MT_N - 1) 0 (MT_M - 1);
              Ok (MT m 0)
            else Ok st);
  do y <- rd (mt st) (mti st);
  Ok (temper y, MT (mt st) (mti st + 1)).

(* fill.cl: mt19937_seed; the array is private memory with unspecified previous contents. *)
Definition mt_seed (junk : list N) (s : N) : outcome mt_state :=
  do m <- wr junk 0 (w32 s);
  do m <- for_range 1 MT_N (fun i m =>
            do p <- rd m (i - 1);
            wr m i (w32 (1812433253 * N.lxor p (N.shiftr p 30) + N.of_nat i))) m;
  Ok (MT m MT_N).

Fixpoint draws (f : mt_state -> outcome (N * mt_state)) (n : nat) (st : mt_state) : outcome (list N * mt_state) :=
  match n with
  | O => Ok ([], st)
  | S n => do (x, st) <- f st; do (xs, st) <- draws f n st; Ok (x :: xs, st)
  end.
