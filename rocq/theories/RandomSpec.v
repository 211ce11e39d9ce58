(** The published MT19937 recurrence (Matsumoto and Nishimura), as a statement about an infinite sequence. *)
From Verif Require Import Base RandomModel.
Local Open Scope N_scope.

Definition mt_recurrence (x : nat -> N) : Prop :=
  forall n : nat,
    let y := N.lor (N.land (x n) 2147483648) (N.land (x (n + 1)%nat) 2147483647) in
    x (n + 624)%nat = N.lxor (N.lxor (x (n + 397)%nat) (N.shiftr y 1)) (if N.odd y then 2567483615 else 0).
Definition mt_initial (s : N) (x : nat -> N) : Prop :=
  x 0%nat = s mod 2 ^ 32 /\
  forall i : nat, (0 < i < 624)%nat ->
    x i = (1812433253 * N.lxor (x (i - 1)%nat) (N.shiftr (x (i - 1)%nat) 30) + N.of_nat i) mod 2 ^ 32.

(** The call makes all its draws through instantiation i of random. *)
Definition uses (i : nat) (c : call) : Prop :=
  match c with
  | SetSeed _ => True
  | Random j _ _ => j = i
  | Randint _ _ => i = inst_double_double
  | Gaussian _ => i = inst_double_int
  end.
