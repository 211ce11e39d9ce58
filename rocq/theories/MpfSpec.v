(** What a text in positional notation denotes. *)
From Coq Require Import ZArith QArith.
From Verif Require Import Base MpfModel.

Definition horner (base : Z) (ds : list nat) : Z := fold_left (fun acc d => (acc * base + Z.of_nat d)%Z) ds 0%Z.
(** 0.d1d2... * base^exp, with a sign *)
Definition scientific (base : Z) (negative : bool) (ds : list nat) (exp : Z) : Q :=
  (if negative then -(1) else 1) * (inject_Z (horner base ds) * Qpower (inject_Z base) (exp - Z.of_nat (length ds)))%Q.
(** the digits at the front of a text, and the rest *)
Fixpoint take_digits (s : list chr) : list nat * list chr :=
  match s with Dig d :: r => let (ds, r') := take_digits r in (d :: ds, r') | _ => ([], s) end.
(** A text is [-] digits . digits, with at least one digit before the point *)
Definition read_unsigned (base : Z) (s : list chr) : option Q :=
  match take_digits s with
  | (i :: is, Dot :: r) => match take_digits r with
                           | (fs, []) => Some (inject_Z (horner base (i :: is ++ fs)) * Qpower (inject_Z base) (- Z.of_nat (length fs)))%Q
                           | _ => None
                           end
  | _ => None
  end.
Definition read_text (base : Z) (s : list chr) : option Q :=
  match s with
  | Minus :: r => option_map (fun q => (-(1) * q)%Q) (read_unsigned base r)
  | _ => option_map (fun q => (1 * q)%Q) (read_unsigned base s)
  end.
