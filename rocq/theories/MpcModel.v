(** Multi-precision numbers: src/multiprecCasting.cpp, src/multiprecToString.cpp, src/multiprecModAbs.cpp and the helpers of
    math/multiprec.hpp.  An mpz is an integer, an mpq and an mpf are rational numbers (the value only), an mpfr is a rational number
    or one of NaN and the infinities. *)
From Coq Require Import ZArith QArith Qround.
From Verif Require Import Base MpfModel.
Local Open Scope Z_scope.

Inductive mpfr := Fin (q : Q) | NotFinite.

(** GMP (trusted): mpz_set_f and mpz_set_q discard the fraction *)
Definition chop (q : Q) : Z := Z.quot (Qnum q) (Zpos (Qden q)).
(** mpreal's bits2digits (trusted): floor(b * 0.30102999566398119) *)
Definition bits2digits (b : Z) : Z := b * 30102999566398119 / 10 ^ 17.

(** The nearest integer to a/b, the even one of two *)
Definition round_even (a b : Z) : Z :=
  let q := a / b in
  match 2 * (a mod b) ?= b with
  | Lt => q
  | Gt => q + 1
  | Eq => if Z.even q then q else q + 1
  end.
(** Decimal digits of [a], and its last [d] digits *)
Fixpoint whole (fuel : nat) (a : Z) : list nat :=
  match fuel with
  | O => [Z.to_nat a]
  | S k => if a <? 10 then [Z.to_nat a] else whole k (a / 10) ++ [Z.to_nat (a mod 10)]
  end.
Fixpoint last_digits (d : nat) (a : Z) : list nat :=
  match d with
  | O => []
  | S k => last_digits k (a / 10) ++ [Z.to_nat (a mod 10)]
  end.
Definition digits (a : Z) : list nat := whole (Z.to_nat (Z.log2 a)) a.
(** MPFR (trusted): the text of a number in fixed notation with [d] decimals, rounded to nearest *)
Definition fixed (d : Z) (q : Q) : list chr :=
  let n := Z.abs (round_even (Qnum q * 10 ^ d) (Zpos (Qden q))) in
  (if Qnum q <? 0 then [Minus] else []) ++ map Dig (digits (n / 10 ^ d)) ++
  (if d =? 0 then [] else Dot :: map Dig (last_digits (Z.to_nat d) n)).

(** str(const mpfr &val, digits, base), multiprecToString.cpp l.35-43; no text of digits for NaN and the infinities *)
Definition str_mpfr (precision digits : Z) (v : mpfr) : option (list chr) :=
  let dig2 := bits2digits (if digits <? 0 then precision else digits) in
  match v with Fin q => Some (fixed dig2 q) | NotFinite => None end.
(** str(const mpz &): val.get_str(10), l.6 *)
Definition str_mpz (z : Z) : list chr := (if z <? 0 then [Minus] else []) ++ map Dig (digits (Z.abs z)).

(** The exact value of a decimal text: an optional sign, digits, an optional point with digits *)
Fixpoint digits_of (s : list chr) : list nat * list chr :=
  match s with Dig d :: r => let (ds, r') := digits_of r in (d :: ds, r') | _ => ([], s) end.
Definition number (ds : list nat) : Z := fold_left (fun acc d => acc * 10 + Z.of_nat d) ds 0.
Definition scan_unsigned (s : list chr) : option Q :=
  match digits_of s with
  | (i :: is, []) => Some (inject_Z (number (i :: is)))
  | (i :: is, Dot :: r) => match digits_of r with
                           | (fs, []) => Some (number (i :: is ++ fs) # Z.to_pos (10 ^ Z.of_nat (length fs)))%Q
                           | _ => None
                           end
  | _ => None
  end.
Definition scan (s : list chr) : option Q :=
  match s with
  | Minus :: r => option_map Qopp (scan_unsigned r)
  | _ => scan_unsigned s
  end.

Section Conversions.
(** [fit]: the value stored in an mpf of the default precision; [near]: in an mpfr of the default precision *)
Variable fit near : Q -> Q.
(** mpf_class(const std::string &): throws std::invalid_argument for a text that is no number *)
Definition mpf_of_text (s : option (list chr)) : outcome Q :=
  match s with
  | Some t => match scan t with Some q => Ok (fit q) | None => Throw InvalidArgument end
  | None => Throw InvalidArgument
  end.
(** mpreal(const std::string &): NaN for a text that is no number *)
Definition mpfr_of_text (s : list chr) : mpfr :=
  match scan s with Some q => Fin (near q) | None => NotFinite end.

(** multiprecCasting.cpp l.6-9 *)
Definition toMpz_f (x : Q) : Z := chop x.
Definition toMpz_q (x : Q) : Z := chop x.
Definition toMpz_r (precision : Z) (v : mpfr) : outcome Z := omap chop (mpf_of_text (str_mpfr precision (-1) v)).
(** l.11-14 *)
Definition toMpf_z (z : Z) : Q := fit (inject_Z z).
Definition toMpf_q (q : Q) : Q := fit q.
Definition toMpf_r (precision : Z) (v : mpfr) : outcome Q := mpf_of_text (str_mpfr precision (-1) v).
(** l.16-19 *)
Definition toMpq_z (z : Z) : Q := inject_Z z.
Definition toMpq_f (x : Q) : Q := x.
Definition toMpq_r (precision : Z) (v : mpfr) : outcome Q := mpf_of_text (str_mpfr precision (-1) v).
(** l.21: from the text of the integer *)
Definition toMpfr_z (z : Z) : mpfr := mpfr_of_text (str_mpz z).
(** l.22-23: from the text of the mpf; [res] and [exp] are what GMP returns for it (see MpfModel) *)
Definition toMpfr_f (res : list chr) (exp : Z) : outcome mpfr := omap mpfr_of_text (str_mpf res exp).
End Conversions.

(** multiprecModAbs.cpp l.8-27: val >= 0 ? val : -val *)
Definition abs_z (v : Z) : Z := if 0 <=? v then v else - v.
Definition abs_q (v : Q) : Q := if Qle_bool 0 v then v else - v.
(** math/multiprec.hpp l.487-496, copySign for the GMP types *)
Definition copySign_z (mag sign : Z) : Z :=
  if (0 <=? sign) && (0 <=? mag) then mag
  else if (0 <=? sign) && (mag <? 0) then - mag
  else if (sign <? 0) && (0 <=? mag) then - mag
  else if (sign <? 0) && (mag <? 0) then mag
  else 0.
Definition qlt (a b : Q) : bool := negb (Qle_bool b a).
Definition copySign_q (mag sign : Q) : Q :=
  if Qle_bool 0 sign && Qle_bool 0 mag then mag
  else if Qle_bool 0 sign && qlt mag 0 then - mag
  else if qlt sign 0 && Qle_bool 0 mag then - mag
  else if qlt sign 0 && qlt mag 0 then mag
  else 0.
(** l.503-506, signBit for the GMP types: val < 0 || val == -0.0; the comparison converts -0.0 to the number zero *)
Definition signBit_z (v : Z) : bool := (v <? 0) || (v =? 0).
Definition signBit_q (v : Q) : bool := qlt v 0 || Qeq_bool v 0.
(** ldexp for the GMP types: x << exp (l.527-530).  The shift takes an unsigned 64-bit count, so a negative exponent becomes at
    least 2^63; GMP stops the program when an integer gets too long (we do not tell a shifted 0 apart), and an mpf only changes its
    exponent. *)
Definition ldexp_z (x exp : Z) : outcome Z := if exp <? 0 then UB else Ok (x * 2 ^ exp).
Definition ldexp_q (x : Q) (exp : Z) : outcome Q := if exp <? 0 then UB else Ok (x * inject_Z (2 ^ exp))%Q.
Definition ldexp_f (x : Q) (exp : Z) : Q := (x * inject_Z (2 ^ (exp mod 2 ^ 64)))%Q.
