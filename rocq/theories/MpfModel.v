(** Model of [str(const mpf &, digits, base)], src/multiprecToString.cpp l.8-31: the text of a multi-precision number from the
    digit string and exponent that the library GMP returns for it. *)
From Coq Require Import ZArith.
From Verif Require Import Base.

(** characters of the text: digits by their value, the point and the minus sign *)
Inductive chr := Dig (d : nat) | Dot | Minus.
(** [std::string(count, '0')] *)
Definition zeros (k : nat) : list chr := repeat (Dig 0) k.
(** [res.insert(pos, ".")]: throws std::out_of_range if the position is past the end *)
Definition insert_dot (pos : nat) (s : list chr) : outcome (list chr) :=
  if pos <=? length s then Ok (firstn pos s ++ Dot :: skipn pos s) else Throw OutOfRange.
(** GMP's mpf_get_str (trusted): an optional minus sign and digits d1 d2 ... with value 0.d1d2... * base^exp; no digits for 0. *)
Definition get_str (negative : bool) (ds : list nat) : list chr := (if negative then [Minus] else []) ++ map Dig ds.
(** l.13-16: [res[0] == '-'] ; the element past the end of an empty string is NUL *)
Definition strip_sign (res : list chr) : bool * list chr :=
  match res with Minus :: r => (true, r) | _ => (false, res) end.
(** l.18-30 *)
Definition str_mpf (res : list chr) (exp : Z) : outcome (list chr) :=
  let (sign, res) := strip_sign res in
  do res <-
    (if (0 <? exp)%Z then
       let e := Z.to_nat exp in
       let res := if length res <=? e then res ++ zeros (e - length res + 1) else res in
       insert_dot e res
     else
       insert_dot 1 (zeros (Z.to_nat (- exp + 1)) ++ res));
  Ok (if sign then Minus :: res else res).
