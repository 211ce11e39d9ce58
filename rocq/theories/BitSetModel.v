(** Model of librapid/include/librapid/datastructures/bitset.hpp.

    A [BitSet<numBits>] is the list of its 64-bit words (m_data, l.382); words are [N] below 2^64.
    Template parameter numBits is the argument [n].  The stack/heap distinction (ownership) is
    modelled separately in BitSetHeapModel.v. *)
From Verif Require Import Base.
From Coq Require Import Ascii.

Definition words := list N.

(** uint64_t shifts: a distance >= 64 is undefined behaviour; bits above 63 are lost. *)
Definition shl64 (x : N) (s : nat) : outcome N :=
  if s <? 64 then Ok (N.shiftl x (N.of_nat s) mod 2 ^ 64)%N else UB.
Definition shr64 (x : N) (s : nat) : outcome N :=
  if s <? 64 then Ok (N.shiftr x (N.of_nat s)) else UB.
(** [~x] on uint64_t. *)
Definition not64 (x : N) : N := N.lnot x 64.
Definition ones64 : N := N.ones 64.

(** numElements, l.21 *)
Definition numElements (n : nat) : nat := (n + 64 - 1) / 64.

(** emptyInit / zero, l.368-379; default constructor l.25 *)
Definition empty (n : nat) : words := repeat 0%N (numElements n).

(** constexpr BitSet(uint64_t value), l.38-42.  static_assert(numElements > 0) -> [n > 0]. *)
Definition of_value (n : nat) (v : N) : outcome words := wr (empty n) 0 v.

(** set(index, value), l.64-72.  No bounds check in the source. *)
Definition set1 (d : words) (index : nat) (value : bool) : outcome words :=
  let element := index / 64 in
  let bit := index mod 64 in
  do w <- rd d element;
  do m <- shl64 1 bit;
  if value then wr d element (N.lor w m) else wr d element (N.land w (not64 m)).

(** get(index), l.90-94 *)
Definition get (d : words) (index : nat) : outcome bool :=
  let element := index / 64 in
  let bit := index mod 64 in
  do w <- rd d element;
  do m <- shl64 1 bit;
  Ok (negb (N.land w m =? 0)%N).

(** set(start, end, value), l.74-88 *)
Definition setRange (d : words) (start0 end0 : nat) (value : bool) : outcome words :=
  let '(start, end_) := if end0 <? start0 then (end0, start0) else (start0, end0) in
  let blockStart := start / 64 + 1 in
  let blockEnd := end_ / 64 in
  do d1 <- for_range start (min end_ (blockStart * 64)) (fun i d => set1 d i value) d;
  do d2 <- for_range blockStart blockEnd (fun i d => wr d i (if value then ones64 else 0%N)) d1;
  for_range (blockEnd * 64) end_ (fun i d => set1 d i value) d2.

(** any / all / none, l.96-112 *)
Definition any (d : words) : bool := existsb (fun w => negb (w =? 0)%N) d.
Definition all (d : words) : bool := forallb (fun w => (w =? ones64)%N) d.
Definition none (d : words) : bool := forallb (fun w => (w =? 0)%N) d.

(** Index of the lowest / highest set bit of a non-zero 64-bit word: the portable loops
    l.136-138 and l.167-169 (the compiler builtins in the other branches have the same meaning). *)
Fixpoint lowBitFrom (k j : nat) (w : N) : option nat :=
  match k with
  | O => None
  | S k' => if N.testbit w (N.of_nat j) then Some j else lowBitFrom k' (S j) w
  end.
Definition lowBit (w : N) : option nat := lowBitFrom 64 0 w.
Fixpoint highBitFrom (k : nat) (w : N) : option nat :=
  match k with
  | O => None
  | S k' => if N.testbit w (N.of_nat k') then Some k' else highBitFrom k' w
  end.
Definition highBit (w : N) : option nat := highBitFrom 64 w.

(** first, l.114-143 *)
Fixpoint first_from (i : nat) (d : words) (n : nat) : nat :=
  match d with
  | [] => n
  | w :: d' =>
      if (w =? 0)%N then first_from (S i) d' n
      else match lowBit w with Some b => i * 64 + b | None => first_from (S i) d' n end
  end.
Definition first (n : nat) (d : words) : nat := first_from 0 d n.

(** last, l.145-174: [for (uint64_t i = numElements - 1; i >= 0; --i)].  The condition is always
    true on an unsigned counter, so after word 0 the loop reads m_data[2^64 - 1]: UB. *)
Fixpoint last_from (k : nat) (d : words) : outcome nat :=
  match k with
  | O => UB
  | S k' =>
      do w <- rd d k';
      if (w =? 0)%N then last_from k' d
      else match highBit w with Some b => Ok (b + k' * 64) | None => last_from k' d end
  end.
Definition last (d : words) : outcome nat := last_from (length d) d.

(** std::popcount of a 64-bit word *)
Definition popcount64 (w : N) : nat :=
  length (filter (fun j => N.testbit w (N.of_nat j)) (seq 0 64)).
(** popCount, l.176-180 (also the free function l.391-397) *)
Definition popCount (d : words) : nat := fold_left (fun res w => res + popcount64 w) d 0.

(** operator|=, l.182-193; operator^=, l.216-227: words below min(numElements, otherElements). *)
Fixpoint zip_low (f : N -> N -> N) (d e : words) : words :=
  match d, e with
  | x :: d', y :: e' => f x y :: zip_low f d' e'
  | d, _ => d
  end.
Definition or_assign (d e : words) : words := zip_low N.lor d e.
Definition xor_assign (d e : words) : words := zip_low N.lxor d e.
(** operator&=, l.195-214: words beyond the other operand are zeroed. *)
Fixpoint and_assign (d e : words) : words :=
  match d, e with
  | x :: d', y :: e' => N.land x y :: and_assign d' e'
  | [], _ => []
  | x :: d', [] => 0%N :: and_assign d' []
  end.

(** operator<<= for a positive distance, l.229-255.
    [for (int64_t i = numElements - elementShift; i < numElements; ...)] compares after conversion
    to uint64_t, so a negative start runs zero iterations; nat truncation is therefore NOT used:
    the loop is skipped when elementShift > numElements. *)
Definition shl_pos (d : words) (shift : nat) : outcome words :=
  let ne := length d in
  let elementShift := shift / 64 in
  let digitShift := shift mod 64 in
  do d1 <- (if elementShift <=? ne
            then for_range (ne - elementShift) ne (fun i d => wr d i 0%N) d else Ok d);
  do d2 <- for_down ne elementShift (fun i d =>
             do lo <- rd d (i - elementShift);
             do t1 <- shl64 lo digitShift;
             do tmp <- (if elementShift + 1 <=? i
                        then do hi <- rd d (i - elementShift - 1);
                             do t2 <- shr64 hi (64 - digitShift);
                             Ok (N.lor t1 t2)
                        else Ok t1);
             wr d i tmp) d1;
  for_range 0 elementShift (fun i d => wr d i 0%N) d2.

(** operator>>= for a positive distance, l.257-283.
    With elementShift > numElements the first loop already writes out of bounds. *)
Definition shr_pos (d : words) (shift : nat) : outcome words :=
  let ne := length d in
  let elementShift := shift / 64 in
  let digitShift := shift mod 64 in
  do d1 <- for_range 0 elementShift (fun i d => wr d i 0%N) d;
  do d2 <- for_range 0 (ne - elementShift) (fun i d =>
             do lo <- rd d (i + elementShift);
             do t1 <- shr64 lo digitShift;
             do tmp <- (if i + elementShift + 1 <? ne
                        then do hi <- rd d (i + elementShift + 1);
                             do t2 <- shl64 hi (64 - digitShift);
                             Ok (N.lor t1 t2)
                        else Ok t1);
             wr d i tmp) d1;
  for_range (ne - elementShift) ne (fun i d => wr d i 0%N) d2.

(** The dispatch on the sign, l.230-231 and l.258-259; -INT64_MIN overflows (UB). *)
Definition int64_min : Z := (- 2 ^ 63)%Z.
Definition shl (d : words) (shift : Z) : outcome words :=
  if (shift =? int64_min)%Z then UB
  else if (shift <? 0)%Z then shr_pos d (Z.to_nat (- shift))
  else if (shift =? 0)%Z then Ok d
  else shl_pos d (Z.to_nat shift).
Definition shr (d : words) (shift : Z) : outcome words :=
  if (shift =? int64_min)%Z then UB
  else if (shift <? 0)%Z then shl_pos d (Z.to_nat (- shift))
  else if (shift =? 0)%Z then Ok d
  else shr_pos d (Z.to_nat shift).

(** highMask, l.362-366 *)
Definition highMask (n : nat) : N :=
  fold_left (fun res i => N.lor res (N.shiftl 1 (N.of_nat i))) (seq 0 (n mod 64)) 0%N.

(** operator~, l.321-328 *)
Definition compl (n : nat) (d : words) : outcome words :=
  let d1 := map not64 d in
  do w <- rd d1 (numElements n - 1);
  wr d1 (numElements n - 1) (N.land w (highMask n)).

(** operator==, l.330-335 *)
Fixpoint eqb (d e : words) : bool :=
  match d, e with
  | [], _ => true
  | x :: d', y :: e' => (x =? y)%N && eqb d' e'
  | _ :: _, [] => false (* not reachable: same type, same length *)
  end.

(** String constructor, l.44-55, with the default characters. *)
Definition char0 : ascii := "0"%char.
Definition char1 : ascii := "1"%char.
Definition of_string (n : nat) (s : list ascii) : outcome words :=
  for_range 0 (length s) (fun i d =>
    match nth_error s i with
    | None => UB
    | Some c => if Ascii.eqb c char0 then Ok d
                else if Ascii.eqb c char1 then set1 d (length s - i - 1) true
                else Throw RuntimeError
    end) (empty n).

(** str, l.356-359: [for (int64_t i = numBits - 1; i >= 0; --i) format(get(i))]; a bool prints as
    0 or 1 with the int formatter. *)
Definition str (n : nat) (d : words) : outcome (list ascii) :=
  for_down n 0 (fun i acc => do b <- get d i; Ok (acc ++ [if b then char1 else char0])) [].

(** toInt, l.340-354 (release build): m_data[0] converted to [int] (two's complement). *)
Definition to_int32 (x : N) : Z :=
  let r := (Z.of_N x mod 2 ^ 32)%Z in if (r <? 2 ^ 31)%Z then r else (r - 2 ^ 32)%Z.
Definition toInt (d : words) : outcome Z := omap to_int32 (rd d 0).

(** A history of single-bit writes. *)
Fixpoint run_sets (ops : list (nat * bool)) (d : words) : outcome words :=
  match ops with
  | [] => Ok d
  | (i, v) :: ops' => do d' <- set1 d i v; run_sets ops' d'
  end.
