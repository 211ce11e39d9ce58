(** What C108 means: the same expression without derivatives, the real function it stands for, and how far
    a computed value or derivative may be from the exact one. *)
From Coq Require Import ZArith Reals.
From Flocq Require Import Core BinarySingleNaN.
From Verif Require Import DualModel DualSpec AccSpec DflModel.
Local Open Scope R_scope.

(** The expression computed with plain scalars. *)
Section Plain.
Context {A : Type}.
Variables (add sub mul div : A -> A -> A) (opp : A -> A) (lib : fn -> A -> A) (power : A -> A -> A).
Definition apply (o : op) (a b : A) : A := match o with Add => add a b | Sub => sub a b | Mul => mul a b | Div => div a b end.
Fixpoint plain (e : gexpr A) (x : A) : A :=
  match e with
  | GX => x
  | GK c => c
  | GNeg e => opp (plain e x)
  | GPos e => plain e x
  | GBin o l r => apply o (plain l x) (plain r x)
  | GBinR o l c => apply o (plain l x) c
  | GBinL o c r => apply o c (plain r x)
  | GFun f e => lib f (plain e x)
  | GPowR e y => power (plain e x) y
  | GPowL c e => power c (plain e x)
  | GPowD l r => power (plain l x) (plain r x)
  end.
End Plain.

(** The real function an expression stands for: [exact g e], where [g] gives the value of a scalar. *)
Fixpoint exact {A} (g : A -> R) (e : gexpr A) : expr :=
  match e with
  | GX => X
  | GK c => K (g c)
  | GNeg e => Neg (exact g e)
  | GPos e => Pos (exact g e)
  | GBin o l r => Bin o (exact g l) (exact g r)
  | GBinR o l c => BinR o (exact g l) (g c)
  | GBinL o c r => BinL o (g c) (exact g r)
  | GFun f e => Fun f (exact g e)
  | GPowR e y => PowR (exact g e) (g y)
  | GPowL c e => PowL (g c) (exact g e)
  | GPowD l r => PowD (exact g l) (exact g r)
  end.

(** Sums, differences and products of the variable and finite constants; quotients only by scalars. *)
Fixpoint polynomial {prec emax} (e : gexpr (binary_float prec emax)) : Prop :=
  match e with
  | GX => True
  | GK c => is_finite c = true
  | GNeg e | GPos e => polynomial e
  | GBin o l r => o <> Div /\ polynomial l /\ polynomial r
  | GBinR _ l c => polynomial l /\ is_finite c = true
  | GBinL o c r => o <> Div /\ is_finite c = true /\ polynomial r
  | _ => False
  end.

(** Upper bounds of the value and of the derivative: every term replaced by its modulus.  [t] is added for
    each product and quotient: 0 gives the exact bound, the underflow unit the one with underflows. *)
Fixpoint sizes {prec emax} (t : R) (e : gexpr (binary_float prec emax)) (x s : R) : R * R :=
  match e with
  | GX => (Rabs x, Rabs s)
  | GK c => (Rabs (B2R c), 0)
  | GNeg e | GPos e => sizes t e x s
  | GBin Mul l r => let '(v, d) := sizes t l x s in let '(v', d') := sizes t r x s in (v * v' + t, (d * v' + t) + (v * d' + t))
  | GBin _ l r => let '(v, d) := sizes t l x s in let '(v', d') := sizes t r x s in (v + v', d + d')
  | GBinR Mul l c => let '(v, d) := sizes t l x s in (v * Rabs (B2R c) + t, d * Rabs (B2R c) + t)
  | GBinR Div l c => let '(v, d) := sizes t l x s in (v / Rabs (B2R c) + t, d / Rabs (B2R c) + t)
  | GBinR _ l c => let '(v, d) := sizes t l x s in (v + Rabs (B2R c), d)
  | GBinL Mul c r => let '(v, d) := sizes t r x s in (Rabs (B2R c) * v + t, Rabs (B2R c) * d + t)
  | GBinL _ c r => let '(v, d) := sizes t r x s in (Rabs (B2R c) + v, d)
  | _ => (0, 0)
  end.
(** The number of roundings a term goes through. *)
Fixpoint roundings {A} (e : gexpr A) : nat :=
  match e with
  | GX | GK _ => 0
  | GNeg e | GPos e => roundings e
  | GBin Mul l r => roundings l + roundings r + 2
  | GBin _ l r => S (Nat.max (roundings l) (roundings r))
  | GBinR _ l _ => S (roundings l)
  | GBinL _ _ r => S (roundings r)
  | _ => 0
  end.

(** Integer polynomials all of whose parts are bounded by [b]. *)
Definition both_le (p : R * R) (b : R) : Prop := fst p <= b /\ snd p <= b.
Fixpoint small_integers {prec emax} (e : gexpr (binary_float prec emax)) (x s b : R) : Prop :=
  both_le (sizes 0 e x s) b /\
  match e with
  | GX => True
  | GK c => is_finite c = true /\ integral (B2R c)
  | GNeg e | GPos e => small_integers e x s b
  | GBin o l r => o <> Div /\ small_integers l x s b /\ small_integers r x s b
  | GBinR o l c => o <> Div /\ small_integers l x s b /\ is_finite c = true /\ integral (B2R c)
  | GBinL o c r => o <> Div /\ is_finite c = true /\ integral (B2R c) /\ small_integers r x s b
  | _ => False
  end.

(** [v] is the derivative of [f] at [x], times the seed [s]. *)
Definition has_seeded_derivative (f : R -> R) (x s v : R) : Prop := exists d, has_derivative f x d /\ v = d * s.
