(** What C44 and C45 mean: the mathematical value of an expression, and the points at which
    all its sub-expressions are differentiable. *)
From Coq Require Import Reals.
From Verif Require Import DualModel.
Local Open Scope R_scope.

Definition arith (o : op) (a b : R) : R :=
  match o with Add => a + b | Sub => a - b | Mul => a * b | Div => a / b end.

(** The expression as a function of a real variable. *)
Fixpoint reval (e : expr) (x : R) : R :=
  match e with
  | X => x
  | K c => c
  | Neg e => - reval e x
  | Pos e => reval e x
  | Bin o l r => arith o (reval l x) (reval r x)
  | BinR o l c => arith o (reval l x) c
  | BinL o c r => arith o c (reval r x)
  | Fun f e => std f (reval e x)
  | PowR e y => cpow (reval e x) y
  | PowL c e => cpow c (reval e x)
  | PowD l r => cpow (reval l x) (reval r x)
  end.

(** Where the mathematical function is defined around the point and differentiable. *)
Definition smooth_at (f : fn) (v : R) : Prop :=
  match f with
  | Sin | Cos | Atan | Sinh | Cosh | Tanh | Asinh | Exp | Exp2 | Exp10 => True
  | Tan => cos v <> 0
  | Asin | Acos | Atanh => -1 < v < 1
  | Acosh => 1 < v
  | Log | Log10 | Log2 | Sqrt => 0 < v
  | Cbrt => v <> 0
  end.

Definition divisor_ok (o : op) (v : R) : Prop := match o with Div => v <> 0 | _ => True end.

(** v^y as a function of v: v > 0, or y an integer (positive when v = 0). *)
Definition power_ok (v y : R) : Prop :=
  0 < v \/ (exists n : Z, y = IZR n /\ (v < 0 \/ (v = 0 /\ (1 <= n)%Z))).

Fixpoint smooth (e : expr) (x : R) : Prop :=
  match e with
  | X | K _ => True
  | Neg e | Pos e => smooth e x
  | Bin o l r => smooth l x /\ smooth r x /\ divisor_ok o (reval r x)
  | BinR o l c => smooth l x /\ divisor_ok o c
  | BinL o c r => smooth r x /\ divisor_ok o (reval r x)
  | Fun f e => smooth e x /\ smooth_at f (reval e x)
  | PowR e y => smooth e x /\ power_ok (reval e x) y
  | PowL c e => smooth e x /\ 0 < c
  | PowD l r => smooth l x /\ smooth r x /\ 0 < reval l x
  end.

(** [f] has derivative [d] at [x]: the standard library's limit of difference quotients. *)
Definition has_derivative (f : R -> R) (x d : R) : Prop := derivable_pt_lim f x d.
