(** What each elementwise function means: the value at [x], or [None] where it is undefined. *)
From Coq Require Import Reals.
From Verif Require Import Base FunctorModel.
Local Open Scope R_scope.

(** [r] is the value of a function defined exactly where [dom] holds, characterised by [char]. *)
Definition valued (dom : Prop) (char : R -> Prop) (r : option R) : Prop :=
  match r with Some y => dom /\ char y | None => ~ dom end.

Definition means (f : name) (x : R) (r : option R) : Prop :=
  match f with
  | neg => valued True (fun y => x + y = 0) r
  | sin_ => valued True (fun y => y = sin x) r
  | cos_ => valued True (fun y => y = cos x) r
  | tan_ => valued (cos x <> 0) (fun y => y * cos x = sin x) r
  | asin_ => valued (-1 <= x <= 1) (fun y => - PI / 2 <= y <= PI / 2 /\ sin y = x) r
  | acos_ => valued (-1 <= x <= 1) (fun y => 0 <= y <= PI /\ cos y = x) r
  | atan_ => valued True (fun y => - PI / 2 < y < PI / 2 /\ sin y = x * cos y) r
  | sinh_ => valued True (fun y => 2 * y = exp x - exp (- x)) r
  | cosh_ => valued True (fun y => 2 * y = exp x + exp (- x)) r
  | tanh_ => valued True (fun y => y * (exp x + exp (- x)) = exp x - exp (- x)) r
  | asinh_ => valued True (fun y => exp y - exp (- y) = 2 * x) r
  | acosh_ => valued (1 <= x) (fun y => 0 <= y /\ exp y + exp (- y) = 2 * x) r
  | atanh_ => valued (-1 < x < 1) (fun y => exp y - exp (- y) = x * (exp y + exp (- y))) r
  | exp_ => valued True (fun y => y = exp x) r
  | exp2_ => valued True (fun y => 0 < y /\ ln y = x * ln 2) r
  | exp10_ => valued True (fun y => 0 < y /\ ln y = x * ln 10) r
  | log_ => valued (0 < x) (fun y => exp y = x) r
  | log2_ => valued (0 < x) (fun y => exp (y * ln 2) = x) r
  | log10_ => valued (0 < x) (fun y => exp (y * ln 10) = x) r
  | sqrt_ => valued (0 <= x) (fun y => 0 <= y /\ y * y = x) r
  | cbrt_ => valued True (fun y => y * y * y = x) r
  | abs_ => valued True (fun y => y = Rabs x) r
  | floor_ => valued True (fun y => (exists n, y = IZR n) /\ y <= x < y + 1) r
  | ceil_ => valued True (fun y => (exists n, y = IZR n) /\ y - 1 < x <= y) r
  end.

(** Only one result fits. *)
Definition functional (f : name) : Prop := forall x r r', means f x r -> means f x r' -> r = r'.

(** An integer element: the real value with its fraction dropped. *)
Definition means_int (f : name) (n : Z) (r : outcome Z) : Prop :=
  match r with
  | Ok m => exists y, means f (IZR n) (Some y) /\
              Rabs (IZR m) <= Rabs y /\ Rabs y < Rabs (IZR m) + 1 /\ 0 <= IZR m * y
  | _ => means f (IZR n) None
  end.

(** Comparison operators give 1 or 0. *)
Definition truth (P : Prop) (y : R) : Prop := (P /\ y = 1) \/ (~ P /\ y = 0).
Definition bmeans (o : binop) (a b : R) (r : option R) : Prop :=
  match o with
  | add => valued True (fun y => y = a + b) r
  | sub => valued True (fun y => y + b = a) r
  | mul => valued True (fun y => y = a * b) r
  | div => valued (b <> 0) (fun y => y * b = a) r
  | lt => valued True (truth (a < b)) r
  | gt => valued True (truth (a > b)) r
  | le => valued True (truth (a <= b)) r
  | ge => valued True (truth (a >= b)) r
  | eq_ => valued True (truth (a = b)) r
  | ne => valued True (truth (a <> b)) r
  end.

(** the five functions bound to the wrong scalar function *)
Definition misnamed (f : name) : bool :=
  match f with asinh_ | acosh_ | atanh_ | exp2_ | exp10_ => true | _ => false end.
