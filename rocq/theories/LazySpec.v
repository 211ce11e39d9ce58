(** What an expression object stands for, and which histories respect the lifetimes of its operands. *)
From Coq Require Import List Arith.
From Verif Require Import Base LazyModel.
Import ListNotations.

Section Spec.
Context {A : Type}.
Implicit Types (st : state A) (t : thing A) (e : sexp A) (c : cmd A).

Definition live st (a : nat) t : Prop := nth_error st a = Some (Some t).

(** Element [i] of an object is [x], given what the objects of the program now hold. *)
Inductive elem st : thing A -> nat -> A -> Prop :=
| el_arr s d i x : nth_error d i = Some x -> elem st (TArr s d) i x
| el_num x i : elem st (TNum x) i x
| el_ref a t i x : live st a t -> elem st t i x -> elem st (TRef a) i x
| el_view a t off s i x : live st a t -> elem st t (off + i) x -> elem st (TView a off s) i x
| el_map f s t i x : elem st t i x -> elem st (TMap f s t) i (f x)
| el_fun f s l r i x y : elem st l i x -> elem st r i y -> elem st (TFun f s l r) i (f x y).

(** The shape of a source expression (None: a number). *)
Fixpoint sdims st e : option (list nat) :=
  match e with
  | Name a => match nth_error st a with Some (Some t) => own_dims t | _ => None end
  | Lit _ => None
  | Temp s _ => Some s
  | Un _ e1 => sdims st e1
  | Bin _ e1 e2 => match sdims st e1 with Some s => Some s | None => sdims st e2 end
  | Row e1 _ => match sdims st e1 with Some (_ :: w) => Some w | _ => None end
  end.

(** Element [i] of a source expression is [x], names standing for what they now hold. *)
Inductive sval st : sexp A -> nat -> A -> Prop :=
| sv_name a t i x : live st a t -> elem st t i x -> sval st (Name a) i x
| sv_lit x i : sval st (Lit x) i x
| sv_temp s d i x : nth_error d i = Some x -> sval st (Temp s d) i x
| sv_un f e i x : sval st e i x -> sval st (Un f e) i (f x)
| sv_bin f e1 e2 i x y : sval st e1 i x -> sval st e2 i y -> sval st (Bin f e1 e2) i (f x y)
| sv_row e k n w i x :
    sdims st e = Some (n :: w) -> k < n -> i < prodn w -> sval st e (k * prodn w + i) x ->
    sval st (Row e k) i x.

(** The compiler accepts it: names are in scope, only arrays are indexed; temporary arrays are filled. *)
Fixpoint typed st e : Prop :=
  match e with
  | Name a => exists t, live st a t
  | Lit _ => True
  | Temp s d => length d = prodn s
  | Un _ e1 => typed st e1
  | Bin _ e1 e2 => typed st e1 /\ typed st e2
  | Row e1 _ => typed st e1 /\ exists n w, sdims st e1 = Some (n :: w)
  end.

(** Every row taken is a row of something that has a name. *)
Fixpoint named_base e : Prop :=
  match e with Name _ => True | Row e1 _ => named_base e1 | _ => False end.
Fixpoint lasting e : Prop :=
  match e with
  | Name _ | Lit _ | Temp _ _ => True
  | Un _ e1 => lasting e1
  | Bin _ e1 e2 => lasting e1 /\ lasting e2
  | Row e1 _ => named_base e1
  end.

(** An operation or an indexing, as opposed to a name, a number or a new array. *)
Definition operation e : Prop := match e with Un _ _ | Bin _ _ _ | Row _ _ => True | _ => False end.

(** No arithmetic on numbers alone: that is done at once, not lazily. *)
Fixpoint all_lazy st e : Prop :=
  match e with
  | Name _ | Lit _ | Temp _ _ => True
  | Un _ e1 => all_lazy st e1 /\ sdims st e <> None
  | Bin _ e1 e2 => all_lazy st e1 /\ all_lazy st e2 /\ sdims st e <> None
  | Row e1 _ => all_lazy st e1
  end.

Fixpoint names e : list nat :=
  match e with
  | Name a => [a]
  | Lit _ | Temp _ _ => []
  | Un _ e1 | Row e1 _ => names e1
  | Bin _ e1 e2 => names e1 ++ names e2
  end.

(** The objects an object holds references to, directly and through other objects. *)
Fixpoint refs t : list nat :=
  match t with
  | TArr _ _ | TNum _ => []
  | TRef a | TView a _ _ => [a]
  | TMap _ _ u => refs u
  | TFun _ _ l r => refs l ++ refs r
  end.
Inductive reaches st : thing A -> nat -> Prop :=
| re_here t a : In a (refs t) -> reaches st t a
| re_there t a u b : In a (refs t) -> live st a u -> reaches st u b -> reaches st t b.

(** All views inside start at the first element of what they view. *)
Fixpoint offset_free t : Prop :=
  match t with
  | TArr _ _ | TNum _ | TRef _ => True
  | TView _ off _ => off = 0
  | TMap _ _ u => offset_free u
  | TFun _ _ l r => offset_free l /\ offset_free r
  end.

(** When an object may go: [unused], nothing alive refers to it; [block], everything declared after it
    has gone already, as at the end of nested scopes. *)
Definition unused st (a : nat) : Prop := forall b t, live st b t -> ~ In a (refs t).
Definition block st (a : nat) : Prop := forall b t, a < b -> ~ live st b t.

(** Statements of a sound program: expressions type check, rows of temporaries are not kept, elements
    written exist, arrays are replaced by arrays of their own shape. *)
Definition admissible (may_go : state A -> nat -> Prop) st c : Prop :=
  match c with
  | DeclArray s d => length d = prodn s
  | DeclNum _ => True
  | DeclAuto e => typed st e /\ lasting e
  | DeclEval e => typed st e
  | SetElem a i _ => (exists s d, live st a (TArr s d) /\ i < length d) \/ (exists y, live st a (TNum y))
  | Reassign a s d => length d = prodn s /\ exists d0, live st a (TArr s d0)
  | Kill a => (exists t, live st a t) /\ may_go st a
  end.
Fixpoint scoped (may_go : state A -> nat -> Prop) st (l : list (cmd A)) : Prop :=
  match l with
  | [] => True
  | c :: l' => admissible may_go st c /\ forall st', step true c st = Ok st' -> scoped may_go st' l'
  end.

(** The number of elements of an object (a number counts as one). *)
Definition count t : nat := match own_dims t with Some s => prodn s | None => 1 end.

End Spec.
