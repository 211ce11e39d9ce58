(** What C56 means: nested lists. *)
From Coq Require Import Ascii.
From Verif Require Import Base ShapeModel ShapeSpec ViewModel FormatModel.

(** Consecutive pieces of a list: [n] blocks of [k] elements. *)
Fixpoint chunks {A} (n k : nat) (l : list A) : list (list A) :=
  match n with O => [] | S n' => firstn k l :: chunks n' k (skipn k l) end.
(** Blocks separated by [x]. *)
Fixpoint join {A} (x : list A) (ls : list (list A)) : list A :=
  match ls with
  | [] => []
  | [l] => l
  | l :: ls' => l ++ x ++ join x ls'
  end.

(** The nested-list notation of the row-major contents [l] of an array of shape [s]: one pair of
    brackets per dimension, the sub-arrays separated by the separator (nothing visible when it is
    blank). *)
Fixpoint nested {A} (blank : bool) (s : list N) (l : list A) : list (tok A) :=
  match s with
  | [] => map TVal l
  | e :: s' => TOpen :: join (if blank then [] else [TSep])
                 (map (nested blank s') (chunks (N.to_nat e) (N.to_nat (prod s')) l)) ++ [TClose]
  end.

(** Leaving out white space. *)
Definition visible {A} (t : tok A) : bool := match t with TSpace _ | TNewline => false | _ => true end.
(** The elements shown. *)
Definition values {A} (ts : list (tok A)) : list A :=
  flat_map (fun t => match t with TVal a => [a] | _ => [] end) ts.

(** The full layout: [align a] is the number of characters of an element before and after its
    decimal point, W the two widths of each column.  Every element of column c is padded to the
    widths of that column; sub-arrays start on their own line, indented by their depth, with a blank
    line between them when they have two dimensions or more. *)
Definition padded {A} (align : A -> nat * nat) (w : nat * nat) (a : A) : list (tok A) :=
  [TSpace (fst w - fst (align a)); TVal a; TSpace (snd w - snd (align a))].
Fixpoint map2 {A B C} (f : A -> B -> C) (l : list A) (l' : list B) : list C :=
  match l, l' with a :: l, b :: l' => f a b :: map2 f l l' | _, _ => [] end.
Fixpoint layout {A} (align : A -> nat * nat) (W : list (nat * nat)) (blank : bool) (indent : nat) (s : list N) (l : list A)
    : list (tok A) :=
  match s with
  | [] => map TVal l
  | [_] => TOpen :: join ((if blank then [] else [TSep]) ++ [TSpace 1]) (map2 (padded align) W l) ++ [TClose]
  | e :: s' =>
      TOpen :: join ((if blank then [] else [TSep]) ++ [TNewline] ++ (if 2 <=? length s' then [TNewline] else [])
                     ++ [TSpace (indent + 1)])
        (map (layout align W blank (indent + 1) s') (chunks (N.to_nat e) (N.to_nat (prod s')) l)) ++ [TClose]
  end.

(** W holds, for each of the [w] columns, the largest number of characters before and after the
    point among the elements of that column. *)
Definition column_widths {A} (align : A -> nat * nat) (w : nat) (l : list A) (W : list (nat * nat)) : Prop :=
  length W = w /\
  forall c, c < w ->
    let Wc := nth c W (0, 0) in
    (forall i x, nth_error l i = Some x -> i mod w = c -> fst (align x) <= fst Wc /\ snd (align x) <= snd Wc) /\
    (exists i x, nth_error l i = Some x /\ i mod w = c /\ fst (align x) = fst Wc) /\
    (exists i x, nth_error l i = Some x /\ i mod w = c /\ snd (align x) = snd Wc).

(** The number of characters of a text before, and from, its first decimal point. *)
Fixpoint before_point (t : list ascii) : nat :=
  match t with [] => 0 | c :: t' => if Ascii.eqb c "." then 0 else S (before_point t') end.
(** The closing bracket that goes with an opening one. *)
Definition mirror (c : ascii) : ascii :=
  (if Ascii.eqb c "(" then ")" else if Ascii.eqb c "[" then "]" else if Ascii.eqb c "{" then "}"
   else if Ascii.eqb c "<" then ">" else c)%char.
