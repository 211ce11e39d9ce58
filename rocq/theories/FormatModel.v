(** Model of the text form of arrays.  Source: array/generalArrayViewToString.hpp, the formatter
    macro ARRAY_TYPE_FMT_IML of array/arrayTypeDef.hpp, and ArrayContainer::str
    (array/arrayContainer.hpp l.937-943).  fmt itself is not modelled: [text a] is what it produces
    for one element.  Shapes are the general Shape type. *)
From Coq Require Import Ascii.
From Verif Require Import Base ShapeModel ViewModel.

Section Format.
Context {A : Type}.
(** fmt::format of one element with the user's format string, and how its type is classified by
    [alignment] (is_integral_v, is_floating_point_v, neither) *)
Variable text : A -> list ascii.
Inductive kind := Integral | Floating | Other.
Variable knd : kind.

(** std::string::find *)
Fixpoint find_char (c : ascii) (s : list ascii) : option nat :=
  match s with
  | [] => None
  | a :: s' => if Ascii.eqb a c then Some 0 else option_map S (find_char c s')
  end.
(** alignment, l.7-23 *)
Definition alignment (a : A) : nat * nat :=
  match knd with
  | Integral => (length (text a), 0)
  | Floating => match find_char "."%char (text a) with
                | None => (length (text a), 0)
                | Some point => (point, length (text a) - point)
                end
  | Other => (0, 0)
  end.

(** generalArrayViewToStringColWidthFinder, l.26-46; [ndim] is view.ndim() *)
Fixpoint finder (asserts : bool) (ndim : nat) (v : view) (m : list A) (al : list (nat * nat)) : outcome (list (nat * nat)) :=
  match ndim with
  | O => Ok al
  | S O =>
      do e <- extent asserts (v_shape v) 0;
      for_range 0 (N.to_nat e) (fun i al =>
        do x <- view_scalar v m (N.of_nat i);
        let p := alignment x in
        if length al <=? i then Ok (al ++ [p])
        else do q <- rd al i; wr al i (Nat.max (fst q) (fst p), Nat.max (snd q) (snd p))) al
  | S ndim' =>
      do e <- extent asserts (v_shape v) 0;
      for_range 0 (N.to_nat e) (fun i al =>
        do w <- index asserts v (Z.of_nat i); finder asserts ndim' w m al) al
  end.

(** The pieces of text written to the output. *)
Inductive tok := TOpen | TClose | TSep | TSpace (n : nat) | TNewline | TVal (a : A).
(** the separator after an element (l.98-104) and after a row (l.120-125); [blank] is separator == ' ' *)
Definition sep1 (blank : bool) : list tok := if blank then [TSpace 1] else [TSep; TSpace 1].
Definition sepn (blank : bool) : list tok := if blank then [TNewline] else [TSep; TNewline].

(** generalArrayViewToStringImpl, l.48-132, from the first test on; [out] is what was written so far *)
Fixpoint impl (asserts blank : bool) (ndim indent : nat) (v : view) (m : list A) (al : list (nat * nat))
    (out : list tok) : outcome (list tok) :=
  match ndim with
  | O => do x <- view_scalar v m 0; Ok (out ++ [TVal x])
  | S O =>
      do e <- extent asserts (v_shape v) 0;
      do out' <- for_range 0 (N.to_nat e) (fun i out =>
        do col <- rd al i;
        do x <- view_scalar v m (N.of_nat i);
        let size := alignment x in
        let out := out ++ [TSpace (fst col - fst size)] ++ [TVal x] ++ [TSpace (snd col - snd size)] in
        Ok (if negb (i =? N.to_nat e - 1) then out ++ sep1 blank else out)) (out ++ [TOpen]);
      Ok (out' ++ [TClose])
  | S ndim' =>
      do e <- extent asserts (v_shape v) 0;
      do out' <- for_range 0 (N.to_nat e) (fun i out =>
        let out := if 0 <? i then out ++ [TSpace (indent + 1)] else out in
        do w <- index asserts v (Z.of_nat i);
        do out <- impl asserts blank ndim' (indent + 1) w m al out;
        Ok (if negb (i =? N.to_nat e - 1) then
              let out := out ++ sepn blank in if 2 <? ndim then out ++ [TNewline] else out
            else out)) (out ++ [TOpen]);
      Ok (out' ++ [TClose])
  end.
(** generalArrayViewToString, l.134-144, on the view of an array *)
Definition str (asserts blank : bool) (s : shape) (m : list A) : outcome (list tok) :=
  do v <- of_array s;
  do al <- finder asserts (length s) v m [];
  impl asserts blank (length s) 0 v m al [].

(** The brackets, l.58-83, and the characters of the pieces. *)
Definition brackets (c : ascii) : ascii * ascii :=
  (if Ascii.eqb c "r" then ("(", ")")
   else if Ascii.eqb c "s" then ("[", "]")
   else if Ascii.eqb c "c" then ("{", "}")
   else if Ascii.eqb c "a" then ("<", ">")
   else if Ascii.eqb c "p" then ("|", "|")
   else ("[", "]"))%char.
Definition newline : ascii := ascii_of_nat 10.
Definition render (bracket separator : ascii) (t : tok) : list ascii :=
  match t with
  | TOpen => [fst (brackets bracket)]
  | TClose => [snd (brackets bracket)]
  | TSep => [separator]
  | TSpace n => repeat " "%char n
  | TNewline => [newline]
  | TVal a => text a
  end.
Definition to_text (asserts : bool) (bracket separator : ascii) (s : shape) (m : list A) : outcome (list ascii) :=
  do ts <- str asserts (Ascii.eqb separator " ") s m;
  Ok (flat_map (render bracket separator) ts).
End Format.
Arguments tok : clear implicits.

(** The parse function of the formatter, arrayTypeDef.hpp l.105-127: the format specification is
    copied character by character into char m_formatString[16], initially zero. *)
Definition parse_spec (spec : list ascii) : outcome (list ascii) :=
  for_range 0 (length spec) (fun i buf => do c <- rd spec i; wr buf i c) (repeat Ascii.zero 16).
(** fmt::format("{{:{}}}", formatString), l.8: a char array is read as a C string, up to the first
    NUL; without one the read goes past the end. *)
Fixpoint c_string (buf : list ascii) : outcome (list ascii) :=
  match buf with
  | [] => UB
  | c :: buf' => if Ascii.eqb c Ascii.zero then Ok [] else do r <- c_string buf'; Ok (c :: r)
  end.
