(** C56 and C58: the text form of arrays. *)
From Coq Require Import Ascii String List.
Import ListNotations.
From Verif Require Import Base BaseProofs ShapeModel ShapeSpec ViewModel ViewSpec FormatModel FormatSpec FormatProofs.
From Coq Require Import ZifyNat ZifyN ZifyBool.
Ltac Zify.zify_post_hook ::= idtac.
Local Open Scope nat_scope.
Local Open Scope list_scope.

(** Formatting succeeds for every array; leaving out white space, the output is the nested-list
    notation of its contents, and the elements shown are the row-major contents, each once. *)
Theorem C56_nested : forall (A : Type) (text : A -> list ascii) (knd : kind) asserts blank (s : shape) (m : list A),
  dense s -> N.of_nat (length m) = prod s ->
  exists out, str text knd asserts blank s m = Ok out /\
    filter visible out = nested blank s m /\ values out = m.
Proof.
  intros A text knd asserts blank s m HD Hm.
  destruct (str_layout text knd asserts blank s m HD Hm) as (W & [HW _] & E).
  exists (layout (alignment text knd) W blank 0 s m). split; [exact E|].
  assert (V : filter visible (layout (alignment text knd) W blank 0 s m) = nested blank s m).
  { apply visible_layout; [exact HD|lia|now rewrite HW]. }
  split; [exact V|]. rewrite <- values_filter, V. apply (values_nested text); lia.
Qed.
Print Assumptions C56_nested.

(** The whole layout: every element is padded to the widths of its column, which are the largest
    widths needed in that column. *)
Theorem C56_aligned : forall (A : Type) (text : A -> list ascii) (knd : kind) asserts blank (s : shape) (m : list A),
  dense s -> N.of_nat (length m) = prod s ->
  exists W, column_widths (alignment text knd) (N.to_nat (last s 0%N)) m W /\
    str text knd asserts blank s m = Ok (layout (alignment text knd) W blank 0 s m).
Proof. intros. now apply str_layout. Qed.
Print Assumptions C56_aligned.

(** In a column of width (W1, W2) every rendered number takes W1 + W2 characters, and for floating
    point types its decimal point (or, without one, its end) is W1 characters from the left. *)
Theorem C56_points_line_up : forall (A : Type) (text : A -> list ascii) bracket separator (x : A) (w : nat * nat),
  (forall k, k = Integral \/ k = Floating ->
    fst (alignment text k x) <= fst w -> snd (alignment text k x) <= snd w ->
    length (flat_map (render text bracket separator) (padded (alignment text k) w x)) = fst w + snd w) /\
  (fst (alignment text Floating x) <= fst w ->
    before_point (flat_map (render text bracket separator) (padded (alignment text Floating) w x))
    = if existsb (Ascii.eqb ".") (text x) then fst w else fst w + (snd w - snd (alignment text Floating x))) /\
  (before_point (text x) = fst (alignment text Floating x)).
Proof. exact @points_line_up. Qed.
Print Assumptions C56_points_line_up.

(** Opening and closing brackets match, for every bracket style; the five letters choose five different styles. *)
Theorem C56_brackets : forall c : ascii, snd (brackets c) = mirror (fst (brackets c)) /\
  (fst (brackets c) = "("%char <-> c = "r"%char) /\ (fst (brackets c) = "{"%char <-> c = "c"%char) /\
  (fst (brackets c) = "<"%char <-> c = "a"%char) /\ (fst (brackets c) = "|"%char <-> c = "p"%char).
Proof. exact brackets_match. Qed.
Print Assumptions C56_brackets.

(** The characters: with bracket and separator characters chosen by the user. *)
Theorem C56_text : forall (A : Type) (text : A -> list ascii) (knd : kind) asserts bracket separator (s : shape) (m : list A),
  dense s -> N.of_nat (length m) = prod s ->
  exists out, to_text text knd asserts bracket separator s m = Ok (flat_map (render text bracket separator) out) /\
    filter visible out = nested (Ascii.eqb separator " ") s m /\ values out = m.
Proof.
  intros A text knd asserts bracket separator s m HD Hm.
  destruct (C56_nested A text knd asserts (Ascii.eqb separator " ") s m HD Hm) as (out & E & H).
  exists out. split; [|exact H]. unfold to_text. now rewrite E.
Qed.
Print Assumptions C56_text.

(** A format specification of up to 15 characters is kept as it is. *)
Theorem C58_spec_partial : forall spec, length spec <= 15 -> ~ In Ascii.zero spec ->
  exists buf, parse_spec spec = Ok buf /\ c_string buf = Ok spec.
Proof.
  intros spec Hl Hz. exists (spec ++ repeat Ascii.zero (16 - length spec)). split; [apply parse_fits; lia|].
  replace (16 - length spec) with (S (15 - length spec)) by lia. now apply c_string_ok.
Qed.
Print Assumptions C58_spec_partial.

(** Longer specifications overflow the buffer: 16 characters leave it unterminated, more are written
    past its end. *)
Theorem C58_spec_refuted : forall spec, 16 <= length spec -> ~ In Ascii.zero spec ->
  (do buf <- parse_spec spec; c_string buf) = UB.
Proof.
  intros spec Hl Hz. destruct (Nat.eq_dec (length spec) 16) as [E|E].
  - rewrite parse_fits by lia. rewrite E. cbn [bind repeat Nat.sub]. rewrite app_nil_r. now apply c_string_unterminated.
  - rewrite parse_overflow by lia. reflexivity.
Qed.
Print Assumptions C58_spec_refuted.

Definition digits (n : nat) : list ascii := list_ascii_of_string (if n <? 10 then "7" else "42").
Example C56_example :
  dense [2; 3]%N /\
  to_text digits Integral true "s" "," [2; 3]%N [1; 10; 2; 3; 4; 5]
    = Ok (list_ascii_of_string "[[7, 42, 7]," ++ [newline] ++ list_ascii_of_string " [7,  7, 7]]") /\
  nested false [2; 2]%N [1; 2; 3; 4]
    = [TOpen; TOpen; TVal 1; TSep; TVal 2; TClose; TSep; TOpen; TVal 3; TSep; TVal 4; TClose; TClose].
Proof.
  split; [|split; reflexivity]. split; [discriminate|]. split; [|reflexivity].
  constructor; [reflexivity|]. constructor; [reflexivity|]. constructor.
Qed.

Example C58_example : exists buf, parse_spec (list_ascii_of_string ">10.3f") = Ok buf /\
  c_string buf = Ok (list_ascii_of_string ">10.3f").
Proof. eexists. split; reflexivity. Qed.
