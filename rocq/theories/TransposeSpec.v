(** What transposition should produce. *)
From Coq Require Import Permutation.
From Verif Require Import Base ShapeModel ShapeSpec ViewSpec.

(** [out] is alpha times the transpose of the rows x cols matrix [inp]. *)
Definition transposed {A} (mul : A -> A -> A) (alpha : A) (rows cols : nat) (inp out : list A) : Prop :=
  length out = cols * rows /\
  forall r c, r < rows -> c < cols -> exists x, nth_error inp (r * cols + c) = Some x /\
    nth_error out (c * rows + r) = Some (mul x alpha).

(** The same through the shape: element (j, i) of the result is element (i, j) of the argument. *)
Definition transpose_of {A} (mul : A -> A -> A) (alpha : A) (a t : list N * list A) : Prop :=
  exists rows cols, fst a = [rows; cols] /\ fst t = [cols; rows] /\
    N.of_nat (length (snd t)) = prod (fst t) /\
    forall i j, (i < rows)%N -> (j < cols)%N -> exists x,
      element (fst a) (snd a) [i; j] = Some x /\ element (fst t) (snd t) [j; i] = Some (mul x alpha).

(** The shape with its dimensions permuted. *)
Definition permuted_shape (s axes os : list N) : Prop :=
  length os = length axes /\ forall i a, nth_error axes i = Some a -> nth_error os i = nth_error s (N.to_nat a).

(** A block kernel is right when it turns the rows of a b x b block into its columns. *)
Definition block_transpose {A} (b : nat) (K : list (list A) -> list (list A)) : Prop :=
  forall rs, length rs = b -> Forall (fun r => length r = b) rs ->
  length (K rs) = b /\ forall i j, i < b -> j < b -> exists x ri rj,
    nth_error rs i = Some ri /\ nth_error ri j = Some x /\ nth_error (K rs) j = Some rj /\ length rj = b /\ nth_error rj i = Some x.
