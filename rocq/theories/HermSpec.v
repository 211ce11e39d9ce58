(** What op(A) is for the conjugating modes of herk and her2k. *)
From Coq Require Import ZArith.
From Verif Require Import Base MatmulModel MatmulSpec BlasModel BlasSpec TriModel TriSpec SymSpec.
Local Open Scope Z_scope.

(** Entry (i, l) of the n x k matrix op(A): A, its conjugate, its transpose or its conjugate transpose. *)
Definition op_entry {A} (d : A) (conj : A -> A) (o : order) (t : trans) (a lda : Z) (m : list A) (i l : Z) : A :=
  (if is_conj t then conj else fun v => v) (val d m (stored o t a lda i l)).
(** The modes that make the product Hermitian. *)
Definition hermitian_mode (t : trans) : Prop := t = NoTrans \/ t = ConjTrans.
(** Diagonal entries are made real. *)
Definition on_diagonal {A} (re : A -> A) (i j : Z) (v : A) : A := if i =? j then re v else v.
