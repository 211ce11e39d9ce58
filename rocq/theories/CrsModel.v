(** Model of the generic sparse matrix products.  Source: librapid/cxxblas/sparselevel2/{gecrsmv,sycrsmv,syccsmv,
    hecrsmv,heccsmv}.tcc and sparselevel3/{gecrsmm,sycrsmm,syccsmm,hecrsmm,heccsmm}.tcc, the templates used when no
    MKL overload applies (trcrssv, trccssv, trcrssm and trccssm exist only as MKL overloads).  Elements live in one
    memory as in [BlasModel]; the two integer arrays are separate, since they have another type and are not written.
    Integers are mathematical: overflow of int and IndexType is not modelled. *)
From Coq Require Import ZArith.
From Verif Require Import Base MatmulModel BlasModel TriModel.
Local Open Scope Z_scope.

(** for (k = lo; k < hi; ++k) body(k); the bound is read from an array that the body does not write *)
Fixpoint each_n {St} (n : nat) (k : Z) (body : Z -> St -> outcome St) (s : St) : outcome St :=
  match n with
  | O => Ok s
  | S n' => do s1 <- body k s; each_n n' (k + 1) body s1
  end.
Definition each {St} (lo hi : Z) (body : Z -> St -> outcome St) (s : St) : outcome St := each_n (Z.to_nat (hi - lo)) lo body s.

Section Crs.
Context {A : Type}.
Variables (zero : A) (add mul : A -> A -> A) (conj re : A -> A) (is_zero is_one : A -> bool).

(** y[i] = 0, y[i] *= beta or nothing, gecrsmv.tcc l.50-51, 70, 75 *)
Definition rescale (beta : A) (p : Z) (m : list A) : outcome (list A) :=
  if is_zero beta then store m p zero
  else if is_one beta then Ok m
  else do v <- load m p; store m p (mul v beta).
(** the same for y[1], ..., y[n], e.g. gecrsmv.tcc l.112-116 *)
Definition rescale_all (n : Z) (beta : A) (y : Z) (m : list A) : outcome (list A) :=
  if is_zero beta then each 1 (n + 1) (fun i m => store m (y + (i - 1)) zero) m
  else if is_one beta then Ok m
  else each 1 (n + 1) (fun i m => do v <- load m (y + (i - 1)); store m (y + (i - 1)) (mul v beta)) m.

(** y[p] += alpha * f(A[k]) * x[q] *)
Definition add_term (alpha : A) (f : A -> A) (p k q : Z) (m : list A) : outcome (list A) :=
  do v <- load m p; do e <- load m k; do u <- load m q; store m p (add v (mul (mul alpha (f e)) u)).

(** gecrsmv, gecrsmv.tcc l.43-145.  With --ia, ja -= ia[1] and A -= ia[1] (l.57-59) the one-based ia[i] is the
    element i-1, and ja[k] and A[k] are the elements k - ia[1]; x -= ia[1] (l.66, 92) makes x[ja[k]] the element
    ja[k] - ia[1]. *)
Definition gecrsmv (t : trans) (rows cols : Z) (alpha : A) (a : Z) (ia ja : list Z) (x : Z) (beta : A) (y : Z) (m : list A) : outcome (list A) :=
  do base <- load ia 0;
  let f := if is_conj t then conj else fun v => v in
  if is_trans t then
    do m0 <- rescale_all cols beta y m;
    each 1 (rows + 1) (fun i m =>
      do lo <- load ia (i - 1); do hi <- load ia i;
      each lo hi (fun k m =>
        do j <- load ja (k - base);
        add_term alpha f (y + (j - base)) (a + (k - base)) (x + (i - 1)) m) m) m0
  else
    each 1 (rows + 1) (fun i m =>
      do m1 <- rescale beta (y + (i - 1)) m;
      do lo <- load ia (i - 1); do hi <- load ia i;
      each lo hi (fun k m =>
        do j <- load ja (k - base);
        add_term alpha f (y + (i - 1)) (a + (k - base)) (x + (j - base)) m) m1) m.

(** One line of the symmetric and Hermitian products.  [f] is applied to A[k] in y[i] += alpha * A[k] * x_[ja[k]],
    [g] in y_[ja[k]] += alpha * A[k] * x[i] and [r] on the diagonal: sycrsmv.tcc l.72-80, 84-92. *)
Definition both_terms (alpha : A) (f g : A -> A) (a : Z) (idx : list Z) (base x y i k : Z) (m : list A) : outcome (list A) :=
  do j <- load idx (k - base);
  do m1 <- add_term alpha f (y + (i - 1)) (a + (k - base)) (x + (j - base)) m;
  add_term alpha g (y + (j - base)) (a + (k - base)) (x + (i - 1)) m1.
Definition edge_term (alpha : A) (f g r : A -> A) (a : Z) (idx : list Z) (base x y i k : Z) (m : list A) : outcome (list A) :=
  do j <- load idx (k - base);
  if j =? base + (i - 1) then add_term alpha r (y + (i - 1)) (a + (k - base)) (x + (j - base)) m
  else both_terms alpha f g a idx base x y i k m.
Definition half_product (up : uplo) (f g r : A -> A) (n : Z) (alpha : A) (a : Z) (ptr idx : list Z) (x : Z) (beta : A) (y : Z) (m : list A) : outcome (list A) :=
  do base <- load ptr 0;
  do m0 <- rescale_all n beta y m;
  each 1 (n + 1) (fun i m =>
    do lo <- load ptr (i - 1); do hi <- load ptr i;
    if lo <? hi then
      match up with
      | Upper =>
          do m1 <- edge_term alpha f g r a idx base x y i lo m;
          each (lo + 1) hi (both_terms alpha f g a idx base x y i) m1
      | Lower =>
          do m1 <- each lo (hi - 1) (both_terms alpha f g a idx base x y i) m;
          edge_term alpha f g r a idx base x y i (hi - 1) m1
      end
    else Ok m) m0.
(** sycrsmv, sycrsmv.tcc l.43-95.  In l.74-75 and 90-91 the first statement of both branches is shared. *)
Definition sycrsmv (up : uplo) (n : Z) (alpha : A) (a : Z) (ia ja : list Z) (x : Z) (beta : A) (y : Z) (m : list A) : outcome (list A) :=
  half_product up (fun v => v) (fun v => v) (fun v => v) n alpha a ia ja x beta y m.
(** syccsmv, syccsmv.tcc l.43-103: ja points to the columns and the loop for Lower is the one of sycrsmv for Upper *)
Definition syccsmv (up : uplo) (n : Z) (alpha : A) (a : Z) (ia ja : list Z) (x : Z) (beta : A) (y : Z) (m : list A) : outcome (list A) :=
  half_product (other up) (fun v => v) (fun v => v) (fun v => v) n alpha a ja ia x beta y m.
(** hecrsmv, hecrsmv.tcc l.43-105 *)
Definition hecrsmv (up : uplo) (n : Z) (alpha : A) (a : Z) (ia ja : list Z) (x : Z) (beta : A) (y : Z) (m : list A) : outcome (list A) :=
  half_product up (fun v => v) conj re n alpha a ia ja x beta y m.
(** heccsmv, heccsmv.tcc l.43-105 *)
Definition heccsmv (up : uplo) (n : Z) (alpha : A) (a : Z) (ia ja : list Z) (x : Z) (beta : A) (y : Z) (m : list A) : outcome (list A) :=
  half_product (other up) conj (fun v => v) re n alpha a ja ia x beta y m.

(** gecrsmm, gecrsmm.tcc l.43-55: one product for every column of B and C *)
Definition gecrsmm (t : trans) (rows n cols : Z) (alpha : A) (a : Z) (ia ja : list Z) (b ldb : Z) (beta : A) (c ldc : Z) (m : list A) : outcome (list A) :=
  each 0 n (fun i m => gecrsmv t rows cols alpha a ia ja (b + i * ldb) beta (c + i * ldc) m) m.
(** sycrsmm.tcc l.43-53, syccsmm.tcc l.43-55, hecrsmm.tcc l.43-55, heccsmm.tcc l.43-55 *)
Definition sycrsmm (up : uplo) (rows n : Z) (alpha : A) (a : Z) (ia ja : list Z) (b ldb : Z) (beta : A) (c ldc : Z) (m : list A) : outcome (list A) :=
  each 0 n (fun i m => sycrsmv up rows alpha a ia ja (b + i * ldb) beta (c + i * ldc) m) m.
Definition syccsmm (up : uplo) (rows n : Z) (alpha : A) (a : Z) (ia ja : list Z) (b ldb : Z) (beta : A) (c ldc : Z) (m : list A) : outcome (list A) :=
  each 0 n (fun i m => syccsmv up rows alpha a ia ja (b + i * ldb) beta (c + i * ldc) m) m.
Definition hecrsmm (up : uplo) (rows n : Z) (alpha : A) (a : Z) (ia ja : list Z) (b ldb : Z) (beta : A) (c ldc : Z) (m : list A) : outcome (list A) :=
  each 0 n (fun i m => hecrsmv up rows alpha a ia ja (b + i * ldb) beta (c + i * ldc) m) m.
Definition heccsmm (up : uplo) (rows n : Z) (alpha : A) (a : Z) (ia ja : list Z) (b ldb : Z) (beta : A) (c ldc : Z) (m : list A) : outcome (list A) :=
  each 0 n (fun i m => heccsmv up rows alpha a ia ja (b + i * ldb) beta (c + i * ldc) m) m.
End Crs.
