(** Model of hemm, herk and her2k.  Source: librapid/cxxblas/level3/{hemm,herk,her2k}.tcc and
    level1extensions/hescal.tcc, the templates used when no CBLAS overload applies; the calls with a conjugation
    argument go to level2extensions/{hemv,her,her2}.tcc.  Memory is as in [BlasModel]. *)
From Coq Require Import ZArith.
From Verif Require Import Base MatmulModel BlasModel TriModel SymModel.
Local Open Scope Z_scope.

(** Transpose(t ^ ConjTrans), with the values of the enumeration NoTrans = 0, Conj = 1, Trans = 2, ConjTrans = 3 *)
Definition conj_flip (t : trans) : trans :=
  match t with NoTrans => ConjTrans | Conj => Trans | Trans => Conj | ConjTrans => NoTrans end.

Section Herm.
Context {A : Type}.
Variables (zero one : A) (add mul : A -> A -> A) (conj re : A -> A) (is_zero is_one : A -> bool).

(** hescal in row-major order, hescal.tcc l.41-56 *)
Definition hescal (up : uplo) (n : Z) (alpha : A) (a lda : Z) (m : list A) : outcome (list A) :=
  if is_one alpha then Ok m else
  do m1 <- repeat n (fun i m =>
    match up with
    | Upper => scal mul (n - i) alpha (a + i * (lda + 1)) 1 m
    | Lower => scal mul (i + 1) alpha (a + i * lda) 1 m
    end) m;
  repeat n (fun i m => do e <- load m (a + i * (lda + 1)); store m (a + i * (lda + 1)) (re e)) m1.

(** herk_generic for RowMajor, herk.tcc l.49-64.  assert(0), when it is compiled in, ends the program: [Throw] *)
Definition herk_row (asserts : bool) (up : uplo) (t : trans) (n k : Z) (alpha : A) (a lda : Z) (beta : A) (c ldc : Z) (m : list A) : outcome (list A) :=
  if (n =? 0) || ((is_zero alpha || (k =? 0)) && is_one beta) then Ok m else
  do m0 <- hescal up n beta c ldc m;
  if is_zero alpha then Ok m0 else
  match t with
  | NoTrans => repeat k (fun l m => her add mul conj re is_zero RowMajor up n alpha (a + l) lda c ldc m) m0
  | ConjTrans => repeat k (fun l m => her_gen add mul conj re is_zero true up n alpha (a + l * lda) 1 c ldc m) m0
  | _ => if asserts then Throw RuntimeError else Ok m0
  end.
(** herk, l.40-48, 67-74 *)
Definition herk (asserts : bool) (o : order) (up : uplo) (t : trans) (n k : Z) (alpha : A) (a lda : Z) (beta : A) (c ldc : Z) (m : list A) : outcome (list A) :=
  match o with
  | RowMajor => herk_row asserts up t n k alpha a lda beta c ldc m
  | ColMajor => herk_row asserts (other up) (conj_flip t) n k alpha a lda beta c ldc m
  end.

(** her2k_generic for RowMajor, her2k.tcc l.51-78 *)
Definition her2k_row (asserts : bool) (up : uplo) (t : trans) (n k : Z) (alpha : A) (a lda b ldb : Z) (beta : A) (c ldc : Z) (m : list A) : outcome (list A) :=
  if (n =? 0) || ((is_zero alpha || (k =? 0)) && is_one beta) then Ok m else
  do m0 <- hescal up n beta c ldc m;
  if is_zero alpha then Ok m0 else
  match t with
  | NoTrans => repeat k (fun l m => her2 add mul conj re is_zero RowMajor up n alpha (a + l) lda (b + l) ldb c ldc m) m0
  | ConjTrans => repeat k (fun l m => her2_gen add mul conj re is_zero true up n (conj alpha) (a + l * lda) 1 (b + l * ldb) 1 c ldc m) m0
  | _ => if asserts then Throw RuntimeError else Ok m0
  end.
(** her2k, l.40-50, 81-90 *)
Definition her2k (asserts : bool) (o : order) (up : uplo) (t : trans) (n k : Z) (alpha : A) (a lda b ldb : Z) (beta : A) (c ldc : Z) (m : list A) : outcome (list A) :=
  match o with
  | RowMajor => her2k_row asserts up t n k alpha a lda b ldb beta c ldc m
  | ColMajor => her2k_row asserts (other up) (conj_flip t) n k (conj alpha) a lda b ldb beta c ldc m
  end.

(** hemm_generic for RowMajor, hemm.tcc l.50-72, and hemm, l.40-49, 75-84 *)
Definition hemm_row (sd : side) (up : uplo) (rows cols : Z) (alpha : A) (a lda b ldb : Z) (beta : A) (c ldc : Z) (m : list A) : outcome (list A) :=
  do m0 <- gescal_init zero mul is_zero rows cols beta c ldc m;
  match sd with
  | Right => repeat rows (fun i m =>
      hemv_gen zero add mul conj re is_zero true up cols alpha a lda (b + i * ldb) 1 one (c + i * ldc) 1 m) m0
  | Left => repeat cols (fun j m =>
      hemv_gen zero add mul conj re is_zero false up rows alpha a lda (b + j) ldb one (c + j) ldc m) m0
  end.
Definition hemm (o : order) (sd : side) (up : uplo) (rows cols : Z) (alpha : A) (a lda b ldb : Z) (beta : A) (c ldc : Z) (m : list A) : outcome (list A) :=
  match o with
  | RowMajor => hemm_row sd up rows cols alpha a lda b ldb beta c ldc m
  | ColMajor => hemm_row (opposite sd) (other up) cols rows alpha a lda b ldb beta c ldc m
  end.
End Herm.
