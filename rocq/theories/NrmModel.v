(** Model of the Euclidean norm and of the construction of Givens rotations in the bundled BLAS: the
    templates used when no CBLAS overload applies.  Source: librapid/cxxblas/level1/{nrm2,rot}.tcc.
    Memory and addresses as in [BlasModel].  The templates are instantiated with the real numbers and
    with the IEEE numbers of [AccModel] and [NumModel]. *)
From Coq Require Import ZArith Reals.
From Flocq Require Import Core BinarySingleNaN.
From Verif Require Import Base BlasModel ComplexModel AccModel NumModel.
Local Open Scope Z_scope.

Section Templates.
Context {T : Type}.
Variables (zero one : T) (add mul div : T -> T -> T) (neg abs sqrt : T -> T).
(** pow(r, 2): cxxblas::pow calls std::pow (auxiliary/pow.tcc l.73-84); a < b, a == b *)
Variables (square : T -> T) (lt eq : T -> T -> bool).

(** One number in the loop of nrm2_generic, nrm2.tcc l.63-71 (and l.103-111, 112-120 for the two components
    of a complex element); the state is (scale, ssq) *)
Definition ssq_step (st : T * T) (v : T) : T * T :=
  let '(scale, ssq) := st in
  if eq v zero then st else
    let absXi := abs v in
    if lt scale absXi then (absXi, add one (mul ssq (square (div scale absXi))))
    else (scale, add ssq (square (div absXi scale))).
(** nrm2_generic, l.40-74, 76-125, and nrm2, l.127-131.  [parts]: the numbers an element consists of
    (itself, or real and imaginary part); [modulus]: std::abs of an element. *)
Definition nrm2 {X} (parts : X -> list T) (modulus : X -> T) (n x incX : Z) (m : list X) : outcome T :=
  let x := start x incX n in
  if n <? 1 then Ok zero
  else if n =? 1 then do u <- load m x; Ok (modulus u)
  else
    do st <- walk1 n incX (fun iX st => do u <- load m (x + iX); Ok (fold_left ssq_step (parts u) st)) (zero, one);
    Ok (mul (fst st) (sqrt (snd st))).

(** rotg for real numbers, rot.tcc l.60-92: the new a, b, c, s *)
Definition rotg (a b : T) : T * T * T * T :=
  let absA := abs a in let absB := abs b in
  let scale := add absA absB in
  let roe := if lt absB absA then a else b in
  if eq scale zero then (zero, zero, one, zero) else
    let aScaled := div absA scale in let bScaled := div absB scale in
    let r := mul scale (sqrt (add (mul aScaled aScaled) (mul bScaled bScaled))) in
    let r := if lt roe zero then neg r else r in
    let c := div a r in let s := div b r in
    let z := one in
    let z := if lt absB absA then s else z in
    let z := if lt absA absB && negb (eq c zero) then div one c else z in
    (r, z, c, s).
End Templates.

(** ** Real numbers *)
Definition rnrm2 (n x incX : Z) (m : list R) : outcome R :=
  nrm2 0%R 1%R Rplus Rmult Rdiv Rabs sqrt (fun r => (r * r)%R) rlt req (fun v => [v]) Rabs n x incX m.
Definition cnrm2 (n x incX : Z) (m : list cx) : outcome R :=
  nrm2 0%R 1%R Rplus Rmult Rdiv Rabs sqrt (fun r => (r * r)%R) rlt req (fun z => [re z; im z]) cabs n x incX m.
Definition rrotg (a b : R) : R * R * R * R := rotg 0%R 1%R Rplus Rmult Rdiv Ropp Rabs sqrt rlt req a b.
(** rot, rot.tcc l.41-58, on real numbers *)
Definition rrot (n x incX y incY : Z) (c s : R) (m : list R) : outcome (list R) := rot Rplus Rmult Ropp n x incX y incY c s m.

(** rotg for complex numbers, rot.tcc l.94-116: the new a, c, s (b is left alone).  std::complex: division by a real number is
    componentwise, the product is the usual one. *)
Definition crotg (a b : cx) : cx * R * cx :=
  if req (cabs a) 0 then (b, 0%R, mk 1 0)
  else
    let scale := (cabs a + cabs b)%R in
    let sq := fun r : R => (r * r)%R in
    let norm := (scale * sqrt (sq (cabs (div_r a scale)) + sq (cabs (div_r b scale))))%R in
    let alpha := div_r a (cabs a) in
    let c := (cabs a / norm)%R in
    let s := div_r (mul alpha (conj b)) norm in
    (mul_r alpha norm, c, s).
(** rot for complex numbers, rot.tcc l.126-165; both branches run the same loop *)
Definition crot (n x incX y incY : Z) (c : R) (s : cx) (m : list cx) : outcome (list cx) :=
  let x := start x incX n in let y := start y incY n in
  walk n incX incY (fun iX iY m =>
    do u <- load m (x + iX); do v <- load m (y + iY);
    let tmp := ComplexModel.add (mul_l c u) (mul s v) in
    do m' <- store m (y + iY) (sub (mul_l c v) (mul (conj s) u));
    store m' (x + iX) tmp) m.

(** ** float and double.  [square] is std::pow(r, 2), whose accuracy is a parameter of the theorems. *)
Section Float.
Variables prec emax : Z.
Context (Hp : Prec_gt_0 prec) (Hm : Prec_lt_emax prec emax).
Local Notation num := (binary_float prec emax).
Definition fsqrt (x : num) : num := Bsqrt mode_NE x.
Definition fnrm2 (square : num -> num) (n x incX : Z) (m : list num) : outcome num :=
  nrm2 (fzero prec emax) (fone prec emax Hp Hm) (fadd prec emax Hp Hm) (fmul prec emax Hp Hm) (fdiv prec emax Hp Hm) (fabs prec emax) fsqrt
    square (flt prec emax) (feq prec emax) (fun v => [v]) (fabs prec emax) n x incX m.
(** [modulus]: std::abs of a complex number, used for vectors of one element *)
Definition fcnrm2 (square : num -> num) (modulus : num * num -> num) (n x incX : Z) (m : list (num * num)) : outcome num :=
  nrm2 (fzero prec emax) (fone prec emax Hp Hm) (fadd prec emax Hp Hm) (fmul prec emax Hp Hm) (fdiv prec emax Hp Hm) (fabs prec emax) fsqrt
    square (flt prec emax) (feq prec emax) (fun z => [fst z; snd z]) modulus n x incX m.
Definition frotg (a b : num) : num * num * num * num :=
  rotg (fzero prec emax) (fone prec emax Hp Hm) (fadd prec emax Hp Hm) (fmul prec emax Hp Hm) (fdiv prec emax Hp Hm) (fneg prec emax) (fabs prec emax)
    fsqrt (flt prec emax) (feq prec emax) a b.
End Float.
