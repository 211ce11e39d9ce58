(** Normally distributed random numbers in double, IEEE arithmetic operation by operation: randomGaussian of
    librapid/include/librapid/math/random.hpp l.44-75.  The same code over exact numbers is in RandomModel, with the state of the
    generators.  Here the numbers that distribution(generator) returns are given as a list.  ::librapid::log of a double is std::log: a
    parameter.  sqrt of a double is correctly rounded.  Simplifications as in [AccModel]. *)
From Coq Require Import ZArith List Bool.
From Flocq Require Import Core BinarySingleNaN.
From Verif Require Import Base AccModel NumModel NrmModel.
Import ListNotations.

Section Gauss.
Context (Hp : Prec_gt_0 53) (Hm : Prec_lt_emax 53 1024) (Hp' : Prec_gt_0 24) (Hm' : Prec_lt_emax 24 128).
Local Notation num := (binary_float 53 1024).
Variable libLog : num -> num.

(** l.62-63: random<double>(-1, 1); the int 1 is converted to double by the subtraction, l.18 *)
Definition draw (w : num) : num := frandom 53 1024 Hp Hm (fint 53 1024 Hp Hm (-1)) (fint 53 1024 Hp Hm 1) w.
(** l.64 *)
Definition squares (v1 v2 : num) : num := fadd 53 1024 Hp Hm (fmul 53 1024 Hp Hm v1 v1) (fmul 53 1024 Hp Hm v2 v2).
(** l.65: s >= 1 || s == 0 *)
Definition again (s : num) : bool := fle 53 1024 (fint 53 1024 Hp Hm 1) s || feq 53 1024 s (fint 53 1024 Hp Hm 0).
(** l.66 *)
Definition multiplier (s : num) : num :=
  fsqrt 53 1024 Hp Hm (fdiv 53 1024 Hp Hm (fmul 53 1024 Hp Hm (fint 53 1024 Hp Hm (-2)) (libLog s)) s).
(** l.61-69: the result, nextGaussian, and the numbers not drawn yet; [None]: the given numbers are used up *)
Fixpoint fresh (ws : list num) : option (num * num * list num) :=
  match ws with
  | w1 :: w2 :: rest =>
      let v1 := draw w1 in let v2 := draw w2 in let s := squares v1 v2 in
      if again s then fresh rest
      else Some (fmul 53 1024 Hp Hm v1 (multiplier s), fmul 53 1024 Hp Hm v2 (multiplier s), rest)
  | _ => None
  end.
(** l.49-73: randomGaussian<double>; the state is nextGaussian, if hasNextGaussian, and the numbers still to come *)
Definition gaussian (st : option num * list num) : option (num * (option num * list num)) :=
  match fst st with
  | Some next => Some (next, (None, snd st))
  | None => match fresh (snd st) with None => None | Some (res, next, rest) => Some (res, (Some next, rest)) end
  end.
(** Several calls one after the other *)
Fixpoint gaussians (n : nat) (st : option num * list num) : option (list num * (option num * list num)) :=
  match n with
  | O => Some ([], st)
  | S n => match gaussian st with
           | None => None
           | Some (g, st) => match gaussians n st with None => None | Some (gs, st) => Some (g :: gs, st) end
           end
  end.
(** l.73: static_cast<T>(res) with T = float; the function returns a double *)
Definition as_float (res : num) : num := fconvert 53 1024 Hp Hm (fconvert 24 128 Hp' Hm' res).
End Gauss.
