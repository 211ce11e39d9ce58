(** C106: accuracy of dot products and matrix products of complex numbers in float and double. *)
From Coq Require Import ZArith Reals Bool List Lia Lra.
From Flocq Require Import Core BinarySingleNaN.
From Coq Require Import ZifyNat ZifyN ZifyBool.
From Verif Require BlasModel BlasSpec BlasProofs.
From Verif Require Import Base ViewSpec MatmulModel MatmulSpec AccModel AccSpec AccLinear AccProofs AccProperties NumModel NumSpec NumBasics
  SclSpec SclProofs CacModel CacSpec CacProofs.
Import ListNotations.
Ltac Zify.zify_post_hook ::= idtac.
Local Open Scope R_scope.

(** The bundled BLAS: dotu and dot, which conjugates its first operand, for any stride. *)
Theorem C106_blas : forall prec emax (Hp : Prec_gt_0 prec) (Hm : Prec_lt_emax prec emax) n x incX y incY (m : list (fcomplex prec emax)),
  let zero := czero prec emax in
  let add := cadd prec emax Hp Hm in
  let mul := cmul prec emax Hp Hm in
  BlasSpec.inside m x incX n -> BlasSpec.inside m y incY n ->
  let X := fun i => BlasSpec.val zero m (BlasSpec.elt x incX n (Z.of_nat i)) in
  let Y := fun i => BlasSpec.val zero m (BlasSpec.elt y incY n (Z.of_nat i)) in
  (exists r, BlasModel.dotu zero add mul n x incX y incY m = Ok r /\ caccurate (Z.to_nat n) X Y r) /\
  (exists r, BlasModel.dot zero add mul (cconj prec emax) n x incX y incY m = Ok r /\
    caccurate (Z.to_nat n) (fun i => (fst (X i), Bopp (snd (X i)))) Y r).
Proof.
  intros prec emax Hp Hm n x incX y incY m zero add mul HX HY X Y. split.
  - eexists. split; [apply (BlasProofs.dotu_ok zero); auto|]. apply csum_accurate.
  - eexists. split; [apply (BlasProofs.dot_ok zero); auto|]. apply (csum_accurate prec emax Hp Hm (Z.to_nat n) (fun i => cconj prec emax (X i)) Y).
Qed.
Print Assumptions C106_blas.

Section Ex1.
Local Notation P := C80_double_prec.
Local Notation E := C80_double_emax.
Local Notation ofint := C80_of_int.
Local Notation cz a b := (ofint a, ofint b).
Local Notation sf z := (B2SF (fst z), B2SF (snd z)).
(** (1 + 2i)(3 - i) + (2 - i)(i) = 6 + 7i, and with the first operands conjugated 0 - 5i *)
Example C106_dotu_run : omap (fun z => sf z) (BlasModel.dotu (czero 53 1024) (cadd 53 1024 P E) (cmul 53 1024 P E) 2 0 1 2 1
    [cz 1 2; cz 2 (-1); cz 3 (-1); cz 0 1]) = Ok (sf (cz 6 7)).
Proof. vm_compute. reflexivity. Qed.
Example C106_dot_run : omap (fun z => sf z) (BlasModel.dot (czero 53 1024) (cadd 53 1024 P E) (cmul 53 1024 P E) (cconj 53 1024) 2 0 1 2 1
    [cz 1 2; cz 2 (-1); cz 3 (-1); cz 0 1]) = Ok (sf (cz 0 (-5))).
Proof. vm_compute. reflexivity. Qed.
Example C106_inside : BlasSpec.inside [cz 1 2; cz 2 (-1); cz 3 (-1); cz 0 1] 0 1 2 /\ BlasSpec.inside [cz 1 2; cz 2 (-1); cz 3 (-1); cz 0 1] 2 1 2.
Proof.
  split; intros i Hi; assert (C : i = 0%Z \/ i = 1%Z) by lia; destruct C as [-> | ->]; vm_compute; split; congruence.
Qed.
Example C106_gaussian : gaussian (cz 1 2) /\ cfinite (cz 1 2) = true.
Proof.
  assert (R : B2R (ofint 1) = 1 /\ B2R (ofint 2) = 2) by (split; apply (NumBasics.fint_exact 53 1024 P E); vm_compute; discriminate).
  destruct R as [R1 R2]. split; [split; cbn [fst snd]; [exists 1%Z|exists 2%Z]; assumption|vm_compute; reflexivity].
Qed.
End Ex1.

(** The distance from the exact sum in the complex plane, in terms of the moduli of the operands. *)
Theorem C106_distance : forall prec emax n (a b : nat -> fcomplex prec emax) r, Prec_gt_0 prec ->
  caccurate n a b r -> cfinite r = true ->
  modulus (B2R (fst r) - total n (fun i => rmul_re (a i) (b i))) (B2R (snd r) - total n (fun i => rmul_im (a i) (b i)))
    <= sqrt 2 * dot_bound prec emax (2 * n) (total n (fun i => cmodulus (a i) * cmodulus (b i))).
Proof. intros prec emax n a b r Hp. apply (caccurate_distance prec emax Hp). Qed.
Print Assumptions C106_distance.
(** Scaling by beta, the first step of every product that adds to y: an exact zero erases even infinities and NaN, any other
    beta multiplies, also one with a single zero part. *)
Theorem C106_scale : forall prec emax (Hp : Prec_gt_0 prec) (Hm : Prec_lt_emax prec emax) n beta x incX (m : list (fcomplex prec emax)),
  let zero := czero prec emax in
  BlasSpec.inside m x incX n -> incX <> 0%Z \/ (n <= 1)%Z ->
  exists m', BlasModel.scal_init zero (cmul prec emax Hp Hm) (cis_zero prec emax) n beta x incX m = Ok m' /\
    BlasSpec.changes zero m m' (BlasSpec.in_vector x incX n) /\
    forall i, (0 <= i < n)%Z -> let old := BlasSpec.val zero m (BlasSpec.elt x incX n i) in let new := BlasSpec.val zero m' (BlasSpec.elt x incX n i) in
      ((exists s s', beta = (B754_zero s, B754_zero s')) -> new = zero) /\
      ((forall s s', beta <> (B754_zero s, B754_zero s')) -> new = cmul prec emax Hp Hm old beta).
Proof.
  intros prec emax Hp Hm n beta x incX m zero HX HI.
  destruct (BlasProofs.scal_init_ok zero zero (cmul prec emax Hp Hm) (cis_zero prec emax) n beta x incX m HX HI) as (m' & E & V & C).
  exists m'. split; [exact E|]. split; [exact C|]. intros i Hi old new. unfold new. rewrite (V i Hi). split.
  - intros (s & s' & ->). reflexivity.
  - intros N. destruct beta as [b1 b2]. unfold cis_zero. cbn [fst snd]. destruct b1 as [s|s| |s ma ea pa]; try reflexivity.
    destruct b2 as [s'|s'| |s' ma ea pa]; try reflexivity. now elim (N s s').
Qed.
Print Assumptions C106_scale.
(** beta = 0 erases, beta = i does not *)
Example C106_scale_ex :
  let y := [(C80_of_int 3, C80_of_int 4)] in let i := (C80_of_int 0, C80_of_int 1) in
  BlasSpec.inside y 0 1 1 /\ (forall s s', i <> (B754_zero s, B754_zero s')) /\
  BlasModel.scal_init (czero 53 1024) (cmul 53 1024 C80_double_prec C80_double_emax) (cis_zero 53 1024) 1 (czero 53 1024) 0 1 [(B754_nan, B754_nan)] = Ok [czero 53 1024].
Proof.
  intros y i. split; [|split; [|reflexivity]].
  - intros k Hk. unfold BlasSpec.elt. change (1 <? 0)%Z with false. cbn [length y]. lia.
  - intros s s' H. apply (f_equal (fun z => B2SF (snd z))) in H. vm_compute in H. discriminate.
Qed.
(** 0 + (3 + 4i) i = -4 + 3i; the modulus of 3 + 4i is 5 *)
Example C106_distance_ex :
  let z := (C80_of_int 3, C80_of_int 4) in let w := (C80_of_int 0, C80_of_int 1) in
  let r := cadd 53 1024 C80_double_prec C80_double_emax (czero 53 1024) (cmul 53 1024 C80_double_prec C80_double_emax z w) in
  caccurate 1 (fun _ => z) (fun _ => w) r /\ cfinite r = true /\ B2SF (fst r) = B2SF (C80_of_int (-4)) /\ B2SF (snd r) = B2SF (C80_of_int 3) /\ modulus 3 4 = 5.
Proof.
  intros z w r. split; [apply (csum_accurate 53 1024 C80_double_prec C80_double_emax 1)|]. split; [vm_compute; reflexivity|].
  split; [vm_compute; reflexivity|]. split; [vm_compute; reflexivity|].
  unfold modulus. replace (3 ^ 2 + 4 ^ 2) with (5 * 5) by ring. apply sqrt_square. lra.
Qed.

(** Products of matrices of complex numbers without factors: any schedule of the threads, whatever the new storage held before.  The sums
    are multiplied by 1 + 0i at the end, which changes no finite result. *)
Theorem C106_matmul : forall prec emax (Hp : Prec_gt_0 prec) (Hm : Prec_lt_emax prec emax) asserts sched junk
    (e1 e2 : @lexpr (fcomplex prec emax)) m k n f g,
  let mul := cmul prec emax Hp Hm in
  let one := cone prec emax Hp Hm in
  (forall m n k, interleaving n (column_program m k) (sched m n k)) ->
  unscaled one e1 -> unscaled one e2 -> bare_matrix e1 m k f -> bare_matrix e2 k n g -> (m * n < 2 ^ 32)%N ->
  exists out, dot (czero prec emax) one (cadd prec emax Hp Hm) mul (cis_zero prec emax) asserts sched junk e1 e2 = Ok ([m; n], out) /\
    forall i j, (i < m)%N -> (j < n)%N -> exists r, element [m; n] out [i; j] = Some r /\
      caccurate (N.to_nat k) (fun h => f (N.to_nat i) h) (fun h => g h (N.to_nat j)) r.
Proof.
  intros prec emax Hp Hm asserts sched junk e1 e2 m k n f g mul one HS U1 U2 H1 H2 HN.
  destruct (held_dot_mm (czero prec emax) one (cadd prec emax Hp Hm) mul (cis_zero prec emax) eq_refl (cone_not_zero prec emax Hp Hm)
    (czero_one prec emax Hp Hm) asserts sched junk e1 e2 m k n f g HS (bare_holds one e1 m k f H1) (bare_holds one e2 k n g H2) HN) as (out & E & H).
  exists out. split; [exact E|]. intros i j Hi Hj. eexists. split; [apply H; auto|].
  unfold one, mul. rewrite !(ones prec emax Hp Hm _) by assumption. rewrite cone_one, cone_not_zero. cbn [orb].
  destruct (Nat.eqb_spec (N.to_nat k) 0) as [->|K]; [apply caccurate_none; assumption|].
  apply caccurate_add_0, caccurate_one, csum_accurate.
Qed.
Print Assumptions C106_matmul.

(** Matrix times vector, in the cases where it is defined (see C31). *)
Theorem C106_matvec : forall prec emax (Hp : Prec_gt_0 prec) (Hm : Prec_lt_emax prec emax) asserts sched junk
    (e1 e2 : @lexpr (fcomplex prec emax)) m k f g,
  let mul := cmul prec emax Hp Hm in
  let one := cone prec emax Hp Hm in
  unscaled one e1 -> unscaled one e2 -> bare_matrix e1 m k f -> bare_vector e2 k g ->
  (0 < k)%N -> Nat.odd (transposes e1) = false \/ m = k -> (m < 2 ^ 32)%N ->
  exists out, dot (czero prec emax) one (cadd prec emax Hp Hm) mul (cis_zero prec emax) asserts sched junk e1 e2 = Ok ([m], out) /\
    forall i, (i < m)%N -> exists r, element [m] out [i] = Some r /\ caccurate (N.to_nat k) (fun h => f (N.to_nat i) h) g r.
Proof.
  intros prec emax Hp Hm asserts sched junk e1 e2 m k f g mul one U1 U2 H1 H2 HK HT HM.
  destruct (held_dot_mv (czero prec emax) one (cadd prec emax Hp Hm) mul (cis_zero prec emax) eq_refl (cone_not_zero prec emax Hp Hm)
    (czero_one prec emax Hp Hm) asserts sched junk e1 e2 m k f g (bare_holds one e1 m k f H1) (bare_holds_v one e2 k g H2) HK HT HM) as (out & E & H).
  exists out. split; [exact E|]. intros i Hi. eexists. split; [apply H; auto|].
  unfold one, mul. rewrite !(ones prec emax Hp Hm _) by assumption. rewrite cone_one.
  apply caccurate_add_0, caccurate_one, csum_accurate.
Qed.
Print Assumptions C106_matvec.

Section Ex2.
Local Notation P := C80_double_prec.
Local Notation E := C80_double_emax.
Local Notation ofint := C80_of_int.
Local Notation cz a b := (ofint a, ofint b).
Local Notation sf z := (B2SF (fst z), B2SF (snd z)).
Local Notation zero := (czero 53 1024).
Local Notation one := (cone 53 1024 P E).
Local Notation run e1 e2 := (omap (fun r => (fst r, map (fun z => sf z) (snd r)))
  (dot zero one (cadd 53 1024 P E) (cmul 53 1024 P E) (cis_zero 53 1024) true (fun m n k => serial_schedule m n k)
    (fun _ => (B754_nan, B754_nan)) e1 e2)).
Local Notation scale2 e := (binary_normalize 53 1024 P E mode_NE 1 e false).
(** A 1 x 2 matrix times the transpose of another *)
Example C106_matmul_run : run (LArr ([1; 2]%N, [cz 1 2; cz 2 (-1)])) (LTrans (LArr ([1; 2]%N, [cz 3 (-1); cz 0 1])) one) = Ok ([1; 1]%N, [sf (cz 6 7)]).
Proof. vm_compute. reflexivity. Qed.
Example C106_matmul_operands :
  unscaled one (LTrans (LArr ([1; 2]%N, [cz 3 (-1); cz 0 1])) one) /\
  bare_matrix (LTrans (LArr ([1; 2]%N, [cz 3 (-1); cz 0 1])) one) 2 1 (fun i _ => match i with O => cz 3 (-1) | _ => cz 0 1 end).
Proof.
  split; [repeat constructor|]. split; [vm_compute; auto|]. split; [reflexivity|]. intros i j Hi Hj. assert (j = 0%N) as -> by lia.
  assert (C : i = 0%N \/ i = 1%N) by lia. destruct C as [-> | ->]; reflexivity.
Qed.
Example C106_matvec_run : run (LArr ([1; 2]%N, [cz 1 2; cz 2 (-1)])) (LArr ([2]%N, [cz 3 (-1); cz 0 1])) = Ok ([1]%N, [sf (cz 6 7)]).
Proof. vm_compute. reflexivity. Qed.

(** The parts are not independent: if the real part of a sum overflows, the multiplication by 1 + 0i turns its imaginary part, however
    accurate it was, into a NaN.  Here the row [2^1000 + i] times the column [2^1000]: the real part is infinite, the imaginary part of the
    sum is 2^1000. *)
Theorem C106_part_refuted :
  ~ forall (e1 e2 : @lexpr (fcomplex 53 1024)) f g out,
      unscaled one e1 -> unscaled one e2 -> bare_matrix e1 1 1 f -> bare_matrix e2 1 1 g ->
      dot zero one (cadd 53 1024 P E) (cmul 53 1024 P E) (cis_zero 53 1024) true (fun m n k => serial_schedule m n k)
        (fun _ => (B754_nan, B754_nan)) e1 e2 = Ok ([1; 1]%N, [out]) ->
      is_finite (snd (cmul 53 1024 P E (f 0%nat 0%nat) (g 0%nat 0%nat))) = true ->
      is_finite (snd out) = true.
Proof.
  intros H.
  set (e1 := LArr ([1; 1]%N, [(scale2 1000, scale2 0)])). set (e2 := LArr ([1; 1]%N, [(scale2 1000, ofint 0)])).
  assert (X : is_finite (@B754_nan 53 1024) = true); [|discriminate X].
  apply (H e1 e2 (fun _ _ => (scale2 1000, scale2 0)) (fun _ _ => (scale2 1000, ofint 0)) (B754_infinity false, B754_nan)).
  - constructor.
  - constructor.
  - split; [vm_compute; auto|]. split; [reflexivity|]. intros i j Hi Hj. assert (i = 0%N) as -> by lia. assert (j = 0%N) as -> by lia. reflexivity.
  - split; [vm_compute; auto|]. split; [reflexivity|]. intros i j Hi Hj. assert (i = 0%N) as -> by lia. assert (j = 0%N) as -> by lia. reflexivity.
  - assert (Q : run e1 e2 = Ok ([1; 1]%N, [sf (@B754_infinity 53 1024 false, @B754_nan 53 1024)])) by (vm_compute; reflexivity).
    match type of Q with omap _ ?t = _ => destruct t as [[sh d]|ex|] end; try discriminate Q. cbn [omap fst snd] in Q. injection Q as -> Q.
    destruct d as [|[d0 d1] [|d2 d]]; try discriminate Q. injection Q as Q1 Q2. do 3 f_equal. f_equal; now apply B2SF_inj.
  - vm_compute. reflexivity.
Qed.
Print Assumptions C106_part_refuted.
End Ex2.
