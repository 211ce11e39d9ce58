(** C66: the text of a multi-precision number denotes the number. *)
From Coq Require Import ZArith QArith Lia.
From Verif Require Import Base MpfModel MpfSpec MpfProofs.

(** For every sign, digit string and exponent, in every base: [str] succeeds, and its text has the form [-]digits.digits and denotes
    exactly the value. *)
Theorem C66_text_denotes_value : forall base negative ds exp, (2 <= base)%Z ->
  exists s q, str_mpf (get_str negative ds) exp = Ok s /\ read_text base s = Some q /\ (q == scientific base negative ds exp)%Q.
Proof.
  intros base negative ds exp Hb. rewrite str_place. pose proof (place_ok ds exp) as P. pose proof (place_value base ds exp Hb) as V.
  destruct (place ds exp) as [l e]. pose proof (read_split base l e P) as R.
  destruct negative; cbn [app].
  - eexists. eexists. split; [reflexivity|]. cbn [read_text]. rewrite R. cbn [option_map]. split; [reflexivity|].
    unfold scientific. now rewrite V.
  - eexists. exists (1 * (inject_Z (horner base l) * Qpower (inject_Z base) (Z.of_nat e - Z.of_nat (length l))))%Q. split; [reflexivity|].
    split; [|unfold scientific; now rewrite V].
    assert (F : exists d r, firstn e l = d :: r). { destruct l as [|d l]; [cbn in P; lia|]. destruct e; [lia|]. cbn. eauto. }
    destruct F as (d & r & F). rewrite F in R |- *. cbn [map app read_text] in *. rewrite R. reflexivity.
Qed.
Print Assumptions C66_text_denotes_value.

(** two numbers with the same text are equal: the conversions that go through text lose nothing *)
Theorem C66_text_injective : forall base n1 d1 e1 n2 d2 e2 s, (2 <= base)%Z ->
  str_mpf (get_str n1 d1) e1 = Ok s -> str_mpf (get_str n2 d2) e2 = Ok s ->
  (scientific base n1 d1 e1 == scientific base n2 d2 e2)%Q.
Proof.
  intros base n1 d1 e1 n2 d2 e2 s Hb H1 H2. destruct (C66_text_denotes_value base n1 d1 e1 Hb) as (s1 & q1 & E1 & R1 & V1).
  destruct (C66_text_denotes_value base n2 d2 e2 Hb) as (s2 & q2 & E2 & R2 & V2).
  rewrite H1 in E1. rewrite H2 in E2. injection E1 as <-. injection E2 as <-. rewrite R1 in R2. injection R2 as <-. now rewrite <- V1.
Qed.
Print Assumptions C66_text_injective.

Example C66_ex1 : str_mpf (get_str true [1;2;5]%nat) 2 = Ok [Minus; Dig 1; Dig 2; Dot; Dig 5].           (* -12.5 *)
Proof. reflexivity. Qed.
Example C66_ex2 : str_mpf (get_str false [7]%nat) 3 = Ok [Dig 7; Dig 0; Dig 0; Dot; Dig 0].              (* 700.0 *)
Proof. reflexivity. Qed.
Example C66_ex3 : str_mpf (get_str false [2;5]%nat) (-1) = Ok [Dig 0; Dot; Dig 0; Dig 2; Dig 5].         (* 0.025 *)
Proof. reflexivity. Qed.
Example C66_ex4 : str_mpf (get_str false []) 0 = Ok [Dig 0; Dot] /\ (scientific 10 true [1;2;5]%nat 2 == (-25#2))%Q.
Proof. split; reflexivity. Qed.
