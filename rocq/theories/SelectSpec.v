From Coq Require Import ZArith.
From Verif Require Import Base SelectModel.
(** [d] is the first of the devices with the greatest score *)
Definition first_best (ds : list device) (d : device) : Prop :=
  exists before after, ds = before ++ d :: after /\
    (forall x, In x before -> (score x < score d)%Z) /\ (forall x, In x after -> (score x <= score d)%Z).
(** the values that OpenCL can report *)
Definition reported (d : device) : Prop := (0 <= units d < 2 ^ 32 /\ 0 <= clock d < 2 ^ 32 /\ 0 <= memory d < 2 ^ 64)%Z.
