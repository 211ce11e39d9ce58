(** What C50 talks about: objects of a type, as byte strings. *)
From Coq Require Import String.
From Verif Require Import Base SerialModel.

Definition is_byte (b : N) : Prop := (b < 256)%N.
Definition object_of (T : type) (obj : list N) : Prop := length obj = size T /\ Forall is_byte obj.

(** The type identity stored in [data] for readers of type T: the 8 bytes after the object. *)
Definition identity (T : type) (data : list N) : list N := firstn 8 (skipn (size T) data).
