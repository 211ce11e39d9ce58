(** Mathematical sets, against which librapid::Set is compared. *)
From Coq Require Import Sorted.
From Verif Require Import Base SetModel.

Section SetSpec.
Context {T : Type}.
Variable ltb : T -> T -> bool.

(** Strict total order. *)
Record total_order : Prop := {
  lt_irrefl : forall x, ltb x x = false;
  lt_trans : forall x y z, ltb x y = true -> ltb y z = true -> ltb x z = true;
  lt_total : forall x y, ltb x y = false -> ltb y x = false -> x = y
}.
Definition lt (x y : T) : Prop := ltb x y = true.

(** Strictly ascending: sorted, each element once. *)
Definition ascending (d : list T) : Prop := StronglySorted lt d.

(** [d] holds exactly the members of [S], ascending. *)
Definition represents (d : list T) (S : T -> Prop) : Prop :=
  ascending d /\ forall x, In x d <-> S x.

(** The effect of each call on a mathematical set.  Removing is reported when [asserts] and absent:
    [spec_run asserts ops S r] relates a set S to the result of the history. *)
Inductive result : Type := Final (S : T -> Prop) | Reported.
Inductive removes (asserts : bool) : list T -> (T -> Prop) -> result -> Prop :=
| rm_nil S : removes asserts [] S (Final S)
| rm_ok v vs S r : S v \/ asserts = false ->
    removes asserts vs (fun x => S x /\ x <> v) r -> removes asserts (v :: vs) S r
| rm_bad v vs S : ~ S v -> asserts = true -> removes asserts (v :: vs) S Reported.
Inductive spec_step (asserts : bool) : op T -> (T -> Prop) -> result -> Prop :=
| sp_insert v S : spec_step asserts (Insert v) S (Final (fun x => S x \/ x = v))
| sp_insert_many vs S : spec_step asserts (InsertMany vs) S (Final (fun x => S x \/ In x vs))
| sp_discard v S : spec_step asserts (Discard v) S (Final (fun x => S x /\ x <> v))
| sp_discard_many vs S : spec_step asserts (DiscardMany vs) S (Final (fun x => S x /\ ~ In x vs))
| sp_remove v S r : removes asserts [v] S r -> spec_step asserts (Remove v) S r
| sp_remove_many vs S r : removes asserts vs S r -> spec_step asserts (RemoveMany vs) S r.
Inductive spec_run (asserts : bool) : list (op T) -> (T -> Prop) -> result -> Prop :=
| sr_nil S : spec_run asserts [] S (Final S)
| sr_cons o ops S S' r : spec_step asserts o S (Final S') -> spec_run asserts ops S' r ->
    spec_run asserts (o :: ops) S r
| sr_stop o ops S : spec_step asserts o S Reported -> spec_run asserts (o :: ops) S Reported.
End SetSpec.
Arguments result T : clear implicits.
