(** What an expression over named arrays stands for, element by element. *)
From Verif Require Import Base ShapeModel ShapeSpec ViewModel ViewSpec MatmulSpec AliasModel.

Section Spec.
Context {A : Type}.
Variable mul : A -> A -> A.

(** Element [idx] of the expression when the arrays are those of [st]. *)
Fixpoint value (st : store A) (e : expr A) (idx : list N) : option A :=
  match e with
  | EArr id => element (fst (st id)) (snd (st id)) idx
  | EView id v => view_element v (snd (st id)) idx
  | EScalar x => Some x
  | EUn f e1 => match value st e1 idx with Some x => Some (f x) | None => None end
  | EBin f e1 e2 => match value st e1 idx, value st e2 idx with Some x, Some y => Some (f x y) | _, _ => None end
  | ETrans _ _ e1 alpha => match value st e1 (rev idx) with Some x => Some (mul x alpha) | None => None end
  end.

(** Every operand has shape [s] (a transposed operand: the reversed shape) and lies inside its array. *)
Fixpoint well_shaped (st : store A) (e : expr A) (s : list N) : Prop :=
  match e with
  | EArr id => fst (st id) = s /\ N.of_nat (length (snd (st id))) = prod s
  | EView id v => v_shape v = s /\ view_ok v (snd (st id))
  | EScalar _ => True
  | EUn _ e1 => well_shaped st e1 s
  | EBin _ e1 e2 => well_shaped st e1 s /\ well_shaped st e2 s
  | ETrans rows cols e1 _ => s = [N.of_nat cols; N.of_nat rows] /\ well_shaped st e1 [N.of_nat rows; N.of_nat cols]
  end.

Fixpoint mentions (id : nat) (e : expr A) : Prop :=
  match e with
  | EArr j => j = id
  | EView j _ => j = id
  | EScalar _ => False
  | EUn _ e1 => mentions id e1
  | EBin _ e1 e2 => mentions id e1 \/ mentions id e2
  | ETrans _ _ e1 _ => mentions id e1
  end.
(** Array [id] occurs only as a whole and under elementwise functions; not under a transpose. *)
Fixpoint elementwise_in (id : nat) (e : expr A) : Prop :=
  match e with
  | EArr _ => True
  | EView j _ => j <> id
  | EScalar _ => True
  | EUn _ e1 => elementwise_in id e1
  | EBin _ e1 e2 => elementwise_in id e1 /\ elementwise_in id e2
  | ETrans _ _ e1 _ => ~ mentions id e1
  end.
(** Array [id] occurs only through views satisfying [P], under elementwise functions. *)
Fixpoint views_in (id : nat) (P : view -> Prop) (e : expr A) : Prop :=
  match e with
  | EArr j => j <> id
  | EView j v => j = id -> P v
  | EScalar _ => True
  | EUn _ e1 => views_in id P e1
  | EBin _ e1 e2 => views_in id P e1 /\ views_in id P e2
  | ETrans _ _ e1 _ => ~ mentions id e1
  end.
(** The views a[k0]...[kn] of an array of shape [s], with [n] indices. *)
Definition sub_array (asserts : bool) (s : list N) (n : nat) (v : view) : Prop :=
  exists k, length k = n /\ in_range k (firstn n s) /\ array_chain asserts s (map Z.of_N k) = Ok v.
(** Some operand has a shape. *)
Fixpoint has_array (e : expr A) : Prop :=
  match e with
  | EScalar _ => False
  | EUn _ e1 => has_array e1
  | EBin _ e1 e2 => has_array e1 \/ has_array e2
  | _ => True
  end.

(** Operands of dot: what they stand for, and the array they come from. *)
Fixpoint dshape (st : store A) (d : dexpr A) : list N :=
  match d with DArr id => fst (st id) | DTrans d' _ => rev (dshape st d') | DScale d' _ => dshape st d' end.
Fixpoint dvalue (st : store A) (d : dexpr A) (idx : list N) : option A :=
  match d with
  | DArr id => element (fst (st id)) (snd (st id)) idx
  | DTrans d' alpha => option_map (mul alpha) (dvalue st d' (rev idx))
  | DScale d' alpha => option_map (mul alpha) (dvalue st d' idx)
  end.
Fixpoint dname (d : dexpr A) : nat := match d with DArr id => id | DTrans d' _ => dname d' | DScale d' _ => dname d' end.
(** [d] stands for the rows x cols matrix f. *)
Definition dmatrix (st : store A) (d : dexpr A) (rows cols : N) (f : nat -> nat -> A) : Prop :=
  array (st (dname d)) /\ dshape st d = [rows; cols] /\
  forall i j, (i < rows)%N -> (j < cols)%N -> dvalue st d [i; j] = Some (f (N.to_nat i) (N.to_nat j)).

(** Only array [id] differs between the stores. *)
Definition only_changes (id : nat) (st st' : store A) : Prop := forall j, j <> id -> st' j = st j.

Definition symmetric (n : nat) (m : list A) : Prop :=
  forall i j, i < n -> j < n -> nth_error m (i * n + j) = nth_error m (j * n + i).
End Spec.
