(* Vocabulary of the parameter properties. Histories are read latest call
   first. *)
From Verif Require Import Base ContainerModel ParamModel.

(* the declaration in force for a name: the latest one *)
Inductive declared (n : nat) : list pop -> option desc -> Prop :=
| declared_start : declared n [] None
| declared_here d h : dname d = n -> declared n (PDeclare d :: h) (Some d)
| declared_other d h r : dname d <> n -> declared n h r -> declared n (PDeclare d :: h) r
| declared_set pb m v h r : declared n h r -> declared n (PSet pb m v :: h) r.

(* a value may be stored under a name: the name is declared with its type *)
Definition accepted (n : nat) (v : param) (h : list pop) : Prop :=
  exists d, declared n h (Some d) /\ dtype d = ptype_of v.

(* the latest accepted value for a name of a problem *)
Inductive last_set (pb n : nat) : list pop -> option param -> Prop :=
| last_start : last_set pb n [] None
| last_declare d h r : last_set pb n h r -> last_set pb n (PDeclare d :: h) r
| last_here v h : accepted n v h -> last_set pb n (PSet pb n v :: h) (Some v)
| last_rejected m v h k r : ~ accepted m v h -> last_set pb n h r -> last_set pb n (PSet k m v :: h) r
| last_other k m v h r : (k <> pb \/ m <> n) -> last_set pb n h r -> last_set pb n (PSet k m v :: h) r.

(* a name is always declared with the same type *)
Definition types_stable (h : list pop) : Prop :=
  forall d d', In (PDeclare d) h -> In (PDeclare d') h -> dname d = dname d' -> dtype d = dtype d'.
