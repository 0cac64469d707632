(* Vocabulary of the container properties. *)
From Verif Require Import Base ContainerModel.
From Coq Require Import Sorted.

Section Spec.
Context {K V : Type}.
Variable ltb : K -> K -> bool.

(* operator< is a strict total order *)
Definition total_order : Prop :=
  (forall a, ltb a a = false) /\
  (forall a b c, ltb a b = true -> ltb b c = true -> ltb a c = true) /\
  (forall a b, ltb a b = false -> ltb b a = false -> a = b).

(* The value a history of calls, latest call first, gives to a key. *)
Inductive gives (k : K) : list (cop K V) -> option V -> Prop :=
| gives_start : gives k [] None
| gives_add v h : gives k (CAdd k v :: h) (Some v)
| gives_add_other k' v h r : k' <> k -> gives k h r -> gives k (CAdd k' v :: h) r
| gives_erase h : gives k (CErase k :: h) None
| gives_erase_other k' h r : k' <> k -> gives k h r -> gives k (CErase k' :: h) r
| gives_clear h : gives k (CClear :: h) None.

(* listed from the smallest to the largest, each once *)
Definition increasing (l : list K) : Prop := StronglySorted (fun a b => ltb a b = true) l.
End Spec.
