(* Specification vocabulary for the global path projector. *)
From Coq Require Import List.
From Verif Require Import Base QcTac.
Import ListNotations.
Open Scope Qc_scope.

Section Spec.
Variable C : Type.
Variable dist : C -> C -> Qc.
(* what is asked of the distance *)
Definition proper : Prop := (forall a b, 0 <= dist a b) /\ (forall a b, dist a b = 0 -> a = b).
(* way-points with their parameters: the parameter increases by the distance *)
Fixpoint timed (l : list (Qc * C)) : Prop :=
  match l with
  | a :: ((b :: _) as r) => fst b = fst a + dist (snd a) (snd b) /\ timed r
  | _ => True
  end.
(* consecutive way-points are at most [d] apart *)
Fixpoint spaced (d : Qc) (l : list (Qc * C)) : Prop :=
  match l with
  | a :: ((b :: _) as r) => dist (snd a) (snd b) <= d /\ spaced d r
  | _ => True
  end.
(* consecutive elements are related *)
Fixpoint linked {A} (R : A -> A -> Prop) (l : list A) : Prop :=
  match l with
  | a :: ((b :: _) as r) => R a b /\ linked R r
  | _ => True
  end.
End Spec.
