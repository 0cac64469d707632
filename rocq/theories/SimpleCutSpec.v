(* Specification vocabulary for the simple shortcut optimizer. *)
From Verif Require Import Base VecSpec.

Section S.
Variables C P : Type.
Variable dist : C -> C -> Q.
Variable plen : P -> Q.
Variable pinit pend : P -> C.
Variable steer : C -> C -> option P.
Variable valid : P -> bool.

(* the successive end configurations of the sub-paths *)
Definition corners (path : list P) : list C :=
  match path with [] => [] | p :: _ => pinit p :: map pend path end.

(* a sub-path of the input, or an accepted path of the steering method between
   two of its corners that are not consecutive *)
Definition candidate (path : list P) (p : P) : Prop :=
  In p path \/
  exists i j a b, i + 2 <= j /\ nth_error (corners path) i = Some a /\
    nth_error (corners path) j = Some b /\ steer a b = Some p /\ valid p = true.

(* sum of the lengths *)
Fixpoint total (l : list P) : Q :=
  match l with [] => 0%Q | p :: r => (plen p + total r)%Q end.

Definition qmetric : Prop :=
  (forall a b, (0 <= dist a b)%Q) /\ (forall a, (dist a a == 0)%Q) /\
  (forall a b c, (dist a c <= dist a b + dist b c)%Q).
End S.

Arguments corners {C P} pinit pend path.
Arguments candidate {C P} pinit pend steer valid path p.
Arguments total {P} plen l.
Arguments qmetric {C} dist.
