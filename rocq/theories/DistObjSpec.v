(* What the distances between objects should be. *)
From Verif Require Import Base DistObjModel.
Open Scope nat_scope.

Section Spec.
Context {O D E : Type}.
(* the inner objects of the robot, joint after joint *)
Definition inner_objects (rb : robot O) : list O :=
  flat_map (fun j => match j with Some b => b | None => [] end) rb.
(* the obstacles given so far, in order *)
Definition given (l : list (op O E)) : list O :=
  flat_map (fun x => match x with OpAdd o => [o] | OpObstacles l => l | OpCompute _ => [] end) l.
(* all pairs, obstacle after obstacle *)
Definition all_pairs (rb : robot O) (obst : list O) : list (O * O) :=
  flat_map (fun o => map (fun i => (i, o)) (inner_objects rb)) obst.
End Spec.
