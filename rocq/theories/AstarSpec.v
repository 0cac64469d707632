(* Vocabulary of the A* properties. *)
From Verif Require Import Base RoadmapModel RoadmapSpec.

Section Spec.
Context {C P : Type}.
Variable dist : C -> C -> Q.
Variable plen : P -> Q.

(* l is a list of edges of the roadmap which leads from node a to node b *)
Fixpoint edge_path (s : rm C P) (a : nat) (l : list (edge P)) (b : nat) : Prop :=
  match l with
  | [] => a = b
  | e :: l' => In e (edges s) /\ efrom e = a /\ edge_path s (eto e) l' b
  end.
(* sum of the lengths of the paths of the edges *)
Fixpoint path_cost (l : list (edge P)) : Q :=
  match l with [] => 0%Q | e :: l' => (plen (epath e) + path_cost l')%Q end.

(* at most one edge from a node to another *)
Definition single_edges (s : rm C P) : Prop :=
  forall e1 e2, In e1 (edges s) -> In e2 (edges s) ->
    efrom e1 = efrom e2 -> eto e1 = eto e2 -> e1 = e2.

(* the distance is nonnegative, 0 from a configuration to itself, satisfies
   the triangle inequality, and the path of an edge is no shorter than the
   distance between its end configurations *)
Definition heuristic_consistent (s : rm C P) : Prop :=
  (forall a b, (0 <= dist a b)%Q) /\ (forall a, (dist a a == 0)%Q) /\
  (forall a b c, (dist a c <= dist a b + dist b c)%Q) /\
  (forall e, In e (edges s) -> forall a b, config_of s (efrom e) a -> config_of s (eto e) b ->
     (dist a b <= plen (epath e))%Q).
(* the distance never overestimates the length of an edge path to a goal *)
Definition heuristic_admissible (s : rm C P) : Prop :=
  forall n l g a b, In g (goals s) -> edge_path s n l g -> config_of s n a -> config_of s g b ->
    (0 <= dist a b)%Q /\ (dist a b <= path_cost l)%Q.
End Spec.
