(* Vocabulary used to state the roadmap properties: what a caller observes
   through the public accessors, and which roadmaps a caller can build. *)
From Verif Require Import Base Reach RoadmapModel.

Section Spec.
Context {C P : Type}.

(* Roadmap::edges() contains an edge from node a to node b *)
Definition arc (s : rm C P) (a b : nat) : Prop :=
  exists e, In e (edges s) /\ efrom e = a /\ eto e = b.
(* one can travel from a to b along directed edges: reach (arc s) a b *)
Definition connected_to (s : rm C P) (a b : nat) : Prop := reach (arc s) a b.

(* Node::connectedComponent() of node n is c *)
Definition comp_of (s : rm C P) (n c : nat) : Prop :=
  exists nd, ninfo s n = Some nd /\ ncc nd = c.
(* Node::configuration() of node n is q *)
Definition config_of (s : rm C P) (n : nat) (q : C) : Prop :=
  exists nd, ninfo s n = Some nd /\ ncfg nd = q.

(* calls which do not create a new node linked by a single one-way edge *)
Definition two_way (o : op C P) : bool :=
  match o with
  | OAddNodeAndEdge _ _ _ | OAddNodeAndEdgeTo _ _ _ | OInsertPathVector _ _ false => false
  | _ => true
  end.
(* calls which create nodes only through addNode(q) *)
Definition plain (o : op C P) : bool :=
  match o with
  | OAddNodeAndEdges _ _ _ | OAddNodeAndEdge _ _ _ | OAddNodeAndEdgeTo _ _ _
  | OInsertPathVector _ _ _ => false
  | _ => true
  end.

Variable ceqb : C -> C -> bool.
Variable dist : C -> C -> Q.
Variable plen : P -> Q.
Variable prev : P -> P.

(* Roadmaps obtained by a history of public calls; a roadmap given to merge
   has itself been built by public calls. *)
Inductive built : rm C P -> Prop :=
| built_empty : built empty
| built_step s o t :
    built s -> (forall other, o = OMerge other -> built other) ->
    step C P ceqb dist plen prev s o = Ok t -> built t.

(* Same, all calls being accepted by [ok] *)
Inductive built_with (ok : op C P -> bool) : rm C P -> Prop :=
| builtw_empty : built_with ok empty
| builtw_step s o t :
    built_with ok s -> ok o = true -> (forall other, o = OMerge other -> built other) ->
    step C P ceqb dist plen prev s o = Ok t -> built_with ok t.

(* arguments of a call designate nodes of the roadmap *)
Definition good_args (s : rm C P) (o : op C P) : Prop :=
  match o with
  | OAddEdge a b _ | OAddEdges a b _ => In a (nodes s) /\ In b (nodes s)
  | OAddNodeAndEdges a _ _ | OAddNodeAndEdge a _ _ | OAddNodeAndEdgeTo _ a _ => In a (nodes s)
  | OMerge other => built other
  | _ => True
  end.

(* the distance separates configurations and operator== is equality *)
Definition separating : Prop :=
  (forall a b, ceqb a b = true <-> a = b) /\
  (forall a b, (0 <= dist a b)%Q) /\ (forall a b, (dist a b == 0)%Q <-> a = b).
End Spec.
