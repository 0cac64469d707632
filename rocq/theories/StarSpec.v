(* Vocabulary of the properties of bidirectional RRT*. *)
From Verif Require Import Base RoadmapModel RoadmapSpec PlannerModel PlannerSpec StarModel.
From Coq Require Import Permutation.

Section Spec.
Context {C P : Type}.
Variable plen : P -> Q.

(* following the parents from node n leads to a root; c is the sum of the
   lengths met on the way *)
Inductive cost_to (m : pmap P) : nat -> Q -> Prop :=
| cost_root n : m n = Some None -> cost_to m n 0%Q
| cost_step n e c : m n = Some (Some e) -> cost_to m (efrom e) c -> cost_to m n (c + plen (epath e))%Q.

(* the map is a tree of edges of the roadmap: one root, each other node has an
   edge of the roadmap leading to it from its parent, and following the parents
   always ends at the root *)
Record tree (s : rm C P) (root : nat) (m : pmap P) : Prop := {
  t_root : m root = Some None;
  t_only : forall n, m n = Some None -> n = root;
  t_edge : forall n e, m n = Some (Some e) -> In e (edges s) /\ eto e = n;
  t_cost : forall n, m n <> None -> exists c, cost_to m n c }.

(* no node is left out, and none gets farther from the root *)
Definition lowered (m m' : pmap P) : Prop :=
  forall n c, cost_to m n c -> exists c', cost_to m' n c' /\ (c' <= c)%Q.

(* one can travel both ways *)
Definition mut (s : rm C P) (a b : nat) : Prop := connected_to s a b /\ connected_to s b a.

(* a list of edges leading from a to b, each one among the out edges of its
   origin, and its length *)
Fixpoint out_path (s : rm C P) (a : nat) (l : list (edge P)) (b : nat) : Prop :=
  match l with
  | [] => a = b
  | e :: l' => (exists nd, ninfo s a = Some nd /\ In e (nout nd)) /\ out_path s (eto e) l' b
  end.
Fixpoint len_of (l : list (edge P)) : Q :=
  match l with [] => 0%Q | e :: l' => (plen (epath e) + len_of l')%Q end.
End Spec.

(* what is asked from the priority queue: its top is one of its elements, and
   it is removed *)
Definition queue_ok {A} (pop : list A -> option (A * list A)) : Prop :=
  (forall l, l <> [] -> pop l <> None) /\ (forall l x l', pop l = Some (x, l') -> Permutation l (x :: l')).

(* --------------------------------------------------------- the two-tree state *)
Section State.
Context {C P : Type}.
Variable ceqb : C -> C -> bool.
Variable dist : C -> C -> Q.
Variable plen : P -> Q.
Variable prev : P -> P.
Variable V : env C P.
Variable OK : P -> Prop.
Notation rmS := (rm C P).
Notation pm := (pmap P).

(* an operation never reads through a null or end iterator and only throws if
   the extraction of a part of a path throws *)
Definition extract_throws : Prop := exists p x, e_cut V p x = Throw.
Definition outcome (loops : Prop) {A} (r : res A) (Q : A -> Prop) : Prop :=
  match r with Ok a => Q a | Throw => extract_throws | UB => False | Fuel => loops end.

(* a roadmap built by two-way operations, whose edges fit their nodes and carry
   paths in OK *)
Definition sound_rm (s : rmS) : Prop := built_with ceqb dist plen prev two_way s /\ edges_ok V OK s.
(* the keys of the map are the nodes of the component of the root *)
Definition exact_keys (s : rmS) (root : nat) (m : pm) : Prop := forall n, In n (nodes s) -> (m n <> None <-> mut s n root).
(* the path obtained between two configurations, and it is accepted *)
Definition trial (q qn : C) (p : P) : Prop :=
  exists p0, e_sm V qn q = Some p0 /\ match e_proj V with None => p = p0 | Some f => f p0 = (true, Some p) end /\
  fst (e_val V p false) = true.
(* a new node nnew, of configuration q, has been given the cost c: no worse than
   via any node of the component of the root closer than r, except possibly the
   one (near) the planner started from; and no such node has kept a cost larger
   than via nnew *)
Definition well_placed (s : rmS) (root : nat) (m m' : pm) (q : C) (r : Q) (near nnew : nat) (c : Q) : Prop :=
  cost_to plen m' nnew c /\
  forall n qn cn p, n <> near -> config_of s n qn -> mut s n root -> (dist qn q < r)%Q -> cost_to plen m n cn -> trial q qn p ->
    (c <= cn + plen p)%Q /\ exists c', cost_to plen m' n c' /\ (c' <= c + plen p)%Q.
Definition full (s : rmS) (m : pm) : Prop := forall n, In n (nodes s) -> m n <> None.

(* the state of the planner: each node is connected with one of the roots, each
   map is a tree; the keys are the nodes of the component of the root as long
   as the trees are not connected; once they are, either the maps have not been
   recomputed yet or they contain all nodes *)
Record two_trees (st : bst C P) : Prop := {
  v_good : sound_rm (br _ _ st);
  v_r0 : In (root0 _ _ st) (nodes (br _ _ st));
  v_r1 : In (root1 _ _ st) (nodes (br _ _ st));
  v_cov : forall n, In n (nodes (br _ _ st)) -> mut (br _ _ st) n (root0 _ _ st) \/ mut (br _ _ st) n (root1 _ _ st);
  v_t0 : tree plen (br _ _ st) (root0 _ _ st) (map0 _ _ st);
  v_t1 : tree plen (br _ _ st) (root1 _ _ st) (map1 _ _ st);
  v_two : ~ mut (br _ _ st) (root0 _ _ st) (root1 _ _ st) ->
    exact_keys (br _ _ st) (root0 _ _ st) (map0 _ _ st) /\ exact_keys (br _ _ st) (root1 _ _ st) (map1 _ _ st);
  v_one : mut (br _ _ st) (root0 _ _ st) (root1 _ _ st) ->
    map1 _ _ st (root0 _ _ st) = None \/ forall n, In n (nodes (br _ _ st)) -> map0 _ _ st n <> None /\ map1 _ _ st n <> None }.

(* the costs in both trees have not grown, the trees being possibly swapped *)
Definition cheaper (st x : bst C P) : Prop :=
  (root0 _ _ x = root0 _ _ st /\ root1 _ _ x = root1 _ _ st /\ lowered plen (map0 _ _ st) (map0 _ _ x) /\ lowered plen (map1 _ _ st) (map1 _ _ x)) \/
  (root0 _ _ x = root1 _ _ st /\ root1 _ _ x = root0 _ _ st /\ lowered plen (map0 _ _ st) (map1 _ _ x) /\ lowered plen (map1 _ _ st) (map0 _ _ x)).
End State.
Arguments v_good {C P ceqb dist plen prev V OK} st _.
Arguments v_r0 {C P ceqb dist plen prev V OK} st _.
Arguments v_r1 {C P ceqb dist plen prev V OK} st _.
Arguments v_cov {C P ceqb dist plen prev V OK} st _.
Arguments v_t0 {C P ceqb dist plen prev V OK} st _.
Arguments v_t1 {C P ceqb dist plen prev V OK} st _.
Arguments v_two {C P ceqb dist plen prev V OK} st _.
Arguments v_one {C P ceqb dist plen prev V OK} st _.
