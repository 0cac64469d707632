(* Roadmap, nodes, edges and connected components.
   Source: src/roadmap.cc, src/connected-component.cc, src/node.cc,
   include/hpp/core/roadmap.hh, include/hpp/core/connected-component.hh,
   src/nearest-neighbor/basic.cc.

   Pointers to nodes and components are natural numbers given in creation
   order.  Configurations, paths, the distance and path reversal are abstract
   (section variables).  Distances are finite rationals: a distance that is
   infinite or NaN is not modelled. *)
From Verif Require Import Base.

Section Roadmap.
Variable C : Type.                 (* Configuration_t *)
Variable P : Type.                 (* PathPtr_t *)
Variable ceqb : C -> C -> bool.    (* Configuration_t::operator== *)
Variable dist : C -> C -> Q.       (* Distance::operator() *)
Variable plen : P -> Q.            (* Path::length *)
Variable prev : P -> P.            (* Path::reverse *)

(* include/hpp/core/edge.hh: Edge (from, to, path) *)
Record edge := mkEdge { efrom : nat; eto : nat; epath : P }.

(* include/hpp/core/node.hh: Node *)
Record node := mkNode { ncfg : C; ncc : nat; nout : list edge; nin : list edge }.

(* include/hpp/core/connected-component.hh 107-113: nodes_, reachableTo_,
   reachableFrom_.  The field explored_ of all components is kept in
   [flags] below: c is in [flags] iff c->explored_.  The sets of raw pointers
   are lists; std::set iterates by address, the model by insertion order. *)
Record comp := mkComp { cnodes : list nat; rto : list nat; rfrom : list nat }.

(* include/hpp/core/roadmap.hh 253-261 *)
Record rm := mkRm {
  nnext : nat;                 (* next node identifier *)
  cnext : nat;                 (* ConnectedComponent::static_id *)
  nodes : list nat;            (* nodes_ *)
  ninfo : nat -> option node;  (* pointed-to nodes *)
  live  : list nat;            (* connectedComponents_, ordered by creation
                                  (operator< compares current_id) *)
  cinfo : nat -> comp;         (* pointed-to components *)
  flags : list nat;            (* components whose explored_ is true *)
  edges : list edge;           (* edges_ *)
  initN : option nat;          (* initNode_ *)
  goals : list nat             (* goalNodes_ *)
}.

Definition emptyComp : comp := mkComp [] [] [].

(* src/roadmap.cc 54-61: Roadmap::Roadmap *)
Definition empty : rm :=
  mkRm 0 0 [] (fun _ => None) [] (fun _ => emptyComp) [] [] None [].

Definition set_ninfo s f := mkRm (nnext s) (cnext s) (nodes s) f (live s) (cinfo s) (flags s) (edges s) (initN s) (goals s).
Definition set_live s l := mkRm (nnext s) (cnext s) (nodes s) (ninfo s) l (cinfo s) (flags s) (edges s) (initN s) (goals s).
Definition set_cinfo s f := mkRm (nnext s) (cnext s) (nodes s) (ninfo s) (live s) f (flags s) (edges s) (initN s) (goals s).
Definition set_flags s f := mkRm (nnext s) (cnext s) (nodes s) (ninfo s) (live s) (cinfo s) f (edges s) (initN s) (goals s).
Definition set_edges s e := mkRm (nnext s) (cnext s) (nodes s) (ninfo s) (live s) (cinfo s) (flags s) e (initN s) (goals s).
Definition set_init s i := mkRm (nnext s) (cnext s) (nodes s) (ninfo s) (live s) (cinfo s) (flags s) (edges s) i (goals s).
Definition set_goals s g := mkRm (nnext s) (cnext s) (nodes s) (ninfo s) (live s) (cinfo s) (flags s) (edges s) (initN s) g.

Definition set_cnodes (c : comp) l := mkComp l (rto c) (rfrom c).
Definition set_rto (c : comp) l := mkComp (cnodes c) l (rfrom c).
Definition set_rfrom (c : comp) l := mkComp (cnodes c) (rto c) l.
Definition set_ncc (n : node) c := mkNode (ncfg n) c (nout n) (nin n).
Definition set_nout (n : node) l := mkNode (ncfg n) (ncc n) l (nin n).
Definition set_nin (n : node) l := mkNode (ncfg n) (ncc n) (nout n) l.

(* Update the node behind a pointer. *)
Definition upd_node (f : nat -> option node) (n : nat) (g : node -> node) : nat -> option node :=
  fun x => if x =? n then option_map g (f x) else f x.

(* ------------------------------------------------------------------ *)
(* Reachability between components                                     *)

(* src/connected-component.cc 100-108 (same code at 130-138 and 156-164):
   push every unexplored child.  [fl]: components whose explored_ is true,
   [ex]: the local set of explored components. *)
Fixpoint expand (children : list nat) (fl ex q : list nat) : list nat * list nat * list nat :=
  match children with
  | [] => (fl, ex, q)
  | c :: cs =>
      if mem c fl then expand cs fl ex q
      else expand cs (c :: fl) (ins c ex) (q ++ [c])
  end.

(* src/connected-component.cc 93-109: loop of canReach(cc).  Returns the
   answer, the flags and the explored set. *)
Fixpoint bfs1 (fuel : nat) (ci : nat -> comp) (target : nat) (fl ex q : list nat)
  : res (bool * list nat * list nat) :=
  match q with
  | [] => Ok (false, fl, ex)
  | cur :: q' =>
      match fuel with
      | 0 => Fuel
      | S k =>
          if cur =? target then Ok (true, fl, ex)
          else let '(fl', ex', q'') := expand (rto (ci cur)) fl ex q' in
               bfs1 k ci target fl' ex' q''
      end
  end.

(* src/connected-component.cc 86-112: canReach(cc).  [clean] (37-41) resets
   explored_ on the local set.  Fuel: every component is dequeued at most
   once. *)
Definition canReach (s : rm) (this cc : nat) : res (bool * rm) :=
  match bfs1 (S (length (live s))) (cinfo s) cc (ins this (flags s)) [this] [this] with
  | Ok (b, fl, ex) => Ok (b, set_flags s (minus fl ex))
  | _ => Fuel
  end.

(* src/connected-component.cc 123-140 and 150-166: explore from the queue
   following [succ], without expanding [stop].  Returns whether [stop] was
   dequeued. *)
Fixpoint bfs2 (fuel : nat) (succ : nat -> list nat) (stop : nat) (r : bool) (fl ex q : list nat)
  : res (bool * list nat * list nat) :=
  match q with
  | [] => Ok (r, fl, ex)
  | cur :: q' =>
      match fuel with
      | 0 => Fuel
      | S k =>
          if cur =? stop then bfs2 k succ stop true fl (ins cur ex) q'
          else let '(fl', ex', q'') := expand (succ cur) fl ex q' in
               bfs2 k succ stop r fl' ex' q''
      end
  end.

(* src/connected-component.cc 114-173: canReach(cc, ccToThis) *)
Definition canReachSet (s : rm) (this cc : nat) : res (bool * list nat * rm) :=
  match bfs2 (S (length (live s))) (fun c => rto (cinfo s c)) cc false
             (ins this (flags s)) [this] [this] with
  | Ok (reachable, fl, exF) =>
      let fl1 := minus fl exF in
      if reachable then
        match bfs2 (S (length (live s))) (fun c => rfrom (cinfo s c)) this false
                   (ins cc fl1) [cc] [cc] with
        | Ok (_, fl2, exB) => Ok (true, inter exF exB, set_flags s (minus fl2 exB))
        | _ => Fuel
        end
      else Ok (false, [], set_flags s fl1)
  | _ => Fuel
  end.

(* src/connected-component.cc 43-84: ConnectedComponent::merge(other) *)
Definition cc_merge (s : rm) (this other : nat) : rm :=
  (* 48-51 *)
  let ni := fold_left (fun f n => upd_node f n (fun x => set_ncc x this))
                      (cnodes (cinfo s other)) (ninfo s) in
  (* 53 *)
  let c0 := upd (cinfo s) this
              (set_cnodes (cinfo s this) (cnodes (cinfo s this) ++ cnodes (cinfo s other))) in
  (* 56-60 *)
  let c1 := fold_left (fun ci c => upd ci c (set_rfrom (ci c) (ins this (ers other (rfrom (ci c))))))
                      (rto (c0 other)) c0 in
  (* 63-67 *)
  let c2 := fold_left (fun ci c => upd ci c (set_rto (ci c) (ins this (ers other (rto (ci c))))))
                      (rfrom (c1 other)) c1 in
  (* 69-76 *)
  let c3 := upd c2 this (set_rto (c2 this) (ers this (ers other (uni (rto (c2 this)) (rto (c2 other)))))) in
  (* 77-83 *)
  let c4 := upd c3 this (set_rfrom (c3 this) (ers this (ers other (uni (rfrom (c3 this)) (rfrom (c3 other)))))) in
  set_cinfo (set_ninfo s ni) c4.

(* src/roadmap.cc 298-311: Roadmap::merge(cc1, ccs) *)
Definition merge_set (s : rm) (cc1 : nat) (ccs : list nat) : rm :=
  fold_left (fun s c => if c =? cc1 then s
                        else let s' := cc_merge s cc1 c in set_live s' (ers c (live s')))
            ccs s.

(* src/roadmap.cc 286-296: Roadmap::connect *)
Definition connect (s : rm) (cc1 cc2 : nat) : res rm :=
  bind (canReach s cc1 cc2) (fun '(b, s1) =>
    if b then Ok s1
    else bind (canReachSet s1 cc2 cc1) (fun '(b2, ccs, s2) =>
      if b2 then Ok (merge_set s2 cc1 ccs)
      else
        let c0 := cinfo s2 in
        let c1 := upd c0 cc1 (set_rto (c0 cc1) (ins cc2 (rto (c0 cc1)))) in
        let c2 := upd c1 cc2 (set_rfrom (c1 cc2) (ins cc1 (rfrom (c1 cc2)))) in
        Ok (set_cinfo s2 c2))).

(* src/node.cc 96-108 *)
Definition isOutNeighbor (n : node) (m : nat) : bool := existsb (fun e => eto e =? m) (nout n).
Definition isInNeighbor (n : node) (m : nat) : bool := existsb (fun e => efrom e =? m) (nin n).

(* src/roadmap.cc 147-148, 151-152, 268-269: register the edge in its end
   nodes unless these are already neighbours.  Node::addOutEdge/addInEdge
   (src/node.cc 52-82) throw on a duplicate, which the guard excludes. *)
Definition registerOut (s : rm) (e : edge) : rm :=
  set_ninfo s (upd_node (ninfo s) (efrom e)
    (fun n => if isOutNeighbor n (eto e) then n else set_nout n (nout n ++ [e]))).
Definition registerIn (s : rm) (e : edge) : rm :=
  set_ninfo s (upd_node (ninfo s) (eto e)
    (fun n => if isInNeighbor n (efrom e) then n else set_nin n (nin n ++ [e]))).

(* src/roadmap.cc 313-320: impl_addEdge; dereferencing a node pointer that is
   not in the roadmap is UB. *)
Definition impl_addEdge (s : rm) (e : edge) : res rm :=
  let s1 := set_edges s (edges s ++ [e]) in
  match ninfo s1 (efrom e), ninfo s1 (eto e) with
  | Some n1, Some n2 => connect s1 (ncc n1) (ncc n2)
  | _, _ => UB
  end.

(* src/roadmap.cc 265-272: addEdge *)
Definition addEdge (s : rm) (n1 n2 : nat) (p : P) : res rm :=
  match ninfo s n1, ninfo s n2 with
  | Some _, Some _ =>
      let e := mkEdge n1 n2 p in
      impl_addEdge (registerIn (registerOut s e) e) e
  | _, _ => UB
  end.

(* src/roadmap.cc 144-154: addEdges *)
Definition addEdges (s : rm) (from to : nat) (p : P) : res rm :=
  match ninfo s from, ninfo s to with
  | Some _, Some _ =>
      let e := mkEdge from to p in
      bind (impl_addEdge (registerIn (registerOut s e) e) e) (fun s1 =>
        let e' := mkEdge to from (prev p) in
        impl_addEdge (registerOut (registerIn s1 e') e') e')
  | _, _ => UB
  end.

(* ------------------------------------------------------------------ *)
(* Nearest neighbour                                                   *)

(* src/nearest-neighbor/basic.cc 52-73: Basic::search.  None = (NULL, inf). *)
Definition nn_d (rev : bool) (q c : C) : Q := if rev then dist q c else dist c q.
Definition nn_step (s : rm) (rev : bool) (q : C) (acc : option (nat * Q)) (n : nat) : option (nat * Q) :=
  match ninfo s n with
  | None => acc
  | Some nd =>
      let d := nn_d rev q (ncfg nd) in
      match acc with
      | None => Some (n, d)
      | Some (_, best) => if Qlt_le_dec d best then Some (n, d) else acc
      end
  end.
Definition nn_search (s : rm) (rev : bool) (q : C) (cc : nat) : option (nat * Q) :=
  fold_left (nn_step s rev q) (cnodes (cinfo s cc)) None.

(* src/roadmap.cc 209-225: nearestNode over all components *)
Definition nearest_step (s : rm) (rev : bool) (q : C) (acc : option (nat * Q)) (cc : nat) : option (nat * Q) :=
  match nn_search s rev q cc with
  | None => acc
  | Some (n, d) =>
      match acc with
      | None => Some (n, d)
      | Some (_, best) => if Qlt_le_dec d best then Some (n, d) else acc
      end
  end.
Definition nearestNode (s : rm) (rev : bool) (q : C) : option (nat * Q) :=
  fold_left (nearest_step s rev q) (live s) None.

(* src/roadmap.cc 112-119: create a node in a new component *)
Definition newNode (s : rm) (q : C) : nat * rm :=
  let n := nnext s in let c := cnext s in
  (n, mkRm (S n) (S c) (nodes s ++ [n])
       (upd (ninfo s) n (Some (mkNode q c [] [])))
       (live s ++ [c])
       (upd (cinfo s) c (mkComp [n] [] []))
       (flags s) (edges s) (initN s) (goals s)).

(* src/roadmap.cc 133-141: create a node in an existing component.  The
   component created by Node::Node is dropped. *)
Definition newNodeIn (s : rm) (q : C) (cc : nat) : nat * rm :=
  let n := nnext s in
  (n, mkRm (S n) (S (cnext s)) (nodes s ++ [n])
       (upd (ninfo s) n (Some (mkNode q cc [] [])))
       (live s)
       (upd (cinfo s) cc (set_cnodes (cinfo s cc) (cnodes (cinfo s cc) ++ [n])))
       (flags s) (edges s) (initN s) (goals s)).

(* src/roadmap.cc 104-120: addNode(q) *)
Definition addNode (s : rm) (q : C) : res (nat * rm) :=
  match nodes s with
  | [] => Ok (newNode s q)
  | _ =>
      match nearestNode s false q with
      | None => UB
      | Some (n, _) =>
          match ninfo s n with
          | None => UB
          | Some nd => if ceqb (ncfg nd) q then Ok (n, s) else Ok (newNode s q)
          end
      end
  end.

(* src/roadmap.cc 122-142: addNode(q, cc) *)
Definition addNodeIn (s : rm) (q : C) (cc : nat) : res (nat * rm) :=
  match nodes s with
  | [] => Ok (newNodeIn s q cc)
  | _ =>
      match nn_search s false q cc with
      | None => UB
      | Some (n, _) =>
          match ninfo s n with
          | None => UB
          | Some nd => if ceqb (ncfg nd) q then Ok (n, s) else Ok (newNodeIn s q cc)
          end
      end
  end.

(* src/roadmap.cc 156-161 *)
Definition addNodeAndEdges (s : rm) (from : nat) (q : C) (p : P) : res (nat * rm) :=
  match ninfo s from with
  | None => UB
  | Some nf =>
      bind (addNodeIn s q (ncc nf)) (fun '(to, s1) =>
      bind (addEdges s1 from to p) (fun s2 => Ok (to, s2)))
  end.

(* src/roadmap.cc 163-168 *)
Definition addNodeAndEdge (s : rm) (from : nat) (q : C) (p : P) : res (nat * rm) :=
  match ninfo s from with
  | None => UB
  | Some nf =>
      bind (addNodeIn s q (ncc nf)) (fun '(to, s1) =>
      bind (addEdge s1 from to p) (fun s2 => Ok (to, s2)))
  end.

(* src/roadmap.cc 170-175 *)
Definition addNodeAndEdgeTo (s : rm) (q : C) (to : nat) (p : P) : res (nat * rm) :=
  match ninfo s to with
  | None => UB
  | Some nt =>
      bind (addNodeIn s q (ncc nt)) (fun '(from, s1) =>
      bind (addEdge s1 from to p) (fun s2 => Ok (from, s2)))
  end.

(* src/roadmap.cc 199-206: loop of insertPathVector over the sub-paths, each
   given with its end configuration *)
Fixpoint insert_loop (s : rm) (n : nat) (both : bool) (l : list (C * P)) : res rm :=
  match l with
  | [] => Ok s
  | (q, p) :: l' =>
      bind (if both then addNodeAndEdges s n q p else addNodeAndEdge s n q p)
           (fun '(m, s') => insert_loop s' m both l')
  end.

(* src/roadmap.cc 191-207: insertPathVector.  [constrained]: path->constraints()
   is not null. *)
Definition insertPathVector (s : rm) (constrained : bool) (q0 : C) (l : list (C * P)) (both : bool) : res rm :=
  if constrained then Throw
  else bind (addNode s q0) (fun '(n, s1) => insert_loop s1 n both l).

(* include/hpp/core/roadmap.hh 170 ; src/roadmap.cc 257-261 ; roadmap.hh 168 *)
Definition initNode (s : rm) (q : C) : res rm :=
  bind (addNode s q) (fun '(n, s1) => Ok (set_init s1 (Some n))).
Definition addGoalNode (s : rm) (q : C) : res rm :=
  bind (addNode s q) (fun '(n, s1) => Ok (set_goals s1 (goals s1 ++ [n]))).
Definition resetGoalNodes (s : rm) : rm := set_goals s [].

(* src/roadmap.cc 86-102: clear.  Identifiers of new nodes and components
   stay fresh. *)
Definition clear (s : rm) : rm :=
  mkRm (nnext s) (cnext s) [] (fun _ => None) [] (cinfo s) (flags s) [] None [].

(* src/roadmap.cc 322-331: pathExists.  The explored flags are reset by each
   canReach. *)
Fixpoint pe_loop (s : rm) (cI : nat) (gs : list nat) : res (bool * rm) :=
  match gs with
  | [] => Ok (false, s)
  | g :: gs' =>
      match ninfo s g with
      | None => UB
      | Some ng => bind (canReach s cI (ncc ng)) (fun '(b, s1) =>
                     if b then Ok (true, s1) else pe_loop s1 cI gs')
      end
  end.
Definition pathExists (s : rm) : res (bool * rm) :=
  match initN s with
  | None => UB
  | Some i => match ninfo s i with
              | None => UB
              | Some ni => pe_loop s (ncc ni) (goals s)
              end
  end.

(* src/roadmap.cc 177-189: merge(other).  [ns]: identifier and configuration
   of the nodes of the other roadmap, [es]: its edges. *)
Fixpoint merge_nodes (s : rm) (ns : list (nat * C)) (m : nat -> option nat) : res ((nat -> option nat) * rm) :=
  match ns with
  | [] => Ok (m, s)
  | (n, q) :: ns' => bind (addNode s q) (fun '(k, s1) => merge_nodes s1 ns' (upd m n (Some k)))
  end.
Fixpoint merge_edges (s : rm) (es : list edge) (m : nat -> option nat) : res rm :=
  match es with
  | [] => Ok s
  | e :: es' =>
      if Qeq_bool (plen (epath e)) 0 then merge_edges s es' m
      else match m (efrom e), m (eto e) with
           | Some a, Some b => bind (addEdges s a b (epath e)) (fun s1 => merge_edges s1 es' m)
           | _, _ => UB
           end
  end.
Definition node_list (s : rm) : list (nat * C) :=
  flat_map (fun n => match ninfo s n with Some nd => [(n, ncfg nd)] | None => [] end) (nodes s).
Definition merge (s other : rm) : res rm :=
  bind (merge_nodes s (node_list other) (fun _ => None)) (fun '(m, s1) => merge_edges s1 (edges other) m).

(* ------------------------------------------------------------------ *)
(* Histories of public calls                                           *)
Inductive op :=
| OAddNode (q : C)
| OAddEdge (n1 n2 : nat) (p : P)
| OAddEdges (n1 n2 : nat) (p : P)
| OAddNodeAndEdges (n : nat) (q : C) (p : P)
| OAddNodeAndEdge (n : nat) (q : C) (p : P)
| OAddNodeAndEdgeTo (q : C) (n : nat) (p : P)
| OInsertPathVector (q0 : C) (l : list (C * P)) (both : bool)
| OInit (q : C)
| OGoal (q : C)
| OResetGoals
| OMerge (other : rm)
| OClear.

Definition step (s : rm) (o : op) : res rm :=
  match o with
  | OAddNode q => bind (addNode s q) (fun '(_, s1) => Ok s1)
  | OAddEdge n1 n2 p => addEdge s n1 n2 p
  | OAddEdges n1 n2 p => addEdges s n1 n2 p
  | OAddNodeAndEdges n q p => bind (addNodeAndEdges s n q p) (fun '(_, s1) => Ok s1)
  | OAddNodeAndEdge n q p => bind (addNodeAndEdge s n q p) (fun '(_, s1) => Ok s1)
  | OAddNodeAndEdgeTo q n p => bind (addNodeAndEdgeTo s q n p) (fun '(_, s1) => Ok s1)
  | OInsertPathVector q0 l both => insertPathVector s false q0 l both
  | OInit q => initNode s q
  | OGoal q => addGoalNode s q
  | OResetGoals => Ok (resetGoalNodes s)
  | OMerge other => merge s other
  | OClear => Ok (clear s)
  end.

Fixpoint run (s : rm) (ops : list op) : res rm :=
  match ops with
  | [] => Ok s
  | o :: ops' => bind (step s o) (fun s1 => run s1 ops')
  end.

End Roadmap.

Arguments mkEdge {P} efrom eto epath.
Arguments efrom {P} e.
Arguments eto {P} e.
Arguments epath {P} e.
Arguments mkNode {C P} ncfg ncc nout nin.
Arguments ncfg {C P} n.
Arguments ncc {C P} n.
Arguments nout {C P} n.
Arguments nin {C P} n.
Arguments mkRm {C P}.
Arguments nnext {C P} r.
Arguments cnext {C P} r.
Arguments nodes {C P} r.
Arguments ninfo {C P} r _.
Arguments live {C P} r.
Arguments cinfo {C P} r _.
Arguments flags {C P} r.
Arguments edges {C P} r.
Arguments initN {C P} r.
Arguments goals {C P} r.
Arguments empty {C P}.
Arguments canReach {C P} s this cc.
Arguments canReachSet {C P} s this cc.
Arguments cc_merge {C P} s this other.
Arguments merge_set {C P} s cc1 ccs.
Arguments connect {C P} s cc1 cc2.
Arguments set_ninfo {C P}. Arguments set_live {C P}. Arguments set_cinfo {C P}.
Arguments set_flags {C P}. Arguments set_edges {C P}. Arguments set_init {C P}.
Arguments set_goals {C P}.
Arguments set_ncc {C P}. Arguments set_nout {C P}. Arguments set_nin {C P}.
Arguments upd_node {C P}.
Arguments isOutNeighbor {C P}. Arguments isInNeighbor {C P}.
Arguments registerOut {C P}. Arguments registerIn {C P}.
Arguments impl_addEdge {C P}. Arguments addEdge {C P}.
Arguments newNode {C P}. Arguments newNodeIn {C P}.
Arguments resetGoalNodes {C P}. Arguments clear {C P}.
Arguments pe_loop {C P}. Arguments pathExists {C P}.
Arguments node_list {C P}.
Arguments OAddNode {C P}. Arguments OAddEdge {C P}. Arguments OAddEdges {C P}.
Arguments OAddNodeAndEdges {C P}. Arguments OAddNodeAndEdge {C P}.
Arguments OAddNodeAndEdgeTo {C P}. Arguments OInsertPathVector {C P}.
Arguments OInit {C P}. Arguments OGoal {C P}. Arguments OResetGoals {C P}.
Arguments OMerge {C P}. Arguments OClear {C P}.
