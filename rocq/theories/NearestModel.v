(* K nearest neighbours and ball queries of the exhaustive search.
   Source: src/nearest-neighbor/basic.cc. *)
From Verif Require Import Base RoadmapModel.
From Coq Require Import Permutation.

(* Lines 38-48: Queue_t, a std::priority_queue of (distance, node) whose top
   is an entry of largest distance.  Which entry among equal distances is
   unspecified: [sel] is any function extracting the top. *)
Definition dn := (Q * nat)%type.
Definition is_heap (sel : list dn -> option (dn * list dn)) : Prop :=
  sel [] = None /\
  forall l, l <> [] -> exists x r, sel l = Some (x, r) /\ Permutation l (x :: r) /\
    forall y, In y l -> (fst y <= fst x)%Q.

Section Knn.
Variable sel : list dn -> option (dn * list dn).
Variable d : nat -> Q.        (* distance of the node to the query *)

(* lines 103-111, 129-137, 154-161: one node; [ns.top()] on an empty queue is
   undefined behaviour *)
Definition knn_push (K : nat) (ns : list dn) (n : nat) : res (list dn) :=
  if length ns <? K then Ok ((d n, n) :: ns)
  else match sel ns with
       | None => UB
       | Some (x, r) => if Qlt_le_dec (d n) (fst x) then Ok ((d n, n) :: r) else Ok ns
       end.
Fixpoint knn_scan (K : nat) (l : list nat) (ns : list dn) : res (list dn) :=
  match l with
  | [] => Ok ns
  | n :: l' => bind (knn_push K ns n) (fun ns' => knn_scan K l' ns')
  end.
(* lines 114-117: pop the queue, push_front the nodes; the number of turns is
   the size of the queue *)
Fixpoint knn_drain (k : nat) (ns : list dn) (acc : list nat) : list nat :=
  match k with
  | 0 => acc
  | S k' => match sel ns with None => acc | Some (x, r) => knn_drain k' r (snd x :: acc) end
  end.
(* lines 94-118, 120-144, 146-168: the result nodes and the distance written
   through the reference (None: infinity) *)
Definition knn (K : nat) (l : list nat) : res (list nat * option Q) :=
  bind (knn_scan K l []) (fun ns =>
    Ok (knn_drain (length ns) ns [],
        match sel ns with None => None | Some (x, _) => Some (fst x) end)).

(* lines 170-181 *)
Definition within_ball (r : Q) (l : list nat) : list nat :=
  filter (fun n => if Qlt_le_dec (d n) r then true else false) l.
End Knn.

Section OnRoadmap.
Context {C P : Type}.
Variable dist : C -> C -> Q.
(* distance from the configuration of the node to q *)
Definition node_dist (s : rm C P) (q : C) (n : nat) : Q :=
  match ninfo s n with Some nd => dist (ncfg nd) q | None => 0%Q end.
(* KnearestSearch(q, connectedComponent, K, distance); the version taking a
   node differs only in the overload of the distance called *)
Definition knn_cc sel (s : rm C P) (q : C) (c K : nat) := knn sel (node_dist s q) K (cnodes (cinfo s c)).
(* KnearestSearch(q, roadmap, K, distance) *)
Definition knn_roadmap sel (s : rm C P) (q : C) (K : nat) := knn sel (node_dist s q) K (nodes s).
Definition ball_cc (s : rm C P) (q : C) (c : nat) (r : Q) := within_ball (node_dist s q) r (cnodes (cinfo s c)).
End OnRoadmap.
