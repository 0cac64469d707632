(* A* search on the roadmap.  Source: src/astar.hh.
   The search is written over the out-edge lists of the nodes ([outs]), the
   list of goal nodes and the heuristic; [roadmap_astar] below instantiates
   them from the roadmap model. *)
From Verif Require Import Base RoadmapModel.

Section Astar.
Variable P : Type.
Variable plen : P -> Q.              (* Path::length *)
Variable outs : nat -> list (edge P). (* Node::outEdges *)
Variable goals : list nat.           (* Roadmap::goalNodes *)
Variable h : nat -> Q.               (* heuristic(node), lines 137-149 *)

(* lines 47-51: open_, closed_, costFromStart_, estimatedCostToGoal_, parent_.
   The maps are functions; a missing key of a cost map reads as 0, as
   std::map::operator[] does. *)
Record ast := mkAst {
  op_ : list nat; cl_ : list nat;
  cost : nat -> Q; est : nat -> Q; par : nat -> option (edge P) }.

(* lines 79-86, 108: open_.sort(SortFunctor(estimatedCostToGoal_)), a stable
   sort; any stable sort gives the same list. *)
Fixpoint insert_by (f : nat -> Q) (x : nat) (l : list nat) : list nat :=
  match l with
  | [] => [x]
  | y :: l' => if Qlt_le_dec (f y) (f x) then y :: insert_by f x l' else x :: l
  end.
Fixpoint sort_by (f : nat -> Q) (l : list nat) : list nat :=
  match l with [] => [] | x :: l' => insert_by f x (sort_by f l') end.

(* lines 88-96 *)
Definition isGoal (n : nat) : bool := existsb (Nat.eqb n) goals.

(* lines 116-132: one out-edge of [current].  The maps are indexed by
   end nodes. *)
Definition relax (current : nat) (a : ast) (e : edge P) : ast :=
  let child := eto e in
  if mem child (cl_ a) then a
  else
    let tmp := (cost a current + plen (epath e))%Q in
    let notOpen := negb (mem child (op_ a)) in
    if notOpen || (if Qlt_le_dec tmp (cost a child) then true else false) then
      let cost' := upd (cost a) child tmp in
      mkAst (if notOpen then op_ a ++ [child] else op_ a) (cl_ a) cost'
            (upd (est a) child (tmp + h child)%Q)
            (upd (par a) child (Some e))
    else a.

(* lines 98-135: findPath, loop of lines 106-133 *)
Fixpoint find_loop (fuel : nat) (a : ast) : res (nat * ast) :=
  match fuel with
  | 0 => Fuel
  | S k =>
      match sort_by (est a) (op_ a) with
      | [] => Throw
      | current :: rest =>
          if isGoal current then Ok (current, a)
          else find_loop k (fold_left (relax current) (outs current)
                 (mkAst rest (cl_ a ++ [current]) (cost a) (est a) (par a)))
      end
  end.
Definition findPath (fuel : nat) (init : nat) : res (nat * ast) :=
  find_loop fuel (mkAst [init] [] (fun _ => 0%Q) (fun _ => 0%Q) (fun _ => None)).

(* lines 59-77: solution.  Returns the edges whose paths are appended to the
   result. *)
Fixpoint back (fuel : nat) (par : nat -> option (edge P)) (n : nat) (acc : list (edge P)) : res (list (edge P)) :=
  match par n with
  | None => Ok acc
  | Some e => match fuel with 0 => Fuel | S k => back k par (efrom e) (e :: acc) end
  end.
Definition solution (fuel : nat) (init : nat) : res (list (edge P)) :=
  bind (findPath fuel init) (fun '(g, a) => back fuel (par a) g []).
End Astar.

(* Instantiation with the roadmap model.  Lines 137-149: with no goal the
   heuristic is +infinity in the code and 0 here; every search then throws. *)
Definition roadmap_outs {C P} (s : rm C P) (n : nat) : list (edge P) :=
  match ninfo s n with Some nd => nout nd | None => [] end.
Definition heuristic {C P} (dist : C -> C -> Q) (s : rm C P) (n : nat) : Q :=
  match ninfo s n with
  | None => 0%Q
  | Some nd =>
      match fold_left (fun acc g => match ninfo s g with
                                    | None => acc
                                    | Some ng =>
                                        let d := dist (ncfg nd) (ncfg ng) in
                                        match acc with
                                        | None => Some d
                                        | Some r => if Qlt_le_dec d r then Some d else Some r
                                        end
                                    end) (goals s) None with
      | None => 0%Q
      | Some r => r
      end
  end.
(* Astar(roadmap, distance).solution: the initial node pointer is
   dereferenced, null is UB *)
Definition roadmap_astar {C P} (dist : C -> C -> Q) (plen : P -> Q) (s : rm C P) : res (list (edge P)) :=
  match initN s with
  | None => UB
  | Some i => solution P plen (roadmap_outs s) (goals s) (heuristic dist s) (S (length (nodes s))) i
  end.
