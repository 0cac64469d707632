(* Problem targets: hpp::core::problemTarget::GoalConfigurations and
   TaskTarget, on the roadmap of RoadmapModel and the search of AstarModel.

   A solution is the list of the paths appended to the path vector. steer is
   the steering method (None: null path), sat the constraints of the task
   (ConstraintSet::isSatisfied). *)
From Verif Require Import Base RoadmapModel AstarModel.

Section Target.
Variables C P : Type.
Variable ceqb : C -> C -> bool.
Variable dist : C -> C -> Q.
Variable plen : P -> Q.
Variable steer : C -> C -> option P.
Notation rmt := (rm C P).

(* GoalConfigurations::reached,
   src/problem-target/goal-configurations.cc:52-64 *)
Definition gc_reached (s : rmt) : res (bool * rmt) :=
  match initN s with
  | None => Ok (false, s)
  | Some i =>
    match ninfo s i with
    | None => UB
    | Some ni => pe_loop s (ncc ni) (goals s)
    end
  end.

(* GoalConfigurations::computePath, goal-configurations.cc:66-80: the A*
   solution, or the steering method from the initial configuration to itself
   when it is empty *)
Definition tgt_solution (s : rmt) : res (list P) :=
  bind (roadmap_astar dist plen s) (fun l =>
    match map (fun e => epath e) l with
    | [] =>
      match initN s with
      | None => UB
      | Some i =>
        match ninfo s i with
        | None => UB
        | Some ni =>
          match steer (ncfg ni) (ncfg ni) with
          | None => UB (* appendPath of a null path *)
          | Some p => Ok [p]
          end
        end
      end
    | ps => Ok ps
    end).
Definition gc_computePath (s : rmt) : res (list P) := tgt_solution s.

(* TaskTarget::check, src/problem-target/task-target.cc:50-56 *)
Definition tt_check (sat : option (C -> bool)) : res unit :=
  match sat with None => Throw | Some _ => Ok tt end.
(* TaskTarget::reached, task-target.cc:58-72. The assertion that there is no
   goal node is not part of a release build. *)
Fixpoint tt_loop (s : rmt) (sat : option (C -> bool)) (ns : list nat) (r : bool) : res (bool * rmt) :=
  match ns with
  | [] => Ok (r, s)
  | n :: ns' =>
    match ninfo s n, sat with
    | Some nd, Some f =>
      if f (ncfg nd) then bind (addGoalNode C P ceqb dist s (ncfg nd)) (fun s1 => tt_loop s1 sat ns' true)
      else tt_loop s sat ns' r
    | _, _ => UB
    end
  end.
Definition tt_reached (s : rmt) (sat : option (C -> bool)) : res (bool * rmt) :=
  match initN s with
  | None => Ok (false, s)
  | Some i =>
    match ninfo s i with
    | None => UB
    | Some ni => tt_loop s sat (cnodes (cinfo s (ncc ni))) false
    end
  end.
(* TaskTarget::computePath, task-target.cc:81-95. The goal nodes are reset
   unless an exception is thrown. *)
Definition tt_computePath (s : rmt) : res (list P * rmt) :=
  bind (tgt_solution s) (fun ps => Ok (ps, resetGoalNodes s)).
End Target.
