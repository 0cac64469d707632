(* The planner SearchInRoadmap, include/hpp/core/path-planner/search-in-roadmap.hh,
   with a GoalConfigurations target: PathPlanner::solve (LoopModel) where
   tryConnectInitAndGoals does nothing and oneStep throws.

   steer, the clock and the interruptions are parameters as in TargetModel and
   LoopModel. Problem::checkProblem and Target::check are left out. *)
From Verif Require Import Base RoadmapModel AstarModel LoopModel PlannerModel TargetModel.

Section Search.
Variables C P : Type.
Variable ceqb : C -> C -> bool.
Variable dist : C -> C -> Q.
Variable plen : P -> Q.
Variable steer : C -> C -> option P.
Notation rmt := (rm C P).

(* search-in-roadmap.hh 62: tryConnectInitAndGoals *)
Definition sr_connect (s : rmt) : res rmt := Ok s.
(* search-in-roadmap.hh 64-68: oneStep *)
Definition sr_step (s : rmt) : res rmt := Throw.
(* path-planner.cc 100-121 up to the first test *)
Definition sr_start (s : rmt) (qi : C) (gs : list C) : res rmt :=
  bind (start_solve C P ceqb dist s qi gs) sr_connect.
(* the answer of target()->reached(roadmap()) *)
Definition sr_reached (s : rmt) : bool :=
  match gc_reached C P s with Ok (b, _) => b | _ => false end.
Definition sr_solve (clock : nat -> Z) (intr : nat -> bool) (fuel : nat) (c : settings)
  (s : rmt) (qi : C) (gs : list C) : ending (list P) :=
  solve rmt (list P) (sr_start s qi gs) sr_step sr_reached (gc_computePath C P dist plen steer)
    clock intr fuel c.
End Search.
