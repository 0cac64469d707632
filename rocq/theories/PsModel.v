(* Settings of the problem solver and what the problem to solve uses.
   Source: src/problem-solver.cc, include/hpp/core/problem-solver.hh,
   src/problem.cc, include/hpp/core/problem.hh.

   Components (steering methods, planners, ...) are represented by the name of
   the builder they were made with. Builders are supposed not to throw, and are
   not removed from the containers. The setter problem(), that installs a
   problem of the caller, is not modelled; obstacles are in SolverObstModel.v
   and constraints in SteerModel.v and ConsModel.v. *)
From Coq Require Import List Bool.
From Verif Require Import Base.
Import ListNotations.

Section Solver.
Variables name tol config task : Type.
Variables num : Type.                         (* iterations *)
Variables dur : Type.                         (* durations *)
(* what is registered in each container, l.216-297 *)
Inductive kind := KDist | KSteer | KPlan | KShoot | KPathVal | KProj | KConfVal | KOpt.
Variable known : kind -> name -> bool.

Inductive target := Goals (l : list config) | Task (t : task).
(* src/problem.cc and problem.hh l.290-311. The path projector holds a copy of
   the steering method of the problem at its creation. *)
Record problem := { p_init : option config; p_target : target; p_dist : name; p_steer : name;
  p_shoot : name; p_pathval : name * tol; p_proj : option (name * tol * name); p_confval : list name }.
(* path planner: builder, maxIterations, timeOut *)
Record planner := { k_name : name; k_max : num; k_time : dur }.
Record solver := { robot : bool; prob : option problem; plan : option planner; init : option config; goals : list config;
  targ : option target; t_dist : name; t_steer : name; t_plan : name; t_shoot : name; t_pathval : name * tol; t_proj : name * tol;
  t_confval : list name; t_opt : list name; max_iter : num; time_out : dur }.

(* default values of the members of ProblemSolver (l.170-201) and Problem
   (src/problem.cc l.95-106) *)
Record defaults := { d_dist_name : name; d_dist : name; d_steer : name; d_plan : name; d_shoot : name; d_pathval : name * tol; d_proj : name * tol;
  d_confval : list name; d_max : num; d_time : dur }.
Variable dft : defaults.
Definition created : solver := {| robot := false; prob := None; plan := None; init := None; goals := []; targ := Some (Goals []);
  t_dist := d_dist_name dft; t_steer := d_steer dft; t_plan := d_plan dft; t_shoot := d_shoot dft; t_pathval := d_pathval dft; t_proj := d_proj dft;
  t_confval := d_confval dft; t_opt := []; max_iter := d_max dft; time_out := d_time dft |}.
Definition new_problem : problem := {| p_init := None; p_target := Goals []; p_dist := d_dist dft; p_steer := d_steer dft; p_shoot := d_shoot dft;
  p_pathval := d_pathval dft; p_proj := None; p_confval := [] |}.

(* updates *)
Definition with_prob (s : solver) (p : problem) : solver := {| robot := robot s; prob := Some p; plan := plan s; init := init s; goals := goals s; targ := targ s;
  t_dist := t_dist s; t_steer := t_steer s; t_plan := t_plan s; t_shoot := t_shoot s; t_pathval := t_pathval s; t_proj := t_proj s; t_confval := t_confval s; t_opt := t_opt s; max_iter := max_iter s; time_out := time_out s |}.
Definition p_with_steer (p : problem) (n : name) : problem := {| p_init := p_init p; p_target := p_target p; p_dist := p_dist p; p_steer := n; p_shoot := p_shoot p; p_pathval := p_pathval p; p_proj := p_proj p; p_confval := p_confval p |}.
Definition p_with_shoot (p : problem) (n : name) : problem := {| p_init := p_init p; p_target := p_target p; p_dist := p_dist p; p_steer := p_steer p; p_shoot := n; p_pathval := p_pathval p; p_proj := p_proj p; p_confval := p_confval p |}.
Definition p_with_pathval (p : problem) (n : name * tol) : problem := {| p_init := p_init p; p_target := p_target p; p_dist := p_dist p; p_steer := p_steer p; p_shoot := p_shoot p; p_pathval := n; p_proj := p_proj p; p_confval := p_confval p |}.
Definition p_with_proj (p : problem) (n : name * tol) : problem := {| p_init := p_init p; p_target := p_target p; p_dist := p_dist p; p_steer := p_steer p; p_shoot := p_shoot p; p_pathval := p_pathval p; p_proj := Some (n, p_steer p); p_confval := p_confval p |}.
Definition p_with_confval (p : problem) (l : list name) : problem := {| p_init := p_init p; p_target := p_target p; p_dist := p_dist p; p_steer := p_steer p; p_shoot := p_shoot p; p_pathval := p_pathval p; p_proj := p_proj p; p_confval := l |}.
Definition p_with_init (p : problem) (q : option config) : problem := {| p_init := q; p_target := p_target p; p_dist := p_dist p; p_steer := p_steer p; p_shoot := p_shoot p; p_pathval := p_pathval p; p_proj := p_proj p; p_confval := p_confval p |}.
Definition p_with_target (p : problem) (t : target) : problem := {| p_init := p_init p; p_target := t; p_dist := p_dist p; p_steer := p_steer p; p_shoot := p_shoot p; p_pathval := p_pathval p; p_proj := p_proj p; p_confval := p_confval p |}.
Definition p_with_dist (p : problem) (n : name) : problem := {| p_init := p_init p; p_target := p_target p; p_dist := n; p_steer := p_steer p; p_shoot := p_shoot p; p_pathval := p_pathval p; p_proj := p_proj p; p_confval := p_confval p |}.

Definition set_dist (s : solver) (n : name) : solver := {| robot := robot s; prob := prob s; plan := plan s; init := init s; goals := goals s; targ := targ s;
  t_dist := n; t_steer := t_steer s; t_plan := t_plan s; t_shoot := t_shoot s; t_pathval := t_pathval s; t_proj := t_proj s; t_confval := t_confval s; t_opt := t_opt s; max_iter := max_iter s; time_out := time_out s |}.
Definition set_steer (s : solver) (n : name) : solver := {| robot := robot s; prob := prob s; plan := plan s; init := init s; goals := goals s; targ := targ s;
  t_dist := t_dist s; t_steer := n; t_plan := t_plan s; t_shoot := t_shoot s; t_pathval := t_pathval s; t_proj := t_proj s; t_confval := t_confval s; t_opt := t_opt s; max_iter := max_iter s; time_out := time_out s |}.
Definition set_plan (s : solver) (n : name) : solver := {| robot := robot s; prob := prob s; plan := plan s; init := init s; goals := goals s; targ := targ s;
  t_dist := t_dist s; t_steer := t_steer s; t_plan := n; t_shoot := t_shoot s; t_pathval := t_pathval s; t_proj := t_proj s; t_confval := t_confval s; t_opt := t_opt s; max_iter := max_iter s; time_out := time_out s |}.
Definition set_shoot (s : solver) (n : name) : solver := {| robot := robot s; prob := prob s; plan := plan s; init := init s; goals := goals s; targ := targ s;
  t_dist := t_dist s; t_steer := t_steer s; t_plan := t_plan s; t_shoot := n; t_pathval := t_pathval s; t_proj := t_proj s; t_confval := t_confval s; t_opt := t_opt s; max_iter := max_iter s; time_out := time_out s |}.
Definition set_pathval (s : solver) (n : name * tol) : solver := {| robot := robot s; prob := prob s; plan := plan s; init := init s; goals := goals s; targ := targ s;
  t_dist := t_dist s; t_steer := t_steer s; t_plan := t_plan s; t_shoot := t_shoot s; t_pathval := n; t_proj := t_proj s; t_confval := t_confval s; t_opt := t_opt s; max_iter := max_iter s; time_out := time_out s |}.
Definition set_proj (s : solver) (n : name * tol) : solver := {| robot := robot s; prob := prob s; plan := plan s; init := init s; goals := goals s; targ := targ s;
  t_dist := t_dist s; t_steer := t_steer s; t_plan := t_plan s; t_shoot := t_shoot s; t_pathval := t_pathval s; t_proj := n; t_confval := t_confval s; t_opt := t_opt s; max_iter := max_iter s; time_out := time_out s |}.
Definition set_confval (s : solver) (l : list name) : solver := {| robot := robot s; prob := prob s; plan := plan s; init := init s; goals := goals s; targ := targ s;
  t_dist := t_dist s; t_steer := t_steer s; t_plan := t_plan s; t_shoot := t_shoot s; t_pathval := t_pathval s; t_proj := t_proj s; t_confval := l; t_opt := t_opt s; max_iter := max_iter s; time_out := time_out s |}.
Definition set_opt (s : solver) (l : list name) : solver := {| robot := robot s; prob := prob s; plan := plan s; init := init s; goals := goals s; targ := targ s;
  t_dist := t_dist s; t_steer := t_steer s; t_plan := t_plan s; t_shoot := t_shoot s; t_pathval := t_pathval s; t_proj := t_proj s; t_confval := t_confval s; t_opt := l; max_iter := max_iter s; time_out := time_out s |}.
Definition set_goals (s : solver) (l : list config) : solver := {| robot := robot s; prob := prob s; plan := plan s; init := init s; goals := l; targ := targ s;
  t_dist := t_dist s; t_steer := t_steer s; t_plan := t_plan s; t_shoot := t_shoot s; t_pathval := t_pathval s; t_proj := t_proj s; t_confval := t_confval s; t_opt := t_opt s; max_iter := max_iter s; time_out := time_out s |}.
Definition set_init (s : solver) (q : option config) : solver := {| robot := robot s; prob := prob s; plan := plan s; init := q; goals := goals s; targ := targ s;
  t_dist := t_dist s; t_steer := t_steer s; t_plan := t_plan s; t_shoot := t_shoot s; t_pathval := t_pathval s; t_proj := t_proj s; t_confval := t_confval s; t_opt := t_opt s; max_iter := max_iter s; time_out := time_out s |}.
Definition set_targ (s : solver) (t : option target) : solver := {| robot := robot s; prob := prob s; plan := plan s; init := init s; goals := goals s; targ := t;
  t_dist := t_dist s; t_steer := t_steer s; t_plan := t_plan s; t_shoot := t_shoot s; t_pathval := t_pathval s; t_proj := t_proj s; t_confval := t_confval s; t_opt := t_opt s; max_iter := max_iter s; time_out := time_out s |}.
Definition set_planner (s : solver) (k : planner) : solver := {| robot := robot s; prob := prob s; plan := Some k; init := init s; goals := goals s; targ := targ s;
  t_dist := t_dist s; t_steer := t_steer s; t_plan := t_plan s; t_shoot := t_shoot s; t_pathval := t_pathval s; t_proj := t_proj s; t_confval := t_confval s; t_opt := t_opt s; max_iter := max_iter s; time_out := time_out s |}.
Definition set_max (s : solver) (n : num) : solver := {| robot := robot s; prob := prob s; plan := plan s; init := init s; goals := goals s; targ := targ s;
  t_dist := t_dist s; t_steer := t_steer s; t_plan := t_plan s; t_shoot := t_shoot s; t_pathval := t_pathval s; t_proj := t_proj s; t_confval := t_confval s; t_opt := t_opt s; max_iter := n; time_out := time_out s |}.
Definition set_time (s : solver) (d : dur) : solver := {| robot := robot s; prob := prob s; plan := plan s; init := init s; goals := goals s; targ := targ s;
  t_dist := t_dist s; t_steer := t_steer s; t_plan := t_plan s; t_shoot := t_shoot s; t_pathval := t_pathval s; t_proj := t_proj s; t_confval := t_confval s; t_opt := t_opt s; max_iter := max_iter s; time_out := d |}.
Definition set_robot (s : solver) : solver := {| robot := true; prob := prob s; plan := plan s; init := init s; goals := goals s; targ := targ s;
  t_dist := t_dist s; t_steer := t_steer s; t_plan := t_plan s; t_shoot := t_shoot s; t_pathval := t_pathval s; t_proj := t_proj s; t_confval := t_confval s; t_opt := t_opt s; max_iter := max_iter s; time_out := time_out s |}.

(* l.613-632: the path and configuration validations are those asked for *)
Definition reset_problem (s : solver) : solver := with_prob s (p_with_confval (p_with_pathval new_problem (t_pathval s)) (t_confval s)).

(* l.634-670. The state is also that after an exception. *)
Definition init_problem (s : solver) : solver * bool :=
  match prob s with
  | None => (s, true)
  | Some p =>
    let p1 := p_with_steer (p_with_shoot p (t_shoot s)) (t_steer s) in
    let s1 := set_planner (with_prob s p1) {| k_name := t_plan s; k_max := max_iter s; k_time := time_out s |} in
    let p2 := p_with_init (p_with_proj p1 (t_proj s)) (init s) in
    let s2 := with_prob s1 p2 in
    match targ s with
    | Some (Task t) => match goals s with
                       | [] => (with_prob s2 (p_with_target p2 (Task t)), false)
                       | _ => (s2, true)
                       end
    | _ => (set_targ (with_prob s2 (p_with_target p2 (Goals (goals s)))) (Some (Goals (goals s))), false)
    end
  end.

Inductive op :=
  | SetRobot | ResetProblem | InitProblem
  | DistanceType (n : name) | SteeringType (n : name) | PlannerType (n : name) | ShooterType (n : name)
  | ValidationType (n : name) (t : tol) | ProjectorType (n : name) (t : tol)
  | AddConfigValidation (n : name) | ClearConfigValidations
  | AddOptimizer (n : name) | ClearOptimizers
  | InitConfig (q : config) | AddGoal (q : config) | ResetGoals
  | SetGoalTask (t : task) | ResetGoalTask
  | MaxIterations (n : num) | TimeOut (d : dur).

(* One call: the state afterwards and whether an exception is thrown; None is
   undefined behaviour (null pointer). *)
Definition step (s : solver) (o : op) : option (solver * bool) :=
  match o with
  (* l.462-474 *)
  | SetRobot => Some (reset_problem (set_robot s), false)
  (* l.613-615; Problem::create with a null robot *)
  | ResetProblem => if robot s then Some (reset_problem s, false) else None
  | InitProblem => Some (init_problem s)
  (* l.300-308: the distance of the problem is not set *)
  | DistanceType n => if known KDist n then Some (set_dist s n, false) else Some (s, true)
  (* l.310-317 *)
  | SteeringType n => if known KSteer n then
      let s1 := set_steer s n in
      match prob s with Some p => Some (with_prob s1 (p_with_steer p n), false) | None => Some (s1, false) end
      else Some (s, true)
  (* l.319-324 *)
  | PlannerType n => if known KPlan n then Some (set_plan s n, false) else Some (s, true)
  (* l.326-336 *)
  | ShooterType n => if known KShoot n then
      let s1 := set_shoot s n in
      match prob s with Some p => Some (if robot s then with_prob s1 (p_with_shoot p n) else s1, false) | None => Some (s1, false) end
      else Some (s, true)
  (* l.360-373 *)
  | ValidationType n t => if known KPathVal n then
      let s1 := set_pathval s (n, t) in
      match prob s with Some p => Some (if robot s then with_prob s1 (p_with_pathval p (n, t)) else s1, false) | None => Some (s1, false) end
      else Some (s, true)
  (* l.415-428 *)
  | ProjectorType n t => if known KProj n then
      let s1 := set_proj s (n, t) in
      match prob s with Some p => Some (if robot s then with_prob s1 (p_with_proj p (n, t)) else s1, false) | None => Some (s1, false) end
      else Some (s, true)
  (* l.435-447: the name is kept even if the problem is not defined *)
  | AddConfigValidation n => if known KConfVal n then
      let s1 := set_confval s (t_confval s ++ [n]) in
      match prob s with
      | Some p => if robot s then Some (with_prob s1 (p_with_confval p (t_confval s ++ [n])), false) else Some (s1, true)
      | None => Some (s1, true)
      end
      else Some (s, true)
  (* l.449-452 *)
  | ClearConfigValidations => match prob s with Some p => Some (with_prob (set_confval s []) (p_with_confval p []), false) | None => None end
  (* l.338-349 *)
  | AddOptimizer n => if known KOpt n then Some (set_opt s (t_opt s ++ [n]), false) else Some (s, true)
  | ClearOptimizers => Some (set_opt s [], false)
  (* l.478-488 *)
  | InitConfig q => Some (set_init s (Some q), false)
  | AddGoal q => Some (set_goals s (goals s ++ [q]), false)
  | ResetGoals => Some (set_goals s [], false)
  (* l.490-507 *)
  | SetGoalTask t => match prob s with Some _ => Some (set_targ s (Some (Task t)), false) | None => None end
  | ResetGoalTask => Some (set_targ s None, false)
  (* l.600-603 *)
  | MaxIterations n => let s1 := set_max s n in
      Some (match plan s with Some k => set_planner s1 {| k_name := k_name k; k_max := n; k_time := k_time k |} | None => s1 end, false)
  (* problem-solver.hh l.287-289 *)
  | TimeOut d => Some (set_time s d, false)
  end.
(* l.689-693, protected, called by no method of the library *)
Definition init_distance (s : solver) : solver * bool :=
  match prob s with
  | None => (s, true)
  | Some p => if known KDist (t_dist s) then (with_prob s (p_with_dist p (t_dist s)), false) else (s, true)
  end.

Fixpoint run (s : solver) (l : list op) : option solver :=
  match l with
  | [] => Some s
  | o :: l' => match step s o with Some (s', _) => run s' l' | None => None end
  end.
End Solver.
