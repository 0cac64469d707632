(* Obstacles in hpp::core::ProblemSolver: the registry of named obstacles, the
   lists of collision and distance obstacles, and what the problem of the
   solver gives to its validations.

   A collision object is a pair (m, i): the obstacle geometry model it refers
   to (ProblemSolver::robot makes a new one) and its index in this model. A
   validation is the list of the objects it has been given, None when it does
   not use obstacles.

   Simplifications: names are numbers; geometries, poses and frames are left
   out; the solver has the only pointer to its problem; validation types are
   represented by whether they use obstacles. *)
From Verif Require Import Base.

Definition obj := (nat * nat)%type.
Definition ousers := option (list obj).

Record sproblem := mkSP {
  spObs : list obj;         (* Problem::collisionObstacles_ *)
  spPV : ousers;            (* pathValidation_ *)
  spCV : list ousers }.     (* configValidations_ *)
Record solver := mkS {
  cur : nat;                (* obstacleModel_ *)
  geoms : nat -> list nat;  (* names of the geometries of each model *)
  colO : list obj;          (* collisionObstacles_ *)
  disO : list obj;          (* distanceObstacles_ *)
  robot : bool;             (* robot_ is set *)
  prob : option sproblem;   (* problem_ *)
  dbo : ousers;             (* distanceBetweenObjects_ *)
  pvT : bool;               (* pathValidationType_ *)
  cvT : list bool }.        (* configValidationTypes_ *)

(* ProblemSolver::ProblemSolver, src/problem-solver.cc:167-296 *)
Definition solver0 : solver :=
  mkS 0 (fun _ => []) [] [] false None None true [true; false].

Definition sknow (o : obj) (u : ousers) : ousers :=
  match u with None => None | Some l => Some (l ++ [o]) end.
Definition fresh (uses : bool) : ousers := if uses then Some [] else None.

(* Problem::addObstacle, src/problem.cc:192-203 *)
Definition sp_add (p : sproblem) (o : obj) : sproblem :=
  mkSP (spObs p ++ [o]) (sknow o (spPV p)) (map (sknow o) (spCV p)).
(* Problem::collisionObstacles(l), problem.cc:181-188 *)
Definition sp_set (p : sproblem) (l : list obj) : sproblem :=
  fold_left sp_add l (mkSP [] (spPV p) (spCV p)).

Definition with_prob (s : solver) (p : sproblem) : solver :=
  mkS (cur s) (geoms s) (colO s) (disO s) (robot s) (Some p) (dbo s) (pvT s) (cvT s).

(* setObstaclesToPathValidation and initPathValidation,
   problem-solver.cc:376-395, on the current problem *)
Definition init_pv (s : solver) (p : sproblem) : sproblem :=
  mkSP (spObs p) (fold_left (fun u o => sknow o u) (spObs p) (fresh (pvT s))) (spCV p).
(* initConfigValidation, problem-solver.cc:397-407 *)
Definition init_cv (s : solver) (p : sproblem) : sproblem :=
  mkSP (spObs p) (spPV p) (map fresh (cvT s)).
(* resetProblem and initializeProblem, problem-solver.cc:612-631, with a
   robot; Problem::create gives a discretized collision checking and no
   configuration validation *)
Definition reset_problem (s : solver) : solver :=
  mkS (cur s) (geoms s) (colO s) (disO s) (robot s)
      (Some (sp_set (init_cv s (init_pv s (mkSP [] (Some []) []))) (colO s)))
      (Some (disO s)) (pvT s) (cvT s).

(* ProblemSolver::robot(robot), problem-solver.cc:464-475 *)
Definition set_robot (s : solver) : solver :=
  reset_problem
    (mkS (S (cur s)) (upd (geoms s) (S (cur s)) []) (colO s) (disO s) true (prob s) (dbo s) (pvT s) (cvT s)).

Fixpoint index_of (n : nat) (l : list nat) : option nat :=
  match l with
  | [] => None
  | m :: l' => if Nat.eqb m n then Some 0 else option_map S (index_of n l')
  end.
Fixpoint remove_nth (i : nat) (l : list nat) : list nat :=
  match l, i with
  | [], _ => []
  | _ :: l', O => l'
  | x :: l', S i' => x :: remove_nth i' l'
  end.

(* ProblemSolver::addObstacle, problem-solver.cc:863-901. The boolean tells
   that an exception was thrown: by the name test, or by resetRoadmap when
   there is no problem, after the obstacle has been registered. *)
Definition add_obstacle (s : solver) (n : nat) (collision distance : bool) : solver * bool :=
  let names := geoms s (cur s) in
  if mem n names then (s, true)
  else
    let o := (cur s, length names) in
    let g := upd (geoms s) (cur s) (names ++ [n]) in
    let col := if collision then colO s ++ [o] else colO s in
    match collision, prob s with
    | true, None =>
      (mkS (cur s) g col (disO s) (robot s) (prob s) (dbo s) (pvT s) (cvT s), true)
    | _, _ =>
      (mkS (cur s) g col (if distance then disO s ++ [o] else disO s) (robot s)
           (match prob s with Some p => Some (sp_add p o) | None => None end)
           (sknow o (dbo s)) (pvT s) (cvT s), false)
    end.

(* remove(vector, i), problem-solver.cc:111-116: erase the first object whose
   index is i *)
Fixpoint erase_index (i : nat) (l : list obj) : list obj :=
  match l with
  | [] => []
  | o :: l' => if Nat.eqb (snd o) i then l' else o :: erase_index i l'
  end.
(* problem-solver.cc:957-968: renumber *)
Definition renumber (g i : nat) (l : list obj) : list obj :=
  map (fun o => if Nat.ltb i (snd o) then (g, snd o - 1) else o) l.
(* ProblemSolver::removeObstacle, problem-solver.cc:944-971. Without a robot,
   Problem::create dereferences a null pointer. *)
Definition remove_obstacle (s : solver) (n : nat) : res (solver * bool) :=
  match index_of n (geoms s (cur s)) with
  | None => Ok (s, true)
  | Some i =>
    if robot s then
      Ok (reset_problem
           (mkS (cur s) (upd (geoms s) (cur s) (remove_nth i (geoms s (cur s))))
                (renumber (cur s) i (erase_index i (colO s)))
                (renumber (cur s) i (erase_index i (disO s)))
                (robot s) (prob s) (dbo s) (pvT s) (cvT s)), false)
    else UB
  end.

Inductive sop :=
| SRobot
| SAdd (n : nat) (collision distance : bool)
| SRemove (n : nat)
| SPathValidation (uses : bool)   (* pathValidationType, problem-solver.cc:360-373 *)
| SAddConfigValidation (uses : bool) (* addConfigValidation, problem-solver.cc:435-447 *)
| SClearConfigValidations         (* clearConfigValidations, problem-solver.cc:449-452 *)
| SInitValidations                (* initValidations, problem-solver.cc:409-413 *)
| SResetProblem.                  (* resetProblem *)
Definition s_step (s : solver) (o : sop) : res (solver * bool) :=
  match o with
  | SRobot => Ok (set_robot s, false)
  | SAdd n c d => Ok (add_obstacle s n c d)
  | SRemove n => remove_obstacle s n
  | SPathValidation b =>
    let s1 := mkS (cur s) (geoms s) (colO s) (disO s) (robot s) (prob s) (dbo s) b (cvT s) in
    match prob s1 with
    | Some p => if robot s1 then Ok (with_prob s1 (init_pv s1 p), false) else Ok (s1, false)
    | None => Ok (s1, false)
    end
  | SAddConfigValidation b =>
    let s1 := mkS (cur s) (geoms s) (colO s) (disO s) (robot s) (prob s) (dbo s) (pvT s) (cvT s ++ [b]) in
    match prob s1 with
    | Some p => if robot s1 then Ok (with_prob s1 (sp_set (init_cv s1 p) (colO s1)), false) else Ok (s1, true)
    | None => Ok (s1, true)
    end
  | SClearConfigValidations =>
    match prob s with
    | None => UB
    | Some p => Ok (mkS (cur s) (geoms s) (colO s) (disO s) (robot s) (Some (mkSP (spObs p) (spPV p) []))
                        (dbo s) (pvT s) [], false)
    end
  | SInitValidations =>
    match prob s with
    | Some p => if robot s then Ok (with_prob s (sp_set (init_cv s (init_pv s p)) (colO s)), false)
                else Ok (with_prob s (init_pv s p), true)
    | None => Ok (s, true)
    end
  | SResetProblem => if robot s then Ok (reset_problem s, false) else UB
  end.
(* the caller catches the exceptions *)
Fixpoint s_run (s : solver) (l : list sop) : res solver :=
  match l with
  | [] => Ok s
  | o :: l' => bind (s_step s o) (fun x => s_run (fst x) l')
  end.

(* CollisionObject::name *)
Definition oname (s : solver) (o : obj) : option nat := nth_error (geoms s (fst o)) (snd o).
(* ProblemSolver::obstacleNames(true, false) and (false, true),
   problem-solver.cc:1034-1050 *)
Definition collision_names (s : solver) : list (option nat) := map (oname s) (colO s).
Definition distance_names (s : solver) : list (option nat) := map (oname s) (disO s).
