(* hpp::core::Problem: its content, its copies, its obstacles, checkProblem.

   Objects designated by shared pointers which several problems may share
   (the path validation and the configuration validations) live in a store
   and are designated by numbers. A validation is represented by the list of
   obstacles it has been given, or None when it does not use obstacles.

   Simplifications: the other components (distance, steering method,
   constraints, shooter, projector) are names, [Default] being what
   Problem::init builds; a steering method is not shared by two problems;
   what a validation does with an obstacle is in ObstacleModel. The robot of
   a problem is not null, except in checkProblem. *)
From Verif Require Import Base.

Inductive part := Default | User (n : nat).
Definition users := option (list nat). (* obstacles known by a validation *)

Record problem (C : Type) := mkPb {
  pInit : option C;             (* initConf_, None when its size is 0 *)
  pGoals : option (list C);     (* target_: Some for GoalConfigurations *)
  pObs : list nat;              (* collisionObstacles_ *)
  pPV : nat;                    (* pathValidation_ *)
  pCV : nat;                    (* configValidations_ *)
  pConstr : option part;        (* constraints_ *)
  pSM : part;                   (* steeringMethod_ *)
  pSMConstr : option part;      (* steeringMethod_->constraints() *)
  pDist : part;                 (* distance_ *)
  pShoot : part;                (* configurationShooter_ *)
  pProj : option part;          (* pathProjector_ *)
  pPars : list (nat * nat) }.   (* parameters *)
Arguments mkPb {C}. Arguments pInit {C}. Arguments pGoals {C}. Arguments pObs {C}.
Arguments pPV {C}. Arguments pCV {C}. Arguments pConstr {C}. Arguments pSM {C}.
Arguments pSMConstr {C}. Arguments pDist {C}. Arguments pShoot {C}. Arguments pProj {C}.
Arguments pPars {C}.

Record world (C : Type) := mkWorld {
  pvs : nat -> users;           (* path validations *)
  npv : nat;
  cvs : nat -> list users;      (* ConfigValidations: the validations inside *)
  ncv : nat;
  pbs : nat -> option (problem C);
  npb : nat }.
Arguments mkWorld {C}. Arguments pvs {C}. Arguments npv {C}. Arguments cvs {C}.
Arguments ncv {C}. Arguments pbs {C}. Arguments npb {C}.

Section Problem.
Context {C : Type}.
Notation pbt := (problem C).
Notation wd := (world C).

Definition world0 : wd := mkWorld (fun _ => None) 0 (fun _ => []) 0 (fun _ => None) 0.

(* ObstacleUserInterface::addObstacle on a validation, through a dynamic
   cast: nothing when it does not use obstacles *)
Definition know (o : nat) (u : users) : users :=
  match u with None => None | Some l => Some (l ++ [o]) end.

(* Problem::constraints(c), include/hpp/core/problem.hh:187-190 *)
Definition set_constraints (p : pbt) (c : option part) : pbt :=
  mkPb (pInit p) (pGoals p) (pObs p) (pPV p) (pCV p) c (pSM p) c
       (pDist p) (pShoot p) (pProj p) (pPars p).
(* Problem::steeringMethod(sm), problem.hh:113-116; c0: the constraints the
   steering method had *)
Definition set_sm (p : pbt) (sm : part) (c0 : option part) : pbt :=
  mkPb (pInit p) (pGoals p) (pObs p) (pPV p) (pCV p) (pConstr p) sm
       (match pConstr p with Some c => Some c | None => c0 end)
       (pDist p) (pShoot p) (pProj p) (pPars p).
(* Problem::init, src/problem.cc:96-106; v: the new discretized collision
   checking *)
Definition init_pb (p : pbt) (v : nat) : pbt :=
  set_constraints
    (mkPb (pInit p) (Some []) (pObs p) v (pCV p) (pConstr p) Default None
          Default Default (pProj p) (pPars p))
    (Some Default).

(* Problem::create, problem.cc:78-82,91-92. The fields which the constructor
   leaves out are default initialised. *)
Definition create (w : wd) : wd * nat :=
  (mkWorld (upd (pvs w) (npv w) (Some [])) (S (npv w))
           (upd (cvs w) (ncv w) []) (S (ncv w))
           (upd (pbs w) (npb w)
             (Some (init_pb (mkPb None None [] 0 (ncv w) None Default None Default Default None []) (npv w))))
           (S (npb w)), npb w).
(* Problem::createCopy, problem.cc:84-88, and the default copy constructor,
   problem.hh:283 *)
Definition createCopy (w : wd) (p : pbt) : wd * nat :=
  (mkWorld (upd (pvs w) (npv w) (Some [])) (S (npv w)) (cvs w) (ncv w)
           (upd (pbs w) (npb w) (Some (init_pb p (npv w)))) (S (npb w)), npb w).

Definition put (w : wd) (i : nat) (p : pbt) : wd :=
  mkWorld (pvs w) (npv w) (cvs w) (ncv w) (upd (pbs w) i (Some p)) (npb w).

Definition set_obs (p : pbt) (l : list nat) : pbt :=
  mkPb (pInit p) (pGoals p) l (pPV p) (pCV p) (pConstr p) (pSM p) (pSMConstr p)
       (pDist p) (pShoot p) (pProj p) (pPars p).
Definition set_goals (p : pbt) (g : option (list C)) : pbt :=
  mkPb (pInit p) g (pObs p) (pPV p) (pCV p) (pConstr p) (pSM p) (pSMConstr p)
       (pDist p) (pShoot p) (pProj p) (pPars p).
Definition set_pv (p : pbt) (v : nat) : pbt :=
  mkPb (pInit p) (pGoals p) (pObs p) v (pCV p) (pConstr p) (pSM p) (pSMConstr p)
       (pDist p) (pShoot p) (pProj p) (pPars p).
Definition set_init (p : pbt) (q : option C) : pbt :=
  mkPb q (pGoals p) (pObs p) (pPV p) (pCV p) (pConstr p) (pSM p) (pSMConstr p)
       (pDist p) (pShoot p) (pProj p) (pPars p).

(* Problem::addObstacle, problem.cc:192-203, on problem i *)
Definition add_obstacle (w : wd) (i : nat) (o : nat) : wd :=
  match pbs w i with
  | None => w
  | Some p =>
    mkWorld (upd (pvs w) (pPV p) (know o (pvs w (pPV p)))) (npv w)
            (upd (cvs w) (pCV p) (map (know o) (cvs w (pCV p)))) (ncv w)
            (upd (pbs w) i (Some (set_obs p (pObs p ++ [o])))) (npb w)
  end.
(* Problem::collisionObstacles(l), problem.cc:181-188 *)
Definition set_obstacles (w : wd) (i : nat) (l : list nat) : wd :=
  match pbs w i with
  | None => w
  | Some p => fold_left (fun w o => add_obstacle w i o) l (put w i (set_obs p []))
  end.

(* Problem::goalConfigs, problem.cc:132-139 *)
Definition goalConfigs (p : pbt) : list C :=
  match pGoals p with Some l => l | None => [] end.

Inductive wop :=
| WCreate                                  (* Problem::create *)
| WCopy (i : nat)                          (* Problem::createCopy *)
| WInit (i : nat) (q : C)                  (* initConfig, problem.cc:128 *)
| WAddGoal (i : nat) (q : C)               (* addGoalConfig, problem.cc:143-153 *)
| WResetGoals (i : nat)                    (* resetGoalConfigs, problem.cc:157-167 *)
| WTask (i : nat)                          (* target(t), t not GoalConfigurations, problem.hh:85 *)
| WAddObstacle (i : nat) (o : nat)
| WObstacles (i : nat) (l : list nat)
| WNewPV (uses : bool)                     (* a path validation is built *)
| WSetPV (i : nat) (v : nat)               (* pathValidation(v), problem.cc:248-250 *)
| WAddCV (i : nat) (uses : bool)           (* addConfigValidation of a new validation, problem.cc:254-257 *)
| WClearCV (i : nat)                       (* clearConfigValidations, problem.cc:171 *)
| WConstraints (i : nat) (c : option part)
| WSteering (i : nat) (sm : part) (c0 : option part).

Definition on (w : wd) (i : nat) (f : pbt -> pbt) : wd :=
  match pbs w i with None => w | Some p => put w i (f p) end.
Definition w_step (w : wd) (o : wop) : wd :=
  match o with
  | WCreate => fst (create w)
  | WCopy i => match pbs w i with None => w | Some p => fst (createCopy w p) end
  | WInit i q => on w i (fun p => set_init p (Some q))
  | WAddGoal i q =>
    on w i (fun p => set_goals p (Some (match pGoals p with Some l => l ++ [q] | None => [q] end)))
  | WResetGoals i => on w i (fun p => set_goals p (Some []))
  | WTask i => on w i (fun p => set_goals p None)
  | WAddObstacle i o => add_obstacle w i o
  | WObstacles i l => set_obstacles w i l
  | WNewPV uses =>
    mkWorld (upd (pvs w) (npv w) (if uses then Some [] else None)) (S (npv w)) (cvs w) (ncv w) (pbs w) (npb w)
  | WSetPV i v => on w i (fun p => set_pv p v)
  | WAddCV i uses =>
    match pbs w i with
    | None => w
    | Some p => mkWorld (pvs w) (npv w)
        (upd (cvs w) (pCV p) (cvs w (pCV p) ++ [if uses then Some [] else None])) (ncv w) (pbs w) (npb w)
    end
  | WClearCV i =>
    match pbs w i with
    | None => w
    | Some p => mkWorld (pvs w) (npv w) (upd (cvs w) (pCV p) []) (ncv w) (pbs w) (npb w)
    end
  | WConstraints i c => on w i (fun p => set_constraints p c)
  | WSteering i sm c0 => on w i (fun p => set_sm p sm c0)
  end.
Definition w_run (l : list wop) : wd := fold_left w_step l world0.

(* Problem::checkProblem, problem.cc:268-318. validate and satisfied are the
   answers of configValidations_ and constraints_, None when the pointer is
   null; goals is None when the target is not GoalConfigurations. *)
Fixpoint check_goals (validate satisfied : C -> bool) (goals : list C) : res unit :=
  match goals with
  | [] => Ok tt
  | q :: l =>
    if negb (validate q) then Throw
    else if negb (satisfied q) then Throw
    else check_goals validate satisfied l
  end.
Definition checkProblem (robot : bool) (init : option C) (validate satisfied : option (C -> bool))
    (goals : option (list C)) : res unit :=
  if negb robot then Throw
  else match init with
  | None => Throw
  | Some q =>
    match validate with
    | None => UB
    | Some v =>
      if negb (v q) then Throw
      else match satisfied with
      | None => UB
      | Some s =>
        if negb (s q) then Throw
        else match goals with
        | None => Ok tt
        | Some l => check_goals v s l
        end
      end
    end
  end.
End Problem.
Arguments wop : clear implicits.
Arguments world0 {C}.
