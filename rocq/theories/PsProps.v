(* C97: what is asked of the problem solver is what the problem uses. *)
From Coq Require Import List Bool String.
From Verif Require Import Base PsModel.
Import ListNotations.

Section Props.
Variables name tol config task num dur : Type.
Variable known : kind -> name -> bool.
Variable dft : defaults name tol num dur.
Notation op := (op name tol config task num dur).
Notation solver := (solver name tol config task num dur).
Notation run := (run name tol config task num dur known dft).
Notation step := (step name tol config task num dur known dft).
Notation created := (created name tol config task num dur dft).
Notation init_problem := (init_problem name tol config task num dur).
Notation prob := (prob name tol config task num dur).
Notation plan := (plan name tol config task num dur).
Notation init := (init name tol config task num dur).
Notation goals := (goals name tol config task num dur).
Notation targ := (targ name tol config task num dur).

(* ---------------------------------------------------------- specification *)
(* the last value given by a sequence of calls, [d] if none *)
Definition latest {A} (sel : op -> option A) (d : A) (l : list op) : A :=
  fold_left (fun a o => match sel o with Some x => x | None => a end) l d.
Definition steering_asked (o : op) : option name := match o with SteeringType _ _ _ _ _ _ n => if known KSteer n then Some n else None | _ => None end.
Definition planner_asked (o : op) : option name := match o with PlannerType _ _ _ _ _ _ n => if known KPlan n then Some n else None | _ => None end.
Definition shooter_asked (o : op) : option name := match o with ShooterType _ _ _ _ _ _ n => if known KShoot n then Some n else None | _ => None end.
Definition validation_asked (o : op) : option (name * tol) := match o with ValidationType _ _ _ _ _ _ n t => if known KPathVal n then Some (n, t) else None | _ => None end.
Definition projector_asked (o : op) : option (name * tol) := match o with ProjectorType _ _ _ _ _ _ n t => if known KProj n then Some (n, t) else None | _ => None end.
Definition init_asked (o : op) : option (option config) := match o with InitConfig _ _ _ _ _ _ q => Some (Some q) | _ => None end.
Definition task_asked (o : op) : option (option task) := match o with SetGoalTask _ _ _ _ _ _ t => Some (Some t) | ResetGoalTask _ _ _ _ _ _ => Some None | _ => None end.
Definition iterations_asked (o : op) : option num := match o with MaxIterations _ _ _ _ _ _ n => Some n | _ => None end.
Definition time_asked (o : op) : option dur := match o with TimeOut _ _ _ _ _ _ d => Some d | _ => None end.
(* what has been added since the last clearing *)
Definition collected {A} (add : op -> option A) (clear : op -> bool) (d : list A) (l : list op) : list A :=
  fold_left (fun a o => if clear o then [] else match add o with Some x => a ++ [x] | None => a end) l d.
Definition goal_added (o : op) : option config := match o with AddGoal _ _ _ _ _ _ q => Some q | _ => None end.
Definition goals_cleared (o : op) : bool := match o with ResetGoals _ _ _ _ _ _ => true | _ => false end.
Definition confval_added (o : op) : option name := match o with AddConfigValidation _ _ _ _ _ _ n => if known KConfVal n then Some n else None | _ => None end.
Definition confval_cleared (o : op) : bool := match o with ClearConfigValidations _ _ _ _ _ _ => true | _ => false end.
Definition opt_added (o : op) : option name := match o with AddOptimizer _ _ _ _ _ _ n => if known KOpt n then Some n else None | _ => None end.
Definition opt_cleared (o : op) : bool := match o with ClearOptimizers _ _ _ _ _ _ => true | _ => false end.
Definition robot_given (l : list op) : Prop := In (SetRobot _ _ _ _ _ _) l.

(* --------------------------------------------------------------- invariants *)
Ltac cases E := repeat match type of E with
  | context [known ?k ?n] => destruct (known k n) eqn:?
  | context [match prob ?s with _ => _ end] => destruct (prob s) eqn:?
  | context [match plan ?s with _ => _ end] => destruct (plan s) eqn:?
  | context [if PsModel.robot _ _ _ _ _ _ ?s then _ else _] => destruct (PsModel.robot _ _ _ _ _ _ s) eqn:?
  | context [match targ ?s with _ => _ end] => destruct (targ s) as [[]|] eqn:?
  | context [match goals ?s with _ => _ end] => destruct (goals s) eqn:?
  end; try discriminate E.
Lemma field_latest {A} (f : solver -> A) sel : (forall s o s' b, step s o = Some (s', b) -> f s' = match sel o with Some x => x | None => f s end) ->
  forall l s s', run s l = Some s' -> f s' = latest sel (f s) l.
Proof.
  intros H l. induction l as [|o l IH]; intros s s' E; cbn [PsModel.run] in E; [injection E as <-; reflexivity|].
  destruct (step s o) as [[s1 b]|] eqn:S; [|discriminate]. rewrite (IH _ _ E). unfold latest. cbn [fold_left]. rewrite (H _ _ _ _ S). reflexivity.
Qed.
Lemma field_collected {A} (f : solver -> list A) add clear : (forall s o s' b, step s o = Some (s', b) -> f s' = if clear o : bool then [] else match add o with Some x => f s ++ [x] | None => f s end) ->
  forall l s s', run s l = Some s' -> f s' = collected add clear (f s) l.
Proof.
  intros H l. induction l as [|o l IH]; intros s s' E; cbn [PsModel.run] in E; [injection E as <-; reflexivity|].
  destruct (step s o) as [[s1 b]|] eqn:S; [|discriminate]. rewrite (IH _ _ E). unfold collected. cbn [fold_left]. rewrite (H _ _ _ _ S). reflexivity.
Qed.
Ltac solve_field := clear; let s := fresh "s" in let o := fresh "o" in let t := fresh "t" in let b := fresh "b" in let E := fresh "E" in
  intros s o t b E; destruct o; cbn in *; unfold PsModel.init_problem in *; cases E;
  injection E as <- <-; cbn; repeat match goal with H : known _ _ = _ |- _ => rewrite H end; cbn; try congruence;
  repeat match goal with H : targ _ = _ |- _ => rewrite H end; try reflexivity; auto.

Definition task_of (t : option (target config task)) : option task := match t with Some (Task _ _ t) => Some t | _ => None end.
Definition consistent (s : solver) : Prop := forall p, prob s = Some p ->
  PsModel.robot _ _ _ _ _ _ s = true /\ p_pathval _ _ _ _ p = PsModel.t_pathval _ _ _ _ _ _ s /\ p_confval _ _ _ _ p = PsModel.t_confval _ _ _ _ _ _ s /\ p_dist _ _ _ _ p = d_dist _ _ _ _ dft.
Lemma consistent_step s o s' b : consistent s -> step s o = Some (s', b) -> consistent s'.
Proof.
  unfold consistent. intros C E. destruct o; cbn in E; unfold PsModel.init_problem in E; cases E; injection E as <- <-;
    intros q0 Eq; cbn in Eq; try (injection Eq as <-); cbn;
    try (match type of C with forall p, Some ?r = Some p -> _ => destruct (C r eq_refl) as [C1 [C2 [C3 C4]]]; repeat split; congruence end);
    try (destruct (C _ Eq) as [C1 [C2 [C3 C4]]]; repeat split; congruence);
    try discriminate Eq; repeat split; auto; congruence.
Qed.
Lemma consistent_run l : forall s s', consistent s -> run s l = Some s' -> consistent s'.
Proof.
  induction l as [|o l IH]; intros s s' C E; cbn [PsModel.run] in E; [injection E as <-; exact C|].
  destruct (step s o) as [[s1 b]|] eqn:S; [|discriminate]. exact (IH _ _ (consistent_step _ _ _ _ C S) E).
Qed.
Lemma consistent_created : consistent created.
Proof. intros p E. discriminate E. Qed.
Lemma prob_robot l : forall s s', run s l = Some s' -> (PsModel.robot _ _ _ _ _ _ s = true <-> prob s <> None) -> (prob s' <> None <-> prob s <> None \/ robot_given l).
Proof.
  induction l as [|o l IH]; intros s s' E R; cbn [PsModel.run] in E; [injection E as <-; unfold robot_given; cbn; tauto|].
  destruct (step s o) as [[s1 b]|] eqn:S; [|discriminate].
  assert (P : (PsModel.robot _ _ _ _ _ _ s1 = true <-> prob s1 <> None) /\ (prob s1 <> None <-> prob s <> None \/ o = SetRobot _ _ _ _ _ _)).
  { destruct o; cbn in S; unfold PsModel.init_problem in S; cases S; injection S as <- <-; cbn; rewrite ?Heqo, ?Heqb0, ?Heqb1, ?Heqo0; cbn;
      try (match goal with H : prob s = _ |- _ => rewrite ?H in * end); try (rewrite R); try (split; split; intros; try tauto; try congruence; intuition congruence). }
  destruct P as [P1 P2]. rewrite (IH _ _ E P1), P2. unfold robot_given. cbn [In]. intuition congruence.
Qed.

(* --------------------------------------------------------------- theorems *)
(* Solving a problem uses the last values asked for, whatever the order and
   the number of the calls before. *)
Theorem C97_settings l s s' : run created l = Some s -> init_problem s = (s', false) ->
  exists p k, prob s' = Some p /\ plan s' = Some k /\
    let steering := latest steering_asked (d_steer _ _ _ _ dft) l in
    p_init _ _ _ _ p = latest init_asked None l /\
    p_target _ _ _ _ p = match latest task_asked None l with Some t => Task _ _ t | None => Goals _ _ (collected goal_added goals_cleared [] l) end /\
    p_steer _ _ _ _ p = steering /\
    p_shoot _ _ _ _ p = latest shooter_asked (d_shoot _ _ _ _ dft) l /\
    p_pathval _ _ _ _ p = latest validation_asked (d_pathval _ _ _ _ dft) l /\
    p_proj _ _ _ _ p = Some (latest projector_asked (d_proj _ _ _ _ dft) l, steering) /\
    p_confval _ _ _ _ p = collected confval_added confval_cleared (d_confval _ _ _ _ dft) l /\
    k_name _ _ _ k = latest planner_asked (d_plan _ _ _ _ dft) l /\
    k_max _ _ _ k = latest iterations_asked (d_max _ _ _ _ dft) l /\
    k_time _ _ _ k = latest time_asked (d_time _ _ _ _ dft) l /\
    PsModel.t_opt _ _ _ _ _ _ s' = collected opt_added opt_cleared [] l.
Proof.
  intros E I.
  pose proof (field_latest (PsModel.t_steer _ _ _ _ _ _) steering_asked ltac:(solve_field) _ _ _ E) as F1.
  pose proof (field_latest (PsModel.t_plan _ _ _ _ _ _) planner_asked ltac:(solve_field) _ _ _ E) as F2.
  pose proof (field_latest (PsModel.t_shoot _ _ _ _ _ _) shooter_asked ltac:(solve_field) _ _ _ E) as F3.
  pose proof (field_latest (PsModel.t_pathval _ _ _ _ _ _) validation_asked ltac:(solve_field) _ _ _ E) as F4.
  pose proof (field_latest (PsModel.t_proj _ _ _ _ _ _) projector_asked ltac:(solve_field) _ _ _ E) as F5.
  pose proof (field_latest init init_asked ltac:(solve_field) _ _ _ E) as F6.
  pose proof (field_latest (fun s => task_of (targ s)) task_asked ltac:(solve_field) _ _ _ E) as F7.
  pose proof (field_latest (PsModel.max_iter _ _ _ _ _ _) iterations_asked ltac:(solve_field) _ _ _ E) as F8.
  pose proof (field_latest (PsModel.time_out _ _ _ _ _ _) time_asked ltac:(solve_field) _ _ _ E) as F9.
  pose proof (field_collected goals goal_added goals_cleared ltac:(solve_field) _ _ _ E) as G1.
  pose proof (field_collected (PsModel.t_confval _ _ _ _ _ _) confval_added confval_cleared ltac:(solve_field) _ _ _ E) as G2.
  pose proof (field_collected (PsModel.t_opt _ _ _ _ _ _) opt_added opt_cleared ltac:(solve_field) _ _ _ E) as G3.
  cbn [PsModel.created t_steer t_plan t_shoot t_pathval t_proj PsModel.init PsModel.targ PsModel.max_iter PsModel.time_out PsModel.goals t_confval t_opt task_of] in *.
  pose proof (consistent_run _ _ _ consistent_created E) as C. unfold PsModel.init_problem in I. destruct (prob s) as [p|] eqn:P; [|discriminate].
  destruct (C p P) as [_ [C2 [C3 _]]].
  rewrite <- F1, <- F2, <- F3, <- F4, <- F5, <- F6, <- F7, <- F8, <- F9, <- G1, <- G2, <- G3. rewrite <- C2, <- C3. clear F1 F2 F3 F4 F5 F6 F7 F8 F9 G1 G2 G3.
  destruct (targ s) as [[gl|t]|] eqn:T; [| destruct (goals s) eqn:G; [|discriminate] |]; injection I as <-;
    do 2 eexists; (split; [reflexivity|]); (split; [reflexivity|]); cbn; repeat split.
Qed.
(* It is refused exactly when no robot was given, or a task and goal
   configurations both define the goal. *)
Theorem C97_refused l s : run created l = Some s ->
  (snd (init_problem s) = true <-> ~ robot_given l \/ (latest task_asked None l <> None /\ collected goal_added goals_cleared [] l <> [])).
Proof.
  intros E. pose proof (prob_robot l _ _ E) as R. cbn [PsModel.created PsModel.robot PsModel.prob] in R.
  pose proof (field_latest (fun s => task_of (targ s)) task_asked ltac:(solve_field) _ _ _ E) as F7.
  pose proof (field_collected goals goal_added goals_cleared ltac:(solve_field) _ _ _ E) as G1.
  cbn [PsModel.created PsModel.targ PsModel.goals task_of] in *. rewrite <- F7, <- G1. clear F7 G1. unfold PsModel.init_problem.
  assert (R' : prob s <> None <-> robot_given l) by (rewrite R; [intuition congruence | intuition congruence]).
  destruct (prob s) as [p|] eqn:P.
  - assert (robot_given l) by (apply R'; discriminate). destruct (targ s) as [[gl|t]|]; cbn [task_of snd]; [intuition congruence| |intuition congruence].
    destruct (goals s) as [|g gs]; cbn [snd]; intuition congruence.
  - cbn [snd]. split; [intros _; left; intros H; apply R' in H; congruence | reflexivity].
Qed.
(* A name that is not registered is refused, and nothing changes. *)
Theorem C97_unknown s n t :
  (known KDist n = false -> step s (DistanceType _ _ _ _ _ _ n) = Some (s, true)) /\
  (known KSteer n = false -> step s (SteeringType _ _ _ _ _ _ n) = Some (s, true)) /\
  (known KPlan n = false -> step s (PlannerType _ _ _ _ _ _ n) = Some (s, true)) /\
  (known KShoot n = false -> step s (ShooterType _ _ _ _ _ _ n) = Some (s, true)) /\
  (known KPathVal n = false -> step s (ValidationType _ _ _ _ _ _ n t) = Some (s, true)) /\
  (known KProj n = false -> step s (ProjectorType _ _ _ _ _ _ n t) = Some (s, true)) /\
  (known KConfVal n = false -> step s (AddConfigValidation _ _ _ _ _ _ n) = Some (s, true)) /\
  (known KOpt n = false -> step s (AddOptimizer _ _ _ _ _ _ n) = Some (s, true)).
Proof. cbn. repeat split; intros ->; reflexivity. Qed.
(* The path validation and the configuration validations of the problem are at
   any time those asked for. *)
Theorem C97_validations l s p : run created l = Some s -> prob s = Some p ->
  p_pathval _ _ _ _ p = latest validation_asked (d_pathval _ _ _ _ dft) l /\
  p_confval _ _ _ _ p = collected confval_added confval_cleared (d_confval _ _ _ _ dft) l.
Proof.
  intros E P. destruct (consistent_run _ _ _ consistent_created E p P) as [_ [C2 [C3 _]]]. rewrite C2, C3. split.
  - exact (field_latest (PsModel.t_pathval _ _ _ _ _ _) validation_asked ltac:(solve_field) _ _ _ E).
  - exact (field_collected (PsModel.t_confval _ _ _ _ _ _) confval_added confval_cleared ltac:(solve_field) _ _ _ E).
Qed.

(* ---------------------------------------------------------------- findings *)
(* The distance asked for is never used. *)
Theorem C97_distance_refuted l s p : run created l = Some s -> prob s = Some p -> p_dist _ _ _ _ p = d_dist _ _ _ _ dft.
Proof. intros E P. destruct (consistent_run _ _ _ consistent_created E p P) as [_ [_ [_ C4]]]. exact C4. Qed.
(* and the one asked for by default is not registered *)
Theorem C97_default_distance_refuted l s : run created l = Some s -> known KDist (d_dist_name _ _ _ _ dft) = false ->
  (forall n, In (DistanceType _ _ _ _ _ _ n) l -> known KDist n = false) -> init_distance name tol config task num dur known s = (s, true).
Proof.
  intros E K N. unfold init_distance. destruct (prob s) as [p|]; [|reflexivity].
  pose proof (field_latest (PsModel.t_dist _ _ _ _ _ _) (fun o => match o with DistanceType _ _ _ _ _ _ n => if known KDist n then Some n else None | _ => None end) ltac:(solve_field) _ _ _ E) as F.
  assert (L : forall l d, (forall n, In (DistanceType _ _ _ _ _ _ n) l -> known KDist n = false) -> latest (fun o => match o with DistanceType _ _ _ _ _ _ n => if known KDist n then Some n else None | _ => None end) d l = d).
  { clear. induction l as [|o l IH]; intros d H; [reflexivity|]. unfold latest in *. cbn [fold_left]. rewrite IH by (intros n I; apply H; right; exact I).
    destruct o; try reflexivity. rewrite (H n (or_introl eq_refl)). reflexivity. }
  rewrite L in F by exact N. cbn [PsModel.created t_dist] in F. rewrite F, K. reflexivity.
Qed.
(* After a reset of the problem, or with a new robot, the problem steers,
   shoots and projects with the default methods until it is initialised. *)
Theorem C97_reset_refuted s s' b o : o = SetRobot _ _ _ _ _ _ \/ o = ResetProblem _ _ _ _ _ _ -> step s o = Some (s', b) ->
  exists p, prob s' = Some p /\ p_steer _ _ _ _ p = d_steer _ _ _ _ dft /\ p_shoot _ _ _ _ p = d_shoot _ _ _ _ dft /\ p_proj _ _ _ _ p = None /\
    PsModel.t_steer _ _ _ _ _ _ s' = PsModel.t_steer _ _ _ _ _ _ s.
Proof. intros [-> | ->] E; cbn in E; cases E; injection E as <- <-; eexists; repeat split. Qed.
(* Changing the steering method leaves the path projector with the old one. *)
Theorem C97_projector_refuted s p n s' b : prob s = Some p -> step s (SteeringType _ _ _ _ _ _ n) = Some (s', b) -> b = false ->
  exists p', prob s' = Some p' /\ p_steer _ _ _ _ p' = n /\ p_proj _ _ _ _ p' = p_proj _ _ _ _ p.
Proof. intros P E B. cbn in E. rewrite P in E. cases E; injection E as <- <-; [|discriminate]. eexists. repeat split. Qed.
(* A new number of iterations reaches the current planner, a new time out does
   not. *)
Theorem C97_time_out_refuted s k n d s1 s2 b1 b2 : plan s = Some k -> step s (MaxIterations _ _ _ _ _ _ n) = Some (s1, b1) -> step s (TimeOut _ _ _ _ _ _ d) = Some (s2, b2) ->
  (exists k', plan s1 = Some k' /\ k_max _ _ _ k' = n) /\ plan s2 = Some k.
Proof. intros K E1 E2. cbn in E1, E2. rewrite K in E1. injection E1 as <- <-. injection E2 as <- <-. split; [eexists; split; reflexivity | exact K]. Qed.
End Props.

(* ------------------------------------------------------------- the default solver *)
Open Scope string_scope.
Definition dflt : defaults string nat nat nat := {| d_dist_name := "WeighedDistance"; d_dist := "Weighed"; d_steer := "Straight"; d_plan := "DiffusingPlanner"; d_shoot := "Uniform";
  d_pathval := ("Discretized", 5%nat); d_proj := ("None", 20%nat); d_confval := ["CollisionValidation"; "JointBoundValidation"]; d_max := 0%nat; d_time := 0%nat |}.
Definition registered (k : kind) (n : string) : bool :=
  match k with
  | KDist => existsb (String.eqb n) ["Weighed"; "ReedsShepp"; "Kinodynamic"]
  | KSteer => existsb (String.eqb n) ["Straight"; "ReedsShepp"; "Kinodynamic"; "Dubins"; "Snibud"; "Hermite"]
  | KPlan => existsb (String.eqb n) ["DiffusingPlanner"; "BiRRTPlanner"; "kPRM*"]
  | KProj => existsb (String.eqb n) ["None"; "Progressive"; "Dichotomy"]
  | _ => true
  end.
Definition session : list (op string nat nat nat nat nat) :=
  [SteeringType _ _ _ _ _ _ "Dubins"; SetRobot _ _ _ _ _ _; ProjectorType _ _ _ _ _ _ "Progressive" 3%nat; AddGoal _ _ _ _ _ _ 7%nat; SteeringType _ _ _ _ _ _ "ReedsShepp";
   SteeringType _ _ _ _ _ _ "Bicycle"; InitConfig _ _ _ _ _ _ 1%nat; DistanceType _ _ _ _ _ _ "ReedsShepp"; AddGoal _ _ _ _ _ _ 8%nat; ValidationType _ _ _ _ _ _ "Dichotomy" 0%nat; TimeOut _ _ _ _ _ _ 60%nat].
Example session_runs :
  match run string nat nat nat nat nat registered dflt (created string nat nat nat nat nat dflt) session with
  | Some s => match init_problem _ _ _ _ _ _ s with
              | (s', false) => match prob _ _ _ _ _ _ s', plan _ _ _ _ _ _ s' with
                               | Some p, Some k => (p_steer _ _ _ _ p, p_proj _ _ _ _ p, p_target _ _ _ _ p, p_dist _ _ _ _ p, k_time _ _ _ k) =
                                   ("ReedsShepp", Some ("Progressive", 3%nat, "ReedsShepp"), Goals _ _ [7%nat; 8%nat], "Weighed", 60%nat)
                               | _, _ => False
                               end
              | _ => False
              end
  | None => False
  end.
Proof. vm_compute. reflexivity. Qed.
(* the default distance is not registered *)
Example default_distance : registered KDist (d_dist_name _ _ _ _ dflt) = false /\
  match run string nat nat nat nat nat registered dflt (created string nat nat nat nat nat dflt) [SetRobot string nat nat nat nat nat] with
  | Some s => snd (init_distance _ _ _ _ _ _ registered s) = true
  | None => False
  end.
Proof. vm_compute. auto. Qed.
Example refused_demo :
  match run string nat nat nat nat nat registered dflt (created string nat nat nat nat nat dflt) [SetRobot string nat nat nat nat nat; SetGoalTask _ _ _ _ _ _ 3%nat; AddGoal _ _ _ _ _ _ 7%nat] with
  | Some s => snd (init_problem _ _ _ _ _ _ s) = true
  | None => False
  end.
Proof. vm_compute. reflexivity. Qed.

Print Assumptions C97_settings.
Print Assumptions C97_refused.
Print Assumptions C97_unknown.
Print Assumptions C97_validations.
Print Assumptions C97_distance_refuted.
Print Assumptions C97_default_distance_refuted.
Print Assumptions C97_reset_refuted.
Print Assumptions C97_projector_refuted.
Print Assumptions C97_time_out_refuted.
