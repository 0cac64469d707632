(* Vocabulary of the properties of a problem. *)
From Verif Require Import Base ProblemModel.

Section Spec.
Context {C : Type}.

(* a problem is well posed *)
Definition well_posed (robot : bool) (init : option C) (valid satisfied : C -> bool)
    (goals : option (list C)) : Prop :=
  robot = true /\
  (exists q, init = Some q /\ valid q = true /\ satisfied q = true) /\
  (forall l q, goals = Some l -> In q l -> valid q = true /\ satisfied q = true).

(* every validation of problem p which uses obstacles has been given o *)
Definition all_know (w : world C) (p : problem C) (o : nat) : Prop :=
  (forall l, pvs w (pPV p) = Some l -> In o l) /\
  (forall l, In (Some l) (cvs w (pCV p)) -> In o l).
(* the validations of problem p have been given exactly its obstacles *)
Definition in_step (w : world C) (p : problem C) : Prop :=
  (forall l, pvs w (pPV p) = Some l -> l = pObs p) /\
  (forall l, In (Some l) (cvs w (pCV p)) -> l = pObs p).

(* the goals of problem i given by a history, latest call first *)
Inductive goals_of (i : nat) : list (wop C) -> list C -> Prop :=
| goals_start : goals_of i [] []
| goals_add q h g : goals_of i h g -> goals_of i (WAddGoal i q :: h) (g ++ [q])
| goals_reset h : goals_of i (WResetGoals i :: h) []
| goals_task h : goals_of i (WTask i :: h) []
| goals_other o h g :
    match o with
    | WAddGoal j _ | WResetGoals j | WTask j => j <> i
    | _ => True
    end ->
    goals_of i h g -> goals_of i (o :: h) g.
(* the goals of problem i are only handled once it exists *)
Fixpoint born (i : nat) (h : list (wop C)) : Prop :=
  match h with
  | [] => True
  | WAddGoal j _ :: h' | WResetGoals j :: h' | WTask j :: h' =>
    (j = i -> pbs (w_run (rev h')) i <> None) /\ born i h'
  | _ :: h' => born i h'
  end.
End Spec.
