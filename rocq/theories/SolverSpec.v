(* Vocabulary of the obstacle registry of the solver. *)
From Verif Require Import Base SolverModel.

(* The obstacles a user has added and not removed, with their collision and
   distance flags: adding a name in use and removing an unknown one change
   nothing. *)
Definition registry := nat -> option (bool * bool).
Definition r_step (r : registry) (o : sop) : registry :=
  match o with
  | SAdd n c d => match r n with None => upd r n (Some (c, d)) | Some _ => r end
  | SRemove n => upd r n None
  | _ => r
  end.
Definition r_run (l : list sop) : registry := fold_left r_step l (fun _ => None).

(* the robot is set once, first *)
Definition no_robot (l : list sop) : Prop := ~ In SRobot l.
(* no obstacle is for distances only *)
Definition all_collision (l : list sop) : Prop := forall n c d, In (SAdd n c d) l -> c = true.

(* the validations of the problem which use obstacles *)
Definition user (s : solver) (u : list obj) : Prop :=
  exists p, prob s = Some p /\ (spPV p = Some u \/ In (Some u) (spCV p)).
(* a list of objects contains an obstacle named n *)
Definition has_name (s : solver) (u : list obj) (n : nat) : Prop := exists o, In o u /\ oname s o = Some n.
