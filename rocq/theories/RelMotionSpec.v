(* Specification: chains of constraints between joints. *)
From Verif Require Import Base Reach RelMotionModel.

(* the constraint nc fixes the relative pose of the joints a and b; with
   [fixed] only constraints with a constant right hand side are considered *)
Definition links (fixed : bool) (nc : num_constraint) (a b : nat) : Prop :=
  (fixed = true -> nc_parameterSize nc = 0) /\
  (nc_joints nc = (a, b) \/ nc_joints nc = (b, a)).
(* a chain of constraints of the list joins a and b *)
Definition chain (fixed : bool) (l : list num_constraint) : nat -> nat -> Prop :=
  reach (fun a b => exists nc, In nc l /\ links fixed nc a b).
(* the joints exist *)
Definition on_robot (n : nat) (nc : num_constraint) : Prop :=
  fst (nc_joints nc) < n /\ snd (nc_joints nc) < n.
