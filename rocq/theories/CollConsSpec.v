(* Independent vocabulary: rigid placements, distance between two points, and
   motions of the robot. *)
From Coq Require Import Reals List.
From Verif Require Import CollConsModel.
Import ListNotations.
Open Scope R_scope.

(* the columns of the rotation are orthonormal, and its transpose is its
   inverse *)
Definition rigid (m : trsf) : Prop :=
  (forall a, rot m (rot_inv m a) = a) /\
  dot (t_x m) (t_x m) = 1 /\ dot (t_y m) (t_y m) = 1 /\ dot (t_z m) (t_z m) = 1 /\
  dot (t_x m) (t_y m) = 0 /\ dot (t_y m) (t_z m) = 0 /\ dot (t_x m) (t_z m) = 0.

Definition distance (a b : v3) : R :=
  sqrt ((px a - px b) * (px a - px b) + (py a - py b) * (py a - py b) + (pz a - pz b) * (pz a - pz b)).

Definition v3_derivative (g : R -> v3) (s : R) (d : v3) : Prop :=
  derivable_pt_lim (fun u => px (g u)) s (px d) /\
  derivable_pt_lim (fun u => py (g u)) s (py d) /\
  derivable_pt_lim (fun u => pz (g u)) s (pz d).

(* product of a matrix, given by its columns, with a vector *)
Fixpoint mat_vec (J : list v3) (v : list R) : v3 :=
  match J, v with
  | c :: J', a :: v' => vadd (vscale a c) (mat_vec J' v')
  | _, _ => (0, 0, 0)
  end.

(* J is the Jacobian at q of the point g, along the motions of the robot of
   velocity v given by [motion] *)
Definition jacobian_of {C} (motion : (R -> C) -> C -> list R -> Prop) (g : C -> v3) (q : C) (J : list v3) : Prop :=
  forall m v, motion m q v -> v3_derivative (fun s => g (m s)) 0 (mat_vec J v).

(* two placements with the same orientation *)
Definition same_orientation (m m' : trsf) : Prop := t_x m = t_x m' /\ t_y m = t_y m' /\ t_z m = t_z m'.

(* the functions whose Jacobians are used (hpp-constraints): the position of a
   point of a joint with respect to a point of the world, and the position of a
   point of joint 2 with respect to a point of joint 1, in the frame of joint
   1 *)
Definition position {C} (place : nat -> C -> trsf) (j : nat) (x w : v3) (q : C) : v3 :=
  vsub (act (place j q) x) w.
Definition relative_position {C} (place : nat -> C -> trsf) (j1 j2 : nat) (x1 x2 : v3) (q : C) : v3 :=
  vsub (act_inv (place j1 q) (act (place j2 q) x2)) x1.
