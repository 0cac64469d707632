(* Independent vocabulary for the motions of a car: rolling without slipping,
   velocities expressed in the frame of the robot, steering angles. *)
From Coq Require Import Reals List.
From Verif Require Import CurvModel PolySpec.
Open Scope R_scope.

(* The heading is a unit vector. *)
Definition unit_heading (q : cfg) : Prop := cc q * cc q + cs q * cs q = 1.

(* Same position and heading, and same value of every degree of freedom that
   is not in the list. *)
Definition same_but (l : list nat) (q q' : cfg) : Prop :=
  cx q = cx q' /\ cy q = cy q' /\ cc q = cc q' /\ cs q = cs q' /\
  forall k, ~ In k l -> cj q k = cj q' k.
Definition same_cfg (q q' : cfg) : Prop := same_but nil q q'.

(* Same position and heading. *)
Definition same_place (q q' : cfg) : Prop :=
  cx q = cx q' /\ cy q = cy q' /\ cc q = cc q' /\ cs q = cs q'.

(* The velocity v, in the frame of the robot, is the derivative at t of the
   motion q. *)
Definition is_velocity (q : R -> cfg) (t : R) (v : vel) : Prop :=
  derivable_pt_lim (fun u => cx (q u)) t (vx v * cc (q t) - vy v * cs (q t)) /\
  derivable_pt_lim (fun u => cy (q u)) t (vx v * cs (q t) + vy v * cc (q t)) /\
  derivable_pt_lim (fun u => cc (q u)) t (- vth v * cs (q t)) /\
  derivable_pt_lim (fun u => cs (q u)) t (vth v * cc (q t)) /\
  forall k, derivable_pt_lim (fun u => cj (q u) k) t (vj v k).

(* The robot moves along its heading with speed [speed] (negative:
   backward) and turns with curvature [kappa]; it does not move sideways. *)
Definition rolls (speed kappa : R) (q : R -> cfg) : Prop :=
  forall t, exists v, is_velocity q t v /\
    vx v = speed /\ vy v = 0 /\ vth v = kappa * speed.

(* v expresses in the frame of the robot the n-th derivatives of the position
   and of the other degrees of freedom. *)
Definition is_nth_derivative (n : nat) (q : R -> cfg) (t : R) (v : vel) : Prop :=
  exists gx gy, nth_derivative n (fun u => cx (q u)) gx /\
    nth_derivative n (fun u => cy (q u)) gy /\
    gx t = vx v * cc (q t) - vy v * cs (q t) /\
    gy t = vx v * cs (q t) + vy v * cc (q t) /\
    forall k, exists gj, nth_derivative n (fun u => cj (q u) k) gj /\ gj t = vj v k.

(* b bounds each component of v; squared length of the planar part. *)
Definition bounded_by (v b : vel) : Prop :=
  Rabs (vx v) <= vx b /\ Rabs (vy v) <= vy b /\ Rabs (vth v) <= vth b /\
  forall k, Rabs (vj v k) <= vj b k.
Definition planar_norm2 (v : vel) : R := vx v * vx v + vy v * vy v.

(* A wheel at (x, y) in the frame of the robot, oriented by angle v, rolls
   without slipping when the robot turns with curvature kappa: it is
   orthogonal to the direction of the centre of rotation (0, 1 / kappa). *)
Definition wheel_rolls (kappa x y v : R) : Prop :=
  cos v * x + sin v * (y - 1 / kappa) = 0.

(* The paths a program can obtain: built by the constructor from a
   configuration whose heading is a unit vector, then cut and reversed. *)
Inductive built : cpath -> Prop :=
| built_create init fin cl pl kappa ws :
    unit_heading init -> built (cc_create init fin cl pl kappa ws)
| built_extract p a b : built p ->
    p_t0 p <= a <= p_t1 p -> p_t0 p <= b <= p_t1 p -> built (cc_extract p a b)
| built_reverse p : built p -> built (cc_reverse p).
