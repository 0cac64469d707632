(* Specification vocabulary for the kinodynamic steering method and distance. *)
From Coq Require Import Reals List.
From Verif Require Import Base XReal KinoModel KinoSpec KinoTimeModel.
Open Scope R_scope.

(* a motion of duration [T] between the two states of an axis exists *)
Definition can_move (A V T : R) (g : leg) : Prop :=
  exists x v, motion A V T (g_p1 g) (g_v1 g) (g_p2 g) (g_v2 g) x v.

(* end velocities within the limit *)
Definition slow (V : R) (g : leg) : Prop := Rabs (g_v1 g) <= V /\ Rabs (g_v2 g) <= V.
(* the axis moves by at least the threshold of the code, or rests *)
Definition moving (eps : R) (g : leg) : Prop := eps <= Rabs (g_p2 g - g_p1 g) \/ eps <= Rabs (g_v2 g - g_v1 g).
Definition parked (g : leg) : Prop := g_p2 g = g_p1 g /\ g_v1 g = 0 /\ g_v2 g = 0.
Definition leg_ok (eps V : R) (g : leg) : Prop := slow V g /\ (moving eps g \/ parked g).

(* At duration [T] axis number [k] is not one of the cases that the formulas
   of fixedTimeTrajectory do not cover: the axis rests, or moves at the velocity
   limit, or is further than the threshold from a motion at constant velocity
   and synchronised, or is the vertical axis between two states at rest. *)
Definition good (eps A V : R) (sync : bool) (T : R) (k : nat) (g : leg) : Prop :=
  parked g \/
  (moving eps g /\ g_v1 g = g_v2 g /\ Rabs (g_v1 g) = V /\ g_p2 g - g_p1 g = g_v1 g * T) \/
  (moving eps g /\
   (eps < T * Rabs (g_v2 g - g_v1 g) \/ eps < 4 * Rabs (g_p2 g - g_p1 g - T * (g_v1 g + g_v2 g) / 2)) /\
   (sync = true \/ k <> 2%nat \/ g_v2 g <> 0)) \/
  (moving eps g /\ sync = false /\ k = 2%nat /\ g_v1 g = 0 /\ g_v2 g = 0 /\
   eps < A /\ eps < sqrt (A * Rabs (g_p2 g - g_p1 g))).

(* end states and limits of an axis of a path *)
Definition joins (A V : R) (g : leg) (x : axis) : Prop :=
  si x = mkSt (g_p1 g) (g_v1 g) 0 /\ se x = mkSt (g_p2 g) (g_v2 g) 0 /\
  Rabs (a1 x) <= A /\ Rabs (v_ (si x) + a1 x * t1 x) <= V.

(* The two velocities are changed into each other at full deceleration or
   acceleration while moving backwards: the case missed by the distance. *)
Definition backwards (A : R) (g : leg) : Prop :=
  g_v1 g < 0 /\ g_v2 g < 0 /\ 2 * A * (g_p2 g - g_p1 g) = (g_v1 g + g_v2 g) * Rabs (g_v2 g - g_v1 g).
Definition leg_fine (eps A V : R) (g : leg) : Prop := leg_ok eps V g /\ ~ backwards A g.

(* axes between two configurations given by positions and velocities *)
Definition legs (q1 q2 : list (R * R)) : list leg :=
  map (fun c => mkLeg (fst (fst c)) (fst (snd c)) (snd (fst c)) (snd (snd c))) (combine q1 q2).
