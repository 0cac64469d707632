(* Specification vocabulary for the kinodynamic path and its scheduling. *)
From Coq Require Import Reals List.
From Verif Require Import Base XReal KinoModel.
Import ListNotations.
Open Scope R_scope.

(* The data of an axis describe one motion of duration [L]: non-negative phases
   that fill the duration, constant velocity phase at the velocity reached, end
   state equal to the state where the phases lead. *)
Record axis_ok (L : R) (x : axis) : Prop := {
  ok_0 : 0 <= t0 x; ok_1 : 0 <= t1 x; ok_v : 0 <= tv x; ok_2 : 0 <= t2 x;
  ok_sum : t0 x + t1 x + tv x + t2 x = L;
  ok_lim : 0 < tv x -> vlim x = v_ (si x) + a1 x * t1 x;
  ok_vel : v_ (se x) = v_ (si x) + a1 x * (t1 x - t2 x);
  ok_pos : x_ (se x) = x_ (si x) + v_ (si x) * (t0 x + t1 x) + a1 x * t1 x * t1 x / 2
                       + (v_ (si x) + a1 x * t1 x) * (tv x + t2 x) - a1 x * t2 x * t2 x / 2 }.

Definition path_ok (p : kpath) : Prop := 0 <= klen p /\ Forall (axis_ok (klen p)) (axes p).

(* same positions, velocities and other coordinates *)
Definition same_motion (q q' : kconf) : Prop :=
  map x_ (trans q) = map x_ (trans q') /\ map v_ (trans q) = map v_ (trans q') /\ rest q = rest q'.

(* order on durations; NaN is not comparable *)
Definition xle (x y : xr) : Prop :=
  match x, y with
  | NaN, _ | _, NaN => False
  | MInf, _ => True
  | _, PInf => True
  | Fin a, Fin b => a <= b
  | _, _ => False
  end.
(* strictly inside an interval *)
Definition inside (t : xr) (i : xr * xr) : Prop :=
  ~ xle t (fst i) /\ ~ xle (snd i) t /\ fst i <> NaN /\ snd i <> NaN /\ t <> NaN.

(* [v] is the derivative of [x] on [0, T] *)
Definition derivative_on (T : R) (x v : R -> R) : Prop :=
  forall t eps, 0 <= t <= T -> 0 < eps ->
    exists delta, 0 < delta /\
      forall s, 0 <= s <= T -> Rabs (s - t) < delta -> Rabs (x s - x t - v t * (s - t)) <= eps * Rabs (s - t).

(* A motion of duration [T] along an axis from state (x0, v0) to state (x1, v1)
   with bounded velocity and acceleration (the velocity is Lipschitz, so that
   the acceleration is bounded wherever it is defined). *)
Record motion (A V T x0 v0 x1 v1 : R) (x v : R -> R) : Prop := {
  m_time : 0 <= T;
  m_x0 : x 0 = x0; m_v0 : v 0 = v0; m_x1 : x T = x1; m_v1 : v T = v1;
  m_vel : derivative_on T x v;
  m_acc : forall s t, 0 <= s <= T -> 0 <= t <= T -> Rabs (v s - v t) <= A * Rabs (s - t);
  m_lim : forall t, 0 <= t <= T -> Rabs (v t) <= V }.
