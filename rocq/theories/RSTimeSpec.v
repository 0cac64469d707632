(* Independent vocabulary for laws of motion along a path. *)
From Coq Require Import Reals List.
From Verif Require Import Base XReal CurvModel CurvSpec RSTimeModel.
Open Scope R_scope.

(* Between the dates 0 and T the abscissa is f and the velocity is g, the
   derivative of f; moreover the acceleration is in [-D, A] and the velocity
   in [0, M]. *)
Record motion (q : law) (T : R) (f g : R -> R) (A D M : R) : Prop := {
  m_value : forall t, 0 <= t <= T -> law_value q t = Ok (f t);
  m_derivative : forall t, 0 <= t <= T -> law_derivative q t 1 = Ok (g t);
  m_velocity : forall t, derivable_pt_lim f t (g t);
  m_acceleration : forall s t, s <= t -> - D * (t - s) <= g t - g s <= A * (t - s);
  m_limits : forall t, 0 <= t <= T -> 0 <= g t <= M
}.

(* [tp] runs along [p] from its beginning to its end: at each date it is
   where [p] is at the abscissa s, which never decreases; its velocity is the
   one it announces, its linear velocity is at most [lin] and its angular
   velocity at most [ang]. *)
Definition retimed (lin ang : R) (p : cpath) (tp : tpath) : Prop :=
  tp_first tp = 0 /\ 0 < tp_second tp /\
  exists s ds, s 0 = p_t0 p /\ s (tp_second tp) = p_t1 p /\
    (forall t, derivable_pt_lim s t (ds t)) /\
    forall t, 0 <= t <= tp_second tp ->
      0 <= ds t /\ tp_at tp t = Ok (cc_compute p (s t)) /\
      exists v, tp_derivative tp t = Ok v /\ is_velocity (fun u => cc_compute p (s u)) t v /\
        Rabs (vx v) <= lin /\ vy v = 0 /\ Rabs (vth v) <= ang.

(* Parameters of the method that make sense. *)
Definition valid (c : rst) : Prop :=
  0 <= minLin c <= maxLin c /\ 0 < maxLin c /\ 0 < maxAng c /\ 0 < accLin c /\ 0 < decLin c.
(* A path driven at most at unit speed (one unit of parameter per second),
   that can be turned along at the velocity of the crossings. *)
Definition drivable (c : rst) (p : cpath) : Prop :=
  built p /\ Rabs (p_cl p) <= p_t1 p - p_t0 p /\
  minLin c * (Rabs (p_kappa p) * Rabs (p_cl p)) <= maxAng c * (p_t1 p - p_t0 p).
Definition at_rest (v : vel) : Prop := vx v = 0 /\ vy v = 0 /\ vth v = 0 /\ forall k, vj v k = 0.
