(* Specification vocabulary for paths, independent of how the path classes are
   implemented: only timeRange, length and eval are observed. *)
From Coq Require Import Sorting.Sorted.
From Verif Require Import Base QcTac PathModel.
Open Scope Qc_scope.

Section PathSpec.
Variable conf : Type.
Variable interp : conf -> conf -> Qc -> conf.
Notation path := (path conf).
Notation eval := (eval conf interp).

(* What is assumed of the interpolation of configurations: it joins its
   arguments at constant speed, so that interpolating between two points of a
   segment stays on that segment. *)
Definition unit_itv (u : Qc) : Prop := 0 <= u /\ u <= 1.
Definition geodesic : Prop :=
  (forall a b, interp a b 0 = a) /\
  (forall a b, interp a b 1 = b) /\
  (forall a b u v w, unit_itv u -> unit_itv v -> unit_itv w ->
     interp (interp a b u) (interp a b v) w = interp a b (u + w * (v - u))).

(* sum of the lengths of a list of paths *)
Fixpoint total (l : list path) : Qc :=
  match l with [] => 0 | x :: r => plength x + total r end.

Definition start (p : path) : Qc := fst (timeRange p).
Definition stop (p : path) : Qc := snd (timeRange p).

(* p' is p restricted to [a,b] *)
Definition restricts (p : path) (a b : Qc) (p' : path) : Prop :=
  plength p' = b - a /\
  forall t, 0 <= t -> t <= b - a -> eval p' (start p' + t) = eval p (a + t).

(* p' plays p backwards between the parameters a >= b *)
Definition plays_back (p : path) (a b : Qc) (p' : path) : Prop :=
  plength p' = a - b /\
  forall t, 0 <= t -> t <= a - b -> eval p' (start p' + t) = eval p (a - t).

(* p' plays the same trajectory as p *)
Definition same_trajectory (p p' : path) : Prop :=
  plength p' = plength p /\
  forall t, 0 <= t -> t <= plength p -> eval p' (start p' + t) = eval p (start p + t).

(* pv plays the paths of a list one after the other: at time t it is at the
   path on which t falls once the lengths of the previous ones are removed
   (at a boundary, at the end of the earlier one). *)
Definition plays_in_order (pv : path) (l : list path) : Prop :=
  plength pv = total l /\
  forall t, 0 <= t -> t <= total l ->
    exists pre x post, l = pre ++ x :: post /\
      total pre <= t /\ t <= total pre + plength x /\
      (pre = [] \/ total pre < t) /\
      eval pv (start pv + t) = eval x (start x + (t - total pre)).

(* consecutive paths of a list agree where they meet *)
Fixpoint continuous_list (l : list path) : Prop :=
  match l with
  | x :: ((y :: _) as r) => eval x (stop x) = eval y (start y) /\ continuous_list r
  | _ => True
  end.

Definition ranged (p : path) : Prop := start p <= stop p.

(* neither time parameterization nor constraints *)
Definition bare (h : hdr conf) : Prop := tp h = None /\ cs h = None /\ pr h = tr h.

(* strictly increasing knots, spanning exactly the range [I] *)
Definition knots_ok (I : itv) (ks : list (Qc * conf)) : Prop :=
  StronglySorted (fun a b => fst a < fst b) ks /\
  exists k0 kl, hd_error ks = Some k0 /\ klast ks = Some kl /\ fst k0 = fst I /\ fst kl = snd I.

(* Paths without time parameterization, whose sub-paths and ranges are
   consistent; constraints are allowed on the classes that use the generic
   extraction (Gen, Extr) and Extr paths play forward. *)
Fixpoint plain (p : path) : Prop :=
  ranged p /\
  match p with
  | Straight h _ _ => bare h
  | Interp h ks => bare h /\ knots_ok (tr h) ks
  | Gen h _ => tp h = None /\ pr h = tr h
  | Extr h o rv => tp h = None /\ pr h = tr h /\ rv = false
  | PV h subs => bare h /\ subs <> [] /\ tr h = (0, total subs) /\
                 fold_right and True (map plain subs)
  end.

(* Paths that reverse () handles: generic and extracted paths must start at
   0, path vectors must be continuous. *)
Fixpoint reversible (p : path) : Prop :=
  ranged p /\
  match p with
  | Straight h q0 q1 => bare h /\ (fst (tr h) = snd (tr h) -> q0 = q1)
  | Interp h ks => bare h /\ knots_ok (tr h) ks /\ fst (tr h) = 0
  | Gen h _ => bare h /\ fst (tr h) = 0
  | Extr h o rv => bare h /\ bare (hd_of o) /\ fst (tr h) = 0
  | PV h subs => bare h /\ subs <> [] /\ tr h = (0, total subs) /\ continuous_list subs /\
                 fold_right and True (map reversible subs)
  end.

(* no generic or extracted path anywhere inside *)
Fixpoint no_generic (p : path) : Prop :=
  match p with
  | Gen _ _ => False
  | Extr _ _ _ => False
  | PV _ subs => fold_right and True (map no_generic subs)
  | _ => True
  end.

(* no interpolated path anywhere inside *)
Fixpoint no_interp (p : path) : Prop :=
  match p with
  | Interp _ _ => False
  | PV _ subs => fold_right and True (map no_interp subs)
  | _ => True
  end.

(* list of the elementary paths, in order *)
Fixpoint elementary (p : path) : list path :=
  match p with
  | PV _ subs => concat (map elementary subs)
  | _ => [p]
  end.
Definition is_vector (p : path) : Prop := match p with PV _ _ => True | _ => False end.

(* vectors nest non-empty vectors with consistent ranges, elementary paths run
   forward, and nothing is constrained except the elementary paths *)
Fixpoint nested (p : path) : Prop :=
  ranged p /\
  match p with
  | PV h subs => bare h /\ subs <> [] /\ tr h = (0, total subs) /\
                 fold_right and True (map nested subs)
  | _ => True
  end.

(* a constraint whose right hand side does not depend on the parameter *)
Definition steady (c : constr conf) : Prop := forall s s' q, c_apply c s q = c_apply c s' q.
(* a configuration, if any, projected on a steady constraint *)
Definition project (c : constr conf) (r : res (option conf)) : res (option conf) :=
  match r with Ok (Some q) => Ok (c_apply c 0 q) | other => other end.

(* The waypoints of an interpolated path: ends first, then the insertions in
   chronological order; the first one given for a parameter is kept. *)
Definition waypoint (l : list (Qc * conf)) (w : Qc * conf) : Prop :=
  exists l1 l2, l = l1 ++ w :: l2 /\ Forall (fun x => fst x <> fst w) l1.
(* two waypoints with none in between *)
Definition consecutive (l : list (Qc * conf)) (a b : Qc * conf) : Prop :=
  waypoint l a /\ waypoint l b /\ fst a < fst b /\ forall w, waypoint l w -> fst w <= fst a \/ fst b <= fst w.

End PathSpec.

Arguments total {conf} l.
Arguments start {conf} p.
Arguments stop {conf} p.
Arguments ranged {conf} p.
Arguments bare {conf} h.
Arguments knots_ok {conf} I ks.
Arguments plain {conf} p.
Arguments no_interp {conf} p.
Arguments no_generic {conf} p.
Arguments elementary {conf} p.
Arguments is_vector {conf} p.
Arguments nested {conf} p.
Arguments geodesic {conf} interp.
Arguments steady {conf} c.
Arguments project {conf} c r.
Arguments waypoint {conf} l w.
Arguments consecutive {conf} l a b.
