(* Specification of velocity bounds, on one component of the configuration.
   Only timeRange and eval are observed in [speed_at_most]. *)
From Verif Require Import Base QcTac PathModel PathSpec PathVelModel.
Open Scope Qc_scope.

Notation path1 := (path Qc).
Notation eval1 := (eval Qc lerp).

(* between the times a and b the component never moves faster than B *)
Definition speed_at_most (p : path1) (a b B : Qc) : Prop :=
  forall u v x y, a <= u -> u <= v -> v <= b ->
    eval1 p u = Ok (Some x) -> eval1 p v = Ok (Some y) ->
    y - x <= B * (v - u) /\ x - y <= B * (v - u).

Section PathVelSpec.
Variable tpb : (Qc -> Qc) -> Qc -> Qc -> Qc.
Variable tpd : (Qc -> Qc) -> Qc -> Qc.

(* the time law of a path, if any, is non decreasing and its derivativeBound
   is right on the range of the path *)
Definition law_ok (h : hdr Qc) : Prop :=
  match tp h with
  | None => pr h = tr h
  | Some f =>
      pr h = (f (fst (tr h)), f (snd (tr h))) /\
      (forall u v, fst (tr h) <= u -> u <= v -> v <= snd (tr h) -> f u <= f v) /\
      (forall t0 t1, fst (tr h) <= t0 -> t0 <= t1 -> t1 <= snd (tr h) ->
         0 <= tpb f t0 t1 /\
         forall u v, t0 <= u -> u <= v -> v <= t1 -> f v - f u <= tpb f t0 t1 * (v - u)) /\
      (forall t0 t1 t, fst (tr h) <= t0 -> t0 <= t -> t <= t1 -> t1 <= snd (tr h) ->
         0 <= tpd f t /\ tpd f t <= tpb f t0 t1)
  end.

(* unconstrained paths with consistent ranges; vectors are continuous *)
Fixpoint movable (p : path1) : Prop :=
  ranged p /\ cs (hd_of p) = None /\ law_ok (hd_of p) /\
  match p with
  | Straight _ _ _ => True
  | Interp h ks => knots_ok (pr h) ks
  | Gen _ _ => False
  | Extr h o rv =>
      bare (hd_of o) /\ movable o /\
      (let a := s_in_original h rv (fst (pr h)) in
       let b := s_in_original h rv (snd (pr h)) in
       start o <= a /\ a <= stop o /\ start o <= b /\ b <= stop o)
  | PV h subs =>
      tp h = None /\ subs <> [] /\ tr h = (0, total subs) /\ continuous_list Qc lerp subs /\
      fold_right and True (map movable subs)
  end.

(* the lower bound t0 does not fall strictly inside a segment of an
   interpolated path, in whichever part of the path it falls; for a path played
   backward the upper bound t1 matters *)
Fixpoint at_waypoint (p : path1) (t0 t1 : Qc) : Prop :=
  let s0 := param_at (hd_of p) t0 in
  let s1 := param_at (hd_of p) t1 in
  match p with
  | Interp _ ks => exists k, In k ks /\ fst k = s0
  | Extr h o rv => if rv then at_waypoint o (snd (pr h) - s1) (snd (pr h) - s0)
                   else at_waypoint o s0 s1
  | PV h subs =>
      (fix go (l : list path1) (off : Qc) {struct l} : Prop :=
         match l with
         | [] => True
         | y :: r =>
             (t0 <= off + plength y -> off <= t1 ->
              at_waypoint y (start y + qmax 0 (t0 - off)) (start y + qmin (plength y) (t1 - off)))
             /\ go r (off + plength y)
         end) subs 0
  | _ => True
  end.
End PathVelSpec.

(* no interpolated path anywhere inside *)
Fixpoint interp_free (p : path1) : Prop :=
  match p with
  | Interp _ _ => False
  | Extr _ o _ => interp_free o
  | PV _ subs => fold_right and True (map interp_free subs)
  | _ => True
  end.
