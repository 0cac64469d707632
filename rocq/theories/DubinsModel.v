(* Dubins paths (src/dubins.cc, src/dubins.hh, src/dubins-path.cc,
   src/steering-method/dubins.cc), over the reals. *)
From Coq Require Import Reals ZArith List Bool.
From Verif Require Import Base XReal CurvModel.
Import ListNotations.
Open Scope R_scope.

(* dubins.cc l.35-37 *)
Definition fmodr (x y : R) : R := x - y * floor (x / y).
Definition mod2pi (t : R) : R := fmodr t (2 * PI).

(* dubins.hh l.32-34 *)
Inductive seg := L_SEG | S_SEG | R_SEG.
Inductive word := LSL | LSR | RSL | RSR | RLR | LRL.
(* dubins.hh l.44-46 *)
Definition dirdata (w : word) : list seg :=
  match w with
  | LSL => [L_SEG; S_SEG; L_SEG] | LSR => [L_SEG; S_SEG; R_SEG]
  | RSL => [R_SEG; S_SEG; L_SEG] | RSR => [R_SEG; S_SEG; R_SEG]
  | RLR => [R_SEG; L_SEG; R_SEG] | LRL => [L_SEG; R_SEG; L_SEG]
  end.

(* outputs of the words; None: EDUBNOPATH *)
Definition out := (R * R * R)%type.

(* dubins.cc l.39-52 *)
Definition dubins_LSL (al be d : R) : option out :=
  let sa := sin al in let sb := sin be in let ca := cos al in let cb := cos be in
  let c_ab := cos (al - be) in
  let tmp0 := d + sa - sb in
  let p2 := 2 + d * d - 2 * c_ab + 2 * d * (sa - sb) in
  if rltb p2 0 then None
  else
    let tmp1 := atan2 (cb - ca) tmp0 in
    Some (mod2pi (- al + tmp1), sqrt p2, mod2pi (be - tmp1)).
(* l.54-67 *)
Definition dubins_RSR (al be d : R) : option out :=
  let sa := sin al in let sb := sin be in let ca := cos al in let cb := cos be in
  let c_ab := cos (al - be) in
  let tmp0 := d - sa + sb in
  let p2 := 2 + d * d - 2 * c_ab + 2 * d * (sb - sa) in
  if rltb p2 0 then None
  else
    let tmp1 := atan2 (ca - cb) tmp0 in
    Some (mod2pi (al - tmp1), sqrt p2, mod2pi (- be + tmp1)).
(* l.69-81 *)
Definition dubins_LSR (al be d : R) : option out :=
  let sa := sin al in let sb := sin be in let ca := cos al in let cb := cos be in
  let c_ab := cos (al - be) in
  let p2 := -2 + d * d + 2 * c_ab + 2 * d * (sa + sb) in
  if rltb p2 0 then None
  else
    let p := sqrt p2 in
    let tmp2 := atan2 (- ca - cb) (d + sa + sb) - atan2 (-2) p in
    Some (mod2pi (- al + tmp2), p, mod2pi (- mod2pi be + tmp2)).
(* l.83-95 *)
Definition dubins_RSL (al be d : R) : option out :=
  let sa := sin al in let sb := sin be in let ca := cos al in let cb := cos be in
  let c_ab := cos (al - be) in
  let p2 := d * d - 2 + 2 * c_ab - 2 * d * (sa + sb) in
  if rltb p2 0 then None
  else
    let p := sqrt p2 in
    let tmp2 := atan2 (ca + cb) (d - sa - sb) - atan2 2 p in
    Some (mod2pi (al - tmp2), p, mod2pi (be - tmp2)).
(* l.97-108 *)
Definition dubins_RLR (al be d : R) : option out :=
  let sa := sin al in let sb := sin be in let ca := cos al in let cb := cos be in
  let c_ab := cos (al - be) in
  let tmp := (6 - d * d + 2 * c_ab + 2 * d * (sa - sb)) / 8 in
  if rltb 1 (Rabs tmp) then None
  else
    let p := mod2pi (2 * PI - acos tmp) in
    let t := mod2pi (al - atan2 (ca - cb) (d - sa + sb) + mod2pi (p / 2)) in
    Some (t, p, mod2pi (al - be - t + mod2pi p)).
(* l.110-121 *)
Definition dubins_LRL (al be d : R) : option out :=
  let sa := sin al in let sb := sin be in let ca := cos al in let cb := cos be in
  let c_ab := cos (al - be) in
  let tmp := (6 - d * d + 2 * c_ab + 2 * d * (- sa + sb)) / 8 in
  if rltb 1 (Rabs tmp) then None
  else
    let p := mod2pi (2 * PI - acos tmp) in
    let t := mod2pi (- al - atan2 (ca - cb) (d + sa - sb) + p / 2) in
    Some (t, p, mod2pi (mod2pi be - al - t + mod2pi p)).

(* dubins.cc l.26-28 *)
Definition dubins_words : list word := [LSL; LSR; RSL; RSR; RLR; LRL].
Definition dubins_word (w : word) : R -> R -> R -> option out :=
  match w with
  | LSL => dubins_LSL | LSR => dubins_LSR | RSL => dubins_RSL
  | RSR => dubins_RSR | RLR => dubins_RLR | LRL => dubins_LRL
  end.

Definition cost (o : out) : R := let '(t, p, q) := o in t + p + q.

(* dubins-path.cc l.171-200, loop over the words; the best cost is infinite
   as long as no word is kept *)
Fixpoint best_word (ws : list word) (al be d : R) (best : option (word * out)) : option (word * out) :=
  match ws with
  | [] => best
  | w :: ws' =>
      best_word ws' al be d
        match dubins_word w al be d with
        | None => best
        | Some o =>
            match best with
            | None => Some (w, o)
            | Some (_, o') => if rltb (cost o) (cost o') then Some (w, o) else best
            end
        end
  end.
Definition dubins_init_normalised (al be d : R) : res (word * out) :=
  match best_word dubins_words al be d None with Some r => Ok r | None => Throw end.

(* angles and distance given to it: dubins-path.cc l.97-103 and l.206-218 *)
Definition dubins_params (rho : R) (q0 q1 : cfg) : R * R * R :=
  let dx := cx q1 - cx q0 in
  let dy := cy q1 - cy q0 in
  let D := sqrt (dx * dx + dy * dy) in
  let theta := mod2pi (atan2 dy dx) in
  (mod2pi (atan2 (cs q0) (cc q0) - theta), mod2pi (atan2 (cs q1) (cc q1) - theta), D / rho).

(* l.247-260 *)
Definition seg_curvature (rho : R) (s : seg) : R :=
  match s with L_SEG => 1 / rho | S_SEG => 0 | R_SEG => -1 / rho end.

(* l.246-267: the segments; at each step the configuration reached so far,
   the remaining types, lengths and next configurations *)
Fixpoint dubins_segments (rho extra L : R) (ws : list wheel) (q : cfg)
    (ss : list seg) (ls : list R) (next : list cfg) : res (list cpath) :=
  match ss, ls, next with
  | s :: ss', l :: ls', q' :: next' =>
      do wv <- wheel_values (seg_curvature rho s) ws ;
      let p := cc_create q q' (rho * l) (rho * l + l / L * extra) (seg_curvature rho s) wv in
      do r <- dubins_segments rho extra L ws (p_end p) ss' ls' next' ;
      Ok (p :: r)
  | _, _, _ => Ok []
  end.

(* pinocchio::interpolate, l.240-244; the position and the heading are
   overwritten by the segments *)
Definition interpolate (q0 q1 : cfg) (u : R) : cfg :=
  {| cx := cx q1; cy := cy q1; cc := cc q1; cs := cs q1;
     cj := fun k => cj q0 k + u * (cj q1 k - cj q0 k) |}.

(* DubinsPath::DubinsPath, l.81-133, with dubins_init, l.206-268.  When the
   three lengths are 0, l.237 divides 0 by 0: the lengths of the segments are
   not numbers. *)
Definition dubins_path (rho : R) (ws : list wheel) (extra : R) (q0 q1 : cfg) : res (list cpath) :=
  let '(al, be, d) := dubins_params rho q0 q1 in
  do r <- dubins_init_normalised al be d ;
  let '(w, (t, p, q)) := r in
  let L := t + p + q in
  if reqb L 0 then UB
  else dubins_segments rho extra L ws q0 (dirdata w) [t; p; q]
         [interpolate q0 q1 (t / L); interpolate q0 q1 ((t + p) / L); q1].

(* Dubins::impl_compute, steering-method/dubins.cc l.39-57; [dist] is the
   distance of the problem *)
Definition dubins_steer (dist : cfg -> cfg -> R) (rho : R) (ws : list wheel) (q1 q2 : cfg) : res (list cpath) :=
  let qEnd := {| cx := cx q1; cy := cy q1; cc := cc q1; cs := cs q1;
                 cj := set_all (map (fun w => (w_rank w, cj q1 (w_rank w))) ws) (cj q2) |} in
  dubins_path rho ws (dist q1 qEnd) q1 q2.
