(* Time parameterization of paths of constant curvature
   (src/path-optimization/reeds-shepp/piecewise-quadratic.{hh,cc} and
   src/path-optimization/rs-time-parameterization.cc), over the reals.
   Asserts are compiled out. *)
From Coq Require Import Reals ZArith List Bool.
From Verif Require Import Base XReal CurvModel.
Import ListNotations.
Open Scope R_scope.

(* Members of PiecewiseQuadratic, hh l.92-94; the vectors a_, b_ and c_ grow
   together and are one list of triples *)
Record law := { l_times : list R; l_pieces : list (R * R * R); l_init : R }.

(* hh l.77-79 *)
Definition law_create (v : R) : law := {| l_times := [0]; l_pieces := []; l_init := v |}.
(* push_back of the coefficients and of the date of the end of the piece *)
Definition push (q : law) (a b c dt : R) : law :=
  {| l_times := l_times q ++ [last (l_times q) 0 + dt];
     l_pieces := l_pieces q ++ [(a, b, c)]; l_init := l_init q |}.

(* definitionInterval, cc l.39-41: from 0 to ... *)
Definition law_end (q : law) : R := last (l_times q) 0.

(* findInterval, cc l.43-51 *)
Fixpoint find_from (ts : list R) (i : nat) (t : R) : nat :=
  match ts with
  | [] => i
  | ti :: ts' => if rleb t ti then i else find_from ts' (S i) t
  end.
Definition find_interval (q : law) (t : R) : nat :=
  find_from (tl (l_times q)) 0 (if rltb t 0 then 0 else t).

(* the piece and the date of its beginning; reading a_[i] out of range is
   undefined *)
Definition piece_at (q : law) (t : R) : res (R * (R * R * R)) :=
  let i := find_interval q t in
  match nth_error (l_times q) i, nth_error (l_pieces q) i with
  | Some ti, Some p => Ok (ti, p)
  | _, _ => UB
  end.
(* value, cc l.53-58 *)
Definition law_value (q : law) (t : R) : res R :=
  do (ti, (a, b, c)) <- piece_at q t ;
  Ok (a * (t - ti) * (t - ti) + b * (t - ti) + c).
(* derivative, cc l.59-73; the test on the index never succeeds *)
Definition law_derivative (q : law) (t : R) (order : Z) : res R :=
  do (ti, (a, b, _)) <- piece_at q t ;
  Ok (if (order =? 1)%Z then 2 * a * (t - ti) + b
      else if (order =? 2)%Z then 2 * a else 0).
(* derivativeBound, cc l.74-77 *)
Definition law_bound (q : law) (low up : R) : res R :=
  do a <- law_derivative q low 1 ;
  do b <- law_derivative q up 1 ;
  Ok (Rmax (Rabs a) (Rabs b)).

(* addSegments, cc l.79-183 *)
Definition add_segments (q : law) (distance accel decel maxVel targetVel : R) : law :=
  if rltb distance (/ 100000000) then q
  else
    let v0 := l_init q in
    let tacc := (maxVel - v0) / accel in
    let tdec := (maxVel - targetVel) / decel in
    let dacc := / 2 * tacc * (v0 + maxVel) in
    let ddec := / 2 * tdec * (targetVel + maxVel) in
    if rltb (dacc + ddec) distance then
      let remaining := distance - dacc + ddec in
      let tint := remaining / maxVel in
      let q := push q (/ 2 * accel) v0 0 tacc in
      let e := / 2 * accel * tacc * tacc + v0 * tacc + 0 in
      let v := 2 * (/ 2 * accel) * tacc + v0 in
      let q := push q 0 v e tint in
      let e := 0 * tint * tint + v * tint + e in
      let v := 2 * 0 * tint + v in
      push q (- / 2 * decel) v e tdec
    else if rltb distance (/ 2 * (v0 * v0 - targetVel * targetVel) / decel) then
      let decel2 := / 2 * (v0 * v0 - targetVel * targetVel) / distance in
      let tdec := (v0 - targetVel) / decel2 in
      push q (- / 2 * decel2) v0 0 tdec
    else
      let vmax := sqrt (decel * accel / (decel + accel) *
                        (2 * distance + v0 * v0 / accel + targetVel * targetVel / decel)) in
      let tacc := (vmax - v0) / accel in
      let tdec := (vmax - targetVel) / decel in
      let q := push q (/ 2 * accel) v0 0 tacc in
      let e := / 2 * accel * tacc * tacc + v0 * tacc + 0 in
      let v := 2 * (/ 2 * accel) * tacc + v0 in
      push q (- / 2 * decel) v e tdec.

(* A path with its time parameterization; Path::timeParameterization and
   Path::timeRange (path.hh l.225-229 and l.283-290) set the range of
   parameters to the values of the law at the ends of the range of times. *)
Record tpath := { tp_path : cpath; tp_law : law; tp_first : R; tp_second : R }.
Definition set_params (p : cpath) (a b : R) : cpath :=
  {| p_init := p_init p; p_end := p_end p; p_cl := p_cl p; p_kappa := p_kappa p;
     p_t0 := a; p_t1 := b; p_fwd := p_fwd p; p_wheels := p_wheels p |}.
Definition time_parameterization (p : cpath) (q : law) (first second : R) : res tpath :=
  do a <- law_value q first ;
  do b <- law_value q second ;
  Ok {| tp_path := set_params p a b; tp_law := q; tp_first := first; tp_second := second |}.

(* Path::operator() (path.hh l.340-345); the paths have no constraints *)
Definition tp_at (p : tpath) (t : R) : res cfg :=
  do s <- law_value (tp_law p) t ; Ok (cc_compute (tp_path p) s).
Definition scale (k : R) (v : vel) : vel :=
  {| vx := vx v * k; vy := vy v * k; vth := vth v * k; vj := fun i => vj v i * k |}.
(* Path::derivative, order 1, path.cc l.148-155 *)
Definition tp_derivative (p : tpath) (t : R) : res vel :=
  do s <- law_value (tp_law p) t ;
  do v <- cc_derivative (tp_path p) s 1 ;
  do d <- law_derivative (tp_law p) t 1 ;
  Ok (scale d v).
(* Path::velocityBound, path.hh l.172-178 *)
Definition tp_velocity_bound (p : tpath) (t0 t1 : R) : res vel :=
  do s0 <- law_value (tp_law p) (Rmax t0 (tp_first p)) ;
  do s1 <- law_value (tp_law p) (Rmin t1 (tp_second p)) ;
  do d <- law_bound (tp_law p) t0 t1 ;
  Ok (scale d (cc_velocity_bound (tp_path p) s0 s1)).

(* Parameters, rs-time-parameterization.cc l.50-68 *)
Record rst := { minLin : R; maxLin : R; maxAng : R; accLin : R; decLin : R }.
(* l.72: square root of the machine precision *)
Definition rst_eps : R := / 67108864.

(* l.95-103; when a path has length 0 its derivative is not a number and the
   comparison is false *)
Definition same_direction (p : cpath) (v0 : vel) : bool :=
  match cc_derivative p (p_t0 p) 1 with
  | Ok v1 => rltb (sqrt ((vx v1 - vx v0) * (vx v1 - vx v0) + (vy v1 - vy v0) * (vy v1 - vy v0))) (/ 1000)
  | _ => false
  end.
(* l.106-121: maximal velocity and accelerations of a segment *)
Definition limits (c : rst) (curvature : R) : R * R * R :=
  if rltb (curvature * maxLin c) (maxAng c) then (maxLin c, accLin c, decLin c)
  else
    let m := maxAng c / curvature in
    (m, accLin c * m / maxLin c, decLin c * m / maxLin c).

(* loop of optimize, l.86-130, on the flattened path; the segments of the
   input have no time parameterization: range of times and range of
   parameters are the same *)
Fixpoint optimize_loop (c : rst) (initVel : R) (ps : list cpath) : res (list tpath) :=
  match ps with
  | [] => Ok []
  | p :: ps' =>
      if rltb rst_eps (param_length p) then
        do v0 <- cc_derivative p (p_t1 p) 1 ;
        let targetVel := match ps' with
                         | [] => 0
                         | next :: _ => if same_direction next v0 then minLin c else 0
                         end in
        let '(m, acc, dec) := limits c (Rabs (vth v0)) in
        let q := add_segments (law_create initVel) (param_length p) acc dec m targetVel in
        do tp <- time_parameterization p q 0 (law_end q) ;
        do r <- optimize_loop c (minLin c) ps' ;
        Ok (tp :: r)
      else optimize_loop c initVel ps'
  end.
Definition rs_optimize (c : rst) (ps : list cpath) : res (list tpath) := optimize_loop c 0 ps.
