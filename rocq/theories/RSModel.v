(* Reeds and Shepp paths (src/reeds-shepp-path.cc,
   src/steering-method/reeds-shepp.cc, src/distance/reeds-shepp.cc), over the
   reals. *)
From Coq Require Import Reals ZArith List Bool.
From Verif Require Import Base XReal CurvModel DubinsModel.
Import ListNotations.
Open Scope R_scope.

(* l.59 sqrt (epsilon) = 2^-26; l.67 ZERO = 10 epsilon, epsilon = 2^-52 *)
Definition precision : R := / 67108864.
Definition zero_eps : R := 10 * / 4503599627370496.

(* types, l.73-92; None is RS_NOP *)
Definition rs_types (i : nat) : list (option seg) :=
  let L := Some L_SEG in let R := Some R_SEG in let S := Some S_SEG in
  nth i [ [L; R; L; None; None]; [R; L; R; None; None];
          [L; R; L; R; None]; [R; L; R; L; None];
          [L; R; S; L; None]; [R; L; S; R; None];
          [L; S; R; L; None]; [R; S; L; R; None];
          [L; R; S; R; None]; [R; L; S; L; None];
          [R; S; R; L; None]; [L; S; L; R; None];
          [L; S; R; None; None]; [R; S; L; None; None];
          [L; S; L; None; None]; [R; S; R; None; None];
          [L; R; S; L; R]; [R; L; S; R; L] ] [].

(* rotate, l.94-101 *)
Definition rotate (u0 u1 c s : R) : R * R := (u0 * c + u1 * s, - u0 * s + u1 * c).

(* fmod of the C library: rounds the quotient toward zero *)
Definition trunc (x : R) : R := if rleb 0 x then floor x else - floor (- x).
(* mod2pi, l.103-110 *)
Definition rmod2pi (x : R) : R :=
  let v := x - 2 * PI * trunc (x / (2 * PI)) in
  if rltb v (- PI) then v + 2 * PI else if rltb PI v then v - 2 * PI else v.
(* polar, l.117-121 *)
Definition polar_r (x y : R) : R := sqrt (x * x + y * y).
Definition polar_t (x y : R) : R := atan2 y x.
(* tauOmega, l.122-130 *)
Definition tau_omega (u v xi eta phi : R) : R * R :=
  let delta := rmod2pi (u - v) in
  let A := sin u - sin delta in
  let B := cos u - cos delta - 1 in
  let t1 := atan2 (eta * A - xi * B) (xi * A + eta * B) in
  let t2 := 2 * (cos delta - cos v - cos u) + 3 in
  let tau := if rltb t2 0 then rmod2pi (t1 + PI) else rmod2pi t1 in
  (tau, rmod2pi (tau - u + v - phi)).

Definition nonneg (x : R) : bool := rleb (- zero_eps) x.   (* x >= -ZERO *)
Definition nonpos (x : R) : bool := rleb x zero_eps.       (* x <= ZERO *)

(* The formulas: position (x, y), cosine and sine of the heading, heading;
   None when the function returns false. *)
Definition formula := R -> R -> R -> R -> R -> option out.
(* 8.1, l.132-147 *)
Definition LpSpLp : formula := fun x y c s phi =>
  let u := polar_r (x - s) (y - 1 + c) in
  let t := polar_t (x - s) (y - 1 + c) in
  if nonneg t then let v := rmod2pi (phi - t) in if nonneg v then Some (t, u, v) else None else None.
(* 8.2, l.148-167 *)
Definition LpSpRp : formula := fun x y c s phi =>
  let u1 := polar_r (x + s) (y - 1 - c) in
  let t1 := polar_t (x + s) (y - 1 - c) in
  let u1 := u1 * u1 in
  if rleb 4 u1 then
    let u := sqrt (u1 - 4) in
    let t := rmod2pi (t1 + atan2 2 u) in
    let v := rmod2pi (t - phi) in
    if nonneg t && nonneg v then Some (t, u, v) else None
  else None.
(* 8.3 / 8.4, l.232-248 *)
Definition LpRmL : formula := fun x y c s phi =>
  let u1 := polar_r (x - s) (y - 1 + c) in
  let theta := polar_t (x - s) (y - 1 + c) in
  if rleb u1 4 then
    let u := -2 * asin (/ 4 * u1) in
    let t := rmod2pi (theta + / 2 * u + PI) in
    let v := rmod2pi (phi - t + u) in
    if nonneg t && nonpos u then Some (t, u, v) else None
  else None.
(* 8.7, l.305-322 *)
Definition LpRupLumRm : formula := fun x y c s phi =>
  let xi := x + s in let eta := y - 1 - c in
  let rho := / 4 * (2 + sqrt (xi * xi + eta * eta)) in
  if rleb rho 1 then
    let u := acos rho in
    let '(t, v) := tau_omega u (- u) xi eta phi in
    if nonneg t && nonpos v then Some (t, u, v) else None
  else None.
(* 8.8, l.323-341 *)
Definition LpRumLumRp : formula := fun x y c s phi =>
  let xi := x + s in let eta := y - 1 - c in
  let rho := (20 - xi * xi - eta * eta) / 16 in
  if rleb 0 rho && rleb rho 1 then
    let u := - acos rho in
    if rleb (- / 2 * PI) u then
      let '(t, v) := tau_omega u u xi eta phi in
      if nonneg t && nonneg v then Some (t, u, v) else None
    else None
  else None.
(* 8.9, l.395-414 *)
Definition LpRmSmLm : formula := fun x y c s phi =>
  let rho := polar_r (x - s) (y - 1 + c) in
  let theta := polar_t (x - s) (y - 1 + c) in
  if rleb 2 rho then
    let r := sqrt (rho * rho - 4) in
    let u := 2 - r in
    let t := rmod2pi (theta + atan2 r (-2)) in
    let v := rmod2pi (phi - / 2 * PI - t) in
    if nonneg t && nonpos u && nonpos v then Some (t, u, v) else None
  else None.
(* 8.10, l.415-431 *)
Definition LpRmSmRm : formula := fun x y c s phi =>
  let xi := x + s in let eta := y - 1 - c in
  let rho := polar_r (- eta) xi in
  let theta := polar_t (- eta) xi in
  if rleb 2 rho then
    let t := theta in
    let u := 2 - rho in
    let v := rmod2pi (t + / 2 * PI - phi) in
    if nonneg t && nonpos u && nonpos v then Some (t, u, v) else None
  else None.
(* 8.11, l.544-564 *)
Definition LpRmSLmRp : formula := fun x y c s phi =>
  let xi := x + s in let eta := y - 1 - c in
  let rho := polar_r xi eta in
  if rleb 2 rho then
    let u := 4 - sqrt (rho * rho - 4) in
    if nonpos u then
      let t := rmod2pi (atan2 ((4 - u) * xi - 2 * eta) (-2 * xi + (u - 4) * eta)) in
      let v := rmod2pi (t - phi) in
      if nonneg t && nonneg v then Some (t, u, v) else None
    else None
  else None.

(* One statement [if (formula && Lmin > L) setupPath], l.181-231 ...: type,
   lengths given to setupPath and length L compared with the least one. *)
Definition cand := option (nat * list R * R).
Definition mk (ty : nat) (ls : R -> R -> R -> list R) (cost : R -> R -> R -> R) (o : option out) : cand :=
  match o with None => None | Some (t, u, v) => Some (ty, ls t u v, cost t u v) end.
Definition cost1 (t u v : R) : R := Rabs t + Rabs u + Rabs v.
Definition cost2 (t u v : R) : R := Rabs t + 2 * Rabs u + Rabs v.
Definition opp (l : list R) : list R := map Ropp l.
(* a formula and its symmetries: identity, timeflip, reflect, both *)
Definition four (f : formula) (a b : nat) (ls : R -> R -> R -> list R) (cost : R -> R -> R -> R)
    (x y c s phi : R) : list cand :=
  [ mk a ls cost (f x y c s phi);
    mk a (fun t u v => opp (ls t u v)) cost (f (- x) y c (- s) (- phi));
    mk b ls cost (f x (- y) c (- s) (- phi));
    mk b (fun t u v => opp (ls t u v)) cost (f (- x) (- y) c s phi) ].

(* CSC, l.181-231 *)
Definition CSC (x y c s phi : R) : list cand :=
  four LpSpLp 14 15 (fun t u v => [t; u; v; 0; 0]) cost1 x y c s phi ++
  four LpSpRp 12 13 (fun t u v => [t; u; v; 0; 0]) cost1 x y c s phi.
(* xyb, in CCC and CCSC *)
Definition xb (x y c s : R) : R := x * c + y * s.
Definition yb (x y c s : R) : R := x * s - y * c.
(* CCC, l.249-304 *)
Definition CCC (x y c s phi : R) : list cand :=
  four LpRmL 0 1 (fun t u v => [t; u; v; 0; 0]) cost1 x y c s phi ++
  four LpRmL 0 1 (fun t u v => [v; u; t; 0; 0]) cost1 (xb x y c s) (yb x y c s) c s phi.
(* CCCC, l.343-394 *)
Definition CCCC (x y c s phi : R) : list cand :=
  four LpRupLumRm 2 3 (fun t u v => [t; u; - u; v; 0]) cost2 x y c s phi ++
  four LpRumLumRp 2 3 (fun t u v => [t; u; u; v; 0]) cost2 x y c s phi.
(* CCSC, l.432-543 *)
Definition CCSC (x y c s phi : R) : list cand :=
  four LpRmSmLm 4 5 (fun t u v => [t; - / 2 * PI; u; v; 0]) cost1 x y c s phi ++
  four LpRmSmRm 8 9 (fun t u v => [t; - / 2 * PI; u; v; 0]) cost1 x y c s phi ++
  four LpRmSmLm 6 7 (fun t u v => [v; u; - / 2 * PI; t; 0]) cost1 (xb x y c s) (yb x y c s) c s phi ++
  four LpRmSmRm 10 11 (fun t u v => [v; u; - / 2 * PI; t; 0]) cost1 (xb x y c s) (yb x y c s) c s phi.
(* CCSCC, l.565-591 *)
Definition CCSCC (x y c s phi : R) : list cand :=
  four LpRmSLmRp 16 17 (fun t u v => [t; - / 2 * PI; u; - / 2 * PI; v]) cost1 x y c s phi.

(* Data, l.48-57: None before the first setupPath (rsLength is infinite, the
   type and the lengths are not initialised) *)
Definition data := option (nat * list R).
Definition norm1 (l : list R) : R := fold_right (fun x n => Rabs x + n) 0 l.
(* l.169-179 *)
Definition rs_length (rho : R) (d : data) : option R :=
  match d with None => None | Some (_, l) => Some (rho * norm1 l) end.
Definition above (Lmin : option R) (L : R) : bool :=
  match Lmin with None => true | Some m => rltb L m end.
Fixpoint pick (cs : list cand) (Lmin : option R) (d : data) : data :=
  match cs with
  | [] => d
  | None :: cs' => pick cs' Lmin d
  | Some (ty, ls, L) :: cs' =>
      if above Lmin L then pick cs' (Some L) (Some (ty, ls)) else pick cs' Lmin d
  end.
(* one family; [extra] is subtracted from the least length at its entrance *)
Definition family (rho extra : R) (cs : list cand) (d : data) : data :=
  pick cs (match rs_length rho d with None => None | Some m => Some (m - extra) end) d.
(* l.638-642 *)
Definition rs_search (rho x y c s phi : R) : data :=
  family rho PI (CCSCC x y c s phi)
    (family rho (/ 2 * PI) (CCSC x y c s phi)
      (family rho 0 (CCCC x y c s phi)
        (family rho 0 (CCC x y c s phi)
          (family rho 0 (CSC x y c s phi) None)))).

(* l.617-622 *)
Definition rs_params (rho : R) (q0 q1 : cfg) : R * R * R * R * R :=
  let '(X, Y) := rotate (cx q1 - cx q0) (cy q1 - cy q0) (cc q0) (cs q0) in
  let '(c, s) := rotate (cc q1) (cs q1) (cc q0) (cs q0) in
  (X / rho, Y / rho, c, s, atan2 s c).

(* l.643-676: [sm] is the length so far, [q] the configuration reached *)
Fixpoint rs_segments (rho extra L : R) (ws : list wheel) (q0 q1 : cfg) (q : cfg) (sm : R)
    (tys : list (option seg)) (ls : list R) : res (list cpath) :=
  match tys, ls with
  | ty :: tys', l :: ls' =>
      if rltb precision (Rabs l) then
        let len := rho * Rabs l in
        let sm := sm + len in
        match ty with
        | None => Ok []
        | Some sg =>
            do wv <- wheel_values (seg_curvature rho sg) ws ;
            let p := cc_create q (interpolate q0 q1 (sm / L)) (rho * l) (len * (1 + extra / L))
                       (seg_curvature rho sg) wv in
            do r <- rs_segments rho extra L ws q0 q1 (p_end p) sm tys' ls' ;
            Ok (p :: r)
        end
      else rs_segments rho extra L ws q0 q1 q sm tys' ls'
  | _, _ => Ok []
  end.

(* reedsSheppPathOrDistance, l.603-684, path; when no formula applies the
   type and the lengths are not initialised *)
Definition near (x y phi : R) : bool := rltb (x * x + y * y + phi * phi) (/ 100000000).
Definition rs_path (rho : R) (ws : list wheel) (extra : R) (q0 q1 : cfg) : res (list cpath) :=
  let '(x, y, c, s, phi) := rs_params rho q0 q1 in
  if near x y phi then
    do wv <- wheel_values 0 ws ;
    Ok [cc_create q0 q1 0 extra 0 wv]
  else
    match rs_search rho x y c s phi with
    | None => UB
    | Some (ty, ls) => rs_segments rho extra (rho * norm1 ls) ws q0 q1 q0 0 (rs_types ty) ls
    end.
(* ... distance *)
Definition rs_distance (rho extra : R) (q0 q1 : cfg) : res R :=
  let '(x, y, c, s, phi) := rs_params rho q0 q1 in
  if near x y phi then Ok extra
  else match rs_search rho x y c s phi with None => UB | Some (_, ls) => Ok (rho * norm1 ls + extra) end.

(* ReedsShepp::impl_compute, steering-method/reeds-shepp.cc l.41-64, and
   ReedsShepp::impl_distance, distance/reeds-shepp.cc l.120-141; [dist] is the
   weighed distance *)
Definition rs_extra (dist : cfg -> cfg -> R) (ws : list wheel) (q1 q2 : cfg) : R :=
  dist q1 {| cx := cx q1; cy := cy q1; cc := cc q1; cs := cs q1;
             cj := set_all (map (fun w => (w_rank w, cj q1 (w_rank w))) ws) (cj q2) |}.
Definition rs_steer (dist : cfg -> cfg -> R) (rho : R) (ws : list wheel) (q1 q2 : cfg) : res (list cpath) :=
  rs_path rho ws (rs_extra dist ws q1 q2) q1 q2.
Definition rs_dist (dist : cfg -> cfg -> R) (rho : R) (ws : list wheel) (q1 q2 : cfg) : res R :=
  rs_distance rho (rs_extra dist ws q1 q2) q1 q2.
