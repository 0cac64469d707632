(* Path of constant curvature of a car-like robot
   (src/steering-method/constant-curvature.cc), over the reals.

   A configuration is split into the position (x, y) of the robot, its heading
   as a pair cosine / sine, and the other degrees of freedom, indexed by their
   rank, all of them in a vector space (the C++ uses the Lie group operations
   of pinocchio, linear on vector spaces; the position and the heading written
   by these operations are overwritten in all the functions below).  Asserts
   are compiled out. *)
From Coq Require Import Reals ZArith List Bool.
From Verif Require Import Base XReal.
Import ListNotations.
Open Scope R_scope.

Record cfg := { cx : R; cy : R; cc : R; cs : R; cj : nat -> R }.
Record vel := { vx : R; vy : R; vth : R; vj : nat -> R }.

(* Members of ConstantCurvature (constant-curvature.hh l.180-189) and the
   range of parameters of Path. *)
Record cpath := {
  p_init : cfg; p_end : cfg;
  p_cl : R;                     (* curveLength_ *)
  p_kappa : R;                  (* curvature_ *)
  p_t0 : R; p_t1 : R;           (* paramRange() *)
  p_fwd : bool;                 (* forward_ == 1 *)
  p_wheels : list (nat * R)     (* rank of the joint, value *)
}.

(* constant-curvature.cc l.229-232 and l.307-310 *)
Fixpoint set_all (ws : list (nat * R)) (f : nat -> R) : nat -> R :=
  match ws with [] => f | (k, v) :: ws' => set_all ws' (upd f k v) end.

Definition param_length (p : cpath) : R := p_t1 p - p_t0 p.

(* l.203-205 *)
Definition abscissa (p : cpath) (t : R) : R :=
  if reqb (param_length p) 0 then 0 else (t - p_t0 p) / param_length p.

(* impl_compute, l.201-234 *)
Definition cc_compute (p : cpath) (param : R) : cfg :=
  let u := abscissa p param in
  let t := u * p_cl p in
  let x0 := cx (p_init p) in let y0 := cy (p_init p) in
  let c0 := cc (p_init p) in let s0 := cs (p_init p) in
  let c := cos (p_kappa p * t) in let s := sin (p_kappa p * t) in
  let xy :=
    if reqb (p_kappa p) 0 then (x0 + t * c0, y0 + t * s0)
    else
      let r := 1 / p_kappa p in
      (x0 + r * (s0 * (c - 1) + c0 * s), y0 + r * (c0 * (1 - c) + s0 * s)) in
  {| cx := fst xy; cy := snd xy;
     cc := c0 * c - s0 * s; cs := c0 * s + s0 * c;
     cj := set_all (p_wheels p)
             (fun k => cj (p_init p) k + u * (cj (p_end p) k - cj (p_init p) k)) |}.

(* Data of a wheel joint: rank, bounds, position in the frame of the robot
   (l.443 and l.459-460). *)
Record wheel := { w_rank : nat; w_lo : R; w_up : R; w_x : R; w_y : R }.
(* l.432-439 *)
Definition mean_bounds (w : wheel) : R := (w_up w + w_lo w) / 2.
Definition saturate (w : wheel) (v : R) : R := Rmin (w_up w) (Rmax (w_lo w) v).
(* std::atan (a / b), l.461; a / b is infinite when b is 0 and not a number
   when both are. *)
Definition atan_quot (a b : R) : res R :=
  if reqb b 0 then
    if rltb 0 a then Ok (PI / 2) else if rltb a 0 then Ok (- (PI / 2)) else UB
  else Ok (atan (a / b)).
(* setWheelJoints, l.441-467 *)
Definition wheel_value (kappa : R) (w : wheel) : res R :=
  if reqb kappa 0 then Ok (mean_bounds w)
  else
    do v <- atan_quot (w_x w) (1 / kappa - w_y w) ;
    Ok (saturate w (mean_bounds w + v)).
Fixpoint wheel_values (kappa : R) (ws : list wheel) : res (list (nat * R)) :=
  match ws with
  | [] => Ok []
  | w :: ws' =>
      do v <- wheel_value kappa w ;
      do l <- wheel_values kappa ws' ;
      Ok ((w_rank w, v) :: l)
  end.

Definition set_end (p : cpath) (q : cfg) : cpath :=
  {| p_init := p_init p; p_end := q; p_cl := p_cl p; p_kappa := p_kappa p;
     p_t0 := p_t0 p; p_t1 := p_t1 p; p_fwd := p_fwd p; p_wheels := p_wheels p |}.

(* Constructors, l.116-170; the values of the wheels are computed by
   wheel_values.  The ranks dxyId_ and drzId_ have no counterpart. *)
Definition cc_create (init fin : cfg) (cl pl kappa : R) (ws : list (nat * R)) : cpath :=
  let p := {| p_init := init; p_end := fin; p_cl := cl; p_kappa := kappa;
              p_t0 := 0; p_t1 := Rabs pl; p_fwd := rltb 0 cl; p_wheels := ws |} in
  set_end p (cc_compute p (p_t1 p)).

(* impl_derivative, l.236-311.  Order 1 on a path of length 0 divides by 0
   (l.245): not a number. *)
Definition cc_derivative (p : cpath) (param : R) (order : Z) : res vel :=
  let L := param_length p in
  let t := abscissa p param * p_cl p in
  let beta := if reqb L 0 then 1 else p_cl p / L in
  let alpha := Rabs beta in
  let alpha := if negb (p_fwd p) && (Z.rem order 2 =? 1)%Z then alpha * -1 else alpha in
  let c0 := cc (p_init p) in let s0 := cs (p_init p) in
  let k := p_kappa p in
  let c := cos (k * t) in let s := sin (k * t) in
  let C := c0 * c - s0 * s in let S := c0 * s + s0 * c in
  if (order <=? 0)%Z then Throw
  else if (order =? 1)%Z && reqb L 0 then UB
  else
    let m := alpha * (k * beta) ^ Z.to_nat (order - 1) in
    let dxy :=
      if (order =? 1)%Z then (alpha * C, alpha * S)
      else if (Z.rem order 4 =? 2)%Z then (m * S, - m * C)
      else if (Z.rem order 4 =? 3)%Z then (- m * C, - m * S)
      else if (Z.rem order 4 =? 0)%Z then (m * S, - m * C)
      else (m * C, m * S) in
    let dtheta := if (order =? 1)%Z then alpha * k else 0 in
    let joints := fun i =>
      if (order =? 1)%Z then (cj (p_end p) i - cj (p_init p) i) / L else 0 in
    Ok {| vx := C * fst dxy + S * snd dxy;
          vy := - S * fst dxy + C * snd dxy;
          vth := dtheta;
          vj := set_all (map (fun w => (fst w, 0)) (p_wheels p)) joints |}.

(* std::atan2 *)
Definition atan2 (y x : R) : R :=
  if rltb 0 x then atan (y / x)
  else if rltb x 0 then
    if rleb 0 y then atan (y / x) + PI else atan (y / x) - PI
  else if rltb 0 y then PI / 2
  else if rltb y 0 then - (PI / 2) else 0.

(* std::floor *)
Definition floor (x : R) : R := IZR (Int_part x).

(* l.49-56 *)
Definition abs_cos_max (t0 t1 : R) : R :=
  if rleb t1 PI then Rmax (Rabs (cos t0)) (Rabs (cos t1))
  else if rleb t0 PI then 1
  else Rmax (Rabs (cos t0)) (Rabs (cos t1)).
(* l.59-67 *)
Definition abs_sin_max (t0 t1 : R) : R :=
  if rleb t1 (PI / 2) then sin t1
  else if rleb t0 (PI / 2) then 1
  else if rleb (3 * (PI / 2)) t0 then - sin t0
  else if rleb (3 * (PI / 2)) t1 then 1
  else Rmax (sin t0) (sin t1).

(* impl_velocityBound, l.313-378; M_1_PI is 1 / PI *)
Definition cc_velocity_bound (p : cpath) (param0 param1 : R) : vel :=
  if reqb (p_t0 p) (p_t1 p) then {| vx := 0; vy := 0; vth := 0; vj := fun _ => 0 |}
  else
    let L := param_length p in
    let joints := fun i => Rabs (cj (p_end p) i - cj (p_init p) i) / L in
    let alpha := Rabs (p_cl p) / L in
    let k := p_kappa p in
    let M :=
      if negb (reqb k 0) then
        let a0 := k * p_cl p * (param0 - p_t0 p) / L in
        let a1 := k * p_cl p * (param1 - p_t0 p) / L in
        let t0 := if rltb a1 a0 then a1 else a0 in
        let t1 := if rltb a1 a0 then a0 else a1 in
        if rleb PI (t1 - t0) then (1, 1)
        else
          let tI := atan2 (cs (p_init p)) (cc (p_init p)) in
          let kd := floor ((t0 + tI) * (1 / PI) / 2) * 2 * PI in
          (abs_cos_max (t0 + tI - kd) (t1 + tI - kd),
           abs_sin_max (t0 + tI - kd) (t1 + tI - kd))
      else (1, 0) in
    {| vx := alpha * fst M; vy := alpha * snd M; vth := alpha * Rabs k;
       vj := set_all (map (fun w => (fst w, 0)) (p_wheels p)) joints |}.

(* impl_extract, l.380-417; without time parameterization the range of times
   is the range of parameters and length () its width *)
Definition cc_extract (p : cpath) (tmin tmax : R) : cpath :=
  let L := param_length p in
  let cl := if reqb L 0 then 0 else (tmax - tmin) / L * p_cl p in
  let pl := if reqb L 0 then 0 else Rabs (tmax - tmin) / L * L in
  let at_ t := if reqb t (p_t0 p) then p_init p
               else if reqb t (p_t1 p) then p_end p else cc_compute p t in
  {| p_init := at_ tmin; p_end := at_ tmax; p_cl := cl; p_kappa := p_kappa p;
     p_t0 := 0; p_t1 := pl; p_fwd := rltb 0 cl; p_wheels := p_wheels p |}.

(* reverse, l.419-430 *)
Definition cc_reverse (p : cpath) : cpath :=
  {| p_init := p_end p; p_end := p_init p; p_cl := - p_cl p; p_kappa := p_kappa p;
     p_t0 := 0; p_t1 := param_length p; p_fwd := rltb (p_cl p) 0;
     p_wheels := p_wheels p |}.
