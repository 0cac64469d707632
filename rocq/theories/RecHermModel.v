(* Recursive projection of Hermite paths (src/path/hermite.cc,
   include/hpp/core/path/hermite.hh, include/hpp/core/steering-method/hermite.hh,
   src/path-projector/recursive-hermite.cc), over the reals.

   Simplifications: the configuration space is a vector space of dimension n,
   there is no time parameterization, the right hand sides of the constraints
   do not depend on the parameter, asserts are compiled out.  The loop over the
   elements of a path vector is in PathProjModel.v. *)
From Coq Require Import Reals List Bool.
From Verif Require Import Base XReal SplineModel.
Import ListNotations.
Open Scope R_scope.

Definition vec := nat -> R.
(* norm (), over n coordinates *)
Definition norm (n : nat) (v : vec) : R := sqrt (rsum (fun d => v d * v d) n).
Definition vminus (a b : vec) : vec := fun d => a d - b d.
Definition vdiv (a : vec) (k : R) : vec := fun d => a d / k.

(* Members of Hermite, hermite.hh l.146-149, and of Spline *)
Record hermite := { h_init : vec; h_end : vec; h_spl : spline; h_length : R }.
Definition row (p : hermite) (i : nat) : vec := sp_par (h_spl p) i.
Definition set_row (s : spline) (i : nat) (v : vec) : spline :=
  mkSpline (sp_deg s) (sp_nv s) (sp_base s) (fun j => if (j =? i)%nat then v else sp_par s j) (sp_t0 s) (sp_t1 s).
(* hermite.hh l.97-119 *)
Definition set_v0 (p : hermite) (v : vec) : hermite :=
  {| h_init := h_init p; h_end := h_end p; h_length := -1;
     h_spl := set_row (h_spl p) 1 (fun d => row p 0 d + v d / 3) |}.
Definition set_v1 (p : hermite) (v : vec) : hermite :=
  {| h_init := h_init p; h_end := h_end p; h_length := -1;
     h_spl := set_row (h_spl p) 2 (fun d => row p 3 d - v d / 3) |}.
Definition get_v0 (p : hermite) : vec := fun d => 3 * (row p 1 d - row p 0 d).
Definition get_v1 (p : hermite) : vec := fun d => 3 * (row p 3 d - row p 2 d).
(* computeHermiteLength, hermite.cc l.96-101 *)
Definition compute_length (n : nat) (p : hermite) : hermite :=
  {| h_init := h_init p; h_end := h_end p; h_spl := h_spl p;
     h_length := norm n (vminus (row p 1) (row p 0)) + norm n (vminus (row p 2) (row p 1)) +
                 norm n (vminus (row p 3) (row p 2)) |}.

(* Constraints with a config projector: isSatisfied, apply (None when it
   fails), projectVectorOnKernel, and whether its dimension is 0. *)
Record hcons := { k_sat : vec -> bool; k_apply : vec -> option vec; k_kernel : vec -> vec -> vec; k_dim0 : bool }.

Section RecHermite.
Variable n : nat.
Variable k : hcons.

(* Constructor and projectVelocities, hermite.cc l.40-55 and l.75-94 *)
Definition hermite_create (q1 q2 : vec) : hermite :=
  let d := vminus q2 q1 in
  let s := mkSpline 3 n q1 (fun i => if (i =? 3)%nat then d else fun _ => 0) 0 1 in
  let p := {| h_init := q1; h_end := q2; h_spl := s; h_length := -1 |} in
  set_v1 (set_v0 p (k_kernel k q1 d)) (k_kernel k q2 d).
(* SteeringMethod::operator (), steering-method.hh l.54-63, with
   Hermite::impl_compute, steering-method/hermite.hh l.66-73.  Hermite::init
   checks the ends of the path (path.cc l.235-265); the exception is caught by
   the steering method, which returns a null pointer. *)
Definition steer (q1 q2 : vec) : option hermite :=
  if k_sat k q1 && k_sat k q2 then Some (compute_length n (hermite_create q1 q2)) else None.

(* eval (t, success): path.hh l.130-132 *)
Definition h_eval (p : hermite) (t : R) : option vec := k_apply k (sp_compute (h_spl p) t).
(* velocity (t), hermite.cc l.103-114 *)
Definition h_velocity (p : hermite) (t : R) : res vec :=
  match h_eval p t with
  | None => Throw
  | Some q => Ok (k_kernel k q (sp_derivative (h_spl p) t 1))
  end.

(* recurse, recursive-hermite.cc l.207-260: the result and what was appended
   to proj *)
Fixpoint recurse (beta thr : R) (fuel : nat) (p : hermite) : res (bool * list hermite) :=
  match fuel with
  | O => Fuel
  | S fuel' =>
      if rltb (h_length p) thr then Ok (true, [p])
      else
        match h_eval p (/ 2) with
        | None => Ok (false, [])
        | Some q1 =>
            do v <- h_velocity p (/ 2) ;
            let vHalf := vdiv v 2 in
            match steer (h_init p) q1 with
            | None => Throw
            | Some lp =>
                let lp := compute_length n (set_v1 (set_v0 lp (vdiv (get_v0 p) 2)) vHalf) in
                match steer q1 (h_end p) with
                | None => Throw
                | Some rp =>
                    let rp := compute_length n (set_v1 (set_v0 rp vHalf) (vdiv (get_v1 p) 2)) in
                    let stopThr := beta * h_length p in
                    let lStop := rltb stopThr (h_length lp) in
                    let rStop := rltb stopThr (h_length rp) in
                    if lStop then Ok (false, [])
                    else
                      do (ok, l) <- recurse beta thr fuel' lp ;
                      if negb ok then Ok (false, l)
                      else if rStop then Ok (false, l)
                      else
                        do (ok', r) <- recurse beta thr fuel' rp ;
                        Ok (ok', l ++ r)
                end
            end
        end
  end.

(* The path given to project: a Hermite path, an interpolated path with its
   points, or another path *)
Inductive input := IHermite (p : hermite) | IPoints (a : vec) (l : list vec) | IOther (a b : vec).
Definition in_init (i : input) : vec := match i with IHermite p => h_init p | IPoints a _ => a | IOther a _ => a end.
Definition in_end (i : input) : vec := match i with IHermite p => h_end p | IPoints a l => last l a | IOther _ b => b end.

(* l.116-143: the Hermite paths, null when the steering method fails *)
Fixpoint steers (a : vec) (l : list vec) : list (option hermite) :=
  match l with [] => [] | b :: l' => steer a b :: steers b l' end.
Definition pieces (i : input) : list (option hermite) :=
  match i with IHermite p => [Some p] | IPoints a l => steers a l | IOther a b => [steer a b] end.

(* l.146-162; using a null pointer is undefined *)
Fixpoint project_loop (beta thr : R) (fuel : nat) (ps : list (option hermite)) : res (bool * list hermite) :=
  match ps with
  | [] => Ok (true, [])
  | None :: _ => UB
  | Some p :: ps' =>
      let p := compute_length n p in
      if rltb (h_length p) thr then
        do (ok, r) <- project_loop beta thr fuel ps' ; Ok (ok, p :: r)
      else
        do (ok, l) <- recurse beta thr fuel p ;
        if negb ok then Ok (false, l)
        else do (ok', r) <- project_loop beta thr fuel ps' ; Ok (ok', l ++ r)
  end.

(* What project writes in proj: nothing, the path itself, a path vector, or
   the beginning of the path (extract on an interval of length 0) *)
Inductive written := Nothing | Same | Pieces (l : list hermite) | Beginning.
(* project, l.91-205; [eps] is the error threshold of the projector *)
Definition project (eps M beta : R) (fuel : nat) (i : input) : res (bool * written) :=
  if negb (k_sat k (in_end i)) then Ok (false, Nothing)
  else if k_dim0 k then Ok (true, Same)
  else
    do (ok, l) <- project_loop beta (2 * eps / M) fuel (pieces i) ;
    Ok (ok, if ok then Pieces l else match l with [] => Beginning | _ => Pieces l end).

(* create and constructor, l.43-73: the steering method is a Hermite one *)
Definition projector (eps M beta : R) : res (nat -> input -> res (bool * written)) :=
  if rltb beta (/ 2) || rltb 1 beta then Throw else Ok (project eps M beta).
End RecHermite.
