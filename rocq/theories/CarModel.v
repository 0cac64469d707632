(* Car-like steering methods (src/steering-method/car-like.cc) and the
   distance of Reeds and Shepp (src/distance/reeds-shepp.cc): turning radius,
   wheels, copies.  The paths are those of RSModel.v. *)
From Coq Require Import Reals List Bool Ascii.
From Verif Require Import Base XReal CurvModel DubinsModel RSModel.
Import ListNotations.
Open Scope R_scope.

Definition name := list ascii.
Fixpoint name_eqb (a b : name) : bool :=
  match a, b with
  | [], [] => true
  | x :: a', y :: b' => Ascii.eqb x y && name_eqb a' b'
  | _, _ => false
  end.
(* A joint: its name, configSize and what wheels need *)
Record joint := { j_name : name; j_size : nat; j_wheel : wheel }.

(* boost::split (names, p, c == ','), adjacent separators not merged *)
Fixpoint split (p : name) : list name :=
  match p with
  | [] => [[]]
  | c :: p' =>
    match split p' with
    | [] => [[c]]
    | w :: ws => if Ascii.eqb c "," then [] :: w :: ws else (c :: w) :: ws
    end
  end.
(* l.99-113: the child joints of rz *)
Fixpoint find_wheels (n : name) (children : list joint) : res (bool * list wheel) :=
  match children with
  | [] => Ok (false, [])
  | j :: js =>
    if name_eqb (j_name j) n then
      if negb (Nat.eqb (j_size j) 1) then Throw
      else do r <- find_wheels n js ; Ok (true, j_wheel j :: snd r)
    else find_wheels n js
  end.
(* l.98-118 *)
Fixpoint all_wheels (names : list name) (children : list joint) : res (list wheel) :=
  match names with
  | [] => Ok []
  | n :: ns =>
    if name_eqb n [] then all_wheels ns children
    else
      do r <- find_wheels n children ;
      if negb (fst r) then Throw
      else do ws <- all_wheels ns children ; Ok (snd r ++ ws)
  end.
(* getWheelsFromParameter, l.89-120 *)
Definition get_wheels (p : name) (children : list joint) : res (list wheel) := all_wheels (split p) children.

(* Members that matter: CarLike and distance::ReedsShepp have the same *)
Record car := { rho : R; wheels : list wheel }.
(* turningRadius, car-like.cc l.83-87, reeds-shepp.cc l.114-118 *)
Definition turning_radius (c : car) (r : R) : res car :=
  if rleb r 0 then Throw else Ok {| rho := r; wheels := wheels c |}.
(* constructor from the problem, car-like.cc l.41-53, reeds-shepp.cc l.69-81;
   rho_ (1.) *)
Definition car_create (p : name) (radius : R) (children : list joint) : res car :=
  do ws <- get_wheels p children ;
  turning_radius {| rho := 1; wheels := ws |} radius.
(* constructor with arguments, car-like.cc l.55-72, reeds-shepp.cc l.83-100 *)
Definition car_create_with (radius : R) (ws : list wheel) : car := {| rho := radius; wheels := ws |}.
(* copy constructor of CarLike, l.74-81 and of its derived classes: wheels_ is
   not in the list of initialisers *)
Definition car_copy (c : car) : car := {| rho := rho c; wheels := [] |}.
(* copy constructor of distance::ReedsShepp, l.102-112 *)
Definition dist_copy (c : car) : car := {| rho := rho c; wheels := wheels c |}.
(* setWheelJoints, car-like.hh l.54 *)
Definition set_wheels (c : car) (ws : list wheel) : car := {| rho := rho c; wheels := ws |}.

(* What a user may do with a steering method *)
Inductive op := Radius (r : R) | Wheels (ws : list wheel) | Copy.
(* a call that throws leaves the object as it was *)
Definition do_op (c : car) (o : op) : car :=
  match o with
  | Radius r => match turning_radius c r with Ok c' => c' | _ => c end
  | Wheels ws => set_wheels c ws
  | Copy => car_copy c
  end.
(* ReedsShepp::impl_compute and impl_distance *)
Definition car_steer (dist : cfg -> cfg -> R) (c : car) (q1 q2 : cfg) : res (list cpath) := rs_steer dist (rho c) (wheels c) q1 q2.
Definition car_dist (dist : cfg -> cfg -> R) (c : car) (q1 q2 : cfg) : res R := rs_dist dist (rho c) (wheels c) q1 q2.
