(* The function which constrains a spline around a collision: class
   CollisionFunction, src/path-optimization/spline-gradient-based/
   collision-constraint.hh.
   Over the reals, without rounding.  The configurations, the kinematics, the
   Jacobian of the position constraints (hpp-constraints) and the collision
   library are parameters.  Asserts are compiled out. *)
From Coq Require Import Reals List Bool.
From Verif Require Import Base XReal.
Import ListNotations.
Open Scope R_scope.

(* vector3_t *)
Definition v3 := (R * R * R)%type.
Definition px (a : v3) : R := fst (fst a).
Definition py (a : v3) : R := snd (fst a).
Definition pz (a : v3) : R := snd a.
Definition vadd (a b : v3) : v3 := (px a + px b, py a + py b, pz a + pz b).
Definition vsub (a b : v3) : v3 := (px a - px b, py a - py b, pz a - pz b).
Definition vscale (k : R) (a : v3) : v3 := (k * px a, k * py a, k * pz a).
Definition dot (a b : v3) : R := px a * px b + py a * py b + pz a * pz b.
Definition norm (a : v3) : R := sqrt (dot a a).
(* Eigen normalized (): a null vector is returned as it is *)
Definition normalized (a : v3) : v3 := if rltb 0 (dot a a) then vscale (/ norm a) a else a.

(* Transform3s: the columns of the rotation, the translation *)
Record trsf := mkT { t_x : v3; t_y : v3; t_z : v3; t_p : v3 }.
Definition rot (m : trsf) (a : v3) : v3 :=
  vadd (vscale (px a) (t_x m)) (vadd (vscale (py a) (t_y m)) (vscale (pz a) (t_z m))).
Definition rot_inv (m : trsf) (a : v3) : v3 := (dot (t_x m) a, dot (t_y m) a, dot (t_z m) a).
Definition act (m : trsf) (a : v3) : v3 := vadd (rot m a) (t_p m).
Definition act_inv (m : trsf) (a : v3) : v3 := rot_inv m (vsub a (t_p m)).

(* an object and its joint; a fixed object has no joint, or joint 0 (line
   167) *)
Definition object := option nat.
Definition moving (o : object) : bool :=
  match o with Some (S _) => true | _ => false end.

Section CollCons.
Variable C : Type.                                 (* configurations *)
Variable place : nat -> C -> trsf.                 (* joint->currentTransformation *)
Variable diff : C -> C -> list R.                  (* pinocchio::difference *)
(* columns of the Jacobian of constraints::Position (joint, point of the joint,
   point of the world) and of RelativePosition (joint 1, joint 2, point of
   joint 1, point of joint 2) *)
Variable jac_pos : nat -> v3 -> v3 -> C -> list v3.
Variable jac_rel : nat -> nat -> v3 -> v3 -> C -> list v3.
(* checkCollision, 136-154: the contact found, at most one *)
Variable collide : object -> object -> C -> option v3.

Record cf := mkCf {
  f_free : C; f_coll : C;                          (* qFree_, qColl_ *)
  f_obj1 : object; f_obj2 : object;
  f_contact : v3;                                  (* contactPoint_ *)
  f_J : list R }.                                  (* J_, one row *)

(* u.transpose () * Jpos, line 210 *)
Definition row (u : v3) (J : list v3) : list R := map (dot u) J.

(* computeJacobian, 156-212.  Objects 1 and 2 are swapped when the second is
   fixed; two fixed objects dereference a null joint. *)
Definition compute_jacobian (qFree qColl : C) (o1 o2 : object) (p : v3) : res cf :=
  let '(o1, o2) := if moving o2 then (o1, o2) else (o2, o1) in
  match o2 with
  | Some (S _ as j2) =>
      let x2_J2 := act_inv (place j2 qColl) p in
      match o1 with
      | Some (S _ as j1) =>
          let x1_J1 := act_inv (place j1 qColl) p in
          let x1_J2 := act_inv (place j2 qFree) (act (place j1 qFree) x1_J1) in
          let u := normalized (vsub x1_J2 x2_J2) in
          Ok (mkCf qFree qColl o1 o2 p (row u (jac_rel j1 j2 x1_J1 x2_J2 qFree)))
      | _ =>
          let x2_J1 := act (place j2 qFree) x2_J2 in
          let u := normalized (vsub x2_J1 x2_J2) in
          Ok (mkCf qFree qColl o1 o2 p (row u (jac_pos j2 x2_J2 p qFree)))
      end
  | _ => UB
  end.

(* lines 112-114: the parameter on the free spline; [None] when the length of
   the other one is 0 (the quotient is not a number) *)
Definition backtrack (tColl lfree lcoll : R) : option R :=
  if reqb lcoll 0 then None else Some (Rmin (tColl * lfree / lcoll) lfree).

(* what the report holds: another kind of report, or the objects and the
   contacts *)
Inductive crep := NotCollision | Collision (o1 o2 : object) (contacts : list v3).

(* constructor, 83-134; evaluations succeed (asserted).  abort () and a
   parameter which is not a number are UB. *)
Definition create (free coll : R -> C) (lfree lcoll tColl : R) (rep : crep) : res cf :=
  match rep with
  | NotCollision => Throw
  | Collision o1 o2 contacts =>
      match backtrack tColl lfree lcoll, contacts with
      | Some tFree, p :: _ => compute_jacobian (free tFree) (coll tColl) o1 o2 p
      | _, _ => UB
      end
  end.

(* updateConstraint, 60-73 *)
Definition update (f : cf) (q : C) : res cf :=
  match collide (f_obj1 f) (f_obj2 f) q with
  | Some p => compute_jacobian (f_free f) q (f_obj1 f) (f_obj2 f) p
  | None => compute_jacobian q (f_coll f) (f_obj1 f) (f_obj2 f) (f_contact f)
  end.

Fixpoint prod (J v : list R) : R :=
  match J, v with a :: J', b :: v' => a * b + prod J' v' | _, _ => 0 end.
(* impl_compute, 214-220 *)
Definition value (f : cf) (q : C) : R := prod (f_J f) (diff q (f_free f)).
(* impl_jacobian, 221-223 *)
Definition jacobian (f : cf) (q : C) : list R := f_J f.
End CollCons.
