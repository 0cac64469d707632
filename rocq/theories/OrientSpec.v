(* Independent vocabulary for orientations. *)
From Coq Require Import Reals List.
From Verif Require Import Base XReal KinoModel OrientModel.
Open Scope R_scope.

Definition unit (q : quat) : Prop := qx q * qx q + qy q * qy q + qz q * qz q + qw q * qw q = 1.
(* images of the unit vectors by the rotation of a unit quaternion *)
Definition forward (q : quat) : vec3 :=
  V3 (1 - 2 * (qy q * qy q + qz q * qz q)) (2 * (qx q * qy q + qz q * qw q)) (2 * (qx q * qz q - qy q * qw q)).
Definition upward (q : quat) : vec3 :=
  V3 (2 * (qx q * qz q + qy q * qw q)) (2 * (qy q * qz q - qx q * qw q)) (1 - 2 * (qx q * qx q + qy q * qy q)).
(* at distance at most e *)
Definition within (e : R) (a b : vec3) : Prop := norm3 (V3 (X a - X b) (Y a - Y b) (Z a - Z b)) <= e.
(* v has the direction of the unit vector d *)
Definition has_direction (v d : vec3) : Prop :=
  0 < norm3 v /\ X v = norm3 v * X d /\ Y v = norm3 v * Y d /\ Z v = norm3 v * Z d.

(* What the decomposition is asked for: a unit vector orthogonal to UnitX and
   to the direction. *)
Definition orthogonal_axis (f : vec3 -> vec3) : Prop := forall u,
  X (f u) = 0 /\ Y (f u) * Y u + Z (f u) * Z u = 0 /\ Y (f u) * Y (f u) + Z (f u) * Z (f u) = 1.
(* velocity of a configuration, without its vertical part if asked *)
Definition moves (horizontal : bool) (q : kconf) (v : vec3) : Prop :=
  match trans q with
  | (a :: b :: c :: nil)%list => v = V3 (v_ a) (v_ b) (if horizontal then 0 else v_ c)
  | _ => False
  end.
