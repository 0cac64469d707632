(* Kinodynamic paths along which the robot faces its velocity
   (src/kinodynamic-oriented-path.cc), over the reals.  The first joint is a
   free flyer: three translations and a quaternion.  The translations and the
   other joints are those of KinoModel.v; constraints are not modelled. *)
From Coq Require Import Reals List Bool.
From Verif Require Import Base XReal KinoModel.
Import ListNotations.
Open Scope R_scope.

Record vec3 := V3 { X : R; Y : R; Z : R }.
Record quat := Q { qx : R; qy : R; qz : R; qw : R }.
Definition norm3 (v : vec3) : R := sqrt (X v * X v + Y v * Y v + Z v * Z v).

(* NumTraits<double>::dummy_precision () *)
Definition precision : R := / 1000000000000.

Section Orient.
(* the last column of the matrix V of the singular value decomposition of the
   matrix with rows UnitX and the direction: called when they are opposite *)
Variable svd_axis : vec3 -> vec3.
(* pinocchio::interpolate for the orientation of the free flyer *)
Variable interp : quat -> quat -> R -> quat.

(* Eigen::Quaterniond::FromTwoVectors (UnitX, v), external *)
Definition from_two (v : vec3) : quat :=
  let n := norm3 v in
  let u := V3 (X v / n) (Y v / n) (Z v / n) in
  let c := X u in
  if rltb c (-1 + precision) then
    let c := Rmax c (-1) in
    let axis := svd_axis u in
    let w2 := (1 + c) * / 2 in
    let s := sqrt (1 - w2) in
    Q (X axis * s) (Y axis * s) (Z axis * s) (sqrt w2)
  else
    (* UnitX x u *)
    let s := sqrt ((1 + c) * 2) in
    Q (0 / s) (- Z u / s) (Y u / s) (s * / 2).

(* velocity read in the extra configuration space, l.40-47 and l.113-115 *)
Definition velocity (ignoreZ : bool) (q : kconf) : vec3 :=
  let v i := v_ (nth i (trans q) (mkSt 0 0 0)) in
  V3 (v 0%nat) (v 1%nat) (if ignoreZ then 0 else v 2%nat).
(* l.48-65 and l.116-123 *)
Definition orient (ignoreZ : bool) (q : kconf) (r : quat) : quat :=
  let v := velocity ignoreZ q in
  if rltb 0 (norm3 v) then from_two v else r.

(* Members; o_q0 and o_q1 are the quaternions in initial_ and end_ *)
Record opath := { o_path : kpath; o_q0 : quat; o_q1 : quat; o_ignoreZ : bool }.
(* constructors and orienteInitAndGoal, l.35-104 *)
Definition ocreate (p : kpath) (q0 q1 : quat) (ignoreZ : bool) : opath :=
  {| o_path := p; o_q0 := orient ignoreZ (kinit p) q0; o_q1 := orient ignoreZ (kend p) q1; o_ignoreZ := ignoreZ |}.
(* copy constructors, l.86-104 *)
Definition ocopy (p : opath) : opath := ocreate (o_path p) (o_q0 p) (o_q1 p) (o_ignoreZ p).
(* the setter, kinodynamic-oriented-path.hh l.135 *)
Definition set_ignoreZ (p : opath) (b : bool) : opath :=
  {| o_path := o_path p; o_q0 := o_q0 p; o_q1 := o_q1 p; o_ignoreZ := b |}.

(* orientation computed by KinodynamicPath::impl_compute *)
Definition base_orientation (p : opath) (t : R) : quat :=
  let L := klen (o_path p) in
  if reqb t 0 || reqb L 0 then o_q0 p
  else if reqb t L then o_q1 p
  else interp (o_q0 p) (o_q1 p) (t / L).
(* impl_compute, l.106-126 *)
Definition ocompute (p : opath) (t : R) : kconf * quat :=
  let q := kcompute (o_path p) t in
  (q, orient (o_ignoreZ p) q (base_orientation p t)).

(* impl_extract, l.128-140; KinodynamicPath::impl_extract evaluates this path;
   None: null pointer *)
Definition oextract (p : opath) (a b : R) : option opath :=
  match kextract (o_path p) a b with
  | Self => Some (ocopy p)
  | New r => Some (ocreate r (snd (ocompute p a)) (snd (ocompute p b)) (o_ignoreZ p))
  | Point _ | Null => None
  end.
End Orient.
