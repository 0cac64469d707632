(* Model of src/kinodynamic-path.cc (KinodynamicPath) and of the scheduling
   part of src/steering-method/steering-kinodynamic.cc.

   Simplifications: real numbers instead of doubles; the three translation axes
   of the free-flyer are a list of axes; the other joints are taken in vector
   spaces, so that interpolation is linear; the extra configuration space holds
   exactly velocities and accelerations; no constraints are set, so that
   evaluation never fails.  The time range of such a path is [0, length]
   (kinodynamic-path.cc 44 and 82). *)
From Coq Require Import Reals List.
From Verif Require Import Base XReal.
Import ListNotations.
Open Scope R_scope.

(* one translation axis of a configuration: position, velocity, acceleration *)
Record st := mkSt { x_ : R; v_ : R; ac_ : R }.

(* one axis of a KinodynamicPath: initial and end states, first acceleration,
   durations of the four phases, velocity limit (kinodynamic-path.hh members
   initial_, end_, a1_, t0_, t1_, tv_, t2_, vLim_) *)
Record axis := mkAxis { si : st; se : st; a1 : R; t0 : R; t1 : R; tv : R; t2 : R; vlim : R }.
(* [others]: end points of the coordinates that are interpolated *)
Record kpath := mkK { klen : R; axes : list axis; others : list (R * R) }.
Record kconf := mkC { trans : list st; rest : list R }.

(* kinodynamic-path.cc 196-257: one iteration of the loop on the axes *)
Definition axis_at (x : axis) (t : R) : st :=
  let i := si x in
  if rleb t (t0 x) then mkSt (x_ i + t * v_ i) (v_ i) 0
  else if rleb t (t0 x + t1 x) then
    let s := t - t0 x in
    mkSt (1/2 * s * s * a1 x + s * v_ i + x_ i + t0 x * v_ i) (s * a1 x + v_ i) (a1 x)
  else if rleb t (t0 x + t1 x + tv x) then
    let s := t - t0 x - t1 x in
    mkSt (1/2 * t1 x * t1 x * a1 x + t1 x * v_ i + x_ i + t0 x * v_ i + s * vlim x) (vlim x) 0
  else if rleb t (t0 x + t1 x + tv x + t2 x) then
    let s := t - tv x - t1 x - t0 x in
    let v2 := if rltb 0 (tv x) then vlim x else t1 x * a1 x + v_ i in
    mkSt (1/2 * t1 x * t1 x * a1 x + t1 x * v_ i + x_ i + t0 x * v_ i + tv x * vlim x
          - 1/2 * s * s * a1 x + s * v2) (v2 - s * a1 x) (- a1 x)
  else mkSt (x_ (se x)) (v_ (se x)) 0.

(* kinodynamic-path.cc 173-260 impl_compute *)
Definition kinit (p : kpath) : kconf := mkC (map si (axes p)) (map fst (others p)).
Definition kend (p : kpath) : kconf := mkC (map se (axes p)) (map snd (others p)).
Definition lin (u : R) (c : R * R) : R := fst c + u * (snd c - fst c).
Definition kcompute (p : kpath) (t : R) : kconf :=
  if reqb t 0 || reqb (klen p) 0 then kinit p
  else if reqb t (klen p) then kend p
  else mkC (map (fun x => axis_at x t) (axes p)) (map (lin (t / klen p)) (others p)).

(* kinodynamic-path.cc 331-352: the part of an axis before the sub-interval is
   removed; result (t0, t1, tv, t2) *)
Definition trim_front (x : axis) (ti : R) : R * R * R * R :=
  let n0 := t0 x - ti in
  if rleb n0 0 then
    let ti := ti - t0 x in
    let n1 := t1 x - ti in
    if rleb n1 0 then
      let ti := ti - t1 x in
      let nv := tv x - ti in
      if rleb nv 0 then
        let ti := ti - tv x in
        let n2 := t2 x - ti in
        if rltb n2 0 then (0, 0, 0, 0) else (0, 0, 0, n2)
      else (0, 0, nv, t2 x)
    else (0, n1, tv x, t2 x)
  else (n0, t1 x, tv x, t2 x).

(* kinodynamic-path.cc 353-376: the part after the sub-interval is removed *)
Definition trim_back (d : R * R * R * R) (tf : R) : R * R * R * R :=
  let '(o0, o1, ov, o2) := d in
  let n2 := o2 - tf in
  if rleb n2 0 then
    let tf := tf - o2 in
    let nv := ov - tf in
    if rleb nv 0 then
      let tf := tf - ov in
      let n1 := o1 - tf in
      if rleb n1 0 then
        let tf := tf - o1 in
        let n0 := o0 - tf in
        if rltb n0 0 then (0, 0, 0, 0) else (n0, 0, 0, 0)
      else (o0, n1, 0, 0)
    else (o0, o1, nv, 0)
  else (o0, o1, ov, n2).

(* kinodynamic-path.cc 297-304: acceleration set to 0 *)
Definition no_acc (s : st) : st := mkSt (x_ s) (v_ s) 0.

(* kinodynamic-path.cc 330-378: one iteration of the loop on the axes; [q1] and
   [q2] are the states of the axis at both ends of the sub-interval *)
Definition axis_extract (L a b : R) (x : axis) (q1 q2 : st) : axis :=
  let '(n0, n1, nv, n2) := trim_back (trim_front x (a - 0)) (L - b) in
  mkAxis (no_acc q1) (no_acc q2) (a1 x) n0 n1 nv n2 (vlim x).

Fixpoint extract_axes (L a b : R) (l : list axis) (q1 q2 : list st) : list axis :=
  match l, q1, q2 with
  | x :: l', s1 :: q1', s2 :: q2' => axis_extract L a b x s1 s2 :: extract_axes L a b l' q1' q2'
  | _, _, _ => []
  end.

(* the path returned by impl_extract: the path itself, a StraightPath of length
   0, a new KinodynamicPath or a null pointer *)
Inductive kout := Self | Point (q : kconf) | New (p : kpath) | Null.

(* kinodynamic-path.cc 262-382 impl_extract; [a], [b] are subInterval.first and
   subInterval.second, which Path::extract has checked to be in the range *)
Definition kextract (p : kpath) (a b : R) : kout :=
  if reqb a 0 && reqb b (klen p) then Self
  else
    let l := Rabs (b - a) in
    if rleb l 0 then Point (kcompute p a)
    else
      let q1 := kcompute p a in
      let q2 := kcompute p b in
      if rltb b a then Null
      else New (mkK l (extract_axes (klen p) a b (axes p) (trans q1) (trans q2))
                      (combine (rest q1) (rest q2))).

(* what the result evaluates to at time [t]; a StraightPath of length 0
   evaluates to its only configuration *)
Definition out_at (p : kpath) (o : kout) (t : R) : res kconf :=
  match o with
  | Self => Ok (kcompute p t)
  | Point q => Ok q
  | New r => Ok (kcompute r t)
  | Null => UB
  end.
Definition out_len (p : kpath) (o : kout) : R :=
  match o with Self => klen p | New r => klen r | _ => 0 end.

(* kinodynamic-oriented-path.cc 131-142 impl_extract: the result is cast to
   KinodynamicPath; the StraightPath returned for an empty interval is not one.
   The orientation set by the class is not modelled. *)
Definition oriented_extract (p : kpath) (a b : R) : kout :=
  match kextract p a b with
  | Self => Self
  | New r => New r
  | Point _ | Null => Null
  end.

(* steering-kinodynamic.cc 53-55 belong *)
Definition xltb (x y : xr) : bool :=
  match x, y with
  | Fin a, Fin b => rltb a b
  | Fin _, PInf => true
  | MInf, Fin _ => true
  | MInf, PInf => true
  | _, _ => false
  end.
Definition belong (t : xr) (i : xr * xr) : bool := xltb (fst i) t && xltb t (snd i).

(* steering-kinodynamic.cc 67-72: the loop on the intervals, with inInterval and
   minUpperBound *)
Fixpoint interval_loop (T : xr) (l : list (xr * xr)) (inI : bool) (ub : xr) : bool * xr :=
  match l with
  | [] => (inI, ub)
  | i :: l' =>
      interval_loop T l' (if belong T i then true else inI)
        (if xltb (snd i) ub && xltb T (snd i) then snd i else ub)
  end.

(* steering-kinodynamic.cc 57-76 computeMaxRequiredTime; [f] iterations of the
   while loop at most *)
Fixpoint max_required_time (f : nat) (l : list (xr * xr)) (T : xr) : res xr :=
  match f with
  | O => Fuel
  | S f' =>
      let (inI, ub) := interval_loop T l false PInf in
      if inI then max_required_time f' l ub else Ok T
  end.
