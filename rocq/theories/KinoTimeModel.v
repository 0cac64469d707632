(* Model of src/steering-method/steering-kinodynamic.cc: computeMinTime,
   fixedTimeTrajectory and impl_compute, and of src/kinodynamic-distance.cc.

   Simplifications: real numbers instead of doubles.  A division by zero or the
   square root of a negative number, which give an infinity or NaN in the code,
   are the outcome [UB] here.  [eps] stands for
   std::numeric_limits<double>::epsilon() * 100 and [A], [V] for aMax_[index]
   and vMax_[index], taken positive.  Only the translation axes of the
   configuration are modelled. *)
From Coq Require Import Reals List.
From Verif Require Import Base XReal KinoModel.
Import ListNotations.
Open Scope R_scope.

Definition kdiv (x y : R) : res R := if reqb y 0 then UB else Ok (x / y).
Definition ksqrt (x : R) : res R := if rltb x 0 then UB else Ok (sqrt x).

(* steering-kinodynamic.cc 47-51 sgnenum, sgn, sgnf *)
Definition sgnenum (x : R) : R := if rltb 0 x then 1 else if rltb x 0 then -1 else 0.
Definition sgn (x : R) : R := if rleb 0 x then 1 else -1.

(* steering-kinodynamic.cc 255-263 and 407-415 *)
Definition sigma (A p1 p2 v1 v2 : R) : res R :=
  do d <- kdiv (Rabs (v2 - v1)) A;
  let s := sgnenum (p2 - p1 - 1/2 * (v1 + v2) * d) in
  Ok (if reqb s 0 then sgn (p2 - p1) else s).

(* steering-kinodynamic.cc 277-287: the larger solution of a x^2 + b x + c = 0 *)
Definition larger_root (a b c : R) : res R :=
  do r <- ksqrt (b * b - 4 * a * c);
  let q := - (1/2) * (b + sgn b * r) in
  let x1 := if reqb a 0 then 0 else q / a in
  let x2 := if reqb q 0 then 0 else c / q in
  Ok (Rmax x1 x2).

(* eq. 13, constant term (steering-kinodynamic.cc 279, 352, 445) *)
Definition eq13 (a2 p1 p2 v1 v2 : R) : res R :=
  do d <- kdiv (1/2 * (v1 + v2) * (v2 - v1)) a2;
  Ok (d - (p2 - p1)).

(* steering-kinodynamic.cc 307-315: durations with two segments, first duration
   [x], or with three segments *)
Definition phases (two : bool) (x a1 a2 vLim p1 p2 v1 v2 : R) : res (R * R * R) :=
  if two then
    do d <- kdiv (v2 - v1) a2;
    Ok (x, 0, d + x)
  else
    do t1 <- kdiv (vLim - v1) a1;
    do u <- kdiv (v1 * v1 + v2 * v2 - 2 * vLim * vLim) (2 * vLim * a1);
    do w <- kdiv (p2 - p1) vLim;
    do t2 <- kdiv (v2 - vLim) a2;
    Ok (t1, u + w, t2).

(* the interval of no infeasible duration *)
Definition no_interval : xr * xr := (PInf, Fin 0).

(* steering-kinodynamic.cc 346-383: "region I", accelerations exchanged *)
Definition region1 (two : bool) (minT1 V a1 a2 vLim p1 p2 v1 v2 : R) : res (xr * xr) :=
  do ci <- eq13 a2 p1 p2 v1 v2;
  let bi := 2 * v1 in
  do r <- ksqrt (bi * bi - 4 * a1 * ci);
  do x1 <- kdiv (- bi + r) (2 * a1);
  do x2 <- kdiv (- bi - r) (2 * a1);
  let lo := Rmin x1 x2 in
  let hi := Rmax x1 x2 in
  do d <- kdiv (v2 - v1) a2;
  let first := d + lo + lo in
  let better := rltb (- minT1) hi in
  let t1 := if better then hi else lo in
  let two' := (better || two) && negb (rltb V (Rabs (v1 + t1 * a1))) in
  do (t1', tv', t2') <- phases two' t1 a1 a2 vLim p1 p2 v1 v2;
  Ok (Fin first, Fin (t1' + tv' + t2')).

(* steering-kinodynamic.cc 244-390 computeMinTime; [inf0] is the content of
   *infInterval before the call *)
Definition min_time (eps A V p1 p2 v1 v2 : R) (inf0 : xr * xr) : res (R * (xr * xr)) :=
  do s <- sigma A p1 p2 v1 v2;
  let a1 := s * A in
  let a2 := - a1 in
  let vLim := s * V in
  if rltb (Rabs (p2 - p1)) eps && rltb (Rabs (v2 - v1)) eps then Ok (0, inf0)
  else
    do c <- eq13 a2 p1 p2 v1 v2;
    do x <- larger_root a1 (2 * v1) c;
    do d <- kdiv (v2 - v1) a2;
    let minT1 := Rmax 0 (- d) in
    let two := rleb minT1 x && negb (rltb V (Rabs (v1 + x * a1))) in
    do (t1, tv, t2) <- phases two x a1 a2 vLim p1 p2 v1 v2;
    let T := t1 + tv + t2 in
    if rleb (v1 * v2) 0 || rltb (a1 * v1) 0 then Ok (T, no_interval)
    else
      do z1 <- kdiv (Rabs v1) A;
      do z2 <- kdiv (Rabs v2) A;
      if rltb (Rabs (z1 * v1 / 2 + z2 * v2 / 2)) (Rabs (p2 - p1)) then Ok (T, no_interval)
      else
        do i <- region1 two minT1 V a2 a1 (- vLim) p1 p2 v1 v2;
        Ok (T, i).

(* result of fixedTimeTrajectory *)
Record law := mkLaw { l_a1 : R; l_t0 : R; l_t1 : R; l_tv : R; l_t2 : R; l_vlim : R }.

(* steering-kinodynamic.cc 431-505: the vertical axis when it is not
   synchronised and the final velocity is 0 *)
Definition vertical (eps A V s T p1 p2 v1 v2 : R) : res law :=
  let a1 := s * A in
  let a2 := - a1 in
  let vLim := s * V in
  do c <- eq13 a2 p1 p2 v1 v2;
  let b := 2 * v1 in
  do r <- ksqrt (b * b - 4 * a1 * c);
  let q := - (1/2) * (b + sgn b * r) in
  let x1 := if rltb eps (Rabs a1) then q / a1 else s * A in
  let x2 := if rltb eps (Rabs q) then c / q else s * A in
  let x := Rmax x1 x2 in
  do d <- kdiv (v2 - v1) a2;
  let minT1 := Rmax 0 (- d) in
  let two := rleb minT1 x && negb (rltb V (Rabs (v1 + x * a1))) in
  do (t1, tv, t2) <- phases two x a1 a2 vLim p1 p2 v1 v2;
  Ok (mkLaw a1 (if reqb v1 0 then T - t1 - tv - t2 else 0) t1 tv t2 vLim).

(* steering-kinodynamic.cc 542-544 and 569-572 *)
Definition clip (A a : R) : R := if rltb A (Rabs a) then A * sgn a else a.

(* steering-kinodynamic.cc 392-583 fixedTimeTrajectory; [z] is true for the
   vertical axis (index = 2), [sync] is synchronizeVerticalAxis_ *)
Definition fixed_time (eps A V : R) (sync z : bool) (T p1 p2 v1 v2 : R) : res law :=
  do s <- sigma A p1 p2 v1 v2;
  if rltb (Rabs (v2 - v1)) eps && rltb (Rabs (p2 - p1)) eps then Ok (mkLaw 0 0 0 T 0 0)
  else if negb sync && z && reqb v2 0 then vertical eps A V s T p1 p2 v1 v2
  else
    let a := T * T in
    let b := 2 * T * (v1 + v2) - 4 * (p2 - p1) in
    let c := - ((v2 - v1) * (v2 - v1)) in
    do r <- ksqrt (b * b - 4 * a * c);
    let q := - (1/2) * (b + sgn b * r) in
    let x1 := if rltb eps (Rabs a) then q / a else s * A in
    let x2 := if rltb eps (Rabs q) then c / q else s * A in
    let a1 := clip A (if rltb (Rabs x2) (Rabs x1) then x1 else x2) in
    do d <- kdiv (v2 - v1) a1;
    let t1 := 1/2 * (d + T) in
    let vLim := sgn a1 * V in
    if rleb (Rabs (v1 + t1 * a1)) V then Ok (mkLaw a1 0 t1 0 (T - t1) vLim)
    else
      do a1' <- (if rltb eps (Rabs q) then
                   kdiv ((vLim - v1) * (vLim - v1) + (vLim - v2) * (vLim - v2)) (2 * (vLim * T - (p2 - p1)))
                 else Ok (s * A));
      let a1' := clip A a1' in
      do (t1', tv', t2') <- phases false 0 a1' (- a1') vLim p1 p2 v1 v2;
      Ok (mkLaw a1' 0 t1' tv' t2' vLim).

(* one axis of the two configurations given to the steering method *)
Record leg := mkLeg { g_p1 : R; g_p2 : R; g_v1 : R; g_v2 : R }.

(* steering-kinodynamic.cc 95-111: loop for Tmax; the interval given to
   computeMinTime is the one of the previous axis (initially (0, 0)) *)
Fixpoint tmax_loop (eps A V : R) (l : list leg) (inf0 : xr * xr) (Tmax : R) (acc : list (xr * xr)) : res (R * list (xr * xr)) :=
  match l with
  | [] => Ok (Tmax, acc)
  | g :: l' =>
      do (T, i) <- min_time eps A V (g_p1 g) (g_p2 g) (g_v1 g) (g_v2 g) inf0;
      tmax_loop eps A V l' i (if rltb Tmax T then T else Tmax) (acc ++ [i])
  end.

(* steering-kinodynamic.cc 147-171: loop for the trajectories *)
Fixpoint law_loop (eps A V : R) (sync : bool) (T : R) (k : nat) (l : list leg) : res (list axis) :=
  match l with
  | [] => Ok []
  | g :: l' =>
      do w <- fixed_time eps A V sync (Nat.eqb k 2) T (g_p1 g) (g_p2 g) (g_v1 g) (g_v2 g);
      do r <- law_loop eps A V sync T (S k) l';
      Ok (mkAxis (mkSt (g_p1 g) (g_v1 g) 0) (mkSt (g_p2 g) (g_v2 g) 0) (l_a1 w) (l_t0 w) (l_t1 w) (l_tv w) (l_t2 w) (l_vlim w) :: r)
  end.

(* steering-kinodynamic.cc 78-182 impl_compute; [small] is
   std::numeric_limits<double>::epsilon().  [None] is the StraightPath of length
   0 returned when there is no translation. *)
Definition steer (small eps A V : R) (sync : bool) (l : list leg) : res (option kpath) :=
  do (Tmax, inf) <- tmax_loop eps A V l (Fin 0, Fin 0) 0 [];
  if rleb Tmax small then Ok None
  else
    do T <- max_required_time (S (length inf)) inf (Fin Tmax);
    match T with
    | Fin T =>
        do ax <- law_loop eps A V sync T 0 l;
        Ok (Some (mkK T ax []))
    | _ => UB
    end.

(* kinodynamic-distance.cc 106-182 computeMinTime: the sign is sgn, and c / q is
   NaN when q is 0, in which case std::max returns its first argument *)
Definition dist_time (eps A V p1 p2 v1 v2 : R) : res R :=
  do dv <- kdiv (Rabs (v2 - v1)) A;
  let s := sgn (p2 - p1 - 1/2 * (v1 + v2) * dv) in
  let a1 := s * A in
  let a2 := - a1 in
  let vLim := s * V in
  if rltb (Rabs (p2 - p1)) eps && rltb (Rabs (v2 - v1)) eps then Ok 0
  else
    do c <- eq13 a2 p1 p2 v1 v2;
    let b := 2 * v1 in
    do r <- ksqrt (b * b - 4 * a1 * c);
    let q := - (1/2) * (b + sgn b * r) in
    do x1 <- kdiv q a1;
    do x <- (if reqb q 0 then (if reqb c 0 then Ok x1 else UB) else Ok (Rmax x1 (c / q)));
    do d <- kdiv (v2 - v1) a2;
    let minT1 := Rmax 0 (- d) in
    let two := rleb minT1 x && negb (rltb V (Rabs (v1 + x * a1))) in
    do (t1, tv, t2) <- phases two x a1 a2 vLim p1 p2 v1 v2;
    Ok (t1 + tv + t2).

(* kinodynamic-distance.cc 184-213 impl_distance *)
Fixpoint kino_distance (eps A V : R) (l : list leg) (Tmax : R) : res R :=
  match l with
  | [] => Ok Tmax
  | g :: l' =>
      do T <- dist_time eps A V (g_p1 g) (g_p2 g) (g_v1 g) (g_v2 g);
      kino_distance eps A V l' (if rltb Tmax T then T else Tmax)
  end.
