(* The TOPPRA path optimizer: grid of samples, integration of the speeds into
   a time law, time parameterization of the sub-paths.
   Source: plugins/toppra.cc.  Numbers are exact reals.

   The solver of the toppra library is a parameter: from the grid it returns
   the grid of its answer and the squared speeds, or a failure. The limits of
   velocity and torque and the evaluation of the path are inside it. *)
From Coq Require Import Reals ZArith.
From Verif Require Import Base XReal PolyModel.
Open Scope R_scope.

(* A sub-path of the flattened input: parameter range, duration (length()),
   configuration at a parameter. *)
Record tsub (C : Type) := mkTS { ts_a : R; ts_b : R; ts_dur : R; ts_q : R -> C }.
Arguments mkTS {C}. Arguments ts_a {C}. Arguments ts_b {C}. Arguments ts_dur {C}. Arguments ts_q {C}.

(* std::ceil *)
Definition ceilZ (x : R) : Z := (1 - up (- x))%Z.

(* toppra.cc:157 dparams; None: an infinite quotient (N = 0) *)
Definition dparams (L : R) (N : Z) : option R :=
  if (N =? 0)%Z then None else Some (L / IZR N).
(* toppra.cc:167 n; the conversion to size_type does not overflow *)
Definition npoints (len : R) (dp : option R) : nat :=
  match dp with
  | None => 0%nat
  | Some d => Z.to_nat (ceilZ (len / d))
  end.
(* toppra.cc:168-171 *)
Definition subgrid (p0 len : R) (n : nat) : list R :=
  map (fun k => p0 + (len * INR k) / INR n) (seq 1 n).
(* toppra.cc:164-173 *)
Fixpoint grid_loop {C} (dp : option R) (l : list (tsub C)) (params : list R) (ids : list nat)
  : list R * list nat :=
  match l with
  | [] => (params, ids)
  | p :: l' =>
      let len := ts_b p - ts_a p in
      let params' := params ++ subgrid (last params 0) len (npoints len dp) in
      grid_loop dp l' params' (ids ++ [(length params' - 1)%nat])
  end.
Definition total {C} (l : list (tsub C)) : R := fold_right (fun p s => ts_dur p + s) 0 l.
(* toppra.cc:152-176; reserve of a negative number of elements throws *)
Definition grid {C} (N : Z) (l : list (tsub C)) : res (list R * list nat) :=
  if (N + Z.of_nat (length l) - 1 <? 0)%Z then Throw
  else Ok (grid_loop (dparams (total l) N) l [0] [0%nat]).

(* toppra.cc:183-194 *)
Inductive lpsolver := Seidel | GLPK | qpOASES.
Definition solver_of (n : Z) : lpsolver :=
  match n with 1%Z => GLPK | 2%Z => qpOASES | _ => Seidel end.

(* toppra.cc:206 *)
Definition speeds (x : list R) : list R := map (fun v => sqrt (Rmax v 0)) x.

(* toppra.cc:213-221, the instants after the first one; assert(sd_avg > 0) *)
Fixpoint times (s sd : list R) (t : R) : res (list R) :=
  match s, sd with
  | s0 :: ((s1 :: _) as s'), d0 :: ((d1 :: _) as sd') =>
      let avg := (d0 + d1) * / 2 in
      if rleb avg 0 then UB
      else
        let t' := t + (s1 - s0) / avg in
        do r <- times s' sd' t'; Ok (t' :: r)
  | _, _ => Ok []
  end.

(* toppra.cc:228-247 *)
Definition column (t0 t1 s0 s1 d0 d1 : R) : list R :=
  let inv := 1 / (t1 - t0) in
  let inv2 := inv * inv in
  let inv3 := inv2 * inv in
  let tp2 := t0 * t0 in
  let tp3 := tp2 * t0 in
  let ds := s1 - s0 in
  let b := (2 * d0 + d1) * inv in
  let c := (d0 + d1) * inv2 in
  [ 2 * tp3 * ds * inv3 + 3 * tp2 * ds * inv2 - tp3 * c - tp2 * b - t0 * d0 + s0;
    - 6 * tp2 * ds * inv3 - 6 * t0 * ds * inv2 + 3 * tp2 * c + 2 * t0 * b + d0;
    6 * t0 * ds * inv3 + 3 * ds * inv2 - 3 * t0 * c - b;
    - 2 * ds * inv3 + c ].
Fixpoint columns (t s sd : list R) : list (list R) :=
  match t, s, sd with
  | t0 :: ((t1 :: _) as t'), s0 :: ((s1 :: _) as s'), d0 :: ((d1 :: _) as sd') =>
      column t0 t1 s0 s1 d0 d1 :: columns t' s' sd'
  | _, _, _ => []
  end.

(* timeParameterization::Extract, toppra.cc:85-110 *)
Record extract := mkEx { ex_in : pwpoly; ex_dt : R; ex_ds : R }.
(* toppra.cc:90-92 *)
Definition ex_value (e : extract) (t : R) : res R :=
  do v <- pw_val (ex_in e) (t + ex_dt e); Ok (v + ex_ds e).
(* toppra.cc:94-96; order 3: 4 rows *)
Definition ex_derivative (e : extract) (t : R) (k : nat) : res R :=
  pw_jac 4 (ex_in e) (t + ex_dt e) k.
(* toppra.cc:98-101: the function calls itself *)
Fixpoint ex_bound (fuel : nat) (e : extract) (low up : R) : res R :=
  match fuel with
  | O => Fuel
  | S f => ex_bound f e (low + ex_dt e) (up + ex_dt e)
  end.
(* path.hh 171-178: velocityBound of a path with such a law on [0, T] *)
Definition ex_velocity_bound (fuel : nat) (vb : R -> R -> list R) (e : extract) (T t0 t1 : R)
  : res (list R) :=
  do p0 <- ex_value e (Rmax t0 0);
  do p1 <- ex_value e (Rmin t1 T);
  do d <- ex_bound fuel e t0 t1;
  Ok (map (fun v => v * d) (vb p0 p1)).

(* A sub-path of the result: the geometry, its law, its time range [0, T] and
   the parameter range set by Path::timeRange (path.hh 283-290). *)
Record tout (C : Type) := mkTO { to_sub : tsub C; to_law : extract; to_T : R; to_a : R; to_b : R }.
Arguments mkTO {C}. Arguments to_sub {C}. Arguments to_law {C}. Arguments to_T {C}.
Arguments to_a {C}. Arguments to_b {C}.
(* configuration at time t *)
Definition to_eval {C} (o : tout C) (t : R) : res C :=
  do s <- ex_value (to_law o) t; Ok (ts_q (to_sub o) s).

(* toppra.cc:249-258 *)
Fixpoint apply_law {C} (w : pwpoly) (t g : list R) (ids : list nat) (l : list (tsub C))
  : res (list (tout C)) :=
  match l, ids with
  | [], _ => Ok []
  | p :: l', i0 :: ((i1 :: _) as ids') =>
      match nth_error t i0, nth_error t i1, nth_error g i0 with
      | Some t0, Some t1, Some g0 =>
          let e := mkEx w t0 (- g0) in
          do a <- ex_value e 0;
          do b <- ex_value e (t1 - t0);
          do r <- apply_law w t g ids' l';
          Ok (mkTO p e (t1 - t0) a b :: r)
      | _, _, _ => UB
      end
  | _, _ => UB
  end.

Inductive tresult (C : Type) := TSame (l : list (tsub C)) | TTimed (l : list (tout C)).
Arguments TSame {C}. Arguments TTimed {C}.

Definition short : R := / 1000000.
(* toppra.cc:116-261. An answer whose sizes differ from the size of the grid
   makes the loops read outside of the vectors. *)
Definition toppra {C} (solve : list R -> option (list R * list R)) (N : Z) (l : list (tsub C))
  : res (tresult C) :=
  if rltb (total l) short then Ok (TSame l)
  else
    do (g, ids) <- grid N l;
    match solve g with
    | None => Throw
    | Some (s, x) =>
        if negb (length s =? length g)%nat || negb (length x =? length g)%nat then UB
        else
          let sd := speeds x in
          do ts <- times s sd 0;
          let t := 0 :: ts in
          do out <- apply_law (mkPW (columns t s sd) t false) t g ids l;
          Ok (TTimed out)
    end.
