(* Time parameterizations: polynomials, piecewise polynomials, and the
   SimpleTimeParameterization path optimizer.  Numbers are exact reals;
   infinities and NaN are explicit where the code relies on them. *)
From Coq Require Import Reals.
From Verif Require Import Base XReal.
Open Scope R_scope.

(* ------------------------------------------------------------ Polynomial *)
(* include/hpp/core/path/math.hh 42-49 : ret(0)=1, ret(i)=ret(i-1)*i.  The
   integers do not overflow for the sizes used (at most 9!). *)
Fixpoint factorial (n : nat) : nat := match n with O => 1%nat | S k => (factorial k * S k)%nat end.

(* polynomial.hh 100-109 val : the loop from i = 1. *)
Fixpoint val_loop (a : list R) (t tn res : R) : R :=
  match a with
  | [] => res
  | c :: a' => val_loop a' t (tn * t) (res + c * (tn * t))
  end.
(* a[0] on an empty vector is an out of range access. *)
Definition pval (a : list R) (t : R) : res R :=
  match a with [] => UB | c :: a' => Ok (val_loop a' t 1 c) end.

(* polynomial.hh 113-129 Jac(t, order), MaxOrder = 10; [jac_loop l i k] is the
   loop at index i, [l] the coefficients from i on. *)
Fixpoint jac_loop (l : list R) (i k : nat) (t tn res : R) : R :=
  match l with
  | [] => res
  | c :: l' => jac_loop l' (S i) k t (tn * t)
                 (res + INR (factorial i / factorial (i - k)) * c * tn)
  end.
Definition jac (a : list R) (t : R) (k : nat) : res R :=
  if (length a <=? k)%nat then Ok 0
  else if (10 <? length a)%nat then Throw
  else Ok (jac_loop (skipn k a) k k t 1 0).

(* polynomial.hh 75-97 derivativeBound.  In the cubic case x_m is a floating
   point division: when a[3] = 0 it is infinite or NaN, the comparisons with
   the finite bounds low and up are then false. *)
Definition deriv_bound (a : list R) (low up : R) : res R :=
  match a with
  | [_; a1] => Ok (Rabs a1)
  | [_; _; _] =>
      do jl <- jac a low 1; do ju <- jac a up 1; Ok (Rmax (Rabs jl) (Rabs ju))
  | [_; a1; a2; a3] =>
      do jl <- jac a low 1; do ju <- jac a up 1;
      let M := Rmax (Rabs jl) (Rabs ju) in
      if reqb a3 0 then Ok M
      else
        let xm := - a2 / (3 * a3) in
        if rltb low xm && rltb xm up
        then Ok (Rmax M (Rabs (a1 - a2 / 3 * a3)))
        else Ok M
  | _ => Throw
  end.

(* include/hpp/core/path.hh 171-178 Path::velocityBound for a path with a
   polynomial time parameterization on [0,T]: [vb s0 s1] is the bound given by
   impl_velocityBound on a parameter interval (coordinate by coordinate). *)
Definition velocity_bound (vb : R -> R -> list R) (a : list R) (T t0 t1 : R) : res (list R) :=
  do p0 <- pval a (Rmax t0 0);
  do p1 <- pval a (Rmin t1 T);
  do d <- deriv_bound a t0 t1;
  Ok (map (fun v => v * d) (vb p0 p1)).

(* --------------------------------------------------- PiecewisePolynomial *)
Record pwpoly := mkPW {
  pw_cols : list (list R);          (* columns of parameters_ *)
  pw_bp : list R;                   (* breakpoints_ *)
  pw_zero : bool                    (* startAtZero_ *)
}.

(* std::lower_bound(first, last, t, less_equal) as implemented by libstdc++:
   bisection on [first, first+len). *)
Fixpoint lower_bound (fuel : nat) (l : list R) (t : R) (first len : nat) : nat :=
  match fuel with
  | O => first
  | S f =>
      if (len =? 0)%nat then first
      else
        let half := Nat.div2 len in
        if rleb (nth (first + half) l 0) t
        then lower_bound f l t (first + half + 1) (len - half - 1)
        else lower_bound f l t first half
  end.

(* piecewise-polynomial.hh 146-176 findPolynomialIndex; returns the index and
   the possibly shifted t.  With a single breakpoint size()-2 wraps around. *)
Definition pw_find (p : pwpoly) (t : R) : res (nat * R) :=
  let bp := pw_bp p in
  let n := length bp in
  let it := lower_bound n bp t 0 n in
  let shift (i : nat) := (i, if pw_zero p then t - nth i bp 0 else t) in
  if (it =? 0)%nat then (if (n =? 0)%nat then UB else Throw)
  else if (it =? n)%nat then
    if rltb (last bp 0) t then Throw
    else if (n <? 2)%nat then UB
    else Ok (shift (n - 2)%nat)
  else Ok (shift (it - 1)%nat).

(* piecewise-polynomial.hh 110-121 *)
Definition pw_val (p : pwpoly) (t : R) : res R :=
  do (i, t') <- pw_find p t;
  match nth_error (pw_cols p) i with
  | None => UB
  | Some a => pval a t'
  end.

(* piecewise-polynomial.hh 125-144; the number of rows is the template
   parameter, common to all columns: [rows]. *)
Definition pw_jac (rows : nat) (p : pwpoly) (t : R) (k : nat) : res R :=
  if (rows <=? k)%nat then Ok 0
  else if (10 <? rows)%nat then Throw
  else
    do (i, t') <- pw_find p t;
    match nth_error (pw_cols p) i with
    | None => UB
    | Some a => Ok (jac_loop (skipn k a) k k t' 1 0)
    end.

(* ------------------------------------------- SimpleTimeParameterization *)
(* src/path-optimization/simple-time-parameterization.cc.  A division by zero
   makes T or a coefficient infinite or NaN; the functions then throw. *)
Definition rdiv (x y : R) : res R := if reqb y 0 then Throw else Ok (x / y).

(* lines 48-63 *)
Definition tp_first (s0 s1 B : R) : res (list R * R) :=
  do T <- rdiv (s1 - s0) B;
  Ok ([s0; B], T).

(* lines 65-82 *)
Definition tp_third (s0 s1 B : R) : res (list R * R) :=
  do T <- rdiv (3 * (s1 - s0)) (2 * B);
  do a2 <- rdiv (3 * (s1 - s0)) (T * T);
  do a3 <- rdiv (- 2 * a2) (3 * T);
  Ok ([s0; 0; a2; a3], T).

(* lines 84-114 *)
Definition tp_fifth (s0 s1 B C : R) : res (list R * R) :=
  do T1 <- rdiv (15 * (s1 - s0)) (8 * B);
  let T := if rltb 0 C then Rmax T1 (sqrt (10 / sqrt 3) * sqrt ((s1 - s0) / C)) else T1 in
  let T3 := T * T * T in
  do a3 <- rdiv (10 * (s1 - s0)) T3;
  let T4 := T3 * T in
  do a4 <- rdiv (- 15 * (s1 - s0)) T4;
  let T5 := T4 * T in
  do a5 <- rdiv (6 * (s1 - s0)) T5;
  Ok ([s0; 0; 0; a3; a4; a5], T).

(* lines 116-150; dummy_precision for double is 1e-12 *)
Definition thr : R := / 1000000.
Definition far (x y : R) : bool := rltb thr (Rabs (x - y)).
Definition check_law (a : list R) (order : nat) (s0 s1 B C T : R) : res unit :=
  do v0 <- pval a 0;
  do vT <- pval a T;
  if rleb thr (Rabs (v0 - s0)) || rleb thr (Rabs (vT - s1)) then Throw
  else
    do d0 <- jac a 0 1; do dT <- jac a T 1; do dm <- jac a (T / 2) 1;
    if (1 <=? order)%nat && (far d0 0 || far dT 0 || (rleb C 0 && far dm B)) then Throw
    else
      do e0 <- jac a 0 2; do eT <- jac a T 2;
      if (2 <=? order)%nat && (far e0 0 || far eT 0) then Throw
      else Ok tt.

(* lines 182-196 : scaled bounds of one degree of freedom from its velocity
   limit; cb = (ub+lb)/2, ub = cb + safety (ub-cb), NaN replaced by infinity *)
Definition scaled (safety : R) (lim : xr) : xr * xr :=
  let ub := lim in
  let lb := xneg lim in
  let cb := xmul (xadd ub lb) (Fin (/ 2)) in
  let ub' := xadd cb (xmul (Fin safety) (xadd ub (xneg cb))) in
  let lb' := xadd cb (xmul (Fin safety) (xadd lb (xneg cb))) in
  (if is_nan lb' then MInf else lb', if is_nan ub' then PInf else ub').

(* line 237 *)
Definition inv_or_inf (v : R) : xr := if reqb v 0 then PInf else Fin (/ v).

(* lines 237-239 : B.  Coefficient-wise product of vectors of different sizes
   (the robot has extra degrees of freedom, numberDof = size of the velocity
   limits + dimension of the extra configuration space) and minCoeff of an
   empty vector are outside of Eigen's contract: UB. *)
Fixpoint zip_mul (l : list xr) (v : list xr) : list xr :=
  match l, v with x :: l', y :: v' => xmul x y :: zip_mul l' v' | _, _ => [] end.
Definition min_coeff (l : list xr) : res xr :=
  match l with [] => UB | x :: l' => Ok (fold_left xmin l' x) end.
Definition speed_bound (bounds : list (xr * xr)) (v : list R) : res xr :=
  if negb (length bounds =? length v)%nat then UB
  else
    let vinv := map inv_or_inf v in
    do m1 <- min_coeff (zip_mul (map snd bounds) vinv);
    do m2 <- min_coeff (map xneg (zip_mul (map fst bounds) vinv));
    Ok (xmin m1 m2).

(* A geometric path, its time parameterization removed (line 228): parameter
   range, coordinates as functions of the parameter, the vector returned by
   velocityBound on the whole range; [g_len] : its length (duration) before. *)
Record gpath := mkGP {
  g_s0 : R; g_s1 : R;
  g_q : nat -> R -> R;
  g_vb : list R;
  g_len : R
}.

(* lines 246-270 *)
Definition time_law (order : nat) (C s0 s1 B : R) : res (list R * R) :=
  do (a, T) <-
    match order with
    | 0%nat => tp_first s0 s1 B
    | 1%nat => tp_third s0 s1 B
    | 2%nat => tp_fifth s0 s1 B C
    | _ => Throw
    end;
  do _ <- check_law a order s0 s1 B C T;
  Ok (a, T).

(* lines 223-274 *)
Fixpoint time_loop (order : nat) (C : R) (bounds : list (xr * xr)) (l : list gpath)
  : res (list (gpath * (list R * R))) :=
  match l with
  | [] => Ok []
  | p :: l' =>
      if reqb (g_s0 p) (g_s1 p) then time_loop order C bounds l'
      else
        do B <- speed_bound bounds (g_vb p);
        match B with
        | Fin B =>
            if rleb B 0 then Throw
            else
              do law <- time_law order C (g_s0 p) (g_s1 p) B;
              do out <- time_loop order C bounds l';
              Ok ((p, law) :: out)
        | _ => Throw
        end
  end.

Inductive timed := Same | Timed (l : list (gpath * (list R * R))).

(* lines 159-276.  [l] : the flattened input; limits : model().velocityLimit *)
Definition optimize (safety : R) (order : nat) (maxAcc : R) (limits : list xr)
  (l : list gpath) : res timed :=
  if reqb (fold_right (fun p s => g_len p + s) 0 l) 0 then Ok Same
  else if (order <=? 1)%nat && rltb 0 maxAcc then Throw
  else
    let bounds := map (scaled safety) limits in
    if existsb (fun b => is_nan (fst b) || is_nan (snd b)) bounds then Throw
    else if existsb (fun b => xle0 (snd b)) bounds && existsb (fun b => xge0 (fst b)) bounds then Throw
    else
      do out <- time_loop order maxAcc bounds l;
      Ok (Timed out).
