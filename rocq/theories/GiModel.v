(* The quadratic program solver of
   src/path-optimization/spline-gradient-based/eiquadprog_2011.hpp (dual method
   of Goldfarb and Idnani), called by QuadraticProgram::solve,
   src/path-optimization/quadratic-program.cc 68-92, when proxqp is not used.

   Simplifications common to the file:
   - numbers are reals, no rounding; [eps] stands for
     std::numeric_limits<double>::epsilon(); an infinite step or cost is None;
   - vectors and matrices are functions of the indices; loops over the rows of
     a matrix or shifting arrays are written as one update of the function;
   - the Cholesky decomposition of Eigen is a parameter: [J0] is the matrix
     chol.matrixU().solve(Identity), [xu] the vector chol.solve(g0);
   - A holds the indices of the active inequality constraints from position
     p; its entries below p, -i - 1 for the equality constraint i, are only
     read by the restoration of lines 438-442 where they are indices of iai;
   - iai(i) is only compared with -1: it is stored as the boolean iai(i) != -1;
   - the functions loop with goto: [fuel] bounds the number of jumps. *)
From Coq Require Import Reals Arith ZArith List Bool.
From Verif Require Import Base XReal SplineModel LinConsModel.
Import ListNotations.
Open Scope R_scope.

Definition updv {T} (f : nat -> T) (i : nat) (v : T) : nat -> T := fun k => if (k =? i)%nat then v else f k.

(* lines 94-107: distance *)
Definition hyp2 (a b : R) : R :=
  let a1 := Rabs a in let b1 := Rabs b in
  if rltb b1 a1 then let t := b1 / a1 in a1 * sqrt (1 + t * t)
  else if rltb a1 b1 then let t := a1 / b1 in b1 * sqrt (1 + t * t)
  else a1 * sqrt 2.
(* lines 111-113 *)
Definition compute_d (n : nat) (J : mat) (np : vec) : vec := mv n (mt J) np.
(* lines 115-118: the columns of J from iq on *)
Definition update_z (n : nat) (J : mat) (d : vec) (iq : nat) : vec :=
  fun k => rsum (fun p => J k (iq + p)%nat * d (iq + p)%nat) (n - iq).
(* lines 120-124: back substitution, rows iq - 1 down to 0 (Eigen) *)
Fixpoint bsub (Rm : mat) (d : vec) (iq c : nat) (r : vec) : vec :=
  match c with
  | O => r
  | S i => bsub Rm d iq i (updv r i ((d i - rsum (fun p => Rm i (S i + p)%nat * r (S i + p)%nat) (iq - S i)) / Rm i i))
  end.
Definition update_r (Rm : mat) (d : vec) (iq : nat) : vec := bsub Rm d iq iq (fun _ => 0).

(* lines 496-508 and 571-583: cosine, sine and new leading entry, h <> 0 *)
Definition givens (a b h : R) : R * R * R :=
  let ss := b / h in let cc := a / h in
  if rltb cc 0 then (- cc, - ss, - h) else (cc, ss, h).
(* lines 509-515 and 592-597: columns j0 and j1 of J *)
Definition rot_cols (cc ss : R) (j0 j1 : nat) (J : mat) : mat :=
  let xny := ss / (1 + cc) in
  fun k j => let t1 := J k j0 in let t2 := J k j1 in
    let a := t1 * cc + t2 * ss in
    if (j =? j0)%nat then a else if (j =? j1)%nat then xny * (t1 + a) - t2 else J k j.

(* lines 488-516: j = iq + c down to iq + 1 *)
Fixpoint add_loop (iq c : nat) (d : vec) (J : mat) : vec * mat :=
  match c with
  | O => (d, J)
  | S c' =>
    let j := (iq + S c')%nat in
    let h := hyp2 (d (iq + c')%nat) (d j) in
    if reqb h 0 then add_loop iq c' d J
    else let '(cc, ss, g) := givens (d (iq + c')%nat) (d j) h in
      add_loop iq c' (updv (updv d j 0) (iq + c')%nat g) (rot_cols cc ss (iq + c') j J)
  end.
(* lines 475-532: add_constraint; R has n columns *)
Definition add_constraint (n : nat) (eps : R) (Rm J : mat) (d : vec) (iq : nat) (Rn : R) : res (bool * mat * mat * R) :=
  if (n <=? iq)%nat then UB
  else
    let '(d', J') := add_loop iq (n - 1 - iq) d J in
    let R' := fun i j => if ((j =? iq) && (i <=? iq))%nat%bool then d' i else Rm i j in
    if rleb (Rabs (d' iq)) (eps * Rn) then Ok (false, R', J', Rn)
    else Ok (true, R', J', Rmax Rn (Rabs (d' iq))).

(* lines 543-548 *)
Fixpoint find_qq (A : nat -> nat) (l i c : nat) : option nat :=
  match c with
  | O => None
  | S c' => if (A i =? l)%nat then Some i else find_qq A l (S i) c'
  end.
(* lines 570-598 *)
Fixpoint del_loop (iq j c : nat) (Rm J : mat) : mat * mat :=
  match c with
  | O => (Rm, J)
  | S c' =>
    let h := hyp2 (Rm j j) (Rm (S j) j) in
    if reqb h 0 then del_loop iq (S j) c' Rm J
    else let '(cc, ss, g) := givens (Rm j j) (Rm (S j) j) h in
      let xny := ss / (1 + cc) in
      let R' := fun i k =>
        if (k =? j)%nat then (if (i =? j)%nat then g else if (i =? S j)%nat then 0 else Rm i k)
        else if ((j <? k) && (k <? iq))%nat%bool then
          let t1 := Rm j k in let t2 := Rm (S j) k in let a := t1 * cc + t2 * ss in
          if (i =? j)%nat then a else if (i =? S j)%nat then xny * (t1 + a) - t2 else Rm i k
        else Rm i k in
      del_loop iq (S j) c' R' (rot_cols cc ss j (S j) J)
  end.
(* lines 550-560: one array *)
Definition shifted {T} (z : T) (A : nat -> T) (qq iq : nat) : nat -> T :=
  fun i => if (i =? iq)%nat then z else if ((qq <=? i) && (i <? iq))%nat%bool then A (S i) else A i.
(* lines 534-599: delete_constraint; iq > 0 *)
Definition delete_constraint (p : nat) (Rm J : mat) (A : nat -> nat) (u : vec) (iq l : nat)
  : res (mat * mat * (nat -> nat) * vec) :=
  match find_qq A l p (iq - p) with
  | None => UB
  | Some qq =>
    let R1 := fun i k => if ((qq <=? k) && (k <? iq - 1))%nat%bool then Rm i (S k)
                         else if ((k =? iq - 1) && (i <? iq))%nat%bool then 0 else Rm i k in
    let '(R2, J2) := del_loop (iq - 1) qq (iq - 1 - qq) R1 J in
    Ok (R2, J2, shifted 0%nat A qq iq, shifted 0 u qq iq)
  end.

(* the variables of solve_quadprog2 *)
Record gi := mkGi { gx : vec; gu : vec; gA : nat -> nat; giq : nat; gR : mat; gJ : mat; gRn : R; gf : R }.
Inductive qpstatus := CONVERGED | DEPENDENT | UNBOUNDED.
Record full := mkFull { fst_ : gi; fs : vec; fss : R; fip : nat; fiai : nat -> bool; fex : nat -> bool;
  fxo : vec; fuo : vec; fAo : nat -> nat }.
(* the labels *)
Inductive pc := L1 | L2 | L2a.
Inductive out := Done (s : qpstatus) (cost : option R) (st : gi) | Next (l : pc) (f : full).

Section Solver.
Variable n : nat.            (* g0.size() *)
Variables p m : nat.         (* numbers of equality and inequality constraints *)
Variables eps c1 : R.        (* epsilon, trace of G *)
Variables ceJ ciJ : mat.     (* row i: constraint i; CE = ce.J^T, CI = ci.J^T *)
Variables ceb cib : vec.     (* ce0 = - ce.b, ci0 = - ci.b *)

Definition c2_of (J0 : mat) : R := rsum (fun i => J0 i i) n.

(* lines 228-265: the equality constraints *)
Fixpoint eq_phase (i c : nat) (st : gi) : res (gi + gi) :=
  match c with
  | O => Ok (inl st)
  | S c' =>
    let np := ceJ i in
    let iq := giq st in
    let d := compute_d n (gJ st) np in
    let z := update_z n (gJ st) d iq in
    let r := update_r (gR st) d iq in
    let t2 := if rltb eps (Rabs (dot n z z)) then (- dot n np (gx st) - - ceb i) / dot n z np else 0 in
    let x := fun k => gx st k + t2 * z k in
    let u := fun k => if (k <? iq)%nat then gu st k - t2 * r k else if (k =? iq)%nat then t2 else gu st k in
    let f := gf st + 1 / 2 * (t2 * t2) * dot n z np in
    match add_constraint n eps (gR st) (gJ st) d iq (gRn st) with
    | Ok (b, R', J', Rn') =>
      let st' := mkGi x u (gA st) (S iq) R' J' Rn' f in
      if b then eq_phase (S i) c' st' else Ok (inr st')
    | Throw => Throw | UB => UB | Fuel => Fuel
    end
  end.

(* lines 270-306: label l1 *)
Definition at_l1 (c2 : R) (f : full) : res out :=
  let st := fst_ f in
  let iai := fun i => fiai f i && negb (existsb (fun k => (gA st k =? i)%nat) (seq p (giq st - p))) in
  let s := fun i => dot n (ciJ i) (gx st) + - cib i in
  let psi := rsum (fun i => Rmin 0 (s i)) m in
  if rleb (Rabs psi) (INR m * eps * c1 * c2 * 100) then Ok (Done CONVERGED (Some (gf st)) st)
  else Ok (Next L2 (mkFull st s 0 0 iai (fun _ => true) (gx st) (gu st) (gA st))).

(* lines 309-314: the loop choosing the constraint *)
Fixpoint choose (s : vec) (iai ex : nat -> bool) (i c : nat) (ss : R) (ip : nat) : R * nat :=
  match c with
  | O => (ss, ip)
  | S c' => if rltb (s i) ss && iai i && ex i then choose s iai ex (S i) c' (s i) i
            else choose s iai ex (S i) c' ss ip
  end.
(* lines 308-326: label l2. ss and ip keep their values from one jump to the next. *)
Definition at_l2 (f : full) : res out :=
  let st := fst_ f in
  let '(ss, ip) := choose (fs f) (fiai f) (fex f) 0 m (fss f) (fip f) in
  if rleb 0 ss then Ok (Done CONVERGED (Some (gf st)) st)
  else Ok (Next L2a (mkFull (mkGi (gx st) (updv (gu st) (giq st) 0) (updv (gA st) (giq st) ip) (giq st) (gR st) (gJ st) (gRn st) (gf st))
         (fs f) ss ip (fiai f) (fex f) (fxo f) (fuo f) (fAo f))).

(* lines 351-362: the partial step length and the constraint which blocks *)
Fixpoint partial_step (A : nat -> nat) (u r : vec) (k c : nat) (t1 : option R) (l : nat) : option R * nat :=
  match c with
  | O => (t1, l)
  | S c' =>
    if rltb 0 (r k) && match t1 with None => true | Some t => rltb (u k / r k) t end
    then partial_step A u r (S k) c' (Some (u k / r k)) (A k)
    else partial_step A u r (S k) c' t1 l
  end.

(* lines 333-472: label l2a *)
Definition at_l2a (f : full) : res out :=
  let st := fst_ f in
  let iq := giq st in
  let ip := fip f in
  let np := ciJ ip in
  let d := compute_d n (gJ st) np in
  let z := update_z n (gJ st) d iq in
  let r := update_r (gR st) d iq in
  let '(t1, l) := partial_step (gA st) (gu st) r p (iq - p) None 0 in
  let t2 := if rltb eps (Rabs (dot n z z)) then Some (- fs f ip / dot n z np) else None in
  let moved := fun t k => if (k <? iq)%nat then gu st k - t * r k else if (k =? iq)%nat then gu st k + t else gu st k in
  match t1, t2 with
  | None, None => Ok (Done UNBOUNDED None st)
  | Some t, None =>
    match delete_constraint p (gR st) (gJ st) (gA st) (moved t) iq l with
    | Ok (R', J', A', u') =>
      Ok (Next L2a (mkFull (mkGi (gx st) u' A' (iq - 1) R' J' (gRn st) (gf st)) (fs f) (fss f) ip
        (updv (fiai f) l true) (fex f) (fxo f) (fuo f) (fAo f)))
    | Throw => Throw | UB => UB | Fuel => Fuel
    end
  | _, Some b =>
    let t := match t1 with Some a => if rltb b a then b else a | None => b end in
    let x := fun k => gx st k + t * z k in
    let fv := gf st + t * dot n z np * (1 / 2 * t + gu st iq) in
    let u := moved t in
    if reqb t b then
      match add_constraint n eps (gR st) (gJ st) d iq (gRn st) with
      | Ok (true, R', J', Rn') =>
        Ok (Next L1 (mkFull (mkGi x u (gA st) (S iq) R' J' Rn' fv) (fs f) (fss f) ip
          (updv (fiai f) ip false) (fex f) (fxo f) (fuo f) (fAo f)))
      | Ok (false, R', J', Rn') =>
        (* A(iq) and u(iq) of delete_constraint are out of the arrays *)
        if (p + m <=? S iq)%nat then UB
        else match delete_constraint p R' J' (gA st) u (S iq) ip with
        | Ok (R'', J'', _, _) =>
          (* iai(A(i)) with the negative entries of the equality constraints *)
          if ((0 <? p) && (0 <? iq))%nat%bool then UB
          else Ok (Next L2 (mkFull (mkGi (fxo f) (fuo f) (fAo f) iq R'' J'' Rn' fv) (fs f) (fss f) ip
            (fun i => negb (existsb (fun k => (fAo f k =? i)%nat) (seq 0 iq))) (updv (fex f) ip false)
            (fxo f) (fuo f) (fAo f)))
        | Throw => Throw | UB => UB | Fuel => Fuel
        end
      | Throw => Throw | UB => UB | Fuel => Fuel
      end
    else
      match delete_constraint p (gR st) (gJ st) (gA st) u iq l with
      | Ok (R', J', A', u') =>
        Ok (Next L2a (mkFull (mkGi x u' A' (iq - 1) R' J' (gRn st) fv)
          (updv (fs f) ip (dot n (ciJ ip) x + - cib ip)) (fss f) ip
          (updv (fiai f) l true) (fex f) (fxo f) (fuo f) (fAo f)))
      | Throw => Throw | UB => UB | Fuel => Fuel
      end
  end.

Definition jump (c2 : R) (l : pc) (f : full) : res out :=
  match l with L1 => at_l1 c2 f | L2 => at_l2 f | L2a => at_l2a f end.
Fixpoint run (fuel : nat) (c2 : R) (l : pc) (f : full) : res (qpstatus * option R * gi) :=
  match fuel with
  | O => Fuel
  | S k => match jump c2 l f with
           | Ok (Done s c st) => Ok (s, c, st)
           | Ok (Next l' f') => run k c2 l' f'
           | Throw => Throw | UB => UB | Fuel => Fuel
           end
  end.

(* lines 163-473: solve_quadprog2 *)
Definition quadprog (fuel : nat) (J0 : mat) (xu g0 : vec) : res (qpstatus * option R * gi) :=
  let x := fun k => - xu k in
  let st0 := mkGi x (fun _ => 0) (fun _ => 0%nat) 0 (fun _ _ => 0) J0 1 (1 / 2 * dot n g0 x) in
  match eq_phase 0 p st0 with
  | Ok (inr st) => Ok (DEPENDENT, Some (gf st), st)
  | Ok (inl st) => run fuel (c2_of J0) L1 (mkFull st (fun _ => 0) 0 0 (fun _ => true) (fun _ => true) (gx st) (gu st) (gA st))
  | Throw => Throw | UB => UB | Fuel => Fuel
  end.
(* quadratic-program.cc 68-92: QuadraticProgram::solve; the cost and xStar *)
Definition qp_solve_quadprog (fuel : nat) (J0 : mat) (xu g0 : vec) : res (option R * vec) :=
  if (n <? p)%nat then Throw
  else match quadprog fuel J0 xu g0 with
       | Ok (_, c, st) => Ok (c, gx st)
       | Throw => Throw | UB => UB | Fuel => Fuel
       end.
End Solver.
