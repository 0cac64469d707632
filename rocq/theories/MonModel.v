(* Monitoring of path optimizers (limits and interruption), steering by path
   optimizers, and sequences of optimizers.
   Sources: src/path-optimizer.cc, include/hpp/core/path-optimizer.hh,
   src/plan-and-optimize.cc, src/problem-solver.cc.

   Time is in microseconds; calls of interrupt() by another thread happen
   between two tests of the flag and are seen by the second one. Counters are
   unbounded integers, but the conversion of maxIterations to a signed integer
   is modelled. *)
From Coq Require Import ZArith List Bool.
From Verif Require Import Base Ext LoopModel.
Import ListNotations.
Open Scope Z_scope.

(* include/hpp/core/path-optimizer.hh l.62-99: interrupt_, maxIterations_,
   timeOut_ and monitor_ *)
Record optimizer := { flag : bool; max_it : Z; t_out : dbl; enabled : bool; iteration : Z; time_start : Z }.

(* src/path-optimizer.cc l.38-46 and 82-86; the arguments are the parameters
   "PathOptimizer/maxIterations" and "PathOptimizer/timeOut" of the problem.
   [iteration] and [time_start] are not read before monitorExecution. *)
Definition create (m : Z) (t : dbl) : optimizer :=
  {| flag := false; max_it := m; t_out := t; enabled := false; iteration := 0; time_start := 0 |}.
(* conversion of an unsigned long to size_type (64 bits, two's complement) *)
Definition to_signed (n : Z) : Z := if n <? 2 ^ 63 then n else n - 2 ^ 64.
(* l.88-90 *)
Definition set_max (o : optimizer) (n : Z) : optimizer :=
  {| flag := flag o; max_it := to_signed n; t_out := t_out o; enabled := enabled o; iteration := iteration o; time_start := time_start o |}.
(* l.92 *)
Definition set_time_out (o : optimizer) (t : dbl) : optimizer :=
  {| flag := flag o; max_it := max_it o; t_out := t; enabled := enabled o; iteration := iteration o; time_start := time_start o |}.
(* include/hpp/core/path-optimizer.hh l.55 *)
Definition interrupt (o : optimizer) : optimizer :=
  {| flag := true; max_it := max_it o; t_out := t_out o; enabled := enabled o; iteration := iteration o; time_start := time_start o |}.
(* src/path-optimizer.cc l.59-64 *)
Definition monitor_execution (o : optimizer) (now : Z) : optimizer :=
  {| flag := false; max_it := max_it o; t_out := t_out o; enabled := true; iteration := 0; time_start := now |}.
(* include/hpp/core/path-optimizer.hh l.73 *)
Definition end_iteration (o : optimizer) : optimizer :=
  {| flag := flag o; max_it := max_it o; t_out := t_out o; enabled := enabled o; iteration := iteration o + 1; time_start := time_start o |}.
(* src/path-optimizer.cc l.66-78; total_milliseconds truncates *)
Definition should_stop (o : optimizer) (now : Z) : bool :=
  if flag o then true
  else if negb (enabled o) then false
  else if max_it o <=? iteration o then true
  else over_time (Z.quot (now - time_start o) 1000) (t_out o).

(* Loops of optimizers: src/path-optimization/random-shortcut.cc l.97-98
   (endIteration first) and src/path-optimization/spline-gradient-based.cc
   l.501 and 612 (endIteration last): [done] is the rest of the condition,
   [body] the rest of the iteration. *)
Section Loop.
Variable env : nat -> Z * bool.     (* time, and whether interrupt() was called since the previous test *)
Variable X : Type.
Record program := { body : X -> X; finished : X -> bool }.
Definition seen (o : optimizer) (g : nat) : optimizer := if snd (env g) then interrupt o else o.
Fixpoint loop (fuel : nat) (g : nat) (o : optimizer) (p : program) (x : X) : res (X * optimizer * nat) :=
  match fuel with
  | O => Fuel
  | S f =>
    let o := seen o g in
    if should_stop o (fst (env g)) || finished p x then Ok (x, o, S g)
    else loop f (S g) (end_iteration o) p (body p x)
  end.
(* optimize: monitorExecution, then the loop *)
Definition optimize (fuel g : nat) (o : optimizer) (p : program) (x : X) : res (X * optimizer * nat) :=
  loop fuel (S g) (monitor_execution (seen o g) (fst (env g))) p x.

(* ProblemSolver::interrupt, src/problem-solver.cc l.816-822, reaches every
   optimizer: between the n-th and the next test, [env] says so to all of them.
   src/plan-and-optimize.cc l.40-47, src/problem-solver.cc l.351-358 *)
Fixpoint optimize_all (fuel g : nat) (l : list (optimizer * program)) (x : X) : res (X * nat) :=
  match l with
  | [] => Ok (x, g)
  | (o, p) :: l' => match optimize fuel g o p x with
                    | Ok (x', _, g') => optimize_all fuel g' l' x'
                    | Throw => Throw | UB => UB | Fuel => Fuel
                    end
  end.
End Loop.

(* src/problem-solver.cc l.351-358 with arbitrary optimizers: the paths stored
   by the problem solver, and the outcome. After an exception the results of
   the previous optimizers have been stored. *)
Fixpoint optimize_path {P} (os : list (P -> res P)) (path : P) (stored : list P) : list P * res P :=
  match os with
  | [] => (stored, Ok path)
  | o :: os' => match o path with
                | Ok p => optimize_path os' p (stored ++ [p])
                | Throw => (stored, Throw) | UB => (stored, UB) | Fuel => (stored, Fuel)
                end
  end.
(* src/plan-and-optimize.cc l.40-47 *)
Fixpoint finish_solve {P} (os : list (P -> res P)) (path : P) : res P :=
  match os with
  | [] => Ok path
  | o :: os' => match o path with Ok p => finish_solve os' p | Throw => Throw | UB => UB | Fuel => Fuel end
  end.

(* src/path-optimizer.cc l.48-57; [sm] is the steering method, [proj] the path
   projector of the problem: whether it succeeds, and what it writes *)
Definition steer {Q P} (sm : Q -> Q -> option P) (proj : option (P -> bool * option P)) (q1 q2 : Q) : option P :=
  match sm q1 q2 with
  | Some dp => match proj with
               | None => Some dp
               | Some f => let (b, pp) := f dp in if b then pp else None
               end
  | None => None
  end.
