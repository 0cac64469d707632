(* The solving loop of hpp::core::PathPlanner and its settings.
   Source: src/path-planner.cc.

   The planner (startSolve, tryConnectInitAndGoals, oneStep), the target
   (reached, computePath), the clock and the calls of interrupt() from another
   thread are parameters. Target::reached is a test of the state: the goals
   that a TaskTarget adds are in TargetModel.v. An interruption between two
   tests of the flag is seen by the second one. *)
From Verif Require Import Base Ext.

(* a double given to timeOut *)
Inductive dbl := DNaN | DExt (e : ext).

(* maxIterations_, timeOut_, stopWhenProblemIsSolved_.
   uint_infty = numeric_limits<unsigned long>::infinity() = 0,
   path-planner.cc:50-51 *)
Record settings := mkSet { maxI : nat; tmo : dbl; stopS : bool }.
Definition uint_infty : nat := 0.
(* path-planner.cc:54-73 *)
Definition settings0 : settings := mkSet uint_infty (DExt PInf) true.

(* time == float_infty *)
Definition is_infty (d : dbl) : bool := match d with DExt PInf => true | _ => false end.
(* elapsed_ms > timeOut_ * 1000, path-planner.cc:142 *)
Definition over_time (elapsed : Z) (d : dbl) : bool :=
  match d with
  | DNaN => false
  | DExt PInf => false
  | DExt NInf => true
  | DExt (Fin q) => negb (Qle_bool (inject_Z elapsed) (q * 1000))
  end.

(* Setters, path-planner.cc:178-201; the boolean tells that an exception was
   thrown. *)
Inductive setop := SetMax (n : nat) | SetTime (d : dbl) | SetStop (b : bool).
Definition set_step (s : settings) (o : setop) : settings * bool :=
  match o with
  | SetMax n =>
    if negb (stopS s) && Nat.eqb n uint_infty && is_infty (tmo s) then (s, true)
    else (mkSet n (tmo s) (stopS s), false)
  | SetTime d =>
    if negb (stopS s) && Nat.eqb (maxI s) uint_infty && is_infty d then (s, true)
    else (mkSet (maxI s) d (stopS s), false)
  | SetStop b =>
    if negb b && Nat.eqb (maxI s) uint_infty && is_infty (tmo s) then (s, true)
    else (mkSet (maxI s) (tmo s) b, false)
  end.
Definition set_run (l : list setop) : settings := fold_left (fun s o => fst (set_step s o)) l settings0.

Section Loop.
Variables St A : Type.
Variable start : res St.          (* startSolve and tryConnectInitAndGoals *)
Variable oneStep : St -> res St.
Variable reached : St -> bool.    (* target->reached(roadmap) *)
Variable computePath : St -> res A.
Variable clock : nat -> Z.        (* milliseconds at the n-th test of the limits *)
Variable intr : nat -> bool.      (* interrupt() called before the n-th test of the
                                     flag and after the preceding one *)

(* How solve ends, with the number of steps executed. *)
Inductive ending :=
| Solved (n : nat) (r : res A)     (* computePath *)
| LimitHit (n : nat)               (* path_planning_failed: iterations or time *)
| Interrupted (n : nat)            (* path_planning_failed: Interruption *)
| StepRaised (n : nat)             (* oneStep raises *)
| StartRaised                      (* startSolve or tryConnectInitAndGoals raises *)
| NoFuel.

(* path-planner.cc:124-171. [n]: nIter, [solved], status is 0 at each entry *)
Fixpoint loop (fuel : nat) (c : settings) (n : nat) (solved : bool) (s : St) : ending :=
  match fuel with
  | O => NoFuel
  | S k =>
    if solved then Solved n (computePath s)
    else
      let st1 := if negb (Nat.eqb (maxI c) uint_infty) && (maxI c <=? n)
                 then (if reached s then 1 else 2) else 0 in
      let st2 := if over_time (clock n) (tmo c)
                 then (if reached s then 1 else 2) else st1 in
      match st2 with
      | 1 => Solved n (computePath s)
      | 2 => LimitHit n
      | _ =>
        match oneStep s with
        | Ok s' =>
          if intr (S n) then Interrupted (S n)
          else loop k c (S n) (stopS c && reached s') s'
        | _ => StepRaised n
        end
      end
  end.
(* PathPlanner::solve, path-planner.cc:100-174 *)
Definition solve (fuel : nat) (c : settings) : ending :=
  match start with
  | Ok s => if intr 0 then Interrupted 0 else loop fuel c 0 (reached s) s
  | _ => StartRaised
  end.
End Loop.
Arguments Solved {A}. Arguments LimitHit {A}. Arguments Interrupted {A}.
Arguments StepRaised {A}. Arguments StartRaised {A}. Arguments NoFuel {A}.
