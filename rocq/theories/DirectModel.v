(* Direct paths, edges and step by step solving through the problem solver.
   Source: src/problem-solver.cc l.722-815, include/hpp/core/problem-solver.hh
   l.366-370.

   Steering, projection and validation are parameters of their own; what a
   projection or a validation writes in its output (nothing: null pointer) is
   part of the answer. *)
From Coq Require Import List Bool.
From Verif Require Import Base.
Import ListNotations.

Inductive report_text := Empty | SteeringFailed | NoReport | Explained.

Section Direct.
Variables config path : Type.
Variable sm : config -> config -> option path.                    (* steering method *)
Variable proj : option (path -> bool * option path).              (* path projector *)
Variable val : path -> bool * option path * bool.                 (* validate (path, false): verdict, valid part, report given *)

(* l.749-801. The vectors of paths stored by the solver; here vectors of one
   path. [d_id] is None for the value -1. *)
Record answer := { d_ret : bool; d_id : option nat; d_report : report_text; d_paths : list path }.
Definition direct_path (paths : list path) (start end_ : config) (validate : bool) : res answer :=
  match sm start end_ with
  | None => Ok {| d_ret := false; d_id := None; d_report := SteeringFailed; d_paths := paths |}
  | Some dp =>
    if validate then
      let (projected, dp1) := match proj with Some f => f dp | None => (true, Some dp) end in
      match dp1 with
      | None => UB                                   (* validate dereferences a null path *)
      | Some p1 =>
        let '(projValid, dp2, r) := val p1 in
        let report := if projValid then Empty else if r : bool then Explained else NoReport in
        match dp2 with
        | None => UB                                 (* dp2->outputSize () *)
        | Some p2 => Ok {| d_ret := projValid && projected; d_id := Some (length paths); d_report := report; d_paths := paths ++ [p2] |}
        end
      end
    else Ok {| d_ret := true; d_id := Some (length paths); d_report := Empty; d_paths := paths ++ [dp] |}
  end.

(* l.807-823: nearest nodes and their distances (None: no node, infinite
   distance); [far d] is d >= 1e-5 *)
Variable node dist : Type.
Variable far : dist -> bool.
Variable nearest : config -> option (node * dist).
Definition add_edge (edges : list (node * node * path)) (q1 q2 : config) (p : path) : res (list (node * node * path)) :=
  match nearest q1 with
  | Some (n1, d1) => if far d1 then Throw else
    match nearest q2 with
    | Some (n2, d2) => if far d2 then Throw else Ok (edges ++ [(n1, n2, p)])
    | None => Throw
    end
  | None => Throw
  end.
End Direct.

(* l.722-740: solving step by step. The user calls prepareSolveStepByStep, then
   executeOneStep until one of them answers true, then finishSolveStepByStep. *)
Section Steps.
Variables St A : Type.
Variable start : res St.             (* initProblem, startSolve, tryConnectInitAndGoals *)
Variable oneStep : St -> res St.
Variable exists_path : St -> bool.   (* roadmap ()->pathExists () *)
Variable computePath : St -> res A.  (* computePath and finishSolve *)
Definition prepare : res (St * bool) := match start with Ok s => Ok (s, exists_path s) | Throw => Throw | UB => UB | Fuel => Fuel end.
Definition execute (s : St) : res (St * bool) := match oneStep s with Ok s' => Ok (s', exists_path s') | Throw => Throw | UB => UB | Fuel => Fuel end.
Definition finish (s : St) : res A := if exists_path s then computePath s else Throw.
(* the user's loop; the number of steps, and the state at the end *)
Fixpoint steps (fuel n : nat) (x : St * bool) : res (nat * St) :=
  match fuel with
  | O => Fuel
  | S f => if snd x then Ok (n, fst x)
           else match execute (fst x) with Ok y => steps f (S n) y | Throw => Throw | UB => UB | Fuel => Fuel end
  end.
Definition by_steps (fuel : nat) : res (nat * A) :=
  match prepare with
  | Ok x => match steps fuel 0 x with
            | Ok (n, s) => match finish s with Ok a => Ok (n, a) | Throw => Throw | UB => UB | Fuel => Fuel end
            | Throw => Throw | UB => UB | Fuel => Fuel
            end
  | Throw => Throw | UB => UB | Fuel => Fuel
  end.
End Steps.
