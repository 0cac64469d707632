(* Configuration projectors (src/config-projector.cc).  The solver of
   hpp-constraints is external: its constraints are an abstract value, its
   functions are arguments. *)
From Coq Require Import Reals List Bool.
From Verif Require Import Base XReal.
Import ListNotations.
Open Scope R_scope.

Inductive line_search := Backtracking | ErrorNormBased | FixedSequence | Constant.
Inductive status := ERROR_INCREASED | MAX_ITERATION_REACHED | INFEASIBLE | SUCCESS.
Inductive reason := R_max_iter | R_error_increased | R_infeasible.

Section Projector.
Variables config system constraint vector : Type.
(* BySubstitution: constraints and right hand sides, parameters *)
Record solver := {
  sys : system; max_iterations : nat; last_is_optional : bool;
  error_threshold : R; inequality_threshold : R }.
(* isSatisfied (config) *)
Variable satisfied : solver -> config -> bool.
(* solve (config, optimize, lineSearch); it may throw *)
Variable solve : line_search -> bool -> solver -> config -> res (status * config).
(* rightHandSideFromConfig (constraint, config) and rightHandSide (constraint,
   rhs): None if the constraint is not in the solver (they return false) *)
Variable set_rhs_config : system -> constraint -> config -> option system.
Variable set_rhs : system -> constraint -> vector -> option system.

(* Members; the statistics are the numbers of successes and failures
   (hpp::statistics::SuccessStatistics) *)
Record projector := { slv : solver; ls_type : line_search; successes : nat; failures : list reason }.
Definition with_solver (p : projector) (s : solver) : projector :=
  {| slv := s; ls_type := ls_type p; successes := successes p; failures := failures p |}.
Definition add_success (p : projector) : projector :=
  {| slv := slv p; ls_type := ls_type p; successes := S (successes p); failures := failures p |}.
Definition add_failure (p : projector) (r : reason) : projector :=
  {| slv := slv p; ls_type := ls_type p; successes := successes p; failures := r :: failures p |}.

(* maxIterations, errorThreshold, lastIsOptional, l.373-404 *)
Definition set_max_iterations (p : projector) (n : nat) : projector :=
  with_solver p {| sys := sys (slv p); max_iterations := n; last_is_optional := last_is_optional (slv p);
                   error_threshold := error_threshold (slv p); inequality_threshold := inequality_threshold (slv p) |}.
Definition set_error_threshold (p : projector) (e : R) : projector :=
  with_solver p {| sys := sys (slv p); max_iterations := max_iterations (slv p); last_is_optional := last_is_optional (slv p);
                   error_threshold := e; inequality_threshold := e |}.
Definition set_last_is_optional (p : projector) (b : bool) : projector :=
  with_solver p {| sys := sys (slv p); max_iterations := max_iterations (slv p); last_is_optional := b;
                   error_threshold := error_threshold (slv p); inequality_threshold := inequality_threshold (slv p) |}.
Definition set_line_search (p : projector) (l : line_search) : projector :=
  {| slv := slv p; ls_type := l; successes := successes p; failures := failures p |}.

(* impl_compute, l.181-205, called by Constraint::apply; solverSolve,
   l.350-371: result, configuration and projector after the call *)
Definition apply (p : projector) (q : config) : res (bool * config) * projector :=
  if satisfied (slv p) q then (Ok (true, q), p)
  else
    match solve (ls_type p) false (slv p) q with
    | Ok (ERROR_INCREASED, q') => (Ok (false, q'), add_failure p R_error_increased)
    | Ok (MAX_ITERATION_REACHED, q') => (Ok (false, q'), add_failure p R_max_iter)
    | Ok (INFEASIBLE, q') => (Ok (false, q'), add_failure p R_infeasible)
    | Ok (SUCCESS, q') => (Ok (true, q'), add_success p)
    | Throw => (Throw, p) | UB => (UB, p) | Fuel => (Fuel, p)
    end.
(* optimize, l.207-248 *)
Definition optimize (p : projector) (q : config) (maxIter : nat) : res (bool * config) * projector :=
  if negb (last_is_optional (slv p)) then (Ok (true, q), p)
  else if negb (satisfied (slv p) q) then (Ok (false, q), p)
  else
    let save := max_iterations (slv p) in
    let p1 := if negb (Nat.eqb maxIter 0) then set_max_iterations p maxIter else p in
    match solve (ls_type p1) true (slv p1) q with
    | Ok (st, q') =>
      let p2 := set_max_iterations p1 save in
      match st with
      | SUCCESS => (Ok (true, q'), p2)
      | INFEASIBLE => (Ok (satisfied (slv p2) q', q'), p2)
      | _ => (Ok (false, q'), p2)
      end
    | Throw => (Throw, p1) | UB => (UB, p1) | Fuel => (Fuel, p1)
    end.
Definition with_system (s : solver) (x : system) : solver :=
  {| sys := x; max_iterations := max_iterations s; last_is_optional := last_is_optional s;
     error_threshold := error_threshold s; inequality_threshold := inequality_threshold s |}.
(* rightHandSideFromConfig (nm, config), l.289-301 *)
Definition right_hand_side_config (p : projector) (c : constraint) (q : config) : res projector :=
  match set_rhs_config (sys (slv p)) c q with
  | Some x => Ok (with_solver p (with_system (slv p) x))
  | None => Throw
  end.
(* rightHandSide (nm, rhs), l.307-318: the message is built and not thrown *)
Definition right_hand_side (p : projector) (c : constraint) (v : vector) : res projector :=
  match set_rhs (sys (slv p)) c v with
  | Some x => Ok (with_solver p (with_system (slv p) x))
  | None => Ok p
  end.

(* Several projectors and the default line search, l.54-59, 65-113 *)
Record world := { default_ls : line_search; projectors : list projector }.
Inductive call :=
| DefaultLineSearch (l : line_search)
| Create (x : system) (threshold : R) (maxIter : nat)
| CopyOf (i : nat)
| LineSearch (i : nat) (l : line_search).
Definition create (w : world) (x : system) (threshold : R) (maxIter : nat) : projector :=
  let s0 := {| sys := x; max_iterations := 0; last_is_optional := true; error_threshold := 0; inequality_threshold := 0 |} in
  let p := {| slv := s0; ls_type := default_ls w; successes := 0; failures := [] |} in
  set_last_is_optional (set_max_iterations (set_error_threshold p threshold) maxIter) false.
Definition copy (p : projector) : projector :=
  {| slv := slv p; ls_type := ls_type p; successes := successes p; failures := failures p |}.
Fixpoint replace {A} (l : list A) (i : nat) (f : A -> A) : list A :=
  match l, i with
  | [], _ => []
  | x :: l', O => f x :: l'
  | x :: l', S i' => x :: replace l' i' f
  end.
Definition run (w : world) (c : call) : world :=
  match c with
  | DefaultLineSearch l => {| default_ls := l; projectors := projectors w |}
  | Create x e n => {| default_ls := default_ls w; projectors := projectors w ++ [create w x e n] |}
  | CopyOf i => match nth_error (projectors w) i with
                | Some p => {| default_ls := default_ls w; projectors := projectors w ++ [copy p] |}
                | None => w
                end
  | LineSearch i l => {| default_ls := default_ls w; projectors := replace (projectors w) i (fun p => set_line_search p l) |}
  end.
End Projector.
Arguments sys {system}. Arguments max_iterations {system}. Arguments last_is_optional {system}.
Arguments error_threshold {system}. Arguments inequality_threshold {system}.
Arguments slv {system}. Arguments ls_type {system}. Arguments successes {system}. Arguments failures {system}.
Arguments default_ls {system}. Arguments projectors {system}.

(* ---------------------------------------- removal of explicit variables *)
(* Explicit constraints compute some velocity variables from others;
   notOutDers () are the others, as segments (first index, length). *)
Definition segment := (nat * nat)%type.
Definition indices (b : list segment) : list nat := flat_map (fun s => seq (fst s) (snd s)) b.
Notation vec := (list R) (only parsing).
Notation mat := (list (list R)) (only parsing).
(* compressVector, l.145-149 *)
Definition compress (b : list segment) (normal : vec) : vec := map (fun i => nth i normal 0) (indices b).
(* position of an index in a list *)
Fixpoint rank (i : nat) (l : list nat) : option nat :=
  match l with
  | [] => None
  | j :: l' => if Nat.eqb i j then Some O else option_map S (rank i l')
  end.
(* uncompressVector, l.139-143: writes the selected variables of the vector
   given by the caller *)
Definition uncompress (b : list segment) (small normal : vec) : vec :=
  map (fun i => match rank i (indices b) with Some k => nth k small 0 | None => nth i normal 0 end) (seq 0 (length normal)).
(* compressMatrix, l.151-164 *)
Definition compress_matrix (b : list segment) (normal : mat) (rows : bool) : mat :=
  let m := map (compress b) normal in
  if rows then map (fun i => nth i m []) (indices b) else m.
(* uncompressMatrix, l.166-179 *)
Definition uncompress_matrix (b : list segment) (small normal : mat) (rows : bool) : mat :=
  if rows then
    map (fun i => match rank i (indices b) with
                  | Some k => uncompress b (nth k small []) (nth i normal [])
                  | None => nth i normal []
                  end) (seq 0 (length normal))
  else map (fun i => uncompress b (nth i small []) (nth i normal [])) (seq 0 (length normal)).
