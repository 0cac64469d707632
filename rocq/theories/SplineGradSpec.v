(* Specification vocabulary for the loop of the spline optimiser. *)
From Coq Require Import Reals List.
From Verif Require Import Base XReal SplineModel LinConsModel LinConsSpec SplineOptModel SplineOptSpec SplineGradModel.
Open Scope R_scope.

(* The constraint of the input path, and its parameters. *)
Definition w_constraint {Rep Fn} (w : @sgb Rep Fn) : lincons := path_constraint (g_n w) (g_nv w) (g_ss w) (g_act w).
Definition w_input {Rep Fn} (w : @sgb Rep Fn) : vec := params (g_n w) (g_nv w) (g_ss w).
Definition w_size {Rep Fn} (w : @sgb Rep Fn) : nat := (length (g_ss w) * bsize (g_n w) (g_nv w))%nat.
(* The splines of given parameters. *)
Definition w_splines {Rep Fn} (w : @sgb Rep Fn) (x : vec) : list spline := update_splines (g_n w) (g_nv w) x (g_ss w).
Definition w_cost {Rep Fn} (w : @sgb Rep Fn) (x : vec) : R := cost_value (g_lambda w) (g_order w) (w_splines w x).

(* The solver finds a minimum of the cost of q under at most as many equations
   as variables and the inequalities ci, and fails only when there is no
   solution. *)
Definition exact_solver (solver : qprog -> lincons -> lincons -> option vec) (q0 : qprog) (ci : lincons) : Prop :=
  forall q ce, qp_n q = qp_n q0 -> qp_H q = qp_H q0 -> qp_b q = qp_b q0 ->
  lc_cols ce = qp_n q0 -> (lc_rows ce <= qp_n q0)%nat -> written ce ->
  match solver q ce ci with
  | Some v => sat ce v /\ sat_ineq ci v /\
      forall u, sat ce u -> sat_ineq ci u -> quad (qp_n q0) (qp_H q0) (qp_b q0) v <= quad (qp_n q0) (qp_H q0) (qp_b q0) u
  | None => forall u, ~ (sat ce u /\ sat_ineq ci u)
  end.
(* The programs given to the solver are those of optimize. *)
Definition solver_exact {Rep Fn} (w : @sgb Rep Fn) : Prop :=
  forall cs ok bcr full q,
  lc_decompose (g_qr w) true true (w_constraint w) = Ok (cs, ok) ->
  lc_reduce (g_lu w) cs (bounds_of w) (lc_new 0 0) false = Ok (bcr, full) ->
  qp_reduced (mkQP (w_size w) (cost_hessian (g_n w) (g_nv w) (g_lambda w) (g_order w) (g_ss w)) (fun _ => 0) true None) cs = Ok q ->
  exact_solver (g_solver w) q bcr.
(* A rank computation that is exact as far as leading rows are concerned. *)
Definition rank_exact (lu_rank : nat -> nat -> mat -> nat) (m n : nat) (J : mat) : Prop :=
  (forall r, (r <= m)%nat -> independent_rows r n J -> (r <= lu_rank m n J)%nat) /\
  (lu_rank m n J = m -> independent_rows m n J).
(* The ranks computed by optimize, in the space left by the constraint, are
   those. *)
Definition lu_exact {Rep Fn} (w : @sgb Rep Fn) : Prop :=
  forall cs ok k PK xs, lc_decompose (g_qr w) true true (w_constraint w) = Ok (cs, ok) -> lc_dec cs = Some (k, PK, xs) ->
  forall m J, rank_exact (g_lu w) m k J.
