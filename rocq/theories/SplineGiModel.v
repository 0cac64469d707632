(* The spline optimizer (SplineGradModel) with the bundled solver of quadratic
   programs (GiModel). *)
From Coq Require Import Reals List Arith Bool.
From Verif Require Import Base XReal SplineModel LinConsModel SplineOptModel SplineGradModel GiModel.
Open Scope R_scope.

(* quadratic-program.cc 62-92, computeLLT and solve without proxqp: xStar after
   the call. [J0] and [xu] come from the Cholesky decomposition of H; a right
   hand side which is not written, excluded by [qp_solve] before, reads as 0.
   The cost, not used by the optimizer, is left out. *)
Definition rhs (c : lincons) : vec := fun i => match lc_b c i with Some b => b | None => 0 end.
Definition gi_solver (eps : R) (J0 : mat) (xu : vec) (fuel : nat) (q : qprog) (ce ci : lincons) : option vec :=
  match qp_solve_quadprog (qp_n q) (lc_rows ce) (lc_rows ci) eps (rsum (fun i => qp_H q i i) (qp_n q))
          (lc_J ce) (lc_J ci) (rhs ce) (rhs ci) fuel J0 xu (qp_b q) with
  | Ok (_, x) => Some x
  | _ => None
  end.
(* spline-gradient-based.cc 373-617 calling this solver *)
Definition with_solver {Rep Fn} (w : @sgb Rep Fn) (sv : qprog -> lincons -> lincons -> option vec) : @sgb Rep Fn :=
  mkSGB (g_n w) (g_nv w) (g_ss w) (g_act w) (g_lambda w) (g_order w) (g_alpha0 w) (g_always w) (g_reorder w) (g_lin w)
    (g_check w) (g_optimum w) (g_thr w) (g_joints w) (g_low w) (g_up w) (g_qr w) (g_lu w) sv
    (g_valid w) (g_create w) (g_refine w) (g_jac w) (g_stop w).
