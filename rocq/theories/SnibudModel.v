(* Backward Dubins paths (src/steering-method/snibud.cc), over the reals. *)
From Coq Require Import Reals List.
From Verif Require Import Base XReal CurvModel DubinsModel.
Import ListNotations.
Open Scope R_scope.

(* PathVector::reverse, path-vector.cc l.197-204, on constant curvature
   paths *)
Definition vector_reverse (ps : list cpath) : list cpath := map cc_reverse (rev ps).

(* Snibud::impl_compute, snibud.cc l.39-58; [dist] is the distance of the
   problem.  The constraints are not modelled. *)
Definition snibud_steer (dist : cfg -> cfg -> R) (rho : R) (ws : list wheel) (q1 q2 : cfg) : res (list cpath) :=
  let qEnd := {| cx := cx q1; cy := cy q1; cc := cc q1; cs := cs q1;
                 cj := set_all (map (fun w => (w_rank w, cj q1 (w_rank w))) ws) (cj q2) |} in
  do ps <- dubins_path rho ws (dist q1 qEnd) q2 q1 ;
  Ok (vector_reverse ps).
