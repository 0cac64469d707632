(* Construction of path projectors and the paths they steer, on the sessions of
   SteerModel.v: the steering method of a projector is one more method of the
   session. The steering method is the straight one. *)
From Coq Require Import List Reals.
From Verif Require Import Base XReal SteerModel.
Import ListNotations.
Open Scope R_scope.

Section ProjInit.
Variables config fn rhs other : Type.
Variable rhs_of : fn -> config -> rhs.
Variable rhs_at : fn -> R -> rhs -> rhs.
Variable project : fn -> rhs -> line_search -> config -> bool * config.
Variable apply_other : other -> config -> bool * config.
Variable interpolate : config -> config -> R -> config.
Variable distance : config -> config -> R.
Notation session := (session config fn rhs other).
Notation run := (run config fn rhs other rhs_of rhs_at project apply_other interpolate distance).

(* src/path-projector.cc l.45-54: constructor from steering method [m]; the
   method of the projector is the new one, of rank [length (methods w)]. *)
Definition projector_method (w : session) : nat := length (methods _ _ _ _ w).
Definition make_projector (w : session) (m : nat) (keep : bool) : session :=
  let w1 := run w (CopyMethod _ _ _ _ m) in
  if keep then w1 else run w1 (SetConstraints _ _ _ _ (projector_method w) None).
(* src/path-projector.cc l.65-71; [m] is the method of the projector *)
Definition projector_steer (w : session) (m : nat) (q1 q2 : config) : session :=
  run w (Steer _ _ _ _ m q1 q2).
End ProjInit.
