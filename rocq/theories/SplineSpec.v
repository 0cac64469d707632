(* Specification vocabulary for the spline properties. *)
From Coq Require Import Reals.
From Coq Require Import List.
From Verif Require Import Base PolySpec SplineModel.
Open Scope R_scope.

(* Bernstein polynomial; [C] is the binomial coefficient of the standard library. *)
Definition bernstein (n i : nat) (t : R) : R := C n i * t ^ i * (1 - t) ^ (n - i).

(* I is the Riemann integral of f between a and b. *)
Definition integral_is (f : R -> R) (a b I : R) : Prop :=
  exists pr : Riemann_integrable f a b, RiemannInt pr = I.

(* The curve a spline stands for, dof by dof. *)
Definition curve (s : spline) (d : nat) (t : R) : R :=
  sp_base s d + rsum (fun i => sp_par s i d * bernstein (sp_deg s) i ((t - sp_t0 s) / (sp_t1 s - sp_t0 s))) (S (sp_deg s)).

(* D is the k-th derivative of the curve, dof by dof. *)
Definition curve_derivative (k : nat) (s : spline) (D : nat -> R -> R) : Prop :=
  forall d, (d < sp_nv s)%nat -> nth_derivative k (curve s d) (D d).

Definition sq_norm (nv : nat) (D : nat -> R -> R) (t : R) : R := rsum (fun d => D d t * D d t) nv.

(* P solves the linear system whose rows are (coefficients, right hand side). *)
Definition solves (n nv : nat) (rows : list ((nat -> R) * (nat -> R))) (P : nat -> nat -> R) : Prop :=
  forall r, List.In r rows -> forall d, (d < nv)%nat -> rsum (fun i => fst r i * P i d) (S n) = snd r d.

(* the solver returns a solution of the system when there is one *)
Definition exact (n nv : nat) (solve : list ((nat -> R) * (nat -> R)) -> nat -> nat -> R) (rows : list ((nat -> R) * (nat -> R))) : Prop :=
  (exists P, solves n nv rows P) -> solves n nv rows (solve rows).
(* the system of the steering method, for a path of duration T *)
Definition system (n nv : nat) (T : R) (q1 : nat -> R) (d1 : list (nat * (nat -> R))) (q2 : nat -> R) (d2 : list (nat * (nat -> R))) :=
  sm_rows (mkSpline n nv q1 (fun _ _ => 0) 0 T) q1 d1 q2 d2.
(* derivatives of orders 1 to a *)
Definition orders (l : list (nat * (nat -> R))) (a : nat) : Prop := map fst l = seq 1 a.
