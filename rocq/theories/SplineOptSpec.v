(* Specification vocabulary for the constraints and the cost of the spline
   optimisers. *)
From Coq Require Import Reals List.
From Verif Require Import Base XReal PolySpec SplineModel SplineSpec LinConsModel LinConsSpec SplineOptModel.
Open Scope R_scope.

(* a sequence of splines of degree n with nv dofs and positive durations *)
Definition proper (n nv : nat) (ss : list spline) : Prop :=
  ss <> nil /\ (0 < nv)%nat /\
  forall s, In s ss -> sp_deg s = n /\ sp_nv s = nv /\ sp_t0 s < sp_t1 s.

(* the k-th derivative of dof d of the curve at time t is v *)
Definition deriv_at (k : nat) (s : spline) (d : nat) (t v : R) : Prop :=
  exists D, nth_derivative k (curve s d) D /\ D t = v.
Definition same_deriv (k d : nat) (s : spline) (t : R) (s' : spline) (t' : R) : Prop :=
  exists v, deriv_at k s d t v /\ deriv_at k s' d t' v.

(* What the constraint of the optimiser asks of the new splines ss', given the
   splines ss of the input: same ends, same differences where they meet,
   null derivatives at the ends, equal derivatives where they meet, control
   points of the passive dofs unchanged. *)
Record keeps (n nv m : nat) (act : nat -> nat -> bool) (ss ss' : list spline) : Prop := {
  k_start : forall d, (d < nv)%nat ->
    curve (nth_spline ss' 0) d (sp_t0 (nth_spline ss' 0)) = curve (nth_spline ss 0) d (sp_t0 (nth_spline ss 0));
  k_end : forall d, (d < nv)%nat -> let l := (length ss - 1)%nat in
    curve (nth_spline ss' l) d (sp_t1 (nth_spline ss' l)) = curve (nth_spline ss l) d (sp_t1 (nth_spline ss l));
  k_meet : forall j d, (S j < length ss)%nat -> (d < nv)%nat ->
    curve (nth_spline ss' (S j)) d (sp_t0 (nth_spline ss' (S j))) - curve (nth_spline ss' j) d (sp_t1 (nth_spline ss' j)) =
    curve (nth_spline ss (S j)) d (sp_t0 (nth_spline ss (S j))) - curve (nth_spline ss j) d (sp_t1 (nth_spline ss j));
  k_start_der : forall k d, (1 <= k <= m)%nat -> (d < nv)%nat -> act 0%nat d = true ->
    deriv_at k (nth_spline ss' 0) d (sp_t0 (nth_spline ss' 0)) 0;
  k_end_der : forall k d, (1 <= k <= m)%nat -> (d < nv)%nat -> let l := (length ss - 1)%nat in act l d = true ->
    deriv_at k (nth_spline ss' l) d (sp_t1 (nth_spline ss' l)) 0;
  k_meet_der : forall k j d, (1 <= k <= m)%nat -> (S j < length ss)%nat -> (d < nv)%nat ->
    act j d = true \/ act (S j) d = true ->
    same_deriv k d (nth_spline ss' j) (sp_t1 (nth_spline ss' j)) (nth_spline ss' (S j)) (sp_t0 (nth_spline ss' (S j)));
  k_passive : forall j i d, (j < length ss)%nat -> (i <= n)%nat -> (d < nv)%nat -> act j d = false ->
    sp_par (nth_spline ss' j) i d = sp_par (nth_spline ss j) i d }.

(* q is within the bounds *)
Definition within (low up : xr) (q : R) : Prop :=
  (match low with Fin l => l <= q | MInf => True | _ => False end) /\
  (match up with Fin u => q <= u | PInf => True | _ => False end).
(* the same up to e *)
Definition nearly_within (e : R) (low up : xr) (q : R) : Prop :=
  (match low with Fin l => l - e <= q | MInf => True | _ => False end) /\
  (match up with Fin u => q <= u + e | PInf => True | _ => False end).
(* Bounds of the bounded coordinates of the joints: numbers, or infinite on the
   right side; the coordinates exist. *)
Definition sound_bounds (nv : nat) (joints : list bjoint) (low up : nat -> xr) : Prop :=
  forall j i, In j joints -> (i < bj_n j)%nat -> (bj_v j + i < nv)%nat /\
    (low (bj_q j + i)%nat = MInf \/ exists r, low (bj_q j + i)%nat = Fin r) /\
    (up (bj_q j + i)%nat = PInf \/ exists r, up (bj_q j + i)%nat = Fin r).
(* both bounds of each coordinate are numbers *)
Definition finite_bounds (joints : list bjoint) (low up : nat -> xr) : Prop :=
  forall j i, In j joints -> (i < bj_n j)%nat ->
    (exists r, low (bj_q j + i)%nat = Fin r) /\ exists r, up (bj_q j + i)%nat = Fin r.
