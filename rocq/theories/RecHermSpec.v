(* Independent vocabulary for the projection of Hermite paths. *)
From Coq Require Import Reals List.
From Verif Require Import Base SplineModel RecHermModel.
Import ListNotations.
Open Scope R_scope.

(* The paths follow each other from q to q'. *)
Fixpoint chain (q : vec) (l : list hermite) (q' : vec) : Prop :=
  match l with
  | [] => q = q'
  | p :: l' => h_init p = q /\ chain (h_end p) l' q'
  end.

(* A cubic curve over [0, 1] between its ends. *)
Definition curve (p : hermite) : R -> vec := sp_compute (h_spl p).
Definition between_ends (p : hermite) : Prop :=
  (forall d, curve p 0 d = h_init p d) /\ (forall d, curve p 1 d = h_end p d).
(* what the constructor and the setters of the velocities build *)
Record regular (p : hermite) : Prop := {
  reg_deg : sp_deg (h_spl p) = 3%nat;
  reg_t0 : sp_t0 (h_spl p) = 0; reg_t1 : sp_t1 (h_spl p) = 1;
  reg_base : sp_base (h_spl p) = h_init p;
  reg_first : forall d, row p 0 d = 0;
  reg_last : forall d, row p 3 d = h_end p d - h_init p d
}.

(* f varies at most M times as fast as the configuration. *)
Definition lipschitz (n : nat) (M : R) (f : vec -> R) : Prop :=
  forall a b, Rabs (f a - f b) <= M * norm n (vminus a b).

(* The vectors have the same direction. *)
Definition parallel (u v : vec) : Prop := exists a b, 0 < a /\ 0 < b /\ forall d, a * u d = b * v d.
(* At the junctions the velocities have the same direction. *)
Definition velocity_at (p : hermite) (t : R) : vec := sp_derivative (h_spl p) t 1.
Fixpoint same_directions (l : list hermite) : Prop :=
  match l with
  | p :: ((p' :: _) as l') =>
      parallel (velocity_at p 1) (velocity_at p' 0) /\ same_directions l'
  | _ => True
  end.

(* The configurations that project writes when it applies its constraints
   satisfy them. *)
Definition sound (k : hcons) : Prop := forall q q', k_apply k q = Some q' -> k_sat k q' = true.
(* The paths a program can give. *)
Definition proper_input (k : hcons) (i : input) : Prop :=
  match i with IHermite p => regular p /\ k_sat k (h_init p) = true | _ => True end.
(* The configurations it goes through by construction satisfy the constraints. *)
Definition satisfied_points (k : hcons) (i : input) : Prop :=
  match i with
  | IHermite p => k_sat k (h_init p) = true
  | IPoints a l => k_sat k a = true /\ Forall (fun q => k_sat k q = true) l
  | IOther a b => k_sat k a = true
  end.
(* A piece of the result: a cubic curve between configurations that satisfy
   the constraints, the control polygon of which is shorter than thr. *)
Record good_piece (n : nat) (k : hcons) (thr : R) (p : hermite) : Prop := {
  g_ends : between_ends p;
  g_sat0 : k_sat k (h_init p) = true; g_sat1 : k_sat k (h_end p) = true;
  g_short : norm n (vminus (row p 1) (row p 0)) + norm n (vminus (row p 2) (row p 1)) +
            norm n (vminus (row p 3) (row p 2)) < thr;
  g_near : forall t, 0 <= t <= 1 ->
    norm n (vminus (curve p t) (h_init p)) + norm n (vminus (curve p t) (h_end p)) < thr
}.
(* The segment from a to b moves freely: its configurations satisfy the
   constraints, are their own projections, and its direction is free. *)
Definition segment (a b : vec) (t : R) : vec := fun d => a d + t * (b d - a d).
Definition free_segment (k : hcons) (a b : vec) : Prop := forall t, 0 <= t <= 1 ->
  k_sat k (segment a b t) = true /\ k_apply k (segment a b t) = Some (segment a b t) /\
  forall v, (exists s, forall d, v d = s * (b d - a d)) -> forall d, k_kernel k (segment a b t) v d = v d.
