(* Independent vocabulary for random configurations. *)
From Coq Require Import Reals List.
From Verif Require Import Base XReal ShootModel.
Import ListNotations.
Open Scope R_scope.

(* bounds a number can be drawn from *)
Definition bounded (b : xr * xr) : Prop := exists lo hi, b = (Fin lo, Fin hi) /\ lo <= hi.
(* x is a number between the bounds *)
Definition inside (b : xr * xr) (x : xr) : Prop :=
  exists v, x = Fin v /\
    match fst b with Fin lo => lo <= v | MInf => True | _ => False end /\
    match snd b with Fin hi => v <= hi | PInf => True | _ => False end.
(* two bounds between which no number, or no uniform law, exists *)
Definition unusable (b : xr * xr) : Prop :=
  match b with
  | (Fin lo, Fin hi) => hi < lo
  | (MInf, PInf) | (MInf, Fin _) | (Fin _, PInf) => True   (* unbounded *)
  | (PInf, Fin _) | (Fin _, MInf) | (PInf, MInf) => True   (* no number *)
  | _ => False
  end.
(* neither NaN nor twice the same infinity *)
Definition regular (b : xr * xr) : Prop := bounded b \/ unusable b.
(* all the bounds of a robot, in the order of its configuration variables *)
Definition all_bounds (d : device) : bounds := flat_map snd (joints d) ++ extra d.
Definition well_formed (d : device) : Prop := Forall (fun j => length (snd j) = nq (fst j)) (joints d).

(* Default standard deviations as documented in gaussian.hh: the width of the
   interval for vector spaces (1 where it is not bounded), 2 pi / sqrt (2n-3)
   on each of the dimensions of SO(n), SE(n) as R^n x SO(n). *)
Inductive documented : group -> bounds -> list R -> Prop :=
| doc_nil : documented (Vect 0) [] []
| doc_cons n lo hi b s : documented (Vect n) b s -> documented (Vect (S n)) ((Fin lo, Fin hi) :: b) (hi - lo :: s)
| doc_inf n x b s : (forall lo hi, x <> (Fin lo, Fin hi)) -> documented (Vect n) b s -> documented (Vect (S n)) (x :: b) (1 :: s)
| doc_so2 b : length b = 2%nat -> documented (SOn 2) b [2 * PI]
| doc_so3 b : length b = 4%nat -> documented (SOn 3) b [2 * PI / sqrt 3; 2 * PI / sqrt 3; 2 * PI / sqrt 3]
| doc_se n b1 b2 s1 s2 : documented (Vect n) b1 s1 -> documented (SOn n) b2 s2 -> documented (SEn n) (b1 ++ b2) (s1 ++ s2)
| doc_prod g1 g2 b1 b2 s1 s2 : documented g1 b1 s1 -> documented g2 b2 s2 -> documented (Prod g1 g2) (b1 ++ b2) (s1 ++ s2).
(* no rotation in the plane *)
Fixpoint spatial (g : group) : Prop :=
  match g with Vect _ => True | SOn n => n = 3%nat | SEn n => n = 3%nat | Prod a b => spatial a /\ spatial b end.
