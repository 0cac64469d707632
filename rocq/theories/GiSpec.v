(* Vocabulary of C110: quadratic programs. *)
From Coq Require Import Reals Arith List Bool.
From Verif Require Import Base XReal SplineModel LinConsModel LinConsSpec.
Open Scope R_scope.

Section Program.
Variables n p m : nat.
Variables G : mat.
Variable g : vec.
Variables ceJ ciJ : mat.
Variables ceb cib : vec.

(* equality constraints, inequality constraints *)
Definition feasible (y : vec) : Prop :=
  (forall i, (i < p)%nat -> dot n (ceJ i) y = ceb i) /\ (forall i, (i < m)%nat -> cib i <= dot n (ciJ i) y).
Definition cost (y : vec) : R := 1 / 2 * dot n y (mv n G y) + dot n g y.
(* a row of the equality constraints is a combination of the rows before it *)
Definition dependent : Prop :=
  exists i r, (i < p)%nat /\ forall j, (j < n)%nat -> ceJ i j = rsum (fun k => r k * ceJ k j) i.
(* [J0] and [xu] are what the Cholesky decomposition of [G] yields in exact
   arithmetic: G (J0 J0^T) = 1 and G xu = g *)
Definition cholesky (J0 : mat) (xu : vec) : Prop :=
  (forall i l, (i < n)%nat -> (l < n)%nat -> rsum (fun k => G i k * rsum (fun j => J0 k j * J0 l j) n) n = mid i l) /\
  (forall i, (i < n)%nat -> mv n G xu i = g i).
End Program.
