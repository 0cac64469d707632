(* Specification vocabulary for linear constraints and quadratic programs. *)
From Coq Require Import Reals.
From Verif Require Import Base SplineModel LinConsModel.
Open Scope R_scope.

(* x satisfies every equation of the constraint *)
Definition sat (c : lincons) (x : vec) : Prop :=
  forall i, (i < lc_rows c)%nat -> lc_b c i = Some (mv (lc_cols c) (lc_J c) x i).
(* x satisfies every inequality J x >= b *)
Definition sat_ineq (c : lincons) (x : vec) : Prop :=
  forall i, (i < lc_rows c)%nat -> exists b, lc_b c i = Some b /\ b <= mv (lc_cols c) (lc_J c) x i.

(* every right hand side was written *)
Definition written (c : lincons) : Prop := forall i, (i < lc_rows c)%nat -> lc_b c i <> None.

Definition same (n : nat) (x y : vec) : Prop := forall i, (i < n)%nat -> x i = y i.
Definition sqnorm (n : nat) (x : vec) : R := dot n x x.

Definition orthogonal (n : nat) (Q : mat) : Prop :=
  forall i j, (i < n)%nat -> (j < n)%nat ->
  rsum (fun k => Q k i * Q k j) n = mid i j /\ rsum (fun k => Q i k * Q j k) n = mid i j.

(* A rank revealing QR decomposition with column pivoting of the n x m matrix
   A: A P = Q R, Q orthogonal, R upper trapezoidal with as many non-zero rows
   as its rank and a non-zero diagonal there. *)
Record is_qr (n m : nat) (A : mat) (q : qr_result) : Prop := {
  qr_rank_n : (qr_rank q <= n)%nat;
  qr_rank_m : (qr_rank q <= m)%nat;
  qr_perm_lt : forall j, (j < m)%nat -> (qr_perm q j < m)%nat;
  qr_perm_inj : forall i j, (i < m)%nat -> (j < m)%nat -> qr_perm q i = qr_perm q j -> i = j;
  qr_orth : orthogonal n (qr_Q q);
  qr_prod : forall i j, (i < n)%nat -> (j < m)%nat -> A i (qr_perm q j) = mm n (qr_Q q) (qr_R q) i j;
  qr_low : forall k j, (k < n)%nat -> (j < m)%nat -> (qr_rank q <= k \/ j < k)%nat -> qr_R q k j = 0;
  qr_diag : forall k, (k < qr_rank q)%nat -> qr_R q k k <> 0 }.

Definition symmetric (n : nat) (H : mat) : Prop := forall i j, (i < n)%nat -> (j < n)%nat -> H i j = H j i.
Definition psd (n : nat) (H : mat) : Prop := forall x, 0 <= dot n x (mv n H x).
Definition pd (n : nat) (H : mat) : Prop := forall x, (exists i, (i < n)%nat /\ x i <> 0) -> 0 < dot n x (mv n H x).

(* the quadratic cost 1/2 x' H x + b' x *)
Definition quad (n : nat) (H : mat) (b : vec) (x : vec) : R := / 2 * dot n x (mv n H x) + dot n b x.

(* the m rows of J, of length n, are linearly independent *)
Definition independent_rows (m n : nat) (J : mat) : Prop :=
  forall c, (forall j, (j < n)%nat -> rsum (fun i => c i * J i j) m = 0) -> forall i, (i < m)%nat -> c i = 0.
(* exact rank computation, as far as full row rank is concerned *)
Definition exact_rank (lu_rank : nat -> nat -> mat -> nat) (m n : nat) (J : mat) : Prop :=
  (lu_rank m n J <= Nat.min m n)%nat /\ (lu_rank m n J = m <-> independent_rows m n J).
(* the decomposition used by the constraint is exact *)
Definition exact_qr (qr : nat -> nat -> mat -> qr_result) (c : lincons) : Prop :=
  lc_rows c <> 0%nat -> is_qr (lc_cols c) (lc_rows c) (mt (lc_J c)) (qr (lc_cols c) (lc_rows c) (mt (lc_J c))).
