(* Model of include/hpp/core/path-optimization/linear-constraint.hh,
   src/path-optimization/linear-constraint.cc,
   include/hpp/core/path-optimization/quadratic-program.hh and
   src/path-optimization/quadratic-program.cc.
   Numbers are exact reals.  Vectors and matrices are functions of their
   indices; only the indices below the stated sizes matter.  An entry of the
   right hand side that was never written is [None]: reading it is undefined
   behaviour.  The dense decompositions of Eigen (rank revealing QR, LU, SVD)
   and the inequality solver are arguments of the model. *)
From Coq Require Import Reals List.
From Verif Require Import Base XReal SplineModel.
Import ListNotations.
Open Scope R_scope.

Definition vec := nat -> R.
Definition mat := nat -> nat -> R.

(* A x, for a matrix with n columns. *)
Definition mv (n : nat) (A : mat) (x : vec) (i : nat) : R := rsum (fun k => A i k * x k) n.
(* A B, for a left factor with n columns. *)
Definition mm (n : nat) (A B : mat) (i j : nat) : R := rsum (fun k => A i k * B k j) n.
Definition mt (A : mat) (i j : nat) : R := A j i.
Definition mid (i j : nat) : R := if (i =? j)%nat then 1 else 0.
Definition dot (n : nat) (x y : vec) : R := rsum (fun k => x k * y k) n.

(* linear-constraint.hh lines 39-44, 124-144.  [lc_dec] holds the kernel
   dimension, PK and xStar once decompose has run (empty matrices before);
   [lc_rank] is uninitialised until it is computed.  xSol is the result of
   computeSolution. *)
Record lincons := mkLC {
  lc_rows : nat; lc_cols : nat;
  lc_J : mat; lc_b : nat -> option R;
  lc_rank : option nat;
  lc_dec : option (nat * mat * vec) }.

Definition lc_new (inputSize outputSize : nat) : lincons :=
  mkLC outputSize inputSize (fun _ _ => 0) (fun _ => Some 0) None None.

(* linear-constraint.hh lines 48-54; sizes that differ are a failed assertion
   of Eigen or a write out of bounds. *)
Definition lc_concat (c oc : lincons) : res lincons :=
  if (lc_cols oc =? lc_cols c)%nat then
    Ok (mkLC (lc_rows c + lc_rows oc) (lc_cols c)
          (fun i j => if (i <? lc_rows c)%nat then lc_J c i j else lc_J oc (i - lc_rows c)%nat j)
          (fun i => if (i <? lc_rows c)%nat then lc_b c i else lc_b oc (i - lc_rows c)%nat)
          (lc_rank c) (lc_dec c))
  else UB.

(* linear-constraint.hh lines 115-122: the new rows of J are zero, those of b
   are not written. *)
Definition lc_add_rows (k : nat) (c : lincons) : lincons :=
  mkLC (lc_rows c + k) (lc_cols c)
    (fun i j => if (i <? lc_rows c)%nat then lc_J c i j else 0)
    (fun i => if (i <? lc_rows c)%nat then lc_b c i else None)
    (lc_rank c) (lc_dec c).

(* Assignment of a row of J and of its right hand side by a caller. *)
Definition lc_set_row (i : nat) (row : vec) (v : R) (c : lincons) : lincons :=
  mkLC (lc_rows c) (lc_cols c)
    (fun i' j => if (i' =? i)%nat then row j else lc_J c i' j)
    (fun i' => if (i' =? i)%nat then Some v else lc_b c i')
    (lc_rank c) (lc_dec c).

Definition defined (o : option R) : bool := match o with Some _ => true | None => false end.
Definition val (o : option R) : R := match o with Some v => v | None => 0 end.
Definition read_b (c : lincons) : res vec :=
  if forallb (fun i => defined (lc_b c i)) (seq 0 (lc_rows c)) then Ok (fun i => val (lc_b c i)) else UB.

(* Result of Eigen::ColPivHouseholderQR: rank, column permutation, Q, R. *)
Record qr_result := mkQR { qr_rank : nat; qr_perm : nat -> nat; qr_Q : mat; qr_R : mat }.

(* linear-constraint.cc lines 78-82: forward substitution with the transpose of
   the leading triangle of R.  [fsub R rhs k] holds the k first unknowns. *)
Fixpoint fsub (R_ : mat) (rhs : vec) (k : nat) : vec :=
  match k with
  | O => fun _ => 0
  | S i =>
    let z := fsub R_ rhs i in
    fun j => if (j =? i)%nat then (rhs i - rsum (fun k => R_ k i * z k) i) / R_ i i else z j
  end.

(* Eigen::MatrixBase::isZero (prec). *)
Definition is_zero (n : nat) (prec : R) (x : vec) : bool :=
  forallb (fun i => rleb (Rabs (x i)) prec) (seq 0 n).

(* linear-constraint.cc lines 48-106 (USE_SVD not defined). *)
Definition lc_decompose (qr : nat -> nat -> mat -> qr_result) (check throwIfNotValid : bool) (c : lincons)
  : res (lincons * bool) :=
  let n := lc_cols c in
  if (lc_rows c =? 0)%nat then
    Ok (mkLC (lc_rows c) n (lc_J c) (lc_b c) (lc_rank c) (Some (n, mid, fun _ => 0)), true)
  else
    do b <- read_b c ;
    let q := qr n (lc_rows c) (mt (lc_J c)) in
    let r := qr_rank q in
    let z := fsub (qr_R q) (fun j => b (qr_perm q j)) r in
    let z' := fun i => if (i <? r)%nat then z i else 0 in
    let xStar := mv n (qr_Q q) z' in
    let PK := fun i j => qr_Q q i (r + j)%nat in
    let c' := mkLC (lc_rows c) n (lc_J c) (lc_b c) (Some r) (Some ((n - r)%nat, PK, xStar)) in
    if check then
      if is_zero (lc_rows c) (/ 10000000) (fun i => mv n (lc_J c) xStar i - b i) then Ok (c', true)
      else if throwIfNotValid then Throw
      else Ok (c', false)
    else Ok (c', true).

(* linear-constraint.hh lines 64-71. *)
Definition lc_compute_rank (lu_rank : nat -> nat -> mat -> nat) (c : lincons) : nat :=
  if (lc_rows c * lc_cols c =? 0)%nat then 0%nat else lu_rank (lc_rows c) (lc_cols c) (lc_J c).

(* linear-constraint.hh lines 80-91.  The former contents of the result do not
   matter except for its rank and decomposition, which stay. *)
Definition lc_reduce (lu_rank : nat -> nat -> mat -> nat) (c lc lcr : lincons) (computeRank : bool)
  : res (lincons * bool) :=
  match lc_dec c with
  | None => UB
  | Some (k, PK, xStar) =>
    if (lc_cols lc =? lc_cols c)%nat then
      let J' := mm (lc_cols c) (lc_J lc) PK in
      let b' := fun i => match lc_b lc i with
                         | Some v => Some (v - mv (lc_cols c) (lc_J lc) xStar i)
                         | None => None
                         end in
      let r := mkLC (lc_rows lc) k J' b' (lc_rank lcr) (lc_dec lcr) in
      if computeRank then
        let rk := lc_compute_rank lu_rank r in
        Ok (mkLC (lc_rows lc) k J' b' (Some rk) (lc_dec lcr), (rk =? Nat.min (lc_rows lc) k)%nat)
      else Ok (r, true)
    else UB
  end.

(* linear-constraint.hh lines 97-102: xSol. *)
Definition lc_solution (c : lincons) (v : vec) : res vec :=
  match lc_dec c with
  | None => UB
  | Some (k, PK, xStar) => Ok (fun i => xStar i + mv k PK v i)
  end.

(* linear-constraint.hh lines 105-113. *)
Definition lc_is_satisfied (c : lincons) (x : vec) (threshold : R) : res bool :=
  do b <- read_b c ;
  Ok (is_zero (lc_rows c) threshold (fun i => mv (lc_cols c) (lc_J c) x i - b i)).

(* quadratic-program.hh lines 61-110, 175-197.  The members used by the
   inequality solver (llt, trace, active set) are part of that solver; [qp_x]
   is xStar, not initialised by the constructors. *)
Record qprog := mkQP { qp_n : nat; qp_H : mat; qp_b : vec; qp_b0 : bool; qp_x : option vec }.

Definition qp_new (n : nat) : qprog := mkQP n (fun _ _ => 0) (fun _ => 0) true None.

(* quadratic-program.hh lines 143-151 and the constructor of lines 90-101. *)
Definition qp_reduced (q : qprog) (c : lincons) : res qprog :=
  match lc_dec c with
  | None => UB
  | Some (k, PK, xStar) =>
    if (lc_cols c =? qp_n q)%nat then
      let HPK := mm (qp_n q) (qp_H q) PK in
      Ok (mkQP k (mm (qp_n q) (mt PK) HPK)
            (fun i => mv (qp_n q) (mt HPK) xStar i + (if qp_b0 q then 0 else mv (qp_n q) (mt PK) (qp_b q) i))
            false None)
    else UB
  end.

(* quadratic-program.cc lines 56-60 and quadratic-program.hh line 155:
   [svd n H b] is the solution given by the singular value decomposition. *)
Definition qp_solve_eq (svd : nat -> mat -> vec -> vec) (q : qprog) : qprog :=
  mkQP (qp_n q) (qp_H q) (qp_b q) (qp_b0 q) (Some (fun i => - svd (qp_n q) (qp_H q) (qp_b q) i)).

Definition qp_cost (q : qprog) (x : vec) : R :=
  / 2 * dot (qp_n q) x (mv (qp_n q) (qp_H q) x) + dot (qp_n q) (qp_b q) x.

(* quadratic-program.cc lines 68-140, with proxqp: [solver q ce ci] is the
   solution when the status is PROXQP_SOLVED and None for the other statuses
   handled by the code.  The result is the program with its xStar, and the cost
   (None: infinity). *)
Definition qp_solve (solver : qprog -> lincons -> lincons -> option vec) (q : qprog) (ce ci : lincons)
  : res (qprog * option R) :=
  if (lc_cols ce <? lc_rows ce)%nat then Throw
  else
    do _ <- read_b ce ;
    do _ <- read_b ci ;
    match solver q ce ci with
    | Some x => Ok (mkQP (qp_n q) (qp_H q) (qp_b q) (qp_b0 q) (Some x), Some (qp_cost q x))
    | None => Ok (q, None)
    end.
