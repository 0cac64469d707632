(* Model of the linear constraints and of the cost of the spline optimisers:
   src/path-optimization/spline-gradient-based-abstract.cc,
   src/path-optimization/spline-gradient-based.cc (addProblemConstraints),
   src/path-optimization/spline-gradient-based/cost.hh and joint-bounds.hh.
   Vector spaces only, exact reals.  Every spline has the degree n and nv
   degrees of freedom; a degree of freedom is selected by a boolean function
   (Eigen::RowBlockIndices), ordered increasingly. *)
From Coq Require Import Reals List Arith.
From Verif Require Import Base XReal SplineModel LinConsModel.
Import ListNotations.
Open Scope R_scope.

Definition spline0 : spline := mkSpline 0 0 (fun _ => 0) (fun _ _ => 0) 0 0.
Definition nth_spline (ss : list spline) (j : nat) : spline := nth j ss spline0.

(* Number of parameters of one spline: NbCoeffs * rDof. *)
Definition bsize (n nv : nat) : nat := (S n * nv)%nat.
(* Position of the parameter of spline j, coefficient i, dof d; rowParameters
   (spline.hh) is row major. *)
Definition pidx (n nv j i d : nat) : nat := (j * bsize n nv + (i * nv + d))%nat.

(* The parameters of all the splines, one after the other
   (spline-gradient-based-abstract.cc lines 475-483 without its first index,
   spline-gradient-based.cc lines 631-633). *)
Definition params (n nv : nat) (ss : list spline) : vec := fun c =>
  let r := (c mod bsize n nv)%nat in
  sp_par (nth_spline ss (c / bsize n nv)) (r / nv)%nat (r mod nv)%nat.

Definition set_par (s : spline) (p : nat -> nat -> R) : spline :=
  mkSpline (sp_deg s) (sp_nv s) (sp_base s) p (sp_t0 s) (sp_t1 s).
Fixpoint mapi {A B : Type} (f : nat -> A -> B) (j : nat) (l : list A) : list B :=
  match l with [] => [] | a :: t => f j a :: mapi f (S j) t end.
(* updateSplines: spline-gradient-based-abstract.cc lines 465-472. *)
Definition update_splines (n nv : nat) (x : vec) (ss : list spline) : list spline :=
  mapi (fun j s => set_par s (fun i d => x (pidx n nv j i d))) 0 ss.

(* updateParameters: spline-gradient-based-abstract.cc lines 475-483; the loop
   starts at the third spline.  [None]: not written. *)
Definition update_parameters (n nv : nat) (ss : list spline) : nat -> option R := fun c =>
  if (c <? (length ss - 2) * bsize n nv)%nat then Some (params n nv (skipn 2 ss) c) else None.

(* interpolate: spline-gradient-based-abstract.cc lines 486-496, on the
   parameters. *)
Definition interpolate (a b : vec) (alpha : R) : vec := fun c => (1 - alpha) * a c + alpha * b c.

(* ---------------------------------------------------------- constraints *)
(* Rows appended to a constraint: addRows followed by the assignment of each
   of them. *)
Definition row := (vec * R)%type.
Definition row0 : row := (fun _ => 0, 0).
Definition lc_of_rows (N : nat) (rows : list row) : lincons :=
  mkLC (length rows) N (fun i j => fst (nth i rows row0) j) (fun i => Some (snd (nth i rows row0))) None None.

(* The coefficients B of dof r in the block that starts at column c0. *)
Definition block (n nv c0 r : nat) (B : vec) : vec := fun c =>
  if ((c0 <=? c) && (c <? c0 + bsize n nv))%nat then
    if ((c - c0) mod nv =? r)%nat then B ((c - c0) / nv)%nat else 0
  else 0.

(* setContinuityConstraint for one selected dof r: lines 92-122. *)
Definition continuity_row (n nv col : nat) (L R_ : option spline) (Bl Br : vec) (czero : bool) (r : nat) : row :=
  let cr := match L with Some _ => (col + bsize n nv)%nat | None => col end in
  (fun c => (match L with Some _ => block n nv col r (fun i => - Bl i) c | None => 0 end)
            + (match R_ with Some _ => block n nv cr r Br c | None => 0 end),
   if czero then
     (match L with Some s => rsum (fun i => sp_par s i r * - Bl i) (S n) | None => 0 end)
     + (match R_ with Some s => rsum (fun i => sp_par s i r * Br i) (S n) | None => 0 end)
   else 0).

Definition selected (nv : nat) (a : nat -> bool) : list nat := filter a (seq 0 nv).

(* addContinuityConstraints: lines 262-336.  act j: activeParameters of the
   spline j. *)
Definition continuity_rows (n nv : nat) (ss : list spline) (act : nat -> nat -> bool) (maxOrder : nat) : list row :=
  let last := (length ss - 1)%nat in
  let zero := fun _ : nat => 0 in
  flat_map (fun k =>
    let czero := (k =? 0)%nat in
    map (continuity_row n nv 0 None (Some (nth_spline ss 0)) zero (basis_der (nth_spline ss 0) k 0) czero)
        (selected nv (act 0%nat))
    ++ flat_map (fun j =>
         map (continuity_row n nv (j * bsize n nv) (Some (nth_spline ss j)) (Some (nth_spline ss (S j)))
                (basis_der (nth_spline ss j) k 1) (basis_der (nth_spline ss (S j)) k 0) czero)
             (selected nv (fun d => act j d || act (S j) d)%bool))
         (seq 0 last)
    ++ map (continuity_row n nv (last * bsize n nv) (Some (nth_spline ss last)) None
              (basis_der (nth_spline ss last) k 1) zero czero)
           (selected nv (act last)))
    (seq 0 (S maxOrder)).

(* nbRows: lines 271-297. *)
Definition continuity_nb_rows (nv : nat) (ss : list spline) (act : nat -> nat -> bool) (maxOrder : nat) : nat :=
  let last := (length ss - 1)%nat in
  ((length (selected nv (act 0%nat))
    + list_sum (map (fun i => length (selected nv (fun d => act (i - 1)%nat d || act i d)%bool)) (seq 1 last))
    + length (selected nv (act last))) * (maxOrder + 1))%nat.

(* addProblemConstraintOnPath: spline-gradient-based.cc lines 192-240.  The
   dofs that are not active keep their value for every coefficient; without
   constraint every dof is active and there is no row. *)
Definition problem_rows (n nv : nat) (ss : list spline) (act : nat -> nat -> bool) : list row :=
  flat_map (fun j =>
    flat_map (fun k =>
      map (fun d => ((fun c => if (c =? pidx n nv j k d)%nat then 1 else 0) : vec, sp_par (nth_spline ss j) k d))
          (selected nv (fun d => negb (act j d))))
      (seq 0 (S n)))
    (seq 0 (length ss)).

(* spline-gradient-based.cc lines 428-437. *)
Definition path_constraint (n nv : nat) (ss : list spline) (act : nat -> nat -> bool) : lincons :=
  lc_of_rows (length ss * bsize n nv)
    (problem_rows n nv ss act ++ continuity_rows n nv ss act ((n - 1) / 2)).

(* ------------------------------------------------------------ joint bounds *)
(* joint-bounds.hh lines 48-136.  A joint has nR translation or bounded
   rotation coordinates, of first index idx_v in the velocity and idx_q in the
   configuration, then possibly a SO(n) part that has no row.  Bounds are
   doubles. *)
Record bjoint := mkBJ { bj_q : nat; bj_v : nat; bj_n : nat }.
Definition is_inf (x : xr) : bool := match x with PInf | MInf => true | _ => false end.
Definition fin (x : xr) : R := match x with Fin r => r | _ => 0 end.
Definition unit_row (c : nat) (v : R) : vec := fun j => if (j =? c)%nat then v else 0.
Definition joint_rows (low up : nat -> xr) (neutral : vec) (j : bjoint) : list row :=
  flat_map (fun i =>
    (if is_inf (low (bj_q j + i)%nat) then []
     else [(unit_row (bj_v j + i) (-1), - (fin (low (bj_q j + i)%nat) - neutral (bj_q j + i)%nat))])
    ++ (if is_inf (up (bj_q j + i)%nat) then []
        else [(unit_row (bj_v j + i) 1, fin (up (bj_q j + i)%nat) - neutral (bj_q j + i)%nat)]))
    (seq 0 (bj_n j)).
(* jointBoundMatrices: A v <= b. *)
Definition bound_rows (joints : list bjoint) (low up : nat -> xr) (neutral : vec) : list row :=
  flat_map (joint_rows low up neutral) joints.

(* jointBoundConstraint: spline-gradient-based-abstract.cc lines 422-454:
   J = - A, b = - b for each coefficient of each spline.  [bases j] is the
   configuration base of the spline j. *)
Definition bound_constraint (n nv ns : nat) (bases : nat -> vec) (joints : list bjoint) (low up : nat -> xr) : lincons :=
  lc_of_rows (ns * bsize n nv)
    (flat_map (fun j =>
       flat_map (fun k =>
         map (fun r : row => ((fun c => if ((pidx n nv j k 0 <=? c) && (c <? pidx n nv j k 0 + nv))%nat
                                        then - fst r (c - pidx n nv j k 0)%nat else 0) : vec, - snd r))
             (bound_rows joints low up (bases j)))
         (seq 0 (S n)))
       (seq 0 ns)).

(* validateBounds: lines 338-392.  err of a row of spline i; the rows are
   supposed to go by pairs (lower, upper).  thr: dummy_precision, 1e-12. *)
Definition bound_err (lc : lincons) (x : vec) (r : nat) : R := mv (lc_cols lc) (lc_J lc) x r - val (lc_b lc r).
Definition thr : R := / 1000000000000.
(* lines 365-378: the row of least error below -thr *)
Definition worst (n nb j : nat) (err : nat -> R) : R * option nat :=
  fold_left (fun (acc : R * option nat) k =>
    let low := (2 * j + k * 2 * nb)%nat in
    let up := (2 * j + k * 2 * nb + 1)%nat in
    let acc := if rltb (err low) (fst acc) then (err low, Some low) else acc in
    if rltb (err up) (fst acc) then (err up, Some up) else acc)
    (seq 0 (S n)) (- thr, None).
Definition validate_bounds (n nv ns : nat) (lc : lincons) (x : vec) : list nat :=
  let rows := (lc_rows lc / ns)%nat in
  let nb := (rows / (2 * S n))%nat in
  fst (fold_left (fun (acc : list nat * (nat -> bool)) i =>
    fold_left (fun (acc : list nat * (nat -> bool)) j =>
      if snd acc j then acc
      else
        match worst n nb j (fun r => bound_err lc x (i * rows + r)%nat) with
        | (_, None) => acc
        | (_, Some r) => (fst acc ++ [(i * rows + r)%nat], upd (snd acc) j true)
        end) (seq 0 nb) acc)
    (seq 0 ns) ([], fun _ => false)).

(* -------------------------------------------------------------------- cost *)
(* cost.hh lines 73-80: weights from the lengths.  The maximum of no value is
   not taken: there is at least one spline.  lMax = 0 gives an infinite
   weight. *)
Definition rmax_list (l : list R) : R := fold_left Rmax l 0.
Definition lambda_lengths (ss : list spline) (order : nat) : nat -> xr :=
  let v := fun k => sp_norm_integral (nth_spline ss k) order in
  let lMax := rmax_list (map v (seq 0 (length ss))) in
  fun k => if rltb (/ 1000000 * lMax) (v k) then Fin (/ v k)
           else if reqb lMax 0 then PInf else Fin (1000000 / lMax).

(* cost.hh lines 82-87. *)
Definition cost_value (lambda : nat -> R) (order : nat) (ss : list spline) : R :=
  rsum (fun k => lambda k * sp_norm_integral (nth_spline ss k) order) (length ss).

(* cost.hh lines 102-143. *)
Definition cost_hessian (n nv : nat) (lambda : nat -> R) (order : nat) (ss : list spline) : mat := fun a b =>
  let k := (a / bsize n nv)%nat in
  if (k =? b / bsize n nv)%nat then
    let ra := (a mod bsize n nv)%nat in
    let rb := (b mod bsize n nv)%nat in
    if (ra mod nv =? rb mod nv)%nat
    then 2 * norm_integral (nth_spline ss k) order (ra / nv) (rb / nv) * lambda k
    else 0
  else 0.

(* cost.hh lines 89-100. *)
Definition cost_gradient (n nv : nat) (lambda : nat -> R) (order : nat) (ss : list spline) : vec := fun a =>
  let k := (a / bsize n nv)%nat in
  sp_norm_gradient (nth_spline ss k) order (a mod bsize n nv) * lambda k.

(* cost.hh lines 50-71: the constructor refuses the derivatives above the
   order of the table of powers, NbPowerOfT = 2 * Order + 3. *)
Definition cost_order_ok (n order : nat) : bool := (2 * order - 1 <? 2 * n + 3)%nat.
