(* Model of src/relative-motion.cc.
   Simplifications: an Eigen matrix is its number of rows with a function of
   the indices; a numerical constraint is the pair of joint indices returned by
   doesConstrainRelPoseBetween (equal indices: none) and parameterSize (). *)
From Verif Require Import Base.

(* include/hpp/core/relative-motion.hh 45-56 *)
Inductive rmt := Constrained | Parameterized | Unconstrained.
Definition rank (t : rmt) : nat :=
  match t with Constrained => 0 | Parameterized => 1 | Unconstrained => 2 end.
Definition rmt_eqb (a b : rmt) : bool := rank a =? rank b.
Definition matrix := nat -> nat -> rmt.

(* src/relative-motion.cc 45-48: symSet *)
Definition symSet (m : matrix) (i0 i1 : nat) (t : rmt) : matrix :=
  fun a b => if ((a =? i0) && (b =? i1)) || ((a =? i1) && (b =? i0)) then t else m a b.
(* 52-59: symSetNoDowngrade *)
Definition symSetNoDowngrade (m : matrix) (i0 i1 : nat) (t : rmt) : matrix :=
  if rank t <? rank (m i0 i1) then symSet m i0 i1 t else m.

(* 62-69: RelativeMotion::matrix *)
Definition initial_matrix : matrix := fun a b => if a =? b then Constrained else Unconstrained.

(* 120-128: body of the first loop *)
Definition step_i3 (param : bool) (i1 i2 : nat) (m : matrix) (i3 : nat) : matrix :=
  if i3 =? i1 then m
  else if i3 =? i2 then m
  else if negb (rmt_eqb (m i2 i3) Unconstrained) then
    symSetNoDowngrade m i1 i3
      (if negb param && rmt_eqb (m i2 i3) Constrained then Constrained else Parameterized)
  else m.
(* 141-153: body of the inner loop *)
Definition step_i0i3 (param : bool) (i1 i2 i0 : nat) (m : matrix) (i3 : nat) : matrix :=
  if i3 =? i2 then m
  else if i3 =? i1 then m
  else if i3 =? i0 then m
  else if rmt_eqb (m i2 i3) Unconstrained then m
  else symSetNoDowngrade m i0 i3
         (if negb param && rmt_eqb (m i0 i1) Constrained && rmt_eqb (m i2 i3) Constrained
          then Constrained else Parameterized).
(* 129-154: body of the second loop *)
Definition step_i0 (n : nat) (param : bool) (i1 i2 : nat) (m : matrix) (i0 : nat) : matrix :=
  if i0 =? i2 then m
  else if i0 =? i1 then m
  else
    let m1 :=
      if negb (rmt_eqb (m i0 i1) Unconstrained) then
        symSetNoDowngrade m i0 i2
          (if negb param && rmt_eqb (m i0 i1) Constrained then Constrained else Parameterized)
      else m in
    if rmt_eqb (m1 i0 i1) Unconstrained then m1
    else fold_left (step_i0i3 param i1 i2 i0) (seq 0 n) m1.

(* 108-156: recurseSetRelMotion; n is matrix.rows () *)
Definition recurseSet (n : nat) (m : matrix) (i1 i2 : nat) (type : rmt) : matrix :=
  let param := rmt_eqb type Parameterized in
  if rank (m i1 i2) <=? rank type then m
  else
    let m := symSet m i1 i2 type in
    let m := fold_left (step_i3 param i1 i2) (seq 0 n) m in
    fold_left (step_i0 n param i1 i2) (seq 0 n) m.

Record num_constraint := { nc_joints : nat * nat; nc_parameterSize : nat }.

(* 87-105: loop over the constraints *)
Definition step_constraint (n : nat) (m : matrix) (nc : num_constraint) : matrix :=
  let (i1, i2) := nc_joints nc in
  if i1 =? i2 then m
  else recurseSet n m i1 i2 (if nc_parameterSize nc =? 0 then Constrained else Parameterized).
(* 71-106: fromConstraint; [rows] is the size of the matrix given, [proj] the
   numerical constraints of the projector, if any *)
Definition fromConstraint (n rows : nat) (m : matrix) (proj : option (list num_constraint)) : res matrix :=
  if negb (rows =? n) then Throw
  else match proj with
       | None => Ok m
       | Some ncs => Ok (fold_left (step_constraint n) ncs m)
       end.
