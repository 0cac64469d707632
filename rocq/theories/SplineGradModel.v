(* Model of src/path-optimization/spline-gradient-based.cc, optimize and the
   functions it calls, with validatePath of
   src/path-optimization/spline-gradient-based-abstract.cc.
   Vector spaces, exact reals.  The splines are represented by their parameters
   ([params]); the other members of the splines do not change.  Path
   validation, collision functions, decompositions and the quadratic solver are
   arguments.  The evaluation of the explicit constraints (sod.es) is part of
   the Jacobian [g_jac]: its first argument is the rank of the
   SplineOptimizationData. *)
From Coq Require Import Reals List Arith Bool.
From Verif Require Import Base XReal SplineModel LinConsModel SplineOptModel.
Import ListNotations.
Open Scope R_scope.

Section SGB.
Context {Rep Fn : Type}.

Record sgb := mkSGB {
  g_n : nat; g_nv : nat; g_ss : list spline;            (* degree, dofs, initial splines *)
  g_act : nat -> nat -> bool; g_lambda : nat -> R; g_order : nat;
  g_alpha0 : R; g_always : bool; g_reorder : bool; g_lin : bool;
  g_check : bool; g_optimum : bool; g_thr : R;          (* parameters, lines 378-404 *)
  g_joints : list bjoint; g_low : nat -> xr; g_up : nat -> xr;
  g_qr : nat -> nat -> mat -> qr_result; g_lu : nat -> nat -> mat -> nat;
  g_solver : qprog -> lincons -> lincons -> option vec;
  g_valid : nat -> spline -> option (Rep * R);          (* None: valid; report, its parameter *)
  g_create : spline -> spline -> Rep -> res Fn;         (* CollisionFunction::create *)
  g_refine : Fn -> Fn;                                  (* updateConstraint at the middle *)
  g_jac : nat -> Fn -> vec -> vec;                      (* Jacobian at a configuration *)
  g_stop : nat -> bool }.                               (* shouldStop at iteration i *)

Variable w : sgb.
Let n := g_n w.
Let nv := g_nv w.
Let ss := g_ss w.
Let ns := length ss.
Let N := (ns * bsize n nv)%nat.

Definition with_params (x : vec) : list spline := update_splines n nv x ss.
Definition sp_at (x : vec) (j : nat) : spline := nth_spline (with_params x) j.
Definition g_cost (x : vec) : R := cost_value (g_lambda w) (g_order w) (with_params x).

(* ------------------------------------------- CollisionFunctions, 77-168 *)
Record cfn := mkCF { cf_f : Fn; cf_id : nat; cf_row : nat; cf_ratio : R }.

(* lines 104-152: the row and its right hand side; ss[sod] out of bounds is
   undefined behaviour. *)
Definition lin_row (sod : nat) (x : vec) (c : cfn) : vec :=
  let s := sp_at x (cf_id c) in
  let J := g_jac w sod (cf_f c) (fun d => sp_compute s (sp_len s * cf_ratio c) d) in
  fun col => if (col / bsize n nv =? cf_id c)%nat
             then bern_der n 0 (cf_ratio c) (col mod bsize n nv / nv)%nat * J (col mod bsize n nv mod nv)%nat
             else 0.
Definition linearize1 (sod : nat) (x : vec) (c : cfn) (coll : lincons) : res lincons :=
  if (sod <? ns)%nat
  then Ok (lc_set_row (cf_row c) (lin_row sod x c) (dot N (lin_row sod x c) x) coll)
  else UB.
(* lines 154-158: ss[i], i the rank of the function *)
Fixpoint linearize_from (i : nat) (x : vec) (fs : list cfn) (coll : lincons) : res lincons :=
  match fs with
  | [] => Ok coll
  | c :: t => do coll' <- linearize1 i x c coll ; linearize_from (S i) x t coll'
  end.
Definition linearize_all (x : vec) (fs : list cfn) (coll : lincons) : res lincons := linearize_from 0 x fs coll.

(* removeLastConstraint (1, lc): lines 88-98. *)
Definition drop_row (coll : lincons) : lincons :=
  mkLC (lc_rows coll - 1) (lc_cols coll) (lc_J coll) (lc_b coll) (lc_rank coll) (lc_dec coll).

(* addCollisionConstraint: lines 310-328. *)
Definition add_collision (j : nat) (x cur : vec) (r : Rep * R) (coll : lincons) : res (lincons * cfn) :=
  do f <- g_create w (sp_at x j) (sp_at cur j) (fst r) ;
  let coll1 := lc_add_rows 1 coll in
  let c := mkCF f j (lc_rows coll1 - 1) (snd r / sp_len (sp_at cur j)) in
  do coll2 <- linearize1 j x c coll1 ;
  Ok (coll2, c).

(* findNewConstraint: lines 330-368. The function is the last one; [k] is the
   number of attempts left. *)
Fixpoint find_loop (cs : lincons) (j : nat) (x : vec) (k : nat) (coll lcr : lincons) (fs : list cfn) (c : cfn) (solved : bool)
  : res (lincons * lincons * list cfn * bool) :=
  if solved then Ok (coll, lcr, fs ++ [c], true)
  else match k with
       | O => Ok (drop_row coll, lcr, fs, false)
       | S k' =>
         let c' := mkCF (g_refine w (cf_f c)) (cf_id c) (cf_row c) (cf_ratio c) in
         do coll' <- linearize1 j x c' coll ;
         do r <- lc_reduce (g_lu w) cs coll' lcr true ;
         find_loop cs j x k' coll' (fst r) fs c' (snd r)
       end.
Definition find_new (cs : lincons) (j : nat) (x : vec) (coll lcr : lincons) (fs : list cfn) (c : cfn) :=
  do r <- lc_reduce (g_lu w) cs coll lcr true ;
  find_loop cs j x 5 coll (fst r) fs c (snd r).

Definition rank_of (lcr : lincons) : res nat := match lc_rank lcr with Some r => Ok r | None => UB end.

(* Loop of lines 560-573. *)
Fixpoint add_reports (cs : lincons) (dim : nat) (x cur : vec) (reports : list (Rep * R * nat)) (coll lcr : lincons) (fs : list cfn) (ok : bool)
  : res (lincons * lincons * list cfn * bool) :=
  match reports with
  | [] => Ok (coll, lcr, fs, ok)
  | r :: t =>
    do a <- add_collision (snd r) x cur (fst r) coll ;
    do b <- find_new cs (snd r) x (fst a) lcr fs (snd a) ;
    let '(coll', lcr', fs', found) := b in
    let ok' := (ok || found)%bool in
    if negb ok' then Ok (coll', lcr', fs', ok')
    else
      do rk <- rank_of lcr' ;
      if (dim <=? rk)%nat then Ok (coll', lcr', fs', ok')
      else add_reports cs dim x cur t coll' lcr' fs' ok'
  end.

(* ---------------------- validatePath, abstract lines 225-260 *)
Fixpoint val_loop (stopAtFirst : bool) (x : vec) (order : list nat) : list (Rep * R * nat) :=
  match order with
  | [] => []
  | i :: t =>
    match g_valid w i (sp_at x i) with
    | None => val_loop stopAtFirst x t
    | Some r => if stopAtFirst then [(r, i)] else (r, i) :: val_loop stopAtFirst x t
    end
  end.
Definition validate_path (stopAtFirst : bool) (x : vec) (order : list nat) : list (Rep * R * nat) * list nat :=
  let reports := val_loop stopAtFirst x order in
  match reports with
  | r :: _ => (reports, if g_reorder w then seq (snd r) (length order - snd r) ++ seq 0 (snd r) else order)
  | [] => (reports, order)
  end.

(* ------------------------------------------------- optimize, 373-617 *)
(* currentSplines is the vector it points to: collSplines or alphaSplines are
   modified only when the pointer is assigned again. *)
Record state := mkSt {
  st_x : vec; st_coll : vec; st_cur : vec; st_qp : qprog;
  st_lc : lincons; st_lcr : lincons; st_fs : list cfn; st_ord : list nat;
  st_nocoll : bool; st_min : bool; st_copt : bool; st_cint : bool; st_first : bool;
  st_alpha : R; st_opt : R; st_low : R }.

(* lines 503-524 *)
Definition choose_splines (cs : lincons) (s : state) : res state :=
  do s1 <- (if st_copt s then
      match qp_x (st_qp s) with
      | None => UB
      | Some v =>
        do xs <- lc_solution cs v ;
        Ok (mkSt (st_x s) xs xs (st_qp s) (st_lc s) (st_lcr s) (st_fs s) (st_ord s)
              (st_nocoll s) true false (st_cint s) (st_first s) (st_alpha s) (st_opt s) (g_cost xs))
      end
    else Ok s) ;
  if st_cint s1 then
    Ok (mkSt (st_x s1) (st_coll s1) (interpolate (st_x s1) (st_coll s1) (st_alpha s1)) (st_qp s1) (st_lc s1) (st_lcr s1) (st_fs s1) (st_ord s1)
          (st_nocoll s1) false (st_copt s1) false (st_first s1) (st_alpha s1) (st_opt s1) (st_low s1))
  else Ok s1.

(* lines 535-555: the current splines are valid. bcr: boundConstraintReduced *)
Definition accept (cs bcr : lincons) (s : state) : res state :=
  let x := st_cur s in
  let opt := g_cost x in
  do t <- (if g_lin w then
      do lc <- linearize_all x (st_fs s) (st_lc s) ;
      do r <- lc_reduce (g_lu w) cs lc (st_lcr s) true ;
      do q <- qp_solve (g_solver w) (st_qp s) (fst r) bcr ;
      Ok (fst q, lc, fst r, true)
    else Ok (st_qp s, st_lc s, st_lcr s, st_copt s)) ;
  let '(qp, lc, lcr, copt) := t in
  let mr := (st_min s || rltb (Rabs (opt - st_low s)) (g_thr w * st_low s))%bool in
  Ok (mkSt x (st_coll s) x qp lc lcr (st_fs s) (st_ord s)
        (st_nocoll s) mr copt true (st_first s) (st_alpha s) opt (st_low s)).

(* lines 556-610: the current splines are not valid; the boolean tells to leave
   the loop. *)
Definition reject (cs bcr : lincons) (reports : list (Rep * R * nat)) (s : state) : res (state * bool) :=
  if reqb (st_alpha s) 1 then
    Ok (mkSt (st_x s) (st_coll s) (st_cur s) (st_qp s) (st_lc s) (st_lcr s) (st_fs s) (st_ord s)
          (st_nocoll s) (st_min s) (st_copt s) true (g_always w) (g_alpha0 w) (st_opt s) (st_low s), false)
  else
    do rk <- rank_of (st_lcr s) ;
    if (qp_n (st_qp s) <=? rk)%nat then Ok (s, true)
    else
      do a <- add_reports cs (qp_n (st_qp s)) (st_x s) (st_cur s) reports (st_lc s) (st_lcr s) (st_fs s) false ;
      let '(lc, lcr, fs, ok) := a in
      if ok then
        do q <- qp_solve (g_solver w) (st_qp s) lcr bcr ;
        Ok (mkSt (st_x s) (st_coll s) (st_cur s) (fst q) lc lcr fs (st_ord s)
              (st_nocoll s) (st_min s) true (st_cint s) true 1 (st_opt s) (st_low s), false)
      else if rltb (st_alpha s) (g_alpha0 w / 4) then
        Ok (mkSt (st_x s) (st_coll s) (st_cur s) (st_qp s) lc lcr fs (st_ord s)
              (st_nocoll s) (st_min s) (st_copt s) (st_cint s) (st_first s) (st_alpha s) (st_opt s) (st_low s), true)
      else
        Ok (mkSt (st_x s) (st_coll s) (st_cur s) (st_qp s) lc lcr fs (st_ord s)
              (st_nocoll s) (st_min s) (st_copt s) true (g_always w) (st_alpha s / 2) (st_opt s) (st_low s), false).

(* one iteration: lines 501-611 *)
Definition iterate (cs bcr : lincons) (s : state) : res (state * bool) :=
  do s1 <- choose_splines cs s ;
  if g_optimum w then
    do s2 <- accept cs bcr (mkSt (st_x s1) (st_coll s1) (st_cur s1) (st_qp s1) (st_lc s1) (st_lcr s1) (st_fs s1) (st_ord s1)
              true true (st_copt s1) (st_cint s1) (st_first s1) (st_alpha s1) (st_opt s1) (st_low s1)) ;
    Ok (s2, false)
  else
    let '(reports, ord) := validate_path (st_first s1) (st_cur s1) (st_ord s1) in
    let ok := match reports with [] => true | _ => false end in
    let s2 := mkSt (st_x s1) (st_coll s1) (st_cur s1) (st_qp s1) (st_lc s1) (st_lcr s1) (st_fs s1) ord
              ok (st_min s1) (st_copt s1) (st_cint s1) (st_first s1) (st_alpha s1) (st_opt s1) (st_low s1) in
    if ok then do s3 <- accept cs bcr s2 ; Ok (s3, false)
    else reject cs bcr reports s2.

Fixpoint opt_loop (fuel i : nat) (cs bcr : lincons) (s : state) : res state :=
  if (st_nocoll s && st_min s)%bool then Ok s
  else if g_stop w i then Ok s
  else match fuel with
       | O => Fuel
       | S fuel' =>
         do r <- iterate cs bcr s ;
         if snd r then Ok (fst r) else opt_loop fuel' (S i) cs bcr (fst r)
       end.

(* lines 444-500 before the loop; checkOptimum_ is false (line 73) unless a
   derived class sets it, and is not modelled. *)
Definition bounds_of : lincons :=
  if g_check w then bound_constraint n nv ns (fun j => sp_base (nth_spline ss j)) (g_joints w) (g_low w) (g_up w)
  else lc_new N 0.
Definition start_state (lcr : lincons) (qp : qprog) : state :=
  let x := params n nv ss in
  mkSt x x x qp (lc_new N 0) lcr [] (seq 0 ns)
    true false true (negb (g_optimum w)) (g_always w) (if g_optimum w then 1 else g_alpha0 w) (g_cost x) 0.
Definition optimize (fuel : nat) : res vec :=
  if cost_order_ok n (g_order w) then
    do d <- lc_decompose (g_qr w) true true (path_constraint n nv ss (g_act w)) ;
    let cs := fst d in
    do r <- lc_reduce (g_lu w) cs (lc_new N 0) (lc_new N 0) true ;
    let x := params n nv ss in
    let bc := bounds_of in
    if (g_check w && negb (length (validate_bounds n nv ns bc x) =? 0)%nat)%bool then Throw
    else
      do rb <- lc_reduce (g_lu w) cs bc (lc_new 0 0) false ;
      let QP := mkQP N (cost_hessian n nv (g_lambda w) (g_order w) ss) (fun _ => 0) true None in
      do qpc <- qp_reduced QP cs ;
      if (qp_n qpc =? 0)%nat then Ok x
      else
        do q <- qp_solve (g_solver w) qpc (fst r) (fst rb) ;
        do s <- opt_loop fuel 0 cs (fst rb) (start_state (fst r) (fst q)) ;
        Ok (st_x s)
  else Throw.
End SGB.
