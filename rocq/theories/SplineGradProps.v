(* C72-C75: the loop of the spline optimiser. *)
From Coq Require Import Reals ZArith List Arith Bool Lia Lra.
From Verif Require Import Base XReal PolyProofs SplineModel SplineSpec LinConsModel LinConsSpec SplineOptModel SplineOptSpec SplineOptProofs SplineOptProps
  SplineGradModel SplineGradSpec SplineGradProofs SplineGradProofs2 SplineGradProofs3 SplineGradProofs4 SplineGradProofs5.
Import ListNotations.
Open Scope R_scope.

Lemma input_sat {Rep Fn} (w : @sgb Rep Fn) : proper (g_n w) (g_nv w) (g_ss w) ->
  keeps (g_n w) (g_nv w) ((g_n w - 1) / 2) (g_act w) (g_ss w) (g_ss w) -> sat (w_constraint w) (w_input w).
Proof.
  intros Hp Hk. exact (proj2 (C69_constraint (g_n w) (g_nv w) (g_ss w) (g_act w) (params (g_n w) (g_nv w) (g_ss w)) Hp)
    (proj2 (keeps_params (g_n w) (g_nv w) ((g_n w - 1) / 2) (g_ss w) (g_act w) Hp) Hk)).
Qed.
Lemma sat_keeps {Rep Fn} (w : @sgb Rep Fn) x : proper (g_n w) (g_nv w) (g_ss w) ->
  sat (w_constraint w) x <-> keeps (g_n w) (g_nv w) ((g_n w - 1) / 2) (g_act w) (g_ss w) (w_splines w x).
Proof. intros Hp. exact (C69_constraint (g_n w) (g_nv w) (g_ss w) (g_act w) x Hp). Qed.

(* ------------------------------------------------------------------ C72 *)
(* The returned path is the input one or each of its splines was found valid by
   the path validation, whatever the solvers, the validation and the monitor
   do, unless the optimum is asked for. *)
Theorem C72_safe_partial : forall Rep Fn (w : @sgb Rep Fn) fuel x,
  proper (g_n w) (g_nv w) (g_ss w) -> g_optimum w = false -> optimize w fuel = Ok x ->
  (forall j d, (j < length (g_ss w))%nat -> (d < g_nv w)%nat -> curve (nth_spline (w_splines w x) j) d = curve (nth_spline (g_ss w) j) d) \/
  (forall j, (j < length (g_ss w))%nat -> g_valid w j (nth_spline (w_splines w x) j) = None).
Proof.
  intros Rep Fn w fuel x Hp Ho H. destruct (optimize_safe w fuel x Ho H) as [->|Hv]; [left|right; exact Hv].
  intros j d Hj Hd. apply curve_params; assumption.
Qed.
(* With the option ReturnOptimum the result is not checked. *)
Theorem C72_optimum_refuted : exists (w : @sgb unit unit) x, g_optimum w = true /\
  (forall j, (j < length (g_ss w))%nat -> g_valid w j (nth_spline (w_splines w (w_input w)) j) = None) /\
  optimize w 1 = Ok x /\ g_valid w 0 (nth_spline (w_splines w x) 0) <> None.
Proof.
  set (w := bump_sgb 1 (/ 5) (3 / 4) true). exists w.
  destruct (optimum_total w (bump_exact_qr 1 (/ 5) (3 / 4) true) (bump_proper 1 (/ 5) (3 / 4) true) (proj1 (bump_input 1 (/ 5) (3 / 4) true))
    (bump_bounds 1 (/ 5) (3 / 4) true _) (bump_solver_exact 1 (/ 5) (3 / 4) true) 1 eq_refl eq_refl eq_refl ltac:(discriminate) ltac:(lia)) as [x E].
  exists x. split; [reflexivity|]. split; [|split; [exact E|]].
  - intros j Hj. assert (j = 0%nat) as -> by (cbn in Hj; lia). change (g_valid w 0) with (bump_valid (3 / 4) 0). unfold bump_valid.
    change (sp_par (nth_spline (w_splines w (w_input w)) 0) 1 0) with (w_input w 1%nat). rewrite (proj2 (bump_input 1 (/ 5) (3 / 4) true) : w_input w 1%nat = 1).
    destruct (rltb_spec 1 (3 / 4)); [lra|reflexivity].
  - pose proof (optimize_optimum w (bump_exact_qr 1 (/ 5) (3 / 4) true) (bump_proper 1 (/ 5) (3 / 4) true) (proj1 (bump_input 1 (/ 5) (3 / 4) true))
      (bump_bounds 1 (/ 5) (3 / 4) true _) (bump_solver_exact 1 (/ 5) (3 / 4) true) 1 x eq_refl eq_refl E) as M.
    pose proof (optimize_kept w 1 x (bump_exact_qr 1 (/ 5) (3 / 4) true) (proj1 (bump_input 1 (/ 5) (3 / 4) true)) E) as K.
    pose proof (bump_minimal 1 (/ 5) (3 / 4) true x K M) as X.
    change (g_valid w 0) with (bump_valid (3 / 4) 0). unfold bump_valid. change (sp_par (nth_spline (w_splines w x) 0) 1 0) with (x 1%nat). rewrite X.
    destruct (rltb_spec (1 / 2) (3 / 4)); [discriminate|lra].
Qed.

(* ------------------------------------------------------------------ C73 *)
(* The returned path starts and ends where the input does, is as continuous,
   at rest at both ends, and its passive dofs are those of the input. *)
Theorem C73_kept : forall Rep Fn (w : @sgb Rep Fn) fuel x,
  proper (g_n w) (g_nv w) (g_ss w) -> exact_qr (g_qr w) (w_constraint w) ->
  keeps (g_n w) (g_nv w) ((g_n w - 1) / 2) (g_act w) (g_ss w) (g_ss w) ->
  optimize w fuel = Ok x ->
  keeps (g_n w) (g_nv w) ((g_n w - 1) / 2) (g_act w) (g_ss w) (w_splines w x).
Proof.
  intros Rep Fn w fuel x Hp Hq Hk H. apply (proj1 (sat_keeps w x Hp)). exact (optimize_kept w fuel x Hq (input_sat w Hp Hk) H).
Qed.
(* It stays within the joint bounds. *)
Theorem C73_bounds : forall Rep Fn (w : @sgb Rep Fn) fuel x,
  proper (g_n w) (g_nv w) (g_ss w) -> (forall j, (j < length (g_ss w))%nat -> 0 <= g_lambda w j) -> 0 <= g_alpha0 w <= 1 ->
  exact_qr (g_qr w) (w_constraint w) -> solver_exact w ->
  keeps (g_n w) (g_nv w) ((g_n w - 1) / 2) (g_act w) (g_ss w) (g_ss w) ->
  g_check w = true -> sound_bounds (g_nv w) (g_joints w) (g_low w) (g_up w) ->
  (forall j k jt i, (j < length (g_ss w))%nat -> (k <= g_n w)%nat -> In jt (g_joints w) -> (i < bj_n jt)%nat ->
     within (g_low w (bj_q jt + i)%nat) (g_up w (bj_q jt + i)%nat)
       (sp_base (nth_spline (g_ss w) j) (bj_q jt + i)%nat + sp_par (nth_spline (g_ss w) j) k (bj_v jt + i)%nat)) ->
  optimize w fuel = Ok x ->
  forall j jt i t, In jt (g_joints w) -> bj_q jt = bj_v jt -> (i < bj_n jt)%nat -> (j < length (g_ss w))%nat ->
  let s := nth_spline (w_splines w x) j in
  sp_t0 s <= t <= sp_t1 s -> within (g_low w (bj_q jt + i)%nat) (g_up w (bj_q jt + i)%nat) (curve s (bj_q jt + i) t).
Proof.
  intros Rep Fn w fuel x Hp Hl Ha Hq Hs Hk Hc Hsb Hw H.
  assert (Hin : sat (w_constraint w) (w_input w)) by exact (input_sat w Hp Hk).
  assert (Eb : bounds_of w = bound_constraint (g_n w) (g_nv w) (length (g_ss w)) (fun j => sp_base (nth_spline (g_ss w) j)) (g_joints w) (g_low w) (g_up w))
    by (unfold bounds_of; rewrite Hc; reflexivity).
  assert (Hb : sat_ineq (bounds_of w) (w_input w)).
  { rewrite Eb. apply C70_constraint; [exact Hsb|]. intros j k jt i Hj Hk' Hjt Hi. unfold w_input.
    rewrite params_pidx; [apply Hw; assumption| |apply (Hsb jt i Hjt Hi)]. exact Hk'. }
  destruct (optimize_better w fuel x Hp Hl Ha Hq Hs Hin Hb H) as [B _]. rewrite Eb in B.
  intros j jt i t Hjt Hqv Hi Hj s Ht. exact (C70_curve _ _ _ _ _ _ x j jt i t Hp Hsb B Hjt Hqv Hi Hj Ht).
Qed.
(* Its cost is not greater than that of the input. *)
Theorem C73_cost : forall Rep Fn (w : @sgb Rep Fn) fuel x,
  proper (g_n w) (g_nv w) (g_ss w) -> (forall j, (j < length (g_ss w))%nat -> 0 <= g_lambda w j) -> 0 <= g_alpha0 w <= 1 ->
  exact_qr (g_qr w) (w_constraint w) -> solver_exact w ->
  keeps (g_n w) (g_nv w) ((g_n w - 1) / 2) (g_act w) (g_ss w) (g_ss w) -> sat_ineq (bounds_of w) (w_input w) ->
  optimize w fuel = Ok x -> w_cost w x <= w_cost w (w_input w).
Proof.
  intros Rep Fn w fuel x Hp Hl Ha Hq Hs Hk Hb H.
  assert (Hin : sat (w_constraint w) (w_input w)) by exact (input_sat w Hp Hk).
  exact (proj2 (optimize_better w fuel x Hp Hl Ha Hq Hs Hin Hb H)).
Qed.
(* ReturnOptimum returns a path of least cost among those that keep the
   constraints and the bounds. *)
Theorem C73_optimum : forall Rep Fn (w : @sgb Rep Fn) fuel x,
  proper (g_n w) (g_nv w) (g_ss w) -> exact_qr (g_qr w) (w_constraint w) -> solver_exact w ->
  keeps (g_n w) (g_nv w) ((g_n w - 1) / 2) (g_act w) (g_ss w) (g_ss w) -> sat_ineq (bounds_of w) (w_input w) ->
  g_optimum w = true -> g_stop w 0 = false -> optimize w fuel = Ok x ->
  forall y, keeps (g_n w) (g_nv w) ((g_n w - 1) / 2) (g_act w) (g_ss w) (w_splines w y) -> sat_ineq (bounds_of w) y ->
  w_cost w x <= w_cost w y.
Proof.
  intros Rep Fn w fuel x Hp Hq Hs Hk Hb Ho Hst H y Hy Hyb.
  assert (Hin : sat (w_constraint w) (w_input w)) by exact (input_sat w Hp Hk).
  apply (optimize_optimum w Hq Hp Hin Hb Hs fuel x Ho Hst H); [|exact Hyb]. exact (proj2 (sat_keeps w y Hp) Hy).
Qed.

(* ------------------------------------------------------------------ C74 *)
(* The optimisation ends when the monitor says so. *)
Theorem C74_interrupted : forall Rep Fn (w : @sgb Rep Fn) i,
  (forall a b r, g_create w a b r <> Fuel) -> g_stop w i = true -> optimize w i <> Fuel.
Proof. exact (fun Rep Fn w i Hc Hs => optimize_not_fuel w i Hc Hs). Qed.
(* Without a monitor it ends, in a bounded number of iterations and with a
   path, when every path that keeps the constraint has a cost of at least eps
   and AlphaInit is strictly between 0 and 1. *)
Theorem C74_terminates_partial : forall Rep Fn (w : @sgb Rep Fn) eps a fuel,
  proper (g_n w) (g_nv w) (g_ss w) -> (forall j, (j < length (g_ss w))%nat -> 0 <= g_lambda w j) ->
  exact_qr (g_qr w) (w_constraint w) -> solver_exact w -> lu_exact w ->
  keeps (g_n w) (g_nv w) ((g_n w - 1) / 2) (g_act w) (g_ss w) (g_ss w) -> sat_ineq (bounds_of w) (w_input w) ->
  (g_check w = true -> validate_bounds (g_n w) (g_nv w) (length (g_ss w)) (bounds_of w) (w_input w) = []) ->
  cost_order_ok (g_n w) (g_order w) = true ->
  (forall x y r, exists f, g_create w x y r = Ok f) -> g_lin w = false -> g_optimum w = false ->
  0 < g_alpha0 w < 1 -> 0 < g_thr w -> 0 < eps ->
  (forall y, keeps (g_n w) (g_nv w) ((g_n w - 1) / 2) (g_act w) (g_ss w) (w_splines w y) -> eps <= w_cost w y) ->
  w_cost w (w_input w) <= INR a * (g_alpha0 w / 8 * (g_thr w * eps)) ->
  (6 * w_size w + a + 5 <= fuel)%nat ->
  exists x, optimize w fuel = Ok x.
Proof.
  intros Rep Fn w eps a fuel Hp Hl Hq Hs Hlu Hk Hb Hv Hco Hc Hlin Hopt Hal Ht He Hm Ha Hf.
  assert (Hin : sat (w_constraint w) (w_input w)) by exact (input_sat w Hp Hk).
  refine (optimize_total w Hq Hp Hin Hb Hs fuel a eps Hco Hl Hal Ht He _ Hc Hlin Hopt Hlu Hv Ha Hf).
  intros y Hy. apply Hm. exact (proj1 (sat_keeps w y Hp) Hy).
Qed.
(* It never ends, without a collision anywhere, when the least cost is zero: the
   path comes closer to the optimum at each iteration and the relative
   threshold is never met. *)
Theorem C74_null_cost : forall Rep Fn (w : @sgb Rep Fn) y,
  proper (g_n w) (g_nv w) (g_ss w) -> (forall j, (j < length (g_ss w))%nat -> 0 <= g_lambda w j) ->
  exact_qr (g_qr w) (w_constraint w) -> solver_exact w ->
  keeps (g_n w) (g_nv w) ((g_n w - 1) / 2) (g_act w) (g_ss w) (g_ss w) -> sat_ineq (bounds_of w) (w_input w) ->
  (g_check w = true -> validate_bounds (g_n w) (g_nv w) (length (g_ss w)) (bounds_of w) (w_input w) = []) ->
  cost_order_ok (g_n w) (g_order w) = true -> g_lin w = false -> g_optimum w = false -> (forall i, g_stop w i = false) ->
  g_alpha0 w < 1 -> (forall i s, g_valid w i s = None) -> 0 < w_cost w (w_input w) ->
  keeps (g_n w) (g_nv w) ((g_n w - 1) / 2) (g_act w) (g_ss w) (w_splines w y) -> sat_ineq (bounds_of w) y -> w_cost w y = 0 ->
  forall fuel, optimize w fuel = Fuel.
Proof.
  intros Rep Fn w y Hp Hl Hq Hs Hk Hb Hv Hco Hlin Hopt Hst Hal Hva Hc Hy Hyb Hy0 fuel.
  assert (Hin : sat (w_constraint w) (w_input w)) by exact (input_sat w Hp Hk).
  refine (never_ends_zero w Hp Hl Hst Hopt Hlin Hq Hin Hb Hs Hco Hv fuel y Hva Hal Hc _ Hyb Hy0). exact (proj2 (sat_keeps w y Hp) Hy).
Qed.
Lemma bump_keeps e a l o : let w := bump_sgb e a l o in
  keeps (g_n w) (g_nv w) ((g_n w - 1) / 2) (g_act w) (g_ss w) (g_ss w).
Proof.
  intros w. 
  apply (proj1 (keeps_params (g_n w) (g_nv w) ((g_n w - 1) / 2) (g_ss w) (g_act w) (bump_proper e a l o))).
  exact (proj1 (sat_keeps w (w_input w) (bump_proper e a l o)) (proj1 (bump_input e a l o))).
Qed.
(* A path that comes back to its first configuration. *)
Theorem C74_null_cost_refuted : exists w : @sgb unit unit, 0 < g_alpha0 w < 1 /\ 0 < g_thr w /\
  (forall i s, g_valid w i s = None) /\ forall fuel, optimize w fuel = Fuel.
Proof.
  set (w := mkSGB 2 1 [bump 0] (fun _ _ => true) (fun _ => 1) 1 (/ 5) false false false false false (/ 100)
    [] (fun _ => MInf) (fun _ => PInf) bump_qr bump_lu bump_solver (fun _ _ => None)
    (fun _ _ _ => Ok tt) (fun f => f) (fun _ _ _ _ => 1) (fun _ => false) : @sgb unit unit).
  exists w. split; [cbn; lra|]. split; [cbn; lra|]. split; [reflexivity|]. intros fuel.
  apply (C74_null_cost _ _ w (fun _ => 0)); try reflexivity; try discriminate.
  - exact (bump_proper 0 (/ 5) 0 false).
  - intros j _. cbn. lra.
  - exact (bump_exact_qr 0 (/ 5) 0 false).
  - exact (bump_solver_exact 0 (/ 5) 0 false).
  - exact (bump_keeps 0 (/ 5) 0 false).
  - exact (bump_bounds 0 (/ 5) 0 false _).
  - cbn; lra.
  - change (w_cost w (w_input w)) with (w_cost (bump_sgb 0 (/ 5) 0 false) (w_input (bump_sgb 0 (/ 5) 0 false))). rewrite bump_cost_input. lra.
  - apply (proj1 (sat_keeps w (fun _ => 0) (bump_proper 0 (/ 5) 0 false))). apply (bump_sat 0 (/ 5) 0 false). split; reflexivity.
  - exact (bump_bounds 0 (/ 5) 0 false _).
  - change (w_cost w (fun _ => 0)) with (w_cost (bump_sgb 0 (/ 5) 0 false) (fun _ => 0)). rewrite bump_cost. ring.
Qed.
(* Neither does it with AlphaInit = 1 when the optimum is in collision. *)
Theorem C74_alpha_one_refuted : exists w : @sgb unit unit, g_alpha0 w = 1 /\ 0 < g_thr w /\
  (exists eps, 0 < eps /\ forall y, keeps (g_n w) (g_nv w) ((g_n w - 1) / 2) (g_act w) (g_ss w) (w_splines w y) -> eps <= w_cost w y) /\
  (forall j, (j < length (g_ss w))%nat -> g_valid w j (nth_spline (w_splines w (w_input w)) j) = None) /\
  forall fuel, optimize w fuel = Fuel.
Proof.
  set (w := bump_sgb 1 1 (3 / 4) false). exists w. split; [reflexivity|]. split; [cbn; lra|]. split; [|split].
  - exists (/ 2). split; [lra|]. intros y Hy. apply (proj2 (sat_keeps w y (bump_proper 1 1 (3 / 4) false))) in Hy.
    pose proof (bump_cost_min 1 1 (3 / 4) false y Hy). fold w in H. lra.
  - intros j Hj. assert (j = 0%nat) as -> by (cbn in Hj; lia). change (g_valid w 0) with (bump_valid (3 / 4) 0). unfold bump_valid.
    change (sp_par (nth_spline (w_splines w (w_input w)) 0) 1 0) with (w_input w 1%nat). rewrite (proj2 (bump_input 1 1 (3 / 4) false) : w_input w 1%nat = 1).
    destruct (rltb_spec 1 (3 / 4)); [lra|reflexivity].
  - intros fuel. apply (never_ends_one w); try reflexivity; try discriminate.
    + exact (bump_proper 1 1 (3 / 4) false).
    + exact (bump_exact_qr 1 1 (3 / 4) false).
    + apply bump_input.
    + exact (bump_bounds 1 1 (3 / 4) false _).
    + exact (bump_solver_exact 1 1 (3 / 4) false).
    + set (y := fun i : nat => match i with 0%nat => 0 | 1%nat => 1 / 2 | _ => 1 end). exists y.
      assert (Hy : sat (w_constraint w) y) by (apply (bump_sat 1 1 (3 / 4) false); split; reflexivity).
      split; [exact Hy|]. unfold w. rewrite bump_cost_input. rewrite (bump_cost_sat 1 1 (3 / 4) false y Hy). cbn [y]. lra.
    + intros x Hx Hm. exists 0%nat. split; [cbn; lia|]. pose proof (bump_minimal 1 1 (3 / 4) false x Hx Hm) as X.
      change (g_valid w 0) with (bump_valid (3 / 4) 0). unfold bump_valid. change (sp_par (sp_at w x 0) 1 0) with (x 1%nat). rewrite X.
      destruct (rltb_spec (1 / 2) (3 / 4)); [discriminate|lra].
Qed.
(* The hypotheses of the theorems of C72 to C74 hold for this program, which
   returns a path. *)
Example C74_case : let w := bump_sgb 1 (/ 5) (3 / 4) false in
  proper (g_n w) (g_nv w) (g_ss w) /\ exact_qr (g_qr w) (w_constraint w) /\ solver_exact w /\ lu_exact w /\
  keeps (g_n w) (g_nv w) ((g_n w - 1) / 2) (g_act w) (g_ss w) (g_ss w) /\
  (exists fuel x, optimize w fuel = Ok x /\ w_cost w x <= w_cost w (w_input w) /\ 3 / 4 <= x 1%nat).
Proof.
  intros w. set (H1 := bump_proper 1 (/ 5) (3 / 4) false). set (H2 := bump_exact_qr 1 (/ 5) (3 / 4) false). set (H3 := bump_solver_exact 1 (/ 5) (3 / 4) false).
  split; [exact H1|]. split; [exact H2|]. split; [exact H3|]. split; [exact (bump_lu_exact 1 (/ 5) (3 / 4) false)|].
  split; [exact (bump_keeps 1 (/ 5) (3 / 4) false)|].
  destruct (C74_terminates_partial _ _ w (/ 2) (Z.to_nat 5400) (6 * w_size w + Z.to_nat 5400 + 5) H1 ltac:(intros; cbn; lra) H2 H3 (bump_lu_exact 1 (/ 5) (3 / 4) false) (bump_keeps 1 (/ 5) (3 / 4) false)
    (bump_bounds 1 (/ 5) (3 / 4) false _) ltac:(discriminate) eq_refl (fun _ _ _ => ex_intro _ tt eq_refl) eq_refl eq_refl ltac:(cbn; lra) ltac:(cbn; lra) ltac:(lra)) as [x E].
  - intros y Hy. apply (proj2 (sat_keeps w y H1)) in Hy. pose proof (bump_cost_min 1 (/ 5) (3 / 4) false y Hy). fold w in H. lra.
  - unfold w. rewrite bump_cost_input. cbn [bump_sgb g_alpha0 g_thr]. rewrite INR_IZR_INZ, Z2Nat.id by lia. lra.
  - apply Nat.le_refl.
  - revert E. generalize (6 * w_size w + Z.to_nat 5400 + 5)%nat. intros fuel E. exists fuel, x. split; [exact E|]. split.
    + apply (C73_cost _ _ w fuel x H1); auto; try (cbn; lra); [intros; cbn; lra|exact (bump_keeps 1 (/ 5) (3 / 4) false)|exact (bump_bounds 1 (/ 5) (3 / 4) false _)].
    + destruct (optimize_safe w fuel x eq_refl E) as [->|Hv].
      * fold (w_input w). rewrite (proj2 (bump_input 1 (/ 5) (3 / 4) false) : w_input w 1%nat = 1). lra.
      * pose proof (Hv 0%nat ltac:(cbn; lia)) as V. change (g_valid w 0) with (bump_valid (3 / 4) 0) in V. unfold bump_valid in V.
        change (sp_par (sp_at w x 0) 1 0) with (x 1%nat) in V. destruct (rltb_spec (x 1%nat) (3 / 4)); [discriminate|lra].
Qed.
(* and with ReturnOptimum *)
Example C73_optimum_case : let w := bump_sgb 1 (/ 5) (3 / 4) true in
  g_optimum w = true /\ g_stop w 0 = false /\ exists x, optimize w 1 = Ok x /\ x 1%nat = 1 / 2.
Proof.
  intros w. split; [reflexivity|]. split; [reflexivity|].
  set (H1 := bump_proper 1 (/ 5) (3 / 4) true). set (H2 := bump_exact_qr 1 (/ 5) (3 / 4) true). set (H3 := bump_solver_exact 1 (/ 5) (3 / 4) true).
  set (H4 := proj1 (bump_input 1 (/ 5) (3 / 4) true)). set (H5 := bump_bounds 1 (/ 5) (3 / 4) true (w_input w)).
  destruct (optimum_total w H2 H1 H4 H5 H3 1 eq_refl eq_refl eq_refl ltac:(discriminate) ltac:(lia)) as [x E]. exists x. split; [exact E|].
  apply (bump_minimal 1 (/ 5) (3 / 4) true).
  - exact (optimize_kept w 1 x H2 H4 E).
  - exact (optimize_optimum w H2 H1 H4 H5 H3 1 x eq_refl eq_refl E).
Qed.

(* ------------------------------------------------------------------ C75 *)
(* LinearizeAtEachStep: the row of each collision function is rewritten, with
   the constraints of the spline on which the collision was found, as long as
   the functions are in the order of the splines, one for each. *)
Theorem C75_linearize_partial : forall Rep Fn (w : @sgb Rep Fn) x fs coll,
  (length fs <= length (g_ss w))%nat -> (forall i c, nth_error fs i = Some c -> cf_id c = i /\ cf_row c = i) ->
  exists coll', linearize_all w x fs coll = Ok coll' /\ lc_rows coll' = lc_rows coll /\ lc_cols coll' = lc_cols coll /\
  (forall i c, nth_error fs i = Some c ->
     (forall col, lc_J coll' (cf_row c) col = lin_row w (cf_id c) x c col) /\
     lc_b coll' (cf_row c) = Some (dot (w_size w) (lin_row w (cf_id c) x c) x)) /\
  (forall r, (length fs <= r)%nat -> lc_J coll' r = lc_J coll r /\ lc_b coll' r = lc_b coll r).
Proof.
  intros Rep Fn w x fs coll Hlen Hid. unfold linearize_all.
  assert (G : forall k fs coll, (k + length fs <= length (g_ss w))%nat -> (forall i c, nth_error fs i = Some c -> cf_id c = (k + i)%nat /\ cf_row c = (k + i)%nat) ->
    exists coll', linearize_from w k x fs coll = Ok coll' /\ lc_rows coll' = lc_rows coll /\ lc_cols coll' = lc_cols coll /\
    (forall i c, nth_error fs i = Some c ->
       (forall col, lc_J coll' (cf_row c) col = lin_row w (cf_id c) x c col) /\
       lc_b coll' (cf_row c) = Some (dot (w_size w) (lin_row w (cf_id c) x c) x)) /\
    (forall r, (r < k \/ k + length fs <= r)%nat -> lc_J coll' r = lc_J coll r /\ lc_b coll' r = lc_b coll r)).
  { clear. intros k fs; revert k. induction fs as [|c t IH]; intros k coll Hl Hid.
    - exists coll. cbn [linearize_from]. repeat split; try reflexivity; destruct i; discriminate.
    - cbn [linearize_from length] in *. unfold linearize1. destruct (Nat.ltb_spec k (length (g_ss w))) as [_|]; [|lia]. cbn [bind].
      destruct (Hid 0%nat c eq_refl) as [I0 R0]. rewrite Nat.add_0_r in I0, R0.
      match goal with |- context [linearize_from w (S k) x t ?c1] => destruct (IH (S k) c1) as (coll' & E & X1 & X2 & X3 & X4) end.
      + lia.
      + intros i c' Hc. destruct (Hid (S i) c' Hc). split; lia.
      + exists coll'. split; [exact E|]. split; [exact X1|]. split; [exact X2|]. split.
        * intros [|i] c' Hc; cbn [nth_error] in Hc; [|exact (X3 i c' Hc)]. injection Hc as <-.
          destruct (X4 (cf_row c)) as [Y1 Y2]; [left; lia|]. rewrite Y1, Y2. cbn [lc_set_row lc_J lc_b]. rewrite Nat.eqb_refl.
          rewrite I0. split; reflexivity.
        * intros r Hr. destruct (X4 r) as [Y1 Y2]; [lia|]. rewrite Y1, Y2. cbn [lc_set_row lc_J lc_b].
          destruct (Nat.eqb_spec r (cf_row c)); [lia|]. split; reflexivity. }
  destruct (G 0%nat fs coll Hlen Hid) as (coll' & E & X1 & X2 & X3 & X4). exists coll'. split; [exact E|]. split; [exact X1|]. split; [exact X2|].
  split; [exact X3|]. intros r Hr. apply X4. right. exact Hr.
Qed.
(* Otherwise the list of splines is read out of its bounds when there are more
   functions than splines, *)
Theorem C75_linearize_out : forall Rep Fn (w : @sgb Rep Fn) x fs coll,
  (length (g_ss w) < length fs)%nat -> linearize_all w x fs coll = UB.
Proof.
  intros Rep Fn w x fs coll H. unfold linearize_all.
  assert (G : forall k coll, (length (g_ss w) < k + length fs)%nat -> (k <= length (g_ss w))%nat -> linearize_from w k x fs coll = UB).
  { clear H coll. induction fs as [|c t IH]; intros k coll H Hk; cbn [length] in H; [lia|]. cbn [linearize_from]. unfold linearize1.
    destruct (Nat.ltb_spec k (length (g_ss w))) as [Hlt|]; [|reflexivity]. cbn [bind]. apply IH; lia. }
  apply G; lia.
Qed.
(* and a function of the second spline is linearised with the data of the
   first. *)
Theorem C75_linearize_refuted : exists (w : @sgb unit unit) x (c : @cfn unit) coll coll',
  (cf_id c < length (g_ss w))%nat /\ linearize_all w x [c] coll = Ok coll' /\
  exists col, (col < w_size w)%nat /\ lc_J coll' (cf_row c) col <> lin_row w (cf_id c) x c col.
Proof.
  set (w := mkSGB 2 1 [bump 0; bump 0] (fun _ _ => true) (fun _ => 1) 1 (/ 5) false false true false false (/ 100)
    [] (fun _ => MInf) (fun _ => PInf) bump_qr bump_lu bump_solver (fun _ _ => None)
    (fun _ _ _ => Ok tt) (fun f => f) (fun sod _ _ _ => INR sod) (fun _ => false) : @sgb unit unit).
  exists w, (fun _ => 0), (mkCF tt 1 0 (/ 2)), (lc_new 6 1). eexists. split; [cbn; lia|]. split; [reflexivity|].
  exists 4%nat. split; [cbn; lia|]. cbn [lc_set_row lc_J cf_row Nat.eqb]. unfold lin_row. cbn [w g_n g_nv cf_id g_jac cf_f cf_ratio bsize].
  change (4%nat / bsize 2 1 =? 1)%nat with true. change (4%nat mod bsize 2 1 / 1)%nat with 1%nat.
  destruct (bern20 (/ 2)) as (_ & -> & _). cbn [INR]. lra.
Qed.
(* two functions, one for each of the two splines *)
Example C75_case : exists (w : @sgb unit unit) (fs : list (@cfn unit)), length fs = 2%nat /\
  (length fs <= length (g_ss w))%nat /\ (forall i c, nth_error fs i = Some c -> cf_id c = i /\ cf_row c = i).
Proof.
  set (w := mkSGB 2 1 [bump 0; bump 0] (fun _ _ => true) (fun _ => 1) 1 (/ 5) false false true false false (/ 100)
    [] (fun _ => MInf) (fun _ => PInf) bump_qr bump_lu bump_solver (fun _ _ => None)
    (fun _ _ _ => Ok tt) (fun f => f) (fun sod _ _ _ => INR sod) (fun _ => false) : @sgb unit unit).
  exists w, [mkCF tt 0 0 (/ 2); mkCF tt 1 1 (/ 3)]. split; [reflexivity|]. split; [cbn; lia|].
  intros [|[|i]] c H; cbn in H; try (injection H as <-; split; reflexivity). destruct i; discriminate.
Qed.

Print Assumptions C72_safe_partial.
Print Assumptions C72_optimum_refuted.
Print Assumptions C73_kept.
Print Assumptions C73_bounds.
Print Assumptions C73_cost.
Print Assumptions C73_optimum.
Print Assumptions C74_interrupted.
Print Assumptions C74_terminates_partial.
Print Assumptions C74_null_cost.
Print Assumptions C74_null_cost_refuted.
Print Assumptions C74_alpha_one_refuted.
Print Assumptions C75_linearize_partial.
Print Assumptions C75_linearize_out.
Print Assumptions C75_linearize_refuted.
