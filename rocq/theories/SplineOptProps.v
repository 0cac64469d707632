(* C69: continuity constraints, C70: joint bounds, C71: cost of the spline
   optimisers. *)
From Coq Require Import Reals Lra Lia List Arith Bool FunctionalExtensionality.
From Verif Require Import Base XReal PolySpec PolyProofs SplineModel SplineSpec SplineProofs SplineProofs2 SplineProofs3 SplineProofs4 SplineProofs5
  LinConsModel LinConsSpec LinConsProofs LinConsProofs2 SplineOptModel SplineOptSpec SplineOptProofs SplineOptProofs2 SplineOptProofs3 SplineOptProofs4.
Import ListNotations.
Open Scope R_scope.

(* ------------------------------------------------------------------ C69 *)
(* The parameters that satisfy the constraint are those of the splines with the
   same ends, joined as the input ones, smooth where they meet, at rest at the
   ends and with the passive dofs unchanged. *)
Theorem C69_constraint : forall n nv ss act x, proper n nv ss ->
  sat (path_constraint n nv ss act) x <-> keeps n nv ((n - 1) / 2) act ss (update_splines n nv x ss).
Proof. intros n nv ss act x HP. exact (path_sat n nv ss HP act x). Qed.

(* The rows allocated are the rows assigned. *)
Theorem C69_rows : forall n nv ss act m, length (continuity_rows n nv ss act m) = continuity_nb_rows nv ss act m.
Proof. exact continuity_count. Qed.

Lemma curve_params n nv ss j d : proper n nv ss -> (j < length ss)%nat -> (d < nv)%nat ->
  curve (nth_spline (update_splines n nv (params n nv ss) ss) j) d = curve (nth_spline ss j) d.
Proof.
  intros HP Hj Hd. apply functional_extensionality. intro t. rewrite update_nth by exact Hj.
  destruct (nth_proper n nv ss HP j Hj) as (En & _ & _). unfold curve. cbn [set_par sp_base sp_par sp_deg sp_t0 sp_t1]. rewrite En. f_equal.
  apply rsum_ext. intros i Hi. rewrite params_pidx by lia. reflexivity.
Qed.
Lemma keeps_params n nv m ss act : proper n nv ss ->
  keeps n nv m act ss (update_splines n nv (params n nv ss) ss) <-> keeps n nv m act ss ss.
Proof.
  intro HP. set (ss' := update_splines n nv (params n nv ss) ss).
  assert (Hl : (0 < length ss)%nat) by (apply (len_ss n nv ss HP)).
  assert (T : forall j, (j < length ss)%nat -> sp_t0 (nth_spline ss' j) = sp_t0 (nth_spline ss j) /\ sp_t1 (nth_spline ss' j) = sp_t1 (nth_spline ss j)).
  { intros j Hj. unfold ss'. rewrite update_nth by exact Hj. split; reflexivity. }
  assert (CV : forall j d, (j < length ss)%nat -> (d < nv)%nat -> curve (nth_spline ss' j) d = curve (nth_spline ss j) d).
  { intros. apply curve_params; assumption. }
  assert (DV : forall k j d t v, (j < length ss)%nat -> (d < nv)%nat -> deriv_at k (nth_spline ss' j) d t v <-> deriv_at k (nth_spline ss j) d t v).
  { intros k j d t v Hj Hd. unfold deriv_at. rewrite CV by assumption. reflexivity. }
  split; intro K.
  - split; try reflexivity.
    + intros k d Hk Hd Ha. destruct (T 0%nat Hl) as (<- & _). apply DV; try assumption. apply (k_start_der _ _ _ _ _ _ K); assumption.
    + intros k d Hk Hd. cbv zeta. intro Ha. destruct (T (length ss - 1)%nat ltac:(lia)) as (_ & <-). apply DV; try (assumption || lia). apply (k_end_der _ _ _ _ _ _ K); assumption.
    + intros k j d Hk Hj Hd Ha. destruct (k_meet_der _ _ _ _ _ _ K k j d Hk Hj Hd Ha) as (v & V1 & V2). exists v.
      destruct (T j ltac:(lia)) as (_ & E1). destruct (T (S j) Hj) as (E2 & _). fold ss' in V1, V2. rewrite E1 in V1. rewrite E2 in V2.
      split; [apply (DV k j)|apply (DV k (S j))]; assumption || lia.
  - split.
    + intros d Hd. destruct (T 0%nat Hl) as (-> & _). rewrite CV by assumption. reflexivity.
    + intros d Hd. cbv zeta. destruct (T (length ss - 1)%nat ltac:(lia)) as (_ & ->). rewrite CV by (assumption || lia). reflexivity.
    + intros j d Hj Hd. destruct (T j ltac:(lia)) as (_ & ->). destruct (T (S j) Hj) as (-> & _). rewrite !CV by (assumption || lia). reflexivity.
    + intros k d Hk Hd Ha. destruct (T 0%nat Hl) as (-> & _). apply DV; try assumption. apply (k_start_der _ _ _ _ _ _ K); assumption.
    + intros k d Hk Hd. cbv zeta. intro Ha. destruct (T (length ss - 1)%nat ltac:(lia)) as (_ & ->). apply DV; try (assumption || lia). apply (k_end_der _ _ _ _ _ _ K); assumption.
    + intros k j d Hk Hj Hd Ha. destruct (k_meet_der _ _ _ _ _ _ K k j d Hk Hj Hd Ha) as (v & V1 & V2). exists v.
      destruct (T j ltac:(lia)) as (_ & ->). destruct (T (S j) Hj) as (-> & _). split; apply DV; assumption || lia.
    + intros j i d Hj Hi Hd _. unfold ss'. rewrite update_nth by exact Hj. cbn [set_par sp_par]. apply params_pidx; assumption.
Qed.

(* The input of the optimisation satisfies the constraint when its splines are
   at rest at both ends, as those built from straight paths are (C65). *)
Theorem C69_input_partial : forall n nv ss act, proper n nv ss ->
  (forall s k d, In s ss -> (1 <= k <= (n - 1) / 2)%nat -> (d < nv)%nat -> deriv_at k s d (sp_t0 s) 0 /\ deriv_at k s d (sp_t1 s) 0) ->
  sat (path_constraint n nv ss act) (params n nv ss).
Proof.
  intros n nv ss act HP HR. apply C69_constraint; [exact HP|]. apply keeps_params; [exact HP|].
  assert (Hl : (0 < length ss)%nat) by (apply (len_ss n nv ss HP)).
  assert (HI : forall j, (j < length ss)%nat -> In (nth_spline ss j) ss) by (intros j Hj; apply nth_In; exact Hj).
  split; try reflexivity.
  - intros k d Hk Hd _. apply HR; auto.
  - intros k d Hk Hd. cbv zeta. intros _. apply HR; auto. apply HI. lia.
  - intros k j d Hk Hj Hd _. exists 0. split; apply HR; auto. apply HI. lia.
Qed.
(* one spline from 1 to 4 at rest at both ends *)
Definition rest_cubic : spline := mkSpline 3 1 (fun _ => 1) (fun i _ => if (i <=? 1)%nat then 0 else 3) 0 2.
Lemma cubic_rest : sp_derivative rest_cubic 0 1 0 = 0 /\ sp_derivative rest_cubic 2 1 0 = 0.
Proof.
  unfold sp_derivative, combine_par, basis_der, sp_ratio, sp_len. cbn [rest_cubic sp_deg sp_t0 sp_t1 sp_par].
  destruct (reqb_spec (2 - 0) 0) as [E|_]; [lra|]. destruct (der3 ((0 - 0) / (2 - 0))) as (A0 & A1 & A2 & A3).
  destruct (der3 ((2 - 0) / (2 - 0))) as (B0 & B1 & B2 & B3). cbn [rsum Nat.leb]. rewrite A0, A1, A2, A3, B0, B1, B2, B3. split; field.
Qed.
Example C69_case : proper 3 1 [rest_cubic] /\
  forall s k d, In s [rest_cubic] -> (1 <= k <= (3 - 1) / 2)%nat -> (d < 1)%nat -> deriv_at k s d (sp_t0 s) 0 /\ deriv_at k s d (sp_t1 s) 0.
Proof.
  split.
  - split; [discriminate|]. split; [lia|]. intros s [<-|[]]. cbn. repeat split; lra.
  - intros s k d [<-|[]] Hk Hd. change ((3 - 1) / 2)%nat with 1%nat in Hk. assert (k = 1%nat) as -> by lia. assert (d = 0%nat) as -> by lia.
    rewrite !deriv_at_iff by (cbn; (lra || lia)). apply cubic_rest.
Qed.

(* A cubic spline that arrives with a velocity does not satisfy the constraint
   it is the input of. *)
Definition moving_cubic : spline := mkSpline 3 1 (fun _ => 0) (fun i _ => if (i =? 3)%nat then 1 else 0) 0 1.
Theorem C69_input_refuted : exists n nv ss act, proper n nv ss /\ ~ sat (path_constraint n nv ss act) (params n nv ss).
Proof.
  exists 3%nat, 1%nat, [moving_cubic], (fun _ _ => true).
  assert (HP : proper 3 1 [moving_cubic]).
  { split; [discriminate|]. split; [lia|]. intros s [<-|[]]. cbn. repeat split; lra. }
  split; [exact HP|]. rewrite C69_constraint by exact HP. rewrite keeps_params by exact HP. intro K.
  pose proof (k_end_der _ _ _ _ _ _ K 1%nat 0%nat ltac:(cbn; lia) ltac:(lia) eq_refl) as D. cbn [length Nat.sub] in D.
  change (nth_spline [moving_cubic] 0) with moving_cubic in D.
  rewrite deriv_at_iff in D by (cbn; (lra || lia)). revert D.
  unfold sp_derivative, combine_par, basis_der, sp_ratio, sp_len. cbn [moving_cubic sp_deg sp_t0 sp_t1 sp_par].
  destruct (reqb_spec (1 - 0) 0) as [E|_]; [lra|]. destruct (der3 ((1 - 0) / (1 - 0))) as (A0 & A1 & A2 & A3).
  cbn [rsum Nat.eqb]. rewrite A0, A1, A2, A3. intro E. field_simplify in E. lra.
Qed.

(* updateParameters does not collect the parameters: with one or two splines it
   writes nothing. *)
Theorem C69_update_parameters_refuted : forall n nv ss c, (length ss <= 2)%nat -> update_parameters n nv ss c = None.
Proof. intros n nv ss c H. unfold update_parameters. replace (length ss - 2)%nat with 0%nat by lia. reflexivity. Qed.

(* ------------------------------------------------------------------ C70 *)
(* The inequalities say that every control point is within the bounds. *)
Theorem C70_constraint : forall n nv ns bases joints low up x, sound_bounds nv joints low up ->
  sat_ineq (bound_constraint n nv ns bases joints low up) x <->
  forall j k jt i, (j < ns)%nat -> (k <= n)%nat -> In jt joints -> (i < bj_n jt)%nat ->
    within (low (bj_q jt + i)%nat) (up (bj_q jt + i)%nat) (bases j (bj_q jt + i)%nat + x (pidx n nv j k (bj_v jt + i))).
Proof. intros. apply bound_sat. assumption. Qed.

(* So the whole curve is. *)
Theorem C70_curve : forall n nv ss joints low up x j jt i t, proper n nv ss -> sound_bounds nv joints low up ->
  sat_ineq (bound_constraint n nv (length ss) (fun j => sp_base (nth_spline ss j)) joints low up) x ->
  In jt joints -> bj_q jt = bj_v jt -> (i < bj_n jt)%nat -> (j < length ss)%nat ->
  let s := nth_spline (update_splines n nv x ss) j in
  sp_t0 s <= t <= sp_t1 s ->
  within (low (bj_q jt + i)%nat) (up (bj_q jt + i)%nat) (curve s (bj_q jt + i) t).
Proof.
  intros n nv ss joints low up x j jt i t HP HS HB Hjt Eq Hi Hj s Ht.
  pose proof (proj1 (C70_constraint _ _ _ _ _ _ _ _ HS) HB) as W. destruct (nth_proper n nv ss HP j Hj) as (En & _ & Htt).
  assert (Es : s = set_par (nth_spline ss j) (fun i d => x (pidx n nv j i d))) by (apply update_nth; exact Hj).
  apply curve_within.
  - rewrite Es. exact Htt.
  - exact Ht.
  - intros k Hk. rewrite Es in *. cbn [set_par sp_base sp_par sp_deg] in *. rewrite En in Hk.
    pose proof (W j k jt i Hj Hk Hjt Hi) as Q. rewrite Eq at 4. exact Q.
Qed.

(* With finite bounds, validateBounds finds a row for every coordinate that has
   a control point out of bounds by more than 1e-12, one row per coordinate,
   and only such rows. *)
Theorem C70_validate_partial : forall n nv ns bases joints low up x, (0 < ns)%nat -> sound_bounds nv joints low up -> finite_bounds joints low up ->
  let lc := bound_constraint n nv ns bases joints low up in
  let nb := list_sum (map bj_n joints) in
  let found := validate_bounds n nv ns lc x in
  (found = [] <->
   forall j k jt i, (j < ns)%nat -> (k <= n)%nat -> In jt joints -> (i < bj_n jt)%nat ->
     nearly_within (/ 1000000000000) (low (bj_q jt + i)%nat) (up (bj_q jt + i)%nat) (bases j (bj_q jt + i)%nat + x (pidx n nv j k (bj_v jt + i)))) /\
  (forall r, In r found -> (r < lc_rows lc)%nat /\ exists b, lc_b lc r = Some b /\ mv (lc_cols lc) (lc_J lc) x r < b) /\
  NoDup (map (fun r => (r mod (2 * nb)) / 2)%nat found).
Proof.
  intros n nv ns bases joints low up x Hns HS HF lc nb found.
  pose proof (bound_constraint_len n nv ns bases joints low up HF) as EL. fold nb lc in EL.
  destruct (validate_ok n nv ns nb lc x Hns EL) as (V1 & V2 & _). split; [|split].
  - unfold found. rewrite (validate_nil n nv ns nb lc x Hns EL). apply (bound_err_near n nv ns bases joints low up HS).
  - intros r Hr. destruct (V1 r Hr) as (Q1 & Q2). split; [exact Q1|]. eexists. split; [reflexivity|]. unfold bound_err in Q2.
    assert (0 < thr) by (unfold thr; lra). cbn [val lc bound_constraint lc_of_rows lc_b] in Q2. lra.
  - exact V2.
Qed.
Example C70_case : let joints := [mkBJ 0 0 2] in let low := fun _ => Fin (-1) in let up := fun _ => Fin 1 in
  sound_bounds 2 joints low up /\ finite_bounds joints low up /\
  sat_ineq (bound_constraint 1 2 1 (fun _ _ => 0) joints low up) (fun _ => 1).
Proof.
  cbv zeta. assert (HS : sound_bounds 2 [mkBJ 0 0 2] (fun _ => Fin (-1)) (fun _ => Fin 1)).
  { intros j i [<-|[]] Hi. cbn [bj_n bj_v bj_q] in *. split; [lia|]. split; right; eexists; reflexivity. }
  split; [exact HS|]. split.
  - intros j i [<-|[]] Hi. split; eexists; reflexivity.
  - apply C70_constraint; [exact HS|]. intros. split; lra.
Qed.

(* One coordinate with a lower bound only: nothing is checked. *)
Theorem C70_one_sided_refuted : exists n nv ns bases joints low up x, (0 < ns)%nat /\ sound_bounds nv joints low up /\
  validate_bounds n nv ns (bound_constraint n nv ns bases joints low up) x = [] /\
  exists r b, (r < lc_rows (bound_constraint n nv ns bases joints low up))%nat /\
    lc_b (bound_constraint n nv ns bases joints low up) r = Some b /\
    mv (lc_cols (bound_constraint n nv ns bases joints low up)) (lc_J (bound_constraint n nv ns bases joints low up)) x r < b - 1.
Proof.
  exists 1%nat, 1%nat, 1%nat, (fun _ _ => 0), [mkBJ 0 0 1], (fun _ => Fin 0), (fun _ => PInf), (fun _ => -2).
  split; [lia|]. split; [|split].
  - intros j i [<-|[]] Hi. cbn [bj_n bj_v bj_q] in *. split; [lia|]. split; [right; eexists; reflexivity|left; reflexivity].
  - reflexivity.
  - exists 0%nat. eexists. split; [cbn; lia|]. split; [reflexivity|].
    unfold mv. cbn [lc_cols lc_J bound_constraint lc_of_rows seq flat_map map app bound_rows joint_rows bj_n bj_q bj_v is_inf fst snd nth fin].
    unfold bsize, pidx, unit_row. cbn [Nat.mul Nat.add rsum Nat.leb Nat.ltb andb Nat.sub Nat.eqb fst snd]. lra.
Qed.

(* ------------------------------------------------------------------ C71 *)
(* The quadratic program minimised is the cost: weighted energies of the
   splines; the matrix is symmetric, positive if the weights are, and the
   gradient is the derivative. *)
Theorem C71_cost : forall n nv ss lambda order x, proper n nv ss ->
  let N := (length ss * bsize n nv)%nat in
  let H := cost_hessian n nv lambda order ss in
  / 2 * dot N x (mv N H x) = cost_value lambda order (update_splines n nv x ss) /\
  symmetric N H /\
  (forall a, (a < N)%nat -> cost_gradient n nv lambda order (update_splines n nv x ss) a = mv N H x a) /\
  ((forall j, (j < length ss)%nat -> 0 <= lambda j) -> psd N H).
Proof.
  intros n nv ss lambda order x HP N H. split; [exact (quad_cost n nv ss lambda order HP x)|].
  split; [exact (hess_sym n nv ss lambda order HP)|]. split; [exact (fun a => grad_hess n nv ss lambda order HP x a)|].
  exact (hess_psd n nv ss lambda order HP).
Qed.

(* What the energies are: integrals of the squared derivative, up to a factor
   that depends on the degree and the order only. *)
Theorem C71_energy : forall n nv ss lambda order x, proper n nv ss -> (order <= n)%nat ->
  exists I : nat -> R,
  (forall j, (j < length ss)%nat ->
     let s := nth_spline (update_splines n nv x ss) j in
     integral_is (sq_norm nv (fun d t => sp_derivative s t order d)) (sp_t0 s) (sp_t1 s) (I j)) /\
  INR (fact n) / INR (fact (n - order)) * cost_value lambda order (update_splines n nv x ss) = rsum (fun j => lambda j * I j) (length ss).
Proof.
  intros n nv ss lambda order x HP Ho.
  exists (fun j => ratio n order * sp_norm_integral (nth_spline (update_splines n nv x ss) j) order). split.
  - intros j Hj. cbv zeta. destruct (nth_proper n nv ss HP j Hj) as (En & Ev & Ht). rewrite update_nth by exact Hj.
    set (s := set_par _ _).
    assert (E1 : sp_deg s = n) by exact En. assert (E2 : sp_nv s = nv) by exact Ev. assert (E3 : sp_t0 s < sp_t1 s) by exact Ht.
    pose proof (energy_integral s order E3 ltac:(lia)) as Q. rewrite E1, E2 in Q. exact Q.
  - unfold cost_value. rewrite update_length. change (INR (fact n) / INR (fact (n - order))) with (ratio n order).
    rewrite <- rsum_scal. apply rsum_ext. intros; ring.
Qed.

(* The expansion that makes the gradient the gradient. *)
Theorem C71_expansion : forall n nv ss lambda order x y, proper n nv ss ->
  let cost := fun x => cost_value lambda order (update_splines n nv x ss) in
  cost (fun i => x i + y i) =
    cost x + dot (length ss * bsize n nv) (cost_gradient n nv lambda order (update_splines n nv x ss)) y + cost y.
Proof.
  intros n nv ss lambda order x y HP cost. set (N := (length ss * bsize n nv)%nat). set (H := cost_hessian n nv lambda order ss).
  assert (E : forall z, cost z = quad N H (fun _ => 0) z).
  { intro z. unfold cost, quad. rewrite <- (quad_cost n nv ss lambda order HP z). fold N H.
    assert (dot N (fun _ => 0) z = 0) as -> by (unfold dot; apply rsum_zero; intros; ring). ring. }
  rewrite !E. rewrite (quad_diff N H (fun _ => 0) x (fun i => x i + y i) (hess_sym n nv ss lambda order HP)).
  assert (S1 : same N (fun i => x i + y i - x i) y) by (intros i _; ring).
  rewrite (dot_ext N _ _ (cost_gradient n nv lambda order (update_splines n nv x ss)) y); [|intros i Hi; rewrite (grad_hess n nv ss lambda order HP x i Hi); fold N H; ring|exact S1].
  assert (S2 : same N (mv N H (fun i => x i + y i - x i)) (mv N H y)) by (intros i _; apply mv_ext; exact S1).
  rewrite (dot_ext N _ _ y (mv N H y) S1 S2). unfold quad at 3.
  assert (dot N (fun _ => 0) y = 0) as -> by (unfold dot; apply rsum_zero; intros; ring). ring.
Qed.

(* Between two sets of splines the cost is at most the interpolation of their
   costs. *)
Theorem C71_interpolation : forall n nv ss lambda order a b alpha, proper n nv ss ->
  (forall j, (j < length ss)%nat -> 0 <= lambda j) -> 0 <= alpha <= 1 ->
  let cost := fun x => cost_value lambda order (update_splines n nv x ss) in
  cost (interpolate a b alpha) <= (1 - alpha) * cost a + alpha * cost b.
Proof.
  intros n nv ss lambda order a b alpha HP Hl Ha cost. set (z := interpolate a b alpha).
  set (N := (length ss * bsize n nv)%nat). set (g := cost_gradient n nv lambda order (update_splines n nv z ss)).
  assert (E : forall v (w : vec), (forall i, v i = z i + w i) -> cost v = cost z + dot N g w + cost w).
  { intros v w Hv. replace v with (fun i => z i + w i) by (apply functional_extensionality; intro; symmetry; apply Hv).
    apply (C71_expansion n nv ss lambda order z w HP). }
  pose proof (E a (fun i => alpha * (a i - b i)) ltac:(intro i; unfold z, interpolate; ring)) as E1.
  pose proof (E b (fun i => (alpha - 1) * (a i - b i)) ltac:(intro i; unfold z, interpolate; ring)) as E2.
  rewrite (dot_scal_r N) in E1, E2.
  pose proof (cost_nonneg n nv ss lambda order HP (fun i => alpha * (a i - b i)) Hl) as N1.
  pose proof (cost_nonneg n nv ss lambda order HP (fun i => (alpha - 1) * (a i - b i)) Hl) as N2.
  fold (cost (fun i => alpha * (a i - b i))) in N1. fold (cost (fun i => (alpha - 1) * (a i - b i))) in N2.
  pose proof (Rmult_le_pos (1 - alpha) _ ltac:(lra) N1) as P1. pose proof (Rmult_le_pos alpha _ ltac:(lra) N2) as P2.
  rewrite E1, E2. lra.
Qed.

(* The weights computed from the lengths are positive numbers when a spline
   moves. *)
Lemma rmax_list_ge l : forall m, (m <= fold_left Rmax l m) /\ forall v, In v l -> v <= fold_left Rmax l m.
Proof.
  induction l as [|a t IH]; intro m; cbn [fold_left]; [split; [lra|intros ? []]|].
  destruct (IH (Rmax m a)) as (H1 & H2). pose proof (Rmax_l m a). pose proof (Rmax_r m a). split; [lra|].
  intros v [<-|Hv]; [lra|apply H2; exact Hv].
Qed.
Theorem C71_weights_partial : forall n nv ss order, proper n nv ss ->
  (exists s, In s ss /\ 0 < sp_norm_integral s order) ->
  forall k, (k < length ss)%nat -> exists w, lambda_lengths ss order k = Fin w /\ 0 < w /\
    w * sp_norm_integral (nth_spline ss k) order <= 1.
Proof.
  intros n nv ss order HP (s & Hs & Hp) k Hk. unfold lambda_lengths. cbv zeta.
  set (v := fun k => sp_norm_integral (nth_spline ss k) order). set (l := map v (seq 0 (length ss))).
  assert (HM : 0 < rmax_list l /\ v k <= rmax_list l).
  { destruct (rmax_list_ge l 0) as (_ & H). split.
    - destruct (In_nth ss s spline0 Hs) as (j & Hj & Ej). assert (v j <= fold_left Rmax l 0).
      { apply H. apply in_map. apply in_seq. lia. } unfold rmax_list. unfold v, nth_spline in H0. rewrite Ej in H0. lra.
    - apply H. apply in_map. apply in_seq. lia. }
  destruct HM as (HM & Hv). set (M := rmax_list l) in *. fold (v k).
  destruct (rltb_spec (/ 1000000 * M) (v k)) as [L|L].
  - exists (/ v k). split; [reflexivity|]. assert (0 < v k) by lra. split; [apply Rinv_0_lt_compat; assumption|].
    rewrite Rinv_l by lra. lra.
  - destruct (reqb_spec M 0) as [E|E]; [lra|]. exists (1000000 / M). split; [reflexivity|]. split.
    + unfold Rdiv. apply Rmult_lt_0_compat; [lra|]. apply Rinv_0_lt_compat. lra.
    + replace (1000000 / M * v k) with (v k / (/ 1000000 * M)) by (field; lra).
      apply Rmult_le_reg_r with (/ 1000000 * M); [lra|]. unfold Rdiv. rewrite Rmult_assoc, Rinv_l by lra. lra.
Qed.
(* They are infinite when none moves. *)
Definition still (n : nat) : spline := mkSpline n 1 (fun _ => 0) (fun _ _ => 0) 0 1.
Lemma still_energy n k : sp_norm_integral (still n) k = 0.
Proof. unfold sp_norm_integral. apply rsum_zero. intros i _. apply rsum_zero. intros j _. cbn [still sp_nv sp_par rsum]. ring. Qed.
Theorem C71_weights_refuted : exists n nv ss, proper n nv ss /\ forall order, lambda_lengths ss order 0 = PInf.
Proof.
  exists 1%nat, 1%nat, [still 1]. split.
  - split; [discriminate|]. split; [lia|]. intros s [<-|[]]. cbn. repeat split; lra.
  - intro order. unfold lambda_lengths. cbn [length seq map]. change (nth_spline [still 1] 0) with (still 1). rewrite still_energy.
    unfold rmax_list. cbn [fold_left]. rewrite Rmax_left by lra. rewrite Rmult_0_r.
    destruct (rltb_spec 0 0); [lra|]. destruct (reqb_spec 0 0); [reflexivity|lra].
Qed.

(* The check of the order of derivation accepts an order for which every cost is
   null. *)
Theorem C71_order_partial : forall n order, (0 < order <= n)%nat -> cost_order_ok n order = true.
Proof. intros n order H. unfold cost_order_ok. apply Nat.ltb_lt. lia. Qed.
Theorem C71_order_refuted : forall n nv lambda, exists order, cost_order_ok n order = true /\
  forall ss, proper n nv ss -> cost_value lambda order ss = 0.
Proof.
  intros n nv lambda. exists (S n). split; [unfold cost_order_ok; apply Nat.ltb_lt; lia|].
  intros ss HP. unfold cost_value. apply rsum_zero. intros j Hj. destruct (nth_proper n nv ss HP j Hj) as (En & _ & _).
  rewrite energy_out by lia. ring.
Qed.
(* a moving spline *)
Example C71_case : proper 3 1 [moving_cubic] /\ exists s, In s [moving_cubic] /\ 0 < sp_norm_integral s 0.
Proof.
  split.
  - split; [discriminate|]. split; [lia|]. intros s [<-|[]]. cbn. repeat split; lra.
  - exists moving_cubic. split; [left; reflexivity|].
    unfold sp_norm_integral. cbn [moving_cubic sp_deg sp_nv sp_par].
    rewrite (rsum_single _ 4 3%nat); [|lia|].
    2:{ intros i Hi Hn. apply rsum_zero. intros j Hj. cbn [rsum]. destruct (Nat.eqb_spec i 3); [lia|]. ring. }
    rewrite (rsum_single _ 4 3%nat); [|lia|].
    2:{ intros j Hi Hn. cbn [rsum]. destruct (Nat.eqb_spec j 3); [lia|]. ring. }
    cbn [rsum Nat.eqb]. unfold norm_integral. destruct (reqb_spec (sp_len moving_cubic) 0) as [E|_]; [unfold sp_len in E; cbn in E; lra|].
    unfold sp_len. cbn [moving_cubic sp_t0 sp_t1 sp_deg Nat.ltb Nat.leb].
    assert (bern_integral 3 0 3 3 = 1 / 7) as ->.
    { unfold bern_integral, rsum_between, signed, binom. cbn. field. }
    lra.
Qed.

Print Assumptions C69_constraint.
Print Assumptions C69_rows.
Print Assumptions C69_input_partial.
Print Assumptions C69_input_refuted.
Print Assumptions C69_update_parameters_refuted.
Print Assumptions C70_constraint.
Print Assumptions C70_curve.
Print Assumptions C70_validate_partial.
Print Assumptions C70_one_sided_refuted.
Print Assumptions C71_cost.
Print Assumptions C71_energy.
Print Assumptions C71_expansion.
Print Assumptions C71_interpolation.
Print Assumptions C71_weights_partial.
Print Assumptions C71_weights_refuted.
Print Assumptions C71_order_partial.
Print Assumptions C71_order_refuted.
