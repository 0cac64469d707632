(* C42: Bernstein basis and energy of splines; C64: velocity bounds of splines;
   C65: spline steering method; C66: derivatives with respect to the control
   points. *)
From Coq Require Import Reals Arith Lia Lra List Bool.
From Verif Require Import Base XReal PolySpec PolyProofs SplineModel SplineSpec SplineProofs SplineProofs2 SplineProofs3 SplineProofs4 SplineProofs5.
Import ListNotations.
Open Scope R_scope.

(* ------------------------------------------------------------------ C42 *)
(* For every degree: the coded basis functions are the Bernstein polynomials,
   their sum is 1, the coded derivatives are their derivatives of every order. *)
Theorem C42_basis n :
  (forall t, rsum (bern_eval n t) (S n) = 1) /\
  (forall i, (i <= n)%nat ->
     (forall t, bern_eval n t i = bernstein n i t) /\
     (forall t, 0 <= t <= 1 -> 0 <= bern_eval n t i <= 1) /\
     (forall k, nth_derivative k (bernstein n i) (fun t => bern_der n k t i))).
Proof.
  split.
  - intros t. rewrite <- (bernstein_unity n t). apply rsum_ext. intros i Hi. apply bern_eval_bernstein. lia.
  - intros i Hi. split; [intros t; apply bern_eval_bernstein; exact Hi|]. split; [|intros k; apply bern_nth; exact Hi].
    intros t Ht. rewrite bern_eval_bernstein by exact Hi. split; [apply bernstein_nonneg|apply bernstein_le_1]; assumption.
Qed.

(* The value of a spline is the point of its curve, from the first control point
   to the last, and stays there out of the range. *)
Theorem C42_curve s d : sp_t0 s < sp_t1 s ->
  (forall t, sp_t0 s <= t <= sp_t1 s -> sp_compute s t d = curve s d t) /\
  (forall t, t <= sp_t0 s -> sp_compute s t d = sp_base s d + sp_par s 0%nat d) /\
  (forall t, sp_t1 s <= t -> sp_compute s t d = sp_base s d + sp_par s (sp_deg s) d).
Proof.
  intros H. destruct (curve_ends s d H) as [E0 E1]. split; [intros t Ht; apply sp_compute_curve; assumption|].
  destruct (sp_compute_out s (sp_t0 s) d H) as [_ _]. split; intros t Ht; destruct (sp_compute_out s t d H) as [B A].
  - rewrite B by exact Ht. rewrite <- E0. apply sp_compute_curve; lra.
  - rewrite A by exact Ht. rewrite <- E1. apply sp_compute_curve; lra.
Qed.

(* The derivatives of the path are those of the curve. *)
Theorem C42_path_derivatives s k : sp_t0 s < sp_t1 s -> (0 < k)%nat ->
  curve_derivative k s (fun d t => sp_derivative s t k d).
Proof. exact (sp_curve_derivative s k). Qed.

(* Energy: exact for the order 0 and for the degree 1. *)
Theorem C42_energy_partial s k D : sp_t0 s < sp_t1 s -> (0 < k <= sp_deg s)%nat -> curve_derivative k s D ->
  integral_is (sq_norm (sp_nv s) D) (sp_t0 s) (sp_t1 s) (INR (fact (sp_deg s)) / INR (fact (sp_deg s - k)) * sp_norm_integral s k).
Proof.
  intros H Hk HD. destruct (energy_integral s k H ltac:(lia)) as (pr & E).
  assert (forall t, sq_norm (sp_nv s) (fun d t => sp_derivative s t k d) t = sq_norm (sp_nv s) D t) as Ext.
  { intros t. unfold sq_norm. apply rsum_ext. intros d Hd.
    rewrite (nth_derivative_unique k _ _ _ (sp_curve_derivative s k H ltac:(lia) d Hd) (HD d Hd) t). reflexivity. }
  eapply anti_integral; [lra| |].
  - intros t. apply (derivable_ext (sq_norm (sp_nv s) (fun d t => sp_derivative s t k d))); [exact Ext|]. apply sq_norm_derivable. exact H.
  - eapply anti_ext; [exact Ext|]. apply energy_anti; [exact H|lia].
Qed.

(* Order 0: squared distance to the base. *)
Theorem C42_energy_order_0 s : sp_t0 s < sp_t1 s ->
  integral_is (sq_norm (sp_nv s) (fun d t => curve s d t - sp_base s d)) (sp_t0 s) (sp_t1 s) (sp_norm_integral s 0).
Proof.
  intros H. assert (forall t, sq_norm (sp_nv s) (fun d t => sp_derivative s t 0 d) t = sq_norm (sp_nv s) (fun d t => curve s d t - sp_base s d) t) as Ext.
  { intros t. unfold sq_norm. apply rsum_ext. intros d Hd. rewrite <- sp_derivative_0 by exact H. ring. }
  eapply anti_integral; [lra| |].
  - intros t. apply (derivable_ext (sq_norm (sp_nv s) (fun d t => sp_derivative s t 0 d))); [exact Ext|]. apply sq_norm_derivable. exact H.
  - eapply anti_ext; [exact Ext|]. eapply anti_eq; [|apply energy_anti; [exact H|lia]].
    unfold ratio. rewrite Nat.sub_0_r. field. apply INR_fact_neq_0.
Qed.

(* Orders above the degree: null derivative, null energy. *)
Theorem C42_energy_above_degree s k : (sp_deg s < k)%nat -> sp_norm_integral s k = 0 /\ forall t d, sp_derivative s t k d = 0.
Proof. intros H. split; [apply energy_out; exact H|intros; apply derivative_out; exact H]. Qed.

(* Degree 3, order 1, one degree of freedom: 3/5 is returned instead of 9/5. *)
Definition cubic : spline := mkSpline 3 1 (fun _ => 0) (fun i _ => if (i =? 3)%nat then 1 else 0) 0 1.
Lemma cubic_energy : sp_norm_integral cubic 1 = 3 / 5.
Proof.
  unfold sp_norm_integral. cbn [cubic sp_deg sp_nv sp_par].
  rewrite (rsum_single _ 4 3%nat); [|lia|].
  2:{ intros i Hi Hn. apply rsum_zero. intros j Hj. cbn [rsum]. destruct (Nat.eqb_spec i 3); [lia|]. ring. }
  rewrite (rsum_single _ 4 3%nat); [|lia|].
  2:{ intros j Hi Hn. cbn [rsum]. destruct (Nat.eqb_spec j 3); [lia|]. ring. }
  cbn [rsum Nat.eqb]. rewrite norm_integral_val by (cbn; lra). unfold sp_len. cbn [cubic sp_t0 sp_t1 sp_deg].
  assert (bern_integral 3 1 3 3 = 3 / 5) as ->.
  { unfold bern_integral, rsum_between, signed, binom. cbn. field. }
  rewrite Rminus_0_r, !pow1. field.
Qed.
Theorem C42_energy_refuted : exists s k D, sp_t0 s < sp_t1 s /\ (0 < k <= sp_deg s)%nat /\ curve_derivative k s D /\
  ~ integral_is (sq_norm (sp_nv s) D) (sp_t0 s) (sp_t1 s) (sp_norm_integral s k).
Proof.
  exists cubic, 1%nat, (fun d t => sp_derivative cubic t 1 d). assert (sp_t0 cubic < sp_t1 cubic) as H by (cbn; lra).
  assert (curve_derivative 1 cubic (fun d t => sp_derivative cubic t 1 d)) as HD by (apply sp_curve_derivative; [exact H|lia]).
  split; [exact H|]. split; [cbn; lia|]. split; [exact HD|]. intros HI.
  assert (0 < 1 <= sp_deg cubic)%nat as Hk by (cbn; lia).
  pose proof (integral_unique _ _ _ _ _ HI (C42_energy_partial cubic 1 _ H Hk HD)) as E. rewrite cubic_energy in E. cbn in E. lra.
Qed.
(* degree 1, order 1: the factor is 1 *)
Example C42_example : INR (fact 1) / INR (fact (1 - 1)) = 1 /\ INR (fact 3) / INR (fact (3 - 1)) = 3.
Proof. cbn. split; field. Qed.

(* ------------------------------------------------------------------ C64 *)
(* maxVelocity bounds the velocity for every degree; velocityBound does for the
   degrees 1 and 3. *)
Theorem C64_max_velocity s t d : sp_t0 s < sp_t1 s -> sp_t0 s <= t <= sp_t1 s ->
  exists v, sp_max_velocity s d = Fin v /\ Rabs (sp_derivative s t 1 d) <= v.
Proof. exact (max_velocity_ok s t d). Qed.
Theorem C64_velocity_bound_partial s a b t d : (sp_deg s = 1%nat \/ sp_deg s = 3%nat) -> sp_t0 s < sp_t1 s ->
  sp_t0 s <= a -> a <= t <= b -> b <= sp_t1 s ->
  exists v, sp_velocity_bound s a b d = Fin v /\ Rabs (sp_derivative s t 1 d) <= v.
Proof. exact (velocity_bound_ok s a b t d). Qed.
Theorem C64_velocity_bound_refuted : exists s a b t d v, sp_deg s = 5%nat /\ sp_t0 s < sp_t1 s /\ sp_t0 s <= a /\ a <= t <= b /\ b <= sp_t1 s /\
  sp_velocity_bound s a b d = Fin v /\ v < Rabs (sp_derivative s t 1 d).
Proof.
  destruct bump_bad as (v & E & L). exists bump, 0, 1, (1/6), 0%nat, v. cbn [bump sp_deg sp_t0 sp_t1]. repeat split; try lra; assumption.
Qed.
(* the bound of a cubic on its whole range is reached *)
Example C64_example : exists v, sp_velocity_bound cubic 0 1 0 = Fin v /\ v = Rabs (sp_derivative cubic 1 1 0).
Proof.
  destruct (len_pos cubic ltac:(cbn; lra)) as [E P]. unfold sp_velocity_bound, sp_ratio. rewrite E. eexists. split; [reflexivity|].
  assert (sp_len cubic = 1) as -> by (unfold sp_len; cbn; ring).
  rewrite sp_derivative_val by (cbn; lra). assert (sp_len cubic = 1) as -> by (unfold sp_len; cbn; ring).
  change (sp_deg cubic) with 3%nat. change (sp_t0 cubic) with 0. rewrite !(rsum_single _ 4 3%nat); try lia.
  - change (sp_par cubic 3%nat 0%nat) with 1. replace ((0 - 0) / 1) with 0 by field. replace ((1 - 0) / 1) with 1 by field.
    destruct (der3 0) as (_ & _ & _ & D0), (der3 1) as (_ & _ & _ & D1). unfold bern_bound. cbn [Nat.ltb Nat.leb]. unfold raise_at. cbn [Nat.eqb Nat.sub].
    rewrite !andb_false_r, D0, D1. cbn [pow]. rewrite (Rabs_right 1), (Rabs_right (3 * (0 * 0))), (Rabs_right (3 * (1 * 1))) by lra.
    rewrite Rabs_right by lra. rewrite Rmax_right by lra. field.
  - intros p Hp Hn. cbn [cubic sp_par]. destruct (Nat.eqb_spec p 3); [lia|]. ring.
  - intros p Hp Hn. cbn [cubic sp_par]. destruct (Nat.eqb_spec p 3); [lia|]. rewrite Rabs_R0. ring.
Qed.

(* ------------------------------------------------------------------ C65 *)
(* The path starts at q1, ends at q2, with the derivatives required, when the
   orders are consecutive and not more numerous than the control points.  The
   linear solver is assumed to return a solution when there is one. *)
Theorem C65_meets_constraints_partial solve n nv dist q1 d1 q2 d2 len a b :
  exact n nv solve (system n nv (if Rle_dec len 0 then dist else len) q1 d1 q2 d2) -> orders d1 a -> orders d2 b -> (a + b + 2 <= n + 1)%nat ->
  0 < len \/ len <= 0 /\ 0 < dist ->
  let s := sm_spline solve n nv dist q1 d1 q2 d2 len in
  sp_t0 s = 0 /\ sp_t1 s = (if Rle_dec len 0 then dist else len) /\
  forall d, (d < nv)%nat ->
    sp_compute s (sp_t0 s) d = q1 d /\ sp_compute s (sp_t1 s) d = q2 d /\
    (forall o v, In (o, v) d1 -> sp_derivative s (sp_t0 s) o d = v d) /\ (forall o v, In (o, v) d2 -> sp_derivative s (sp_t1 s) o d = v d).
Proof. exact (steer_meets solve n nv dist q1 d1 q2 d2 len a b). Qed.

(* Without derivatives, for an odd degree: the straight segment from q1 to q2,
   followed forwards with a blending function that depends on the degree only. *)
Theorem C65_default_is_straight h : exists beta,
  beta 0 = 0 /\ beta 1 = 1 /\ (forall u v, 0 <= u -> u <= v -> v <= 1 -> beta u <= beta v) /\
  forall solve nv dist q1 q2 t d,
    exact (2 * h + 1) nv solve (system (2 * h + 1) nv dist q1 (sm_null (2 * h + 1)) q2 (sm_null (2 * h + 1))) -> 0 < dist -> (d < nv)%nat -> 0 <= t <= dist ->
    sp_compute (sm_default solve (2 * h + 1) nv dist q1 q2) t d = q1 d + beta (t / dist) * (q2 d - q1 d).
Proof.
  exists (blend h). destruct (blend_ends h) as [B0 B1]. split; [exact B0|]. split; [exact B1|]. split; [exact (blend_mono h)|].
  intros. apply default_straight; assumption.
Qed.

(* At distance 0, whatever the solver, the path cannot join different configurations. *)
Theorem C65_zero_distance_refuted solve n nv q1 d1 q2 d2 len d : len <= 0 -> q1 d <> q2 d ->
  let s := sm_spline solve n nv 0 q1 d1 q2 d2 len in
  ~ (sp_compute s (sp_t0 s) d = q1 d /\ sp_compute s (sp_t1 s) d = q2 d).
Proof.
  intros Hl Hq s [H1 H2]. apply Hq. rewrite <- H1, <- H2. unfold s, sm_spline. destruct (rleb_spec len 0); [|lra].
  cbn [sp_t0 sp_t1]. reflexivity.
Qed.

(* From 1 to 4 in 2 time units, degree 1: the control points 0 and 3. *)
Example C65_example :
  let solve := fun (_ : list ((nat -> R) * (nat -> R))) (i _ : nat) => if (i =? 1)%nat then 3 else 0 in
  orders [] 0 /\ (0 + 0 + 2 <= 1 + 1)%nat /\
  exact 1 1 solve (system 1 1 2 (fun _ => 1) [] (fun _ => 4) []) /\
  solves 1 1 (system 1 1 2 (fun _ => 1) [] (fun _ => 4) []) (solve []).
Proof.
  intros solve. split; [reflexivity|]. split; [lia|].
  assert (solves 1 1 (system 1 1 2 (fun _ => 1) [] (fun _ => 4) []) (solve [])) as S.
  { intros r Hr d Hd. apply (rows_in 1 1 (fun _ => 1) (fun _ => 4) 2) in Hr. subst solve.
    destruct Hr as [->|[(o & v & [] & _)|[->|(o & v & [] & _)]]]; cbn [fst snd].
    - rewrite (rsum_ext _ (fun i => if (i =? 1)%nat then 3 * bern_eval 1 0 i else 0))
        by (intros i Hi; rewrite basis_der_p by lra; unfold bern_eval; cbn [pow]; destruct (i =? 1)%nat; field).
      cbn [rsum Nat.eqb]. rewrite bern_eval_bernstein, bernstein_0 by lia. cbn. ring.
    - rewrite (rsum_ext _ (fun i => if (i =? 1)%nat then 3 * bern_eval 1 1 i else 0))
        by (intros i Hi; rewrite basis_der_p by lra; unfold bern_eval; cbn [pow]; destruct (i =? 1)%nat; field).
      cbn [rsum Nat.eqb]. rewrite bern_eval_bernstein, bernstein_1 by lia. cbn. ring. }
  split; [intros _; exact S|exact S].
Qed.

(* ------------------------------------------------------------------ C66 *)
(* parameterDerivativeCoefficients: the configuration is affine in the control
   points, with these coefficients. *)
Theorem C66_parameter_derivative_partial s dp t d e : sp_t0 s < sp_t1 s -> sp_t0 s <= t <= sp_t1 s ->
  sp_compute (sp_param_integrate s (fun r => e * dp r)) t d =
  sp_compute s t d + e * rsum (fun i => sp_param_derivative s t i * dp (i * sp_nv s + d)%nat) (S (sp_deg s)).
Proof.
  intros H Ht. rewrite !sp_compute_curve; try assumption. unfold curve. cbn [sp_param_integrate sp_base sp_deg sp_par sp_t0 sp_t1].
  rewrite Rplus_assoc. f_equal. rewrite <- rsum_scal, <- rsum_plus. apply rsum_ext. intros i Hi.
  unfold sp_param_derivative, basis_der, sp_ratio. destruct (len_pos s H) as [E P]. rewrite E.
  rewrite <- bern_eval_bernstein by lia. unfold bern_eval, sp_len. cbn [pow]. field.
Qed.
(* A path of length 0 depends on its first control point, yet all the
   coefficients returned are null. *)
Theorem C66_zero_length_refuted : exists s dp t d, sp_t0 s = sp_t1 s /\ sp_t0 s <= t <= sp_t1 s /\
  sp_compute (sp_param_integrate s dp) t d <> sp_compute s t d + rsum (fun i => sp_param_derivative s t i * dp (i * sp_nv s + d)%nat) (S (sp_deg s)).
Proof.
  exists (mkSpline 1 1 (fun _ => 0) (fun _ _ => 0) 0 0), (fun _ => 1), 0, 0%nat. cbn [sp_t0 sp_t1]. split; [reflexivity|]. split; [lra|].
  unfold sp_param_derivative, basis_der, sp_compute, sp_len. cbn [sp_param_integrate sp_t0 sp_t1 sp_nv sp_deg sp_base sp_par].
  destruct (reqb_spec (0 - 0) 0) as [_|N]; [|exfalso; apply N; ring].
  unfold sp_value, combine_par. cbn [sp_param_integrate sp_nv sp_deg sp_base sp_par rsum].
  fold (bern_eval 1 0 0) (bern_eval 1 0 1). rewrite !bern_eval_bernstein by lia. rewrite !bernstein_0 by lia. cbn. lra.
Qed.

(* squaredNormIntegralDerivative is the gradient of squaredNormIntegral: the
   remainder is quadratic in the step. *)
Theorem C66_energy_gradient s k dp : exists c, forall e,
  sp_norm_integral (sp_param_integrate s (fun r => e * dp r)) k =
  sp_norm_integral s k + e * rsum (fun r => sp_norm_gradient s k r * dp r) (S (sp_deg s) * sp_nv s) + e * e * c.
Proof. eexists. intros e. apply norm_expansion. Qed.

Print Assumptions C42_basis.
Print Assumptions C42_curve.
Print Assumptions C42_path_derivatives.
Print Assumptions C42_energy_partial.
Print Assumptions C42_energy_order_0.
Print Assumptions C42_energy_above_degree.
Print Assumptions C42_energy_refuted.
Print Assumptions C64_max_velocity.
Print Assumptions C64_velocity_bound_partial.
Print Assumptions C64_velocity_bound_refuted.
Print Assumptions C65_meets_constraints_partial.
Print Assumptions C65_default_is_straight.
Print Assumptions C65_zero_distance_refuted.
Print Assumptions C66_parameter_derivative_partial.
Print Assumptions C66_zero_length_refuted.
Print Assumptions C66_energy_gradient.
