(* C76 - C79: paths of constant curvature of a car-like robot. *)
From Coq Require Import Reals ZArith List Bool Lia Lra.
From Verif Require Import Base XReal PolySpec PolyProofs SplineProofs SplineProofs3 CurvModel CurvSpec CurvProofs CurvProofs2
  CurvProofs3 AngleProofs CurvProofs4.
Import ListNotations.
Open Scope R_scope.

(* C76: the robot follows an arc of the prescribed curvature, along its
   heading, over the prescribed curve length; it starts at the initial
   configuration, the other degrees of freedom go straight to their final
   value, and the wheels keep a constant value. *)
Theorem C76_motion init fin cl pl kappa ws :
  unit_heading init -> 0 < pl ->
  let p := cc_create init fin cl pl kappa ws in
  p_t0 p = 0 /\ p_t1 p = pl /\
  rolls (cl / pl) kappa (cc_compute p) /\
  (forall t, unit_heading (cc_compute p t)) /\
  same_but (map fst ws) (cc_compute p 0) init /\
  same_cfg (p_end p) (cc_compute p pl) /\
  (forall t k, ~ In k (map fst ws) ->
     cj (cc_compute p t) k = cj init k + t / pl * (cj fin k - cj init k)) /\
  (forall t k v, NoDup (map fst ws) -> In (k, v) ws -> cj (cc_compute p t) k = v).
Proof.
  intros U H p. assert (E : Rabs pl = pl) by (apply Rabs_right; lra).
  assert (T1 : p_t1 p = pl) by exact E.
  assert (HL : p_t0 p < p_t1 p) by (rewrite T1; exact H).
  assert (PL : param_length p = pl) by (unfold param_length; rewrite T1; cbn; ring).
  destruct (create_closed init fin cl pl kappa ws) as [C1 [C2 _]]. fold p in C1, C2.
  repeat match goal with |- _ /\ _ => split end.
  - reflexivity.
  - exact T1.
  - pose proof (path_rolls p HL) as R. rewrite PL in R. exact R.
  - intros t. apply compute_unit. exact U.
  - exact (compute_start p).
  - rewrite T1 in C1. exact C1.
  - intros t k Hk. rewrite (compute_cj_out p) by exact Hk. rewrite (C2 ltac:(lra) k Hk).
    rewrite (abs_lin p HL), PL. change (p_t0 p) with 0. change (cj (p_init p) k) with (cj init k).
    rewrite Rminus_0_r. reflexivity.
  - intros t k v N Hi. unfold cc_compute. cbn [cj]. apply set_all_single; assumption.
Qed.

(* Every path obtained by cutting and reversing has the same properties. *)
Theorem C76_built p : built p -> p_t0 p < p_t1 p ->
  rolls (p_cl p / (p_t1 p - p_t0 p)) (p_kappa p) (cc_compute p) /\
  (forall t, unit_heading (cc_compute p t)) /\
  same_but (wheel_ranks p) (cc_compute p (p_t0 p)) (p_init p) /\
  same_but (wheel_ranks p) (cc_compute p (p_t1 p)) (p_end p).
Proof.
  intros B HL. apply built_invariant in B. destruct B as [F U Z Ln C].
  repeat split; try apply (compute_start p); try (apply (same_sym _ _ _ C)).
  - exact (path_rolls p HL).
  - intros t. apply compute_unit. exact U.
Qed.

Definition q_east : cfg := {| cx := 0; cy := 0; cc := 1; cs := 0; cj := fun _ => 0 |}.
Definition q_north : cfg := {| cx := 0; cy := 0; cc := 0; cs := 1; cj := fun _ => 0 |}.
Definition q_west : cfg := {| cx := 0; cy := 0; cc := -1; cs := 0; cj := fun _ => 0 |}.
Lemma east_unit : unit_heading q_east. Proof. unfold unit_heading; cbn; ring. Qed.
Lemma north_unit : unit_heading q_north. Proof. unfold unit_heading; cbn; ring. Qed.
Lemma west_unit : unit_heading q_west. Proof. unfold unit_heading; cbn; ring. Qed.

(* A path has an initial configuration that its evaluation does not return:
   the wheel joints jump to their steering angle. *)
Theorem C76_start_refuted : exists init fin cl pl kappa ws, unit_heading init /\ 0 < pl /\ NoDup (map fst ws) /\
  let p := cc_create init fin cl pl kappa ws in
  p_init p = init /\ ~ same_cfg (cc_compute p 0) (p_init p).
Proof.
  exists q_east, q_east, 1, 1, 1, [(0%nat, 1)]. split; [exact east_unit|]. split; [lra|].
  split; [constructor; [intros []|constructor]|]. split; [reflexivity|].
  intros [_ [_ [_ [_ J]]]]. specialize (J 0%nat ltac:(intros [])). cbn in J. lra.
Qed.
(* A path of length zero does not move, whatever the curve length. *)
Theorem C76_zero init fin cl kappa ws t :
  same_but (map fst ws) (cc_compute (cc_create init fin cl 0 kappa ws) t) init.
Proof. apply (compute_deg (cc_create init fin cl 0 kappa ws)). cbn. rewrite Rabs_R0. reflexivity. Qed.

(* a quarter of turn to the left *)
Example C76_example : let p := cc_create q_east q_east (PI / 2) 1 1 [] in
  built p /\ cx (cc_compute p 1) = 1 /\ cy (cc_compute p 1) = 1 /\
  cc (cc_compute p 1) = 0 /\ cs (cc_compute p 1) = 1.
Proof.
  intros p. split; [apply built_create, east_unit|].
  assert (E : abscissa p 1 = 1).
  { replace 1 with (p_t1 p) at 1 by (cbn; apply Rabs_R1). apply abscissa_1. cbn. rewrite Rabs_R1. lra. }
  unfold cc_compute. cbn [cx cy cc cs]. rewrite E. change (p_kappa p) with 1. change (p_cl p) with (PI / 2).
  replace (1 * (1 * (PI / 2))) with (PI / 2) by field. rewrite cos_PI2, sin_PI2.
  destruct (reqb_spec 1 0); [lra|]. cbn. repeat split; field.
Qed.

(* wheels: oriented along the motion *)
Theorem C76_wheel kappa w v : kappa <> 0 -> wheel_value kappa w = Ok v -> w_lo w <= w_up w ->
  w_lo w <= v <= w_up w /\
  exists a, wheel_rolls kappa (w_x w) (w_y w) a /\ - (PI / 2) <= a <= PI / 2 /\
    (w_lo w <= (w_lo w + w_up w) / 2 + a <= w_up w -> v = (w_lo w + w_up w) / 2 + a).
Proof.
  intros K E B. unfold wheel_value in E. destruct (reqb_spec kappa 0); [contradiction|].
  destruct (atan_quot _ _) as [a| | |] eqn:Ea; cbn [bind] in E; try discriminate. injection E as <-.
  destruct (atan_quot_rolls _ _ _ _ Ea) as [R Ra].
  unfold saturate, mean_bounds. split.
  - split; [apply Rmin_glb; [exact B | apply Rmax_l] | apply Rmin_l].
  - exists a. split; [exact R|]. split; [exact Ra|]. rewrite (Rplus_comm (w_up w)). intros [H1 H2].
    rewrite Rmax_right by exact H1. apply Rmin_right. exact H2.
Qed.
Theorem C76_wheel_defined kappa w : (forall v, wheel_value kappa w <> Ok v) <->
  kappa <> 0 /\ w_x w = 0 /\ w_y w = 1 / kappa.
Proof.
  unfold wheel_value. destruct (reqb_spec kappa 0) as [K|K].
  - split; [intros H; exfalso; exact (H _ eq_refl) | intros [H _]; contradiction].
  - unfold atan_quot. destruct (reqb_spec (1 / kappa - w_y w) 0) as [E|E].
    + destruct (rltb_spec 0 (w_x w)) as [P|P]; [split; [intros H; exfalso; exact (H _ eq_refl) | intros [_ [H _]]; lra]|].
      destruct (rltb_spec (w_x w) 0) as [N|N]; [split; [intros H; exfalso; exact (H _ eq_refl) | intros [_ [H _]]; lra]|].
      split; [intros _; repeat split; [exact K | lra | lra] | intros _ v; cbn [bind]; discriminate].
    + split; [intros H; exfalso; exact (H _ eq_refl) | intros [_ [_ H]]; lra].
Qed.
Example C76_wheel_example : wheel_value 1 {| w_rank := 0; w_lo := -1; w_up := 1; w_x := 1; w_y := 0 |} = Ok (PI / 4).
Proof.
  unfold wheel_value. destruct (reqb_spec 1 0); [lra|]. unfold atan_quot. cbn [w_x w_y].
  destruct (reqb_spec (1 / 1 - 0) 0); [lra|]. cbn [bind]. f_equal.
  replace (1 / (1 / 1 - 0)) with 1 by field. rewrite atan_1. unfold saturate, mean_bounds. cbn [w_up w_lo].
  pose proof PI_RGT_0. pose proof PI_4. rewrite Rmax_right by lra. rewrite Rmin_right; lra.
Qed.

(* C77: the first derivative is the velocity in the frame of the robot *)
Theorem C77_velocity p t : built p -> p_t0 p < p_t1 p ->
  exists v, cc_derivative p t 1 = Ok v /\ is_velocity (cc_compute p) t v /\
    vx v = p_cl p / (p_t1 p - p_t0 p) /\ vy v = 0 /\ vth v = p_kappa p * vx v.
Proof.
  intros B HL. apply built_invariant in B. destruct B as [F U Z Ln C].
  destruct (derivative_1_ok p HL F U t) as [v [E [V [H1 [H2 H3]]]]]. exists v.
  repeat split; try assumption; try apply V. rewrite H3, H1. reflexivity.
Qed.
(* higher orders: true up to the sign, which is wrong for the orders 2, 6,
   10... on forward paths and for the orders 4, 8, 12... on backward paths *)
Theorem C77_derivatives_partial p t n : built p -> p_t0 p < p_t1 p -> (2 <= n)%nat ->
  ~ ((n mod 4 = 2)%nat /\ 0 < p_cl p) -> ~ ((n mod 4 = 0)%nat /\ p_cl p < 0) ->
  exists v, cc_derivative p t (Z.of_nat n) = Ok v /\ is_nth_derivative n (cc_compute p) t v.
Proof.
  intros B HL Hn N2 N0. apply built_invariant in B. destruct B as [F U Z Ln C].
  destruct (derivative_high p HL F U n t Hn) as [v [E [X [Y [_ J]]]]]. exists v. split; [exact E|].
  assert (S : sigma p n = 1).
  { unfold sigma, wrong_sign. destruct (Nat.eqb_spec (n mod 4) 2) as [E2|E2], (Nat.eqb_spec (n mod 4) 0) as [E0|E0];
      cbn [andb orb]; try lia; try reflexivity.
    - destruct (rltb_spec 0 (p_cl p)); [exfalso; apply N2; auto | reflexivity].
    - destruct (rltb_spec (p_cl p) 0); [exfalso; apply N0; auto | reflexivity]. }
  rewrite S, Rmult_1_l in X, Y. exists (derX p n), (derY p n).
  rewrite (compute_cc p HL), (compute_cs p HL).
  split; [exact (nth_derivative_seq (derX p) (derX_seq p HL) n 0%nat)|].
  split; [exact (nth_derivative_seq (derY p) (derY_seq p HL) n 0%nat)|].
  split; [symmetry; exact X|]. split; [symmetry; exact Y|].
  intros k. rewrite J. apply (cj_nth p t n k HL Hn).
Qed.
(* ... and there it is the opposite of the derivative *)
Theorem C77_opposite p t n : built p -> p_t0 p < p_t1 p -> (2 <= n)%nat ->
  (n mod 4 = 2)%nat /\ 0 < p_cl p \/ (n mod 4 = 0)%nat /\ p_cl p < 0 ->
  exists v, cc_derivative p t (Z.of_nat n) = Ok v /\
    is_nth_derivative n (cc_compute p) t {| vx := - vx v; vy := - vy v; vth := vth v; vj := vj v |}.
Proof.
  intros B HL Hn Hw. apply built_invariant in B. destruct B as [F U Z Ln C].
  destruct (derivative_high p HL F U n t Hn) as [v [E [X [Y [_ J]]]]]. exists v. split; [exact E|].
  assert (S : sigma p n = -1).
  { unfold sigma, wrong_sign. destruct Hw as [[-> H]|[-> H]]; cbn [Nat.eqb andb orb].
    - destruct (rltb_spec 0 (p_cl p)); [reflexivity|contradiction].
    - destruct (rltb_spec (p_cl p) 0); [reflexivity|contradiction]. }
  rewrite S in X, Y. exists (derX p n), (derY p n). cbn [vx vy vj].
  rewrite (compute_cc p HL), (compute_cs p HL).
  split; [exact (nth_derivative_seq (derX p) (derX_seq p HL) n 0%nat)|].
  split; [exact (nth_derivative_seq (derY p) (derY_seq p HL) n 0%nat)|].
  split; [lra|]. split; [lra|].
  intros k. rewrite J. apply (cj_nth p t n k HL Hn).
Qed.
(* The acceleration of a robot that turns left points to the right. *)
Theorem C77_order2_refuted : exists p v, built p /\ p_t0 p < p_t1 p /\
  cc_derivative p 0 2 = Ok v /\ ~ is_nth_derivative 2 (cc_compute p) 0 v.
Proof.
  set (p := cc_create q_east q_east 1 1 1 []).
  assert (B : built p) by apply built_create, east_unit.
  assert (HL : p_t0 p < p_t1 p) by (cbn; rewrite Rabs_R1; lra).
  destruct (C77_opposite p 0 2 B HL ltac:(lia)) as [v [E D]].
  { left. split; [reflexivity | cbn; lra]. }
  exists p, v. split; [exact B|]. split; [exact HL|]. split; [exact E|].
  intros [gx [gy [Gx [Gy [X [Y _]]]]]]. destruct D as [hx [hy [Hx [Hy [X' [Y' _]]]]]].
  pose proof (nth_derivative_unique 2 _ _ _ Gx Hx 0) as Ex.
  pose proof (nth_derivative_unique 2 _ _ _ Gy Hy 0) as Ey. cbn [vx vy] in X', Y'.
  (* the true second derivative is (0, 1) *)
  pose proof (nth_derivative_unique 2 _ _ _ Gy (nth_derivative_seq (derY p) (derY_seq p HL) 2 0%nat) 0) as T.
  assert (V : derY p 2 0 = 1).
  { cbn [derY rotS rotC pow]. unfold hC.
    replace (param_length p) with 1 by (unfold param_length; cbn; rewrite Rabs_R1; ring).
    cbn [p_kappa p cc_create set_end p_cl p_init q_east cc cs p_t0].
    replace (1 * (1 / 1) * 0 + - (1 * (1 / 1) * 0)) with 0 by field. rewrite cos_0, sin_0. field. }
  cbn [Nat.add] in T. rewrite V in T.
  rewrite Ey in *. rewrite Y' in *.
  assert (Q : - vx v * cs (cc_compute p 0) + - vy v * cc (cc_compute p 0) = 1) by exact T. lra.
Qed.
Theorem C77_order4_refuted : exists p v, built p /\ p_t0 p < p_t1 p /\
  cc_derivative p 0 4 = Ok v /\ ~ is_nth_derivative 4 (cc_compute p) 0 v.
Proof.
  set (p := cc_create q_east q_east (-1) 1 1 []).
  assert (B : built p) by apply built_create, east_unit.
  assert (HL : p_t0 p < p_t1 p) by (cbn; rewrite Rabs_R1; lra).
  destruct (C77_opposite p 0 4 B HL ltac:(lia)) as [v [E D]].
  { right. split; [reflexivity | cbn; lra]. }
  exists p, v. split; [exact B|]. split; [exact HL|]. split; [exact E|].
  intros [gx [gy [Gx [Gy [X [Y _]]]]]]. destruct D as [hx [hy [Hx [Hy [X' [Y' _]]]]]].
  pose proof (nth_derivative_unique 4 _ _ _ Gy Hy 0) as Ey. cbn [vx vy] in X', Y'.
  pose proof (nth_derivative_unique 4 _ _ _ Gy (nth_derivative_seq (derY p) (derY_seq p HL) 4 0%nat) 0) as T.
  assert (V : derY p 4 0 = -1).
  { cbn [derY rotS rotC pow]. unfold hC.
    replace (param_length p) with 1 by (unfold param_length; cbn; rewrite Rabs_R1; ring).
    cbn [p_kappa p cc_create set_end p_cl p_init q_east cc cs p_t0].
    replace (1 * (-1 / 1) * 0 + - (1 * (-1 / 1) * 0)) with 0 by field. rewrite cos_0, sin_0. field. }
  cbn [Nat.add] in T. rewrite V in T.
  rewrite Ey in *. rewrite Y' in *.
  assert (Q : - vx v * cs (cc_compute p 0) + - vy v * cc (cc_compute p 0) = -1) by exact T. lra.
Qed.
(* The velocity of a path of length zero is not a number. *)
Theorem C77_zero_refuted : exists p, built p /\ cc_derivative p 0 1 = UB.
Proof.
  exists (cc_create q_east q_east 0 0 1 []). split; [apply built_create, east_unit|].
  unfold cc_derivative. cbn [Z.leb Z.compare Z.eqb Pos.eqb].
  destruct (reqb_spec (param_length (cc_create q_east q_east 0 0 1 [])) 0) as [_|N]; [reflexivity|].
  exfalso. apply N. unfold param_length. cbn. rewrite Rabs_R0. ring.
Qed.
Theorem C77_order0 p t n : (n <= 0)%Z -> cc_derivative p t n = Throw.
Proof. intros H. unfold cc_derivative. destruct (Z.leb_spec n 0); [reflexivity | lia]. Qed.

(* C78: bound of the velocity.  The bound is on the length of the planar
   velocity, on the rotation and on the other degrees of freedom. *)
Theorem C78_bound_partial p t0 t1 t v : built p -> p_t0 p < p_t1 p -> t0 <= t <= t1 ->
  cc_derivative p t 1 = Ok v ->
  let b := cc_velocity_bound p t0 t1 in
  planar_norm2 v <= planar_norm2 b /\ Rabs (vth v) <= vth b /\ forall k, Rabs (vj v k) <= vj b k.
Proof.
  intros B HL Ht E b. apply built_invariant in B. pose proof B as [F U Z Ln C].
  destruct (derivative_1 p HL F U t) as [v' [E' [H1 [H2 [H3 H4]]]]].
  rewrite E in E'. injection E' as <-.
  pose proof (abs_be p HL) as A.
  repeat split.
  - pose proof (bound_planar p HL t0 t1) as P. cbv zeta in P. unfold planar_norm2 at 1.
    rewrite H1, H2. rewrite <- A, abs_sq in P. fold b in P. lra.
  - unfold b. rewrite (bound_vth p HL), H3, Rabs_mult, A. lra.
  - intros k. rewrite H4. apply (vj_bound p HL).
Qed.
(* component by component on straight segments *)
Theorem C78_straight p t0 t1 t v : built p -> p_t0 p < p_t1 p -> p_kappa p = 0 ->
  cc_derivative p t 1 = Ok v -> bounded_by v (cc_velocity_bound p t0 t1).
Proof.
  intros B HL K E. apply built_invariant in B. pose proof B as [F U Z Ln C].
  destruct (derivative_1 p HL F U t) as [v' [E' [H1 [H2 [H3 H4]]]]].
  rewrite E in E'. injection E' as <-.
  pose proof (abs_be p HL) as A. unfold bounded_by. rewrite H1, H2, H3.
  assert (Hx : vx (cc_velocity_bound p t0 t1) = Rabs (p_cl p) / param_length p * 1).
  { unfold cc_velocity_bound. rewrite (deg_test p HL). cbn [vx]. destruct (reqb_spec (p_kappa p) 0); [reflexivity|contradiction]. }
  assert (Hy : vy (cc_velocity_bound p t0 t1) = Rabs (p_cl p) / param_length p * 0).
  { unfold cc_velocity_bound. rewrite (deg_test p HL). cbn [vy]. destruct (reqb_spec (p_kappa p) 0); [reflexivity|contradiction]. }
  rewrite Hx, Hy, (bound_vth p HL), K. repeat split.
  - rewrite A. lra.
  - rewrite Rabs_R0. lra.
  - rewrite Rmult_0_l, Rabs_R0. lra.
  - intros k. rewrite H4. apply (vj_bound p HL).
Qed.
(* The bound is not a bound of each component: the velocity along the heading
   of a robot that leaves the origin to the north is larger. *)
Theorem C78_refuted : exists p v, built p /\ p_t0 p < p_t1 p /\ cc_derivative p 0 1 = Ok v /\
  ~ bounded_by v (cc_velocity_bound p (p_t0 p) (p_t1 p)).
Proof.
  set (p := cc_create q_north q_north 1 1 1 []).
  assert (B : built p) by apply built_create, north_unit.
  assert (T1 : p_t1 p = 1) by (cbn; apply Rabs_R1).
  assert (HL : p_t0 p < p_t1 p) by (rewrite T1; cbn; lra).
  destruct (C77_velocity p 0 B HL) as [v [E [_ [Vx _]]]].
  exists p, v. split; [exact B|]. split; [exact HL|]. split; [exact E|].
  intros [Hb _]. rewrite Vx, T1 in Hb. cbn [p_cl p cc_create set_end p_t0] in Hb.
  replace (1 / (1 - 0)) with 1 in Hb by field. rewrite Rabs_R1 in Hb.
  unfold cc_velocity_bound in Hb. rewrite (deg_test p HL) in Hb. cbn [vx] in Hb.
  destruct (reqb_spec (p_kappa p) 0) as [K|_]; [cbn in K; lra|]. cbn [negb] in Hb.
  unfold param_length in Hb. rewrite !T1 in Hb. cbn [p_cl p cc_create set_end p_t0 p_kappa p_init q_north cc cs] in Hb.
  replace (1 * 1 * (0 - 0) / (1 - 0)) with 0 in Hb by field.
  replace (1 * 1 * (1 - 0) / (1 - 0)) with 1 in Hb by field.
  destruct (rltb_spec 1 0); [lra|]. pose proof PI_RGT_0 as P. pose proof PI2_1 as P1.
  destruct (rleb_spec PI (1 - 0)) as [N|_]; [lra|]. cbn [fst] in Hb.
  assert (A : atan2 1 0 = PI / 2).
  { unfold atan2. destruct (rltb_spec 0 0); [lra|]. destruct (rltb_spec 0 1); [reflexivity|lra]. }
  rewrite A in Hb.
  assert (Fl : floor ((0 + PI / 2) * (1 / PI) / 2) = 0).
  { replace ((0 + PI / 2) * (1 / PI) / 2) with (1 / 4) by (field; lra). apply (floor_unique _ 0). lra. }
  rewrite Fl in Hb.
  replace (0 + PI / 2 - 0 * 2 * PI) with (PI / 2) in Hb by ring.
  replace (1 + PI / 2 - 0 * 2 * PI) with (1 + PI / 2) in Hb by ring.
  unfold abs_cos_max in Hb. destruct (rleb_spec (1 + PI / 2) PI) as [_|N]; [|lra].
  rewrite cos_PI2, Rabs_R0 in Hb. rewrite Rabs_R1 in Hb.
  assert (Cs : cos (1 + PI / 2) = - sin 1) by (rewrite (Rplus_comm 1), (sin_cos 1); ring).
  rewrite Cs, Rabs_Ropp in Hb.
  pose proof (sin_gt_0 1 ltac:(lra) ltac:(lra)) as S0.
  pose proof (sin_increasing_1 1 (PI / 2) ltac:(lra) ltac:(lra) ltac:(lra) ltac:(lra) P1) as S1.
  rewrite sin_PI2 in S1. rewrite (Rabs_right (sin 1)) in Hb by lra.
  rewrite Rmax_right in Hb by lra. lra.
Qed.
(* The bound of the lateral velocity is even negative when the robot heads
   to the south-west. *)
Theorem C78_negative_refuted : exists p t0 t1, built p /\ p_t0 p <= t0 /\ t0 < t1 /\ t1 <= p_t1 p /\
  vy (cc_velocity_bound p t0 t1) < 0.
Proof.
  set (p := cc_create q_west q_west 1 1 1 []).
  assert (B : built p) by apply built_create, west_unit.
  assert (T1 : p_t1 p = 1) by (cbn; apply Rabs_R1).
  assert (HL : p_t0 p < p_t1 p) by (rewrite T1; cbn; lra).
  exists p, (1 / 2), 1. split; [exact B|]. split; [cbn; lra|]. split; [lra|]. split; [rewrite T1; lra|].
  unfold cc_velocity_bound. rewrite (deg_test p HL). cbn [vy].
  destruct (reqb_spec (p_kappa p) 0) as [K|_]; [cbn in K; lra|]. cbn [negb].
  unfold param_length. rewrite !T1. cbn [p_cl p cc_create set_end p_t0 p_kappa p_init q_west cc cs].
  replace (1 * 1 * (1 / 2 - 0) / (1 - 0)) with (1 / 2) by field.
  replace (1 * 1 * (1 - 0) / (1 - 0)) with 1 by field.
  destruct (rltb_spec 1 (1 / 2)); [lra|]. pose proof PI_RGT_0 as P. pose proof PI2_1 as P1.
  destruct (rleb_spec PI (1 - 1 / 2)) as [N|_]; [lra|]. cbn [snd].
  assert (A : atan2 0 (-1) = PI).
  { unfold atan2. destruct (rltb_spec 0 (-1)); [lra|]. destruct (rltb_spec (-1) 0); [|lra].
    destruct (rleb_spec 0 0); [|lra]. replace (0 / -1) with 0 by field. rewrite atan_0. ring. }
  rewrite A.
  assert (Fl : floor ((1 / 2 + PI) * (1 / PI) / 2) = 0).
  { apply (floor_unique _ 0). assert (E : (1 / 2 + PI) * (1 / PI) / 2 * (2 * PI) = 1 / 2 + PI) by (field; lra).
    set (z := (1 / 2 + PI) * (1 / PI) / 2) in *. split; nra. }
  rewrite Fl.
  replace (1 / 2 + PI - 0 * 2 * PI) with (1 / 2 + PI) by ring.
  replace (1 + PI - 0 * 2 * PI) with (1 + PI) by ring.
  unfold abs_sin_max.
  destruct (rleb_spec (1 + PI) (PI / 2)); [lra|]. destruct (rleb_spec (1 / 2 + PI) (PI / 2)); [lra|].
  destruct (rleb_spec (3 * (PI / 2)) (1 / 2 + PI)); [lra|]. destruct (rleb_spec (3 * (PI / 2)) (1 + PI)); [lra|].
  rewrite !neg_sin.
  pose proof (sin_gt_0 1 ltac:(lra) ltac:(lra)) as S1.
  pose proof (sin_gt_0 (1 / 2) ltac:(lra) ltac:(lra)) as S2.
  rewrite Rabs_R1. assert (Rmax (- sin (1 / 2)) (- sin 1) < 0) by (apply Rmax_lub_lt; lra). lra.
Qed.

(* C79: cutting and reversing *)
Theorem C79_extract p a b : built p -> p_t0 p < p_t1 p ->
  p_t0 p <= a <= p_t1 p -> p_t0 p <= b <= p_t1 p ->
  let p' := cc_extract p a b in
  p_t0 p' = 0 /\ p_t1 p' = Rabs (b - a) /\ p_kappa p' = p_kappa p /\
  forall u, 0 <= u <= Rabs (b - a) ->
    same_cfg (cc_compute p' u) (cc_compute p (if rleb a b then a + u else a - u)).
Proof.
  intros B HL Ha Hb p'. apply built_invariant in B. destruct B as [F U Z Ln C].
  split; [reflexivity|]. split; [apply (ext_len p HL)|]. split; [reflexivity|].
  intros u Hu. pose proof (extract_eval p HL C a b u Hu) as E. unfold dir in E.
  destruct (rleb a b).
  - replace (a + 1 * u) with (a + u) in E by ring. exact E.
  - replace (a + -1 * u) with (a - u) in E by ring. exact E.
Qed.
Theorem C79_reverse p : built p -> p_t0 p < p_t1 p ->
  let p' := cc_reverse p in
  p_t0 p' = 0 /\ p_t1 p' = p_t1 p - p_t0 p /\ p_init p' = p_end p /\ p_end p' = p_init p /\
  (forall u, same_cfg (cc_compute p' u) (cc_compute p (p_t1 p - u))) /\
  (forall u v, cc_derivative p' u 1 = Ok v -> exists v', cc_derivative p (p_t1 p - u) 1 = Ok v' /\
     vx v = - vx v' /\ vy v = - vy v' /\ vth v = - vth v' /\ forall k, vj v k = - vj v' k).
Proof.
  intros B HL p'. pose proof (built_reverse p B) as B'. fold p' in B'.
  pose proof (built_invariant p B) as [F U Z Ln C]. pose proof (built_invariant p' B') as [F' U' Z' Ln' C'].
  assert (HL' : p_t0 p' < p_t1 p') by (cbn; unfold param_length; lra).
  repeat split; try reflexivity; try apply (reverse_eval p _ HL C).
  intros u v E. destruct (derivative_1 p' HL' F' U' u) as [w [E' [H1 [H2 [H3 H4]]]]].
  rewrite E in E'. injection E' as <-.
  destruct (derivative_1 p HL F U (p_t1 p - u)) as [v' [E' [G1 [G2 [G3 G4]]]]]. exists v'. split; [exact E'|].
  assert (PL : param_length p' = param_length p) by (unfold param_length at 1; cbn; ring).
  assert (LP : param_length p <> 0) by (unfold param_length; lra).
  rewrite H1, H2, H3, G1, G2, G3, PL. change (p_cl p') with (- p_cl p). change (p_kappa p') with (p_kappa p).
  repeat split; try (field; exact LP).
  intros k. rewrite H4, G4. unfold true_velocity. cbn [vj]. rewrite PL.
  change (p_wheels p') with (p_wheels p). change (p_init p') with (p_end p). change (p_end p') with (p_init p).
  destruct (in_dec Nat.eq_dec k (map fst (p_wheels p))) as [Hi|Ho].
  - rewrite !set_all_zero by exact Hi. ring.
  - rewrite !set_all_zero_out by exact Ho. field. exact LP.
Qed.
(* second half of a path, then backward *)
Example C79_example : let p := cc_create q_east q_east 2 2 1 [] in
  built (cc_reverse (cc_extract p 1 2)) /\ p_t1 (cc_extract p 1 2) = 1 /\
  p_cl (cc_extract p 1 2) = 1 /\ p_cl (cc_reverse (cc_extract p 1 2)) = -1.
Proof.
  intros p. assert (T1 : p_t1 p = 2) by (cbn; apply Rabs_right; lra).
  assert (HL : p_t0 p < p_t1 p) by (rewrite T1; cbn; lra).
  assert (C : p_cl (cc_extract p 1 2) = 1).
  { rewrite (ext_cl p HL). unfold param_length. rewrite T1. cbn. field. }
  split; [apply built_reverse, built_extract; [apply built_create, east_unit | rewrite T1; cbn; lra..]|].
  split; [rewrite (ext_len p HL); rewrite Rabs_right; lra|].
  split; [exact C|]. change (p_cl (cc_reverse (cc_extract p 1 2))) with (- p_cl (cc_extract p 1 2)). lra.
Qed.

Print Assumptions C76_motion.
Print Assumptions C76_built.
Print Assumptions C76_start_refuted.
Print Assumptions C76_zero.
Print Assumptions C76_wheel.
Print Assumptions C76_wheel_defined.
Print Assumptions C77_velocity.
Print Assumptions C77_derivatives_partial.
Print Assumptions C77_opposite.
Print Assumptions C77_order2_refuted.
Print Assumptions C77_order4_refuted.
Print Assumptions C77_zero_refuted.
Print Assumptions C77_order0.
Print Assumptions C78_bound_partial.
Print Assumptions C78_straight.
Print Assumptions C78_refuted.
Print Assumptions C78_negative_refuted.
Print Assumptions C79_extract.
Print Assumptions C79_reverse.
