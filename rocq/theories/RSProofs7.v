(* Reeds and Shepp: the formulas find the words, turning radius 1. *)
From Coq Require Import Reals ZArith List Bool Lia Lra.
From Verif Require Import Base XReal PolyProofs CurvModel CurvSpec CurvProofs3 AngleProofs DubinsModel DubinsSpec
  DubinsProofs DubinsProofs2 DubinsProofs3 RSModel RSSpec RSProofs RSProofs2 RSProofs3 RSProofs4 RSProofs5.
Import ListNotations.
Open Scope R_scope.

Section Unique.
Variables x y phi t u v : R.
Notation c := (cos phi).
Notation s := (sin phi).
Lemma rmod_is b z : eqm b z -> - PI < z < PI -> rmod2pi b = z.
Proof.
  intros H B. apply eqm_small; [exact (eqm_trans _ _ _ (rmod_eqm b) H)|]. pose proof (rmod_bound b). lra.
Qed.

Lemma LpSpLp_find : ends [L_SEG; S_SEG; L_SEG] [t; u; v] x y phi -> 0 <= t < PI -> 0 < u -> 0 <= v < PI ->
  LpSpLp x y c s phi = Some (t, u, v).
Proof.
  intros [X [Y A]] Ht Hu Hv. cbn [wx wy wa dispx dispy turn] in X, Y, A. rewrite !Rplus_0_l, cos_0, sin_0 in *.
  rewrite (eqm_sin _ _ A) in X. rewrite (eqm_cos _ _ A) in Y.
  assert (X1 : u * cos t = x - s) by lra. assert (Y1 : u * sin t = y - 1 + c) by lra.
  unfold LpSpLp, polar_r, polar_t. pose proof (radius_eq u t _ _ X1 Y1) as R1. rewrite <- R1, sqrt_square by lra.
  destruct (polar (x - s) (y - 1 + c)) as [P Q]. rewrite <- R1, sqrt_square in P, Q by lra.
  assert (Et : atan2 (y - 1 + c) (x - s) = t).
  { apply eqm_small; [apply (same_angle u _ _ (x - s) (y - 1 + c)); try assumption; lra|].
    pose proof (atan2_bound (y - 1 + c) (x - s)). lra. }
  rewrite Et. rewrite nonneg_ok by lra.
  rewrite (rmod_is (phi - t) v); [rewrite nonneg_ok by lra; reflexivity | | pose proof PI_RGT_0; lra].
  replace v with (t + v - t) by ring. apply eqm_minus; [apply eqm_sym, A | apply eqm_refl].
Qed.
Lemma LpSpRp_find : ends [L_SEG; S_SEG; R_SEG] [t; u; v] x y phi -> 0 <= t < PI -> 0 < u -> 0 <= v < PI ->
  LpSpRp x y c s phi = Some (t, u, v).
Proof.
  intros [X [Y A]] Ht Hu Hv. cbn [wx wy wa dispx dispy turn] in X, Y, A. rewrite !Rplus_0_l, cos_0, sin_0 in *.
  rewrite (eqm_sin _ _ A) in X. rewrite (eqm_cos _ _ A) in Y.
  assert (X1 : u * cos t - -2 * sin t = x + s) by lra. assert (Y1 : u * sin t + -2 * cos t = y - 1 - c) by lra.
  unfold LpSpRp, polar_r, polar_t. pose proof (rot_norm u (-2) t _ _ X1 Y1) as R1.
  cbv zeta. rewrite sqrt_sqrt by nra. rewrite <- R1. destruct (rleb_spec 4 (u * u + -2 * -2)) as [_|G]; [|exfalso; nra].
  replace (u * u + -2 * -2 - 4) with (u * u) by ring. rewrite sqrt_square by lra.
  destruct (polar (x + s) (y - 1 - c)) as [P Q]. destruct (polar u 2) as [P2 Q2].
  set (r := sqrt ((x + s) * (x + s) + _)) in *. set (th := atan2 (y - 1 - c) (x + s)) in *. set (om := atan2 2 u) in *.
  assert (Er : sqrt (u * u + 2 * 2) = r) by (unfold r; f_equal; lra). rewrite Er in P2, Q2.
  assert (X2 : u * cos (th + om) - -2 * sin (th + om) = x + s).
  { rewrite cos_plus, sin_plus. replace (-2) with (- (r * sin om)) by lra. rewrite <- P2.
    transitivity (r * cos th * (sin om * sin om + cos om * cos om)); [ring | rewrite trig1, P; ring]. }
  assert (Y2 : u * sin (th + om) + -2 * cos (th + om) = y - 1 - c).
  { rewrite cos_plus, sin_plus. replace (-2) with (- (r * sin om)) by lra. rewrite <- P2.
    transitivity (r * sin th * (sin om * sin om + cos om * cos om)); [ring | rewrite trig1, Q; ring]. }
  assert (Et : eqm (th + om) t) by (apply (rot_angle u (-2) _ _ (x + s) (y - 1 - c)); try assumption; lra).
  rewrite (rmod_is _ _ Et) by (pose proof PI_RGT_0; lra). rewrite (rmod_is (t - phi) v); [| | pose proof PI_RGT_0; lra].
  - rewrite !nonneg_ok by lra. reflexivity.
  - replace v with (t - (t - v)) by ring. apply eqm_minus; [apply eqm_refl | apply eqm_sym, A].
Qed.
Lemma LpRmL_find : ends [L_SEG; R_SEG; L_SEG] [t; - u; v] x y phi -> 0 <= t < PI -> 0 < u <= PI -> - PI < v < PI ->
  LpRmL x y c s phi = Some (t, - u, v).
Proof.
  intros [X [Y A]] Ht Hu Hv. cbn [wx wy wa dispx dispy turn] in X, Y, A. rewrite !Rplus_0_l, cos_0, sin_0 in *.
  rewrite (eqm_sin _ _ A) in X. rewrite (eqm_cos _ _ A) in Y.
  destruct (mid t u) as [M1 M2]. replace (t - - u) with (t + u) in * by ring.
  set (k := sin (u / 2)) in *. set (b := t + u / 2) in *.
  assert (Kp : 0 < k) by (apply sin_gt_0; lra). assert (K1 : k <= 1) by apply SIN_bound.
  assert (Cb : cos (b + PI) = - cos b) by apply neg_cos. assert (Sb : sin (b + PI) = - sin b) by apply neg_sin.
  assert (X1 : 4 * k * cos (b + PI) = x - s) by (rewrite Cb; lra).
  assert (Y1 : 4 * k * sin (b + PI) = y - 1 + c) by (rewrite Sb; lra).
  unfold LpRmL, polar_r, polar_t. pose proof (radius_eq (4 * k) (b + PI) _ _ X1 Y1) as R1. rewrite <- R1, sqrt_square by lra.
  destruct (polar (x - s) (y - 1 + c)) as [P Q]. rewrite <- R1, sqrt_square in P, Q by lra.
  assert (Et : eqm (atan2 (y - 1 + c) (x - s)) (b + PI)) by (apply (same_angle (4 * k) _ _ (x - s) (y - 1 + c)); try assumption; lra).
  set (th := atan2 _ _) in *. cbv zeta.
  destruct (rleb_spec (4 * k) 4); [|lra].
  replace (/ 4 * (4 * k)) with k by field. unfold k. rewrite asin_sin by lra.
  replace (-2 * (u / 2)) with (- u) by field.
  rewrite (rmod_is (th + / 2 * - u + PI) t); [| |pose proof PI_RGT_0; lra].
  2:{ apply (eqm_trans _ (b + PI + / 2 * - u + PI)); [apply eqm_plus; [apply eqm_plus; [exact Et | apply eqm_refl] | apply eqm_refl]|].
      exists 1%Z. unfold b. field. }
  rewrite (rmod_is (phi - t + - u) v); [| |exact Hv].
  - rewrite nonneg_ok, nonpos_ok by lra. reflexivity.
  - apply (eqm_trans _ (t + u + v - t + - u)); [|apply eqm_eq; ring].
    apply eqm_plus; [apply eqm_minus; [apply eqm_sym, A | apply eqm_refl] | apply eqm_refl].
Qed.
Lemma quarter a : cos (a - - / 2 * PI) = - sin a /\ sin (a - - / 2 * PI) = cos a.
Proof.
  replace (a - - / 2 * PI) with (PI / 2 + a) by field. split; [rewrite (sin_cos a); ring | rewrite cos_sin; reflexivity].
Qed.
Lemma LpRmSmRm_find : ends [L_SEG; R_SEG; S_SEG; R_SEG] [t; - / 2 * PI; u; v] x y phi -> 0 <= t < PI -> u <= 0 -> - PI < v <= 0 ->
  LpRmSmRm x y c s phi = Some (t, u, v).
Proof.
  intros [X [Y A]] Ht Hu Hv. cbn [wx wy wa dispx dispy turn] in X, Y, A. rewrite !Rplus_0_l, cos_0, sin_0 in *.
  destruct (quarter t) as [H1 H2].
  rewrite (eqm_sin _ _ A), H1, H2 in X. rewrite (eqm_cos _ _ A), H1, H2 in Y.
  assert (X1 : (2 - u) * cos t = - (y - 1 - c)) by lra. assert (Y1 : (2 - u) * sin t = x + s) by lra.
  unfold LpRmSmRm, polar_r, polar_t. cbv zeta. pose proof (radius_eq (2 - u) t _ _ X1 Y1) as R1.
  destruct (polar (- (y - 1 - c)) (x + s)) as [P Q]. rewrite <- R1, sqrt_square in * by lra.
  destruct (rleb_spec 2 (2 - u)); [|lra].
  assert (Et : atan2 (x + s) (- (y - 1 - c)) = t).
  { apply eqm_small; [apply (same_angle (2 - u) _ _ (- (y - 1 - c)) (x + s)); try assumption; lra|].
    pose proof (atan2_bound (x + s) (- (y - 1 - c))). lra. }
  rewrite Et. replace (2 - (2 - u)) with u by ring. rewrite (rmod_is (t + / 2 * PI - phi) v); [| |pose proof PI_RGT_0; lra].
  - rewrite nonneg_ok, !nonpos_ok by lra. reflexivity.
  - apply (eqm_trans _ (t + / 2 * PI - (t - - / 2 * PI - v))); [apply eqm_minus; [apply eqm_refl | apply eqm_sym, A] | apply eqm_eq; ring].
Qed.
Lemma LpRmSmLm_find : ends [L_SEG; R_SEG; S_SEG; L_SEG] [t; - / 2 * PI; u; v] x y phi -> 0 <= t < PI -> u <= 0 -> - PI < v <= 0 ->
  LpRmSmLm x y c s phi = Some (t, u, v).
Proof.
  intros [X [Y A]] Ht Hu Hv. cbn [wx wy wa dispx dispy turn] in X, Y, A. rewrite !Rplus_0_l, cos_0, sin_0 in *.
  destruct (quarter t) as [H1 H2].
  rewrite (eqm_sin _ _ A), H1, H2 in X. rewrite (eqm_cos _ _ A), H1, H2 in Y.
  set (r := 2 - u). assert (Hr : 2 <= r) by (unfold r; lra).
  assert (X1 : -2 * cos t - - r * sin t = x - s) by (unfold r; lra). assert (Y1 : -2 * sin t + - r * cos t = y - 1 + c) by (unfold r; lra).
  unfold LpRmSmLm, polar_r, polar_t. cbv zeta. pose proof (rot_norm (-2) (- r) t _ _ X1 Y1) as R1.
  destruct (polar (x - s) (y - 1 + c)) as [P Q]. rewrite sqrt_sqrt by nra.
  destruct (rleb_spec 2 (sqrt ((x - s) * (x - s) + (y - 1 + c) * (y - 1 + c)))) as [_|G].
  2:{ exfalso. apply G. rewrite <- (sqrt_square 2) by lra. apply sqrt_le_1; nra. }
  assert (Er : sqrt ((x - s) * (x - s) + (y - 1 + c) * (y - 1 + c) - 4) = r).
  { rewrite <- R1. replace (-2 * -2 + - r * - r - 4) with (r * r) by ring. apply sqrt_square. lra. }
  rewrite Er. destruct (polar (-2) r) as [P2 Q2].
  assert (Eo : sqrt (-2 * -2 + r * r) = sqrt ((x - s) * (x - s) + (y - 1 + c) * (y - 1 + c))) by (f_equal; lra).
  rewrite Eo in P2, Q2. set (rho := sqrt _) in *. set (th := atan2 (y - 1 + c) (x - s)) in *. set (om := atan2 r (-2)) in *.
  assert (X2 : -2 * cos (th + om) - - r * sin (th + om) = x - s).
  { rewrite <- P2, <- Q2, cos_plus, sin_plus.
    transitivity (rho * cos th * (sin om * sin om + cos om * cos om)); [ring|]. rewrite trig1, P. ring. }
  assert (Y2 : -2 * sin (th + om) + - r * cos (th + om) = y - 1 + c).
  { rewrite <- P2, <- Q2, cos_plus, sin_plus.
    transitivity (rho * sin th * (sin om * sin om + cos om * cos om)); [ring|]. rewrite trig1, Q. ring. }
  assert (Et : eqm (th + om) t) by (apply (rot_angle (-2) (- r) _ _ (x - s) (y - 1 + c)); try assumption; lra).
  rewrite (rmod_is _ _ Et) by (pose proof PI_RGT_0; lra). replace (2 - r) with u by (unfold r; ring).
  rewrite (rmod_is (phi - / 2 * PI - t) v); [| |pose proof PI_RGT_0; lra].
  - rewrite nonneg_ok, !nonpos_ok by lra. reflexivity.
  - apply (eqm_trans _ (t - - / 2 * PI + v - / 2 * PI - t)); [|apply eqm_eq; field].
    apply eqm_minus; [apply eqm_minus; [apply eqm_sym, A | apply eqm_refl] | apply eqm_refl].
Qed.
Lemma LpRmSLmRp_find : ends [L_SEG; R_SEG; S_SEG; L_SEG; R_SEG] [t; - / 2 * PI; u; - / 2 * PI; v] x y phi ->
  0 <= t < PI -> u <= 0 -> 0 <= v < PI -> LpRmSLmRp x y c s phi = Some (t, u, v).
Proof.
  intros [X [Y A]] Ht Hu Hv. cbn [wx wy wa dispx dispy turn] in X, Y, A. rewrite !Rplus_0_l, cos_0, sin_0 in *.
  destruct (quarter t) as [H1 H2]. assert (H3 : t - - / 2 * PI + - / 2 * PI = t) by ring. rewrite H3 in X, Y, A.
  rewrite (eqm_sin _ _ A), H1, H2 in X. rewrite (eqm_cos _ _ A), H1, H2 in Y.
  set (r := 4 - u). assert (Hr : 4 <= r) by (unfold r; lra).
  assert (X1 : -2 * cos t - - r * sin t = x + s) by (unfold r; lra). assert (Y1 : -2 * sin t + - r * cos t = y - 1 - c) by (unfold r; lra).
  unfold LpRmSLmRp, polar_r. cbv zeta. pose proof (rot_norm (-2) (- r) t _ _ X1 Y1) as R1.
  set (xi := x + s) in *. set (eta := y - 1 - c) in *. rewrite sqrt_sqrt by nra.
  destruct (rleb_spec 2 (sqrt (xi * xi + eta * eta))) as [_|G].
  2:{ exfalso. apply G. rewrite <- (sqrt_square 2) by lra. apply sqrt_le_1; nra. }
  assert (Er : sqrt (xi * xi + eta * eta - 4) = r).
  { rewrite <- R1. replace (-2 * -2 + - r * - r - 4) with (r * r) by ring. apply sqrt_square. lra. }
  rewrite Er. rewrite nonpos_ok by lra.
  replace (4 - (4 - r)) with r by ring. replace (4 - r - 4) with (- r) by ring.
  destruct (polar (-2 * xi + - r * eta) (r * xi - 2 * eta)) as [P Q].
  assert (Ez : sqrt ((-2 * xi + - r * eta) * (-2 * xi + - r * eta) + (r * xi - 2 * eta) * (r * xi - 2 * eta)) = r * r + 4).
  { transitivity (sqrt ((r * r + 4) * (r * r + 4))); [f_equal | apply sqrt_square; nra].
    transitivity ((xi * xi + eta * eta) * (r * r + 4)); [ring|]. rewrite <- R1. ring. }
  rewrite Ez in P, Q. set (om := atan2 (r * xi - 2 * eta) (-2 * xi + - r * eta)) in *.
  assert (N : r * r + 4 <> 0) by nra.
  assert (X2 : -2 * cos om - - r * sin om = xi).
  { apply (Rmult_eq_reg_l (r * r + 4)); [|exact N].
    transitivity (r * ((r * r + 4) * sin om) - 2 * ((r * r + 4) * cos om)); [ring|]. rewrite P, Q. ring. }
  assert (Y2 : -2 * sin om + - r * cos om = eta).
  { apply (Rmult_eq_reg_l (r * r + 4)); [|exact N].
    transitivity (- r * ((r * r + 4) * cos om) - 2 * ((r * r + 4) * sin om)); [ring|]. rewrite P, Q. ring. }
  assert (Et : eqm om t) by (apply (rot_angle (-2) (- r) _ _ xi eta); try assumption; lra).
  rewrite (rmod_is _ _ Et) by (pose proof PI_RGT_0; lra). rewrite (rmod_is (t - phi) v); [| |pose proof PI_RGT_0; lra].
  - rewrite !nonneg_ok by lra. replace (4 - r) with u by (unfold r; ring). reflexivity.
  - replace v with (t - (t - v)) by ring. apply eqm_minus; [apply eqm_refl | apply eqm_sym, A].
Qed.
Lemma LpRumLumRp_find : ends [L_SEG; R_SEG; L_SEG; R_SEG] [t; u; u; v] x y phi ->
  0 <= t < PI -> - (PI / 2) <= u <= 0 -> 0 <= v < PI -> LpRumLumRp x y c s phi = Some (t, u, v).
Proof.
  intros [X [Y A]] Ht Hu Hv. cbn [wx wy wa dispx dispy turn] in X, Y, A. rewrite !Rplus_0_l, cos_0, sin_0 in *.
  assert (H3 : t - u + u = t) by ring. rewrite H3 in X, Y, A.
  rewrite (eqm_sin _ _ A) in X. rewrite (eqm_cos _ _ A) in Y. rewrite sin_minus in X. rewrite cos_minus in Y.
  set (B := cos u - 1 - 1). set (C := sin u - 0).
  assert (X1 : 2 * C * cos t - 2 * B * sin t = x + s) by (unfold B, C; lra).
  assert (Y1 : 2 * C * sin t + 2 * B * cos t = y - 1 - c) by (unfold B, C; lra).
  unfold LpRumLumRp, tau_omega. cbv zeta. pose proof (rot_norm (2 * C) (2 * B) t _ _ X1 Y1) as R1.
  set (xi := x + s) in *. set (eta := y - 1 - c) in *. pose proof (trig1 u) as T. pose proof (COS_bound u) as Cb.
  assert (CB : C * C + B * B = 5 - 4 * cos u) by (unfold B, C; nra).
  assert (Er : (20 - xi * xi - eta * eta) / 16 = cos u) by nra.
  assert (Cp : 0 <= cos u) by (apply cos_ge_0; lra).
  rewrite Er. destruct (rleb_spec 0 (cos u)); [|lra]. destruct (rleb_spec (cos u) 1); [|lra]. cbn [andb].
  assert (Ea : - acos (cos u) = u) by (rewrite <- (cos_neg u), acos_cos by lra; ring). rewrite Ea.
  destruct (rleb_spec (- / 2 * PI) u); [|lra].
  assert (Cd : cos (rmod2pi (u - u)) = 1) by (rewrite (eqm_cos _ _ (rmod_eqm _)); replace (u - u) with 0 by ring; apply cos_0).
  assert (Sd : sin (rmod2pi (u - u)) = 0) by (rewrite (eqm_sin _ _ (rmod_eqm _)); replace (u - u) with 0 by ring; apply sin_0).
  rewrite Cd, Sd. destruct (rltb_spec (2 * (1 - cos u - cos u) + 3) 0) as [Hn|_]; [exfalso; lra|].
  fold B C. set (m := 5 - 4 * cos u) in *. assert (Hm : 1 <= m) by (unfold m; lra).
  destruct (polar (xi * C + eta * B) (eta * C - xi * B)) as [P Q].
  assert (Ez : sqrt ((xi * C + eta * B) * (xi * C + eta * B) + (eta * C - xi * B) * (eta * C - xi * B)) = 2 * m).
  { transitivity (sqrt ((2 * m) * (2 * m))); [f_equal | apply sqrt_square; lra].
    transitivity ((C * C + B * B) * (xi * xi + eta * eta)); [ring|]. rewrite <- R1.
    transitivity (4 * (C * C + B * B) * (C * C + B * B)); [ring|]. rewrite CB. ring. }
  rewrite Ez in P, Q. set (om := atan2 (eta * C - xi * B) (xi * C + eta * B)) in *.
  assert (X2 : 2 * C * cos om - 2 * B * sin om = xi).
  { apply (Rmult_eq_reg_l (2 * m)); [|lra].
    transitivity (2 * C * (2 * m * cos om) - 2 * B * (2 * m * sin om)); [ring|]. rewrite P, Q.
    transitivity (2 * xi * (C * C + B * B)); [ring|]. rewrite CB. ring. }
  assert (Y2 : 2 * C * sin om + 2 * B * cos om = eta).
  { apply (Rmult_eq_reg_l (2 * m)); [|lra].
    transitivity (2 * C * (2 * m * sin om) + 2 * B * (2 * m * cos om)); [ring|]. rewrite P, Q.
    transitivity (2 * eta * (C * C + B * B)); [ring|]. rewrite CB. ring. }
  assert (Nb : 2 * B <> 0) by (unfold B; lra).
  assert (Et : eqm om t) by (apply (rot_angle (2 * C) (2 * B) _ _ xi eta); assumption).
  rewrite (rmod_is _ _ Et) by (pose proof PI_RGT_0; lra). rewrite (rmod_is (t - u + u - phi) v); [| |pose proof PI_RGT_0; lra].
  - rewrite !nonneg_ok by lra. reflexivity.
  - rewrite H3. replace v with (t - (t - v)) by ring. apply eqm_minus; [apply eqm_refl | apply eqm_sym, A].
Qed.
Lemma LpRupLumRm_find : ends [L_SEG; R_SEG; L_SEG; R_SEG] [t; u; - u; v] x y phi ->
  0 <= t < PI -> 0 <= u < PI / 3 -> - PI < v <= 0 -> LpRupLumRm x y c s phi = Some (t, u, v).
Proof.
  intros [X [Y A]] Ht Hu Hv. cbn [wx wy wa dispx dispy turn] in X, Y, A. rewrite !Rplus_0_l, cos_0, sin_0 in *.
  assert (H3 : t - u + - u = t - u - u) by ring. rewrite H3 in X, Y, A.
  rewrite (eqm_sin _ _ A) in X. rewrite (eqm_cos _ _ A) in Y.
  assert (F1 : sin t + sin (t - u - u) = 2 * cos u * sin (t - u)).
  { replace t with (t - u + u) at 1 by ring. rewrite (sin_minus (t - u) u), (sin_plus (t - u) u). ring. }
  assert (F2 : cos t + cos (t - u - u) = 2 * cos u * cos (t - u)).
  { replace t with (t - u + u) at 1 by ring. rewrite (cos_minus (t - u) u), (cos_plus (t - u) u). ring. }
  set (r := 4 * cos u - 2).
  assert (Cp : / 2 < cos u).
  { replace (/ 2) with (cos (PI / 3)) by (rewrite cos_PI3; field). apply cos_decreasing_1; pose proof PI_RGT_0; lra. }
  assert (Hr : 0 < r) by (unfold r; lra).
  assert (X1 : r * sin (t - u) = x + s) by (unfold r; lra). assert (Y1 : r * cos (t - u) = - (y - 1 - c)) by (unfold r; lra).
  unfold LpRupLumRm, tau_omega. cbv zeta. pose proof (radius_eq r (t - u) _ _ Y1 X1) as R1.
  set (xi := x + s) in *. set (eta := y - 1 - c) in *.
  assert (Rr : xi * xi + eta * eta = r * r) by lra. rewrite Rr, sqrt_square by lra.
  assert (Er : / 4 * (2 + r) = cos u) by (unfold r; field). rewrite Er.
  destruct (rleb_spec (cos u) 1) as [_|G]; [|exfalso; apply G, COS_bound].
  rewrite acos_cos by (pose proof PI_RGT_0; lra).
  assert (Cd : cos (rmod2pi (u - - u)) = 2 * cos u * cos u - 1).
  { rewrite (eqm_cos _ _ (rmod_eqm _)). replace (u - - u) with (2 * u) by ring. apply cos_2a_cos. }
  assert (Sd : sin (rmod2pi (u - - u)) = 2 * sin u * cos u).
  { rewrite (eqm_sin _ _ (rmod_eqm _)). replace (u - - u) with (2 * u) by ring. apply sin_2a. }
  rewrite Cd, Sd, cos_neg.
  match goal with |- context [rltb ?z 0] => destruct (rltb_spec z 0) as [Hn|_] end.
  { exfalso. pose proof (Rle_0_sqr (2 * cos u - 1)) as K. unfold Rsqr in K. lra. }
  match goal with |- context [atan2 ?A ?B] => destruct (polar B A) as [P Q]; set (t1 := atan2 A B) in * end.
  set (k := 1 - 2 * cos u) in *. assert (Hk : k = - (r / 2)) by (unfold k, r; field).
  match type of P with sqrt ?z * _ = _ => assert (Ez : sqrt z = r * (r / 2)) end.
  { transitivity (sqrt ((r * (r / 2)) * (r * (r / 2)))); [f_equal | apply sqrt_square; nra].
    transitivity (k * k * (xi * xi + eta * eta) * (sin u * sin u + cos u * cos u)); [unfold k; ring|].
    rewrite trig1, Rr, Hk. field. }
  rewrite Ez in P, Q.
  assert (X2 : r * sin (t1 - u) = xi /\ r * cos (t1 - u) = - eta).
  { rewrite sin_minus, cos_minus. split; (apply (Rmult_eq_reg_l (r / 2)); [|lra]).
    - transitivity (r * (r / 2) * sin t1 * cos u - r * (r / 2) * cos t1 * sin u); [ring|]. rewrite P, Q.
      transitivity (- k * xi * (sin u * sin u + cos u * cos u)); [unfold k; ring|]. rewrite trig1, Hk. ring.
    - transitivity (r * (r / 2) * cos t1 * cos u + r * (r / 2) * sin t1 * sin u); [ring|]. rewrite P, Q.
      transitivity (k * eta * (sin u * sin u + cos u * cos u)); [unfold k; ring|]. rewrite trig1, Hk. ring. }
  destruct X2 as [X2 Y2].
  assert (Et : eqm (t1 - u) (t - u)) by (apply (same_angle r _ _ (- eta) xi); try assumption; lra).
  assert (Et' : eqm t1 t).
  { replace t1 with (t1 - u + u) by ring. replace t with (t - u + u) by ring. apply eqm_plus; [exact Et | apply eqm_refl]. }
  rewrite (rmod_is _ _ Et') by (pose proof PI_RGT_0; lra). rewrite (rmod_is (t - u + - u - phi) v); [| |pose proof PI_RGT_0; lra].
  - rewrite nonneg_ok, nonpos_ok by lra. reflexivity.
  - rewrite H3. replace v with (t - u - u - (t - u - u - v)) by ring. apply eqm_minus; [apply eqm_refl | apply eqm_sym, A].
Qed.
End Unique.

(* inverse of the symmetries *)
Lemma opp_opp l : opp (opp l) = l.
Proof. unfold opp. rewrite map_map. rewrite <- (map_id l) at 2. apply map_ext. intros a. ring. Qed.
Lemma ends_timeflip' ss ls x y phi : ends ss (opp ls) x y phi -> ends ss ls (- x) y (- phi).
Proof.
  intros H. rewrite <- (opp_opp ls). apply ends_timeflip. rewrite !Ropp_involutive. exact H.
Qed.
Lemma mirror_mirror ss : map mirror (map mirror ss) = ss.
Proof. rewrite map_map. rewrite <- (map_id ss) at 2. apply map_ext. intros []; reflexivity. Qed.
Lemma ends_reflect' ss ls x y phi : ends (map mirror ss) ls x y phi -> ends ss ls x (- y) (- phi).
Proof.
  intros H. rewrite <- (mirror_mirror ss). apply ends_reflect. rewrite !Ropp_involutive. exact H.
Qed.

(* a formula that finds the words of a kind, and so do its variants *)
Definition finds (f : formula) (ss : list seg) (P : R -> R -> R -> Prop) (ls : R -> R -> R -> list R)
  (gx gy : R -> R -> R -> R -> R) : Prop :=
  forall x y phi t u v, ends ss (ls t u v) x y phi -> P t u v ->
    f (gx x y (cos phi) (sin phi)) (gy x y (cos phi) (sin phi)) (cos phi) (sin phi) phi = Some (t, u, v).
Lemma four_find f a b ls lsm cost ss P gx gy x y phi t u v : compatible gx gy -> finds f ss P ls gx gy -> P t u v ->
  let cs := four f a b lsm cost (gx x y (cos phi) (sin phi)) (gy x y (cos phi) (sin phi)) (cos phi) (sin phi) phi in
  (ends ss (ls t u v) x y phi -> In (Some (a, lsm t u v, cost t u v)) cs) /\
  (ends ss (opp (ls t u v)) x y phi -> In (Some (a, opp (lsm t u v), cost t u v)) cs) /\
  (ends (map mirror ss) (ls t u v) x y phi -> In (Some (b, lsm t u v, cost t u v)) cs) /\
  (ends (map mirror ss) (opp (ls t u v)) x y phi -> In (Some (b, opp (lsm t u v), cost t u v)) cs).
Proof.
  intros Hg Hf Hp cs. unfold cs, four. destruct (Hg x y (cos phi) (sin phi)) as [G1 [G2 [G3 G4]]].
  assert (Cn : cos (- phi) = cos phi) by apply cos_neg. assert (Sn : sin (- phi) = - sin phi) by apply sin_neg.
  split; [|split; [|split]]; intros H.
  - left. rewrite (Hf x y phi t u v H Hp). reflexivity.
  - right. left. apply ends_timeflip' in H. pose proof (Hf _ _ _ _ _ _ H Hp) as K. rewrite Cn, Sn, G1, G2 in K. rewrite K. reflexivity.
  - right. right. left. apply ends_reflect' in H. pose proof (Hf _ _ _ _ _ _ H Hp) as K. rewrite Cn, Sn, G3, G4 in K. rewrite K. reflexivity.
  - right. right. right. left. apply ends_reflect', ends_timeflip' in H. rewrite Ropp_involutive in H.
    pose proof (Hf _ _ _ _ _ _ H Hp) as K.
    destruct (Hg (- x) y (cos phi) (- sin phi)) as [_ [_ [G5 G6]]]. rewrite Ropp_involutive in G5, G6.
    rewrite G5, G6, G1, G2 in K. rewrite K. reflexivity.
Qed.

Lemma four_word f a b ls lsm cost ss P gx gy e x y phi t u v n : compatible gx gy -> finds f ss P ls gx gy -> P t u v ->
  (forall o, In o (four f a b lsm cost (gx x y (cos phi) (sin phi)) (gy x y (cos phi) (sin phi)) (cos phi) (sin phi) phi) ->
     In (o, e) (cands x y phi)) ->
  norm1 (lsm t u v) = n ->
  forall ss' l, ss' = ss \/ ss' = map mirror ss -> l = ls t u v \/ l = opp (ls t u v) -> ends ss' l x y phi ->
  exists ty l', candidate x y phi ty l' /\ norm1 l' = n.
Proof.
  intros Hg Hf Hp Hi Hn ss' l Hs Hl He.
  destruct (four_find f a b ls lsm cost ss P gx gy x y phi t u v Hg Hf Hp) as [F1 [F2 [F3 F4]]]. cbv zeta in F1, F2, F3, F4.
  destruct Hs as [-> | ->], Hl as [-> | ->].
  - eexists; eexists. split; [eexists; eexists; apply Hi; exact (F1 He) | exact Hn].
  - eexists; eexists. split; [eexists; eexists; apply Hi; exact (F2 He) | rewrite norm1_opp; exact Hn].
  - eexists; eexists. split; [eexists; eexists; apply Hi; exact (F3 He) | exact Hn].
  - eexists; eexists. split; [eexists; eexists; apply Hi; exact (F4 He) | rewrite norm1_opp; exact Hn].
Qed.

Definition P1 (t u v : R) : Prop := 0 <= t < PI /\ 0 < u /\ 0 <= v < PI.
Definition P2 (t u v : R) : Prop := 0 <= t < PI /\ - PI <= u < 0 /\ - PI < v < PI.
Definition P3 (t u v : R) : Prop := 0 <= t < PI /\ 0 <= u < PI / 3 /\ - PI < v <= 0.
Definition P4 (t u v : R) : Prop := 0 <= t < PI /\ - (PI / 2) <= u <= 0 /\ 0 <= v < PI.
Definition P5 (t u v : R) : Prop := 0 <= t < PI /\ u <= 0 /\ - PI < v <= 0.
Definition P6 (t u v : R) : Prop := 0 <= t < PI /\ u <= 0 /\ 0 <= v < PI.
Notation idx := (fun x _ _ _ : R => x).
Notation idy := (fun _ y _ _ : R => y).
Lemma finds_LSL : finds LpSpLp [L_SEG; S_SEG; L_SEG] P1 (fun t u v => [t; u; v]) idx idy.
Proof. intros x y phi t u v H [H1 [H2 H3]]. apply LpSpLp_find; assumption. Qed.
Lemma finds_LSR : finds LpSpRp [L_SEG; S_SEG; R_SEG] P1 (fun t u v => [t; u; v]) idx idy.
Proof. intros x y phi t u v H [H1 [H2 H3]]. apply LpSpRp_find; assumption. Qed.
Lemma finds_LRL : finds LpRmL [L_SEG; R_SEG; L_SEG] P2 (fun t u v => [t; u; v]) idx idy.
Proof.
  intros x y phi t u v H [H1 [H2 H3]]. rewrite <- (Ropp_involutive u) in *. apply LpRmL_find; try assumption. lra.
Qed.
Lemma finds_LRLb : finds LpRmL [L_SEG; R_SEG; L_SEG] P2 (fun t u v => [v; u; t]) xb yb.
Proof.
  intros x y phi t u v H [H1 [H2 H3]]. apply (ends_backward _ [v; u; t]) in H; [|reflexivity]. cbn [rev app] in H.
  rewrite <- (Ropp_involutive u) in *. apply LpRmL_find; try assumption. lra.
Qed.
Lemma finds_LRLR : finds LpRupLumRm [L_SEG; R_SEG; L_SEG; R_SEG] P3 (fun t u v => [t; u; - u; v]) idx idy.
Proof. intros x y phi t u v H [H1 [H2 H3]]. apply LpRupLumRm_find; assumption. Qed.
Lemma finds_LRLR' : finds LpRumLumRp [L_SEG; R_SEG; L_SEG; R_SEG] P4 (fun t u v => [t; u; u; v]) idx idy.
Proof. intros x y phi t u v H [H1 [H2 H3]]. apply LpRumLumRp_find; assumption. Qed.
Lemma finds_LRSL : finds LpRmSmLm [L_SEG; R_SEG; S_SEG; L_SEG] P5 (fun t u v => [t; - / 2 * PI; u; v]) idx idy.
Proof. intros x y phi t u v H [H1 [H2 H3]]. apply LpRmSmLm_find; assumption. Qed.
Lemma finds_LRSR : finds LpRmSmRm [L_SEG; R_SEG; S_SEG; R_SEG] P5 (fun t u v => [t; - / 2 * PI; u; v]) idx idy.
Proof. intros x y phi t u v H [H1 [H2 H3]]. apply LpRmSmRm_find; assumption. Qed.
Lemma finds_LSRL : finds LpRmSmLm [L_SEG; S_SEG; R_SEG; L_SEG] P5 (fun t u v => [v; u; - / 2 * PI; t]) xb yb.
Proof.
  intros x y phi t u v H [H1 [H2 H3]]. apply (ends_backward _ [v; u; - / 2 * PI; t]) in H; [|reflexivity]. cbn [rev app] in H.
  apply LpRmSmLm_find; assumption.
Qed.
Lemma finds_RSRL : finds LpRmSmRm [R_SEG; S_SEG; R_SEG; L_SEG] P5 (fun t u v => [v; u; - / 2 * PI; t]) xb yb.
Proof.
  intros x y phi t u v H [H1 [H2 H3]]. apply (ends_backward _ [v; u; - / 2 * PI; t]) in H; [|reflexivity]. cbn [rev app] in H.
  apply LpRmSmRm_find; assumption.
Qed.
Lemma finds_LRSLR : finds LpRmSLmRp [L_SEG; R_SEG; S_SEG; L_SEG; R_SEG] P6 (fun t u v => [t; - / 2 * PI; u; - / 2 * PI; v]) idx idy.
Proof. intros x y phi t u v H [H1 [H2 H3]]. apply LpRmSLmRp_find; assumption. Qed.

Lemma pad0 l : norm1 (l ++ [0; 0]) = norm1 l.
Proof. induction l as [|a l IH]; cbn; [rewrite abs_0; ring|]. fold (norm1 l). fold (norm1 (l ++ [0; 0])). rewrite IH. reflexivity. Qed.
Lemma pad1 l : norm1 (l ++ [0]) = norm1 l.
Proof. induction l as [|a l IH]; cbn; [rewrite abs_0; ring|]. fold (norm1 l). fold (norm1 (l ++ [0])). rewrite IH. reflexivity. Qed.
Lemma half_pi : - (PI / 2) = - / 2 * PI. Proof. field. Qed.

Ltac inside := intros o Ho;
  first [solve [apply in_CSC; unfold CSC; rewrite !in_app_iff; tauto] | solve [apply in_CCC; unfold CCC; rewrite !in_app_iff; tauto]
        | solve [apply in_CCCC; unfold CCCC; rewrite !in_app_iff; tauto] | solve [apply in_CCSC; unfold CCSC; rewrite !in_app_iff; tauto]
        | solve [apply in_CCSCC; exact Ho]].
Ltac shape := first [left; reflexivity | right; reflexivity].

(* every word of the list, in one direction or the other *)
Lemma word_found x y phi ss ls : rs_word ss ls -> forall l, l = ls \/ l = opp ls -> ends ss l x y phi ->
  exists ty l', candidate x y phi ty l' /\ norm1 l' = word_length ls.
Proof.
  change word_length with norm1.
  induction 1 as [a b t u v Ha Hb Ht Hu Hv|a b t u v Ha Hb Hab Ht Hu Hv|a b t u v Ha Hb Hab Ht Hu Hv|a b t u v Ha Hb Hab Ht Hu Hv
    |a b t u v Ha Hb Hab Ht Hu Hv|a b c t u v Ha Hb Hab Hc Ht Hu Hv|a b c t u v Ha Hb Hab Hc Ht Hu Hv|a b t u v Ha Hb Hab Ht Hu Hv|ss ls W IH];
    intros l Hl He; rewrite ?half_pi in Hl |- *.
  - pose proof (conj Ht (conj Hu Hv) : P1 t u v) as Hp.
    assert (a = b \/ a <> b) as [<-|Nab] by (destruct a, b; auto; right; discriminate).
    + refine (four_word _ 14 15 _ (fun t u v => [t; u; v; 0; 0]) cost1 _ _ _ _ 0 x y phi t u v _ compatible_id finds_LSL Hp _ (pad0 [t; u; v]) _ l _ Hl He).
      * inside. * destruct a; try congruence; shape.
    + refine (four_word _ 12 13 _ (fun t u v => [t; u; v; 0; 0]) cost1 _ _ _ _ 0 x y phi t u v _ compatible_id finds_LSR Hp _ (pad0 [t; u; v]) _ l _ Hl He).
      * inside. * destruct a, b; try congruence; shape.
  - assert (Hp : P2 t (- u) v) by (split; [exact Ht|]; split; [lra | exact Hv]).
    refine (four_word _ 0 1 _ (fun t u v => [t; u; v; 0; 0]) cost1 _ _ _ _ 0 x y phi t (- u) v _ compatible_id finds_LRL Hp _ (pad0 [t; - u; v]) _ l _ Hl He).
    + inside. + destruct a, b; try congruence; shape.
  - assert (Hp : P2 t (- u) v) by (split; [exact Ht|]; split; [lra | exact Hv]).
    refine (four_word _ 0 1 _ (fun t u v => [v; u; t; 0; 0]) cost1 _ _ _ _ 0 x y phi t (- u) v _ compatible_b finds_LRLb Hp _ (pad0 [v; - u; t]) _ l _ Hl He).
    + inside. + destruct a, b; try congruence; shape.
  - pose proof (conj Ht (conj Hu Hv) : P3 t u v) as Hp.
    refine (four_word _ 2 3 _ (fun t u v => [t; u; - u; v; 0]) cost2 _ _ _ _ 0 x y phi t u v _ compatible_id finds_LRLR Hp _ (pad1 [t; u; - u; v]) _ l _ Hl He).
    + inside. + destruct a, b; try congruence; shape.
  - pose proof (conj Ht (conj Hu Hv) : P4 t u v) as Hp.
    refine (four_word _ 2 3 _ (fun t u v => [t; u; u; v; 0]) cost2 _ _ _ _ 0 x y phi t u v _ compatible_id finds_LRLR' Hp _ (pad1 [t; u; u; v]) _ l _ Hl He).
    + inside. + destruct a, b; try congruence; shape.
  - pose proof (conj Ht (conj Hu Hv) : P5 t u v) as Hp.
    assert (a = c \/ b = c) as [<-|<-] by (destruct a, b, c; auto; congruence).
    + refine (four_word _ 4 5 _ (fun t u v => [t; - / 2 * PI; u; v; 0]) cost1 _ _ _ _ (/ 2 * PI) x y phi t u v _ compatible_id finds_LRSL Hp _ (pad1 [t; - / 2 * PI; u; v]) _ l _ Hl He).
      * inside. * destruct a, b; try congruence; shape.
    + refine (four_word _ 8 9 _ (fun t u v => [t; - / 2 * PI; u; v; 0]) cost1 _ _ _ _ (/ 2 * PI) x y phi t u v _ compatible_id finds_LRSR Hp _ (pad1 [t; - / 2 * PI; u; v]) _ l _ Hl He).
      * inside. * destruct a, b; try congruence; shape.
  - pose proof (conj Ht (conj Hu Hv) : P5 t u v) as Hp.
    assert (a = c \/ b = c) as [<-|<-] by (destruct a, b, c; auto; congruence).
    + refine (four_word _ 6 7 _ (fun t u v => [v; u; - / 2 * PI; t; 0]) cost1 _ _ _ _ (/ 2 * PI) x y phi t u v _ compatible_b finds_LSRL Hp _ (pad1 [v; u; - / 2 * PI; t]) _ l _ Hl He).
      * inside. * destruct a, b; try congruence; shape.
    + refine (four_word _ 10 11 _ (fun t u v => [v; u; - / 2 * PI; t; 0]) cost1 _ _ _ _ (/ 2 * PI) x y phi t u v _ compatible_b finds_RSRL Hp _ (pad1 [v; u; - / 2 * PI; t]) _ l _ Hl He).
      * inside. * destruct a, b; try congruence; shape.
  - pose proof (conj Ht (conj Hu Hv) : P6 t u v) as Hp.
    refine (four_word _ 16 17 _ (fun t u v => [t; - / 2 * PI; u; - / 2 * PI; v]) cost1 _ _ _ _ PI x y phi t u v _ compatible_id finds_LRSLR Hp _ eq_refl _ l _ Hl He).
    + inside. + destruct a, b; try congruence; shape.
  - change (map Ropp ls) with (opp ls) in *.
    assert (Hl' : l = ls \/ l = opp ls) by (destruct Hl as [-> | ->]; [right; reflexivity | left; apply opp_opp]).
    destruct (IH l Hl' He) as [ty [l' [C N]]]. exists ty, l'. split; [exact C|]. rewrite N. symmetry. exact (norm1_opp ls).
Qed.
