(* Reeds and Shepp: the formulas and their symmetries. *)
From Coq Require Import Reals ZArith List Bool Lia Lra.
From Verif Require Import Base XReal PolyProofs CurvModel CurvSpec CurvProofs3 AngleProofs DubinsModel DubinsSpec
  DubinsProofs DubinsProofs2 DubinsProofs3 RSModel.
Import ListNotations.
Open Scope R_scope.

Lemma trunc_Z x : exists z, trunc x = IZR z.
Proof.
  unfold trunc, floor. destruct (rleb 0 x); [eexists; reflexivity|]. exists (- Int_part (- x))%Z. rewrite opp_IZR. reflexivity.
Qed.
Lemma trunc_bound x : -1 < x - trunc x < 1.
Proof.
  unfold trunc. destruct (rleb_spec 0 x).
  - pose proof (floor_le x). lra.
  - pose proof (floor_le (- x)). lra.
Qed.
Lemma rmod_eqm x : eqm (rmod2pi x) x.
Proof.
  unfold rmod2pi. destruct (trunc_Z (x / (2 * PI))) as [z ->].
  destruct (rltb _ _); [|destruct (rltb _ _)].
  - exists (- z + 1)%Z. rewrite plus_IZR, opp_IZR. ring.
  - exists (- z - 1)%Z. rewrite minus_IZR, opp_IZR. ring.
  - exists (- z)%Z. rewrite opp_IZR. ring.
Qed.
Lemma rmod_bound x : - PI <= rmod2pi x <= PI.
Proof.
  unfold rmod2pi. pose proof PI_RGT_0. set (v := x - 2 * PI * trunc (x / (2 * PI))).
  assert (- (2 * PI) < v < 2 * PI).
  { pose proof (trunc_bound (x / (2 * PI))) as B. set (k := trunc (x / (2 * PI))) in *.
    assert (E : v = (x / (2 * PI) - k) * (2 * PI)) by (unfold v; field; lra). rewrite E.
    assert (0 < (1 - (x / (2 * PI) - k)) * (2 * PI)) by (apply Rmult_lt_0_compat; lra).
    assert (0 < ((x / (2 * PI) - k) + 1) * (2 * PI)) by (apply Rmult_lt_0_compat; lra). lra. }
  destruct (rltb_spec v (- PI)); [lra|]. destruct (rltb_spec PI v); lra.
Qed.
(* small angles are not changed *)
Lemma rmod_small x : - PI < x < PI -> rmod2pi x = x.
Proof. intros H. apply eqm_small; [apply rmod_eqm|]. pose proof (rmod_bound x). lra. Qed.
Lemma pi_PI_half : / 2 * PI = PI / 2. Proof. field. Qed.

(* the word leads from (0, 0, 0) to (x, y, phi) *)
Definition ends (ss : list seg) (ls : list R) (x y phi : R) : Prop :=
  wx ss ls 0 = x /\ wy ss ls 0 = y /\ eqm (wa ss ls 0) phi.

Lemma ends_intro ss ls x y phi : eqm (wa ss ls 0) phi ->
  (cos (wa ss ls 0) = cos phi -> sin (wa ss ls 0) = sin phi -> wx ss ls 0 = x /\ wy ss ls 0 = y) -> ends ss ls x y phi.
Proof. intros E H. destruct (H (eqm_cos _ _ E) (eqm_sin _ _ E)). repeat split; assumption. Qed.

Section Formulas.
Variables x y phi t u v : R.
Notation c := (cos phi).
Notation s := (sin phi).

Lemma eqm_eq a b : a = b -> eqm a b. Proof. intros ->. apply eqm_refl. Qed.
Lemma eqm_rmod a b : eqm a (rmod2pi b) -> eqm a b.
Proof. intros H. exact (eqm_trans _ _ _ H (rmod_eqm b)). Qed.
(* a + rmod (phi - a) = phi *)
Lemma close_angle a b : eqm (a + rmod2pi (phi - b)) (a + phi - b).
Proof.
  apply (eqm_trans _ (a + (phi - b))); [apply eqm_plus; [apply eqm_refl | apply rmod_eqm]|].
  apply eqm_eq. ring.
Qed.

Lemma LpSpLp_ends : LpSpLp x y c s phi = Some (t, u, v) -> ends [L_SEG; S_SEG; L_SEG] [t; u; v] x y phi.
Proof.
  unfold LpSpLp. intros E. destruct (nonneg _); [|discriminate]. cbv zeta in E.
  destruct (nonneg _); [|discriminate]. injection E as <- <- <-.
  unfold polar_r, polar_t. destruct (polar (x - s) (y - 1 + c)) as [P Q].
  set (r := sqrt _) in *. set (a := atan2 _ _) in *.
  apply ends_intro; cbn [wx wy wa dispx dispy turn].
  - rewrite Rplus_0_l. apply (eqm_trans _ (a + phi - a)); [apply close_angle | apply eqm_eq; ring].
  - rewrite !Rplus_0_l, cos_0, sin_0. intros -> ->. lra.
Qed.
Lemma LpSpRp_ends : LpSpRp x y c s phi = Some (t, u, v) -> ends [L_SEG; S_SEG; R_SEG] [t; u; v] x y phi.
Proof.
  unfold LpSpRp. cbv zeta. intros E. match type of E with context [rleb 4 ?z] => destruct (rleb_spec 4 z) as [G|]; [|discriminate] end.
  destruct (_ && _); [|discriminate]. injection E as <- <- <-.
  unfold polar_r, polar_t in *. destruct (polar (x + s) (y - 1 - c)) as [P Q].
  set (r := sqrt _) in *. set (th := atan2 _ (x + s)) in *. set (w := sqrt (r * r - 4)).
  set (om := atan2 2 w). set (a := rmod2pi (th + om)).
  assert (W : w * w = r * r - 4) by (apply sqrt_sqrt; lra).
  destruct (polar w 2) as [P2 Q2].
  assert (Er : sqrt (w * w + 2 * 2) = r).
  { rewrite W. replace (r * r - 4 + 2 * 2) with (r * r) by ring. apply sqrt_square. apply sqrt_pos. }
  rewrite Er in P2, Q2. fold om in P2, Q2.
  assert (C : cos a = cos (th + om) /\ sin a = sin (th + om)) by (split; [apply eqm_cos, rmod_eqm | apply eqm_sin, rmod_eqm]).
  destruct C as [Ca Sa].
  assert (X : 2 * sin a + w * cos a = x + s).
  { rewrite Ca, Sa, <- P2, <- Q2, cos_plus, sin_plus.
    transitivity (r * cos th * (sin om * sin om + cos om * cos om)); [ring|]. rewrite trig1, P. ring. }
  assert (Y : - 2 * cos a + w * sin a = y - 1 - c).
  { rewrite Ca, Sa, cos_plus, sin_plus.
    transitivity (r * sin th * (sin om * sin om + cos om * cos om)).
    - replace (-2) with (- (r * sin om)) by lra. rewrite <- P2. ring.
    - rewrite trig1, Q. ring. }
  apply ends_intro; cbn [wx wy wa dispx dispy turn].
  - rewrite Rplus_0_l. apply (eqm_trans _ (a - (a - phi))); [apply eqm_minus; [apply eqm_refl | apply rmod_eqm] | apply eqm_eq; ring].
  - rewrite !Rplus_0_l, cos_0, sin_0. intros -> ->. lra.
Qed.
Lemma LpRmL_ends : LpRmL x y c s phi = Some (t, u, v) -> ends [L_SEG; R_SEG; L_SEG] [t; u; v] x y phi.
Proof.
  unfold LpRmL. cbv zeta. intros E. match type of E with context [rleb ?z 4] => destruct (rleb_spec z 4) as [G|]; [|discriminate] end.
  destruct (_ && _); [|discriminate]. injection E as <- <- <-.
  unfold polar_r, polar_t in *. destruct (polar (x - s) (y - 1 + c)) as [P Q].
  pose proof (sqrt_pos ((x - s) * (x - s) + (y - 1 + c) * (y - 1 + c))) as Gp.
  set (r := sqrt _) in *. set (th := atan2 _ _) in *. set (om := -2 * asin (/ 4 * r)). set (a := rmod2pi (th + / 2 * om + PI)).
  assert (So : sin (om / 2) = - (r / 4)).
  { replace (om / 2) with (- asin (/ 4 * r)) by (unfold om; field). rewrite sin_neg, sin_asin by lra. field. }
  assert (Cm : cos (a - om / 2) = - cos th).
  { rewrite (eqm_cos _ (th + PI)); [apply neg_cos|].
    apply (eqm_trans _ (th + / 2 * om + PI - om / 2)); [apply eqm_minus; [apply rmod_eqm | apply eqm_refl] | apply eqm_eq; field]. }
  assert (Sm : sin (a - om / 2) = - sin th).
  { rewrite (eqm_sin _ (th + PI)); [apply neg_sin|].
    apply (eqm_trans _ (th + / 2 * om + PI - om / 2)); [apply eqm_minus; [apply rmod_eqm | apply eqm_refl] | apply eqm_eq; field]. }
  destruct (mid (a - om) om) as [M1 M2].
  replace (a - om + om) with a in M1, M2 by ring.
  replace (a - om + om / 2) with (a - om / 2) in M1, M2 by field.
  rewrite So, Cm in M1. rewrite So, Sm in M2.
  apply ends_intro; cbn [wx wy wa dispx dispy turn].
  - rewrite Rplus_0_l. apply (eqm_trans _ (a - om + (phi - a + om))); [apply eqm_plus; [apply eqm_refl | apply rmod_eqm] | apply eqm_eq; ring].
  - rewrite !Rplus_0_l, cos_0, sin_0. intros -> ->. lra.
Qed.
Lemma LpRmSmLm_ends : LpRmSmLm x y c s phi = Some (t, u, v) ->
  ends [L_SEG; R_SEG; S_SEG; L_SEG] [t; - / 2 * PI; u; v] x y phi.
Proof.
  unfold LpRmSmLm. cbv zeta. intros E. match type of E with context [rleb 2 ?z] => destruct (rleb_spec 2 z) as [G|]; [|discriminate] end.
  destruct (_ && _ && _); [|discriminate]. injection E as <- <- <-.
  unfold polar_r, polar_t in *. destruct (polar (x - s) (y - 1 + c)) as [P Q].
  set (rho := sqrt _) in *. set (th := atan2 _ (x - s)) in *. set (r := sqrt (rho * rho - 4)).
  set (om := atan2 r (-2)). set (a := rmod2pi (th + om)).
  assert (W : r * r = rho * rho - 4) by (apply sqrt_sqrt; nra).
  destruct (polar (-2) r) as [P2 Q2].
  assert (Er : sqrt (-2 * -2 + r * r) = rho).
  { rewrite W. replace (-2 * -2 + (rho * rho - 4)) with (rho * rho) by ring. apply sqrt_square. lra. }
  rewrite Er in P2, Q2. fold om in P2, Q2.
  assert (C : cos a = cos (th + om) /\ sin a = sin (th + om)) by (split; [apply eqm_cos, rmod_eqm | apply eqm_sin, rmod_eqm]).
  destruct C as [Ca Sa].
  assert (X : r * sin a + -2 * cos a = x - s).
  { rewrite <- P2, <- Q2, Ca, Sa, cos_plus, sin_plus.
    transitivity (rho * cos th * (sin om * sin om + cos om * cos om)); [ring|]. rewrite trig1, P. ring. }
  assert (Y : - r * cos a + -2 * sin a = y - 1 + c).
  { rewrite <- P2, <- Q2, Ca, Sa, cos_plus, sin_plus.
    transitivity (rho * sin th * (sin om * sin om + cos om * cos om)); [ring|]. rewrite trig1, Q. ring. }
  assert (H1 : cos (a - - / 2 * PI) = - sin a) by (replace (a - - / 2 * PI) with (PI / 2 + a) by field; rewrite (sin_cos a); ring).
  assert (H2 : sin (a - - / 2 * PI) = cos a) by (replace (a - - / 2 * PI) with (PI / 2 + a) by field; rewrite cos_sin; reflexivity).
  apply ends_intro; cbn [wx wy wa dispx dispy turn].
  - rewrite Rplus_0_l. apply (eqm_trans _ (a - - / 2 * PI + (phi - / 2 * PI - a))); [apply eqm_plus; [apply eqm_refl | apply rmod_eqm] | apply eqm_eq; ring].
  - rewrite !Rplus_0_l, cos_0, sin_0, H1, H2. intros -> ->. lra.
Qed.
Lemma LpRmSmRm_ends : LpRmSmRm x y c s phi = Some (t, u, v) ->
  ends [L_SEG; R_SEG; S_SEG; R_SEG] [t; - / 2 * PI; u; v] x y phi.
Proof.
  unfold LpRmSmRm. cbv zeta. intros E. match type of E with context [rleb 2 ?z] => destruct (rleb_spec 2 z) as [G|]; [|discriminate] end.
  destruct (_ && _ && _); [|discriminate]. injection E as <- <- <-.
  unfold polar_r, polar_t in *. destruct (polar (- (y - 1 - c)) (x + s)) as [P Q].
  set (rho := sqrt _) in *. set (a := atan2 _ _) in *.
  assert (H1 : cos (a - - / 2 * PI) = - sin a) by (replace (a - - / 2 * PI) with (PI / 2 + a) by field; rewrite (sin_cos a); ring).
  assert (H2 : sin (a - - / 2 * PI) = cos a) by (replace (a - - / 2 * PI) with (PI / 2 + a) by field; rewrite cos_sin; reflexivity).
  apply ends_intro; cbn [wx wy wa dispx dispy turn].
  - rewrite Rplus_0_l. apply (eqm_trans _ (a - - / 2 * PI - (a + / 2 * PI - phi))); [apply eqm_minus; [apply eqm_refl | apply rmod_eqm] | apply eqm_eq; ring].
  - rewrite !Rplus_0_l, cos_0, sin_0, H1, H2. intros -> ->. lra.
Qed.
Lemma LpRmSLmRp_ends : LpRmSLmRp x y c s phi = Some (t, u, v) ->
  ends [L_SEG; R_SEG; S_SEG; L_SEG; R_SEG] [t; - / 2 * PI; u; - / 2 * PI; v] x y phi.
Proof.
  unfold LpRmSLmRp. cbv zeta. intros E. match type of E with context [rleb 2 ?z] => destruct (rleb_spec 2 z) as [G|]; [|discriminate] end.
  destruct (nonpos _); [|discriminate].
  destruct (_ && _); [|discriminate]. injection E as <- <- <-.
  unfold polar_r, polar_t in *. set (xi := x + s) in *. set (eta := y - 1 - c) in *.
  assert (Rr : sqrt (xi * xi + eta * eta) * sqrt (xi * xi + eta * eta) = xi * xi + eta * eta) by (apply sqrt_sqrt; nra).
  set (rho := sqrt _) in *. set (r := sqrt (rho * rho - 4)).
  assert (W : r * r = rho * rho - 4) by (apply sqrt_sqrt; nra).
  replace (4 - (4 - r)) with r by ring. replace (4 - r - 4) with (- r) by ring.
  destruct (polar (-2 * xi + - r * eta) (r * xi - 2 * eta)) as [P Q].
  assert (Er : sqrt ((-2 * xi + - r * eta) * (-2 * xi + - r * eta) + (r * xi - 2 * eta) * (r * xi - 2 * eta)) = rho * rho).
  { transitivity (sqrt (rho * rho * (rho * rho))); [f_equal | apply sqrt_square; nra].
    transitivity ((xi * xi + eta * eta) * (r * r + 4)); [ring|]. rewrite W, Rr. ring. }
  rewrite Er in P, Q. set (om := atan2 (r * xi - 2 * eta) (-2 * xi + - r * eta)) in *. set (a := rmod2pi om).
  assert (Ca : cos a = cos om) by apply eqm_cos, rmod_eqm. assert (Sa : sin a = sin om) by apply eqm_sin, rmod_eqm.
  rewrite <- Ca in P. rewrite <- Sa in Q.
  assert (N : rho * rho <> 0) by nra.
  assert (X : r * sin a - 2 * cos a = xi).
  { apply (Rmult_eq_reg_l (rho * rho)); [|exact N].
    transitivity (r * (rho * rho * sin a) - 2 * (rho * rho * cos a)); [ring|]. rewrite P, Q.
    transitivity ((r * r + 4) * xi); [ring|]. rewrite W. ring. }
  assert (Y : - r * cos a - 2 * sin a = eta).
  { apply (Rmult_eq_reg_l (rho * rho)); [|exact N].
    transitivity (- r * (rho * rho * cos a) - 2 * (rho * rho * sin a)); [ring|]. rewrite P, Q.
    transitivity ((r * r + 4) * eta); [ring|]. rewrite W. ring. }
  assert (H1 : cos (a - - / 2 * PI) = - sin a) by (replace (a - - / 2 * PI) with (PI / 2 + a) by field; rewrite (sin_cos a); ring).
  assert (H2 : sin (a - - / 2 * PI) = cos a) by (replace (a - - / 2 * PI) with (PI / 2 + a) by field; rewrite cos_sin; reflexivity).
  assert (H3 : a - - / 2 * PI + - / 2 * PI = a) by ring.
  apply ends_intro; cbn [wx wy wa dispx dispy turn].
  - rewrite Rplus_0_l, H3. apply (eqm_trans _ (a - (a - phi))); [apply eqm_minus; [apply eqm_refl | apply rmod_eqm] | apply eqm_eq; ring].
  - rewrite !Rplus_0_l, cos_0, sin_0, H3, H1, H2. intros -> ->. unfold xi, eta in *. lra.
Qed.
Lemma LpRupLumRm_ends : LpRupLumRm x y c s phi = Some (t, u, v) ->
  ends [L_SEG; R_SEG; L_SEG; R_SEG] [t; u; - u; v] x y phi.
Proof.
  unfold LpRupLumRm, tau_omega. cbv zeta. intros E. match type of E with context [rleb ?z 1] => destruct (rleb_spec z 1) as [G|]; [|discriminate] end.
  set (xi := x + s) in *. set (eta := y - 1 - c) in *.
  assert (Rr : sqrt (xi * xi + eta * eta) * sqrt (xi * xi + eta * eta) = xi * xi + eta * eta) by (apply sqrt_sqrt; nra).
  pose proof (sqrt_pos (xi * xi + eta * eta)) as Rp. set (r := sqrt _) in *.
  set (om := acos (/ 4 * (2 + r))) in *.
  assert (Co : cos om = / 4 * (2 + r)) by (apply cos_acos; lra).
  assert (Cd : cos (rmod2pi (om - - om)) = 2 * cos om * cos om - 1).
  { rewrite (eqm_cos _ _ (rmod_eqm _)). replace (om - - om) with (2 * om) by ring. apply cos_2a_cos. }
  assert (Sd : sin (rmod2pi (om - - om)) = 2 * sin om * cos om).
  { rewrite (eqm_sin _ _ (rmod_eqm _)). replace (om - - om) with (2 * om) by ring. apply sin_2a. }
  rewrite Cd, Sd, cos_neg in E.
  match type of E with context [rltb ?z 0] => destruct (rltb_spec z 0) as [Hn|_] end.
  { exfalso. pose proof (Rle_0_sqr (2 * cos om - 1)) as K. unfold Rsqr in K. lra. }
  match type of E with context [atan2 ?A ?B] => destruct (polar B A) as [P Q]; set (t1 := atan2 A B) in * end.
  destruct (_ && _); [|discriminate]. injection E as <- <- <-.
  set (k := 1 - 2 * cos om) in *.
  assert (Hk : k = - (r / 2)) by (unfold k; rewrite Co; field).
  match type of P with sqrt ?z * _ = _ => assert (Er : sqrt z = r * (r / 2)) end.
  { transitivity (sqrt ((r * (r / 2)) * (r * (r / 2)))); [f_equal | apply sqrt_square; nra].
    transitivity (k * k * (xi * xi + eta * eta) * (sin om * sin om + cos om * cos om)); [unfold k; ring|].
    rewrite trig1, <- Rr, Hk. field. }
  rewrite Er in P, Q.
  set (a := rmod2pi t1).
  assert (Ca : cos a = cos t1) by apply eqm_cos, rmod_eqm. assert (Sa : sin a = sin t1) by apply eqm_sin, rmod_eqm.
  rewrite <- Ca in P. rewrite <- Sa in Q.
  assert (X : r * sin (a - om) = xi /\ r * cos (a - om) = - eta).
  { destruct (Req_dec r 0) as [Z|Nz].
    - rewrite Z, Rmult_0_l in Rr. assert (xi = 0 /\ eta = 0) as [-> ->].
      { symmetry in Rr. apply (Rplus_sqr_eq_0 xi eta). unfold Rsqr. exact Rr. }
      rewrite Z. split; ring.
    - rewrite sin_minus, cos_minus. split; (apply (Rmult_eq_reg_l (r / 2)); [|lra]).
      + transitivity (r * (r / 2) * sin a * cos om - r * (r / 2) * cos a * sin om); [ring|]. rewrite P, Q.
        transitivity (- k * xi * (sin om * sin om + cos om * cos om)); [unfold k; ring|]. rewrite trig1, Hk. ring.
      + transitivity (r * (r / 2) * cos a * cos om + r * (r / 2) * sin a * sin om); [ring|]. rewrite P, Q.
        transitivity (k * eta * (sin om * sin om + cos om * cos om)); [unfold k; ring|]. rewrite trig1, Hk. ring. }
  destruct X as [X Y].
  assert (F1 : sin a + sin (a - om - om) = 2 * cos om * sin (a - om)).
  { replace a with (a - om + om) at 1 by ring. rewrite (sin_minus (a - om) om), (sin_plus (a - om) om). ring. }
  assert (F2 : cos a + cos (a - om - om) = 2 * cos om * cos (a - om)).
  { replace a with (a - om + om) at 1 by ring. rewrite (cos_minus (a - om) om), (cos_plus (a - om) om). ring. }
  rewrite Co in F1, F2.
  replace (2 * (/ 4 * (2 + r)) * sin (a - om)) with (sin (a - om) + r * sin (a - om) / 2) in F1 by field.
  replace (2 * (/ 4 * (2 + r)) * cos (a - om)) with (cos (a - om) + r * cos (a - om) / 2) in F2 by field.
  rewrite X in F1. rewrite Y in F2.
  assert (H3 : a - om + - om = a - om - om) by ring.
  apply ends_intro; cbn [wx wy wa dispx dispy turn].
  - rewrite Rplus_0_l. apply (eqm_trans _ (a - om + - om - (a - om + - om - phi))); [apply eqm_minus; [apply eqm_refl | apply rmod_eqm] | apply eqm_eq; ring].
  - rewrite !Rplus_0_l, cos_0, sin_0, H3. intros -> ->. unfold xi, eta in *. lra.
Qed.
Lemma LpRumLumRp_ends : LpRumLumRp x y c s phi = Some (t, u, v) ->
  ends [L_SEG; R_SEG; L_SEG; R_SEG] [t; u; u; v] x y phi.
Proof.
  unfold LpRumLumRp, tau_omega. cbv zeta. intros E.
  match type of E with context [rleb 0 ?z && _] => destruct (rleb_spec 0 z) as [G0|]; [|discriminate];
    destruct (rleb_spec z 1) as [G|]; [|discriminate] end. cbn [andb] in E.
  destruct (rleb _ _); [|discriminate].
  set (xi := x + s) in *. set (eta := y - 1 - c) in *.
  set (om := - acos ((20 - xi * xi - eta * eta) / 16)) in *.
  assert (Co : cos om = (20 - xi * xi - eta * eta) / 16) by (unfold om; rewrite cos_neg; apply cos_acos; lra).
  assert (Cd : cos (rmod2pi (om - om)) = 1).
  { rewrite (eqm_cos _ _ (rmod_eqm _)). replace (om - om) with 0 by ring. apply cos_0. }
  assert (Sd : sin (rmod2pi (om - om)) = 0).
  { rewrite (eqm_sin _ _ (rmod_eqm _)). replace (om - om) with 0 by ring. apply sin_0. }
  rewrite Cd, Sd in E. pose proof (COS_bound om) as Cb.
  match type of E with context [rltb ?z 0] => destruct (rltb_spec z 0) as [Hn|_] end; [exfalso; lra|].
  match type of E with context [atan2 ?A ?B] => destruct (polar B A) as [P Q]; set (t1 := atan2 A B) in * end.
  destruct (_ && _); [|discriminate]. injection E as <- <- <-.
  set (A := sin om - 0) in *. set (B := cos om - 1 - 1) in *.
  set (m := 5 - 4 * cos om). assert (Hm : 1 <= m) by (unfold m; lra).
  assert (AB : A * A + B * B = m).
  { unfold A, B, m. pose proof (trig1 om). nra. }
  assert (Rr : xi * xi + eta * eta = 4 * m) by (unfold m; rewrite Co; field).
  match type of P with sqrt ?z * _ = _ => assert (Er : sqrt z = 2 * m) end.
  { transitivity (sqrt ((2 * m) * (2 * m))); [f_equal | apply sqrt_square; lra].
    transitivity ((A * A + B * B) * (xi * xi + eta * eta)); [ring|]. rewrite AB, Rr. ring. }
  rewrite Er in P, Q. set (a := rmod2pi t1).
  assert (Ca : cos a = cos t1) by apply eqm_cos, rmod_eqm. assert (Sa : sin a = sin t1) by apply eqm_sin, rmod_eqm.
  rewrite <- Ca in P. rewrite <- Sa in Q.
  assert (X : -2 * B * sin a + 2 * A * cos a = xi).
  { apply (Rmult_eq_reg_l (2 * m)); [|lra].
    transitivity (-2 * B * (2 * m * sin a) + 2 * A * (2 * m * cos a)); [ring|]. rewrite P, Q.
    transitivity (2 * xi * (A * A + B * B)); [ring|]. rewrite AB. ring. }
  assert (Y : 2 * B * cos a + 2 * A * sin a = eta).
  { apply (Rmult_eq_reg_l (2 * m)); [|lra].
    transitivity (2 * B * (2 * m * cos a) + 2 * A * (2 * m * sin a)); [ring|]. rewrite P, Q.
    transitivity (2 * eta * (A * A + B * B)); [ring|]. rewrite AB. ring. }
  assert (F1 : 4 * sin a - 2 * sin (a - om) = xi) by (rewrite <- X, sin_minus; unfold A, B; ring).
  assert (F2 : -4 * cos a + 2 * cos (a - om) = eta) by (rewrite <- Y, cos_minus; unfold A, B; ring).
  assert (H3 : a - om + om = a) by ring.
  apply ends_intro; cbn [wx wy wa dispx dispy turn].
  - rewrite Rplus_0_l, H3. apply (eqm_trans _ (a - (a - phi))); [apply eqm_minus; [apply eqm_refl | apply rmod_eqm] | apply eqm_eq; ring].
  - rewrite !Rplus_0_l, cos_0, sin_0, H3. intros -> ->. unfold xi, eta in *. lra.
Qed.
End Formulas.
