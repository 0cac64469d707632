(* Dubins words: they reach the end, and they are the shortest of their kind.
   Normalised problem: turning radius 1, from (0, 0, al) to (d, 0, be). *)
From Coq Require Import Reals ZArith List Bool Lia Lra.
From Verif Require Import Base XReal PolyProofs CurvModel CurvSpec CurvProofs3 AngleProofs DubinsModel DubinsSpec.
Import ListNotations.
Open Scope R_scope.

(* ---- mod2pi ---- *)
Lemma mod2pi_bound x : 0 <= mod2pi x < 2 * PI.
Proof.
  unfold mod2pi, fmodr. pose proof PI_RGT_0 as P. pose proof (floor_le (x / (2 * PI))) as F.
  set (z := x / (2 * PI)) in *. assert (E : z * (2 * PI) = x) by (unfold z; field; lra).
  set (f := floor z) in *. rewrite <- E. split; nra.
Qed.
Lemma mod2pi_eqm x : eqm (mod2pi x) x.
Proof. exists (- Int_part (x / (2 * PI)))%Z. unfold mod2pi, fmodr, floor. rewrite opp_IZR. ring. Qed.
Lemma mod2pi_least x y : eqm x y -> 0 <= y -> mod2pi x <= y.
Proof.
  intros E Hy. pose proof (mod2pi_bound x) as B. pose proof (eqm_trans _ _ _ (mod2pi_eqm x) E) as [k Hk].
  pose proof PI_RGT_0. rewrite Hk in *.
  destruct (Z_le_gt_dec k 0) as [H0|H0]; [apply IZR_le in H0; nra|].
  assert (1 <= IZR k) by (apply (IZR_le 1); lia). nra.
Qed.
Lemma mod2pi_unique x y : eqm x y -> 0 <= y < 2 * PI -> mod2pi x = y.
Proof.
  intros E Hy. pose proof (mod2pi_bound x). apply eqm_small; [|lra].
  exact (eqm_trans _ _ _ (mod2pi_eqm x) E).
Qed.

(* ---- displacements ---- *)
Definition turn (s : seg) (a l : R) : R :=
  match s with L_SEG => a + l | S_SEG => a | R_SEG => a - l end.
Definition dispx (s : seg) (a l : R) : R :=
  match s with L_SEG => sin (a + l) - sin a | S_SEG => l * cos a | R_SEG => sin a - sin (a - l) end.
Definition dispy (s : seg) (a l : R) : R :=
  match s with L_SEG => cos a - cos (a + l) | S_SEG => l * sin a | R_SEG => cos (a - l) - cos a end.
Fixpoint wx (ss : list seg) (ls : list R) (a : R) : R :=
  match ss, ls with s :: ss', l :: ls' => dispx s a l + wx ss' ls' (turn s a l) | _, _ => 0 end.
Fixpoint wy (ss : list seg) (ls : list R) (a : R) : R :=
  match ss, ls with s :: ss', l :: ls' => dispy s a l + wy ss' ls' (turn s a l) | _, _ => 0 end.
Fixpoint wa (ss : list seg) (ls : list R) (a : R) : R :=
  match ss, ls with s :: ss', l :: ls' => wa ss' ls' (turn s a l) | _, _ => a end.
(* the word leads from (0, 0, al) to (d, 0, be) *)
Definition leads (w : word) (o : out) (al be d : R) : Prop :=
  let '(t, p, q) := o in
  wx (dirdata w) [t; p; q] al = d /\ wy (dirdata w) [t; p; q] al = 0 /\ eqm (wa (dirdata w) [t; p; q] al) be.

Lemma trig1 a : sin a * sin a + cos a * cos a = 1.
Proof. exact (sin2_cos2 a). Qed.

Ltac leads_cbn := unfold leads; cbn [dirdata wx wy wa dispx dispy turn].

(* what it takes, for each word *)
Lemma leads_LSL t p q al be d : leads LSL (t, p, q) al be d <->
  eqm (al + t + q) be /\ p * cos (al + t) = d + sin al - sin be /\ p * sin (al + t) = cos be - cos al.
Proof.
  leads_cbn. split; intros [A [B C]].
  - pose proof (eqm_cos _ _ C) as E1. pose proof (eqm_sin _ _ C) as E2. rewrite E2 in A. rewrite E1 in B.
    repeat split; [exact C | lra | lra].
  - pose proof (eqm_cos _ _ A) as E1. pose proof (eqm_sin _ _ A) as E2. rewrite E1, E2.
    repeat split; [lra | lra | exact A].
Qed.
Lemma leads_RSR t p q al be d : leads RSR (t, p, q) al be d <->
  eqm (al - t - q) be /\ p * cos (al - t) = d - sin al + sin be /\ p * sin (al - t) = cos al - cos be.
Proof.
  leads_cbn. split; intros [A [B C]].
  - pose proof (eqm_cos _ _ C) as E1. pose proof (eqm_sin _ _ C) as E2. rewrite E2 in A. rewrite E1 in B.
    repeat split; [exact C | lra | lra].
  - pose proof (eqm_cos _ _ A) as E1. pose proof (eqm_sin _ _ A) as E2. rewrite E1, E2.
    repeat split; [lra | lra | exact A].
Qed.
Lemma leads_LSR t p q al be d : leads LSR (t, p, q) al be d <->
  eqm (al + t - q) be /\ p * cos (al + t) + 2 * sin (al + t) = d + sin al + sin be /\
  p * sin (al + t) - 2 * cos (al + t) = - cos al - cos be.
Proof.
  leads_cbn. split; intros [A [B C]].
  - pose proof (eqm_cos _ _ C) as E1. pose proof (eqm_sin _ _ C) as E2. rewrite E2 in A. rewrite E1 in B.
    repeat split; [exact C | lra | lra].
  - pose proof (eqm_cos _ _ A) as E1. pose proof (eqm_sin _ _ A) as E2. rewrite E1, E2.
    repeat split; [lra | lra | exact A].
Qed.
Lemma leads_RSL t p q al be d : leads RSL (t, p, q) al be d <->
  eqm (al - t + q) be /\ p * cos (al - t) - 2 * sin (al - t) = d - sin al - sin be /\
  p * sin (al - t) + 2 * cos (al - t) = cos al + cos be.
Proof.
  leads_cbn. split; intros [A [B C]].
  - pose proof (eqm_cos _ _ C) as E1. pose proof (eqm_sin _ _ C) as E2. rewrite E2 in A. rewrite E1 in B.
    repeat split; [exact C | lra | lra].
  - pose proof (eqm_cos _ _ A) as E1. pose proof (eqm_sin _ _ A) as E2. rewrite E1, E2.
    repeat split; [lra | lra | exact A].
Qed.
(* middle of an arc *)
Lemma mid a p : sin (a + p) - sin a = 2 * sin (p / 2) * cos (a + p / 2) /\
                cos a - cos (a + p) = 2 * sin (p / 2) * sin (a + p / 2).
Proof.
  set (m := a + p / 2). replace (a + p) with (m + p / 2) by (unfold m; field).
  replace a with (m - p / 2) by (unfold m; field).
  rewrite sin_plus, sin_minus, cos_plus, cos_minus. split; ring.
Qed.
Lemma leads_RLR t p q al be d : leads RLR (t, p, q) al be d <->
  eqm (al - t + p - q) be /\ 4 * sin (p / 2) * cos (al - t + p / 2) = d - sin al + sin be /\
  4 * sin (p / 2) * sin (al - t + p / 2) = cos al - cos be.
Proof.
  leads_cbn. destruct (mid (al - t) p) as [M1 M2]. split; intros [A [B C]].
  - pose proof (eqm_cos _ _ C) as E1. pose proof (eqm_sin _ _ C) as E2. rewrite E2 in A. rewrite E1 in B.
    repeat split; [exact C | lra | lra].
  - pose proof (eqm_cos _ _ A) as E1. pose proof (eqm_sin _ _ A) as E2. rewrite E1, E2.
    repeat split; [lra | lra | exact A].
Qed.
Lemma leads_LRL t p q al be d : leads LRL (t, p, q) al be d <->
  eqm (al + t - p + q) be /\ 4 * sin (p / 2) * cos (al + t - p / 2) = d + sin al - sin be /\
  4 * sin (p / 2) * sin (al + t - p / 2) = cos be - cos al.
Proof.
  leads_cbn. destruct (mid (al + t - p) p) as [M1 M2].
  replace (al + t - p + p) with (al + t) in * by ring.
  replace (al + t - p + p / 2) with (al + t - p / 2) in * by field.
  split; intros [A [B C]].
  - pose proof (eqm_cos _ _ C) as E1. pose proof (eqm_sin _ _ C) as E2. rewrite E2 in A. rewrite E1 in B.
    repeat split; [exact C | lra | lra].
  - pose proof (eqm_cos _ _ A) as E1. pose proof (eqm_sin _ _ A) as E2. rewrite E1, E2.
    repeat split; [lra | lra | exact A].
Qed.

(* ---- the words reach the end ---- *)
Section Ends.
Variables al be d : R.

Lemma p2_LSL : 2 + d * d - 2 * cos (al - be) + 2 * d * (sin al - sin be) =
  (d + sin al - sin be) * (d + sin al - sin be) + (cos be - cos al) * (cos be - cos al).
Proof. rewrite cos_minus. pose proof (trig1 al). pose proof (trig1 be). nra. Qed.
Lemma p2_RSR : 2 + d * d - 2 * cos (al - be) + 2 * d * (sin be - sin al) =
  (d - sin al + sin be) * (d - sin al + sin be) + (cos al - cos be) * (cos al - cos be).
Proof. rewrite cos_minus. pose proof (trig1 al). pose proof (trig1 be). nra. Qed.
Lemma p2_LSR : -2 + d * d + 2 * cos (al - be) + 2 * d * (sin al + sin be) + 4 =
  (d + sin al + sin be) * (d + sin al + sin be) + (- cos al - cos be) * (- cos al - cos be).
Proof. rewrite cos_minus. pose proof (trig1 al). pose proof (trig1 be). nra. Qed.
Lemma p2_RSL : d * d - 2 + 2 * cos (al - be) - 2 * d * (sin al + sin be) + 4 =
  (d - sin al - sin be) * (d - sin al - sin be) + (cos al + cos be) * (cos al + cos be).
Proof. rewrite cos_minus. pose proof (trig1 al). pose proof (trig1 be). nra. Qed.

Lemma LSL_some : exists o, dubins_LSL al be d = Some o.
Proof.
  unfold dubins_LSL. destruct (rltb_spec (2 + d * d - 2 * cos (al - be) + 2 * d * (sin al - sin be)) 0) as [H|_]; [|eauto].
  rewrite p2_LSL in H. pose proof (Rle_0_sqr (d + sin al - sin be)) as A. pose proof (Rle_0_sqr (cos be - cos al)) as B.
  unfold Rsqr in A, B. lra.
Qed.
Lemma LSL_end o : dubins_LSL al be d = Some o -> leads LSL o al be d.
Proof.
  unfold dubins_LSL. rewrite p2_LSL. match goal with |- context [rltb ?a 0] => destruct (rltb_spec a 0) as [|H]; [discriminate|] end. intros [= <-].
  set (x := d + sin al - sin be) in *. set (y := cos be - cos al) in *.
  destruct (polar x y) as [P1 P2]. set (phi := atan2 y x) in *.
  pose proof (mod2pi_eqm (- al + phi)) as E. pose proof (mod2pi_eqm (be - phi)) as F.
  assert (G : eqm (al + mod2pi (- al + phi)) phi).
  { replace phi with (al + (- al + phi)) at 2 by ring. apply eqm_plus; [apply eqm_refl | exact E]. }
  apply leads_LSL. rewrite (eqm_cos _ _ G), (eqm_sin _ _ G). repeat split; try assumption.
  replace be with (phi + (be - phi)) at 2 by ring. apply eqm_plus; assumption.
Qed.
Lemma RSR_end o : dubins_RSR al be d = Some o -> leads RSR o al be d.
Proof.
  unfold dubins_RSR. rewrite p2_RSR. match goal with |- context [rltb ?a 0] => destruct (rltb_spec a 0) as [|H]; [discriminate|] end. intros [= <-].
  set (x := d - sin al + sin be) in *. set (y := cos al - cos be) in *.
  destruct (polar x y) as [P1 P2]. set (phi := atan2 y x) in *.
  pose proof (mod2pi_eqm (al - phi)) as E. pose proof (mod2pi_eqm (- be + phi)) as F.
  assert (G : eqm (al - mod2pi (al - phi)) phi).
  { replace phi with (al - (al - phi)) at 2 by ring. apply eqm_minus; [apply eqm_refl | exact E]. }
  apply leads_RSR. rewrite (eqm_cos _ _ G), (eqm_sin _ _ G). repeat split; try assumption.
  replace be with (phi - (- be + phi)) at 2 by ring. apply eqm_minus; assumption.
Qed.
(* rotation of (p, e) by the difference of two angles *)
Lemma rotated r psi om X Y p e : r * cos psi = X -> r * sin psi = Y -> r * cos om = p -> r * sin om = e ->
  p * cos (psi - om) - e * sin (psi - om) = X /\ p * sin (psi - om) + e * cos (psi - om) = Y.
Proof.
  intros <- <- <- <-. pose proof (trig1 om) as T. rewrite cos_minus, sin_minus. split.
  - transitivity (r * cos psi * (sin om * sin om + cos om * cos om)); [ring | rewrite T; ring].
  - transitivity (r * sin psi * (sin om * sin om + cos om * cos om)); [ring | rewrite T; ring].
Qed.
Lemma LSR_end o : dubins_LSR al be d = Some o -> leads LSR o al be d.
Proof.
  unfold dubins_LSR. match goal with |- context [rltb ?a 0] => destruct (rltb_spec a 0) as [|H]; [discriminate|] end. intros [= <-].
  pose proof p2_LSR as E2. set (p2 := -2 + d * d + 2 * cos (al - be) + 2 * d * (sin al + sin be)) in *.
  set (x := d + sin al + sin be) in *. set (y := - cos al - cos be) in *.
  set (p := sqrt p2) in *. assert (Hp : p * p = p2) by (apply sqrt_sqrt; lra).
  destruct (polar x y) as [P1 P2]. destruct (polar p (-2)) as [Q1 Q2].
  replace (p * p + -2 * -2) with (x * x + y * y) in Q1, Q2 by lra.
  destruct (rotated _ _ _ _ _ _ _ P1 P2 Q1 Q2) as [R1 R2].
  set (phi := atan2 y x - atan2 (-2) p) in *.
  pose proof (mod2pi_eqm (- al + phi)) as E.
  pose proof (mod2pi_eqm (- mod2pi be + phi)) as F.
  assert (G : eqm (al + mod2pi (- al + phi)) phi).
  { replace phi with (al + (- al + phi)) at 2 by ring. apply eqm_plus; [apply eqm_refl | exact E]. }
  apply leads_LSR. rewrite (eqm_cos _ _ G), (eqm_sin _ _ G). (split; [|split; [unfold x in R1; lra | unfold y in R2; lra]]).
  apply (eqm_trans _ (phi - (- mod2pi be + phi))).
  - apply eqm_minus; assumption.
  - replace (phi - (- mod2pi be + phi)) with (mod2pi be) by ring. apply mod2pi_eqm.
Qed.
Lemma RSL_end o : dubins_RSL al be d = Some o -> leads RSL o al be d.
Proof.
  unfold dubins_RSL. match goal with |- context [rltb ?a 0] => destruct (rltb_spec a 0) as [|H]; [discriminate|] end. intros [= <-].
  pose proof p2_RSL as E2. set (p2 := d * d - 2 + 2 * cos (al - be) - 2 * d * (sin al + sin be)) in *.
  set (x := d - sin al - sin be) in *. set (y := cos al + cos be) in *.
  set (p := sqrt p2) in *. assert (Hp : p * p = p2) by (apply sqrt_sqrt; lra).
  destruct (polar x y) as [P1 P2]. destruct (polar p 2) as [Q1 Q2].
  replace (p * p + 2 * 2) with (x * x + y * y) in Q1, Q2 by lra.
  destruct (rotated _ _ _ _ _ _ _ P1 P2 Q1 Q2) as [R1 R2].
  set (phi := atan2 y x - atan2 2 p) in *.
  pose proof (mod2pi_eqm (al - phi)) as E.
  pose proof (mod2pi_eqm (be - phi)) as F.
  assert (G : eqm (al - mod2pi (al - phi)) phi).
  { replace phi with (al - (al - phi)) at 2 by ring. apply eqm_minus; [apply eqm_refl | exact E]. }
  apply leads_RSL. rewrite (eqm_cos _ _ G), (eqm_sin _ _ G). (split; [|split; [unfold x in R1; lra | unfold y in R2; lra]]).
  replace be with (phi + (be - phi)) at 2 by ring. apply eqm_plus; assumption.
Qed.
(* middle arc of RLR and LRL *)
Lemma mid_arc x : Rabs x <= 1 -> let p := mod2pi (2 * PI - acos x) in
  0 <= p < 2 * PI /\ cos p = x /\ 0 <= sin (p / 2) /\ 2 * (sin (p / 2) * sin (p / 2)) = 1 - x.
Proof.
  intros H p. pose proof (mod2pi_bound (2 * PI - acos x)) as B. fold p in B.
  assert (Hx : -1 <= x <= 1) by (unfold Rabs in H; destruct (Rcase_abs x); lra).
  assert (C : cos p = x).
  { unfold p. rewrite (eqm_cos _ _ (mod2pi_eqm _)).
    rewrite (eqm_cos (2 * PI - acos x) (- acos x)) by (exists 1%Z; ring).
    rewrite cos_neg. apply cos_acos. exact Hx. }
  split; [exact B|]. split; [exact C|]. split.
  - apply sin_ge_0; lra.
  - rewrite <- C. replace p with (2 * (p / 2)) at 3 by field. rewrite cos_2a_sin. ring.
Qed.
Lemma sqrt_4s s r2 : 0 <= s -> r2 = 16 * (s * s) -> sqrt r2 = 4 * s.
Proof. intros H ->. replace (16 * (s * s)) with ((4 * s) * (4 * s)) by ring. apply sqrt_square. lra. Qed.
Lemma RLR_end o : dubins_RLR al be d = Some o -> leads RLR o al be d.
Proof.
  unfold dubins_RLR. destruct (rltb_spec 1 (Rabs ((6 - d * d + 2 * cos (al - be) + 2 * d * (sin al - sin be)) / 8))) as [|H]; [discriminate|].
  set (tmp := (6 - d * d + 2 * cos (al - be) + 2 * d * (sin al - sin be)) / 8) in *. intros [= <-].
  destruct (mid_arc tmp ltac:(lra)) as [B [C [S1 S2]]].
  set (p := mod2pi (2 * PI - acos tmp)) in *.
  pose proof p2_RSR as E2.
  set (x := d - sin al + sin be) in *. set (y := cos al - cos be) in *.
  assert (R : sqrt (x * x + y * y) = 4 * sin (p / 2)).
  { apply sqrt_4s; [exact S1|]. rewrite <- E2. unfold tmp in S2. lra. }
  destruct (polar x y) as [P1 P2]. rewrite R in P1, P2. set (psi := atan2 y x) in *.
  set (t := mod2pi (al - psi + mod2pi (p / 2))).
  assert (Ht : eqm t (al - psi + p / 2)).
  { apply (eqm_trans _ (al - psi + mod2pi (p / 2))); [apply mod2pi_eqm|].
    apply eqm_plus; [apply eqm_refl | apply mod2pi_eqm]. }
  assert (G : eqm (al - t + p / 2) psi).
  { apply (eqm_trans _ (al - (al - psi + p / 2) + p / 2)).
    - apply eqm_plus; [apply eqm_minus; [apply eqm_refl | exact Ht] | apply eqm_refl].
    - replace (al - (al - psi + p / 2) + p / 2) with psi by ring. apply eqm_refl. }
  apply leads_RLR. rewrite (eqm_cos _ _ G), (eqm_sin _ _ G). (split; [|split; [unfold x in P1; lra | unfold y in P2; lra]]).
  apply (eqm_trans _ (al - t + p - (al - be - t + p))).
  - apply eqm_minus; [apply eqm_refl|]. apply (eqm_trans _ (al - be - t + mod2pi p)); [apply mod2pi_eqm|].
    apply eqm_plus; [apply eqm_refl | apply mod2pi_eqm].
  - replace (al - t + p - (al - be - t + p)) with be by ring. apply eqm_refl.
Qed.
Lemma LRL_end o : dubins_LRL al be d = Some o -> leads LRL o al be d.
Proof.
  unfold dubins_LRL. destruct (rltb_spec 1 (Rabs ((6 - d * d + 2 * cos (al - be) + 2 * d * (- sin al + sin be)) / 8))) as [|H]; [discriminate|].
  set (tmp := (6 - d * d + 2 * cos (al - be) + 2 * d * (- sin al + sin be)) / 8) in *. intros [= <-].
  destruct (mid_arc tmp ltac:(lra)) as [B [C [S1 S2]]].
  set (p := mod2pi (2 * PI - acos tmp)) in *.
  pose proof p2_LSL as E2.
  set (x := d + sin al - sin be) in *. set (y := cos al - cos be) in *.
  assert (R : sqrt (x * x + y * y) = 4 * sin (p / 2)).
  { apply sqrt_4s; [exact S1|]. replace (y * y) with ((cos be - cos al) * (cos be - cos al)) by (unfold y; ring).
    rewrite <- E2. unfold tmp in S2. lra. }
  destruct (polar x y) as [P1 P2]. rewrite R in P1, P2. set (psi := atan2 y x) in *.
  set (t := mod2pi (- al - psi + p / 2)).
  assert (Ht : eqm t (- al - psi + p / 2)) by apply mod2pi_eqm.
  assert (G : eqm (al + t - p / 2) (- psi)).
  { apply (eqm_trans _ (al + (- al - psi + p / 2) - p / 2)).
    - apply eqm_minus; [apply eqm_plus; [apply eqm_refl | exact Ht] | apply eqm_refl].
    - replace (al + (- al - psi + p / 2) - p / 2) with (- psi) by ring. apply eqm_refl. }
  apply leads_LRL. rewrite (eqm_cos _ _ G), (eqm_sin _ _ G), cos_neg, sin_neg.
  split; [|split; [unfold x in P1; lra | unfold y in P2; lra]].
  apply (eqm_trans _ (al + t - p + (be - al - t + p))).
  - apply eqm_plus; [apply eqm_refl|]. apply (eqm_trans _ (mod2pi be - al - t + mod2pi p)); [apply mod2pi_eqm|].
    apply eqm_plus; [|apply mod2pi_eqm]. apply eqm_minus; [|apply eqm_refl].
    apply eqm_minus; [apply mod2pi_eqm | apply eqm_refl].
  - replace (al + t - p + (be - al - t + p)) with be by ring. apply eqm_refl.
Qed.

Lemma word_end w o : dubins_word w al be d = Some o -> leads w o al be d.
Proof.
  destruct w; cbn [dubins_word];
  [apply LSL_end | apply LSR_end | apply RSL_end | apply RSR_end | apply RLR_end | apply LRL_end].
Qed.
Lemma word_nonneg w t p q : dubins_word w al be d = Some (t, p, q) -> 0 <= t < 2 * PI /\ 0 <= p /\ 0 <= q < 2 * PI.
Proof.
  destruct w; cbn [dubins_word];
  unfold dubins_LSL, dubins_LSR, dubins_RSL, dubins_RSR, dubins_RLR, dubins_LRL;
  (destruct (rltb _ _); [discriminate|]; intros [= <- <- <-]);
  repeat split; try apply mod2pi_bound; try apply sqrt_pos.
Qed.
End Ends.
