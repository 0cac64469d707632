(* Dubins words: each one is the shortest of its kind; the selected one is the
   shortest of the six. *)
From Coq Require Import Reals ZArith List Bool Lia Lra.
From Verif Require Import Base XReal PolyProofs CurvModel CurvSpec CurvProofs3 AngleProofs DubinsModel DubinsSpec DubinsProofs.
Import ListNotations.
Open Scope R_scope.

Lemma least_eqm t t' : eqm t t' -> 0 <= t < 2 * PI -> 0 <= t' -> t <= t'.
Proof. intros E B H. rewrite <- (mod2pi_unique t' t (eqm_sym _ _ E) B). apply mod2pi_least; [apply eqm_refl | exact H]. Qed.
Lemma sq_eq a b : 0 <= a -> 0 <= b -> a * a = b * b -> a = b.
Proof. intros. nra. Qed.
Lemma eqm_cancel_l a t t' : eqm (a + t) (a + t') -> eqm t t'.
Proof. intros [k H]. exists k. lra. Qed.

Section Least.
Variables al be d : R.
Hypothesis Hal : 0 <= al < 2 * PI.
Hypothesis Hbe : 0 <= be < 2 * PI.
Hypothesis Hd : 0 <= d.
Variables t' p' q' : R.
Hypothesis Ht' : 0 <= t'.
Hypothesis Hp' : 0 <= p'.
Hypothesis Hq' : 0 <= q'.
Notation best w := (exists o, dubins_word w al be d = Some o /\ cost o <= t' + p' + q').

Lemma radius_eq p a X Y : p * cos a = X -> p * sin a = Y -> p * p = X * X + Y * Y.
Proof. intros <- <-. pose proof (trig1 a) as T. transitivity (p * p * (sin a * sin a + cos a * cos a)); [rewrite T; ring | ring]. Qed.
Lemma same_angle r a b X Y : r <> 0 -> r * cos a = X -> r * sin a = Y -> r * cos b = X -> r * sin b = Y -> eqm a b.
Proof.
  intros N A B C D. apply cos_sin_eqm.
  - apply (Rmult_eq_reg_l r); [lra | exact N].
  - apply (Rmult_eq_reg_l r); [lra | exact N].
Qed.
Lemma pair_eq_cos : cos be = cos al -> sin be = sin al \/ sin be = - sin al.
Proof.
  intros H. pose proof (trig1 al). pose proof (trig1 be). rewrite H in *.
  assert (E : (sin be - sin al) * (sin be + sin al) = 0) by nra.
  apply Rmult_integral in E. destruct E; [left | right]; lra.
Qed.
Lemma sin_pos_half x : 0 <= x < 2 * PI -> 0 < sin x -> 0 < x < PI.
Proof.
  intros B H. split.
  - destruct (Req_dec x 0) as [E|]; [rewrite E, sin_0 in H; lra | lra].
  - destruct (Rlt_le_dec x PI) as [|N]; [assumption|].
    pose proof (sin_le_0 x N ltac:(lra)). lra.
Qed.

Lemma LSL_least : leads LSL (t', p', q') al be d -> best LSL \/ eqm al be /\ d = 0.
Proof.
  intros H'. destruct (LSL_some al be d) as [[[t p] q] E].
  pose proof (LSL_end _ _ _ _ E) as H. pose proof (word_nonneg al be d LSL t p q E) as [B1 [B2 B3]].
  pose proof H as H0. apply leads_LSL in H, H'. destruct H as [A [X Y]], H' as [A' [X' Y']].
  assert (Ep : p = p').
  { apply sq_eq; try assumption. rewrite (radius_eq _ _ _ _ X Y), (radius_eq _ _ _ _ X' Y'). reflexivity. }
  subst p'. destruct (Req_dec p 0) as [Z|N].
  - rewrite Z, Rmult_0_l in X, Y.
    assert (C : cos be = cos al) by lra.
    destruct (pair_eq_cos C) as [S|S].
    { right. split; [apply cos_sin_eqm; [symmetry; exact C | symmetry; exact S] | lra]. }
    destruct (Req_dec (sin be) 0) as [S0|S0].
    { right. split; [apply cos_sin_eqm; [symmetry; exact C | lra] | lra]. }
    left. exists (t, p, q). split; [exact E|]. cbn [cost].
    assert (Hb : 0 < be < PI) by (apply sin_pos_half; [exact Hbe | lra]).
    assert (M : eqm (- al) be).
    { apply cos_sin_eqm; [rewrite cos_neg; symmetry; exact C | rewrite sin_neg; lra]. }
    assert (Tq : t = be /\ q = be).
    { unfold dubins_word, dubins_LSL in E.
      destruct (rltb _ _); [discriminate|]. injection E as <- _ <-.
      assert (Z2 : atan2 (cos be - cos al) (d + sin al - sin be) = 0).
      { rewrite <- X, <- Y. unfold atan2. destruct (rltb_spec 0 0); [lra|]. destruct (rltb_spec 0 0); [lra|reflexivity]. }
      rewrite Z2. split.
      - apply mod2pi_unique; [|exact Hbe]. rewrite Rplus_0_r. exact M.
      - apply mod2pi_unique; [|exact Hbe]. rewrite Rminus_0_r. apply eqm_refl. }
    destruct Tq as [-> ->]. rewrite Z.
    assert (L : be + be <= t' + q').
    { apply least_eqm; [|lra|lra]. apply (eqm_cancel_l al).
      apply (eqm_trans _ be).
      - apply (eqm_trans _ (- be + (be + be))); [|replace (- be + (be + be)) with be by ring; apply eqm_refl].
        apply eqm_plus; [|apply eqm_refl]. replace al with (- - al) by ring. apply eqm_opp. exact M.
      - apply eqm_sym. replace (al + (t' + q')) with (al + t' + q') by ring. exact A'. }
    lra.
  - left. exists (t, p, q). split; [exact E|]. cbn [cost].
    assert (G : eqm (al + t) (al + t')) by (apply (same_angle p _ _ _ _ N X Y X' Y')).
    assert (G1 : eqm t t') by exact (eqm_cancel_l _ _ _ G).
    assert (G2 : eqm q q').
    { apply (eqm_cancel_l (al + t)). apply (eqm_trans _ be); [exact A|].
      apply (eqm_trans _ (al + t' + q')); [apply eqm_sym; exact A'|]. apply eqm_plus; [apply eqm_sym; exact G | apply eqm_refl]. }
    pose proof (least_eqm _ _ G1 B1 Ht'). pose proof (least_eqm _ _ G2 B3 Hq'). lra.
Qed.
Lemma RSR_some : exists o, dubins_RSR al be d = Some o.
Proof.
  unfold dubins_RSR. destruct (rltb_spec (2 + d * d - 2 * cos (al - be) + 2 * d * (sin be - sin al)) 0) as [H|_]; [|eauto].
  rewrite p2_RSR in H. pose proof (Rle_0_sqr (d - sin al + sin be)) as A. pose proof (Rle_0_sqr (cos al - cos be)) as B.
  unfold Rsqr in A, B. lra.
Qed.
Lemma RSR_least : leads RSR (t', p', q') al be d -> best RSR \/ eqm al be /\ d = 0.
Proof.
  intros H'. destruct RSR_some as [[[t p] q] E].
  pose proof (RSR_end _ _ _ _ E) as H. pose proof (word_nonneg al be d RSR t p q E) as [B1 [B2 B3]].
  apply leads_RSR in H, H'. destruct H as [A [X Y]], H' as [A' [X' Y']].
  assert (Ep : p = p').
  { apply sq_eq; try assumption. rewrite (radius_eq _ _ _ _ X Y), (radius_eq _ _ _ _ X' Y'). reflexivity. }
  subst p'. destruct (Req_dec p 0) as [Z|N].
  - rewrite Z, Rmult_0_l in X, Y.
    assert (C : cos be = cos al) by lra.
    destruct (pair_eq_cos C) as [S|S].
    { right. split; [apply cos_sin_eqm; [symmetry; exact C | symmetry; exact S] | lra]. }
    destruct (Req_dec (sin be) 0) as [S0|S0].
    { right. split; [apply cos_sin_eqm; [symmetry; exact C | lra] | lra]. }
    left. exists (t, p, q). split; [exact E|]. cbn [cost].
    assert (Hb : 0 < al < PI) by (apply sin_pos_half; [exact Hal | lra]).
    assert (M : eqm (- be) al).
    { apply cos_sin_eqm; [rewrite cos_neg; exact C | rewrite sin_neg; lra]. }
    assert (Tq : t = al /\ q = al).
    { unfold dubins_word, dubins_RSR in E.
      destruct (rltb _ _); [discriminate|]. injection E as <- _ <-.
      assert (Z2 : atan2 (cos al - cos be) (d - sin al + sin be) = 0).
      { rewrite <- X, <- Y. unfold atan2. destruct (rltb_spec 0 0); [lra|]. destruct (rltb_spec 0 0); [lra|reflexivity]. }
      rewrite Z2. split.
      - apply mod2pi_unique; [|exact Hal]. rewrite Rminus_0_r. apply eqm_refl.
      - apply mod2pi_unique; [|exact Hal]. rewrite Rplus_0_r. exact M. }
    destruct Tq as [-> ->]. rewrite Z.
    assert (L : al + al <= t' + q').
    { apply least_eqm; [|lra|lra]. apply (eqm_trans _ (al - be)).
      - apply eqm_plus; [apply eqm_refl | apply eqm_sym; exact M].
      - apply (eqm_trans _ (al - (al - t' - q'))).
        + apply eqm_minus; [apply eqm_refl | apply eqm_sym; exact A'].
        + replace (al - (al - t' - q')) with (t' + q') by ring. apply eqm_refl. }
    lra.
  - left. exists (t, p, q). split; [exact E|]. cbn [cost].
    assert (G : eqm (al - t) (al - t')) by (apply (same_angle p _ _ _ _ N X Y X' Y')).
    assert (G1 : eqm t t').
    { apply eqm_opp in G. apply (eqm_cancel_l (- al)).
      replace (- al + t) with (- (al - t)) by ring. replace (- al + t') with (- (al - t')) by ring. exact G. }
    assert (G2 : eqm q q').
    { assert (K : eqm (- (al - t - q)) (- (al - t' - q'))).
      { apply eqm_opp. apply (eqm_trans _ be); [exact A | apply eqm_sym; exact A']. }
      pose proof (eqm_plus _ _ _ _ G K) as K2.
      replace (al - t + - (al - t - q)) with q in K2 by ring.
      replace (al - t' + - (al - t' - q')) with q' in K2 by ring. exact K2. }
    pose proof (least_eqm _ _ G1 B1 Ht'). pose proof (least_eqm _ _ G2 B3 Hq'). lra.
Qed.

(* rotating (p, e) by a *)
Lemma rot_norm p e a X Y : p * cos a - e * sin a = X -> p * sin a + e * cos a = Y -> p * p + e * e = X * X + Y * Y.
Proof. intros <- <-. pose proof (trig1 a) as T. transitivity ((p * p + e * e) * (sin a * sin a + cos a * cos a)); [rewrite T; ring | ring]. Qed.
Lemma rot_angle p e a b X Y : e <> 0 ->
  p * cos a - e * sin a = X -> p * sin a + e * cos a = Y ->
  p * cos b - e * sin b = X -> p * sin b + e * cos b = Y -> eqm a b.
Proof.
  intros N A B C D. assert (P : p * p + e * e <> 0) by nra. apply cos_sin_eqm; apply (Rmult_eq_reg_l (p * p + e * e)); try exact P.
  - transitivity (p * X + e * Y); [rewrite <- A, <- B; ring | rewrite <- C, <- D; ring].
  - transitivity (p * Y - e * X); [rewrite <- A, <- B; ring | rewrite <- C, <- D; ring].
Qed.
Lemma LSR_least : leads LSR (t', p', q') al be d -> best LSR.
Proof.
  intros H'. apply leads_LSR in H'. destruct H' as [A' [X' Y']].
  pose proof (rot_norm p' (-2) (al + t') (d + sin al + sin be) (- cos al - cos be) ltac:(lra) ltac:(lra)) as Hr.
  rewrite <- p2_LSR in Hr.
  assert (Hs : exists o, dubins_LSR al be d = Some o).
  { unfold dubins_LSR. destruct (rltb_spec (-2 + d * d + 2 * cos (al - be) + 2 * d * (sin al + sin be)) 0); [nra|eauto]. }
  destruct Hs as [[[t p] q] E].
  pose proof (LSR_end _ _ _ _ E) as H. pose proof (word_nonneg al be d LSR t p q E) as [B1 [B2 B3]].
  apply leads_LSR in H. destruct H as [A [X Y]].
  pose proof (rot_norm p (-2) (al + t) (d + sin al + sin be) (- cos al - cos be) ltac:(lra) ltac:(lra)) as Hr2.
  rewrite <- p2_LSR in Hr2.
  assert (Ep : p = p') by (apply sq_eq; try assumption; lra). subst p'.
  exists (t, p, q). split; [exact E|]. cbn [cost].
  assert (G : eqm (al + t) (al + t')).
  { apply (rot_angle p (-2) _ _ (d + sin al + sin be) (- cos al - cos be)); lra. }
  assert (G1 : eqm t t') by exact (eqm_cancel_l _ _ _ G).
  assert (G2 : eqm q q').
  { assert (K : eqm (- (al + t - q)) (- (al + t' - q'))).
    { apply eqm_opp. apply (eqm_trans _ be); [exact A | apply eqm_sym; exact A']. }
    pose proof (eqm_plus _ _ _ _ G K) as K2.
    replace (al + t + - (al + t - q)) with q in K2 by ring.
    replace (al + t' + - (al + t' - q')) with q' in K2 by ring. exact K2. }
  pose proof (least_eqm _ _ G1 B1 Ht'). pose proof (least_eqm _ _ G2 B3 Hq'). lra.
Qed.
Lemma RSL_least : leads RSL (t', p', q') al be d -> best RSL.
Proof.
  intros H'. apply leads_RSL in H'. destruct H' as [A' [X' Y']].
  pose proof (rot_norm p' 2 (al - t') _ _ X' Y') as Hr. rewrite <- p2_RSL in Hr.
  assert (Hs : exists o, dubins_RSL al be d = Some o).
  { unfold dubins_RSL. destruct (rltb_spec (d * d - 2 + 2 * cos (al - be) - 2 * d * (sin al + sin be)) 0); [nra|eauto]. }
  destruct Hs as [[[t p] q] E].
  pose proof (RSL_end _ _ _ _ E) as H. pose proof (word_nonneg al be d RSL t p q E) as [B1 [B2 B3]].
  apply leads_RSL in H. destruct H as [A [X Y]].
  pose proof (rot_norm p 2 (al - t) _ _ X Y) as Hr2. rewrite <- p2_RSL in Hr2.
  assert (Ep : p = p') by (apply sq_eq; try assumption; lra). subst p'.
  exists (t, p, q). split; [exact E|]. cbn [cost].
  assert (G : eqm (al - t) (al - t')).
  { apply (rot_angle p 2 _ _ _ _ ltac:(lra) X Y X' Y'). }
  assert (G1 : eqm t t').
  { apply eqm_opp in G. apply (eqm_cancel_l (- al)).
    replace (- al + t) with (- (al - t)) by ring. replace (- al + t') with (- (al - t')) by ring. exact G. }
  assert (G2 : eqm q q').
  { assert (K : eqm (al - t + q) (al - t' + q')).
    { apply (eqm_trans _ be); [exact A | apply eqm_sym; exact A']. }
    pose proof (eqm_minus _ _ _ _ K G) as K2.
    replace (al - t + q - (al - t)) with q in K2 by ring.
    replace (al - t' + q' - (al - t')) with q' in K2 by ring. exact K2. }
  pose proof (least_eqm _ _ G1 B1 Ht'). pose proof (least_eqm _ _ G2 B3 Hq'). lra.
Qed.

(* middle arc between half a turn and a turn *)
Lemma mid_unique p x : PI <= p < 2 * PI -> 2 * (sin (p / 2) * sin (p / 2)) = 1 - x ->
  Rabs x <= 1 /\ mod2pi (2 * PI - acos x) = p.
Proof.
  intros B S. pose proof PI_RGT_0.
  assert (C : cos p = x).
  { replace p with (2 * (p / 2)) by field. rewrite cos_2a_sin. lra. }
  assert (C2 : cos (2 * PI - p) = x).
  { rewrite (eqm_cos (2 * PI - p) (- p)) by (exists 1%Z; ring). rewrite cos_neg. exact C. }
  split.
  - rewrite <- C. pose proof (COS_bound p). unfold Rabs. destruct (Rcase_abs (cos p)); lra.
  - rewrite <- C2, acos_cos by lra. replace (2 * PI - (2 * PI - p)) with p by ring.
    apply mod2pi_unique; [apply eqm_refl | lra].
Qed.
Lemma RLR_least : PI <= p' < 2 * PI -> leads RLR (t', p', q') al be d -> best RLR.
Proof.
  intros Hm H'. apply leads_RLR in H'. destruct H' as [A' [X' Y']].
  pose proof (radius_eq _ _ _ _ X' Y') as Hr. rewrite <- p2_RSR in Hr.
  set (tmp := (6 - d * d + 2 * cos (al - be) + 2 * d * (sin al - sin be)) / 8).
  destruct (mid_unique p' tmp Hm ltac:(unfold tmp; lra)) as [T1 T2].
  assert (Hs : exists t q, dubins_RLR al be d = Some (t, p', q)).
  { unfold dubins_RLR. fold tmp. destruct (rltb_spec 1 (Rabs tmp)); [lra|]. rewrite T2. eauto. }
  destruct Hs as [t [q E]].
  pose proof (RLR_end _ _ _ _ E) as H. pose proof (word_nonneg al be d RLR t p' q E) as [B1 [B2 B3]].
  apply leads_RLR in H. destruct H as [A [X Y]].
  assert (N : 4 * sin (p' / 2) <> 0).
  { pose proof (sin_gt_0 (p' / 2) ltac:(pose proof PI_RGT_0; lra) ltac:(lra)). lra. }
  exists (t, p', q). split; [exact E|]. cbn [cost].
  assert (G : eqm (al - t + p' / 2) (al - t' + p' / 2)) by (apply (same_angle _ _ _ _ _ N X Y X' Y')).
  assert (G1 : eqm t t').
  { apply eqm_opp in G. apply (eqm_cancel_l (- al - p' / 2)).
    replace (- al - p' / 2 + t) with (- (al - t + p' / 2)) by ring.
    replace (- al - p' / 2 + t') with (- (al - t' + p' / 2)) by ring. exact G. }
  assert (G2 : eqm q q').
  { assert (K : eqm (- (al - t + p' - q)) (- (al - t' + p' - q'))).
    { apply eqm_opp. apply (eqm_trans _ be); [exact A | apply eqm_sym; exact A']. }
    pose proof (eqm_plus _ _ _ _ G K) as K2. apply (eqm_cancel_l (- (p' / 2))).
    replace (- (p' / 2) + q) with (al - t + p' / 2 + - (al - t + p' - q)) by field.
    replace (- (p' / 2) + q') with (al - t' + p' / 2 + - (al - t' + p' - q')) by field. exact K2. }
  pose proof (least_eqm _ _ G1 B1 Ht'). pose proof (least_eqm _ _ G2 B3 Hq'). lra.
Qed.
Lemma LRL_least : PI <= p' < 2 * PI -> leads LRL (t', p', q') al be d -> best LRL.
Proof.
  intros Hm H'. apply leads_LRL in H'. destruct H' as [A' [X' Y']].
  pose proof (radius_eq _ _ _ _ X' Y') as Hr. rewrite <- p2_LSL in Hr.
  set (tmp := (6 - d * d + 2 * cos (al - be) + 2 * d * (- sin al + sin be)) / 8).
  destruct (mid_unique p' tmp Hm ltac:(unfold tmp; lra)) as [T1 T2].
  assert (Hs : exists t q, dubins_LRL al be d = Some (t, p', q)).
  { unfold dubins_LRL. fold tmp. destruct (rltb_spec 1 (Rabs tmp)); [lra|]. rewrite T2. eauto. }
  destruct Hs as [t [q E]].
  pose proof (LRL_end _ _ _ _ E) as H. pose proof (word_nonneg al be d LRL t p' q E) as [B1 [B2 B3]].
  apply leads_LRL in H. destruct H as [A [X Y]].
  assert (N : 4 * sin (p' / 2) <> 0).
  { pose proof (sin_gt_0 (p' / 2) ltac:(pose proof PI_RGT_0; lra) ltac:(lra)). lra. }
  exists (t, p', q). split; [exact E|]. cbn [cost].
  assert (G : eqm (al + t - p' / 2) (al + t' - p' / 2)) by (apply (same_angle _ _ _ _ _ N X Y X' Y')).
  assert (G1 : eqm t t').
  { apply (eqm_cancel_l (al - p' / 2)).
    replace (al - p' / 2 + t) with (al + t - p' / 2) by ring.
    replace (al - p' / 2 + t') with (al + t' - p' / 2) by ring. exact G. }
  assert (G2 : eqm q q').
  { assert (K : eqm (al + t - p' + q) (al + t' - p' + q')).
    { apply (eqm_trans _ be); [exact A | apply eqm_sym; exact A']. }
    pose proof (eqm_minus _ _ _ _ K G) as K2. apply (eqm_cancel_l (- (p' / 2))).
    replace (- (p' / 2) + q) with (al + t - p' + q - (al + t - p' / 2)) by field.
    replace (- (p' / 2) + q') with (al + t' - p' + q' - (al + t' - p' / 2)) by field. exact K2. }
  pose proof (least_eqm _ _ G1 B1 Ht'). pose proof (least_eqm _ _ G2 B3 Hq'). lra.
Qed.
End Least.

(* same configurations: LSR has length 0 *)
Lemma LSR_zero al be d : eqm al be -> d = 0 -> dubins_LSR al be d = Some (0, 0, 0).
Proof.
  intros M ->.
  assert (C : cos (al - be) = 1).
  { rewrite (eqm_cos _ (be - be)) by (apply eqm_minus; [exact M | apply eqm_refl]).
    replace (be - be) with 0 by ring. apply cos_0. }
  assert (P2 : -2 + 0 * 0 + 2 * cos (al - be) + 2 * 0 * (sin al + sin be) = 0) by (rewrite C; ring).
  assert (Hs : exists t q, dubins_LSR al be 0 = Some (t, 0, q)).
  { unfold dubins_LSR. rewrite P2. destruct (rltb_spec 0 0); [lra|]. rewrite sqrt_0. eauto. }
  destruct Hs as [t [q E]].
  pose proof (LSR_end _ _ _ _ E) as H. pose proof (word_nonneg al be 0 LSR t 0 q E) as [B1 [B2 B3]].
  apply leads_LSR in H. destruct H as [A [X Y]].
  pose proof (eqm_cos _ _ M) as Mc. pose proof (eqm_sin _ _ M) as Ms. rewrite <- Mc in Y. rewrite <- Ms in X.
  assert (G : eqm (al + t) (al + 0)).
  { rewrite Rplus_0_r. apply cos_sin_eqm; lra. }
  apply eqm_cancel_l in G. pose proof PI_RGT_0.
  assert (t = 0) by (apply (eqm_small _ _ G); lra). subst t.
  assert (G2 : eqm (- q) 0).
  { apply (eqm_cancel_l al). rewrite Rplus_0_r. apply (eqm_trans _ be); [|apply eqm_sym; exact M].
    replace (al + - q) with (al + 0 - q) by ring. exact A. }
  assert (- q = 0) by (apply (eqm_small _ _ G2); lra).
  assert (q = 0) by lra. subst q. exact E.
Qed.

(* ---- selection ---- *)
Lemma best_word_spec al be d ws : forall best r, best_word ws al be d best = Some r ->
  (best = Some r \/ (In (fst r) ws /\ dubins_word (fst r) al be d = Some (snd r))) /\
  (forall w' o', best = Some (w', o') -> cost (snd r) <= cost o') /\
  (forall w' o', In w' ws -> dubins_word w' al be d = Some o' -> cost (snd r) <= cost o').
Proof.
  induction ws as [|w ws IH]; intros best r E; cbn [best_word] in E.
  - subst best. repeat split; auto.
    + intros w' o' [= ->]. cbn. lra.
    + intros w' o' [].
  - apply IH in E. destruct E as [E1 [E2 E3]].
    destruct (dubins_word w al be d) as [o|] eqn:Ew.
    + destruct best as [[wb ob]|].
      * destruct (rltb_spec (cost o) (cost ob)) as [Hlt|Hge].
        -- split.
           ++ right. destruct E1 as [[= <-]|[Hi Hw]]; [cbn; auto | cbn; auto].
           ++ pose proof (E2 w o eq_refl) as H1. split.
              ** intros w' o' [= <- <-]. lra.
              ** intros w' o' [<-|Hi] Hw; [rewrite Ew in Hw; injection Hw as <-; exact H1 | exact (E3 _ _ Hi Hw)].
        -- pose proof (E2 wb ob eq_refl) as H1. split.
           ++ destruct E1 as [H|[Hi Hw]]; [left; exact H | right; cbn; auto].
           ++ split.
              ** intros w' o' [= <- <-]. exact H1.
              ** intros w' o' [<-|Hi] Hw; [rewrite Ew in Hw; injection Hw as <-; lra | exact (E3 _ _ Hi Hw)].
      * split.
        -- right. destruct E1 as [[= <-]|[Hi Hw]]; [cbn; auto | cbn; auto].
        -- pose proof (E2 w o eq_refl) as H1. split; [intros w' o' [=]|].
           intros w' o' [<-|Hi] Hw; [rewrite Ew in Hw; injection Hw as <-; exact H1 | exact (E3 _ _ Hi Hw)].
    + split; [destruct E1 as [H|[Hi Hw]]; [left; exact H | right; cbn; auto]|].
      split; [exact E2|].
      intros w' o' [<-|Hi] Hw; [rewrite Ew in Hw; discriminate | exact (E3 _ _ Hi Hw)].
Qed.
Lemma best_word_keeps al be d ws : forall b, exists r, best_word ws al be d (Some b) = Some r.
Proof.
  induction ws as [|w ws IH]; intros b; cbn [best_word]; [eauto|].
  destruct (dubins_word w al be d) as [o|]; [|apply IH].
  destruct b as [wb ob]. destruct (rltb _ _); apply IH.
Qed.
Lemma all_words w : In w dubins_words.
Proof. destruct w; cbn; auto 8. Qed.
Lemma init_some al be d : exists w o, dubins_init_normalised al be d = Ok (w, o) /\
  dubins_word w al be d = Some o /\
  forall w' o', dubins_word w' al be d = Some o' -> cost o <= cost o'.
Proof.
  unfold dubins_init_normalised. destruct (LSL_some al be d) as [o0 E0].
  destruct (best_word dubins_words al be d None) as [[w o]|] eqn:E.
  - exists w, o. pose proof (best_word_spec _ _ _ _ _ _ E) as [H1 [_ H3]]. cbn [fst snd] in *.
    split; [reflexivity|]. split.
    + destruct H1 as [[=]|[_ H1]]. exact H1.
    + intros w' o' H. exact (H3 w' o' (all_words w') H).
  - exfalso. unfold dubins_words in E. cbn [best_word] in E. cbn [dubins_word] in E. rewrite E0 in E.
    pose proof (best_word_keeps al be d [LSR; RSL; RSR; RLR; LRL] (LSL, o0)) as [r Hr].
    cbn [best_word dubins_word] in Hr. rewrite Hr in E. discriminate.
Qed.

(* the selected word is at most as long as any path of the six kinds *)
Lemma init_least al be d w o w' t' p' q' :
  0 <= al < 2 * PI -> 0 <= be < 2 * PI -> 0 <= d ->
  dubins_init_normalised al be d = Ok (w, o) ->
  0 <= t' -> 0 <= p' -> 0 <= q' -> (w' = RLR \/ w' = LRL -> PI <= p' < 2 * PI) ->
  leads w' (t', p', q') al be d -> cost o <= t' + p' + q'.
Proof.
  intros Ha Hb Hd E Ht Hp Hq Hm H.
  destruct (init_some al be d) as [w1 [o1 [E1 [_ M]]]]. rewrite E in E1. injection E1 as <- <-.
  assert (Fin : (exists o', dubins_word w' al be d = Some o' /\ cost o' <= t' + p' + q') -> cost o <= t' + p' + q').
  { intros [o' [H1 H2]]. pose proof (M _ _ H1). lra. }
  assert (Z : eqm al be /\ d = 0 -> cost o <= t' + p' + q').
  { intros [Z1 Z2]. pose proof (M LSR _ (LSR_zero al be d Z1 Z2)) as K. cbn in K. lra. }
  destruct w'.
  - destruct (LSL_least al be d Hb Hd t' p' q' Ht Hp Hq H) as [G|G]; auto.
  - apply Fin, LSR_least; assumption.
  - apply Fin, RSL_least; assumption.
  - destruct (RSR_least al be d Ha Hd t' p' q') as [G|G]; auto.
  - apply Fin, RLR_least; auto.
  - apply Fin, LRL_least; auto.
Qed.
