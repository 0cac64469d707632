(* Reeds and Shepp: from the normalised problem to the configurations. *)
From Coq Require Import Reals ZArith List Bool Lia Lra.
From Verif Require Import Base XReal PolyProofs CurvModel CurvSpec CurvProofs CurvProofs2 CurvProofs3 AngleProofs CurvProofs4
  DubinsModel DubinsSpec DubinsProofs DubinsProofs2 DubinsProofs3 DubinsProofs4 DubinsProps RSModel RSSpec RSProofs RSProofs2 RSProofs3 RSProofs4 RSProofs5.
Import ListNotations.
Open Scope R_scope.

Section Params.
Variables (rho : R) (q0 q1 : cfg) (x y c s phi : R).
Hypothesis Hr : 0 < rho.
Hypothesis U0 : unit_heading q0.
Hypothesis U1 : unit_heading q1.
Hypothesis E : rs_params rho q0 q1 = (x, y, c, s, phi).
Definition ang (q : cfg) : R := atan2 (cs q) (cc q).
Lemma ang_at q : unit_heading q -> at_angle q (ang q).
Proof. intros U. destruct (polar_unit (cc q) (cs q) U) as [A B]. split; symmetry; assumption. Qed.

Lemma params_eq : x = ((cx q1 - cx q0) * cc q0 + (cy q1 - cy q0) * cs q0) / rho /\
  y = (- (cx q1 - cx q0) * cs q0 + (cy q1 - cy q0) * cc q0) / rho /\ c = cos phi /\ s = sin phi /\ - PI < phi <= PI /\
  eqm (ang q0 + phi) (ang q1).
Proof.
  unfold rs_params, rotate in E. injection E as <- <- <- <- <-. split; [reflexivity|]. split; [reflexivity|].
  unfold unit_heading in *.
  destruct (polar_unit (cc q1 * cc q0 + cs q1 * cs q0) (- cc q1 * cs q0 + cs q1 * cc q0)) as [P Q].
  { transitivity ((cc q1 * cc q1 + cs q1 * cs q1) * (cc q0 * cc q0 + cs q0 * cs q0)); [ring | rewrite U0, U1; ring]. }
  rewrite P, Q. split; [reflexivity|]. split; [reflexivity|]. split; [apply atan2_bound|].
  destruct (ang_at q0 U0) as [A0 B0], (ang_at q1 U1) as [A1 B1].
  apply cos_sin_eqm.
  - rewrite cos_plus, P, Q, <- A0, <- B0, <- A1.
    transitivity (cc q1 * (cc q0 * cc q0 + cs q0 * cs q0)); [ring | rewrite U0; ring].
  - rewrite sin_plus, P, Q, <- A0, <- B0, <- B1.
    transitivity (cs q1 * (cc q0 * cc q0 + cs q0 * cs q0)); [ring | rewrite U0; ring].
Qed.

(* a word that leads to the normalised goal leads to the goal *)
Lemma ends_goal ss ls : (ends ss ls x y phi <->
  cx q1 = cx q0 + rho * wx ss ls (ang q0) /\ cy q1 = cy q0 + rho * wy ss ls (ang q0) /\ at_angle q1 (wa ss ls (ang q0))).
Proof.
  destruct params_eq as [Ex [Ey [_ [_ [_ Ep]]]]].
  destruct (ang_at q0 U0) as [A0 B0], (ang_at q1 U1) as [A1 B1].
  destruct (word_at ss ls (ang q0)) as [-> [-> ->]]. rewrite <- A0, <- B0. unfold ends. unfold unit_heading in U0.
  set (X := wx ss ls 0). set (Y := wy ss ls 0). set (A := wa ss ls 0). split.
  - intros [EX [EY EA]]. rewrite EX, EY, Ex, Ey. split; [|split].
    + transitivity (cx q0 + (cx q1 - cx q0) * (cc q0 * cc q0 + cs q0 * cs q0)); [rewrite U0; ring | field; lra].
    + transitivity (cy q0 + (cy q1 - cy q0) * (cc q0 * cc q0 + cs q0 * cs q0)); [rewrite U0; ring | field; lra].
    + assert (K : eqm (A + ang q0) (ang q1)).
      { apply (eqm_trans _ (phi + ang q0)); [apply eqm_plus; [exact EA | apply eqm_refl]|]. rewrite Rplus_comm. exact Ep. }
      split; [rewrite A1; symmetry; apply eqm_cos, K | rewrite B1; symmetry; apply eqm_sin, K].
  - intros [EX [EY [EC ES]]].
    assert (X1 : X * rho = (cx q1 - cx q0) * cc q0 + (cy q1 - cy q0) * cs q0).
    { rewrite EX, EY. transitivity (X * rho * (cc q0 * cc q0 + cs q0 * cs q0)); [rewrite U0; ring | ring]. }
    assert (Y1 : Y * rho = - (cx q1 - cx q0) * cs q0 + (cy q1 - cy q0) * cc q0).
    { rewrite EX, EY. transitivity (Y * rho * (cc q0 * cc q0 + cs q0 * cs q0)); [rewrite U0; ring | ring]. }
    split; [rewrite Ex, <- X1; field; lra|]. split; [rewrite Ey, <- Y1; field; lra|].
    assert (K : eqm (A + ang q0) (ang q0 + phi)).
    { apply (eqm_trans _ (ang q1)); [|apply eqm_sym, Ep]. apply cos_sin_eqm; congruence. }
    replace A with (A + ang q0 - ang q0) by ring. replace phi with (ang q0 + phi - ang q0) by ring.
    apply eqm_minus; [exact K | apply eqm_refl].
Qed.

Lemma norm_gap : x * x + y * y = (gap q0 q1 / rho) ^ 2.
Proof.
  destruct params_eq as [-> [-> _]]. unfold gap. unfold unit_heading in U0.
  set (dx := cx q1 - cx q0). set (dy := cy q1 - cy q0).
  assert (K : sqrt (dx * dx + dy * dy) * sqrt (dx * dx + dy * dy) = dx * dx + dy * dy) by (apply sqrt_sqrt; nra).
  set (g := sqrt _) in *.
  transitivity ((dx * dx + dy * dy) * (cc q0 * cc q0 + cs q0 * cs q0) / (rho * rho)); [field; lra|].
  rewrite U0, <- K. field. lra.
Qed.
Lemma least_angle a a' : cc q0 = cos a -> cs q0 = sin a -> cc q1 = cos a' -> cs q1 = sin a' -> Rabs phi <= Rabs (a' - a).
Proof.
  intros H1 H2 H3 H4. destruct params_eq as [_ [_ [_ [_ [B Ep]]]]].
  destruct (ang_at q0 U0) as [A0 B0], (ang_at q1 U1) as [A1 B1].
  assert (K : eqm phi (a' - a)).
  { replace phi with (ang q0 + phi - ang q0) by ring. apply eqm_minus.
    - apply (eqm_trans _ (ang q1)); [exact Ep|]. apply cos_sin_eqm; congruence.
    - apply cos_sin_eqm; congruence. }
  destruct (Rle_or_lt (Rabs phi) (Rabs (a' - a))) as [G|G]; [exact G|]. exfalso.
  pose proof (Rabs_pos phi). assert (phi = a' - a); [|subst; lra].
  apply eqm_small; [exact K|]. unfold Rabs in G. destruct (Rcase_abs phi), (Rcase_abs (a' - a)); lra.
Qed.
Lemma near_apart : near x y phi = false <-> apart rho q0 q1.
Proof.
  unfold near, apart. rewrite norm_gap. split.
  - intros N a a' H1 H2 H3 H4. pose proof (least_angle a a' H1 H2 H3 H4) as K.
    destruct (rltb_spec ((gap q0 q1 / rho) ^ 2 + phi * phi) (/ 100000000)) as [|G]; [discriminate|].
    assert (phi * phi <= (a' - a) ^ 2).
    { replace ((a' - a) ^ 2) with (Rabs (a' - a) * Rabs (a' - a)).
      - replace (phi * phi) with (Rabs phi * Rabs phi) by (rewrite <- Rabs_mult; apply Rabs_right, Rle_ge, Rle_0_sqr).
        apply Rmult_le_compat; try apply Rabs_pos; exact K.
      - rewrite <- Rabs_mult, Rabs_right; [ring|]. apply Rle_ge, Rle_0_sqr. }
    lra.
  - intros H. destruct params_eq as [_ [_ [_ [_ [_ Ep]]]]].
    destruct (ang_at q0 U0) as [A0 B0], (ang_at q1 U1) as [A1 B1].
    specialize (H (ang q0) (ang q0 + phi) A0 B0). rewrite (eqm_cos _ _ Ep), (eqm_sin _ _ Ep) in H. specialize (H A1 B1).
    destruct (rltb_spec ((gap q0 q1 / rho) ^ 2 + phi * phi) (/ 100000000)) as [G|]; [|reflexivity].
    replace (ang q0 + phi - ang q0) with phi in H by ring. exfalso. nra.
Qed.
End Params.

(* ---- the path ---- *)
Lemma fits_length ty l : fits ty l -> (length l <= 5)%nat.
Proof.
  unfold fits. intros H.
  assert (El : length (rs_types ty) = length l) by (induction H; cbn; congruence). rewrite <- El. clear.
  do 18 (destruct ty as [|ty]; [cbn; lia|]). destruct ty; cbn; lia.
Qed.
Lemma err_mono n N : (n <= 5)%nat -> 0 <= N -> INR n * precision + N * (0 + INR n * precision) <= 5 * precision * (1 + N).
Proof.
  intros H HN. pose proof prec_pos. assert (INR n <= 5) by (replace 5 with (INR 5) by (cbn; ring); apply le_INR; exact H).
  assert (INR n * precision <= 5 * precision) by (apply Rmult_le_compat_r; lra).
  assert (N * (INR n * precision) <= N * (5 * precision)) by (apply Rmult_le_compat_l; lra). lra.
Qed.
Lemma trim_same ls : norm1 (trim ls) = norm1 ls -> trim ls = ls.
Proof.
  induction ls as [|l ls IH]; [reflexivity|]. cbn [trim map norm1 fold_right]. fold (trim ls) (norm1 (trim ls)) (norm1 ls).
  pose proof (trim_norm ls) as [K _]. intros H. pose proof (Rabs_pos l).
  destruct (rltb_spec precision (Rabs l)).
  - f_equal. apply IH. lra.
  - rewrite Rabs_R0 in H. assert (Rabs l = 0) by lra.
    assert (l = 0) by (destruct (Req_dec l 0) as [Z|Z]; [exact Z | apply Rabs_no_R0 in Z; contradiction]). subst l. f_equal. apply IH. lra.
Qed.

Lemma found rho q0 q1 x y c s phi : 0 < rho -> unit_heading q0 -> unit_heading q1 ->
  rs_params rho q0 q1 = (x, y, c, s, phi) ->
  exists ty ls, rs_search rho x y c s phi = Some (ty, ls) /\ candidate x y phi ty ls /\
    ends (segs (rs_types ty)) ls x y phi /\ fits ty ls /\
    sqrt (x * x + y * y) <= norm1 ls /\ Rabs phi <= norm1 ls.
Proof.
  intros Hr U0 U1 E. destruct (params_eq rho q0 q1 x y c s phi U0 U1 E) as [_ [_ [Ec [Es [B _]]]]]. subst c s.
  destruct (avail_candidate x y phi (avail_all x y phi ltac:(lra))) as [ty0 [l0 C0]].
  pose proof (search_some x y phi rho ty0 l0 C0) as S.
  destruct (rs_search rho x y (cos phi) (sin phi) phi) as [[ty ls]|] eqn:Er; [|contradiction].
  exists ty, ls. split; [reflexivity|]. pose proof (search_in x y phi rho ty ls Er) as C. split; [exact C|].
  destruct C as [L [e I]]. destruct (cands_good x y phi ty ls L e I) as [[EX [EY EA]] [F N]].
  split; [split; [exact EX|]; split; assumption|]. split; [exact F|]. split.
  - rewrite <- EX, <- EY. apply word_euclid.
  - pose proof (word_turn (segs (rs_types ty)) ls 0) as W. rewrite Rminus_0_r in W.
    destruct (Rle_or_lt (Rabs phi) (Rabs (wa (segs (rs_types ty)) ls 0))) as [G|G]; [lra|]. exfalso.
    assert (phi = wa (segs (rs_types ty)) ls 0); [|rewrite <- H in G; lra].
    apply eqm_small; [apply eqm_sym, EA|]. revert G. unfold Rabs. destruct (Rcase_abs phi), (Rcase_abs (wa _ _ _)); lra.
Qed.

Theorem path_spec rho ws extra q1 q2 : 0 < rho -> 0 <= extra -> can_steer rho ws ->
  unit_heading q1 -> unit_heading q2 -> apart rho q1 q2 ->
  exists ps q' D, rs_path rho ws extra q1 q2 = Ok ps /\ rs_distance rho extra q1 q2 = Ok (D + extra) /\
    0 < D /\ gap q1 q2 <= D /\ D - 5 * precision * rho <= travel ps <= D /\ 0 < travel ps /\
    linked q1 ps q' /\ close_place (5 * precision * (rho + D)) (5 * precision) q' q2 /\
    (forall k, ~ In k (map w_rank ws) -> cj q' k = cj q1 k + travel ps / D * (cj q2 k - cj q1 k)) /\
    Forall (rs_seg rho extra D ws) ps /\
    (travel ps = D -> same_but (map w_rank ws) q' q2).
Proof.
  intros Hr He Hw U1 U2 Ha. unfold rs_path, rs_distance.
  destruct (rs_params rho q1 q2) as [[[[x y] c] s] phi] eqn:E.
  pose proof (proj2 (near_apart rho q1 q2 x y c s phi Hr U1 U2 E) Ha) as N. rewrite N.
  destruct (found rho q1 q2 x y c s phi Hr U1 U2 E) as [ty [ls [Es [_ [En [F [G1 G2]]]]]]]. rewrite Es.
  set (D := rho * norm1 ls).
  assert (Np : / 20000 <= norm1 ls).
  { destruct (Rle_or_lt (/ 20000) (norm1 ls)) as [G|G]; [exact G|]. exfalso. unfold near in N.
    destruct (rltb_spec (x * x + y * y + phi * phi) (/ 100000000)) as [|M]; [discriminate|]. apply M.
    assert (K1 : x * x + y * y <= norm1 ls * norm1 ls).
    { rewrite <- (sqrt_sqrt (x * x + y * y)) by nra. apply Rmult_le_compat; try apply sqrt_pos; exact G1. }
    assert (K2 : phi * phi <= norm1 ls * norm1 ls).
    { replace (phi * phi) with (Rabs phi * Rabs phi) by (rewrite <- Rabs_mult; apply Rabs_right, Rle_ge, Rle_0_sqr).
      apply Rmult_le_compat; try apply Rabs_pos; exact G2. }
    pose proof (norm1_nonneg ls). assert (norm1 ls * norm1 ls < / 20000 * / 20000) by nra. lra. }
  assert (HD : 0 < D) by (apply Rmult_lt_0_compat; lra).
  pose proof (fits_length ty ls F) as Fl.
  destruct (trim_norm ls) as [T1 T2].
  assert (I5 : INR (length ls) * precision <= 5 * precision).
  { apply Rmult_le_compat_r; [pose proof prec_pos; lra|]. replace 5 with (INR 5) by (cbn; ring). apply le_INR, Fl. }
  destruct (rs_segments_ok rho extra D ws q1 q2 Hr He HD Hw (rs_types ty) ls q1 0 (ang q1) (types_tailed ty) F (ang_at q1 U1))
    as [ps [q' [Ep [Lk [X [Y [A [Fs [Tr J]]]]]]]]].
  { intros k _. unfold Rdiv. ring. }
  exists ps, q', D. split; [exact Ep|]. split; [reflexivity|]. split; [exact HD|].
  split.
  { rewrite (norm_gap rho q1 q2 x y c s phi Hr U1 U2 E) in G1.
    assert (Gp : 0 <= gap q1 q2 / rho) by (apply Rmult_le_pos; [apply sqrt_pos | left; apply Rinv_0_lt_compat, Hr]).
    replace ((gap q1 q2 / rho) ^ 2) with (gap q1 q2 / rho * (gap q1 q2 / rho)) in G1 by ring. rewrite sqrt_square in G1 by exact Gp.
    apply (Rmult_le_compat_l rho) in G1; [|lra]. replace (rho * (gap q1 q2 / rho)) with (gap q1 q2) in G1 by (field; lra). exact G1. }
  split.
  { rewrite Tr. unfold D. split.
    - assert (rho * norm1 ls <= rho * (norm1 (trim ls) + 5 * precision)) by (apply Rmult_le_compat_l; lra). lra.
    - apply Rmult_le_compat_l; lra. }
  split.
  { rewrite Tr. apply Rmult_lt_0_compat; [exact Hr|]. unfold precision in *. lra. }
  split; [exact Lk|].
  apply (ends_goal rho q1 q2 x y c s phi Hr U1 U2 E) in En. destruct En as [X2 [Y2 [C2 S2]]]. destruct A as [C S].
  split.
  { pose proof (trim_err (segs (rs_types ty)) ls (ang q1) (ang q1)) as [E1 E2]. pose proof (trim_angle (segs (rs_types ty)) ls (ang q1) (ang q1)) as E3.
    replace (ang q1 - ang q1) with 0 in E1, E2, E3 by ring. rewrite Rabs_R0 in E1, E2, E3.
    pose proof (err_mono (length ls) (norm1 ls) Fl (norm1_nonneg ls)) as M.
    assert (Sc : forall u v, Rabs (u - v) <= 5 * precision * (1 + norm1 ls) ->
              Rabs (rho * v - rho * u) <= 5 * precision * (rho + D)).
    { intros u v H. rewrite <- Rmult_minus_distr_l, Rabs_mult, (Rabs_right rho), (Rabs_minus_sym v u) by lra.
      apply (Rmult_le_compat_l rho) in H; [|lra]. unfold D. lra. }
    split; [|split; [|split]].
    - rewrite X, X2. replace (cx q1 + rho * wx (segs (rs_types ty)) (trim ls) (ang q1) - (cx q1 + rho * wx (segs (rs_types ty)) ls (ang q1))) with
        (rho * wx (segs (rs_types ty)) (trim ls) (ang q1) - rho * wx (segs (rs_types ty)) ls (ang q1)) by ring.
      apply Sc. lra.
    - rewrite Y, Y2. replace (cy q1 + rho * wy (segs (rs_types ty)) (trim ls) (ang q1) - (cy q1 + rho * wy (segs (rs_types ty)) ls (ang q1))) with
        (rho * wy (segs (rs_types ty)) (trim ls) (ang q1) - rho * wy (segs (rs_types ty)) ls (ang q1)) by ring.
      apply Sc. lra.
    - rewrite C, C2, Rabs_minus_sym. apply (Rle_trans _ _ _ (cos_lip _ _)). lra.
    - rewrite S, S2, Rabs_minus_sym. apply (Rle_trans _ _ _ (sin_lip _ _)). lra. }
  split; [intros k Hk; rewrite (J k Hk), Rplus_0_l; reflexivity|].
  split; [exact Fs|].
  intros ET. assert (Et : trim ls = ls).
  { apply trim_same. apply (Rmult_eq_reg_l rho); [|lra]. rewrite <- Tr. exact ET. }
  rewrite Et in X, Y, C, S. split; [congruence|]. split; [congruence|]. split; [congruence|]. split; [congruence|].
  intros k Hk. rewrite (J k Hk), Rplus_0_l, ET. replace (D / D) with 1 by (field; lra). ring.
Qed.
