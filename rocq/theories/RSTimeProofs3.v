(* Paths with the law of one segment, and the loop on the segments. *)
From Coq Require Import Reals ZArith List Bool Lra Lia Psatz.
From Verif Require Import Base XReal CurvModel CurvSpec PolyProofs CurvProofs CurvProofs2 CurvProofs3 CurvProofs4.
From Verif Require Import RSTimeModel RSTimeSpec RSTimeProofs RSTimeProofs2.
Import ListNotations.
Open Scope R_scope.

(* the law in all the cases *)
Lemma law_cases i d A D M w : / 100000000 <= d -> 0 < A -> 0 < D -> 0 < M -> 0 <= i <= M -> 0 <= w <= M ->
  let q := add_segments (law_create i) d A D M w in
  exists e v f g h D', done q e v f g h i A D' M /\ 0 < law_end q /\ d <= e /\
    (w * w <= i * i + 2 * A * d -> v = w) /\ (i * i - w * w <= 2 * D * d -> D' = D) /\
    ((M * M - i * i) / (2 * A) + (M * M - w * w) / (2 * D) < d -> e = d + (M * M - w * w) / D) /\
    (d <= (M * M - i * i) / (2 * A) + (M * M - w * w) / (2 * D) -> w * w <= i * i + 2 * A * d -> e = d) /\
    (i * i + 2 * A * d < w * w -> v < w) /\ v <= w.
Proof.
  intros Hd HA HD HM Hi Hw q. change ((M * M - i * i) / (2 * A)) with (dac i A M). change ((M * M - w * w) / (2 * D)) with (dde D M w).
  destruct (Rlt_le_dec (2 * A * d) (w * w - i * i)) as [S|S].
  - destruct (short_case i d A D M w Hd HA HD Hi Hw S) as [e [v [f [g [h [P [T [E V]]]]]]]].
    exists e, v, f, g, h, D. split; [exact P|]. split; [exact T|]. split; [lra|]. split; [intros; lra|]. split; [reflexivity|].
    split; [|split; [intros _ K; lra|split; [intros _; exact V|lra]]]. intros Hp. exfalso. pose proof (dde_pos D M w HD Hw) as Q.
    unfold dac in Hp. assert (K : (M * M - i * i) / (2 * A) < d) by lra.
    apply (Rmult_lt_compat_r (2 * A)) in K; [|lra]. replace ((M * M - i * i) / (2 * A) * (2 * A)) with (M * M - i * i) in K by (field; lra). nra.
  - destruct (Rlt_le_dec (dac i A M + dde D M w) d) as [P|P].
    + destruct (plateau_case i d A D M w Hd HA HD HM Hi Hw P) as [f [g [h [Q T]]]].
      pose proof (dde_pos D M w HD Hw) as K.
      assert (E : d + 2 * dde D M w = d + (M * M - w * w) / D) by (unfold dde; field; lra).
      exists (d + 2 * dde D M w), w, f, g, h, D. split; [exact Q|]. split; [exact T|]. split; [lra|]. split; [reflexivity|].
      split; [reflexivity|]. split; [intros _; exact E|]. split; [intros; lra|]. split; intros; lra.
    + assert (P' : ~ dac i A M + dde D M w < d) by lra.
      destruct (Rlt_le_dec (2 * D * d) (i * i - w * w)) as [B|B].
      * destruct (brake_case i d A D M w Hd HA HD Hi Hw P' B) as [f [g [h [Q T]]]].
        exists d, w, f, g, h, ((i * i - w * w) / (2 * d)). split; [exact Q|]. split; [exact T|]. split; [lra|]. split; [reflexivity|].
        split; [intros; lra|]. split; [intros; contradiction|]. split; [reflexivity|]. split; intros; lra.
      * destruct (two_case i d A D M w Hd HA HD HM Hi Hw P' B S) as [f [g [h [Q T]]]].
        exists d, w, f, g, h, D. split; [exact Q|]. split; [exact T|]. split; [lra|]. split; [reflexivity|].
        split; [reflexivity|]. split; [intros; contradiction|]. split; [reflexivity|]. split; intros; lra.
Qed.

(* velocity along a path whose parameter varies *)
Lemma velocity_comp q f t a v : derivable_pt_lim f t a -> is_velocity q (f t) v -> is_velocity (fun u => q (f u)) t (scale a v).
Proof.
  intros F [X [Y [C [S J]]]]. unfold is_velocity, scale. cbn [vx vy vth vj].
  repeat split.
  - replace (vx v * a * cc (q (f t)) - vy v * a * cs (q (f t))) with ((vx v * cc (q (f t)) - vy v * cs (q (f t))) * a) by ring.
    apply (derivable_pt_lim_comp f (fun u => cx (q u)) t a _ F X).
  - replace (vx v * a * cs (q (f t)) + vy v * a * cc (q (f t))) with ((vx v * cs (q (f t)) + vy v * cc (q (f t))) * a) by ring.
    apply (derivable_pt_lim_comp f (fun u => cy (q u)) t a _ F Y).
  - replace (- (vth v * a) * cs (q (f t))) with (- vth v * cs (q (f t)) * a) by ring.
    apply (derivable_pt_lim_comp f (fun u => cc (q u)) t a _ F C).
  - replace (vth v * a * cc (q (f t))) with (vth v * cc (q (f t)) * a) by ring.
    apply (derivable_pt_lim_comp f (fun u => cs (q u)) t a _ F S).
  - intros k. apply (derivable_pt_lim_comp f (fun u => cj (q u) k) t a _ F (J k)).
Qed.

(* the same points, with other parameters *)
Lemma compute_params p F x : p_t0 p < p_t1 p -> 0 < F ->
  cc_compute (set_params p 0 F) x = cc_compute p (p_t0 p + (p_t1 p - p_t0 p) / F * x).
Proof.
  intros HL HF.
  assert (E : abscissa (set_params p 0 F) x = abscissa p (p_t0 p + (p_t1 p - p_t0 p) / F * x)).
  { unfold abscissa, param_length. cbn. destruct (reqb_spec (F - 0) 0); [lra|]. destruct (reqb_spec (p_t1 p - p_t0 p) 0); [lra|]. field. lra. }
  unfold cc_compute. rewrite E. reflexivity.
Qed.
Lemma derivative_params p F x : invariant p -> 0 < F ->
  exists v, cc_derivative (set_params p 0 F) x 1 = Ok v /\ is_velocity (cc_compute (set_params p 0 F)) x v /\
    vx v = p_cl p / F /\ vy v = 0 /\ vth v = p_kappa p * (p_cl p / F).
Proof.
  intros I HF. assert (HL : p_t0 (set_params p 0 F) < p_t1 (set_params p 0 F)) by exact HF.
  destruct (derivative_1_ok (set_params p 0 F) HL (inv_fwd p I) (inv_unit p I) x) as [v [E [V [H1 [H2 H3]]]]].
  exists v. unfold param_length in H1, H3. cbn in H1, H3. rewrite Rminus_0_r in H1, H3. auto.
Qed.

Section Segment.
Variables (p : cpath) (i A D M w : R).
Hypotheses (Ip : invariant p) (HA : 0 < A) (HD : 0 < D) (HM : 0 < M) (Hi : 0 <= i <= M) (Hw : 0 <= w <= M).
Hypothesis (HL : / 100000000 <= param_length p).
Let q := add_segments (law_create i) (param_length p) A D M w.

(* one segment: [r] is the ratio between its length and the value of the law
   at the end *)
Lemma segment_timed : exists tp F, time_parameterization p q 0 (law_end q) = Ok tp /\ tp_law tp = q /\
  tp_first tp = 0 /\ tp_second tp = law_end q /\ 0 < law_end q /\ param_length p <= F /\ law_value q (law_end q) = Ok F /\
  exists s ds, s 0 = p_t0 p /\ s (tp_second tp) = p_t1 p /\ (forall t, derivable_pt_lim s t (ds t)) /\
    (forall t, 0 <= t <= law_end q -> 0 <= ds t <= M * (param_length p / F) /\ tp_at tp t = Ok (cc_compute p (s t)) /\
       exists v, tp_derivative tp t = Ok v /\ is_velocity (fun u => cc_compute p (s u)) t v /\
         vx v = p_cl p / param_length p * ds t /\ vy v = 0 /\ vth v = p_kappa p * (p_cl p / param_length p) * ds t /\
         (ds t = 0 -> forall k, vj v k = 0)) /\
    ds 0 = i * (param_length p / F) /\
    (w * w <= i * i + 2 * A * param_length p -> ds (law_end q) = w * (param_length p / F)) /\
    (param_length p <= (M * M - i * i) / (2 * A) + (M * M - w * w) / (2 * D) -> w * w <= i * i + 2 * A * param_length p -> F = param_length p) /\
    ((M * M - i * i) / (2 * A) + (M * M - w * w) / (2 * D) < param_length p -> F = param_length p + (M * M - w * w) / D) /\
    ds (law_end q) <= w * (param_length p / F).
Proof.
  destruct (law_cases i (param_length p) A D M w HL HA HD HM Hi Hw) as [F [v [f [g [h [D' [P [T [E [V [_ [Fp' [Fd [_ Vw]]]]]]]]]]]]]].
  fold q in P, T. pose proof (d_motion _ _ _ _ _ _ _ _ _ _ P) as Mo. destruct P as [_ _ _ _ P0 Pe Pv Pz Pi].
  assert (V0 : law_value q 0 = Ok 0) by (rewrite (m_value _ _ _ _ _ _ _ Mo) by lra; rewrite Pz; reflexivity).
  assert (V1 : law_value q (law_end q) = Ok F) by (rewrite (m_value _ _ _ _ _ _ _ Mo) by lra; rewrite Pe; reflexivity).
  unfold time_parameterization. rewrite V0, V1. cbn [bind]. eexists; exists F.
  split; [reflexivity|]. cbn [tp_law tp_first tp_second]. repeat (split; [first [reflexivity | assumption]|]).
  set (L := param_length p) in *. assert (Lp : 0 < L) by (unfold L in *; lra). assert (Fp : 0 < F) by lra.
  assert (PL : p_t0 p < p_t1 p) by (unfold L, param_length in Lp; lra).
  exists (fun t => p_t0 p + L / F * f t), (fun t => L / F * g t).
  split; [rewrite Pz; ring|]. split; [rewrite Pe; unfold L, param_length; field; lra|]. split.
  { intros t. replace (L / F * g t) with (0 + L / F * g t) by ring.
    apply (derivable_pt_lim_plus (fun _ => p_t0 p) (fun u => L / F * f u)); [apply derivable_pt_lim_const|].
    apply (derivable_pt_lim_scal f), Mo. }
  assert (LF : 0 < L / F) by (apply Rdiv_lt_0_compat; assumption).
  split; [|split; [rewrite Pi; ring|split; [intros K; rewrite Pv, (V K); ring | split; [exact Fd | split; [exact Fp' | rewrite Pv; nra]]]]].
  intros t Ht. pose proof (m_limits _ _ _ _ _ _ _ Mo t Ht) as G. split; [split; [nra|]; nra|].
  split.
  { unfold tp_at. cbn [tp_law tp_path]. rewrite (m_value _ _ _ _ _ _ _ Mo) by exact Ht. cbn [bind]. f_equal. apply compute_params; assumption. }
  destruct (derivative_params p F (f t) Ip Fp) as [v0 [E0 [I0 [X0 [Y0 Z0]]]]].
  exists (scale (g t) v0). unfold tp_derivative. cbn [tp_law tp_path].
  rewrite (m_value _ _ _ _ _ _ _ Mo) by exact Ht. cbn [bind]. rewrite E0. cbn [bind].
  rewrite (m_derivative _ _ _ _ _ _ _ Mo) by exact Ht. cbn [bind]. split; [reflexivity|].
  split.
  { pose proof (velocity_comp _ f t (g t) v0 (m_velocity _ _ _ _ _ _ _ Mo t) I0) as K.
    assert (Q : forall u, cc_compute (set_params p 0 F) (f u) = cc_compute p (p_t0 p + L / F * f u)) by (intros; apply compute_params; assumption).
    clear - K Q. destruct K as [K1 [K2 [K3 [K4 K5]]]]. rewrite Q in *.
    unfold is_velocity. repeat split;
      try (eapply derivable_pt_lim_ext; [|eassumption]; intros u; cbn beta; rewrite Q; reflexivity).
    intros k. eapply derivable_pt_lim_ext; [|apply K5]; intros u; cbn beta; rewrite Q; reflexivity. }
  cbn [scale vx vy vth vj]. rewrite X0, Y0, Z0. repeat split; try ring; try (field; lra).
  intros H k. assert (g t = 0) by (apply Rmult_integral in H; destruct H; [lra|assumption]). rewrite H0. ring.
Qed.
End Segment.

(* limits of a segment *)
Lemma limits_ok c k m acc dec : valid c -> 0 <= k -> minLin c * k <= maxAng c -> limits c k = (m, acc, dec) ->
  0 < m <= maxLin c /\ minLin c <= m /\ k * m <= maxAng c /\ 0 < acc /\ 0 < dec.
Proof.
  intros [V1 [V2 [V3 [V4 V5]]]] Hk Hm. unfold limits. destruct (rltb_spec (k * maxLin c) (maxAng c)) as [H|H]; intros E; injection E as <- <- <-.
  - repeat split; lra.
  - assert (K : 0 < k) by nra. assert (P : 0 < maxAng c / k) by (apply Rdiv_lt_0_compat; assumption).
    assert (E : k * (maxAng c / k) = maxAng c) by (field; lra).
    repeat split.
    + exact P.
    + apply (Rmult_le_reg_l k); [exact K|]. rewrite E. lra.
    + apply (Rmult_le_reg_l k); [exact K|]. rewrite E. lra.
    + lra.
    + apply Rdiv_lt_0_compat; [nra|assumption].
    + apply Rdiv_lt_0_compat; [nra|assumption].
Qed.

Definition target (c : rst) (v0 : vel) (ps : list cpath) : R :=
  match ps with [] => 0 | next :: _ => if same_direction next v0 then minLin c else 0 end.
Definition keep (p : cpath) : bool := rltb rst_eps (param_length p).
Lemma eps_big : / 100000000 <= rst_eps. Proof. unfold rst_eps. apply Rinv_le_contravar; lra. Qed.

(* a kept segment *)
Lemma kept c i p ps : valid c -> drivable c p -> keep p = true -> (i = 0 \/ i = minLin c) ->
  exists v0 m acc dec tp F s ds, cc_derivative p (p_t1 p) 1 = Ok v0 /\ vx v0 = p_cl p / param_length p /\ vy v0 = 0 /\
    limits c (Rabs (vth v0)) = (m, acc, dec) /\
    (let q := add_segments (law_create i) (param_length p) acc dec m (target c v0 ps) in
     time_parameterization p q 0 (law_end q) = Ok tp /\ tp_second tp = law_end q /\ tp_first tp = 0 /\ 0 < law_end q) /\
    param_length p <= F /\
    (tp_at tp 0 = Ok (cc_compute p (p_t0 p)) /\
    s 0 = p_t0 p /\ s (tp_second tp) = p_t1 p /\ (forall t, derivable_pt_lim s t (ds t)) /\
    (forall t, 0 <= t <= tp_second tp -> 0 <= ds t <= m * (param_length p / F) /\ tp_at tp t = Ok (cc_compute p (s t)) /\
       exists v, tp_derivative tp t = Ok v /\ is_velocity (fun u => cc_compute p (s u)) t v /\
         vx v = p_cl p / param_length p * ds t /\ vy v = 0 /\ vth v = p_kappa p * (p_cl p / param_length p) * ds t /\
         (ds t = 0 -> forall k, vj v k = 0)) /\
    ds 0 = i * (param_length p / F)) /\
    (target c v0 ps * target c v0 ps <= i * i + 2 * acc * param_length p -> ds (tp_second tp) = target c v0 ps * (param_length p / F)) /\
    (param_length p <= (m * m - i * i) / (2 * acc) + (m * m - target c v0 ps * target c v0 ps) / (2 * dec) ->
     target c v0 ps * target c v0 ps <= i * i + 2 * acc * param_length p -> F = param_length p) /\
    retimed (maxLin c) (maxAng c) p tp /\
    law_value (tp_law tp) (tp_second tp) = Ok F /\ 0 < acc /\ vth v0 = p_kappa p * (p_cl p / param_length p) /\
    ((m * m - i * i) / (2 * acc) + (m * m - target c v0 ps * target c v0 ps) / (2 * dec) < param_length p ->
     F = param_length p + (m * m - target c v0 ps * target c v0 ps) / dec) /\
    ds (tp_second tp) <= minLin c.
Proof.
  intros Hv [Bp [Cl Tn]] Hk Hi. assert (Ip := built_invariant p Bp).
  assert (Lp : rst_eps < param_length p) by (unfold keep in Hk; destruct (rltb_spec rst_eps (param_length p)); [assumption|discriminate]).
  pose proof eps_big as Eb. assert (L0 : 0 < param_length p) by lra.
  assert (HL : p_t0 p < p_t1 p) by (unfold param_length in L0; lra).
  destruct (derivative_1_ok p HL (inv_fwd p Ip) (inv_unit p Ip) (p_t1 p)) as [v0 [E [_ [X [Y Z]]]]].
  assert (Hk2 : minLin c * Rabs (vth v0) <= maxAng c).
  { rewrite Z. unfold Rdiv. rewrite !Rabs_mult, (Rabs_right (/ param_length p)) by (apply Rle_ge, Rlt_le, Rinv_0_lt_compat, L0).
    apply (Rmult_le_reg_r (param_length p)); [exact L0|]. fold (param_length p) in Tn.
    replace (minLin c * (Rabs (p_kappa p) * (Rabs (p_cl p) * / param_length p)) * param_length p)
      with (minLin c * (Rabs (p_kappa p) * Rabs (p_cl p))) by (field; lra). exact Tn. }
  destruct (limits c (Rabs (vth v0))) as [[m acc] dec] eqn:Lm.
  destruct (limits_ok c _ m acc dec Hv (Rabs_pos _) Hk2 Lm) as [[M0 M1] [M2 [M3 [A0 D0]]]].
  destruct Hv as [V1 [V2 [V3 [V4 V5]]]].
  assert (Ib : 0 <= i <= m) by (destruct Hi as [-> | ->]; lra).
  assert (Wb : 0 <= target c v0 ps <= m) by (unfold target; destruct ps; [lra|]; destruct (same_direction c0 v0); lra).
  destruct (segment_timed p i acc dec m (target c v0 ps) Ip A0 D0 M0 Ib Wb ltac:(lra))
    as [tp [F [E1 [E2 [E3 [E4 [E5 [E6 [E7 [s [ds [S0 [S1 [Sd [St [D1 [D2 [D3 [D4 D5]]]]]]]]]]]]]]]]]]].
  exists v0, m, acc, dec, tp, F, s, ds. rewrite E4 in *. split; [exact E|]. split; [exact X|]. split; [exact Y|]. split; [exact Lm|].
  split; [repeat split; assumption|]. split; [exact E6|].
  split; [|split; [exact D2|split; [exact D3|split; [|split; [rewrite E2; exact E7|split; [exact A0|split; [exact Z|split; [exact D4|]]]]]]]].
  { split; [|split; [exact S0|split; [exact S1|split; [exact Sd|split; [exact St|exact D1]]]]]. destruct (St 0 ltac:(lra)) as [_ [K _]]. rewrite S0 in K. exact K. }
  2:{ assert (K : param_length p / F <= 1) by (apply (Rmult_le_reg_r F); [lra|]; unfold Rdiv; rewrite Rmult_assoc, Rinv_l by lra; lra).
      assert (K0 : 0 < param_length p / F) by (apply Rdiv_lt_0_compat; lra).
      assert (K2 : 0 <= target c v0 ps <= minLin c) by (unfold target; destruct ps; [lra|]; destruct (same_direction c0 v0); lra). nra. }
  unfold retimed. rewrite E3, E4. split; [reflexivity|]. split; [exact E5|]. exists s, ds. split; [exact S0|]. split; [exact S1|].
  split; [exact Sd|]. intros t Ht. destruct (St t Ht) as [G [Ea [v [Ev [Iv [Vx [Vy [Vt _]]]]]]]]. split; [lra|]. split; [exact Ea|].
  exists v. split; [exact Ev|]. split; [exact Iv|].
  assert (Fr : param_length p / F <= 1).
  { apply (Rmult_le_reg_r F); [lra|]. unfold Rdiv. rewrite Rmult_assoc, Rinv_l by lra. lra. }
  assert (Db : 0 <= ds t <= m) by nra.
  assert (Kx : Rabs (p_cl p / param_length p) <= 1).
  { unfold Rdiv. rewrite Rabs_mult, (Rabs_right (/ param_length p)) by (apply Rle_ge, Rlt_le, Rinv_0_lt_compat, L0).
    apply (Rmult_le_reg_r (param_length p)); [exact L0|]. rewrite Rmult_assoc, Rinv_l by lra. fold (param_length p) in Cl. lra. }
  rewrite Vx, Vt, Z in *. split; [|split; [exact Vy|]]; rewrite Rabs_mult, (Rabs_right (ds t)) by lra.
  - pose proof (Rabs_pos (p_cl p / param_length p)). nra.
  - pose proof (Rabs_pos (p_kappa p * (p_cl p / param_length p))). nra.
Qed.

Lemma loop_keep c i p ps v0 m acc dec tp : keep p = true -> cc_derivative p (p_t1 p) 1 = Ok v0 ->
  limits c (Rabs (vth v0)) = (m, acc, dec) ->
  (let q := add_segments (law_create i) (param_length p) acc dec m (target c v0 ps) in
   time_parameterization p q 0 (law_end q) = Ok tp) ->
  optimize_loop c i (p :: ps) = (do r <- optimize_loop c (minLin c) ps ; Ok (tp :: r)).
Proof.
  intros K E Lm T. cbn [optimize_loop]. fold (keep p). rewrite K, E. cbn [bind]. rewrite Lm.
  fold (target c v0 ps). cbv zeta in T. rewrite T. reflexivity.
Qed.
Lemma loop_skip c i p ps : keep p = false -> optimize_loop c i (p :: ps) = optimize_loop c i ps.
Proof. intros K. cbn [optimize_loop]. fold (keep p). rewrite K. reflexivity. Qed.

Lemma loop_ok c ps : valid c -> Forall (drivable c) ps -> forall i, i = 0 \/ i = minLin c ->
  exists r, optimize_loop c i ps = Ok r /\ Forall2 (retimed (maxLin c) (maxAng c)) (filter keep ps) r.
Proof.
  intros Hv. induction 1 as [|p ps Hp Hps IH]; intros i Hi; [exists []; split; constructor|].
  cbn [filter]. destruct (keep p) eqn:K.
  - destruct (kept c i p ps Hv Hp K Hi) as [v0 [m [acc [dec [tp [F [s [ds [E [_ [_ [Lm [[T _] [_ [_ [_ [_ [Rt _]]]]]]]]]]]]]]]]]].
    rewrite (loop_keep c i p ps v0 m acc dec tp K E Lm T).
    destruct (IH (minLin c) (or_intror eq_refl)) as [r [Er Fr]]. rewrite Er. exists (tp :: r). split; [reflexivity|]. constructor; assumption.
  - rewrite loop_skip by exact K. apply IH, Hi.
Qed.

Lemma loop_starts c ps : valid c -> Forall (drivable c) ps -> forall tp r, optimize_loop c 0 ps = Ok (tp :: r) ->
  exists v, tp_derivative tp 0 = Ok v /\ at_rest v.
Proof.
  intros Hv. induction 1 as [|p ps Hp Hps IH]; intros tp r E; [discriminate|]. destruct (keep p) eqn:K.
  - destruct (kept c 0 p ps Hv Hp K (or_introl eq_refl)) as [v0 [m [acc [dec [tp' [F [s [ds [E0 [_ [_ [Lm [[T [T2 [_ T3]]] [_ [[_ [_ [_ [_ [St D0]]]]] _]]]]]]]]]]]]]]].
    rewrite (loop_keep c 0 p ps v0 m acc dec tp' K E0 Lm T) in E.
    destruct (optimize_loop c (minLin c) ps); cbn [bind] in E; try discriminate. injection E as -> ->.
    rewrite T2 in St. destruct (St 0 ltac:(lra)) as [_ [_ [v [Ev [_ [X [Y [Z J]]]]]]]]. exists v. split; [exact Ev|].
    rewrite Rmult_0_l in D0. rewrite D0 in X, Z. split; [lra|]. split; [exact Y|]. split; [lra|]. apply J, D0.
  - rewrite loop_skip in E by exact K. exact (IH _ _ E).
Qed.

Lemma loop_ends c p : valid c -> drivable c p -> keep p = true -> forall ps, Forall (drivable c) ps -> forall i, i = 0 \/ i = minLin c ->
  exists r tp v, optimize_loop c i (ps ++ [p]) = Ok (r ++ [tp]) /\ tp_derivative tp (tp_second tp) = Ok v /\ at_rest v.
Proof.
  intros Hv Hp K. induction 1 as [|p' ps Hp' Hps IH]; intros i Hi; cbn [app].
  - destruct (kept c i p [] Hv Hp K Hi) as [v0 [m [acc [dec [tp [F [s [ds [E0 [_ [_ [Lm [[T [T2 [_ T3]]] [Fl [[_ [_ [_ [_ [St D0]]]]] [D1 [_ [_ [_ [A0 _]]]]]]]]]]]]]]]]]]]].
    rewrite (loop_keep c i p [] v0 m acc dec tp K E0 Lm T). cbn [optimize_loop bind].
    assert (L0 : 0 < param_length p).
    { pose proof eps_big. unfold keep in K. destruct (rltb_spec rst_eps (param_length p)) as [L|]; [lra|discriminate]. }
    assert (Ds : ds (tp_second tp) = 0).
    { cbn [target] in D1. rewrite D1; [ring|]. pose proof (Rle_0_sqr i). unfold Rsqr in *. nra. }
    rewrite T2 in St. destruct (St (tp_second tp) ltac:(rewrite T2; lra)) as [_ [_ [v [Ev [_ [X [Y [Z J]]]]]]]].
    exists [], tp, v. split; [reflexivity|]. split; [exact Ev|]. rewrite Ds in X, Z. split; [lra|]. split; [exact Y|]. split; [lra|]. apply J, Ds.
  - destruct (keep p') eqn:K'.
    + destruct (kept c i p' (ps ++ [p]) Hv Hp' K' Hi) as [v0 [m [acc [dec [tp' [F [s [ds [E [_ [_ [Lm [[T _] _]]]]]]]]]]]]].
      destruct (IH (minLin c) (or_intror eq_refl)) as [r [tp [v [Er [Ev Rv]]]]].
      exists (tp' :: r), tp, v. rewrite (loop_keep c i p' _ v0 m acc dec tp' K' E Lm T), Er. split; [reflexivity|]. split; assumption.
    + rewrite loop_skip by exact K'. apply IH, Hi.
Qed.

(* velocity at the ends of each segment *)
Definition slow_ends (lim : R) (tp : tpath) : Prop :=
  exists v v', tp_derivative tp 0 = Ok v /\ tp_derivative tp (tp_second tp) = Ok v' /\ Rabs (vx v) <= lim /\ Rabs (vx v') <= lim.
Lemma loop_slow c ps : valid c -> Forall (drivable c) ps -> forall i, i = 0 \/ i = minLin c -> forall r, optimize_loop c i ps = Ok r ->
  Forall (slow_ends (minLin c)) r.
Proof.
  intros Hv. induction 1 as [|p ps Hp Hps IH]; intros i Hi r E; [injection E as <-; constructor|]. destruct (keep p) eqn:K.
  - destruct (kept c i p ps Hv Hp K Hi) as [v0 [m [acc [dec [tp' [F [s [ds [E0 [_ [_ [Lm [[T [T2 [_ T3]]] [Fl [[_ [_ [_ [_ [St D0]]]]]
      [_ [_ [_ [_ [_ [_ [_ D5]]]]]]]]]]]]]]]]]]]]]].
    rewrite (loop_keep c i p ps v0 m acc dec tp' K E0 Lm T) in E.
    destruct (optimize_loop c (minLin c) ps) eqn:Er; cbn [bind] in E; try discriminate. injection E as <-.
    constructor; [|exact (IH _ (or_intror eq_refl) _ Er)].
    assert (L0 : 0 < param_length p) by (pose proof eps_big; unfold keep in K; destruct (rltb_spec rst_eps (param_length p)); [lra|discriminate]).
    assert (K1 : param_length p / F <= 1) by (apply (Rmult_le_reg_r F); [lra|]; unfold Rdiv; rewrite Rmult_assoc, Rinv_l by lra; lra).
    assert (K0 : 0 < param_length p / F) by (apply Rdiv_lt_0_compat; lra).
    assert (Ib : 0 <= i <= minLin c) by (destruct Hv as [[? ?] _]; destruct Hi; subst; lra).
    assert (Kx : Rabs (p_cl p / param_length p) <= 1).
    { destruct Hp as [_ [Cl _]]. unfold Rdiv. rewrite Rabs_mult, (Rabs_right (/ param_length p)) by (apply Rle_ge, Rlt_le, Rinv_0_lt_compat, L0).
      apply (Rmult_le_reg_r (param_length p)); [exact L0|]. rewrite Rmult_assoc, Rinv_l by lra. fold (param_length p) in Cl. lra. }
    pose proof (Rabs_pos (p_cl p / param_length p)).
    destruct (St 0 ltac:(lra)) as [B0 [_ [v [Ev [_ [X _]]]]]]. destruct (St (tp_second tp') ltac:(lra)) as [B1 [_ [v' [Ev' [_ [X' _]]]]]].
    exists v, v'. split; [exact Ev|]. split; [exact Ev'|]. rewrite X, X', !Rabs_mult, (Rabs_right (ds 0)), (Rabs_right (ds (tp_second tp'))) by lra.
    split; nra.
  - rewrite loop_skip in E by exact K. exact (IH i Hi r E).
Qed.

(* two consecutive segments *)
Lemma pair c p1 p2 : valid c -> drivable c p1 -> drivable c p2 -> keep p1 = true -> keep p2 = true ->
  exists v0 m1 acc1 dec1 tp1 F1 v1 m2 acc2 dec2 tp2 F2 v2,
    cc_derivative p1 (p_t1 p1) 1 = Ok v0 /\ vx v0 = p_cl p1 / param_length p1 /\ vy v0 = 0 /\
    rs_optimize c [p1; p2] = Ok [tp1; tp2] /\
    param_length p1 <= F1 /\ param_length p2 <= F2 /\
    tp_derivative tp1 (tp_second tp1) = Ok v1 /\ tp_derivative tp2 0 = Ok v2 /\
    vx v2 = p_cl p2 / F2 * minLin c /\
    (same_direction p2 v0 = false -> at_rest v1) /\
    limits c (Rabs (p_kappa p1 * (p_cl p1 / param_length p1))) = (m1, acc1, dec1) /\
    limits c (Rabs (p_kappa p2 * (p_cl p2 / param_length p2))) = (m2, acc2, dec2) /\
    (same_direction p2 v0 = true -> minLin c * minLin c <= 2 * acc1 * param_length p1 ->
     vx v1 = p_cl p1 / F1 * minLin c /\
     (m1 * m1 / (2 * acc1) + (m1 * m1 - minLin c * minLin c) / (2 * dec1) < param_length p1 ->
        F1 = param_length p1 + (m1 * m1 - minLin c * minLin c) / dec1)) /\
    (param_length p2 <= (m2 * m2 - minLin c * minLin c) / (2 * acc2) + m2 * m2 / (2 * dec2) -> F2 = param_length p2) /\
    law_value (tp_law tp1) (tp_second tp1) = Ok F1 /\ law_value (tp_law tp2) (tp_second tp2) = Ok F2.
Proof.
  intros Hv H1 H2 K1 K2.
  destruct (kept c 0 p1 [p2] Hv H1 K1 (or_introl eq_refl)) as [v0 [m1 [a1 [d1 [tp1 [F1 [s1 [ds1 [E1 [X1 [Y1 [Lm1 [[T1 [U1 [_ W1]]]
    [Fl1 [[_ [_ [_ [_ [St1 _]]]]] [D1 [D1' [_ [V1 [A1 [Z1 [P1 _]]]]]]]]]]]]]]]]]]]]]].
  destruct (kept c (minLin c) p2 [] Hv H2 K2 (or_intror eq_refl)) as [v0' [m2 [a2 [d2 [tp2 [F2 [s2 [ds2 [E2 [X2 [Y2 [Lm2 [[T2 [U2 [_ W2]]]
    [Fl2 [[_ [_ [_ [_ [St2 D2]]]]] [D2' [D2'' [_ [V2 [A2 [Z2 [P2 _]]]]]]]]]]]]]]]]]]]]]].
  assert (L1 : 0 < param_length p1) by (pose proof eps_big; unfold keep in K1; destruct (rltb_spec rst_eps (param_length p1)); [lra|discriminate]).
  assert (L2 : 0 < param_length p2) by (pose proof eps_big; unfold keep in K2; destruct (rltb_spec rst_eps (param_length p2)); [lra|discriminate]).
  destruct (St1 (tp_second tp1) ltac:(lra)) as [_ [_ [v1 [Ev1 [_ [Xv1 [Yv1 [Zv1 J1]]]]]]]].
  destruct (St2 0 ltac:(lra)) as [_ [_ [v2 [Ev2 [_ [Xv2 _]]]]]].
  exists v0, m1, a1, d1, tp1, F1, v1, m2, a2, d2, tp2, F2, v2.
  split; [exact E1|]. split; [exact X1|]. split; [exact Y1|]. split.
  { unfold rs_optimize. rewrite (loop_keep c 0 p1 [p2] v0 m1 a1 d1 tp1 K1 E1 Lm1 T1).
    rewrite (loop_keep c (minLin c) p2 [] v0' m2 a2 d2 tp2 K2 E2 Lm2 T2). reflexivity. }
  split; [exact Fl1|]. split; [exact Fl2|]. split; [exact Ev1|]. split; [exact Ev2|]. split.
  { rewrite Xv2, D2. field. lra. }
  cbn [target] in *. split.
  { intros Sd. rewrite Sd in D1. assert (Ds : ds1 (tp_second tp1) = 0) by (rewrite D1; [ring|nra]).
    rewrite Ds in Xv1, Zv1. split; [lra|]. split; [exact Yv1|]. split; [lra|]. exact (J1 Ds). }
  rewrite Z1 in Lm1. rewrite Z2 in Lm2. split; [exact Lm1|]. split; [exact Lm2|]. split.
  { intros Sd Hf. rewrite Sd in D1, P1. split.
    - rewrite Xv1, D1 by lra. field. lra.
    - intros Hp. apply P1. replace ((m1 * m1 - 0 * 0) / (2 * a1)) with (m1 * m1 / (2 * a1)) by (f_equal; ring). exact Hp. }
  split.
  { intros Hp. apply D2''; [replace (m2 * m2 - 0 * 0) with (m2 * m2) by ring; exact Hp|]. pose proof (Rle_0_sqr (minLin c)). unfold Rsqr in *. nra. }
  auto.
Qed.
