(* Time parameterization of Reeds and Shepp paths: properties C84 to C86. *)
From Coq Require Import Reals ZArith List Bool Lra Lia Psatz.
From Verif Require Import Base XReal CurvModel CurvSpec PolyProofs CurvProofs CurvProofs2 CurvProofs3 CurvProofs4.
From Verif Require Import RSTimeModel RSTimeSpec RSTimeProofs RSTimeProofs2 RSTimeProofs3.
Import ListNotations.
Open Scope R_scope.

(* C84: the law of one segment.  [i] initial velocity, [d] distance, [A] and
   [D] acceleration and deceleration, [M] maximal velocity, [w] velocity
   wanted at the end. *)
Theorem C84_law i d A D M w :
  / 100000000 <= d -> 0 < A -> 0 < D -> 0 < M -> 0 <= i <= M -> 0 <= w <= M ->
  let q := add_segments (law_create i) d A D M w in
  0 < law_end q /\
  exists f g D', motion q (law_end q) f g A D' M /\ f 0 = 0 /\ g 0 = i /\ d <= f (law_end q) /\
    g (law_end q) <= w /\ (w * w <= i * i + 2 * A * d -> g (law_end q) = w) /\
    (i * i - w * w <= 2 * D * d -> D' = D).
Proof.
  intros Hd HA HD HM Hi Hw q. destruct (law_cases i d A D M w Hd HA HD HM Hi Hw) as [e [v [f [g [h [D' [P [T [E [V [Dd [_ [_ [_ Vw]]]]]]]]]]]]]].
  split; [exact T|]. exists f, g, D'. fold q in P, T. destruct P as [Mo _ _ _ _ Pe Pv P0 Pi].
  split; [exact Mo|]. split; [exact P0|]. split; [exact Pi|]. split; [rewrite Pe; exact E|]. split; [rewrite Pv; exact Vw|]. split; [|exact Dd].
  intros K. rewrite Pv. exact (V K).
Qed.

(* The distance is covered exactly when the maximal velocity is not kept and
   the final velocity can be reached. *)
Theorem C84_distance_partial i d A D M w :
  / 100000000 <= d -> 0 < A -> 0 < D -> 0 < M -> 0 <= i <= M -> 0 <= w <= M ->
  d <= (M * M - i * i) / (2 * A) + (M * M - w * w) / (2 * D) -> w * w <= i * i + 2 * A * d ->
  let q := add_segments (law_create i) d A D M w in law_value q (law_end q) = Ok d.
Proof.
  intros Hd HA HD HM Hi Hw Hp Hf q. destruct (law_cases i d A D M w Hd HA HD HM Hi Hw) as [e [v [f [g [h [D' [P [T [_ [_ [_ [_ [E _]]]]]]]]]]]]].
  fold q in P, T. pose proof (d_motion _ _ _ _ _ _ _ _ _ _ P) as Mo. rewrite (m_value _ _ _ _ _ _ _ Mo) by lra.
  rewrite (d_e _ _ _ _ _ _ _ _ _ _ P), (E Hp Hf). reflexivity.
Qed.

(* When the maximal velocity is kept for some time, the law goes further than
   the distance. *)
Theorem C84_plateau_refuted i d A D M w :
  / 100000000 <= d -> 0 < A -> 0 < D -> 0 < M -> 0 <= i <= M -> 0 <= w <= M ->
  (M * M - i * i) / (2 * A) + (M * M - w * w) / (2 * D) < d ->
  let q := add_segments (law_create i) d A D M w in law_value q (law_end q) = Ok (d + (M * M - w * w) / D).
Proof.
  intros Hd HA HD HM Hi Hw Hp q. destruct (law_cases i d A D M w Hd HA HD HM Hi Hw) as [e [v [f [g [h [D' [P [T [_ [_ [_ [E _]]]]]]]]]]]].
  fold q in P, T. pose proof (d_motion _ _ _ _ _ _ _ _ _ _ P) as Mo. rewrite (m_value _ _ _ _ _ _ _ Mo) by lra.
  rewrite (d_e _ _ _ _ _ _ _ _ _ _ P), (E Hp). reflexivity.
Qed.

(* When the segment is too short to reach the final velocity, the law ends
   slower, although it goes further than the distance. *)
Theorem C84_target_refuted i d A D M w :
  / 100000000 <= d -> 0 < A -> 0 < D -> 0 < M -> 0 <= i <= M -> 0 <= w <= M -> i * i + 2 * A * d < w * w ->
  let q := add_segments (law_create i) d A D M w in exists v, law_derivative q (law_end q) 1 = Ok v /\ v < w.
Proof.
  intros Hd HA HD HM Hi Hw Hf q. destruct (law_cases i d A D M w Hd HA HD HM Hi Hw) as [e [v [f [g [h [D' [P [T [_ [_ [_ [_ [_ [E _]]]]]]]]]]]]]].
  fold q in P, T. pose proof (d_motion _ _ _ _ _ _ _ _ _ _ P) as Mo. exists v. rewrite (m_derivative _ _ _ _ _ _ _ Mo) by lra.
  rewrite (d_v _ _ _ _ _ _ _ _ _ _ P). split; [reflexivity | exact (E Hf)].
Qed.

(* one metre from rest to rest: no constant velocity; ten metres: one more
   metre; one centimetre to .3 m/s *)
Example C84_example :
  (let q := add_segments (law_create 0) 1 1 1 1 0 in law_value q (law_end q) = Ok 1) /\
  (let q := add_segments (law_create 0) 10 1 1 1 0 in law_value q (law_end q) = Ok (10 + 1)) /\
  (let q := add_segments (law_create 0) (/ 100) 1 1 1 (3 / 10) in exists v, law_derivative q (law_end q) 1 = Ok v /\ v < 3 / 10).
Proof.
  split; [|split].
  - apply C84_distance_partial; lra.
  - assert (E : law_value (add_segments (law_create 0) 10 1 1 1 0) (law_end (add_segments (law_create 0) 10 1 1 1 0)) =
      Ok (10 + (1 * 1 - 0 * 0) / 1)) by (apply C84_plateau_refuted; lra).
    cbv zeta. rewrite E. f_equal. field.
  - apply C84_target_refuted; lra.
Qed.

(* C85: bound of the velocity over an interval.  It holds when the robot does
   not both accelerate and brake in the interval. *)
Theorem C85_bound_partial i d A D M w low up :
  / 100000000 <= d -> 0 < A -> 0 < D -> 0 < M -> 0 <= i <= M -> 0 <= w <= M ->
  let q := add_segments (law_create i) d A D M w in
  0 <= low -> low <= up -> up <= law_end q ->
  (forall t, low < t <= up -> exists a, law_derivative q t 2 = Ok a /\ 0 <= a) \/
  (forall t, low < t <= up -> exists a, law_derivative q t 2 = Ok a /\ a <= 0) ->
  exists b, law_bound q low up = Ok b /\ forall t, low <= t <= up -> exists v, law_derivative q t 1 = Ok v /\ Rabs v <= b.
Proof.
  intros Hd HA HD HM Hi Hw q H0 Hlu Hu Hm.
  destruct (law_cases i d A D M w Hd HA HD HM Hi Hw) as [e [v [f [g [h [D' [P [T _]]]]]]]]. fold q in P, T.
  pose proof (d_motion _ _ _ _ _ _ _ _ _ _ P) as Mo. destruct P as [_ Ph Pu Pd _ _ _ _ _].
  unfold law_bound. rewrite !(m_derivative _ _ _ _ _ _ _ Mo) by lra. cbn [bind]. eexists. split; [reflexivity|].
  intros t Ht. exists (g t). rewrite (m_derivative _ _ _ _ _ _ _ Mo) by lra. split; [reflexivity|].
  assert (B : forall u, 0 <= u <= law_end q -> Rabs (g u) = g u).
  { intros u K. apply Rabs_right, Rle_ge. apply (m_limits _ _ _ _ _ _ _ Mo), K. }
  rewrite !B by lra. destruct Hm as [Hm|Hm].
  - apply Rle_trans with (g up); [|apply Rmax_r]. apply Pu; try lra. intros r Hr. destruct (Hm r ltac:(lra)) as [a [E Ha]].
    rewrite Ph in E by lra. injection E as ->. exact Ha.
  - apply Rle_trans with (g low); [|apply Rmax_l]. apply Pd; try lra. intros r Hr. destruct (Hm r ltac:(lra)) as [a [E Ha]].
    rewrite Ph in E by lra. injection E as ->. exact Ha.
Qed.

(* From rest to rest the bound over the whole interval is 0, and the robot
   moves. *)
Theorem C85_bound_refuted d A D M : / 100000000 <= d -> 0 < A -> 0 < D -> 0 < M ->
  let q := add_segments (law_create 0) d A D M 0 in
  law_bound q 0 (law_end q) = Ok 0 /\
  exists t v, 0 <= t <= law_end q /\ law_derivative q t 1 = Ok v /\ 0 < v.
Proof.
  intros Hd HA HD HM q.
  destruct (law_cases 0 d A D M 0 Hd HA HD HM ltac:(lra) ltac:(lra)) as [e [v [f [g [h [D' [P [T [E [V _]]]]]]]]]]. fold q in P, T.
  pose proof (d_motion _ _ _ _ _ _ _ _ _ _ P) as Mo. destruct P as [_ _ _ _ _ Pe Pv P0 Pi].
  rewrite V in Pv by nra. split.
  - unfold law_bound. rewrite !(m_derivative _ _ _ _ _ _ _ Mo) by lra. cbn [bind]. rewrite Pv, Pi, Rabs_R0, Rmax_left by lra. reflexivity.
  - destruct (MVT_cor2 f g 0 (law_end q) T (fun c _ => m_velocity _ _ _ _ _ _ _ Mo c)) as [c [Ec Hc]].
    exists c, (g c). split; [lra|]. split; [apply (m_derivative _ _ _ _ _ _ _ Mo); lra|].
    rewrite Pe, P0 in Ec. nra.
Qed.

(* The same for the bound of the velocity of the path: a path of one segment
   has bound 0 over its whole duration. *)
Theorem C85_path_refuted c p : valid c -> drivable c p -> rst_eps < p_t1 p - p_t0 p ->
  exists tp b, rs_optimize c [p] = Ok [tp] /\ retimed (maxLin c) (maxAng c) p tp /\
    tp_velocity_bound tp 0 (tp_second tp) = Ok b /\ vx b = 0 /\ vy b = 0 /\ vth b = 0 /\ forall k, vj b k = 0.
Proof.
  intros Hv Hp HL. assert (K : keep p = true) by (unfold keep, param_length; destruct (rltb_spec rst_eps (p_t1 p - p_t0 p)); [reflexivity|contradiction]).
  destruct (kept c 0 p [] Hv Hp K (or_introl eq_refl)) as [v0 [m [acc [dec [tp [F [s [ds [E0 [_ [_ [Lm [[T [T2 [T1 T3]]] [_ [_ [_ [_ [Rt [_ [A0 [Z _]]]]]]]]]]]]]]]]]]]]].
  cbn [target] in T, T2, T3.
  set (q := add_segments (law_create 0) (param_length p) acc dec m 0) in *.
  assert (Mp : 0 < m /\ 0 < dec).
  { destruct Hp as [_ [_ Tn]]. assert (L0 : 0 < param_length p) by (unfold param_length, rst_eps in *; lra).
    assert (Hk : minLin c * Rabs (vth v0) <= maxAng c).
    { rewrite Z. unfold Rdiv. rewrite !Rabs_mult, (Rabs_right (/ param_length p)) by (apply Rle_ge, Rlt_le, Rinv_0_lt_compat; lra).
      apply (Rmult_le_reg_r (param_length p)); [lra|]. fold (param_length p) in Tn.
      replace (minLin c * (Rabs (p_kappa p) * (Rabs (p_cl p) * / param_length p)) * param_length p)
        with (minLin c * (Rabs (p_kappa p) * Rabs (p_cl p))) by (field; lra). exact Tn. }
    destruct (limits_ok c _ m acc dec Hv (Rabs_pos _) Hk Lm) as [M1 [_ [_ [_ D1]]]]. split; lra. }
  assert (Hd : / 100000000 <= param_length p) by (pose proof eps_big; unfold param_length; lra).
  destruct (C85_bound_refuted (param_length p) acc dec m Hd A0 (proj2 Mp) (proj1 Mp)) as [Hb _]. fold q in Hb.
  destruct (C84_law 0 (param_length p) acc dec m 0 Hd A0 (proj2 Mp) (proj1 Mp) ltac:(lra) ltac:(lra)) as [_ [f [g [D' [Mo _]]]]]. fold q in Mo.
  assert (Lq : tp_law tp = q).
  { unfold time_parameterization in T. destruct (law_value q 0); try discriminate. cbn [bind] in T.
    destruct (law_value q (law_end q)); try discriminate. cbn [bind] in T. injection T as <-. reflexivity. }
  unfold tp_velocity_bound. exists tp. rewrite T1, T2, Lq, Hb, Rmax_left, Rmin_left by lra.
  rewrite !(m_value _ _ _ _ _ _ _ Mo) by lra. cbn [bind]. eexists.
  split. { unfold rs_optimize. rewrite (loop_keep c 0 p [] v0 m acc dec tp K E0 Lm T). reflexivity. }
  split; [exact Rt|]. split; [reflexivity|]. cbn [scale vx vy vth vj]. repeat split; intros; ring.
Qed.

(* C86: the optimizer keeps the segments longer than the threshold, in the
   same order, and gives each of them a law that drives along it within the
   limits. *)
Theorem C86_retimed c ps : valid c -> Forall (drivable c) ps ->
  exists r, rs_optimize c ps = Ok r /\
    Forall2 (retimed (maxLin c) (maxAng c)) (filter (fun p => rltb rst_eps (p_t1 p - p_t0 p)) ps) r.
Proof. intros Hv Hp. exact (loop_ok c ps Hv Hp 0 (or_introl eq_refl)). Qed.

(* It starts at rest, and ends at rest when the last segment is kept. *)
Theorem C86_starts c ps tp r : valid c -> Forall (drivable c) ps -> rs_optimize c ps = Ok (tp :: r) ->
  exists v, tp_derivative tp 0 = Ok v /\ at_rest v.
Proof. intros Hv Hp E. exact (loop_starts c ps Hv Hp tp r E). Qed.
Theorem C86_ends_partial c ps p : valid c -> Forall (drivable c) ps -> drivable c p -> rst_eps < p_t1 p - p_t0 p ->
  exists r tp v, rs_optimize c (ps ++ [p]) = Ok (r ++ [tp]) /\ tp_derivative tp (tp_second tp) = Ok v /\ at_rest v.
Proof.
  intros Hv Hps Hp HL. assert (K : keep p = true) by (unfold keep, param_length; destruct (rltb_spec rst_eps (p_t1 p - p_t0 p)); [reflexivity|contradiction]).
  exact (loop_ends c p Hv Hp K ps Hps 0 (or_introl eq_refl)).
Qed.

(* It crosses from a segment to the next one at most at the velocity of the
   crossings. *)
Theorem C86_crossings c ps r : valid c -> Forall (drivable c) ps -> rs_optimize c ps = Ok r ->
  Forall (fun tp => exists v v', tp_derivative tp 0 = Ok v /\ tp_derivative tp (tp_second tp) = Ok v' /\
            Rabs (vx v) <= minLin c /\ Rabs (vx v') <= minLin c) r.
Proof. intros Hv Hp E. exact (loop_slow c ps Hv Hp 0 (or_introl eq_refl) r E). Qed.

(* straight segments along the first axis *)
Definition at_x (x : R) : cfg := {| cx := x; cy := 0; cc := 1; cs := 0; cj := fun _ => 0 |}.
Definition defaults : rst := {| minLin := / 10; maxLin := 1; maxAng := 1; accLin := 1; decLin := 1 |}.
Lemma defaults_valid : valid defaults.
Proof. unfold valid. cbn. repeat split; lra. Qed.
Definition stretch (x l k : R) : cpath := cc_create (at_x x) (at_x x) (k * l) l 0 [].
Lemma stretch_drivable x l k : 0 < l -> Rabs k <= 1 -> drivable defaults (stretch x l k).
Proof.
  intros Hl Hk. split; [apply built_create; unfold unit_heading; cbn; ring|]. cbn. rewrite (Rabs_right l) by lra.
  rewrite Rabs_mult, (Rabs_right l) by lra. split; [nra|]. rewrite Rabs_R0. nra.
Qed.
Lemma stretch_length x l k : 0 < l -> param_length (stretch x l k) = l.
Proof. intros Hl. unfold param_length. cbn. rewrite Rabs_right by lra. ring. Qed.
Lemma stretch_start x l k : 0 < l -> exists v, cc_derivative (stretch x l k) (p_t0 (stretch x l k)) 1 = Ok v /\ vx v = k /\ vy v = 0.
Proof.
  intros Hl. assert (B : built (stretch x l k)) by (apply built_create; unfold unit_heading; cbn; ring).
  assert (HL : p_t0 (stretch x l k) < p_t1 (stretch x l k)) by (cbn; rewrite Rabs_right; lra).
  assert (I := built_invariant _ B).
  destruct (derivative_1_ok (stretch x l k) HL (inv_fwd _ I) (inv_unit _ I) (p_t0 (stretch x l k))) as [v [E [_ [X [Y _]]]]].
  exists v. split; [exact E|]. split; [|exact Y]. rewrite X, stretch_length by exact Hl. cbn. field. lra.
Qed.
Lemma stretch_same x l k v0 : 0 < l -> vx v0 = k -> vy v0 = 0 -> same_direction (stretch x l k) v0 = true.
Proof.
  intros Hl X Y. destruct (stretch_start x l k Hl) as [v [E [X1 Y1]]]. unfold same_direction. rewrite E, X, Y, X1, Y1.
  replace ((k - k) * (k - k) + (0 - 0) * (0 - 0)) with 0 by ring. rewrite sqrt_0. destruct (rltb_spec 0 (/ 1000)); [reflexivity|lra].
Qed.
Lemma stretch_opposite x l k v0 : 0 < l -> vx v0 - k >= 1 -> vy v0 = 0 -> same_direction (stretch x l k) v0 = false.
Proof.
  intros Hl X Y. destruct (stretch_start x l k Hl) as [v [E [X1 Y1]]]. unfold same_direction. rewrite E, Y, X1, Y1.
  destruct (rltb_spec (sqrt ((k - vx v0) * (k - vx v0) + (0 - 0) * (0 - 0))) (/ 1000)) as [G|]; [|reflexivity]. exfalso.
  assert (1 <= sqrt ((k - vx v0) * (k - vx v0) + (0 - 0) * (0 - 0))) by (rewrite <- sqrt_1 at 1; apply sqrt_le_1_alt; nra). lra.
Qed.
Lemma keep_stretch x l k : rst_eps < l -> keep (stretch x l k) = true.
Proof.
  intros H. unfold keep. rewrite stretch_length by (unfold rst_eps in H; lra). destruct (rltb_spec rst_eps l); [reflexivity|contradiction].
Qed.

(* After a change of direction the robot starts at the velocity of the
   crossings although it stopped. *)
Theorem C86_cusp_refuted : exists tp1 tp2 v1 v2,
  rs_optimize defaults [stretch 0 1 1; stretch 1 (/ 2) (-1)] = Ok [tp1; tp2] /\
  tp_derivative tp1 (tp_second tp1) = Ok v1 /\ at_rest v1 /\
  tp_derivative tp2 0 = Ok v2 /\ vx v2 < 0.
Proof.
  assert (K1 : keep (stretch 0 1 1) = true) by (apply keep_stretch; unfold rst_eps; lra).
  assert (K2 : keep (stretch 1 (/ 2) (-1)) = true) by (apply keep_stretch; unfold rst_eps; lra).
  assert (D1 : drivable defaults (stretch 0 1 1)) by (apply stretch_drivable; [lra | rewrite Rabs_R1; lra]).
  assert (D2 : drivable defaults (stretch 1 (/ 2) (-1))) by (apply stretch_drivable; [lra | rewrite Rabs_left; lra]).
  destruct (pair defaults _ _ defaults_valid D1 D2 K1 K2) as [v0 [m1 [a1 [d1 [tp1 [F1 [v1 [m2 [a2 [d2 [tp2 [F2 [v2
    [_ [X0 [Y0 [E [_ [Fl2 [Ev1 [Ev2 [Xv2 [Rs _]]]]]]]]]]]]]]]]]]]]]]].
  rewrite stretch_length in X0, Fl2 by lra. cbn in X0.
  exists tp1, tp2, v1, v2. split; [exact E|]. split; [exact Ev1|]. split.
  { apply Rs, stretch_opposite; [lra | rewrite X0; lra | exact Y0]. }
  split; [exact Ev2|]. rewrite Xv2. cbn. assert (0 < / F2) by (apply Rinv_0_lt_compat; lra). unfold Rdiv. nra.
Qed.

(* Where two segments follow each other in the same direction the velocity
   jumps when one of them keeps the maximal velocity for some time. *)
Theorem C86_crossing_refuted : exists tp1 tp2 v1 v2,
  rs_optimize defaults [stretch 0 10 1; stretch 10 (/ 2) 1] = Ok [tp1; tp2] /\
  tp_derivative tp1 (tp_second tp1) = Ok v1 /\ tp_derivative tp2 0 = Ok v2 /\ vx v1 < vx v2.
Proof.
  assert (K1 : keep (stretch 0 10 1) = true) by (apply keep_stretch; unfold rst_eps; lra).
  assert (K2 : keep (stretch 10 (/ 2) 1) = true) by (apply keep_stretch; unfold rst_eps; lra).
  assert (D1 : drivable defaults (stretch 0 10 1)) by (apply stretch_drivable; [lra | rewrite Rabs_R1; lra]).
  assert (D2 : drivable defaults (stretch 10 (/ 2) 1)) by (apply stretch_drivable; [lra | rewrite Rabs_R1; lra]).
  destruct (pair defaults _ _ defaults_valid D1 D2 K1 K2) as [v0 [m1 [a1 [d1 [tp1 [F1 [v1 [m2 [a2 [d2 [tp2 [F2 [v2
    [_ [X0 [Y0 [E [Fl1 [Fl2 [Ev1 [Ev2 [Xv2 [_ [L1 [L2 [Sd [Pn _]]]]]]]]]]]]]]]]]]]]]]]]]]].
  rewrite stretch_length in X0, Fl1, Fl2, L1, L2, Sd, Pn by lra. cbn in X0, L1, L2, Sd, Pn.
  assert (Lim : forall k, limits defaults (Rabs (0 * k)) = (1, 1, 1)).
  { intros k. rewrite Rmult_0_l, Rabs_R0. unfold limits. cbn. destruct (rltb_spec (0 * 1) 1); [reflexivity|lra]. }
  rewrite Lim in L1, L2. injection L1 as <- <- <-. injection L2 as <- <- <-.
  destruct Sd as [X1 Fd]; [apply stretch_same; [lra | rewrite X0; field | exact Y0] | lra |].
  rewrite Fd in X1 by lra. rewrite Pn in Xv2 by lra. cbn in Xv2.
  exists tp1, tp2, v1, v2. split; [exact E|]. split; [exact Ev1|]. split; [exact Ev2|]. rewrite X1, Xv2. lra.
Qed.

(* A last segment below the threshold is dropped, and the robot does not stop
   at the end. *)
Theorem C86_end_refuted : exists tp v,
  rs_optimize defaults [stretch 0 1 1; stretch 1 (/ 1000000000) 1] = Ok [tp] /\
  tp_derivative tp (tp_second tp) = Ok v /\ 0 < vx v.
Proof.
  assert (K1 : keep (stretch 0 1 1) = true) by (apply keep_stretch; unfold rst_eps; lra).
  assert (D1 : drivable defaults (stretch 0 1 1)) by (apply stretch_drivable; [lra | rewrite Rabs_R1; lra]).
  destruct (kept defaults 0 (stretch 0 1 1) [stretch 1 (/ 1000000000) 1] defaults_valid D1 K1 (or_introl eq_refl))
    as [v0 [m [acc [dec [tp [F [s [ds [E0 [X0 [Y0 [Lm [[T [T2 [_ T3]]] [Fl [[_ [_ [_ [_ [St D0]]]]] [Dt [_ [_ [_ [A0 [Z0 _]]]]]]]]]]]]]]]]]]]]].
  rewrite stretch_length in X0, Fl, Dt, Z0 by lra.
  assert (Sd : same_direction (stretch 1 (/ 1000000000) 1) v0 = true) by (apply stretch_same; [lra | rewrite X0; cbn; field | exact Y0]).
  cbn [target] in Dt. rewrite Sd in Dt. cbn [minLin defaults] in Dt.
  assert (La : acc = 1).
  { rewrite Z0 in Lm. cbn in Lm. rewrite Rmult_0_l, Rabs_R0 in Lm. unfold limits in Lm. cbn in Lm.
    destruct (rltb_spec (0 * 1) 1); [|lra]. injection Lm as _ <- _. reflexivity. }
  rewrite La in Dt. specialize (Dt ltac:(lra)).
  destruct (St (tp_second tp) ltac:(lra)) as [_ [_ [v [Ev [_ [Xv _]]]]]]. exists tp, v. split.
  { unfold rs_optimize. rewrite (loop_keep _ _ _ _ v0 m acc dec tp K1 E0 Lm T). rewrite loop_skip; [reflexivity|].
    unfold keep. rewrite stretch_length by lra. destruct (rltb_spec rst_eps (/ 1000000000)) as [G|]; [|reflexivity]. exfalso. unfold rst_eps in G. lra. }
  split; [exact Ev|]. rewrite Xv, Dt, stretch_length by lra. cbn.
  assert (0 < / F) by (apply Rinv_0_lt_compat; lra). unfold Rdiv. nra.
Qed.

(* a quarter of turn after a straight line: the hypotheses hold *)
Example C86_example : valid defaults /\ drivable defaults (stretch 0 2 1) /\
  drivable defaults (cc_create (at_x 2) (at_x 2) (PI / 2) (PI / 2) 1 []) /\
  drivable defaults (cc_create (at_x 2) (at_x 2) (- (PI / 2)) (PI / 2) 1 []).
Proof.
  pose proof PI_RGT_0. split; [apply defaults_valid|]. split; [apply stretch_drivable; [lra | rewrite Rabs_R1; lra]|].
  assert (U : unit_heading (at_x 2)) by (unfold unit_heading; cbn; ring).
  split; (split; [apply built_create, U|]); cbn; rewrite ?Rabs_Ropp, (Rabs_right (PI / 2)), Rabs_R1 by lra; split; lra.
Qed.

Print Assumptions C84_law.
Print Assumptions C84_distance_partial.
Print Assumptions C84_plateau_refuted.
Print Assumptions C84_target_refuted.
Print Assumptions C85_bound_partial.
Print Assumptions C85_bound_refuted.
Print Assumptions C85_path_refuted.
Print Assumptions C86_retimed.
Print Assumptions C86_starts.
Print Assumptions C86_ends_partial.
Print Assumptions C86_crossings.
Print Assumptions C86_cusp_refuted.
Print Assumptions C86_crossing_refuted.
Print Assumptions C86_end_refuted.
