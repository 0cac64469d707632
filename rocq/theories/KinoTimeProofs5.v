(* KinodynamicDistance. *)
From Coq Require Import Reals List Lra Lia.
From Verif Require Import Base XReal KinoModel KinoSpec PolyProofs KinoProofs KinoProofs2 KinoTimeModel KinoTimeSpec KinoTimeProofs KinoTimeProofs2 KinoTimeProofs3 KinoTimeProofs4.
Import ListNotations.
Open Scope R_scope.

Lemma dist_time_val eps A V p1 p2 v1 v2 : 0 < A -> 0 < V -> Rabs v1 <= V -> Rabs v2 <= V ->
  (eps <= Rabs (p2 - p1) \/ eps <= Rabs (v2 - v1)) ->
  exists s, (s = 1 \/ s = -1) /\
    (s * v1 + s * v2) * Rabs (s * v2 - s * v1) <= 2 * A * (s * (p2 - p1)) /\
    (s = -1 -> (s * v1 + s * v2) * Rabs (s * v2 - s * v1) < 2 * A * (s * (p2 - p1))) /\
    dist_time eps A V p1 p2 v1 v2 = Ok (tmin A V (s * v1) (s * v2) (s * (p2 - p1))).
Proof.
  intros HA HV H1 H2 Hmv. unfold dist_time. rewrite kdiv_ok by lra. cbn [bind].
  set (e := p2 - p1 - 1 / 2 * (v1 + v2) * (Rabs (v2 - v1) / A)).
  assert (2 * A * e = 2 * A * (p2 - p1) - (v1 + v2) * Rabs (v2 - v1)) as Ee by (unfold e; field; lra).
  set (s := sgn e). assert (s = 1 \/ s = -1) as Hs by (unfold s, sgn; destruct (rleb_spec 0 e); tauto).
  assert (Rabs (s * v2 - s * v1) = Rabs (v2 - v1)) as Ea by (replace (s * v2 - s * v1) with (s * (v2 - v1)) by ring; apply Rabs_tau; exact Hs).
  exists s. split; [exact Hs|].
  assert ((s * v1 + s * v2) * Rabs (s * v2 - s * v1) <= 2 * A * (s * (p2 - p1))) as Hd.
  { rewrite Ea. unfold s, sgn. destruct (rleb_spec 0 e).
    - assert (0 <= 2 * A * e) by (apply Rmult_le_pos; lra). lra.
    - assert (0 < 2 * A * - e) by (apply Rmult_lt_0_compat; lra). lra. }
  split; [exact Hd|]. split.
  { rewrite Ea. unfold s, sgn. destruct (rleb_spec 0 e); [intros E; exfalso; lra|]. intros _.
    assert (0 < 2 * A * - e) by (apply Rmult_lt_0_compat; lra). lra. }
  assert (rltb (Rabs (p2 - p1)) eps && rltb (Rabs (v2 - v1)) eps = false)%bool as ->.
  { destruct (rltb_spec (Rabs (p2 - p1)) eps), (rltb_spec (Rabs (v2 - v1)) eps); cbn; try reflexivity. exfalso. lra. }
  assert (s * A <> 0) as HsA by (apply s_mul; [assumption|lra]).
  assert (- (s * A) <> 0) as HsA' by lra.
  assert (s * V <> 0) as HsV by (apply s_mul; [assumption|lra]).
  clearbody s. set (u1 := s * v1) in *. set (u2 := s * v2) in *. set (d := s * (p2 - p1)) in *.
  destruct (D_ge A u1 u2 d Hd) as [HD _].
  set (D := (u1 * u1 + u2 * u2) / 2 + A * d) in *. destruct (sqrt_ge _ D HD) as [S1 S2].
  pose proof (sqr_pos (Rmax u1 u2)). assert (sqrt D * sqrt D = D) as ED by (apply sqrt_sqrt; lra). pose proof (sqrt_pos D) as HsD.
  assert (u1 <= Rmax u1 u2 /\ u2 <= Rmax u1 u2) as [Hm1 Hm2] by (split; [apply Rmax_l|apply Rmax_r]).
  unfold eq13. rewrite (kdiv_ok _ (- (s * A))) by exact HsA'. cbn [bind].
  set (c := 1 / 2 * (v1 + v2) * (v2 - v1) / - (s * A) - (p2 - p1)).
  assert (2 * sqrt D * (2 * sqrt D) = 2 * v1 * (2 * v1) - 4 * (s * A) * c) as Edisc.
  { replace (2 * sqrt D * (2 * sqrt D)) with (4 * D) by lra. unfold D, c, u1, u2, d. signs Hs; field; lra. }
  pose proof (larger_root_ok (s * A) (2 * v1) c (2 * sqrt D) HsA ltac:(lra) Edisc) as Hroot.
  unfold larger_root in Hroot. rewrite <- Edisc in Hroot |- *.
  rewrite ksqrt_ok in Hroot |- * by apply sqr_pos. cbn [bind] in Hroot |- *.
  rewrite sqrt_square in Hroot |- * by lra. set (q := - (1 / 2) * (2 * v1 + sgn (2 * v1) * (2 * sqrt D))) in *.
  destruct (reqb_spec (s * A) 0); [contradiction|]. rewrite (kdiv_ok q (s * A)) by exact HsA. cbn [bind].
  rewrite (Rabs_tau s A Hs), (Rabs_right A) in Hroot by lra.
  replace (- (2 * v1) / (2 * (s * A)) + 2 * sqrt D / (2 * A)) with ((sqrt D - u1) / A) in Hroot by (unfold u1; signs Hs; field; lra).
  injection Hroot as Hroot.
  assert ((if reqb q 0 then (if reqb c 0 then Ok (q / (s * A)) else UB) else Ok (Rmax (q / (s * A)) (c / q))) = Ok ((sqrt D - u1) / A)) as ->.
  { destruct (reqb_spec q 0) as [Eq|]; [|f_equal; exact Hroot].
    assert (v1 = 0 /\ sqrt D = 0) as [Ev Es].
    { unfold q, sgn in Eq. destruct (rleb_spec 0 (2 * v1)); lra. }
    assert (c = 0) as Ec. { apply Rmult_eq_reg_l with (4 * (s * A)); [|lra]. rewrite Ev, Es in Edisc. lra. }
    destruct (reqb_spec c 0); [|contradiction]. f_equal. rewrite Eq in *. rewrite <- Hroot.
    unfold Rdiv. rewrite Rmult_0_l. symmetry. apply Rmax_left. lra. }
  cbn [bind]. rewrite (kdiv_ok _ (- (s * A))) by exact HsA'. cbn [bind].
  assert (rleb (Rmax 0 (- ((v2 - v1) / - (s * A)))) ((sqrt D - u1) / A) = true) as ->.
  { replace (- ((v2 - v1) / - (s * A))) with ((u2 - u1) / A) by (unfold u1, u2; signs Hs; field; lra).
    match goal with |- rleb ?e _ = _ => destruct (rleb_spec e ((sqrt D - u1) / A)) as [|Hx]; [reflexivity|] end.
    exfalso. apply Hx. apply Rmax_lub.
    - apply Rmult_le_pos; [lra|]. apply Rlt_le, Rinv_0_lt_compat. exact HA.
    - unfold Rdiv. apply Rmult_le_compat_r; [apply Rlt_le, Rinv_0_lt_compat; exact HA|lra]. }
  cbn [andb].
  assert (Rabs (v1 + (sqrt D - u1) / A * (s * A)) = sqrt D) as ->.
  { replace (v1 + (sqrt D - u1) / A * (s * A)) with (s * sqrt D) by (unfold u1; signs Hs; field; lra).
    rewrite Rabs_tau by exact Hs. apply Rabs_right. lra. }
  unfold tmin. fold D. destruct (rltb_spec V (sqrt D)) as [Hv|Hv], (rleb_spec (sqrt D) V) as [Hw|Hw]; try (exfalso; lra); cbn [negb].
  - unfold phases. rewrite !kdiv_ok; try assumption; [|apply Rmult_integral_contrapositive_currified; [lra|exact HsA]]. cbn [bind].
    f_equal. unfold D, u1, u2, d. signs Hs; field; lra.
  - unfold phases. rewrite !kdiv_ok by assumption. cbn [bind]. f_equal. unfold u1, u2. signs Hs; field; lra.
Qed.

Lemma dist_time_moving eps A V g : 0 < A -> 0 < V -> 0 < eps -> slow V g -> moving eps g ->
  exists T, dist_time eps A V (g_p1 g) (g_p2 g) (g_v1 g) (g_v2 g) = Ok T /\
   (~ backwards A g ->
    0 <= T /\ feasible A V T g /\ forall T', feasible A V T' g -> T <= T').
Proof.
  intros HA HV He [H1 H2] Hm.
  destruct (dist_time_val eps A V (g_p1 g) (g_p2 g) (g_v1 g) (g_v2 g) HA HV H1 H2 Hm) as (s & Hs & Hd & Hd0 & ->).
  eexists. split; [reflexivity|]. intros Hnb.
  assert (- V <= s * g_v1 g <= V) as B1 by (apply Rabs_le_iff; rewrite Rabs_tau; assumption).
  assert (- V <= s * g_v2 g <= V) as B2 by (apply Rabs_le_iff; rewrite Rabs_tau; assumption).
  assert (Rmax (s * g_v1 g) (s * g_v2 g) < 0 -> (s * g_v1 g + s * g_v2 g) * Rabs (s * g_v2 g - s * g_v1 g) < 2 * A * (s * (g_p2 g - g_p1 g))) as Hneg.
  { intros Hm0. pose proof (Rmax_l (s * g_v1 g) (s * g_v2 g)). pose proof (Rmax_r (s * g_v1 g) (s * g_v2 g)).
    destruct Hs as [Es|Es]; [|apply Hd0; exact Es]. rewrite Es in *. rewrite !Rmult_1_l in *.
    destruct (Rle_lt_or_eq_dec _ _ Hd) as [?|E]; [assumption|]. exfalso. apply Hnb. repeat split; [lra|lra|]. symmetry. exact E. }
  set (T := tmin A V (s * g_v1 g) (s * g_v2 g) (s * (g_p2 g - g_p1 g))).
  pose proof (fun T' => up_iff A V T' _ _ _ HA HV B1 B2 Hd Hneg) as Hup. fold T in Hup.
  destruct (proj2 (Hup T) (Rle_refl _)) as [Hx Hu].
  assert (0 <= T) as HT. { pose proof (Rabs_pos (s * g_v2 g - s * g_v1 g)). apply Rmult_le_reg_l with A; [exact HA|]. lra. }
  split; [exact HT|]. split.
  - apply (feas_signs A V T _ _ _ s Hs). split; [exact HT|]. split; [exact Hx|]. split; [exact Hu|].
    apply (low_iff A V T _ _ _ HA HV B1 B2 Hd Hx). apply tmin_outside; assumption.
  - intros T' HT'. apply (feas_signs A V T' _ _ _ s Hs) in HT' as (X1 & X2 & X3 & _). apply Hup. split; assumption.
Qed.

Lemma dist_time_parked eps A V g : 0 < A -> 0 < eps -> parked g ->
  dist_time eps A V (g_p1 g) (g_p2 g) (g_v1 g) (g_v2 g) = Ok 0.
Proof.
  intros HA He (E1 & E2 & E3). unfold dist_time. rewrite kdiv_ok by lra. cbn [bind].
  rewrite E1, E2, E3, !(Rminus_diag_eq 0 0), !(Rminus_diag_eq (g_p1 g) (g_p1 g)), Rabs_R0 by reflexivity.
  destruct (rltb_spec 0 eps); [reflexivity|exfalso; lra].
Qed.

Lemma kino_distance_ok eps A V l : 0 < A -> 0 < V -> 0 < eps -> Forall (leg_fine eps A V) l ->
  forall T0, 0 <= T0 -> exists T, kino_distance eps A V l T0 = Ok T /\ T0 <= T /\
    (forall g, In g l -> exists t, t <= T /\ feasible A V t g) /\
    (T = T0 \/ exists g, In g l /\ feasible A V T g /\ forall t, feasible A V t g -> T <= t).
Proof.
  intros HA HV He. induction l as [|g l IH]; intros Hl T0 HT0; cbn [kino_distance].
  - exists T0. split; [reflexivity|]. split; [lra|]. split; [intros g []|left; reflexivity].
  - inversion Hl as [|? ? [[Hs Hmp] Hb] Hl']; subst. specialize (IH Hl').
    assert (exists T, dist_time eps A V (g_p1 g) (g_p2 g) (g_v1 g) (g_v2 g) = Ok T /\ 0 <= T /\ feasible A V T g /\ forall T', feasible A V T' g -> T <= T') as (T & -> & HT & Hf & Hle).
    { destruct Hmp as [Hm|Hp].
      - destruct (dist_time_moving eps A V g HA HV He Hs Hm) as (T & E & HT). exists T. split; [exact E|]. apply HT. exact Hb.
      - exists 0. split; [apply dist_time_parked; assumption|]. split; [lra|]. split; [apply parked_feasible; try assumption; lra|].
        intros T' (X & _). exact X. }
    cbn [bind]. set (T1 := if rltb T0 T then T else T0).
    assert (T0 <= T1 /\ T <= T1 /\ (T1 = T0 \/ T1 = T)) as (B1 & B2 & B3) by (unfold T1; destruct (rltb_spec T0 T); repeat split; lra).
    destruct (IH T1) as (Tf & -> & X1 & X2 & X3); [lra|]. exists Tf. split; [reflexivity|]. split; [lra|]. split.
    + intros g' [<-|Hg']; [exists T; split; [lra|exact Hf]|apply X2; exact Hg'].
    + destruct X3 as [->|(g' & G1 & G2)].
      * destruct B3 as [->| ->]; [left; reflexivity|]. right. exists g. split; [left; reflexivity|]. split; assumption.
      * right. exists g'. split; [right; exact G1|exact G2].
Qed.

(* Motions one after the other. *)
Definition glue (T : R) (f g : R -> R) (t : R) : R := if rleb t T then f t else g (t - T).

Lemma motion_glue A V T1 T2 x0 v0 x1 v1 x2 v2 x v y w : 0 <= A ->
  motion A V T1 x0 v0 x1 v1 x v -> motion A V T2 x1 v1 x2 v2 y w ->
  motion A V (T1 + T2) x0 v0 x2 v2 (glue T1 x y) (glue T1 v w).
Proof.
  intros HA [M1 M2 M3 M4 M5 M6 M7 M8] [N1 N2 N3 N4 N5 N6 N7 N8].
  assert (forall f g, f T1 = g 0 -> forall t, T1 <= t -> glue T1 f g t = g (t - T1)) as Hg.
  { intros f g E t Ht. unfold glue. destruct (rleb_spec t T1); [|reflexivity].
    assert (t = T1) as -> by lra. rewrite Rminus_diag_eq by reflexivity. exact E. }
  assert (forall f g t, t <= T1 -> glue T1 f g t = f t) as Hf.
  { intros f g t Ht. unfold glue. destruct (rleb_spec t T1); [reflexivity|contradiction]. }
  assert (x T1 = y 0) as Ex by congruence. assert (v T1 = w 0) as Ev by congruence.
  constructor.
  - lra.
  - rewrite Hf by exact M1. exact M2.
  - rewrite Hf by exact M1. exact M3.
  - rewrite (Hg _ _ Ex) by lra. replace (T1 + T2 - T1) with T2 by ring. exact N4.
  - rewrite (Hg _ _ Ev) by lra. replace (T1 + T2 - T1) with T2 by ring. exact N5.
  - intros t eps Ht He. destruct (Rtotal_order t T1) as [Hc|[Hc|Hc]].
    + destruct (M6 t eps ltac:(lra) He) as (d & Hd & K). exists (Rmin d (T1 - t)). split; [apply Rmin_glb_lt; lra|].
      intros s Hs Hst. pose proof (Rmin_l d (T1 - t)). pose proof (Rmin_r d (T1 - t)).
      assert (s <= T1) by (apply Rabs_def2 in Hst; lra).
      rewrite !Hf by lra. apply K; lra.
    + subst t. destruct (M6 T1 eps ltac:(lra) He) as (d & Hd & K). destruct (N6 0 eps ltac:(lra) He) as (d' & Hd' & K').
      exists (Rmin d d'). split; [apply Rmin_glb_lt; assumption|]. intros s Hs Hst. pose proof (Rmin_l d d'). pose proof (Rmin_r d d').
      destruct (Rle_lt_dec s T1).
      * rewrite !Hf by lra. apply K; lra.
      * rewrite (Hg _ _ Ex s), (Hg _ _ Ex T1), (Hg _ _ Ev T1) by lra. rewrite (Rminus_diag_eq T1 T1) by reflexivity.
        specialize (K' (s - T1)). rewrite !Rminus_0_r in K'. apply K'; lra.
    + destruct (N6 (t - T1) eps ltac:(lra) He) as (d & Hd & K). exists (Rmin d (t - T1)). split; [apply Rmin_glb_lt; lra|].
      intros s Hs Hst. pose proof (Rmin_l d (t - T1)). pose proof (Rmin_r d (t - T1)).
      assert (T1 <= s) by (apply Rabs_def2 in Hst; lra).
      rewrite !(Hg _ _ Ex), (Hg _ _ Ev) by lra.
      specialize (K (s - T1)). replace (s - T1 - (t - T1)) with (s - t) in K by ring. apply K; lra.
  - assert (forall s t, 0 <= s <= T1 + T2 -> 0 <= t <= T1 + T2 -> s <= t -> Rabs (glue T1 v w s - glue T1 v w t) <= A * (t - s)) as Hord.
    { intros s t Hs Ht Hst. destruct (Rle_lt_dec t T1) as [Hc|Hc]; [|destruct (Rle_lt_dec T1 s) as [Hc'|Hc']].
      - rewrite !Hf by lra. specialize (M7 s t ltac:(lra) ltac:(lra)). rewrite Rabs_minus_sym, (Rabs_minus_sym s t), (Rabs_right (t - s)), Rabs_minus_sym in M7 by lra. exact M7.
      - rewrite !(Hg _ _ Ev) by lra. specialize (N7 (s - T1) (t - T1) ltac:(lra) ltac:(lra)).
        replace (s - T1 - (t - T1)) with (- (t - s)) in N7 by ring. rewrite Rabs_Ropp, (Rabs_right (t - s)) in N7 by lra. exact N7.
      - rewrite (Hf _ _ s), (Hg _ _ Ev t) by lra.
        specialize (M7 s T1 ltac:(lra) ltac:(lra)). specialize (N7 0 (t - T1) ltac:(lra) ltac:(lra)).
        rewrite (Rabs_minus_sym s T1), (Rabs_right (T1 - s)) in M7 by lra.
        rewrite (Rabs_minus_sym 0), (Rabs_right (t - T1 - 0)) in N7 by lra.
        replace (v s - w (t - T1)) with ((v s - v T1) + (w 0 - w (t - T1))) by (rewrite Ev; ring).
        eapply Rle_trans; [apply Rabs_triang|]. lra. }
    intros s t Hs Ht. destruct (Rle_lt_dec s t) as [Hc|Hc].
    + rewrite (Rabs_minus_sym s t), (Rabs_right (t - s)) by lra. apply Hord; assumption.
    + rewrite (Rabs_right (s - t)), Rabs_minus_sym by lra. apply Hord; lra.
  - intros t Ht. destruct (Rle_lt_dec t T1); [rewrite Hf by lra; apply M8; lra|].
    rewrite (Hg _ _ Ev) by lra. apply N8. lra.
Qed.
