(* Scheduling of the axes (computeMaxRequiredTime) and smoothness of the motion. *)
From Coq Require Import Reals List Lra Lia Bool.
From Verif Require Import Base XReal KinoModel KinoSpec PolyProofs KinoProofs.
Import ListNotations.
Open Scope R_scope.

Lemma xltb_iff x y : xltb x y = true <-> x <> NaN /\ y <> NaN /\ ~ xle y x.
Proof.
  destruct x as [a| | |], y as [b| | |]; cbn; try (destruct (rltb_spec a b)); split; intros H;
    try discriminate; try (repeat split; try discriminate; cbn; try lra; tauto); try tauto; try reflexivity;
    exfalso; destruct H as (? & ? & ?); lra.
Qed.
Lemma xle_refl x : x <> NaN -> xle x x.
Proof. destruct x; cbn; intros; try lra; tauto. Qed.
Lemma xle_trans x y z : xle x y -> xle y z -> xle x z.
Proof. destruct x, y, z; cbn; try tauto; lra. Qed.
Lemma xle_total x y : x <> NaN -> y <> NaN -> xle x y \/ xle y x.
Proof. destruct x as [a| | |], y as [b| | |]; cbn; try tauto. intros; lra. Qed.
Lemma xltb_le x y : xltb x y = true -> xle x y.
Proof. intros H. apply xltb_iff in H as (A & B & C). destruct (xle_total x y A B); tauto. Qed.
Lemma xle_not_nan x y : xle x y -> x <> NaN /\ y <> NaN.
Proof. destruct x, y; cbn; intros; split; congruence || tauto. Qed.
Lemma xltb_false_le x y : x <> NaN -> y <> NaN -> xltb x y = false -> xle y x.
Proof.
  intros A B C. destruct (xle_total x y A B) as [H|H]; [|exact H].
  destruct x as [a| | |], y as [b| | |]; cbn in *; try discriminate; try tauto.
  destruct (rltb_spec a b); [discriminate|lra].
Qed.

Lemma belong_iff t i : belong t i = true <-> inside t i.
Proof.
  unfold belong, inside. rewrite andb_true_iff, !xltb_iff. tauto.
Qed.

(* upper bounds of intervals that are after [T] *)
Definition above (T : xr) (i : xr * xr) : bool := xltb T (snd i).

Lemma interval_loop_spec T l : forall inI ub, ub <> NaN ->
  let r := interval_loop T l inI ub in
  fst r = inI || existsb (belong T) l /\ snd r <> NaN /\ xle (snd r) ub /\
  (forall i, In i l -> above T i = true -> xle (snd r) (snd i)) /\
  (snd r = ub \/ exists i, In i l /\ above T i = true /\ snd r = snd i).
Proof.
  induction l as [|i l IH]; intros inI ub Hub; cbn [interval_loop].
  - cbn. rewrite orb_false_r. split; [reflexivity|]. split; [exact Hub|]. split; [apply xle_refl; exact Hub|].
    split; [tauto|left; reflexivity].
  - set (ub' := if xltb (snd i) ub && xltb T (snd i) then snd i else ub).
    assert (ub' <> NaN /\ xle ub' ub /\ (above T i = true -> xle ub' (snd i)) /\ (ub' = ub \/ (above T i = true /\ ub' = snd i))) as (U1 & U2 & U3 & U4).
    { unfold ub', above. destruct (xltb (snd i) ub) eqn:E1; cbn.
      - destruct (xltb T (snd i)) eqn:E2.
        + apply xltb_iff in E1 as E3. destruct E3 as (? & ? & ?).
          split; [assumption|]. split; [apply xltb_le; assumption|]. split; [intros _; apply xle_refl; assumption|]. right; tauto.
        + split; [assumption|]. split; [apply xle_refl; assumption|]. split; [discriminate|]. left; reflexivity.
      - split; [assumption|]. split; [apply xle_refl; assumption|]. split; [|left; reflexivity].
        intros E2. apply xltb_iff in E2 as (? & ? & ?). apply xltb_false_le; assumption. }
    destruct (IH (if belong T i then true else inI) ub' U1) as (R1 & R2 & R3 & R4 & R5).
    split; [|split; [|split; [|split]]].
    + rewrite R1. cbn [existsb]. destruct (belong T i), inI; reflexivity.
    + exact R2.
    + eapply xle_trans; eassumption.
    + intros j [->|Hj] Hab; [|apply R4; assumption]. eapply xle_trans; [exact R3|apply U3; exact Hab].
    + destruct R5 as [R5|(j & J1 & J2 & J3)].
      * destruct U4 as [U4|[U4 U5]]; [left; congruence|]. right. exists i. split; [left; reflexivity|]. split; [assumption|congruence].
      * right. exists j. split; [right; assumption|]. tauto.
Qed.

Lemma filter_shrink A (f g : A -> bool) l : (forall x, In x l -> g x = true -> f x = true) ->
  (length (filter g l) <= length (filter f l))%nat.
Proof.
  induction l as [|x l IH]; intros H; cbn; [lia|].
  assert (length (filter g l) <= length (filter f l))%nat by (apply IH; intros; apply H; [right|]; assumption).
  destruct (g x) eqn:E; [rewrite (H x (or_introl eq_refl) E); cbn; lia|]. destruct (f x); cbn; lia.
Qed.

Lemma filter_shrink_strict A (f g : A -> bool) l x0 : (forall x, In x l -> g x = true -> f x = true) ->
  In x0 l -> f x0 = true -> g x0 = false -> (length (filter g l) < length (filter f l))%nat.
Proof.
  induction l as [|x l IH]; intros H Hin Hf Hg; [destruct Hin|].
  assert (length (filter g l) <= length (filter f l))%nat by (apply filter_shrink; intros; apply H; [right|]; assumption).
  cbn. destruct Hin as [->|Hin].
  - rewrite Hf, Hg. cbn. lia.
  - assert (length (filter g l) < length (filter f l))%nat by (apply IH; [intros; apply H; [right|]; assumption| | |]; assumption).
    destruct (g x) eqn:E; [rewrite (H x (or_introl eq_refl) E); cbn; lia|]. destruct (f x); cbn; lia.
Qed.

Lemma max_required_ok l : forall f T, T <> NaN -> (length (filter (above T) l) < f)%nat ->
  exists T', max_required_time f l T = Ok T' /\ xle T T' /\ (forall i, In i l -> ~ inside T' i) /\
    forall t, xle T t -> (forall i, In i l -> ~ inside t i) -> xle T' t.
Proof.
  induction f as [|f IH]; intros T HT Hf; [lia|]. cbn [max_required_time].
  destruct (interval_loop_spec T l false PInf) as (R1 & R2 & R3 & R4 & R5); [discriminate|].
  destruct (interval_loop T l false PInf) as [inI ub]. cbn [fst snd orb] in *. subst inI.
  destruct (existsb (belong T) l) eqn:E.
  - apply existsb_exists in E as (i & Hin & Hb). pose proof Hb as Hi. apply belong_iff in Hi.
    unfold belong in Hb. apply andb_true_iff in Hb as [Hb1 Hb2].
    assert (xle T ub) as Hle.
    { destruct R5 as [->|(j & J1 & J2 & ->)]; [|apply xltb_le; exact J2]. destruct T; cbn; tauto. }
    assert (xltb T ub = true) as Hlt.
    { destruct R5 as [Eu|(j & J1 & J2 & ->)]; [|exact J2].
      specialize (R4 i Hin Hb2). rewrite Eu in *. destruct (snd i); cbn in R4; try tauto; exact Hb2. }
    destruct (IH ub R2) as (T' & E1 & E2 & E3 & E4).
    { enough (length (filter (above ub) l) < length (filter (above T) l))%nat by lia.
      assert (forall j, In j l -> above ub j = true -> above T j = true) as Hs.
      { intros j _ Hj. unfold above in *. apply xltb_iff in Hj as (A & B & C). apply xltb_iff.
        split; [exact HT|]. split; [exact B|]. intros D. apply C. eapply xle_trans; eassumption. }
      destruct R5 as [Eu|(j & J1 & J2 & J3)].
      - apply filter_shrink_strict with (x0 := i); try assumption.
        unfold above. rewrite Eu. destruct (snd i); reflexivity.
      - apply filter_shrink_strict with (x0 := j); try assumption.
        unfold above. rewrite J3. destruct (xltb (snd j) (snd j)) eqn:Ex; [|reflexivity].
        apply xltb_iff in Ex as (A & _ & C). exfalso. apply C. apply xle_refl. exact A. }
    exists T'. split; [exact E1|]. split; [eapply xle_trans; eassumption|]. split; [exact E3|].
    intros t Ht Hfree. apply E4; [|exact Hfree].
    specialize (R4 i Hin Hb2). eapply xle_trans; [exact R4|].
    pose proof (xle_not_nan _ _ R4) as [_ Hn]. pose proof (xle_not_nan _ _ Ht) as [_ Hn'].
    destruct (xltb t (snd i)) eqn:Ex; [|apply xltb_false_le; assumption].
    exfalso. apply (Hfree i Hin). apply xltb_iff in Ex as (X1 & X2 & X3).
    destruct Hi as (I1 & I2 & I3 & I4 & I5). split; [|tauto].
    intros Hc. apply I1. eapply xle_trans; eassumption.
  - exists T. split; [reflexivity|]. split; [apply xle_refl; exact HT|]. split; [|intros; assumption].
    intros i Hin Hi. apply belong_iff in Hi.
    assert (existsb (belong T) l = true) by (apply existsb_exists; exists i; tauto). congruence.
Qed.

(* ----- smoothness ----- *)
(* first order expansion on [p, q] *)
Record taylor (A p q : R) (x v : R -> R) : Prop := {
  ty_v : forall s t, p <= s -> s <= t -> t <= q -> Rabs (v t - v s) <= A * (t - s);
  ty_x : forall s t, p <= s -> s <= t -> t <= q -> Rabs (x t - x s - v s * (t - s)) <= A * (t - s) * (t - s) / 2 }.

Lemma taylor_glue A p m q x v : taylor A p m x v -> taylor A m q x v -> 0 <= A -> taylor A p q x v.
Proof.
  intros [V1 X1] [V2 X2] HA. constructor; intros s t H1 H2 H3.
  - destruct (Rle_dec t m); [apply V1; lra|]. destruct (Rle_dec m s); [apply V2; lra|].
    pose proof (V1 s m ltac:(lra) ltac:(lra) ltac:(lra)). pose proof (V2 m t ltac:(lra) ltac:(lra) ltac:(lra)).
    pose proof (Rabs_triang (v t - v m) (v m - v s)). replace (v t - v m + (v m - v s)) with (v t - v s) in * by ring. lra.
  - destruct (Rle_dec t m); [apply X1; lra|]. destruct (Rle_dec m s); [apply X2; lra|].
    pose proof (V1 s m ltac:(lra) ltac:(lra) ltac:(lra)) as HV.
    pose proof (X1 s m ltac:(lra) ltac:(lra) ltac:(lra)) as HX1. pose proof (X2 m t ltac:(lra) ltac:(lra) ltac:(lra)) as HX2.
    pose proof (Rabs_triang (x t - x m - v m * (t - m)) (x m - x s - v s * (m - s) + (v m - v s) * (t - m))) as T1.
    pose proof (Rabs_triang (x m - x s - v s * (m - s)) ((v m - v s) * (t - m))) as T2.
    rewrite Rabs_mult in T2. rewrite (Rabs_right (t - m)) in T2 by lra.
    assert (Rabs (v m - v s) * (t - m) <= A * (m - s) * (t - m)) by (apply Rmult_le_compat_r; lra).
    replace (x t - x s - v s * (t - s)) with (x t - x m - v m * (t - m) + (x m - x s - v s * (m - s) + (v m - v s) * (t - m))) by ring.
    assert (A * (t - s) * (t - s) / 2 = A * (t - m) * (t - m) / 2 + (A * (m - s) * (m - s) / 2 + A * (m - s) * (t - m))) by field.
    lra.
Qed.

(* a phase with constant acceleration *)
Lemma taylor_quad A p q x v c x0 v0 : Rabs c <= A ->
  (forall t, p <= t <= q -> x t = x0 + v0 * (t - p) + c * (t - p) * (t - p) / 2 /\ v t = v0 + c * (t - p)) ->
  taylor A p q x v.
Proof.
  intros HA H. constructor; intros s t H1 H2 H3.
  - destruct (H s) as [_ ->]; [lra|]. destruct (H t) as [_ ->]; [lra|].
    replace (v0 + c * (t - p) - (v0 + c * (s - p))) with (c * (t - s)) by ring.
    rewrite Rabs_mult, (Rabs_right (t - s)) by lra. apply Rmult_le_compat_r; lra.
  - destruct (H s) as [-> ->]; [lra|]. destruct (H t) as [-> _]; [lra|].
    match goal with |- Rabs ?e <= _ => replace e with (c * ((t - s) * (t - s) / 2)) by field end.
    assert (0 <= (t - s) * (t - s) / 2) by nra.
    rewrite Rabs_mult, (Rabs_right ((t - s) * (t - s) / 2)) by lra.
    replace (A * (t - s) * (t - s) / 2) with (A * ((t - s) * (t - s) / 2)) by field. apply Rmult_le_compat_r; lra.
Qed.

Lemma taylor_motion A T x v : 0 <= A -> taylor A 0 T x v ->
  derivative_on T x v /\ forall s t, 0 <= s <= T -> 0 <= t <= T -> Rabs (v s - v t) <= A * Rabs (s - t).
Proof.
  intros HA [TV TX]. split.
  - intros t eps Ht He. exists (eps / (2 * A + 1)). assert (0 < eps / (2 * A + 1)) by (apply Rdiv_lt_0_compat; lra).
    split; [assumption|]. intros s Hs Hd.
    assert (Rabs (s - t) * (2 * A + 1) < eps) as Hd'.
    { apply Rmult_lt_compat_r with (r := 2 * A + 1) in Hd; [|lra]. replace (eps / (2 * A + 1) * (2 * A + 1)) with eps in Hd by (field; lra). exact Hd. }
    assert (Rabs (x s - x t - v t * (s - t)) <= 2 * A * Rabs (s - t) * Rabs (s - t)) as HB.
    { destruct (Rle_dec t s).
      - rewrite (Rabs_right (s - t)) by lra. pose proof (TX t s ltac:(lra) ltac:(lra) ltac:(lra)).
        assert (0 <= A * ((s - t) * (s - t))) by (apply Rmult_le_pos; [lra|apply Rle_0_sqr]). lra.
      - rewrite (Rabs_left (s - t)) by lra. pose proof (TX s t ltac:(lra) ltac:(lra) ltac:(lra)) as H1. pose proof (TV s t ltac:(lra) ltac:(lra) ltac:(lra)) as H2.
        replace (x s - x t - v t * (s - t)) with (- (x t - x s - v s * (t - s)) + (v t - v s) * (t - s)) by ring.
        eapply Rle_trans; [apply Rabs_triang|]. rewrite Rabs_Ropp, Rabs_mult, (Rabs_right (t - s)) by lra.
        assert (Rabs (v t - v s) * (t - s) <= A * (t - s) * (t - s)) by (apply Rmult_le_compat_r; lra).
        assert (0 <= A * ((t - s) * (t - s))) by (apply Rmult_le_pos; [lra|apply Rle_0_sqr]). lra. }
    pose proof (Rabs_pos (s - t)). eapply Rle_trans; [exact HB|]. apply Rmult_le_compat_r; [assumption|]. nra.
  - intros s t Hs Ht. destruct (Rle_dec s t).
    + rewrite Rabs_minus_sym, (Rabs_minus_sym s t), (Rabs_right (t - s)) by lra. apply TV; lra.
    + rewrite (Rabs_right (s - t)) by lra. apply TV; lra.
Qed.

Lemma axis_taylor L x : axis_ok L x ->
  taylor (Rabs (a1 x)) 0 L (fun t => x_ (axis_at x t)) (fun t => v_ (axis_at x t)).
Proof.
  intros [A0 A1 Av A2 AS AL AV AP]. pose proof (Rabs_pos (a1 x)) as HA.
  assert (Rabs (- a1 x) <= Rabs (a1 x)) as HA' by (rewrite Rabs_Ropp; lra).
  assert (Rabs 0 <= Rabs (a1 x)) as HA0 by (rewrite Rabs_R0; lra).
  set (w := v_ (si x) + a1 x * t1 x).
  set (xa := x_ (si x) + t0 x * v_ (si x)). set (xb := xa + v_ (si x) * t1 x + a1 x * t1 x * t1 x / 2). set (xc := xb + w * tv x).
  apply taylor_glue with (m := t0 x); [|apply taylor_glue with (m := t0 x + t1 x); [|apply taylor_glue with (m := t0 x + t1 x + tv x)|]|]; try exact HA.
  - apply taylor_quad with (c := 0) (x0 := x_ (si x)) (v0 := v_ (si x)); [exact HA0|]. intros t Ht. unfold axis_at. kcase; kill. cbn. split; field.
  - apply taylor_quad with (c := a1 x) (x0 := xa) (v0 := v_ (si x)); [lra|]. unfold xa. intros t Ht. unfold axis_at. kcase; kill; cbn.
    + assert (t = t0 x) as -> by lra. split; field.
    + split; field.
  - apply taylor_quad with (c := 0) (x0 := xb) (v0 := w); [exact HA0|]. unfold xb, w, xa. intros t Ht. unfold axis_at. kcase; kill; cbn.
    + assert (t = t0 x) as -> by lra. assert (t1 x = 0) as -> by lra. split; field.
    + assert (t = t0 x + t1 x) as -> by lra. split; field.
    + rewrite AL by lra. split; field.
  - rewrite <- AS. apply taylor_quad with (c := - a1 x) (x0 := xc) (v0 := w); [exact HA'|]. unfold xc, xb, w, xa. intros t Ht.
    unfold axis_at. kcase; kill; cbn.
    + assert (t = t0 x) as -> by lra. assert (t1 x = 0) as -> by lra. assert (tv x = 0) as -> by lra. split; field.
    + assert (tv x = 0) as -> by lra. assert (t = t0 x + t1 x) as -> by lra. split; field.
    + assert (t = t0 x + t1 x + tv x) as -> by lra. rewrite AL by lra. split; field.
    + rewrite AL by lra. split; field.
    + assert (tv x = 0) as -> by lra. split; field.
Qed.

Lemma axis_velocity_bound L x V t : axis_ok L x -> Rabs (v_ (si x)) <= V -> Rabs (v_ (se x)) <= V ->
  Rabs (v_ (si x) + a1 x * t1 x) <= V -> 0 <= t <= L -> Rabs (v_ (axis_at x t)) <= V.
Proof.
  intros [A0 A1 Av A2 AS AL AV AP] B1 B2 B3 Ht.
  assert (forall u w s d, Rabs u <= V -> Rabs w <= V -> 0 <= s <= d -> forall c, w = u + c * d -> Rabs (u + c * s) <= V) as K.
  { intros u w s d Hu Hw Hs c E. apply Rabs_le. 
    assert (- V <= u <= V) as Bu by (revert Hu; unfold Rabs; destruct (Rcase_abs u); intros; lra).
    assert (- V <= w <= V) as Bw by (revert Hw; unfold Rabs; destruct (Rcase_abs w); intros; lra).
    destruct (Rle_dec 0 c).
    - assert (0 <= c * s <= c * d) by (split; [apply Rmult_le_pos; lra|apply Rmult_le_compat_l; lra]). lra.
    - assert (c * d <= c * s <= 0). { split; [|nra]. assert (0 <= (- c) * (d - s)) by (apply Rmult_le_pos; lra). lra. } lra. }
  unfold axis_at. kcase; kill; cbn.
  - exact B1.
  - replace ((t - t0 x) * a1 x + v_ (si x)) with (v_ (si x) + a1 x * (t - t0 x)) by ring.
    eapply K; [exact B1|exact B3| |reflexivity]. lra.
  - rewrite AL by lra. exact B3.
  - rewrite AL by assumption. 
    replace (v_ (si x) + a1 x * t1 x - (t - tv x - t1 x - t0 x) * a1 x) with (v_ (si x) + a1 x * t1 x + (- a1 x) * (t - tv x - t1 x - t0 x)) by ring.
    eapply K with (d := t2 x); [exact B3|exact B2|lra|]. rewrite AV. ring.
  - replace (t1 x * a1 x + v_ (si x) - (t - tv x - t1 x - t0 x) * a1 x) with (v_ (si x) + a1 x * t1 x + (- a1 x) * (t - tv x - t1 x - t0 x)) by ring.
    eapply K with (d := t2 x); [exact B3|exact B2|lra|]. rewrite AV. ring.
Qed.

Lemma motion_ext A V T x0 v0 x1 v1 x v x' v' : (forall t, 0 <= t <= T -> x' t = x t /\ v' t = v t) ->
  motion A V T x0 v0 x1 v1 x v -> motion A V T x0 v0 x1 v1 x' v'.
Proof.
  intros H [M1 M2 M3 M4 M5 M6 M7 M8].
  constructor; try assumption.
  - rewrite <- M2. apply H. lra.
  - rewrite <- M3. apply H. lra.
  - rewrite <- M4. apply H. lra.
  - rewrite <- M5. apply H. lra.
  - intros t eps Ht He. destruct (M6 t eps Ht He) as (d & Hd & K). exists d. split; [exact Hd|]. intros s Hs Hsd.
    destruct (H s Hs) as [-> _]. destruct (H t Ht) as [-> ->]. apply K; assumption.
  - intros s t Hs Ht. destruct (H s Hs) as [_ ->]. destruct (H t Ht) as [_ ->]. apply M7; assumption.
  - intros t Ht. destruct (H t Ht) as [_ ->]. apply M8. exact Ht.
Qed.

Lemma axis_motion L x V : axis_ok L x -> Rabs (v_ (si x)) <= V -> Rabs (v_ (se x)) <= V ->
  Rabs (v_ (si x) + a1 x * t1 x) <= V ->
  motion (Rabs (a1 x)) V L (x_ (si x)) (v_ (si x)) (x_ (se x)) (v_ (se x)) (fun t => x_ (axis_at x t)) (fun t => v_ (axis_at x t)).
Proof.
  intros Hok B1 B2 B3. pose proof (axis_start _ _ Hok) as [S1 S2]. pose proof (axis_end _ _ Hok) as [S3 S4].
  destruct (taylor_motion _ _ _ _ (Rabs_pos _) (axis_taylor L x Hok)) as [T1 T2].
  assert (0 <= L) as HL by (destruct Hok; lra).
  constructor; try assumption. intros t Ht. apply axis_velocity_bound with L; assumption.
Qed.
