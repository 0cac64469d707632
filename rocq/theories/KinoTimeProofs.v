(* Which durations admit a motion: necessary condition. *)
From Coq Require Import Reals List Lra Lia.
From Verif Require Import Base XReal KinoModel KinoSpec PolyProofs KinoProofs KinoProofs2 KinoTimeModel.
Import ListNotations.
Open Scope R_scope.

Lemma Rabs_le_iff a b : Rabs a <= b <-> - b <= a <= b.
Proof. split; [intros H; revert H; unfold Rabs; destruct (Rcase_abs a); intros; lra|apply Rabs_le]. Qed.

(* a function with a non-negative derivative does not decrease *)
Lemma mono T f g p q : derivative_on T f g -> 0 <= p -> p <= q -> q <= T ->
  (forall t, p <= t <= q -> 0 <= g t) -> f p <= f q.
Proof.
  intros HD Hp Hpq Hq Hg. destruct (Rle_lt_dec (f p) (f q)) as [|Hlt]; [assumption|exfalso].
  assert (p < q) as Hpq' by (destruct (Rle_lt_or_eq_dec _ _ Hpq) as [|E]; [assumption|rewrite E in Hlt; lra]).
  set (eps := (f p - f q) / (2 * (q - p))).
  assert (0 < eps) as He by (apply Rdiv_lt_0_compat; lra).
  assert (eps * (q - p) = (f p - f q) / 2) as Ee by (unfold eps; field; lra).
  set (E := fun t => p <= t <= q /\ forall s, p <= s <= t -> f p - eps * (s - p) <= f s).
  destruct (completeness E) as [c [Hub Hlub]].
  - exists q. intros t [Ht _]. lra.
  - exists p. split; [lra|]. intros s Hs. assert (s = p) as -> by lra. lra.
  - assert (p <= c) as Hpc. { apply Hub. split; [lra|]. intros s Hs. assert (s = p) as -> by lra. lra. }
    assert (c <= q) as Hcq. { apply Hlub. intros t [Ht _]. lra. }
    assert (forall s, p <= s -> s < c -> f p - eps * (s - p) <= f s) as Hbelow.
    { intros s Hs Hsc. destruct (Rle_lt_dec (f p - eps * (s - p)) (f s)) as [|Hn]; [assumption|exfalso].
      assert (c <= s); [|lra]. apply Hlub. intros t [Ht1 Ht2]. destruct (Rle_lt_dec t s) as [|Hts]; [assumption|exfalso].
      specialize (Ht2 s). lra. }
    destruct (HD c eps ltac:(lra) He) as (delta & Hd & HDc).
    assert (0 <= g c) as Hgc by (apply Hg; lra).
    assert (f p - eps * (c - p) <= f c) as Hc.
    { destruct (Rle_lt_or_eq_dec _ _ Hpc) as [Hpc'|<-]; [|lra].
      set (s := Rmax p (c - delta / 2)).
      assert (p <= s < c /\ c - s < delta) as [Hs1 Hs2] by (unfold s, Rmax; destruct (Rle_dec p (c - delta / 2)); lra).
      specialize (HDc s ltac:(lra)). rewrite (Rabs_left (s - c)) in HDc by lra. specialize (HDc ltac:(lra)).
      apply Rabs_le_iff in HDc. specialize (Hbelow s ltac:(lra) ltac:(lra)).
      assert (0 <= g c * (c - s)) by (apply Rmult_le_pos; lra). nra. }
    destruct (Rle_lt_or_eq_dec _ _ Hcq) as [Hcq'|Hcq'].
    + set (e := Rmin q (c + delta / 2)).
      assert (c < e /\ e <= q /\ e - c < delta) as (He1 & He2 & He3) by (unfold e, Rmin; destruct (Rle_dec q (c + delta / 2)); lra).
      assert (e <= c); [|lra]. apply Hub. split; [lra|]. intros s Hs. destruct (Rlt_le_dec s c); [apply Hbelow; lra|].
      specialize (HDc s ltac:(lra)). rewrite (Rabs_right (s - c)) in HDc by lra. specialize (HDc ltac:(lra)).
      apply Rabs_le_iff in HDc. assert (0 <= g c * (s - c)) by (apply Rmult_le_pos; lra). nra.
    + rewrite Hcq' in Hc. lra.
Qed.

Lemma derivative_quad T x v k c p : derivative_on T x v ->
  derivative_on T (fun t => k * (t - p) + c * (t - p) * (t - p) / 2 - x t) (fun t => k + c * (t - p) - v t).
Proof.
  intros HD t eps Ht He. destruct (HD t (eps / 2) Ht ltac:(lra)) as (d & Hd & K).
  pose proof (Rabs_pos c) as Hc.
  exists (Rmin d (eps / (Rabs c + 1))). assert (0 < eps / (Rabs c + 1)) as H1 by (apply Rdiv_lt_0_compat; lra).
  split; [apply Rmin_pos; assumption|]. intros s Hs Hsd.
  assert (Rabs (s - t) < d /\ Rabs (s - t) < eps / (Rabs c + 1)) as [S1 S2] by (revert Hsd; unfold Rmin; destruct (Rle_dec d (eps / (Rabs c + 1))); lra).
  specialize (K s Hs S1).
  match goal with |- Rabs ?e <= _ => replace e with (c * ((s - t) * (s - t)) / 2 + - (x s - x t - v t * (s - t))) by field end.
  eapply Rle_trans; [apply Rabs_triang|]. rewrite Rabs_Ropp.
  assert (Rabs (c * ((s - t) * (s - t)) / 2) = Rabs c * Rabs (s - t) / 2 * Rabs (s - t)) as ->.
  { unfold Rdiv. rewrite !Rabs_mult. rewrite (Rabs_right (/ 2)) by lra. ring. }
  pose proof (Rabs_pos (s - t)) as Hp.
  assert (Rabs c * Rabs (s - t) <= eps).
  { apply Rmult_lt_compat_r with (r := Rabs c + 1) in S2; [|lra]. replace (eps / (Rabs c + 1) * (Rabs c + 1)) with eps in S2 by (field; lra). nra. }
  assert (Rabs c * Rabs (s - t) / 2 * Rabs (s - t) <= eps / 2 * Rabs (s - t)) by (apply Rmult_le_compat_r; lra).
  lra.
Qed.

Lemma upper_quad T x v k c p q : derivative_on T x v -> 0 <= p -> p <= q -> q <= T ->
  (forall t, p <= t <= q -> v t <= k + c * (t - p)) -> x q - x p <= k * (q - p) + c * (q - p) * (q - p) / 2.
Proof.
  intros HD Hp Hpq Hq Hv.
  pose proof (mono T _ _ p q (derivative_quad T x v k c p HD) Hp Hpq Hq) as H. cbn beta in H.
  assert (forall t, p <= t <= q -> 0 <= k + c * (t - p) - v t) as Hg by (intros t Ht; specialize (Hv t Ht); lra).
  specialize (H Hg). lra.
Qed.

(* Greatest displacement: [w] is the velocity reached when accelerating as long
   as possible. *)
Definition up (A V T u1 u2 d : R) : Prop :=
  let w := (A * T + u1 + u2) / 2 in
  let D := (u1 * u1 + u2 * u2) / 2 + A * d in
  (w <= V -> D <= w * w) /\ (V < w -> D <= 2 * V * w - V * V).
Definition feas (A V T u1 u2 d : R) : Prop :=
  0 <= T /\ Rabs (u2 - u1) <= A * T /\ up A V T u1 u2 d /\ up A V T (- u1) (- u2) (- d).

Lemma motion_opp A V T x0 v0 x1 v1 x v : motion A V T x0 v0 x1 v1 x v ->
  motion A V T (- x0) (- v0) (- x1) (- v1) (fun t => - x t) (fun t => - v t).
Proof.
  intros [M1 M2 M3 M4 M5 M6 M7 M8]. constructor; try congruence; try assumption.
  - intros t eps Ht He. destruct (M6 t eps Ht He) as (d & Hd & K). exists d. split; [exact Hd|]. intros s Hs Hsd.
    replace (- x s - - x t - - v t * (s - t)) with (- (x s - x t - v t * (s - t))) by ring. rewrite Rabs_Ropp. apply K; assumption.
  - intros s t Hs Ht. replace (- v s - - v t) with (- (v s - v t)) by ring. rewrite Rabs_Ropp. apply M7; assumption.
  - intros t Ht. rewrite Rabs_Ropp. apply M8. exact Ht.
Qed.

Lemma motion_up A V T x0 v0 x1 v1 x v : 0 < A -> motion A V T x0 v0 x1 v1 x v ->
  Rabs (v1 - v0) <= A * T /\ up A V T v0 v1 (x1 - x0).
Proof.
  intros HA M. pose proof M as [M1 M2 M3 M4 M5 M6 M7 M8].
  assert (Rabs (v1 - v0) <= A * T) as HS.
  { rewrite <- M3, <- M5. specialize (M7 T 0 ltac:(lra) ltac:(lra)). rewrite Rminus_0_r, (Rabs_right T) in M7 by lra. exact M7. }
  split; [exact HS|]. apply Rabs_le_iff in HS.
  assert (forall t, 0 <= t <= T -> v t <= v0 + A * (t - 0)) as B1.
  { intros t Ht. specialize (M7 t 0 Ht ltac:(lra)). rewrite M3, (Rabs_right (t - 0)) in M7 by lra. apply Rabs_le_iff in M7. lra. }
  assert (forall t, 0 <= t <= T -> v t <= v1 + A * (T - t)) as B2.
  { intros t Ht. specialize (M7 t T Ht ltac:(lra)). rewrite M5, (Rabs_left1 (t - T)) in M7 by lra. apply Rabs_le_iff in M7. lra. }
  assert (v0 <= V) as Hv0. { specialize (M8 0 ltac:(lra)). rewrite M3 in M8. apply Rabs_le_iff in M8. lra. }
  assert (v1 <= V) as Hv1. { specialize (M8 T ltac:(lra)). rewrite M5 in M8. apply Rabs_le_iff in M8. lra. }
  unfold up. set (w := (A * T + v0 + v1) / 2).
  split; intros Hw.
  - set (s := (w - v0) / A). assert (A * s = w - v0) as Es by (unfold s; field; lra).
    assert (A * (T - s) = w - v1) as Es' by (unfold w in *; lra).
    assert (0 <= s /\ s <= T) as [Hs1 Hs2].
    { split; [apply Rmult_le_reg_l with A; [exact HA|]; unfold w in *; lra|].
      assert (0 <= T - s); [|lra]. apply Rmult_le_reg_l with A; [exact HA|]. unfold w in *; lra. }
    pose proof (upper_quad T x v v0 A 0 s M6 ltac:(lra) Hs1 Hs2) as U1.
    pose proof (upper_quad T x v (v1 + A * (T - s)) (- A) s T M6 Hs1 Hs2 ltac:(lra)) as U2.
    assert (x s - x 0 <= v0 * (s - 0) + A * (s - 0) * (s - 0) / 2) as U1' by (apply U1; intros; apply B1; lra).
    assert (x T - x s <= (v1 + A * (T - s)) * (T - s) + - A * (T - s) * (T - s) / 2) as U2'.
    { apply U2. intros t Ht. specialize (B2 t ltac:(lra)). lra. }
    clear U1 U2. rewrite M4, Es' in U2'. rewrite M2 in U1'.
    apply Rmult_le_compat_l with (r := A) in U1'; [|lra]. apply Rmult_le_compat_l with (r := A) in U2'; [|lra].
    replace (A * (v0 * (s - 0) + A * (s - 0) * (s - 0) / 2)) with (v0 * (A * s) + (A * s) * (A * s) / 2) in U1' by field.
    replace (A * ((v1 + (w - v1)) * (T - s) + - A * (T - s) * (T - s) / 2)) with ((v1 + (w - v1)) * (A * (T - s)) - (A * (T - s)) * (A * (T - s)) / 2) in U2' by field.
    rewrite Es in U1'. rewrite Es' in U2'. lra.
  - set (s := (V - v0) / A). assert (A * s = V - v0) as Es by (unfold s; field; lra).
    set (r := (V - v1) / A). assert (A * r = V - v1) as Er by (unfold r; field; lra).
    assert (0 <= s) as Hs1 by (apply Rmult_le_reg_l with A; lra).
    assert (0 <= r) as Hr1 by (apply Rmult_le_reg_l with A; lra).
    assert (s <= T - r) as Hsr. { apply Rmult_le_reg_l with A; [exact HA|]. unfold w in *. lra. }
    pose proof (upper_quad T x v v0 A 0 s M6 ltac:(lra) Hs1 ltac:(lra)) as U1.
    pose proof (upper_quad T x v V 0 s (T - r) M6 Hs1 Hsr ltac:(lra)) as U2.
    pose proof (upper_quad T x v (v1 + A * r) (- A) (T - r) T M6 ltac:(lra) ltac:(lra) ltac:(lra)) as U3.
    assert (x s - x 0 <= v0 * (s - 0) + A * (s - 0) * (s - 0) / 2) as U1' by (apply U1; intros; apply B1; lra).
    assert (x (T - r) - x s <= V * (T - r - s) + 0 * (T - r - s) * (T - r - s) / 2) as U2'.
    { apply U2. intros t Ht. specialize (M8 t ltac:(lra)). apply Rabs_le_iff in M8. lra. }
    assert (x T - x (T - r) <= (v1 + A * r) * (T - (T - r)) + - A * (T - (T - r)) * (T - (T - r)) / 2) as U3'.
    { apply U3. intros t Ht. specialize (B2 t ltac:(lra)). lra. }
    clear U1 U2 U3. rewrite M4 in U3'. rewrite M2 in U1'. replace (T - (T - r)) with r in U3' by ring.
    apply Rmult_le_compat_l with (r := A) in U1'; [|lra]. apply Rmult_le_compat_l with (r := A) in U2'; [|lra]. apply Rmult_le_compat_l with (r := A) in U3'; [|lra].
    replace (A * (v0 * (s - 0) + A * (s - 0) * (s - 0) / 2)) with (v0 * (A * s) + (A * s) * (A * s) / 2) in U1' by field.
    replace (A * (V * (T - r - s) + 0 * (T - r - s) * (T - r - s) / 2)) with (V * (A * T - A * r - A * s)) in U2' by field.
    replace (A * ((v1 + A * r) * r + - A * r * r / 2)) with ((v1 + A * r) * (A * r) - (A * r) * (A * r) / 2) in U3' by field.
    rewrite Es in U1'. rewrite Er in U3'. rewrite Es, Er in U2'. unfold w. lra.
Qed.

Lemma motion_feas A V T x0 v0 x1 v1 x v : 0 < A -> motion A V T x0 v0 x1 v1 x v -> feas A V T v0 v1 (x1 - x0).
Proof.
  intros HA M. destruct (motion_up _ _ _ _ _ _ _ _ _ HA M) as [H1 H2].
  destruct (motion_up _ _ _ _ _ _ _ _ _ HA (motion_opp _ _ _ _ _ _ _ _ _ M)) as [_ H3].
  split; [destruct M; assumption|]. split; [exact H1|]. split; [exact H2|].
  replace (- (x1 - x0)) with (- x1 - - x0) by ring. exact H3.
Qed.
