(* The law computed for one segment. *)
From Coq Require Import Reals ZArith List Bool Lra Lia Psatz.
From Verif Require Import Base XReal CurvModel PolyProofs RSTimeModel RSTimeSpec RSTimeProofs.
Import ListNotations.
Open Scope R_scope.

(* What is known of a complete law: abscissa e and velocity v at the end. *)
Record done (q : law) (e v : R) (f g h : R -> R) (i A D M : R) : Prop := {
  d_motion : motion q (law_end q) f g A D M;
  d_acc2 : forall t, 0 <= t <= law_end q -> law_derivative q t 2 = Ok (h t);
  d_up : forall s t, 0 <= s -> s <= t -> t <= law_end q -> (forall r, s < r <= t -> 0 <= h r) -> g s <= g t;
  d_down : forall s t, 0 <= s -> s <= t -> t <= law_end q -> (forall r, s < r <= t -> h r <= 0) -> g t <= g s;
  d_T : 0 <= law_end q; d_e : f (law_end q) = e; d_v : g (law_end q) = v; d_0 : f 0 = 0; d_i : g 0 = i
}.
Lemma prog_done q T e v f g h A D M : prog q T e v f g h A D M -> done q e v f g h (l_init q) A D M /\ law_end q = T.
Proof.
  intros P. assert (E : law_end q = T) by apply P. split; [|exact E]. destruct P. constructor; rewrite ?E; try assumption.
  constructor; assumption.
Qed.

Section Law.
Variables i d A D M w : R.
Hypotheses (Hd : / 100000000 <= d) (HA : 0 < A) (HD : 0 < D) (HM : 0 < M) (Hi : 0 <= i <= M) (Hw : 0 <= w <= M).
Let q := add_segments (law_create i) d A D M w.
Lemma d_pos : 0 < d. Proof. lra. Qed.

(* distances covered while accelerating to M and braking from M *)
Definition dac := (M * M - i * i) / (2 * A).
Definition dde := (M * M - w * w) / (2 * D).
Lemma dac_eq : / 2 * ((M - i) / A) * (i + M) = dac. Proof. unfold dac. field. lra. Qed.
Lemma dde_eq : / 2 * ((M - w) / D) * (w + M) = dde. Proof. unfold dde. field. lra. Qed.
Lemma dac_pos : 0 <= dac.
Proof. unfold dac. apply Rmult_le_pos; [nra|]. apply Rlt_le, Rinv_0_lt_compat. lra. Qed.
Lemma dde_pos : 0 <= dde.
Proof. unfold dde. apply Rmult_le_pos; [nra|]. apply Rlt_le, Rinv_0_lt_compat. lra. Qed.
Lemma div_nonneg a b : 0 <= a -> 0 < b -> 0 <= a / b.
Proof. intros H1 H2. apply Rmult_le_pos; [exact H1|]. apply Rlt_le, Rinv_0_lt_compat, H2. Qed.

Lemma plateau_case : dac + dde < d ->
  exists f g h, done q (d + 2 * dde) w f g h i A D M /\ 0 < law_end q.
Proof.
  intros Hp. unfold q, add_segments. cbn [l_init law_create].
  destruct (rltb_spec d (/ 100000000)); [lra|]. cbv zeta. rewrite dac_eq, dde_eq.
  destruct (rltb_spec (dac + dde) d) as [_|N]; [|contradiction].
  pose proof dac_pos. pose proof dde_pos.
  set (ta := (M - i) / A). set (td := (M - w) / D). set (ti := (d - dac + dde) / M).
  assert (Ta : 0 <= ta) by (apply div_nonneg; lra). assert (Td : 0 <= td) by (apply div_nonneg; lra).
  assert (Ti : 0 < ti) by (apply Rdiv_lt_0_compat; lra).
  assert (Ea : A * ta = M - i) by (unfold ta; field; lra). assert (Ed : D * td = M - w) by (unfold td; field; lra).
  assert (Ei : M * ti = d - dac + dde) by (unfold ti; field; lra).
  pose proof (prog_first i (/ 2 * A) ta A D M Ta ltac:(lra) Hi ltac:(lra)) as P1.
  pose proof (prog_push _ _ _ _ _ _ _ _ _ _ 0 ti P1 (Rlt_le _ _ Ti) ltac:(lra) ltac:(lra) ltac:(lra)) as P2.
  pose proof (prog_push _ _ _ _ _ _ _ _ _ _ (- / 2 * D) td P2 Td ltac:(lra) ltac:(lra) ltac:(lra)) as P3.
  apply prog_done in P3. destruct P3 as [P3 ET].
  set (q3 := push _ _ _ _ td) in *. rewrite ET. change (l_init q3) with i in P3. clearbody q3.
  match type of P3 with done _ ?e ?v _ _ _ _ _ _ _ => replace e with (d + 2 * dde) in P3; [replace v with w in P3|] end.
  - eexists; eexists; eexists. split; [exact P3|]. lra.
  - lra.
  - assert (E1 : ta * (A * ta) + 2 * (i * ta) = 2 * dac) by (rewrite Ea; rewrite <- dac_eq; fold ta; field).
    assert (E3 : - (td * (D * td)) + 2 * (M * td) = 2 * dde) by (rewrite Ed; rewrite <- dde_eq; fold td; field).
    replace (2 * (/ 2 * A) * ta + i) with M by lra. nra.
Qed.

Lemma brake_case : ~ dac + dde < d -> 2 * D * d < i * i - w * w ->
  exists f g h, done q d w f g h i A ((i * i - w * w) / (2 * d)) M /\ 0 < law_end q.
Proof.
  intros Hp Hb. unfold q, add_segments. cbn [l_init law_create].
  destruct (rltb_spec d (/ 100000000)); [lra|]. cbv zeta. rewrite dac_eq, dde_eq.
  destruct (rltb_spec (dac + dde) d) as [?|_]; [contradiction|].
  destruct (rltb_spec d (/ 2 * (i * i - w * w) / D)) as [_|N].
  2:{ exfalso. apply N. apply (Rmult_lt_reg_r (2 * D)); [lra|]. replace (/ 2 * (i * i - w * w) / D * (2 * D)) with (i * i - w * w) by (field; lra). lra. }
  pose proof d_pos as Dp. set (D2 := / 2 * (i * i - w * w) / d).
  assert (W : w < i) by nra.
  assert (E2 : D2 = (i * i - w * w) / (2 * d)) by (unfold D2; field; lra).
  assert (P2 : 0 < D2) by (rewrite E2; apply Rdiv_lt_0_compat; nra).
  set (td := (i - w) / D2). assert (Td : 0 < td) by (apply Rdiv_lt_0_compat; lra).
  assert (Ed : D2 * td = i - w) by (unfold td; field; lra).
  pose proof (prog_first i (- / 2 * D2) td A D2 M (Rlt_le _ _ Td) ltac:(lra) Hi ltac:(lra)) as P1.
  apply prog_done in P1. destruct P1 as [P1 ET]. cbn [l_init push law_create] in P1. rewrite ET.
  match type of P1 with done _ ?e ?v _ _ _ _ _ _ _ => replace e with d in P1; [replace v with w in P1|] end.
  - rewrite <- E2. eexists; eexists; eexists. split; [exact P1|exact Td].
  - lra.
  - assert (Q : 2 * d * D2 = (i - w) * (i + w)) by (rewrite E2; field; lra).
    assert (K : D2 * (- / 2 * D2 * td * td + i * td + 0) = D2 * d).
    { transitivity (- / 2 * (D2 * td) * (D2 * td) + i * (D2 * td)); [ring|]. rewrite Ed. lra. }
    apply Rmult_eq_reg_l in K; lra.
Qed.

Definition top : R := sqrt (D * A / (D + A) * (2 * d + i * i / A + w * w / D)).
Lemma top_sq : top * top = D * A / (D + A) * (2 * d + i * i / A + w * w / D).
Proof.
  apply sqrt_sqrt. pose proof d_pos. apply Rmult_le_pos; [apply div_nonneg; nra|].
  pose proof (div_nonneg (i * i) A ltac:(nra) HA). pose proof (div_nonneg (w * w) D ltac:(nra) HD). lra.
Qed.
Lemma top_pos : 0 <= top. Proof. apply sqrt_pos. Qed.
(* the two phases cover the distance *)
Lemma top_eq : (top * top - i * i) * D + (top * top - w * w) * A = 2 * d * A * D.
Proof. rewrite top_sq. field. lra. Qed.

Lemma not_plateau : ~ dac + dde < d -> 2 * d * A * D <= (M * M - i * i) * D + (M * M - w * w) * A.
Proof.
  intros H. apply Rnot_lt_le in H. apply (Rmult_le_compat_r (2 * A * D)) in H; [|nra].
  replace ((dac + dde) * (2 * A * D)) with ((M * M - i * i) * D + (M * M - w * w) * A) in H by (unfold dac, dde; field; lra). lra.
Qed.
Lemma sq_le a b : 0 <= b -> a * a <= b * b -> a <= b.
Proof. intros H K. destruct (Rle_lt_dec a b); [assumption|]. exfalso. nra. Qed.
Lemma top_le : ~ dac + dde < d -> top <= M.
Proof.
  intros H. apply not_plateau in H. pose proof top_eq as E. apply sq_le; [lra|].
  assert (K : (top * top) * (A + D) <= (M * M) * (A + D)) by nra.
  apply Rmult_le_reg_r in K; lra.
Qed.
Lemma top_i : i * i - w * w <= 2 * D * d -> i <= top.
Proof.
  intros H. pose proof top_eq as E. apply sq_le; [apply top_pos|].
  assert (K : (i * i) * (A + D) <= (top * top) * (A + D)).
  { pose proof (Rmult_le_compat_r A _ _ (Rlt_le _ _ HA) H). lra. }
  apply Rmult_le_reg_r in K; lra.
Qed.
Lemma top_w : w * w - i * i <= 2 * A * d -> w <= top.
Proof.
  intros H. pose proof top_eq as E. apply sq_le; [apply top_pos|].
  assert (K : (w * w) * (A + D) <= (top * top) * (A + D)).
  { pose proof (Rmult_le_compat_r D _ _ (Rlt_le _ _ HD) H). lra. }
  apply Rmult_le_reg_r in K; lra.
Qed.
Lemma top_short : 2 * A * d < w * w - i * i -> top < w.
Proof.
  intros H. pose proof top_eq as E. destruct (Rlt_le_dec top w) as [?|G]; [assumption|]. exfalso.
  assert (K : w * w <= top * top) by (pose proof top_pos; nra).
  assert (K2 : (w * w) * (A + D) <= (top * top) * (A + D)) by (apply Rmult_le_compat_r; lra).
  pose proof (Rmult_lt_compat_r D _ _ HD H). lra.
Qed.

Lemma two_pieces : ~ dac + dde < d -> i * i - w * w <= 2 * D * d ->
  q = push (push (law_create i) (/ 2 * A) i 0 ((top - i) / A)) (- / 2 * D) (2 * (/ 2 * A) * ((top - i) / A) + i)
        (/ 2 * A * ((top - i) / A) * ((top - i) / A) + i * ((top - i) / A) + 0) ((top - w) / D).
Proof.
  intros Hp Hb. unfold q, add_segments. cbn [l_init law_create].
  destruct (rltb_spec d (/ 100000000)); [lra|]. cbv zeta. rewrite dac_eq, dde_eq.
  destruct (rltb_spec (dac + dde) d) as [?|_]; [contradiction|].
  destruct (rltb_spec d (/ 2 * (i * i - w * w) / D)) as [N|_]; [|reflexivity].
  exfalso. apply (Rmult_lt_compat_r (2 * D)) in N; [|lra].
  replace (/ 2 * (i * i - w * w) / D * (2 * D)) with (i * i - w * w) in N by (field; lra). lra.
Qed.

Lemma two_case : ~ dac + dde < d -> i * i - w * w <= 2 * D * d -> w * w - i * i <= 2 * A * d ->
  exists f g h, done q d w f g h i A D M /\ 0 < law_end q.
Proof.
  intros Hp Hb Hf. rewrite (two_pieces Hp Hb).
  pose proof (top_le Hp) as H1. pose proof (top_i Hb) as H2. pose proof (top_w Hf) as H3. pose proof top_eq as E. pose proof d_pos as Dp.
  generalize dependent top. intros V H1 H2 H3 E.
  set (ta := (V - i) / A). set (td := (V - w) / D).
  assert (Ta : 0 <= ta) by (apply div_nonneg; lra). assert (Td : 0 <= td) by (apply div_nonneg; lra).
  assert (Ea : A * ta = V - i) by (unfold ta; field; lra). assert (Ed : D * td = V - w) by (unfold td; field; lra).
  pose proof (prog_first i (/ 2 * A) ta A D M Ta ltac:(lra) Hi ltac:(lra)) as P1.
  pose proof (prog_push _ _ _ _ _ _ _ _ _ _ (- / 2 * D) td P1 Td ltac:(lra) ltac:(lra) ltac:(lra)) as P2.
  apply prog_done in P2. destruct P2 as [P2 ET]. cbn [l_init push law_create] in P2.
  match type of P2 with done _ ?e ?v _ _ _ _ _ _ _ => replace e with d in P2; [replace v with w in P2|] end.
  - eexists; eexists; eexists. split; [exact P2|]. rewrite ET.
    destruct (Rle_lt_or_eq_dec _ _ Ta) as [?|E0]; [lra|]. destruct (Rle_lt_or_eq_dec _ _ Td) as [?|E1]; [lra|]. exfalso.
    rewrite <- E0 in Ea. rewrite <- E1 in Ed. assert (I1 : i = V) by lra. assert (W1 : w = V) by lra. rewrite I1, W1 in E.
    assert (0 < 2 * d * A * D) by (repeat apply Rmult_lt_0_compat; lra). lra.
  - lra.
  - replace (2 * (/ 2 * A) * ta + i) with V by lra.
    assert (K : (2 * A * D) * d = (2 * A * D) * (- / 2 * D * td * td + V * td + (/ 2 * A * ta * ta + i * ta + 0))).
    { transitivity (A * (- (D * td) * (D * td) + 2 * V * (D * td)) + D * ((A * ta) * (A * ta) + 2 * i * (A * ta))); [|field].
      rewrite Ea, Ed. lra. }
    apply Rmult_eq_reg_l in K; [exact K|]. apply Rgt_not_eq. nra.
Qed.

(* too short to reach the target velocity: the second phase ends before it
   begins *)
Lemma short_case : 2 * A * d < w * w - i * i ->
  exists e v f g h, done q e v f g h i A D M /\ 0 < law_end q /\ d < e /\ v < w.
Proof.
  intros Hs. pose proof d_pos as Dp.
  assert (Hp : ~ dac + dde < d).
  { intros H. pose proof dde_pos. assert (K : dac < d) by lra. unfold dac in K.
    apply (Rmult_lt_compat_r (2 * A)) in K; [|lra]. replace ((M * M - i * i) / (2 * A) * (2 * A)) with (M * M - i * i) in K by (field; lra). nra. }
  assert (Hb : i * i - w * w <= 2 * D * d) by nra.
  rewrite (two_pieces Hp Hb). pose proof (top_i Hb) as H2. pose proof (top_short Hs) as H3. pose proof top_eq as E.
  generalize dependent top. intros V H2 H3 E.
  set (ta := (V - i) / A). set (td := (V - w) / D). set (T := ta + td).
  assert (Ea : A * ta = V - i) by (unfold ta; field; lra). assert (Ed : D * td = V - w) by (unfold td; field; lra).
  assert (Td : td < 0) by nra.
  assert (Et : D * (A * T) = (V - i) * D - (w - V) * A) by (unfold T; nra).
  assert (Tp : 0 < T).
  { assert (K : (i * D + w * A) * (i * D + w * A) < (V * (A + D)) * (V * (A + D))).
    { assert (K1 : V * V * (A + D) = 2 * d * A * D + i * i * D + w * w * A) by lra.
      replace ((V * (A + D)) * (V * (A + D))) with ((V * V * (A + D)) * (A + D)) by ring. rewrite K1.
      assert (K2 : 0 <= (w - i) * (w - i) * (A * D)) by (apply Rmult_le_pos; [apply Rle_0_sqr | nra]).
      assert (K3 : 0 < 2 * d * A * D * (A + D)) by (repeat apply Rmult_lt_0_compat; lra). nra. }
    assert (K4 : i * D + w * A < V * (A + D)).
    { destruct (Rlt_le_dec (i * D + w * A) (V * (A + D))); [assumption|]. exfalso. assert (0 <= V * (A + D)) by nra. nra. }
    assert (K5 : 0 < D * (A * T)) by lra.
    destruct (Rlt_le_dec 0 T); [assumption|]. exfalso. assert (0 < D * A) by nra. nra. }
  set (q2 := push _ _ _ _ td).
  assert (ET : law_end q2 = T) by (unfold law_end, q2, push, law_create; cbn; unfold T; ring).
  assert (Hpc : forall t, 0 <= t <= T -> piece_at q2 t = Ok (0, (/ 2 * A, i, 0))).
  { intros t Ht. unfold q2, piece_at, find_interval, push, law_create; cbn [l_times l_pieces app last tl find_from].
    destruct (rltb_spec t 0); [lra|]. destruct (rleb_spec t (0 + ta)) as [_|N]; [reflexivity|]. exfalso. unfold T in Ht. lra. }
  exists (quad 0 (/ 2 * A) i 0 T), (slope 0 (/ 2 * A) i T), (quad 0 (/ 2 * A) i 0), (slope 0 (/ 2 * A) i), (fun _ => 2 * (/ 2 * A)).
  assert (Vt : slope 0 (/ 2 * A) i T < w).
  { unfold slope. assert (A * T <= V - i) by (unfold T; nra). lra. }
  split; [|split; [rewrite ET; exact Tp|split; [|exact Vt]]].
  - constructor; rewrite ?ET; try reflexivity; try (unfold quad, slope; ring).
    + constructor.
      * intros t Ht. unfold law_value. rewrite Hpc by exact Ht. reflexivity.
      * intros t Ht. unfold law_derivative. rewrite Hpc by exact Ht. reflexivity.
      * intros t. apply quad_derivable.
      * intros s t Hst. unfold slope. split; nra.
      * intros t Ht. unfold slope in *. split; nra.
    + intros t Ht. unfold law_derivative. rewrite Hpc by exact Ht. reflexivity.
    + intros s t _ Hst _ _. unfold slope. nra.
    + intros s t _ Hst _ H. unfold slope. destruct (Rle_lt_or_eq_dec _ _ Hst) as [L| ->]; [|lra]. specialize (H t ltac:(lra)). nra.
    + lra.
  - unfold quad. set (B := A * T). assert (HB : B * D = (V - i) * D - (w - V) * A) by (unfold B; lra).
    assert (K : 2 * A * d < B * B + 2 * i * B).
    { assert (K : 2 * A * d * (D * D) < (B * B + 2 * i * B) * (D * D)).
      { replace ((B * B + 2 * i * B) * (D * D)) with ((B * D) * (B * D) + 2 * i * D * (B * D)) by ring. rewrite HB.
        replace (2 * A * d * (D * D)) with ((2 * d * A * D) * D) by ring. rewrite <- E.
        assert (K1 : 0 < (w - V) * (w - V) * A * (D + A)) by (repeat apply Rmult_lt_0_compat; lra). nra. }
      apply Rmult_lt_reg_r in K; nra. }
    apply (Rmult_lt_reg_l (2 * A)); [lra|]. unfold B in K. nra.
Qed.
End Law.
