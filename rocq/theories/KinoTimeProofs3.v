(* computeMinTime: minimal duration and infeasible interval. *)
From Coq Require Import Reals List Lra Lia.
From Verif Require Import Base XReal KinoModel KinoSpec PolyProofs KinoProofs KinoProofs2 KinoTimeModel KinoTimeProofs KinoTimeProofs2.
Import ListNotations.
Open Scope R_scope.

Lemma larger_root_ok a b c r : a <> 0 -> 0 <= r -> r * r = b * b - 4 * a * c ->
  larger_root a b c = Ok (- b / (2 * a) + r / (2 * Rabs a)).
Proof.
  intros Ha Hr Er. unfold larger_root. pose proof (sqr_pos r). rewrite ksqrt_ok by lra. cbn [bind].
  rewrite <- Er, sqrt_square by exact Hr. destruct (reqb_spec a 0); [contradiction|].
  set (q := - (1 / 2) * (b + sgn b * r)). f_equal.
  assert (q * (2 * a) <> 0 \/ q = 0) as Hq by (destruct (Req_dec q 0); [right; assumption|left; apply Rmult_integral_contrapositive_currified; lra]).
  assert ((if reqb q 0 then 0 else c / q) = (- b + sgn b * r) / (2 * a)) as E2.
  { assert (sgn b * sgn b = 1) as Es by (unfold sgn; destruct (rleb_spec 0 b); ring).
    destruct (reqb_spec q 0) as [Eq|Nq].
    - assert (b + sgn b * r = 0) as Z by (unfold q in Eq; lra).
      assert (b = 0 /\ r = 0) as [-> ->].
      { unfold sgn in Z. destruct (rleb_spec 0 b); split; lra. }
      rewrite Rmult_0_r, Ropp_0, Rplus_0_r. unfold Rdiv. ring.
    - assert (c = q * ((- b + sgn b * r) / (2 * a))) as ->; [|field; split; assumption].
      unfold q. replace (- (1 / 2) * (b + sgn b * r) * ((- b + sgn b * r) / (2 * a))) with ((b * b - (sgn b * sgn b) * (r * r)) / (4 * a)) by (field; exact Ha).
      rewrite Es, Er. field. exact Ha. }
  rewrite E2. replace (q / a) with ((- b - sgn b * r) / (2 * a)) by (unfold q; field; exact Ha).
  assert (Rmax ((- b - sgn b * r) / (2 * a)) ((- b + sgn b * r) / (2 * a)) = - b / (2 * a) + Rmax (- (r / (2 * Rabs a))) (r / (2 * Rabs a))) as ->.
  { replace ((- b - sgn b * r) / (2 * a)) with (- b / (2 * a) + - (sgn b * r / (2 * a))) by (field; exact Ha).
    replace ((- b + sgn b * r) / (2 * a)) with (- b / (2 * a) + sgn b * r / (2 * a)) by (field; exact Ha).
    rewrite <- RmaxRmult || idtac.
    assert (sgn b * r / (2 * a) = r / (2 * Rabs a) \/ sgn b * r / (2 * a) = - (r / (2 * Rabs a))) as [-> | ->].
    { unfold sgn. destruct (rleb_spec 0 b); destruct (Rle_lt_dec 0 a).
      - left. rewrite Rabs_right by lra. field. exact Ha.
      - right. rewrite Rabs_left by lra. field. exact Ha.
      - right. rewrite Rabs_right by lra. field. exact Ha.
      - left. rewrite Rabs_left by lra. field. exact Ha. }
    - unfold Rmax. repeat match goal with |- context [Rle_dec ?u ?v] => destruct (Rle_dec u v) end; lra.
    - rewrite Ropp_involutive. unfold Rmax. repeat match goal with |- context [Rle_dec ?u ?v] => destruct (Rle_dec u v) end; lra. }
  assert (0 <= r / (2 * Rabs a)).
  { apply Rmult_le_pos; [exact Hr|]. apply Rlt_le, Rinv_0_lt_compat. pose proof (Rabs_pos_lt a Ha). lra. }
  rewrite Rmax_right by lra. reflexivity.
Qed.

(* minimal duration in coordinates oriented by the sign *)
Definition tmin (A V u1 u2 d : R) : R :=
  let D := (u1 * u1 + u2 * u2) / 2 + A * d in
  if rleb (sqrt D) V then (2 * sqrt D - u1 - u2) / A
  else (V + D / V - u1 - u2) / A.
Definition gap (A u1 u2 d : R) : xr * xr :=
  let E := (u1 * u1 + u2 * u2) / 2 - A * d in
  if rleb u1 0 || rleb u2 0 || rltb E 0 then no_interval
  else (Fin ((u1 + u2 - 2 * sqrt E) / A), Fin ((u1 + u2 + 2 * sqrt E) / A)).

(* the greatest of the two velocities *)
Lemma D_ge A u1 u2 d : (u1 + u2) * Rabs (u2 - u1) <= 2 * A * d ->
  let m := Rmax u1 u2 in let n := Rmin u1 u2 in
  m * m <= (u1 * u1 + u2 * u2) / 2 + A * d /\ (u1 * u1 + u2 * u2) / 2 - A * d <= n * n.
Proof.
  intros H. cbn zeta. unfold Rmax, Rmin. destruct (Rle_dec u1 u2).
  - rewrite Rabs_right in H by lra. split; lra.
  - rewrite Rabs_left in H by lra. split; lra.
Qed.

Lemma sqrt_ge m D : m * m <= D -> m <= sqrt D /\ - m <= sqrt D.
Proof.
  intros H. pose proof (sqr_pos m). assert (sqrt D * sqrt D = D) as E by (apply sqrt_sqrt; lra). pose proof (sqrt_pos D).
  split; apply sqr_le; lra.
Qed.

(* upper condition: at least the minimal duration *)
Lemma up_iff A V T u1 u2 d : 0 < A -> 0 < V -> - V <= u1 <= V -> - V <= u2 <= V ->
  (u1 + u2) * Rabs (u2 - u1) <= 2 * A * d ->
  (Rmax u1 u2 < 0 -> (u1 + u2) * Rabs (u2 - u1) < 2 * A * d) ->
  (Rabs (u2 - u1) <= A * T /\ up A V T u1 u2 d <-> tmin A V u1 u2 d <= T).
Proof.
  intros HA HV H1 H2 Hd Hneg. destruct (D_ge A u1 u2 d Hd) as [HD _]. set (m := Rmax u1 u2) in *.
  set (D := (u1 * u1 + u2 * u2) / 2 + A * d) in *. destruct (sqrt_ge m D HD) as [S1 S2].
  pose proof (sqr_pos m) as Hm2. assert (sqrt D * sqrt D = D) as ED by (apply sqrt_sqrt; lra). pose proof (sqrt_pos D) as HsD.
  assert (u1 <= m /\ u2 <= m) as [Hm1 Hm3] by (split; [apply Rmax_l|apply Rmax_r]).
  assert (m = u1 \/ m = u2) as Hmc by (unfold m, Rmax; destruct (Rle_dec u1 u2); tauto).
  unfold tmin, up. fold D. set (w := (A * T + u1 + u2) / 2).
  assert (forall X, (X - u1 - u2) / A <= T <-> X <= 2 * w) as Hdiv.
  { intros X. unfold w. split; intros H.
    - apply Rmult_le_compat_l with (r := A) in H; [|lra]. replace (A * ((X - u1 - u2) / A)) with (X - u1 - u2) in H by (field; lra). lra.
    - apply Rmult_le_reg_l with A; [exact HA|]. replace (A * ((X - u1 - u2) / A)) with (X - u1 - u2) by (field; lra). lra. }
  assert (Rabs (u2 - u1) <= A * T <-> m <= w) as HS.
  { rewrite Rabs_le_iff. unfold w. split; intros H; [destruct Hmc as [-> | ->]; lra|]. lra. }
  rewrite HS. destruct (rleb_spec (sqrt D) V) as [Hv|Hv]; rewrite Hdiv.
  - split.
    + intros [Hmw [U1 U2]]. destruct (Rle_lt_dec w V) as [Hw|Hw]; [|lra]. specialize (U1 Hw).
      destruct (Rle_lt_dec 0 w) as [Hw0|Hw0].
      * assert (sqrt D <= w) by (apply sqr_le; lra). lra.
      * exfalso. assert (m < 0) as Hm by lra. specialize (Hneg Hm).
        assert (m * m < D).
        { unfold D. unfold m, Rmax in Hneg |- *. destruct (Rle_dec u1 u2).
          - rewrite Rabs_right in Hneg by lra. lra.
          - rewrite Rabs_left in Hneg by lra. lra. }
        assert (w * w <= m * m); [|lra]. assert (0 <= (w - m) * (- w - m)) by (apply Rmult_le_pos; lra). lra.
    + intros H. split; [lra|]. split; intros Hw.
      * assert (0 <= (w - sqrt D) * (w + sqrt D)) by (apply Rmult_le_pos; lra). lra.
      * assert (D <= V * V). { assert (0 <= (V - sqrt D) * (V + sqrt D)) by (apply Rmult_le_pos; lra). lra. }
        assert (0 <= V * (w - V)) by (apply Rmult_le_pos; lra). lra.
  - assert (V < sqrt D) as Hv' by lra.
    assert (V * V < D). { assert (0 < (sqrt D - V) * (sqrt D + V)) by (apply Rmult_lt_0_compat; lra). lra. }
    assert (forall X, V + X / V <= 2 * w <-> V * V + X <= 2 * V * w) as Hdv.
    { intros X. split; intros H'.
      - apply Rmult_le_compat_l with (r := V) in H'; [|lra]. replace (V * (V + X / V)) with (V * V + X) in H' by (field; lra). lra.
      - apply Rmult_le_reg_l with V; [exact HV|]. replace (V * (V + X / V)) with (V * V + X) by (field; lra). lra. }
    rewrite Hdv. split.
    + intros [Hmw [U1 U2]]. destruct (Rle_lt_dec w V) as [Hw|Hw]; [|specialize (U2 Hw); lra].
      exfalso. specialize (U1 Hw).
      assert (w * w <= V * V); [|lra].
      assert (- V <= w) by (destruct Hmc as [E|E]; lra). assert (0 <= (V - w) * (V + w)) by (apply Rmult_le_pos; lra). lra.
    + intros H'. assert (V < w). { apply Rmult_lt_reg_l with (2 * V); lra. }
      split; [destruct Hmc as [E|E]; lra|]. split; intros; lra.
Qed.

(* lower condition: outside the infeasible interval *)
Lemma low_iff A V T u1 u2 d : 0 < A -> 0 < V -> - V <= u1 <= V -> - V <= u2 <= V -> 
  (u1 + u2) * Rabs (u2 - u1) <= 2 * A * d -> Rabs (u2 - u1) <= A * T ->
  (up A V T (- u1) (- u2) (- d) <-> ~ inside (Fin T) (gap A u1 u2 d)).
Proof.
  intros HA HV H1 H2 Hd HS. destruct (D_ge A u1 u2 d Hd) as [_ HE]. set (n := Rmin u1 u2) in *.
  assert (n = u1 \/ n = u2) as Hnc by (unfold n, Rmin; destruct (Rle_dec u1 u2); tauto).
  assert (n <= u1 /\ n <= u2) as [Hn1 Hn2] by (split; [apply Rmin_l|apply Rmin_r]).
  apply Rabs_le_iff in HS.
  unfold up, gap. set (E := (u1 * u1 + u2 * u2) / 2 - A * d) in *.
  replace ((- u1 * - u1 + - u2 * - u2) / 2 + A * - d) with E by (unfold E; field).
  set (z := (u1 + u2 - A * T) / 2). replace ((A * T + - u1 + - u2) / 2) with (- z) by (unfold z; field).
  assert (z <= n) as Hz by (unfold z; destruct Hnc as [-> | ->]; lra).
  assert (n * n <= V * V) as HnV. { assert (0 <= (V - n) * (V + n)) by (apply Rmult_le_pos; destruct Hnc as [E'|E']; lra). lra. }
  assert (V < - z -> E <= 2 * V * - z - V * V) as Hfar.
  { intros H. assert (0 <= V * (- z - V)) by (apply Rmult_le_pos; lra). lra. }
  replace (- z * - z) with (z * z) by ring.
  destruct (rleb_spec u1 0) as [G1|G1]; [|destruct (rleb_spec u2 0) as [G2|G2]; [|destruct (rltb_spec E 0) as [G3|G3]]]; cbn [orb].
  - split; [intros _ (I1 & _); apply I1; exact I|]. intros _. split; [intros Hw|exact Hfar].
    assert (n <= 0) by lra. assert (0 <= (n - z) * (- z - n)) by (apply Rmult_le_pos; lra). lra.
  - split; [intros _ (I1 & _); apply I1; exact I|]. intros _. split; [intros Hw|exact Hfar].
    assert (n <= 0) by lra. assert (0 <= (n - z) * (- z - n)) by (apply Rmult_le_pos; lra). lra.
  - split; [intros _ (I1 & _); apply I1; exact I|]. intros _. split; [intros Hw|exact Hfar]. pose proof (sqr_pos z). lra.
  - assert (0 < n) as Hn by (destruct Hnc as [-> | ->]; lra).
    assert (sqrt E * sqrt E = E) as Es by (apply sqrt_sqrt; lra). pose proof (sqrt_pos E) as Hs.
    assert (sqrt E <= n) as HsE by (apply sqr_le; lra).
    assert (inside (Fin T) (Fin ((u1 + u2 - 2 * sqrt E) / A), Fin ((u1 + u2 + 2 * sqrt E) / A)) <-> - sqrt E < z < sqrt E) as ->.
    { unfold inside. cbn [fst snd xle].
      assert (forall X, X / A < T <-> X < A * T) as D1.
      { intros X. split; intros H'.
        - apply Rmult_lt_compat_l with (r := A) in H'; [|exact HA]. replace (A * (X / A)) with X in H' by (field; lra). exact H'.
        - apply Rmult_lt_reg_l with A; [exact HA|]. replace (A * (X / A)) with X by (field; lra). exact H'. }
      assert (forall X, T < X / A <-> A * T < X) as D2.
      { intros X. split; intros H'.
        - apply Rmult_lt_compat_l with (r := A) in H'; [|exact HA]. replace (A * (X / A)) with X in H' by (field; lra). exact H'.
        - apply Rmult_lt_reg_l with A; [exact HA|]. replace (A * (X / A)) with X by (field; lra). exact H'. }
      split.
      - intros (I1 & I2 & _). apply Rnot_le_lt in I1. apply Rnot_le_lt in I2. apply D1 in I1. apply D2 in I2. unfold z. lra.
      - intros Hz'. split; [apply Rlt_not_le; apply D1; unfold z in *; lra|]. split; [apply Rlt_not_le; apply D2; unfold z in *; lra|].
        repeat split; discriminate. }
    split.
    + intros [U1 U2] Hz'. assert (- z <= V) as Hw. { destruct Hnc as [E'|E']; lra. }
      specialize (U1 Hw). assert (0 < (sqrt E - z) * (sqrt E + z)) by (apply Rmult_lt_0_compat; lra). lra.
    + intros Hz'. split; [intros Hw|exact Hfar].
      destruct (Rle_lt_dec (sqrt E) z) as [Hc|Hc].
      * assert (0 <= (z - sqrt E) * (z + sqrt E)) by (apply Rmult_le_pos; lra). lra.
      * assert (z <= - sqrt E) by (destruct (Rlt_le_dec (- sqrt E) z); [exfalso; apply Hz'; split; assumption|assumption]).
        assert (0 <= (sqrt E - z) * (- z - sqrt E)) by (apply Rmult_le_pos; lra). lra.
Qed.

Lemma s_mul s a : (s = 1 \/ s = -1) -> s * a <> 0 <-> a <> 0.
Proof. intros [-> | ->]; lra. Qed.

Ltac signs Hs := destruct Hs as [-> | ->].

Lemma region1_val A V s p1 p2 v1 v2 two minT1 : 0 < A -> 0 < V -> (s = 1 \/ s = -1) ->
  Rabs v1 <= V -> Rabs v2 <= V -> 0 < s * v1 -> 0 < s * v2 -> 0 <= minT1 ->
  (s * v1 + s * v2) * Rabs (s * v2 - s * v1) <= 2 * A * (s * (p2 - p1)) ->
  let E := (s * v1 * (s * v1) + s * v2 * (s * v2)) / 2 - A * (s * (p2 - p1)) in 0 <= E ->
  region1 two minT1 V (- (s * A)) (s * A) (- (s * V)) p1 p2 v1 v2 =
    Ok (Fin ((s * v1 + s * v2 - 2 * sqrt E) / A), Fin ((s * v1 + s * v2 + 2 * sqrt E) / A)).
Proof.
  intros HA HV Hs H1 H2 P1 P2 Hm Hd E HE.
  destruct (D_ge A (s * v1) (s * v2) (s * (p2 - p1)) Hd) as [_ Hn]. fold E in Hn.
  assert (s * A <> 0) as HsA by (apply s_mul; [assumption|lra]).
  assert (sqrt E * sqrt E = E) as EE by (apply sqrt_sqrt; exact HE). pose proof (sqrt_pos E) as HsE.
  unfold region1, eq13. rewrite kdiv_ok by exact HsA. cbn [bind].
  set (disc := 2 * v1 * (2 * v1) - _). assert (disc = (2 * sqrt E) * (2 * sqrt E)) as ED.
  { replace (2 * sqrt E * (2 * sqrt E)) with (4 * E) by lra. unfold disc, E. signs Hs; field; lra. }
  rewrite ksqrt_ok by (rewrite ED; apply sqr_pos). cbn [bind]. rewrite ED, sqrt_square by lra.
  rewrite !kdiv_ok by lra. cbn [bind].
  replace ((- (2 * v1) + 2 * sqrt E) / (2 * - (s * A))) with ((s * v1 - s * sqrt E) / A) by (signs Hs; field; lra).
  replace ((- (2 * v1) - 2 * sqrt E) / (2 * - (s * A))) with ((s * v1 + s * sqrt E) / A) by (signs Hs; field; lra).
  assert ((s * v1 - sqrt E) / A <= (s * v1 + sqrt E) / A) as Hord.
  { unfold Rdiv. apply Rmult_le_compat_r; [apply Rlt_le, Rinv_0_lt_compat; exact HA|lra]. }
  assert (Rmin ((s * v1 - s * sqrt E) / A) ((s * v1 + s * sqrt E) / A) = (s * v1 - sqrt E) / A /\
          Rmax ((s * v1 - s * sqrt E) / A) ((s * v1 + s * sqrt E) / A) = (s * v1 + sqrt E) / A) as [-> ->].
  { destruct Hs as [Hs|Hs]; rewrite Hs in Hord |- *.
    - rewrite !Rmult_1_l in *. rewrite Rmin_left, Rmax_right by assumption. tauto.
    - replace (-1 * v1 - -1 * sqrt E) with (-1 * v1 + sqrt E) by ring. replace (-1 * v1 + -1 * sqrt E) with (-1 * v1 - sqrt E) by ring.
      rewrite Rmin_right, Rmax_left by assumption. tauto. }
  assert (0 < (s * v1 + sqrt E) / A) as Hhi by (apply Rdiv_lt_0_compat; lra).
  destruct (rltb_spec (- minT1) ((s * v1 + sqrt E) / A)) as [_|Hb]; [|exfalso; lra]. cbn [orb andb].
  assert (Rabs (v1 + (s * v1 + sqrt E) / A * - (s * A)) = sqrt E) as ->.
  { replace (v1 + (s * v1 + sqrt E) / A * - (s * A)) with (s * - sqrt E) by (signs Hs; field; lra).
    rewrite Rabs_tau by exact Hs. rewrite Rabs_Ropp. apply Rabs_right. lra. }
  assert (sqrt E <= V) as HEV.
  { set (n := Rmin (s * v1) (s * v2)) in *. assert (0 < n) by (unfold n; apply Rmin_glb_lt; assumption).
    assert (sqrt E <= n) by (apply sqr_le; lra). assert (n <= s * v1) by apply Rmin_l.
    assert (s * v1 <= V). { rewrite <- (Rabs_tau s v1 Hs) in H1. pose proof (Rle_abs (s * v1)). lra. } lra. }
  destruct (rltb_spec V (sqrt E)) as [Hx|_]; [exfalso; lra|]. cbn [negb]. unfold phases. rewrite kdiv_ok by exact HsA. cbn [bind].
  f_equal. f_equal; f_equal; signs Hs; field; lra.
Qed.

Theorem min_time_val eps A V p1 p2 v1 v2 inf0 : 0 < A -> 0 < V -> Rabs v1 <= V -> Rabs v2 <= V ->
  (eps <= Rabs (p2 - p1) \/ eps <= Rabs (v2 - v1)) ->
  exists s, (s = 1 \/ s = -1) /\
    (s * v1 + s * v2) * Rabs (s * v2 - s * v1) <= 2 * A * (s * (p2 - p1)) /\
    ((s * v1 + s * v2) * Rabs (s * v2 - s * v1) = 2 * A * (s * (p2 - p1)) -> 0 <= s * (p2 - p1)) /\
    min_time eps A V p1 p2 v1 v2 inf0 =
      Ok (tmin A V (s * v1) (s * v2) (s * (p2 - p1)), gap A (s * v1) (s * v2) (s * (p2 - p1))).
Proof.
  intros HA HV H1 H2 Hmv. destruct (sigma_val A p1 p2 v1 v2 HA) as (s & Es & Hs & Hd & Hd0).
  exists s. split; [exact Hs|]. split; [exact Hd|]. split; [exact Hd0|].
  unfold min_time. rewrite Es. cbn [bind].
  assert (rltb (Rabs (p2 - p1)) eps && rltb (Rabs (v2 - v1)) eps = false)%bool as ->.
  { destruct (rltb_spec (Rabs (p2 - p1)) eps), (rltb_spec (Rabs (v2 - v1)) eps); cbn; try reflexivity. exfalso. lra. }
  assert (s * A <> 0) as HsA by (apply s_mul; [assumption|lra]).
  assert (- (s * A) <> 0) as HsA' by lra.
  assert (s * V <> 0) as HsV by (apply s_mul; [assumption|lra]).
  set (u1 := s * v1) in *. set (u2 := s * v2) in *. set (d := s * (p2 - p1)) in *.
  destruct (D_ge A u1 u2 d Hd) as [HD HE].
  set (D := (u1 * u1 + u2 * u2) / 2 + A * d) in *. destruct (sqrt_ge _ D HD) as [S1 S2].
  pose proof (sqr_pos (Rmax u1 u2)). assert (sqrt D * sqrt D = D) as ED by (apply sqrt_sqrt; lra). pose proof (sqrt_pos D) as HsD.
  assert (u1 <= Rmax u1 u2 /\ u2 <= Rmax u1 u2) as [Hm1 Hm2] by (split; [apply Rmax_l|apply Rmax_r]).
  unfold eq13. rewrite (kdiv_ok _ (- (s * A))) by exact HsA'. cbn [bind].
  rewrite (larger_root_ok (s * A) (2 * v1) _ (2 * sqrt D)); [|exact HsA|lra|].
  2:{ replace (2 * sqrt D * (2 * sqrt D)) with (4 * D) by lra. unfold D, u1, u2, d. signs Hs; field; lra. }
  cbn [bind]. rewrite (Rabs_tau s A Hs), (Rabs_right A) by lra.
  replace (- (2 * v1) / (2 * (s * A)) + 2 * sqrt D / (2 * A)) with ((sqrt D - u1) / A) by (unfold u1; signs Hs; field; lra).
  rewrite (kdiv_ok _ (- (s * A))) by exact HsA'. cbn [bind].
  assert (rleb (Rmax 0 (- ((v2 - v1) / - (s * A)))) ((sqrt D - u1) / A) = true) as ->.
  { replace (- ((v2 - v1) / - (s * A))) with ((u2 - u1) / A) by (unfold u1, u2; signs Hs; field; lra).
    match goal with |- rleb ?e _ = _ => destruct (rleb_spec e ((sqrt D - u1) / A)) as [|Hx]; [reflexivity|] end.
    exfalso. apply Hx. apply Rmax_lub.
    - apply Rmult_le_pos; [lra|]. apply Rlt_le, Rinv_0_lt_compat. exact HA.
    - unfold Rdiv. apply Rmult_le_compat_r; [apply Rlt_le, Rinv_0_lt_compat; exact HA|lra]. }
  cbn [andb].
  assert (Rabs (v1 + (sqrt D - u1) / A * (s * A)) = sqrt D) as ->.
  { replace (v1 + (sqrt D - u1) / A * (s * A)) with (s * sqrt D) by (unfold u1; signs Hs; field; lra).
    rewrite Rabs_tau by exact Hs. apply Rabs_right. lra. }
  set (two := negb (rltb V (sqrt D))).
  assert (exists t1 tv t2, phases two ((sqrt D - u1) / A) (s * A) (- (s * A)) (s * V) p1 p2 v1 v2 = Ok (t1, tv, t2) /\
            t1 + tv + t2 = tmin A V u1 u2 d) as (t1 & tv & t2 & Eph & Esum).
  { unfold two, tmin. fold D. destruct (rltb_spec V (sqrt D)) as [Hv|Hv], (rleb_spec (sqrt D) V) as [Hw|Hw]; try (exfalso; lra); cbn [negb].
    - unfold phases. rewrite !kdiv_ok; try assumption; [|signs Hs; apply Rmult_integral_contrapositive_currified; lra]. cbn [bind].
      eexists _, _, _. split; [reflexivity|]. unfold D, u1, u2, d. signs Hs; field; lra.
    - unfold phases. rewrite !kdiv_ok by assumption. cbn [bind]. eexists _, _, _. split; [reflexivity|].
      unfold u1, u2. signs Hs; field; lra. }
  rewrite Eph. cbn [bind]. rewrite Esum.
  assert (v1 * v2 = u1 * u2) as -> by (unfold u1, u2; signs Hs; ring).
  assert (s * A * v1 = A * u1) as -> by (unfold u1; ring).
  unfold gap. set (E := (u1 * u1 + u2 * u2) / 2 - A * d) in *.
  destruct (rleb_spec u1 0) as [G1|G1]; [cbn [orb]|destruct (rleb_spec u2 0) as [G2|G2]; cbn [orb]].
  - destruct (rleb_spec (u1 * u2) 0) as [Hx|Hx]; [reflexivity|]. cbn [orb].
    destruct (rltb_spec (A * u1) 0) as [Hy|Hy]; [reflexivity|]. exfalso.
    assert (u1 = 0) as E0. { destruct (Rle_lt_or_eq_dec _ _ G1) as [G|G]; [|exact G]. exfalso. apply Hy. assert (0 < A * - u1) by (apply Rmult_lt_0_compat; lra). lra. }
    apply Hx. rewrite E0, Rmult_0_l. lra.
  - destruct (rleb_spec (u1 * u2) 0) as [Hx|Hx]; [reflexivity|]. exfalso. apply Hx.
    assert (0 <= u1 * - u2) by (apply Rmult_le_pos; lra). lra.
  - assert (0 < u1) as P1 by lra. assert (0 < u2) as P2 by lra. assert (0 < u1 * u2) by (apply Rmult_lt_0_compat; assumption).
    assert (0 < A * u1) by (apply Rmult_lt_0_compat; assumption).
    destruct (rleb_spec (u1 * u2) 0) as [Hx|_]; [exfalso; lra|]. destruct (rltb_spec (A * u1) 0) as [Hx|_]; [exfalso; lra|]. cbn [orb].
    rewrite !kdiv_ok by lra. cbn [bind].
    assert (0 <= d) as Hd1.
    { assert (0 <= (u1 + u2) * Rabs (u2 - u1)) by (apply Rmult_le_pos; [lra|apply Rabs_pos]).
      apply Rmult_le_reg_l with (2 * A); lra. }
    assert (Rabs (Rabs v1 / A * v1 / 2 + Rabs v2 / A * v2 / 2) = (u1 * u1 + u2 * u2) / (2 * A)) as ->.
    { rewrite <- (Rabs_tau s v1 Hs), <- (Rabs_tau s v2 Hs). fold u1 u2. rewrite (Rabs_right u1), (Rabs_right u2) by lra.
      replace (u1 / A * v1 / 2 + u2 / A * v2 / 2) with (s * ((u1 * u1 + u2 * u2) / (2 * A))) by (unfold u1, u2; signs Hs; field; lra).
      rewrite Rabs_tau by exact Hs. apply Rabs_right. apply Rle_ge. apply Rmult_le_pos.
      - pose proof (sqr_pos u1). pose proof (sqr_pos u2). lra.
      - apply Rlt_le, Rinv_0_lt_compat. lra. }
    assert (Rabs (p2 - p1) = d) as ->. { rewrite <- (Rabs_tau s (p2 - p1) Hs). fold d. apply Rabs_right. lra. }
    assert ((u1 * u1 + u2 * u2) / (2 * A) < d <-> E < 0) as HEd.
    { unfold E. split; intros Hx.
      - apply Rmult_lt_compat_l with (r := A) in Hx; [|exact HA]. replace (A * ((u1 * u1 + u2 * u2) / (2 * A))) with ((u1 * u1 + u2 * u2) / 2) in Hx by (field; lra). lra.
      - apply Rmult_lt_reg_l with A; [exact HA|]. replace (A * ((u1 * u1 + u2 * u2) / (2 * A))) with ((u1 * u1 + u2 * u2) / 2) by (field; lra). lra. }
    destruct (rltb_spec ((u1 * u1 + u2 * u2) / (2 * A)) d) as [Hx|Hx], (rltb_spec E 0) as [Hy|Hy]; try tauto; try reflexivity.
    rewrite (region1_val A V s p1 p2 v1 v2); try assumption; try lra; try reflexivity.
    1: apply Rmax_l.
    fold u1 u2 d E. lra.
Qed.

(* the condition used by [up_iff] *)
Lemma not_tiny eps p1 p2 v1 v2 s A : 0 < A -> 0 < eps -> (s = 1 \/ s = -1) ->
  (eps <= Rabs (p2 - p1) \/ eps <= Rabs (v2 - v1)) ->
  (s * v1 + s * v2) * Rabs (s * v2 - s * v1) <= 2 * A * (s * (p2 - p1)) ->
  ((s * v1 + s * v2) * Rabs (s * v2 - s * v1) = 2 * A * (s * (p2 - p1)) -> 0 <= s * (p2 - p1)) ->
  Rmax (s * v1) (s * v2) < 0 -> (s * v1 + s * v2) * Rabs (s * v2 - s * v1) < 2 * A * (s * (p2 - p1)).
Proof.
  intros HA He Hs Hmv Hd Hd0 Hm. destruct (Rle_lt_or_eq_dec _ _ Hd) as [?|E]; [assumption|]. exfalso.
  specialize (Hd0 E). pose proof (Rmax_l (s * v1) (s * v2)). pose proof (Rmax_r (s * v1) (s * v2)).
  assert (0 <= 2 * A * (s * (p2 - p1))) by (apply Rmult_le_pos; lra).
  pose proof (Rabs_pos (s * v2 - s * v1)).
  assert (Rabs (s * v2 - s * v1) = 0) as Z.
  { destruct (Req_dec (Rabs (s * v2 - s * v1)) 0); [assumption|]. exfalso.
    assert (0 < - (s * v1 + s * v2) * Rabs (s * v2 - s * v1)) by (apply Rmult_lt_0_compat; lra). lra. }
  assert (s * (p2 - p1) = 0) as Z'. { apply Rmult_eq_reg_l with (2 * A); [|lra]. rewrite <- E, Z. ring. }
  rewrite <- (Rabs_tau s (p2 - p1) Hs) in Hmv. rewrite Z', Rabs_R0 in Hmv.
  replace (s * v2 - s * v1) with (s * (v2 - v1)) in Z by ring. rewrite (Rabs_tau s _ Hs) in Z. lra.
Qed.

Lemma feas_signs A V T u1 u2 d s : (s = 1 \/ s = -1) ->
  (feas A V T u1 u2 d <-> 0 <= T /\ Rabs (s * u2 - s * u1) <= A * T /\ up A V T (s * u1) (s * u2) (s * d) /\ up A V T (- (s * u1)) (- (s * u2)) (- (s * d))).
Proof.
  intros Hs. unfold feas. replace (s * u2 - s * u1) with (s * (u2 - u1)) by ring. rewrite (Rabs_tau s _ Hs).
  destruct Hs as [-> | ->].
  - rewrite !Rmult_1_l. tauto.
  - replace (-1 * u1) with (- u1) by ring. replace (-1 * u2) with (- u2) by ring. replace (-1 * d) with (- d) by ring.
    rewrite !Ropp_involutive. tauto.
Qed.

(* computeMinTime is exact *)
Theorem min_time_exact eps A V p1 p2 v1 v2 inf0 : 0 < A -> 0 < V -> 0 < eps -> Rabs v1 <= V -> Rabs v2 <= V ->
  (eps <= Rabs (p2 - p1) \/ eps <= Rabs (v2 - v1)) ->
  exists T i, min_time eps A V p1 p2 v1 v2 inf0 = Ok (T, i) /\ 0 <= T /\
    forall T', feas A V T' v1 v2 (p2 - p1) <-> T <= T' /\ ~ inside (Fin T') i.
Proof.
  intros HA HV He H1 H2 Hmv.
  destruct (min_time_val eps A V p1 p2 v1 v2 inf0 HA HV H1 H2 Hmv) as (s & Hs & Hd & Hd0 & ->).
  eexists _, _. split; [reflexivity|].
  assert (- V <= s * v1 <= V) as B1 by (apply Rabs_le_iff; rewrite Rabs_tau; assumption).
  assert (- V <= s * v2 <= V) as B2 by (apply Rabs_le_iff; rewrite Rabs_tau; assumption).
  pose proof (not_tiny eps p1 p2 v1 v2 s A HA He Hs Hmv Hd Hd0) as Hneg.
  assert (0 <= tmin A V (s * v1) (s * v2) (s * (p2 - p1))) as Hpos.
  { destruct (up_iff A V (tmin A V (s * v1) (s * v2) (s * (p2 - p1))) _ _ _ HA HV B1 B2 Hd Hneg) as [_ Hu].
    destruct (Hu (Rle_refl _)) as [Hx _]. pose proof (Rabs_pos (s * v2 - s * v1)).
    apply Rmult_le_reg_l with A; [exact HA|]. lra. }
  split; [exact Hpos|]. intros T'. rewrite (feas_signs A V T' v1 v2 (p2 - p1) s Hs).
  pose proof (up_iff A V T' _ _ _ HA HV B1 B2 Hd Hneg) as Hup. split.
  - intros (Hx & Hy & U1 & U2). split; [apply Hup; tauto|]. apply (low_iff A V T' _ _ _ HA HV B1 B2 Hd Hy). exact U2.
  - intros (Hx & Hi). apply Hup in Hx as Hx'. destruct Hx' as [Hy U1]. split; [lra|]. split; [exact Hy|]. split; [exact U1|].
    apply (low_iff A V T' _ _ _ HA HV B1 B2 Hd Hy). exact Hi.
Qed.
