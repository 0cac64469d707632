(* Reeds and Shepp: some formula applies whatever the goal. *)
From Coq Require Import Reals ZArith List Bool Lia Lra.
From Verif Require Import Base XReal PolyProofs CurvModel CurvSpec CurvProofs3 AngleProofs DubinsModel DubinsSpec
  DubinsProofs DubinsProofs2 DubinsProofs3 RSModel RSProofs RSProofs2 RSProofs3.
Import ListNotations.
Open Scope R_scope.

Lemma nonneg_ok x : 0 <= x -> nonneg x = true.
Proof. intros H. unfold nonneg, zero_eps. destruct (rleb_spec (- (10 * / 4503599627370496)) x); [reflexivity|lra]. Qed.
Lemma nonpos_ok x : x <= 0 -> nonpos x = true.
Proof. intros H. unfold nonpos, zero_eps. destruct (rleb_spec x (10 * / 4503599627370496)); [reflexivity|lra]. Qed.
Lemma angle_nonneg t : - PI < t -> 0 <= sin t -> 0 <= t.
Proof.
  intros H1 H2. destruct (Rle_or_lt 0 t) as [H|H]; [exact H|].
  assert (0 < sin (- t)) by (apply sin_gt_0; lra). rewrite sin_neg in H0. lra.
Qed.
Lemma angle_neg t : t <= PI -> sin t < 0 -> t < 0.
Proof.
  intros H1 H2. destruct (Rlt_or_le t 0) as [H|H]; [exact H|].
  pose proof (sin_ge_0 t H H1). lra.
Qed.
Lemma atan2_right x y : 0 < x -> - (PI / 2) < atan2 y x < PI / 2.
Proof. intros H. unfold atan2. destruct (rltb_spec 0 x); [|lra]. pose proof (atan_bound (y / x)). lra. Qed.
Lemma atan2_up x y : 0 <= y -> 0 <= atan2 y x.
Proof.
  intros H. destruct (polar x y) as [_ Q]. pose proof (atan2_bound y x) as B.
  destruct (Req_dec (sqrt (x * x + y * y)) 0) as [Z|N].
  - apply sqrt_eq_0 in Z; [|nra]. assert (x = 0) by nra. assert (y = 0) by nra. subst. unfold atan2.
    destruct (rltb_spec 0 0); [lra|]. lra.
  - apply angle_nonneg; [lra|]. pose proof (sqrt_pos (x * x + y * y)).
    destruct (Rle_or_lt 0 (sin (atan2 y x))) as [G|G]; [exact G|]. nra.
Qed.
(* fourth quadrant *)
Lemma atan2_q4 x y : 0 <= x -> y <= 0 -> - (PI / 2) <= atan2 y x <= 0.
Proof.
  intros Hx Hy. pose proof PI_RGT_0. unfold atan2. destruct (rltb_spec 0 x) as [G|G].
  - pose proof (atan_bound (y / x)). split; [lra|]. rewrite <- atan_0.
    assert (y / x <= 0) by (unfold Rdiv; pose proof (Rinv_0_lt_compat x G); nra).
    destruct (Req_dec (y / x) 0) as [->|N]; [lra|]. left. apply atan_increasing. lra.
  - destruct (rltb_spec x 0); [lra|]. destruct (rltb_spec 0 y); [lra|]. destruct (rltb_spec y 0); lra.
Qed.
Lemma rmod_id b : 0 <= b <= PI -> rmod2pi b = b.
Proof.
  intros H. pose proof PI_RGT_0. destruct (Req_dec b PI) as [->|N]; [|apply rmod_small; lra].
  unfold rmod2pi, trunc. assert (E : PI / (2 * PI) = / 2) by (field; lra). rewrite E.
  destruct (rleb_spec 0 (/ 2)); [|lra]. rewrite (floor_unique (/ 2) 0) by (cbn; lra).
  replace (PI - 2 * PI * 0) with PI by ring. destruct (rltb_spec PI (- PI)); [lra|]. destruct (rltb_spec PI PI); lra.
Qed.

(* a formula applies *)
Definition opens (f : formula) (x y phi : R) : Prop := exists o, f x y (cos phi) (sin phi) phi = Some o.
(* ... to one of the variants *)
Definition opens4 (f : formula) (x y phi : R) : Prop :=
  opens f x y phi \/ opens f (- x) y (- phi) \/ opens f x (- y) (- phi) \/ opens f (- x) (- y) phi.
Lemma four_some f a b ls cost x y phi : opens4 f x y phi ->
  exists ty l L, In (Some (ty, l, L)) (four f a b ls cost x y (cos phi) (sin phi) phi).
Proof.
  unfold opens4, opens, four. rewrite !cos_neg, !sin_neg.
  intros [[[[t u] v] E]|[[[[t u] v] E]|[[[[t u] v] E]|[[[t u] v] E]]]]; rewrite E; cbn [mk In].
  - exists a, (ls t u v), (cost t u v). auto.
  - exists a, (opp (ls t u v)), (cost t u v). auto.
  - exists b, (ls t u v), (cost t u v). auto.
  - exists b, (opp (ls t u v)), (cost t u v). auto 6.
Qed.
Lemma opens4_timeflip f x y phi : opens4 f (- x) y (- phi) -> opens4 f x y phi.
Proof. unfold opens4. rewrite !Ropp_involutive. tauto. Qed.
Lemma opens4_reflect f x y phi : opens4 f x (- y) (- phi) -> opens4 f x y phi.
Proof. unfold opens4. rewrite !Ropp_involutive. tauto. Qed.

Notation bx x y phi := (xb x y (cos phi) (sin phi)).
Notation by_ x y phi := (yb x y (cos phi) (sin phi)).
(* some formula applies *)
Definition avail (x y phi : R) : Prop :=
  opens4 LpSpLp x y phi \/ opens4 LpSpRp x y phi \/ opens4 LpRmL x y phi \/ opens4 LpRmSmRm x y phi \/
  opens4 LpRmSmRm (bx x y phi) (by_ x y phi) phi.
Lemma avail_candidate x y phi : avail x y phi -> exists ty l, candidate x y phi ty l.
Proof.
  intros [H|[H|[H|[H|H]]]].
  - destruct (four_some _ 14 15 (fun t u v => [t; u; v; 0; 0]) cost1 _ _ _ H) as [ty [l [L I]]].
    exists ty, l, L, 0. apply in_CSC. unfold CSC. apply in_or_app. left. exact I.
  - destruct (four_some _ 12 13 (fun t u v => [t; u; v; 0; 0]) cost1 _ _ _ H) as [ty [l [L I]]].
    exists ty, l, L, 0. apply in_CSC. unfold CSC. apply in_or_app. right. exact I.
  - destruct (four_some _ 0 1 (fun t u v => [t; u; v; 0; 0]) cost1 _ _ _ H) as [ty [l [L I]]].
    exists ty, l, L, 0. apply in_CCC. unfold CCC. apply in_or_app. left. exact I.
  - destruct (four_some _ 8 9 (fun t u v => [t; - / 2 * PI; u; v; 0]) cost1 _ _ _ H) as [ty [l [L I]]].
    exists ty, l, L, (/ 2 * PI). apply in_CCSC. unfold CCSC. apply in_or_app. right. apply in_or_app. left. exact I.
  - destruct (four_some _ 10 11 (fun t u v => [v; u; - / 2 * PI; t; 0]) cost1 _ _ _ H) as [ty [l [L I]]].
    exists ty, l, L, (/ 2 * PI). apply in_CCSC. unfold CCSC. do 3 (apply in_or_app; right). exact I.
Qed.
Lemma avail_timeflip x y phi : avail (- x) y (- phi) -> avail x y phi.
Proof.
  unfold avail. rewrite cos_neg, sin_neg. destruct (compatible_b x y (cos phi) (sin phi)) as [-> [-> _]].
  intros [H|[H|[H|[H|H]]]]; apply opens4_timeflip in H; tauto.
Qed.
Lemma avail_reflect x y phi : avail x (- y) (- phi) -> avail x y phi.
Proof.
  unfold avail. rewrite cos_neg, sin_neg. destruct (compatible_b x y (cos phi) (sin phi)) as [_ [_ [-> ->]]].
  intros [H|[H|[H|[H|H]]]]; apply opens4_reflect in H; tauto.
Qed.

(* ---- three arcs ---- *)
Lemma LpRmL_opens x y phi : let c := cos phi in let s := sin phi in
  0 <= x - s -> y - 1 + c <= 0 -> (x - s) * (x - s) + (y - 1 + c) * (y - 1 + c) <= 16 -> opens LpRmL x y phi.
Proof.
  intros c s Hx Hy Hr. unfold opens, LpRmL, polar_r, polar_t. fold c s. cbv zeta.
  set (r := sqrt _). assert (R0 : 0 <= r) by apply sqrt_pos.
  assert (R4 : r <= 4).
  { replace 4 with (sqrt (4 * 4)) by (apply sqrt_square; lra). apply sqrt_le_1_alt. lra. }
  destruct (rleb_spec r 4); [|lra]. set (th := atan2 _ _).
  pose proof (atan2_q4 (x - s) (y - 1 + c) Hx Hy) as Bt. fold th in Bt.
  assert (A : 0 <= asin (/ 4 * r) <= PI / 2).
  { pose proof (asin_bound (/ 4 * r)). split; [|lra]. apply angle_nonneg; [pose proof PI_RGT_0; lra|]. rewrite sin_asin; lra. }
  rewrite rmod_id by (pose proof PI_RGT_0; lra).
  rewrite nonneg_ok by (pose proof PI_RGT_0; lra). rewrite nonpos_ok by lra. eexists. reflexivity.
Qed.
Lemma three_arcs x y phi : let c := cos phi in let s := sin phi in
  y - 1 + c <= 0 -> (x - s) * (x - s) + (y - 1 + c) * (y - 1 + c) <= 16 -> opens4 LpRmL x y phi.
Proof.
  intros c s Hy Hr. destruct (Rle_or_lt 0 (x - s)) as [H|H].
  - left. apply LpRmL_opens; assumption.
  - right. left. apply LpRmL_opens; rewrite ?sin_neg, ?cos_neg; fold c s; [lra | exact Hy | lra].
Qed.

(* ---- four segments ---- *)
Lemma LpRmSmRm_opens x y phi : let xi := x + sin phi in let eta := y - 1 - cos phi in
  0 <= xi -> 4 <= xi * xi + eta * eta -> eta * cos phi - xi * sin phi > 0 -> opens LpRmSmRm x y phi.
Proof.
  intros xi eta Hx Hr Hv. unfold opens, LpRmSmRm, polar_r, polar_t. fold xi eta. cbv zeta.
  destruct (polar (- eta) xi) as [P Q]. set (r := sqrt _) in *. set (t := atan2 _ _) in *.
  assert (R2 : 2 <= r).
  { replace 2 with (sqrt (2 * 2)) by (apply sqrt_square; lra). apply sqrt_le_1_alt. lra. }
  destruct (rleb_spec 2 r); [|lra].
  rewrite nonneg_ok by (apply atan2_up; exact Hx). rewrite nonpos_ok by lra.
  rewrite nonpos_ok; [eexists; reflexivity|]. left. apply angle_neg; [apply rmod_bound|].
  rewrite (eqm_sin _ _ (rmod_eqm _)). replace (t + / 2 * PI - phi) with (PI / 2 + (t - phi)) by field.
  rewrite <- cos_sin, cos_minus.
  assert (r * (cos t * cos phi + sin t * sin phi) < 0); [|nra].
  replace (r * (cos t * cos phi + sin t * sin phi)) with (r * cos t * cos phi + r * sin t * sin phi) by ring.
  rewrite P, Q. lra.
Qed.
Lemma four_segs x y phi : let xi := x + sin phi in let eta := y - 1 - cos phi in
  4 <= xi * xi + eta * eta -> eta * cos phi - xi * sin phi > 0 -> opens4 LpRmSmRm x y phi.
Proof.
  intros xi eta Hr Hv. destruct (Rle_or_lt 0 xi) as [H|H].
  - left. apply LpRmSmRm_opens; assumption.
  - right. left. apply LpRmSmRm_opens; rewrite ?sin_neg, ?cos_neg; fold eta; unfold xi in *; [lra | | ].
    + replace ((- x + - sin phi) * (- x + - sin phi)) with ((x + sin phi) * (x + sin phi)) by ring. exact Hr.
    + replace ((- x + - sin phi) * - sin phi) with ((x + sin phi) * sin phi) by ring. exact Hv.
Qed.

(* ---- two arcs and a straight segment ---- *)
Lemma tangent_pos X Y w : 0 <= X -> 0 <= Y -> 0 <= w -> w * w = X * X + (Y - 2) * (Y - 2) - 4 -> 0 <= 2 * X + w * (Y - 2).
Proof.
  intros HX HY Hw E. destruct (Rle_or_lt 2 Y) as [G|G]; [assert (0 <= w * (Y - 2)) by (apply Rmult_le_pos; lra); lra|].
  assert (K : (w * (2 - Y)) * (w * (2 - Y)) <= (2 * X) * (2 * X)).
  { replace (w * (2 - Y) * (w * (2 - Y))) with ((w * w) * ((2 - Y) * (2 - Y))) by ring. rewrite E.
    assert (0 <= (4 * Y - Y * Y) * (X * X + (2 - Y) * (2 - Y))).
    { apply Rmult_le_pos; nra. }
    nra. }
  assert (w * (2 - Y) <= 2 * X); [|lra].
  apply Rsqr_incr_0_var; [exact K | lra].
Qed.
Lemma LpSpRp_opens x y phi : let c := cos phi in let s := sin phi in
  let xi := x + s in let eta := y - 1 - c in let X := xi * c + eta * s in let Y := 2 - xi * s + eta * c in
  0 < xi -> 0 <= y + 1 - c -> 0 <= X -> 0 <= Y -> 4 <= xi * xi + eta * eta -> - (PI / 2) <= phi <= PI / 2 -> opens LpSpRp x y phi.
Proof.
  intros c s xi eta X Y Hxi Hk HX HY Hr Hphi. unfold opens, LpSpRp, polar_r, polar_t. fold c s. fold xi eta. cbv zeta.
  assert (T : s * s + c * c = 1) by apply trig1.
  assert (Rr : sqrt (xi * xi + eta * eta) * sqrt (xi * xi + eta * eta) = xi * xi + eta * eta) by (apply sqrt_sqrt; lra).
  assert (Rp : 0 <= sqrt (xi * xi + eta * eta)) by apply sqrt_pos.
  destruct (polar xi eta) as [P Q]. set (r := sqrt _) in *. set (th := atan2 eta xi) in *.
  destruct (rleb_spec 4 (r * r)); [|lra]. set (w := sqrt (r * r - 4)).
  assert (W : w * w = r * r - 4) by (apply sqrt_sqrt; lra). assert (Wp : 0 <= w) by apply sqrt_pos.
  destruct (polar w 2) as [P2 Q2].
  assert (Er : sqrt (w * w + 2 * 2) = r).
  { rewrite W. replace (r * r - 4 + 2 * 2) with (r * r) by ring. apply sqrt_square. exact Rp. }
  rewrite Er in P2, Q2. set (om := atan2 2 w) in *.
  pose proof PI_RGT_0 as Pp. pose proof (atan2_right xi eta Hxi) as Bt. fold th in Bt.
  assert (Bo : 0 <= om <= PI / 2).
  { split; [apply atan2_up; lra|]. unfold om, atan2. destruct (rltb_spec 0 w); [pose proof (atan_bound (2 / w)); lra|].
    destruct (rltb_spec w 0); [lra|]. destruct (rltb_spec 0 2); lra. }
  assert (St : r * r * sin (th + om) = 2 * xi + w * eta).
  { rewrite sin_plus. transitivity (r * sin th * (r * cos om) + r * cos th * (r * sin om)); [ring|]. rewrite P, Q, P2, Q2. ring. }
  assert (Ct : r * r * cos (th + om) = w * xi - 2 * eta).
  { rewrite cos_plus. transitivity (r * cos th * (r * cos om) - r * sin th * (r * sin om)); [ring|]. rewrite P, Q, P2, Q2. ring. }
  assert (K1 : 0 <= 2 * xi + w * (y + 1 - c - 2)).
  { apply tangent_pos; [lra | exact Hk | exact Wp|]. rewrite W, Rr. unfold eta. ring. }
  assert (K2 : 0 <= 2 * X + w * (Y - 2)).
  { apply tangent_pos; [exact HX | exact HY | exact Wp|]. rewrite W, Rr.
    transitivity ((xi * xi + eta * eta) * (s * s + c * c) - 4); [rewrite T; ring | unfold X, Y; ring]. }
  assert (S1 : 0 <= sin (th + om)).
  { replace (y + 1 - c - 2) with eta in K1 by (unfold eta; ring). rewrite <- St in K1.
    destruct (Rle_or_lt 0 (sin (th + om))) as [G|G]; [exact G|]. nra. }
  rewrite (rmod_small (th + om)) by lra.
  assert (T0 : 0 <= th + om) by (apply angle_nonneg; lra).
  rewrite nonneg_ok by exact T0.
  assert (S2 : 0 <= sin (th + om - phi)).
  { rewrite sin_minus. fold c s.
    assert (E : r * r * (sin (th + om) * c - cos (th + om) * s) = 2 * X + w * (Y - 2)).
    { transitivity ((r * r * sin (th + om)) * c - (r * r * cos (th + om)) * s); [ring|]. rewrite St, Ct. unfold X, Y. ring. }
    rewrite <- E in K2. destruct (Rle_or_lt 0 (sin (th + om) * c - cos (th + om) * s)) as [G|G]; [exact G|]. nra. }
  rewrite nonneg_ok; [eexists; reflexivity|].
  destruct (Rle_or_lt (th + om - phi) PI) as [G|G].
  - destruct (Req_dec (th + om - phi) PI) as [Z|N]; [rewrite Z, rmod_id; lra|].
    rewrite rmod_small by lra. apply angle_nonneg; lra.
  - exfalso. assert (sin (th + om - phi) < 0) by (apply sin_lt_0; lra). lra.
Qed.
Lemma LpSpLp_opens x y phi : let c := cos phi in let s := sin phi in
  0 < x - s -> 0 <= y - 1 + c -> 0 <= x * s - y * c - 1 + c -> - (PI / 2) <= phi <= PI / 2 -> opens LpSpLp x y phi.
Proof.
  intros c s Hx Hy Hv Hphi. unfold opens, LpSpLp, polar_r, polar_t. fold c s. cbv zeta.
  assert (T : s * s + c * c = 1) by apply trig1.
  destruct (polar (x - s) (y - 1 + c)) as [P Q]. assert (Rp : 0 <= sqrt ((x - s) * (x - s) + (y - 1 + c) * (y - 1 + c))) by apply sqrt_pos.
  set (r := sqrt _) in *. set (t := atan2 _ _) in *.
  pose proof PI_RGT_0. pose proof (atan2_right (x - s) (y - 1 + c) Hx) as Bt. pose proof (atan2_up (x - s) _ Hy) as Bu. fold t in Bt, Bu.
  rewrite nonneg_ok by exact Bu. rewrite rmod_small by lra.
  rewrite nonneg_ok; [eexists; reflexivity|]. apply angle_nonneg; [lra|]. rewrite sin_minus. fold c s.
  assert (E : r * (s * cos t - c * sin t) = x * s - y * c - 1 + c).
  { transitivity (s * (r * cos t) - c * (r * sin t)); [ring|]. rewrite P, Q.
    transitivity (x * s - y * c + c - (s * s + c * c)); [ring | rewrite T; ring]. }
  rewrite <- E in Hv. destruct (Rle_or_lt 0 (s * cos t - c * sin t)) as [G|G]; [exact G|].
  destruct (Req_dec r 0) as [Z|N]; [rewrite Z, Rmult_0_l in P; lra | nra].
Qed.

(* ---- far from the start ---- *)
Definition far (x y phi : R) : Prop :=
  (x - sin phi) * (x - sin phi) + (y - 1 + cos phi) * (y - 1 + cos phi) > 16 \/
  (x + sin phi) * (x + sin phi) + (y + 1 - cos phi) * (y + 1 - cos phi) > 16.
Lemma far_timeflip x y phi : far x y phi -> far (- x) y (- phi).
Proof. unfold far. rewrite sin_neg, cos_neg. intros [H|H]; [left|right]; nra. Qed.
Lemma far_reflect x y phi : far x y phi -> far x (- y) (- phi).
Proof. unfold far. rewrite sin_neg, cos_neg. intros [H|H]; [right|left]; nra. Qed.
Lemma far_back x y phi : far x y phi -> far (bx x y phi) (by_ x y phi) phi.
Proof.
  unfold far, xb, yb. pose proof (trig1 phi) as T. set (c := cos phi) in *. set (s := sin phi) in *. intros [H|H]; [left|right].
  - replace (_ + _) with ((x - s) * (x - s) + (y - 1 + c) * (y - 1 + c) + (s * s + c * c - 1) * (x * x + y * y - 2 * y)) by ring.
    rewrite T. lra.
  - replace (_ + _) with ((x + s) * (x + s) + (y + 1 - c) * (y + 1 - c) + (s * s + c * c - 1) * (x * x + y * y + 2 * y)) by ring.
    rewrite T. lra.
Qed.
Lemma far_LR x y phi : far x y phi -> 4 <= (x + sin phi) * (x + sin phi) + (y - 1 - cos phi) * (y - 1 - cos phi).
Proof.
  unfold far. pose proof (trig1 phi) as T. set (c := cos phi) in *. set (s := sin phi) in *. intros [H|H].
  - pose proof (Rle_0_sqr (x + 3 * s)). pose proof (Rle_0_sqr (y - 1 - 3 * c)). unfold Rsqr in *. nra.
  - pose proof (Rle_0_sqr (x + s)). pose proof (Rle_0_sqr (y - 1 - c - 2)). unfold Rsqr in *. nra.
Qed.

(* the goal is not ahead or behind within a strip *)
Lemma avail_side x y phi : far x y phi -> 1 + cos phi < Rabs (by_ x y phi) -> opens4 LpRmSmRm x y phi.
Proof.
  intros Hf H. pose proof (trig1 phi) as T. unfold yb in H.
  destruct (Rle_or_lt 0 (x * sin phi - y * cos phi)) as [G|G].
  - rewrite Rabs_right in H by lra. apply opens4_reflect. apply four_segs.
    + apply far_LR, far_reflect, Hf.
    + rewrite sin_neg, cos_neg. set (c := cos phi) in *. set (s := sin phi) in *.
      replace ((- y - 1 - c) * c - (x + - s) * - s) with (x * s - y * c - c - (s * s + c * c)) by ring. rewrite T. lra.
  - rewrite Rabs_left in H by lra. apply four_segs.
    + apply far_LR, Hf.
    + set (c := cos phi) in *. set (s := sin phi) in *.
      replace ((y - 1 - c) * c - (x + s) * s) with (- (x * s - y * c) - c - (s * s + c * c)) by ring. rewrite T. lra.
Qed.

Lemma avail_strip x y phi : far x y phi -> 0 <= x -> 0 <= phi <= PI ->
  Rabs y <= 1 + cos phi -> Rabs (by_ x y phi) <= 1 + cos phi -> avail x y phi.
Proof.
  intros Hf Hx Hphi Hy Hb. unfold yb in Hb.
  assert (Hy' : - (1 + cos phi) <= y <= 1 + cos phi) by (unfold Rabs in Hy; destruct (Rcase_abs y); lra).
  assert (Hb' : - (1 + cos phi) <= x * sin phi - y * cos phi <= 1 + cos phi) by (unfold Rabs in Hb; destruct (Rcase_abs _); lra).
  clear Hy Hb. pose proof (trig1 phi) as T. assert (S0 : 0 <= sin phi) by (apply sin_ge_0; lra).
  pose proof (far_LR x y phi Hf) as FLR. pose proof (far_LR _ _ _ (far_reflect _ _ _ Hf)) as FRL. rewrite sin_neg, cos_neg in FRL.
  unfold far in Hf. pose proof (COS_bound phi) as [C1 C2]. pose proof (SIN_bound phi) as [_ S1].
  set (c := cos phi) in *. set (s := sin phi) in *.
  assert (Hh : (y - 1 + c) * (y - 1 + c) <= 4) by nra.
  assert (Hk : (y + 1 - c) * (y + 1 - c) <= 4) by nra.
  assert (Hx3 : 2 < x) by (destruct (Rlt_or_le 2 x) as [G|G]; [exact G|]; exfalso; destruct Hf; nra).
  destruct (Rlt_or_le c 0) as [Gc|Gc].
  - (* opposite headings *)
    assert (B : x * s <= s * s).
    { assert (s * s = (1 + c) * (1 - c)) by lra. assert (y * c <= (1 + c) * (- c)) by nra. nra. }
    assert (Z : s = 0) by nra. assert (Ec : c = -1) by nra.
    assert (Ephi : phi = PI).
    { destruct (Req_dec phi PI) as [E|E]; [exact E|]. destruct (Req_dec phi 0) as [E0|E0].
      - unfold c in Ec. rewrite E0, cos_0 in Ec. lra.
      - assert (0 < sin phi) by (apply sin_gt_0; lra). fold s in H. lra. }
    assert (Ey : y = 0) by lra.
    right. right. right. left. left. unfold opens, LpRmSmRm, polar_r, polar_t. fold c s. rewrite Z, Ec, Ey, Ephi. cbv zeta.
    replace (x + 0) with x by ring. replace (- (0 - 1 - -1)) with 0 by ring.
    replace (sqrt (0 * 0 + x * x)) with x by (replace (0 * 0 + x * x) with (x * x) by ring; rewrite sqrt_square; lra).
    destruct (rleb_spec 2 x); [|lra].
    assert (A : atan2 x 0 = PI / 2).
    { unfold atan2. destruct (rltb_spec 0 0); [lra|]. destruct (rltb_spec 0 x); [reflexivity|lra]. }
    rewrite A. pose proof PI_RGT_0. rewrite nonneg_ok by lra. rewrite nonpos_ok by lra.
    replace (PI / 2 + / 2 * PI - PI) with 0 by field. rewrite rmod_id by lra. rewrite nonpos_ok by lra. eexists. reflexivity.
  - assert (Hphi2 : - (PI / 2) <= phi <= PI / 2).
    { pose proof PI_RGT_0. split; [lra|]. destruct (Rle_or_lt phi (PI / 2)) as [G|G]; [exact G|]. exfalso.
      assert (cos phi < 0) by (apply cos_lt_0; lra). fold c in H0. lra. }
    assert (Hsc : s + 2 * s * c <= 2) by (pose proof (Rle_0_sqr (s - c)) as Q; unfold Rsqr in Q; lra).
    assert (Cp : 0 < c).
    { destruct (Req_dec c 0) as [Z|]; [|lra]. exfalso.
      assert (E1 : s * s = 1) by (rewrite Z in T; lra). assert (E2 : 1 <= s) by nra.
      assert (E3 : x * s <= 1) by (rewrite Z in Hb'; lra). nra. }
    (* the two straight words *)
    assert (LSR : 0 <= y + 1 - c -> x * s - y * c <= 1 - c -> avail x y phi).
    { intros K1 K2. right. left. left. apply LpSpRp_opens; fold c s; [lra | exact K1 | | | exact FLR | exact Hphi2].
      - replace ((x + s) * c + (y - 1 - c) * s) with (x * c + y * s - s) by ring.
        assert (0 <= c * (x * c + y * s - s)); [|nra].
        replace (c * (x * c + y * s - s)) with ((s * s + c * c) * x - s * (x * s - y * c) - s * c) by ring.
        rewrite T. assert (s * (x * s - y * c) <= s * (1 + c)) by (apply Rmult_le_compat_l; lra). lra.
      - replace (2 - (x + s) * s + (y - 1 - c) * c) with (2 - (s * s + c * c) - (x * s - y * c) - c) by ring. rewrite T. lra. }
    assert (RSL : 0 <= - y + 1 - c -> - (1 - c) <= x * s - y * c -> avail x y phi).
    { intros K1 K2. right. left. apply opens4_reflect. left. apply LpSpRp_opens; rewrite ?sin_neg, ?cos_neg; fold c s;
        [lra | exact K1 | | | exact FRL | lra].
      - replace ((x + - s) * c + (- y - 1 - c) * - s) with (x * c + y * s + s) by ring.
        assert (0 <= c * (x * c + y * s + s)); [|nra].
        replace (c * (x * c + y * s + s)) with ((s * s + c * c) * x - s * (x * s - y * c) + s * c) by ring.
        rewrite T. assert (s * (x * s - y * c) <= s * (1 + c)) by (apply Rmult_le_compat_l; lra). lra.
      - replace (2 - (x + - s) * - s + (- y - 1 - c) * c) with (2 - (s * s + c * c) + (x * s - y * c) - c) by ring. rewrite T. lra. }
    destruct (Rle_or_lt (1 - c) y) as [G1|G1].
    + destruct (Rle_or_lt (1 - c) (x * s - y * c)) as [G2|G2]; [|apply LSR; lra].
      left. left. apply LpSpLp_opens; fold c s; lra.
    + destruct (Rle_or_lt (x * s - y * c) (1 - c)) as [G2|G2].
      * destruct (Rle_or_lt (- (1 - c)) y) as [G3|G3]; [apply LSR; lra|].
        destruct (Rle_or_lt (- (1 - c)) (x * s - y * c)) as [G4|G4]; [apply RSL; lra|].
        left. apply opens4_reflect. left. apply LpSpLp_opens; rewrite ?sin_neg, ?cos_neg; fold c s; lra.
      * apply RSL; lra.
Qed.

(* Whatever the goal, a formula applies. *)
Lemma avail_all x y phi : - PI <= phi <= PI -> avail x y phi.
Proof.
  intros Hphi. pose proof (COS_bound phi) as [_ C1].
  assert (D : far x y phi \/ ~ far x y phi).
  { unfold far. set (A := _ + _). set (B := (x + sin phi) * (x + sin phi) + _).
    destruct (Rlt_or_le 16 A); [left; left; lra|]. destruct (Rlt_or_le 16 B); [left; right; lra|]. right. lra. }
  destruct D as [Hf|N].
  - destruct (Rlt_or_le (1 + cos phi) (Rabs (by_ x y phi))) as [G|Hb].
    { right. right. right. left. apply avail_side; assumption. }
    destruct (Rlt_or_le (1 + cos phi) (Rabs y)) as [G|Hy].
    { right. right. right. right. apply avail_side; [apply far_back, Hf|]. destruct (bb x y phi) as [_ ->]. exact G. }
    (* symmetries *)
    assert (P : forall x y phi, far x y phi -> - PI <= phi <= PI -> 0 <= x -> Rabs y <= 1 + cos phi -> Rabs (by_ x y phi) <= 1 + cos phi -> avail x y phi).
    { clear. intros x y phi Hf Hphi Hx Hy Hb. destruct (Rle_or_lt 0 phi) as [G|G]; [apply avail_strip; try assumption; lra|].
      apply avail_reflect. apply avail_strip; [apply far_reflect, Hf | exact Hx | lra | rewrite Rabs_Ropp, cos_neg; exact Hy|].
      rewrite cos_neg, sin_neg. destruct (compatible_b x y (cos phi) (sin phi)) as [_ [_ [_ ->]]]. rewrite Rabs_Ropp. exact Hb. }
    destruct (Rle_or_lt 0 x) as [G|G]; [apply P; assumption|].
    apply avail_timeflip. apply P; [apply far_timeflip, Hf | lra | lra | rewrite cos_neg; exact Hy|].
    rewrite cos_neg, sin_neg. destruct (compatible_b x y (cos phi) (sin phi)) as [_ [-> _]]. exact Hb.
  - right. right. left. unfold far in N. destruct (Rle_or_lt (y - 1 + cos phi) 0) as [G|G].
    + apply three_arcs; [exact G | lra].
    + apply opens4_reflect. apply three_arcs; rewrite ?sin_neg, ?cos_neg; [lra|].
      assert (E : (x - - sin phi) * (x - - sin phi) + (- y - 1 + cos phi) * (- y - 1 + cos phi) =
                  (x + sin phi) * (x + sin phi) + (y + 1 - cos phi) * (y + 1 - cos phi)) by ring. rewrite E. lra.
Qed.
