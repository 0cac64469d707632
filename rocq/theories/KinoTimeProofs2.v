(* Trajectories of given duration. *)
From Coq Require Import Reals List Lra Lia.
From Verif Require Import Base XReal KinoModel KinoSpec PolyProofs KinoProofs KinoProofs2 KinoTimeModel KinoTimeProofs.
Import ListNotations.
Open Scope R_scope.

Lemma kdiv_ok x y : y <> 0 -> kdiv x y = Ok (x / y).
Proof. intros H. unfold kdiv. destruct (reqb_spec y 0); [contradiction|reflexivity]. Qed.
Lemma ksqrt_ok x : 0 <= x -> ksqrt x = Ok (sqrt x).
Proof. intros H. unfold ksqrt. destruct (rltb_spec x 0); [exfalso; lra|reflexivity]. Qed.

Lemma sqr_pos x : 0 <= x * x. Proof. apply Rle_0_sqr. Qed.
Lemma sqr_le x y : 0 <= y -> x * x <= y * y -> x <= y.
Proof. intros Hy H. destruct (Rle_lt_dec x y); [assumption|]. exfalso. nra. Qed.

(* In coordinates where the first acceleration is positive. *)
Lemma oriented A V T u1 u2 d a : 0 < A -> 0 < V -> 0 < T -> - V <= u1 <= V -> - V <= u2 <= V ->
  up A V T u1 u2 d -> 0 <= d - T * (u1 + u2) / 2 -> 0 < a ->
  T * T * a * a - 4 * (d - T * (u1 + u2) / 2) * a - (u2 - u1) * (u2 - u1) = 0 ->
  a <= A /\ - (a * T) <= u2 - u1 <= a * T /\
  (V < (u1 + u2 + a * T) / 2 ->
     let K := V * T - d in
     let N := (V - u1) * (V - u1) + (V - u2) * (V - u2) in
     0 < K /\ 0 < N / (2 * K) /\ N / (2 * K) <= A /\ 0 <= T - (2 * V - u1 - u2) / (N / (2 * K))).
Proof.
  intros HA HV HT H1 H2 [Up1 Up2] Hdel Ha HQ. set (del := d - T * (u1 + u2) / 2) in *.
  pose proof (sqr_pos (u2 - u1)) as HD2.
  assert (a <= A) as HaA.
  { destruct (Rle_lt_dec a A); [assumption|exfalso].
    assert ((u1 * u1 + u2 * u2) / 2 + A * d <= (A * T + u1 + u2) / 2 * ((A * T + u1 + u2) / 2)) as HU.
    { destruct (Rle_lt_dec ((A * T + u1 + u2) / 2) V) as [Hw|Hw]; [apply Up1; exact Hw|].
      specialize (Up2 Hw). pose proof (sqr_pos ((A * T + u1 + u2) / 2 - V)). lra. }
    assert (0 <= T * T * A * A - 4 * del * A - (u2 - u1) * (u2 - u1)) as HfA by (unfold del; lra).
    assert (0 <= a * (T * T * a - 4 * del)) as G1 by lra.
    assert (0 <= T * T * a - 4 * del) as G2 by (apply Rmult_le_reg_l with a; lra).
    assert (0 < T * T) as G0 by (apply Rmult_lt_0_compat; assumption).
    assert (0 < T * T * A) as G3 by (apply Rmult_lt_0_compat; assumption).
    assert (0 < (a - A) * (T * T * (a + A) - 4 * del)) by (apply Rmult_lt_0_compat; lra). lra. }
  assert (0 <= a * T) as HaT by (apply Rmult_le_pos; lra).
  assert (- (a * T) <= u2 - u1 <= a * T) as HDa.
  { assert ((u2 - u1) * (u2 - u1) <= (a * T) * (a * T)) as HS.
    { assert (0 <= del * a) by (apply Rmult_le_pos; lra). lra. }
    split.
    - assert (- (u2 - u1) <= a * T); [|lra]. apply sqr_le; [exact HaT|]. lra.
    - apply sqr_le; [exact HaT|exact HS]. }
  split; [exact HaA|]. split; [exact HDa|]. intros Hpk. cbn zeta.
  set (s := V - u1). set (r := V - u2). set (K := V * T - d).
  assert (0 <= s) as Hs by (unfold s; lra). assert (0 <= r) as Hr by (unfold r; lra).
  assert (s + r < a * T) as Hy by (unfold s, r; lra).
  assert (V < (A * T + u1 + u2) / 2) as Hw.
  { assert (a * T <= A * T) by (apply Rmult_le_compat_r; lra). lra. }
  specialize (Up2 Hw).
  assert (s * s + r * r <= 2 * A * K) as HNK by (unfold s, r, K; lra).
  assert (2 * K = T * (s + r) - 2 * del) as EK by (unfold K, s, r, del; field).
  assert (0 < s * s + r * r) as HN.
  { destruct (Rle_lt_or_eq_dec 0 (s * s + r * r)) as [|E]; [pose proof (sqr_pos s); pose proof (sqr_pos r); lra|assumption|exfalso].
    assert (s = 0) as Es by (pose proof (sqr_pos s); pose proof (sqr_pos r); nra).
    assert (r = 0) as Er by (pose proof (sqr_pos s); pose proof (sqr_pos r); nra).
    assert (u2 - u1 = 0) as E0 by (unfold s, r in *; lra). rewrite E0 in HQ.
    rewrite Es, Er in EK, HNK.
    assert (0 <= K). { apply Rmult_le_reg_l with (2 * A); lra. }
    assert (del = 0) as Ed by lra. rewrite Ed in HQ.
    assert (0 < T * T * a * a) by (repeat apply Rmult_lt_0_compat; assumption). lra. }
  assert (0 < K) as HK. { apply Rmult_lt_reg_l with (2 * A); lra. }
  split; [exact HK|].
  assert (0 < (s * s + r * r) / (2 * K)) as HB by (apply Rdiv_lt_0_compat; lra).
  split; [exact HB|]. split.
  { apply Rmult_le_reg_r with (2 * K); [lra|]. unfold Rdiv. rewrite Rmult_assoc, Rinv_l by lra. lra. }
  (* del * (s + r) >= T * s * r *)
  assert (T * s * r <= del * (s + r)) as Hkey.
  { set (y := a * T) in *. assert (0 < y) as Hy0 by (unfold y; apply Rmult_lt_0_compat; assumption).
    assert (4 * del * y = T * (y * y - (s - r) * (s - r))) as E4.
    { unfold y. replace (s - r) with (u2 - u1) by (unfold s, r; ring). 
      replace (T * (a * T * (a * T) - (u2 - u1) * (u2 - u1))) with (T * (T * T * a * a - (u2 - u1) * (u2 - u1))) by ring.
      replace (T * T * a * a - (u2 - u1) * (u2 - u1)) with (4 * del * a) by lra. ring. }
    apply Rmult_le_reg_l with (4 * y); [lra|].
    replace (4 * y * (del * (s + r))) with ((4 * del * y) * (s + r)) by ring. rewrite E4.
    assert (0 <= T * ((y - (s + r)) * ((s + r) * y + (s - r) * (s - r)))) as P.
    { apply Rmult_le_pos; [lra|]. apply Rmult_le_pos; [lra|]. pose proof (sqr_pos (s - r)).
      assert (0 <= (s + r) * y) by (apply Rmult_le_pos; lra). lra. }
    lra. }
  replace (2 * V - u1 - u2) with (s + r) by (unfold s, r; ring).
  replace (T - (s + r) / ((s * s + r * r) / (2 * K))) with ((T * (s * s + r * r) - (s + r) * (2 * K)) / (s * s + r * r)) by (field; lra).
  apply Rmult_le_pos; [|apply Rlt_le; apply Rinv_0_lt_compat; exact HN].
  rewrite EK. lra.
Qed.

(* two segments *)
Lemma two_segments_ok T p1 p2 v1 v2 a vl : a <> 0 -> 
  T * T * a * a - 4 * (p2 - p1 - T * (v1 + v2) / 2) * a - (v2 - v1) * (v2 - v1) = 0 ->
  let t := 1/2 * ((v2 - v1) / a + T) in 0 <= t <= T ->
  axis_ok T (mkAxis (mkSt p1 v1 0) (mkSt p2 v2 0) a 0 t 0 (T - t) vl) /\ v1 + t * a = (v1 + v2 + a * T) / 2.
Proof.
  intros Ha HQ t Ht. assert (2 * a * t = v2 - v1 + a * T) as Et by (unfold t; field; exact Ha).
  split; [|lra]. constructor; cbn; try lra.
  apply Rmult_eq_reg_l with (4 * a); [|lra].
  assert (4 * a * (p2 - p1) = T * T * a * a + 2 * T * (v1 + v2) * a - (v2 - v1) * (v2 - v1)) as E by lra.
  replace (4 * a * (p1 + v1 * (0 + t) + a * t * t / 2 + (v1 + a * t) * (0 + (T - t)) - a * (T - t) * (T - t) / 2))
    with (4 * a * p1 + 4 * a * v1 * T + 4 * a * T * (a * t) - (2 * a * t) * (2 * a * t) / 2 - (2 * a * T - 2 * a * t) * (2 * a * T - 2 * a * t) / 2) by field.
  replace (4 * a * T * (a * t)) with (2 * a * T * (2 * a * t)) by ring. rewrite Et.
  replace (4 * a * p2) with (4 * a * p1 + 4 * a * (p2 - p1)) by ring. rewrite E. field.
Qed.

(* three segments *)
Lemma three_segments_ok T p1 p2 v1 v2 a vl : a <> 0 -> vl <> 0 ->
  2 * a * (vl * T - (p2 - p1)) = (vl - v1) * (vl - v1) + (vl - v2) * (vl - v2) ->
  let t := (vl - v1) / a in
  let tv := (v1 * v1 + v2 * v2 - 2 * vl * vl) / (2 * vl * a) + (p2 - p1) / vl in
  let t' := (v2 - vl) / - a in
  tv = T - (2 * vl - v1 - v2) / a /\ t' = (vl - v2) / a /\
  (0 <= t -> 0 <= t' -> 0 <= tv ->
  axis_ok T (mkAxis (mkSt p1 v1 0) (mkSt p2 v2 0) a 0 t tv t' vl) /\ v1 + a * t = vl).
Proof.
  intros Ha Hvl HE t tv t'.
  assert (a * t = vl - v1) as Et by (unfold t; field; exact Ha).
  assert (a * t' = vl - v2) as Et' by (unfold t'; field; exact Ha).
  assert (tv = T - (2 * vl - v1 - v2) / a) as Etv.
  { unfold tv. apply Rmult_eq_reg_l with (2 * vl * a); [|repeat apply Rmult_integral_contrapositive_currified; lra].
    replace (2 * vl * a * ((v1 * v1 + v2 * v2 - 2 * vl * vl) / (2 * vl * a) + (p2 - p1) / vl)) with (v1 * v1 + v2 * v2 - 2 * vl * vl + 2 * a * (p2 - p1)) by (field; lra).
    replace (2 * vl * a * (T - (2 * vl - v1 - v2) / a)) with (2 * vl * a * T - 2 * vl * (2 * vl - v1 - v2)) by (field; lra). lra. }
  split; [exact Etv|]. split; [unfold t'; field; exact Ha|].
  intros H0 H1 H2. split; [|lra]. constructor; cbn; try lra; try assumption.
  - rewrite Etv. unfold t, t'. field. exact Ha.
  - apply Rmult_eq_reg_l with (2 * a); [|lra].
    assert (a * tv = a * T - (2 * vl - v1 - v2)) as Eav by (rewrite Etv; field; exact Ha).
    replace (2 * a * (p1 + v1 * (0 + t) + a * t * t / 2 + (v1 + a * t) * (tv + t') - a * t' * t' / 2))
      with (2 * a * p1 + 2 * v1 * (a * t) + (a * t) * (a * t) + 2 * (v1 + a * t) * (a * tv + a * t') - (a * t') * (a * t')) by field.
    rewrite Eav, Et, Et'. lra.
Qed.

(* the acceleration chosen by the quadratic equation (20) *)
Lemma choose_root T del D q : 0 < T -> (del <> 0 \/ D <> 0) ->
  q = - (1/2) * (-4 * del + sgn (-4 * del) * sqrt ((-4 * del) * (-4 * del) - 4 * (T * T) * (- (D * D)))) ->
  exists tau a, (tau = 1 \/ tau = -1) /\ 0 <= tau * del /\ 0 < a /\ q <> 0 /\
    T * T * a * a - 4 * (tau * del) * a - D * D = 0 /\ T * Rabs D <= Rabs q /\ 4 * Rabs del <= Rabs q /\
    (if rltb (Rabs (- (D * D) / q)) (Rabs (q / (T * T))) then q / (T * T) else - (D * D) / q) = tau * a.
Proof.
  intros HT Hnz ->.
  assert (0 < T * T) as HTT by (apply Rmult_lt_0_compat; assumption).
  set (rho := sqrt (4 * (del * del) + T * T * (D * D))).
  pose proof (sqr_pos del) as Q1. pose proof (sqr_pos D) as Q2.
  assert (0 <= T * T * (D * D)) as Q3 by (apply Rmult_le_pos; lra).
  assert (rho * rho = 4 * (del * del) + T * T * (D * D)) as Er by (apply sqrt_sqrt; lra).
  assert (0 <= rho) as Hr0 by apply sqrt_pos.
  assert (0 < rho) as Hr.
  { destruct (Rle_lt_or_eq_dec _ _ Hr0) as [|E]; [assumption|exfalso]. rewrite <- E in Er.
    assert (del * del = 0) as Z1 by lra. assert (T * T * (D * D) = 0) as Z2 by lra.
    apply Rmult_integral in Z1. apply Rmult_integral in Z2 as [Z2|Z2]; [lra|]. apply Rmult_integral in Z2. destruct Hnz; lra. }
  assert (T * Rabs D <= rho) as HTD.
  { apply sqr_le; [exact Hr0|]. rewrite Er. replace (T * Rabs D * (T * Rabs D)) with (T * T * (Rabs D * Rabs D)) by ring.
    rewrite <- Rabs_mult, (Rabs_right (D * D)) by lra. lra. }
  assert (2 * Rabs del <= rho) as HdR.
  { apply sqr_le; [exact Hr0|]. rewrite Er. replace (2 * Rabs del * (2 * Rabs del)) with (4 * (Rabs del * Rabs del)) by ring.
    rewrite <- Rabs_mult, (Rabs_right (del * del)) by lra. lra. }
  replace (sqrt (-4 * del * (-4 * del) - 4 * (T * T) * - (D * D))) with (2 * rho).
  2:{ symmetry. apply sqrt_lem_1; [pose proof (sqr_pos (-4 * del)); lra|lra|]. lra. }
  assert (0 < Rabs del -> forall q, Rabs q = 2 * Rabs del + rho -> rltb (Rabs (- (D * D) / q)) (Rabs (q / (T * T))) = true) as Hbig.
  { intros Hd q Eq. assert (0 < Rabs q) as Hq by lra. assert (q <> 0) as Hq' by (intros ->; rewrite Rabs_R0 in Hq; lra).
    destruct (rltb_spec (Rabs (- (D * D) / q)) (Rabs (q / (T * T)))) as [|Hn]; [reflexivity|exfalso; apply Hn].
    unfold Rdiv. rewrite !Rabs_mult, Rabs_Ropp, !Rabs_inv, !Rabs_mult, (Rabs_right T) by lra.
    apply Rmult_lt_reg_r with (Rabs q * (T * T)); [apply Rmult_lt_0_compat; assumption|].
    replace (Rabs D * Rabs D * / Rabs q * (Rabs q * (T * T))) with ((T * Rabs D) * (T * Rabs D)) by (field; lra).
    replace (Rabs q * / (T * T) * (Rabs q * (T * T))) with (Rabs q * Rabs q) by (field; lra).
    rewrite Eq. pose proof (Rabs_pos D). assert (0 <= T * Rabs D) by (apply Rmult_le_pos; lra).
    apply Rmult_le_0_lt_compat; lra. }
  unfold sgn. destruct (rleb_spec 0 (-4 * del)) as [Hb|Hb].
  - destruct (Req_dec del 0) as [E|E].
    + (* no deviation from constant acceleration *)
      subst del. assert (D <> 0) as HD by (destruct Hnz; [lra|assumption]).
      assert (rho = T * Rabs D) as ER.
      { unfold rho. apply sqrt_lem_1; [lra|pose proof (Rabs_pos D); apply Rmult_le_pos; lra|].
        replace (T * Rabs D * (T * Rabs D)) with (T * T * (Rabs D * Rabs D)) by ring. rewrite <- Rabs_mult, (Rabs_right (D * D)) by lra. ring. }
      assert (0 < Rabs D) as HaD by (apply Rabs_pos_lt; exact HD).
      replace (- (1 / 2) * (-4 * 0 + 1 * (2 * rho))) with (- rho) by field.
      exists 1, (Rabs D / T). split; [left; reflexivity|]. split; [lra|]. split; [apply Rdiv_lt_0_compat; lra|]. split; [lra|].
      split. { replace (T * T * (Rabs D / T) * (Rabs D / T)) with (Rabs D * Rabs D) by (field; lra). rewrite <- Rabs_mult, (Rabs_right (D * D)) by lra. lra. }
      rewrite Rabs_Ropp, (Rabs_right rho) by lra. split; [lra|]. split; [rewrite Rabs_R0; lra|].
      assert (- (D * D) / - rho = Rabs D / T) as E2.
      { rewrite ER. replace (- (D * D)) with (- (Rabs D * Rabs D)) by (rewrite <- Rabs_mult, (Rabs_right (D * D)) by lra; ring). field. lra. }
      rewrite E2. assert (- rho / (T * T) = - (Rabs D / T)) as E3 by (rewrite ER; field; lra). rewrite E3, Rabs_Ropp.
      destruct (rltb_spec (Rabs (Rabs D / T)) (Rabs (Rabs D / T))); [exfalso; lra|]. ring.
    + assert (del < 0) as Hd by lra. assert (Rabs del = - del) as Ea by (apply Rabs_left; exact Hd).
      replace (- (1 / 2) * (-4 * del + 1 * (2 * rho))) with (2 * del - rho) by field.
      assert (Rabs (2 * del - rho) = 2 * Rabs del + rho) as Eq by (rewrite Rabs_left by lra; lra).
      rewrite Hbig by (try exact Eq; lra).
      exists (-1), ((rho - 2 * del) / (T * T)). split; [right; reflexivity|]. split; [lra|]. split; [apply Rdiv_lt_0_compat; lra|]. split; [lra|].
      split. { replace (T * T * ((rho - 2 * del) / (T * T)) * ((rho - 2 * del) / (T * T)) - 4 * (-1 * del) * ((rho - 2 * del) / (T * T)) - D * D)
                 with ((rho * rho - 4 * (del * del) - T * T * (D * D)) / (T * T)) by (field; lra). rewrite Er. field. lra. }
      rewrite Eq. split; [pose proof (Rabs_pos del); lra|]. split; [lra|]. field. lra.
  - assert (0 < del) as Hd by lra. assert (Rabs del = del) as Ea by (apply Rabs_right; lra).
    replace (- (1 / 2) * (-4 * del + -1 * (2 * rho))) with (2 * del + rho) by field.
    assert (Rabs (2 * del + rho) = 2 * Rabs del + rho) as Eq by (rewrite Rabs_right by lra; lra).
    rewrite Hbig by (try exact Eq; lra).
    exists 1, ((rho + 2 * del) / (T * T)). split; [left; reflexivity|]. split; [lra|]. split; [apply Rdiv_lt_0_compat; lra|]. split; [lra|].
    split. { replace (T * T * ((rho + 2 * del) / (T * T)) * ((rho + 2 * del) / (T * T)) - 4 * (1 * del) * ((rho + 2 * del) / (T * T)) - D * D)
               with ((rho * rho - 4 * (del * del) - T * T * (D * D)) / (T * T)) by (field; lra). rewrite Er. field. lra. }
    rewrite Eq. split; [pose proof (Rabs_pos del); lra|]. split; [lra|]. field. lra.
Qed.

Definition law_axis (w : law) (p1 p2 v1 v2 : R) : axis :=
  mkAxis (mkSt p1 v1 0) (mkSt p2 v2 0) (l_a1 w) (l_t0 w) (l_t1 w) (l_tv w) (l_t2 w) (l_vlim w).

Lemma up_sign A V T u1 u2 d tau : (tau = 1 \/ tau = -1) -> feas A V T u1 u2 d -> up A V T (tau * u1) (tau * u2) (tau * d).
Proof.
  intros [-> | ->] (_ & _ & H1 & H2); [rewrite !Rmult_1_l; exact H1|].
  replace (-1 * u1) with (- u1) by ring. replace (-1 * u2) with (- u2) by ring. replace (-1 * d) with (- d) by ring. exact H2.
Qed.

Lemma sgn_tau tau a : (tau = 1 \/ tau = -1) -> 0 < a -> sgn (tau * a) = tau.
Proof. intros [-> | ->] Ha; unfold sgn; match goal with |- context [rleb 0 ?e] => destruct (rleb_spec 0 e) end; lra. Qed.

Lemma Rabs_tau tau a : (tau = 1 \/ tau = -1) -> Rabs (tau * a) = Rabs a.
Proof. intros [-> | ->]; [rewrite Rmult_1_l; reflexivity|]. replace (-1 * a) with (- a) by ring. apply Rabs_Ropp. Qed.

Lemma clip_tau A tau a : (tau = 1 \/ tau = -1) -> 0 < a -> a <= A -> clip A (tau * a) = tau * a.
Proof.
  intros Ht Ha HA. unfold clip. rewrite Rabs_tau, (Rabs_right a) by (assumption || lra).
  destruct (rltb_spec A a); [exfalso; lra|reflexivity].
Qed.

Lemma law_of_root A V T p1 p2 v1 v2 tau a : 0 < A -> 0 < V -> 0 < T -> Rabs v1 <= V -> Rabs v2 <= V ->
  feas A V T v1 v2 (p2 - p1) -> (tau = 1 \/ tau = -1) -> 0 <= tau * (p2 - p1 - T * (v1 + v2) / 2) -> 0 < a ->
  T * T * a * a - 4 * (tau * (p2 - p1 - T * (v1 + v2) / 2)) * a - (v2 - v1) * (v2 - v1) = 0 ->
  let a1 := tau * a in
  let vLim := tau * V in
  let t1 := 1/2 * ((v2 - v1) / a1 + T) in
  a <= A /\
  (Rabs (v1 + t1 * a1) <= V ->
     axis_ok T (mkAxis (mkSt p1 v1 0) (mkSt p2 v2 0) a1 0 t1 0 (T - t1) vLim)) /\
  (V < Rabs (v1 + t1 * a1) ->
     2 * (vLim * T - (p2 - p1)) <> 0 /\
     let b := ((vLim - v1) * (vLim - v1) + (vLim - v2) * (vLim - v2)) / (2 * (vLim * T - (p2 - p1))) in
     exists a', b = tau * a' /\ 0 < a' /\ a' <= A /\
       let t1 := (vLim - v1) / b in
       let tv := (v1 * v1 + v2 * v2 - 2 * vLim * vLim) / (2 * vLim * b) + (p2 - p1) / vLim in
       let t2 := (v2 - vLim) / - b in
       axis_ok T (mkAxis (mkSt p1 v1 0) (mkSt p2 v2 0) b 0 t1 tv t2 vLim) /\ v1 + b * t1 = vLim).
Proof.
  intros HA HV HT H1 H2 HF Htau Hdel Ha HQ a1 vLim t1.
  assert (tau * tau = 1) as Ett by (destruct Htau; subst; lra).
  assert (tau <> 0) as Htn by (destruct Htau; subst; lra).
  apply Rabs_le_iff in H1 as B1. apply Rabs_le_iff in H2 as B2.
  assert (- V <= tau * v1 <= V) as B1' by (destruct Htau; subst; lra).
  assert (- V <= tau * v2 <= V) as B2' by (destruct Htau; subst; lra).
  destruct (oriented A V T (tau * v1) (tau * v2) (tau * (p2 - p1)) a) as (O1 & O2 & O3); try assumption.
  { apply up_sign; assumption. }
  { lra. }
  { rewrite <- HQ. replace ((tau * v2 - tau * v1) * (tau * v2 - tau * v1)) with ((tau * tau) * ((v2 - v1) * (v2 - v1))) by ring. rewrite Ett. field. }
  split; [exact O1|].
  assert (a1 <> 0) as Ha1. { unfold a1. apply Rmult_integral_contrapositive_currified; [exact Htn|lra]. }
  assert (0 <= t1 <= T) as Ht1.
  { assert ((v2 - v1) / a1 = (tau * v2 - tau * v1) / a) as Eq.
    { unfold a1. apply Rmult_eq_reg_r with (tau * a); [|apply Rmult_integral_contrapositive_currified; lra].
      unfold Rdiv at 1. rewrite Rmult_assoc, Rinv_l by (apply Rmult_integral_contrapositive_currified; lra).
      replace ((tau * v2 - tau * v1) / a * (tau * a)) with ((tau * tau) * (v2 - v1)) by (field; lra). rewrite Ett. ring. }
    unfold t1. rewrite Eq.
    assert (- T <= (tau * v2 - tau * v1) / a <= T); [|lra].
    split; apply Rmult_le_reg_r with a; try lra; unfold Rdiv; rewrite Rmult_assoc, Rinv_l by lra; lra. }
  destruct (two_segments_ok T p1 p2 v1 v2 a1 vLim Ha1) as [TS1 TS2]; [|exact Ht1|].
  { rewrite <- HQ. unfold a1. replace (T * T * (tau * a) * (tau * a)) with ((tau * tau) * (T * T * a * a)) by ring. rewrite Ett. field. }
  fold t1 in TS1, TS2.
  split; [intros _; exact TS1|]. intros Hpk. rewrite TS2 in Hpk.
  assert (V < (tau * v1 + tau * v2 + a * T) / 2) as Hpk'.
  { assert (Rabs ((v1 + v2 + a1 * T) / 2) = Rabs ((tau * v1 + tau * v2 + a * T) / 2)) as E.
    { rewrite <- (Rabs_tau tau ((v1 + v2 + a1 * T) / 2) Htau). f_equal. unfold a1.
      replace (tau * ((v1 + v2 + tau * a * T) / 2)) with ((tau * v1 + tau * v2 + (tau * tau) * a * T) / 2) by field. rewrite Ett. field. }
    rewrite E in Hpk. destruct (Rle_lt_dec 0 ((tau * v1 + tau * v2 + a * T) / 2)) as [Hp|Hn].
    - rewrite Rabs_right in Hpk by lra. exact Hpk.
    - exfalso. rewrite Rabs_left in Hpk by exact Hn. lra. }
  destruct (O3 Hpk') as (K1 & K2 & K3 & K4). clear O3.
  set (N := (V - tau * v1) * (V - tau * v1) + (V - tau * v2) * (V - tau * v2)) in *. set (K := V * T - tau * (p2 - p1)) in *.
  assert (vLim * T - (p2 - p1) = tau * K) as EK. { unfold vLim, K. replace (tau * (V * T - tau * (p2 - p1))) with (tau * V * T - (tau * tau) * (p2 - p1)) by ring. rewrite Ett. ring. }
  assert ((vLim - v1) * (vLim - v1) + (vLim - v2) * (vLim - v2) = N) as EN.
  { unfold vLim, N. destruct Htau; subst tau; ring. }
  rewrite EK, EN. assert (2 * (tau * K) <> 0) as Hn0 by (destruct Htau; subst tau; lra). split; [exact Hn0|].
  assert (N / (2 * (tau * K)) = tau * (N / (2 * K))) as Eb by (destruct Htau; subst tau; field; lra).
  cbn zeta. rewrite Eb. exists (N / (2 * K)). split; [reflexivity|]. split; [exact K2|]. split; [exact K3|].
  set (b := N / (2 * K)) in *.
  assert (tau * b <> 0) as Hb by (apply Rmult_integral_contrapositive_currified; lra).
  assert (vLim <> 0) as Hvl by (unfold vLim; apply Rmult_integral_contrapositive_currified; lra).
  destruct (three_segments_ok T p1 p2 v1 v2 (tau * b) vLim Hb Hvl) as (E1 & E2 & E3).
  { rewrite EK, EN. unfold b. replace (2 * (tau * (N / (2 * K))) * (tau * K)) with ((tau * tau) * N) by (field; lra). rewrite Ett. ring. }
  apply E3.
  - unfold vLim. replace ((tau * V - v1) / (tau * b)) with ((V - tau * v1) / b) by (destruct Htau; subst tau; field; lra).
    apply Rmult_le_pos; [lra|]. apply Rlt_le, Rinv_0_lt_compat. exact K2.
  - rewrite E2. unfold vLim. replace ((tau * V - v2) / (tau * b)) with ((V - tau * v2) / b) by (destruct Htau; subst tau; field; lra).
    apply Rmult_le_pos; [lra|]. apply Rlt_le, Rinv_0_lt_compat. exact K2.
  - rewrite E1. replace ((2 * vLim - v1 - v2) / (tau * b)) with ((2 * V - tau * v1 - tau * v2) / b) by (unfold vLim; destruct Htau; subst tau; field; lra).
    exact K4.
Qed.

Lemma sigma_val A p1 p2 v1 v2 : 0 < A -> exists s, sigma A p1 p2 v1 v2 = Ok s /\ (s = 1 \/ s = -1) /\
  (s * v1 + s * v2) * Rabs (s * v2 - s * v1) <= 2 * A * (s * (p2 - p1)) /\
  ((s * v1 + s * v2) * Rabs (s * v2 - s * v1) = 2 * A * (s * (p2 - p1)) -> 0 <= s * (p2 - p1)).
Proof.
  intros HA. unfold sigma. rewrite kdiv_ok by lra. cbn [bind].
  set (e := p2 - p1 - 1 / 2 * (v1 + v2) * (Rabs (v2 - v1) / A)).
  assert (2 * A * e = 2 * A * (p2 - p1) - (v1 + v2) * Rabs (v2 - v1)) as Ee by (unfold e; field; lra).
  eexists. split; [reflexivity|]. unfold sgnenum, sgn.
  destruct (rltb_spec 0 e) as [He|He]; [|destruct (rltb_spec e 0) as [He'|He']].
  - destruct (reqb_spec 1 0); [exfalso; lra|]. split; [left; reflexivity|]. rewrite !Rmult_1_l.
    assert (0 < 2 * A * e) by (apply Rmult_lt_0_compat; lra). split; intros; lra.
  - destruct (reqb_spec (-1) 0); [exfalso; lra|]. split; [right; reflexivity|].
    replace (-1 * v2 - -1 * v1) with (- (v2 - v1)) by ring. rewrite Rabs_Ropp.
    assert (0 < 2 * A * - e) by (apply Rmult_lt_0_compat; lra). split; intros; lra.
  - assert (e = 0) as E0 by lra. rewrite E0 in Ee. destruct (reqb_spec 0 0); [|exfalso; lra].
    destruct (rleb_spec 0 (p2 - p1)) as [Hp|Hp].
    + split; [left; reflexivity|]. rewrite !Rmult_1_l. split; intros; lra.
    + split; [right; reflexivity|]. replace (-1 * v2 - -1 * v1) with (- (v2 - v1)) by ring. rewrite Rabs_Ropp. split; intros; lra.
Qed.

Theorem fixed_time_ok eps A V sync z T p1 p2 v1 v2 :
  0 < A -> 0 < V -> 0 <= eps -> Rabs v1 <= V -> Rabs v2 <= V -> 0 < T -> eps < T * T ->
  feas A V T v1 v2 (p2 - p1) ->
  (eps < T * Rabs (v2 - v1) \/ eps < 4 * Rabs (p2 - p1 - T * (v1 + v2) / 2)) ->
  (eps <= Rabs (v2 - v1) \/ eps <= Rabs (p2 - p1)) ->
  (sync = true \/ z = false \/ v2 <> 0) ->
  exists w, fixed_time eps A V sync z T p1 p2 v1 v2 = Ok w /\ axis_ok T (law_axis w p1 p2 v1 v2) /\
    Rabs (l_a1 w) <= A /\ Rabs (v1 + l_a1 w * l_t1 w) <= V.
Proof.
  intros HA HV He H1 H2 HT HTe HF Hdev Hmove Hsync. unfold fixed_time.
  destruct (sigma_val A p1 p2 v1 v2 HA) as (s & -> & _). cbn [bind].
  assert (rltb (Rabs (v2 - v1)) eps && rltb (Rabs (p2 - p1)) eps = false)%bool as ->.
  { destruct (rltb_spec (Rabs (v2 - v1)) eps), (rltb_spec (Rabs (p2 - p1)) eps); cbn; try reflexivity. destruct Hmove; lra. }
  assert (negb sync && z && reqb v2 0 = false)%bool as ->.
  { destruct Hsync as [->|[->|Hv]]; [reflexivity|destruct sync; reflexivity|].
    destruct (reqb_spec v2 0); [contradiction|]. apply Bool.andb_false_r. }
  set (del := p2 - p1 - T * (v1 + v2) / 2) in *. set (D := v2 - v1) in *.
  assert (2 * T * (v1 + v2) - 4 * (p2 - p1) = -4 * del) as Eb by (unfold del; field). rewrite Eb.
  rewrite ksqrt_ok. 2:{ pose proof (sqr_pos (-4 * del)). pose proof (sqr_pos D). pose proof (sqr_pos T). assert (0 <= T * T * (D * D)) by (apply Rmult_le_pos; lra). lra. }
  cbn [bind]. set (q := - (1 / 2) * (-4 * del + _)).
  destruct (choose_root T del D q HT) as (tau & a & Htau & Hdel & Ha & Hq & HQ & HqT & Hqd & Hch); [|reflexivity|].
  { destruct Hdev as [Hd|Hd].
    - right. intros E. rewrite E, Rabs_R0 in Hd. lra.
    - left. intros E. rewrite E, Rabs_R0 in Hd. lra. }
  assert (eps < Rabs q) as Hqe by (destruct Hdev; lra).
  rewrite (Rabs_right (T * T)) by lra.
  destruct (rltb_spec eps (T * T)); [|contradiction]. destruct (rltb_spec eps (Rabs q)); [|contradiction].
  rewrite Hch.
  destruct (law_of_root A V T p1 p2 v1 v2 tau a) as (L1 & L2 & L3); try assumption.
  rewrite clip_tau by assumption. rewrite sgn_tau by assumption.
  assert (tau * a <> 0) as Hta by (destruct Htau; subst tau; lra).
  rewrite kdiv_ok by exact Hta. cbn [bind].
  destruct (rleb_spec (Rabs (v1 + 1 / 2 * (D / (tau * a) + T) * (tau * a))) V) as [Hp|Hp].
  - eexists. split; [reflexivity|]. unfold law_axis. cbn [l_a1 l_t0 l_t1 l_tv l_t2 l_vlim].
    split; [apply L2; exact Hp|]. split; [rewrite Rabs_tau, Rabs_right by (assumption || lra); exact L1|].
    rewrite (Rmult_comm (tau * a)). exact Hp.
  - destruct (L3 ltac:(unfold D in Hp; lra)) as (N0 & a' & Eb' & A1 & A2 & A3 & A4).
    rewrite kdiv_ok by exact N0. cbn [bind]. rewrite Eb' in A3, A4 |- *.
    rewrite clip_tau by assumption. unfold phases.
    assert (tau * a' <> 0) as Hta' by (destruct Htau; subst tau; lra).
    assert (tau * V <> 0) as HtV by (destruct Htau; subst tau; lra).
    rewrite !kdiv_ok by (try assumption; try (apply Rmult_integral_contrapositive_currified; [lra|assumption]); lra). cbn [bind].
    eexists. split; [reflexivity|]. unfold law_axis. cbn [l_a1 l_t0 l_t1 l_tv l_t2 l_vlim].
    split; [exact A3|]. split; [rewrite Rabs_tau, Rabs_right by (assumption || lra); exact A2|].
    rewrite A4, Rabs_tau, Rabs_right by (assumption || lra). lra.
Qed.

(* every feasible duration admits a motion *)
Lemma feas_axis A V T p1 p2 v1 v2 : 0 < A -> 0 < V -> Rabs v1 <= V -> Rabs v2 <= V -> feas A V T v1 v2 (p2 - p1) ->
  exists x, axis_ok T x /\ si x = mkSt p1 v1 0 /\ se x = mkSt p2 v2 0 /\ Rabs (a1 x) <= A /\ Rabs (v1 + a1 x * t1 x) <= V.
Proof.
  intros HA HV H1 H2 HF. pose proof HF as (HT & HD & U1 & U2). apply Rabs_le_iff in HD.
  destruct (Rle_lt_or_eq_dec _ _ HT) as [HT'|<-].
  - destruct (Req_dec (p2 - p1 - T * (v1 + v2) / 2) 0) as [E1|E1]; [destruct (Req_dec (v2 - v1) 0) as [E2|E2]|].
    + exists (mkAxis (mkSt p1 v1 0) (mkSt p2 v2 0) 0 T 0 0 0 0). cbn.
      assert (v2 = v1) as -> by lra. rewrite Rabs_R0, Rmult_0_l, Rplus_0_r.
      split; [constructor; cbn; lra|]. repeat split; try lra.
    + assert (0 < T * T) as HTT by (apply Rmult_lt_0_compat; assumption).
      destruct (fixed_time_ok 0 A V true false T p1 p2 v1 v2 HA HV (Rle_refl 0) H1 H2 HT' HTT HF) as (w & _ & W1 & W2 & W3).
      * left. apply Rmult_lt_0_compat; [assumption|]. apply Rabs_pos_lt. exact E2.
      * left. apply Rabs_pos.
      * left; reflexivity.
      * exists (law_axis w p1 p2 v1 v2). split; [exact W1|]. split; [reflexivity|]. split; [reflexivity|]. split; [exact W2|exact W3].
    + assert (0 < T * T) as HTT by (apply Rmult_lt_0_compat; assumption).
      destruct (fixed_time_ok 0 A V true false T p1 p2 v1 v2 HA HV (Rle_refl 0) H1 H2 HT' HTT HF) as (w & _ & W1 & W2 & W3).
      * right. apply Rmult_lt_0_compat; [lra|]. apply Rabs_pos_lt. exact E1.
      * left. apply Rabs_pos.
      * left; reflexivity.
      * exists (law_axis w p1 p2 v1 v2). split; [exact W1|]. split; [reflexivity|]. split; [reflexivity|]. split; [exact W2|exact W3].
  - rewrite Rmult_0_r in HD. assert (v2 = v1) as -> by lra. apply Rabs_le_iff in H1 as B1.
    destruct U1 as [U1 _]. destruct U2 as [U2 _]. specialize (U1 ltac:(lra)). specialize (U2 ltac:(lra)).
    assert (A * (p2 - p1) = 0) as E by lra. apply Rmult_integral in E as [E|E]; [lra|]. assert (p2 = p1) as -> by lra.
    exists (mkAxis (mkSt p1 v1 0) (mkSt p1 v1 0) 0 0 0 0 0 0). cbn. rewrite Rabs_R0, Rmult_0_l, Rplus_0_r.
    split; [constructor; cbn; lra|]. repeat split; try lra.
Qed.

(* exact condition for the existence of a motion *)
Theorem feasible_iff A V T p1 p2 v1 v2 : 0 < A -> 0 < V -> Rabs v1 <= V -> Rabs v2 <= V ->
  (feas A V T v1 v2 (p2 - p1) <-> exists x v, motion A V T p1 v1 p2 v2 x v).
Proof.
  intros HA HV H1 H2. split.
  - intros HF. destruct (feas_axis A V T p1 p2 v1 v2 HA HV H1 H2 HF) as (x & Hok & E1 & E2 & Ha & Hp).
    pose proof (axis_motion T x V Hok) as M. rewrite E1, E2 in M. cbn [x_ v_] in M. specialize (M H1 H2 Hp).
    exists (fun t => x_ (axis_at x t)), (fun t => v_ (axis_at x t)). destruct M as [M1 M2 M3 M4 M5 M6 M7 M8].
    constructor; [exact M1|exact M2|exact M3|exact M4|exact M5|exact M6| |exact M8].
    intros s t Hs Ht. eapply Rle_trans; [apply M7; assumption|]. apply Rmult_le_compat_r; [apply Rabs_pos|exact Ha].
  - intros (x & v & M). exact (motion_feas _ _ _ _ _ _ _ _ _ HA M).
Qed.
