(* Steering method and distance over several axes. *)
From Coq Require Import Reals List Lra Lia.
From Verif Require Import Base XReal KinoModel KinoSpec PolyProofs KinoProofs KinoProofs2 KinoTimeModel KinoTimeSpec KinoTimeProofs KinoTimeProofs2 KinoTimeProofs3.
Import ListNotations.
Open Scope R_scope.

(* the minimal duration is outside of the infeasible interval *)
Lemma tmin_outside A V u1 u2 d : 0 < A -> 0 < V -> - V <= u1 <= V -> - V <= u2 <= V ->
  (u1 + u2) * Rabs (u2 - u1) <= 2 * A * d ->
  ~ inside (Fin (tmin A V u1 u2 d)) (gap A u1 u2 d).
Proof.
  intros HA HV H1 H2 Hd (I1 & I2 & _). unfold gap in *.
  destruct (D_ge A u1 u2 d Hd) as [HD HE].
  destruct (rleb_spec u1 0) as [G1|G1]; [|destruct (rleb_spec u2 0) as [G2|G2]; [|destruct (rltb_spec ((u1 * u1 + u2 * u2) / 2 - A * d) 0) as [G3|G3]]]; cbn [orb fst snd no_interval] in *.
  1-3: apply I1; exact I.
  set (E := (u1 * u1 + u2 * u2) / 2 - A * d) in *. set (e := sqrt E).
  assert (e * e = E) as Ee by (apply sqrt_sqrt; lra). assert (0 <= e) as He by apply sqrt_pos.
  set (m := Rmax u1 u2) in *. set (n := Rmin u1 u2) in *.
  assert (0 < n) as Hn by (apply Rmin_glb_lt; lra).
  assert (e <= n) as Hen by (apply sqr_le; lra).
  assert (n <= m /\ m <= V) as [Hnm HmV].
  { unfold m, n, Rmax, Rmin. destruct (Rle_dec u1 u2); lra. }
  assert (m + n = u1 + u2 /\ m * m + n * n = u1 * u1 + u2 * u2) as [Es Eq].
  { unfold m, n, Rmax, Rmin. destruct (Rle_dec u1 u2); split; ring. }
  assert (Rabs (u2 - u1) = m - n) as Ea.
  { unfold m, n, Rmax, Rmin. destruct (Rle_dec u1 u2); [rewrite Rabs_right|rewrite Rabs_left]; lra. }
  apply I1. cbn [xle]. fold e. set (T := (u1 + u2 - 2 * e) / A).
  assert (A * T = m + n - 2 * e) as ET by (unfold T; rewrite <- Es; field; lra).
  apply (up_iff A V T u1 u2 d HA HV H1 H2 Hd); [fold m; intros Hm; exfalso; lra|].
  split; [rewrite Ea, ET; lra|]. unfold up.
  assert ((A * T + u1 + u2) / 2 = m + n - e) as -> by (rewrite ET; lra).
  assert ((u1 * u1 + u2 * u2) / 2 + A * d = m * m + n * n - e * e) as -> by (rewrite Ee, Eq; unfold E; lra).
  assert (0 <= (m - e) * (n - e)) by (apply Rmult_le_pos; lra).
  assert (0 <= (n - e) * (2 * m - n - e)) by (apply Rmult_le_pos; lra).
  split; intros Hw; [lra|].
  assert (0 <= (m + n - e - V) * (m + n - e - V)) by apply sqr_pos.
  assert ((m + n - e - V) * (m + n - e - V) <= (n - e) * (n - e)); [|lra].
  assert (0 <= ((n - e) - (m + n - e - V)) * ((n - e) + (m + n - e - V))) by (apply Rmult_le_pos; lra). lra.
Qed.

Definition feasible (A V T : R) (g : leg) : Prop := feas A V T (g_v1 g) (g_v2 g) (g_p2 g - g_p1 g).

Lemma parked_feasible A V T g : 0 < A -> 0 < V -> parked g -> 0 <= T -> feasible A V T g.
Proof.
  intros HA HV (E1 & E2 & E3) HT. unfold feasible, feas, up. rewrite E1, E2, E3.
  assert (0 <= A * T) by (apply Rmult_le_pos; lra). split; [exact HT|]. rewrite Rminus_0_r, Rabs_R0. split; [lra|].
  replace ((A * T + 0 + 0) / 2) with (A * T / 2) by field. replace ((A * T + - 0 + - 0) / 2) with (A * T / 2) by field.
  pose proof (sqr_pos (A * T / 2)).
  repeat split; intros Hw; try lra; assert (0 < V * (A * T / 2 - V)) by (apply Rmult_lt_0_compat; lra);
    assert (0 < V * V) by (apply Rmult_lt_0_compat; lra); lra.
Qed.

Lemma min_time_moving eps A V g inf0 : 0 < A -> 0 < V -> 0 < eps -> slow V g -> moving eps g ->
  exists T i, min_time eps A V (g_p1 g) (g_p2 g) (g_v1 g) (g_v2 g) inf0 = Ok (T, i) /\ 0 <= T /\
    feasible A V T g /\ forall T', feasible A V T' g <-> T <= T' /\ ~ inside (Fin T') i.
Proof.
  intros HA HV He [H1 H2] Hm.
  destruct (min_time_exact eps A V (g_p1 g) (g_p2 g) (g_v1 g) (g_v2 g) inf0 HA HV He H1 H2 Hm) as (T & i & E & HT & HF).
  exists T, i. split; [exact E|]. split; [exact HT|]. split; [|exact HF]. apply HF. split; [lra|].
  destruct (min_time_val eps A V (g_p1 g) (g_p2 g) (g_v1 g) (g_v2 g) inf0 HA HV H1 H2 Hm) as (s & Hs & Hd & Hd0 & E').
  rewrite E in E'. injection E' as -> ->. apply tmin_outside; try assumption; apply Rabs_le_iff; rewrite Rabs_tau; assumption.
Qed.

Lemma min_time_parked eps A V g inf0 : 0 < A -> 0 < eps -> parked g ->
  min_time eps A V (g_p1 g) (g_p2 g) (g_v1 g) (g_v2 g) inf0 = Ok (0, inf0).
Proof.
  intros HA He (E1 & E2 & E3). unfold min_time.
  destruct (sigma_val A (g_p1 g) (g_p2 g) (g_v1 g) (g_v2 g) HA) as (s & -> & _). cbn [bind].
  rewrite E1, E2, E3, !Rminus_diag_eq, Rabs_R0 by reflexivity. destruct (rltb_spec 0 eps); [reflexivity|exfalso; lra].
Qed.

Lemma tmax_loop_ok eps A V l : 0 < A -> 0 < V -> 0 < eps -> Forall (leg_ok eps V) l ->
  forall inf0 T0 acc, 0 <= T0 -> exists Tm is, tmax_loop eps A V l inf0 T0 acc = Ok (Tm, acc ++ is) /\ T0 <= Tm /\
    (Tm = T0 \/ exists g, In g l /\ feasible A V Tm g /\ forall T', feasible A V T' g -> Tm <= T') /\
    (forall g, In g l -> exists T', T' <= Tm /\ feasible A V T' g) /\
    forall T', (T0 <= T' /\ ~ inside (Fin T') inf0 /\ Forall (feasible A V T') l) <->
               (Tm <= T' /\ ~ inside (Fin T') inf0 /\ forall i, In i is -> ~ inside (Fin T') i).
Proof.
  intros HA HV He. induction l as [|g l IH]; intros Hl inf0 T0 acc HT0; cbn [tmax_loop].
  - exists T0, []. rewrite app_nil_r. split; [reflexivity|]. split; [lra|]. split; [left; reflexivity|].
    split; [intros g []|]. intros T'. split; intros (X1 & X2 & X3); (split; [exact X1|]; split; [exact X2|]); [intros i []|constructor].
  - inversion Hl as [|? ? [Hs Hmp] Hl']; subst. specialize (IH Hl'). destruct Hmp as [Hm|Hp].
    + destruct (min_time_moving eps A V g inf0 HA HV He Hs Hm) as (T & i & -> & HT & HfT & HF). cbn [bind].
      set (T1 := if rltb T0 T then T else T0).
      assert (T0 <= T1 /\ T <= T1 /\ (T1 = T0 \/ T1 = T)) as (B1 & B2 & B3) by (unfold T1; destruct (rltb_spec T0 T); repeat split; lra).
      destruct (IH i T1 (acc ++ [i])) as (Tm & is & -> & Hle & Hex & Hfe & Hiff); [lra|].
      exists Tm, (i :: is). split; [rewrite <- app_assoc; reflexivity|]. split; [lra|]. split.
      * destruct Hex as [->|(g' & Hg & Hf1 & Hf2)].
        -- destruct B3 as [->| ->]; [left; reflexivity|]. right. exists g. split; [left; reflexivity|]. split; [exact HfT|].
           intros T' HT'. apply HF in HT'. tauto.
        -- right. exists g'. split; [right; exact Hg|]. split; assumption.
      * split; [intros g' [<-|Hg']; [exists T; split; [lra|exact HfT]|apply Hfe; exact Hg']|].
        intros T'. specialize (Hiff T'). specialize (HF T'). split.
        -- intros (X1 & X2 & X3). inversion X3 as [|? ? Y1 Y2]; subst. apply HF in Y1 as [Z1 Z2].
           destruct Hiff as [Hi _]. destruct Hi as (W1 & W2 & W3).
           { split; [destruct B3 as [-> | ->]; lra|]. split; assumption. }
           split; [exact W1|]. split; [exact X2|]. intros j [<-|Hj]; [exact Z2|apply W3; exact Hj].
        -- intros (X1 & X2 & X3). destruct Hiff as [_ Hi]. destruct Hi as (W1 & W2 & W3).
           { split; [exact X1|]. split; [apply X3; left; reflexivity|]. intros j Hj. apply X3. right. exact Hj. }
           split; [lra|]. split; [exact X2|]. constructor; [|exact W3]. apply HF. split; [lra|exact W2].
    + rewrite (min_time_parked eps A V g inf0 HA He Hp). cbn [bind].
      assert ((if rltb T0 0 then 0 else T0) = T0) as -> by (destruct (rltb_spec T0 0); lra).
      destruct (IH inf0 T0 (acc ++ [inf0]) HT0) as (Tm & is & -> & Hle & Hex & Hfe & Hiff).
      exists Tm, (inf0 :: is). split; [rewrite <- app_assoc; reflexivity|]. split; [exact Hle|]. split.
      * destruct Hex as [->|(g' & Hg & Hf1 & Hf2)]; [left; reflexivity|]. right. exists g'. split; [right; exact Hg|]. split; assumption.
      * split; [intros g' [<-|Hg']; [exists 0; split; [lra|apply parked_feasible; (assumption || lra)]|apply Hfe; exact Hg']|].
        intros T'. specialize (Hiff T'). split.
        -- intros (X1 & X2 & X3). inversion X3; subst. destruct Hiff as [Hi _]. destruct Hi as (W1 & W2 & W3); [tauto|].
           split; [exact W1|]. split; [exact X2|]. intros j [<-|Hj]; [exact X2|apply W3; exact Hj].
        -- intros (X1 & X2 & X3). destruct Hiff as [_ Hi]. destruct Hi as (W1 & W2 & W3).
           { split; [exact X1|]. split; [exact X2|]. intros j Hj. apply X3. right. exact Hj. }
           split; [exact W1|]. split; [exact X2|]. constructor; [|exact W3]. apply parked_feasible; try assumption. lra.
Qed.

(* constant velocity equal to the limit *)
Lemma fixed_time_cruise eps A V sync z T p1 p2 v : 0 < A -> 0 < V -> 0 < eps -> 0 < T -> eps < T * T ->
  Rabs v = V -> p2 - p1 = v * T -> eps <= Rabs (p2 - p1) ->
  exists w, fixed_time eps A V sync z T p1 p2 v v = Ok w /\ axis_ok T (law_axis w p1 p2 v v) /\
    Rabs (l_a1 w) <= A /\ Rabs (v + l_a1 w * l_t1 w) <= V.
Proof.
  intros HA HV He HT HTe Hv Hp Hm. unfold fixed_time.
  assert (exists s, sigma A p1 p2 v v = Ok s /\ (s = 1 \/ s = -1) /\ v = s * V) as (s & -> & Hs & Ev).
  { unfold sigma. rewrite kdiv_ok by lra. cbn [bind]. rewrite (Rminus_diag_eq v v), Rabs_R0 by reflexivity.
    replace (p2 - p1 - 1 / 2 * (v + v) * (0 / A)) with (v * T) by (rewrite Hp; field; lra).
    unfold sgnenum. destruct (Rcase_abs v) as [Hc|Hc].
    - rewrite Rabs_left in Hv by exact Hc. assert (0 < - v * T) by (apply Rmult_lt_0_compat; lra).
      destruct (rltb_spec 0 (v * T)); [exfalso; lra|]. destruct (rltb_spec (v * T) 0); [|exfalso; lra].
      destruct (reqb_spec (-1) 0); [exfalso; lra|]. exists (-1). repeat split; [right; reflexivity|lra].
    - rewrite Rabs_right in Hv by exact Hc. assert (0 < v * T) by (apply Rmult_lt_0_compat; lra).
      destruct (rltb_spec 0 (v * T)); [|exfalso; lra].
      destruct (reqb_spec 1 0); [exfalso; lra|]. exists 1. repeat split; [left; reflexivity|lra]. }
  cbn [bind]. rewrite (Rminus_diag_eq v v), Rabs_R0 by reflexivity.
  assert (rltb (Rabs (p2 - p1)) eps = false) as -> by (destruct (rltb_spec (Rabs (p2 - p1)) eps); [exfalso; lra|reflexivity]).
  rewrite Bool.andb_false_r.
  assert (reqb v 0 = false) as -> by (destruct (reqb_spec v 0) as [E|]; [exfalso; rewrite E, Rabs_R0 in Hv; lra|reflexivity]).
  rewrite Bool.andb_false_r.
  replace (2 * T * (v + v) - 4 * (p2 - p1)) with 0 by (rewrite Hp; ring).
  rewrite !Rmult_0_l, Ropp_0, Rmult_0_r, Rminus_0_r. rewrite ksqrt_ok by lra. cbn [bind]. rewrite sqrt_0, Rmult_0_r, Rplus_0_r, Rmult_0_r, Rabs_R0.
  destruct (rltb_spec eps 0) as [Hx|_]; [exfalso; lra|].
  rewrite (Rabs_right (T * T)) by lra. destruct (rltb_spec eps (T * T)); [|contradiction].
  assert (Rabs (s * A) = A) as HsA by (rewrite Rabs_tau by exact Hs; apply Rabs_right; lra).
  replace (0 / (T * T)) with 0 by (unfold Rdiv; ring). rewrite Rabs_R0, HsA.
  destruct (rltb_spec A 0); [exfalso; lra|]. rewrite clip_tau by (assumption || lra).
  assert (s * A <> 0) as Hna by (apply s_mul; [assumption|lra]).
  rewrite kdiv_ok by exact Hna. cbn [bind]. rewrite sgn_tau by assumption.
  assert (Rabs (v + 1 / 2 * (0 / (s * A) + T) * (s * A)) = V + 1 / 2 * T * A) as ->.
  { rewrite Ev. replace (s * V + 1 / 2 * (0 / (s * A) + T) * (s * A)) with (s * (V + 1 / 2 * T * A)) by (field; destruct Hs; subst; lra).
    rewrite Rabs_tau by exact Hs. apply Rabs_right. assert (0 < T * A) by (apply Rmult_lt_0_compat; assumption). lra. }
  assert (0 < T * A) by (apply Rmult_lt_0_compat; assumption).
  destruct (rleb_spec (V + 1 / 2 * T * A) V); [exfalso; lra|]. cbn [bind]. rewrite clip_tau by (assumption || lra).
  assert (s * V <> 0) as HsV by (apply s_mul; [assumption|lra]).
  assert (s * s = 1) as Ess by (destruct Hs; subst; ring).
  unfold phases. rewrite !kdiv_ok; [|lra|exact HsV|apply Rmult_integral_contrapositive_currified; [lra|exact Hna]|exact Hna].
  cbn [bind]. eexists. split; [reflexivity|]. unfold law_axis. cbn [l_a1 l_t0 l_t1 l_tv l_t2 l_vlim].
  assert (s <> 0) as Hs0 by (destruct Hs; lra).
  assert ((s * V - v) / (s * A) = 0) as -> by (rewrite Ev; field; split; lra).
  assert ((v - s * V) / - (s * A) = 0) as -> by (rewrite Ev; field; split; lra).
  assert ((v * v + v * v - 2 * (s * V) * (s * V)) / (2 * (s * V) * (s * A)) + (p2 - p1) / (s * V) = T) as ->.
  { rewrite Hp, Ev. field. repeat split; lra. }
  split; [constructor; cbn; try lra|]. split; [lra|]. rewrite Rmult_0_r, Rplus_0_r. lra.
Qed.

(* vertical axis between two states at rest, not synchronised *)
Lemma fixed_time_vertical eps A V T p1 p2 : 0 < A -> 0 < V -> 0 < eps -> feas A V T 0 0 (p2 - p1) ->
  eps <= Rabs (p2 - p1) -> eps < A -> eps < sqrt (A * Rabs (p2 - p1)) ->
  exists w, fixed_time eps A V false true T p1 p2 0 0 = Ok w /\ axis_ok T (law_axis w p1 p2 0 0) /\
    Rabs (l_a1 w) <= A /\ Rabs (0 + l_a1 w * l_t1 w) <= V.
Proof.
  intros HA HV He HF Hm HeA Heq. unfold fixed_time.
  destruct (sigma_val A p1 p2 0 0 HA) as (s & Es & Hs & Hd & Hd0). rewrite Es. cbn [bind].
  rewrite (Rminus_diag_eq 0 0), Rabs_R0 by reflexivity.
  assert (rltb (Rabs (p2 - p1)) eps = false) as -> by (destruct (rltb_spec (Rabs (p2 - p1)) eps); [exfalso; lra|reflexivity]).
  rewrite Bool.andb_false_r. cbn [negb andb]. destruct (reqb_spec 0 0) as [_|]; [|exfalso; lra].
  unfold vertical, eq13. assert (s * A <> 0) as HsA by (apply s_mul; [assumption|lra]).
  set (d := s * (p2 - p1)) in *. rewrite Rmult_0_r, Rplus_0_r, Rmult_0_l in Hd.
  assert (0 <= d) as Hdp by (apply Rmult_le_reg_l with (2 * A); lra).
  assert (Rabs (p2 - p1) = d) as Ed by (rewrite <- (Rabs_tau s (p2 - p1) Hs); apply Rabs_right; fold d; lra).
  rewrite Ed in *. set (r := sqrt (A * d)) in *. assert (0 <= A * d) as HAd by (apply Rmult_le_pos; lra).
  assert (r * r = A * d) as Er by (apply sqrt_sqrt; exact HAd).
  assert (s * s = 1) as Ess by (destruct Hs; subst; ring).
  assert (p2 - p1 = s * d) as Ep by (unfold d; destruct Hs; subst; ring).
  rewrite kdiv_ok by lra. cbn [bind].
  replace (1 / 2 * (0 + 0) * (0 - 0) / - (s * A) - (p2 - p1)) with (- (s * d)) by (rewrite Ep; field; destruct Hs; subst; lra).
  replace (2 * 0 * (2 * 0) - 4 * (s * A) * - (s * d)) with ((2 * r) * (2 * r)) by (replace (2 * r * (2 * r)) with (4 * (r * r)) by ring; rewrite Er; replace (2 * 0 * (2 * 0) - 4 * (s * A) * - (s * d)) with (4 * (s * s) * (A * d)) by ring; rewrite Ess; ring).
  rewrite ksqrt_ok by apply sqr_pos. cbn [bind]. rewrite sqrt_square by lra.
  replace (- (1 / 2) * (2 * 0 + sgn (2 * 0) * (2 * r))) with (- r).
  2:{ rewrite Rmult_0_r. unfold sgn. destruct (rleb_spec 0 0); [field|exfalso; lra]. }
  rewrite (Rabs_tau s A Hs), (Rabs_right A), Rabs_Ropp, (Rabs_right r) by lra.
  destruct (rltb_spec eps A); [|contradiction]. destruct (rltb_spec eps r); [|contradiction].
  assert (- (s * d) / - r = s * (r / A)) as ->.
  { replace (- (s * d) / - r) with (s * (A * d) / (A * r)) by (field; split; lra). rewrite <- Er. field. split; lra. }
  assert (- r / (s * A) = - (s * (r / A))) as -> by (destruct Hs; subst; field; lra).
  assert (0 < r / A) as HrA by (apply Rdiv_lt_0_compat; lra).
  assert (Rmax (- (s * (r / A))) (s * (r / A)) = r / A) as -> by (destruct Hs; subst; unfold Rmax; match goal with |- context [Rle_dec ?a ?b] => destruct (Rle_dec a b) end; lra).
  rewrite (kdiv_ok _ (- (s * A))) by lra. cbn [bind].
  replace ((0 - 0) / - (s * A)) with 0 by (field; destruct Hs; subst; lra). rewrite Ropp_0, Rmax_left by lra.
  destruct (rleb_spec 0 (r / A)); [|exfalso; lra]. cbn [andb].
  assert (Rabs (0 + r / A * (s * A)) = r) as ->.
  { replace (0 + r / A * (s * A)) with (s * r) by (field; lra). rewrite Rabs_tau by exact Hs. apply Rabs_right. lra. }
  assert (tmin A V (s * 0) (s * 0) d <= T) as HT.
  { destruct (proj1 (feas_signs A V T 0 0 (p2 - p1) s Hs) HF) as (X1 & X2 & X3 & _).
    apply (up_iff A V T (s * 0) (s * 0) d HA HV); [lra|lra| | |split; assumption].
    - rewrite Rmult_0_r, Rminus_0_r, Rabs_R0. lra.
    - rewrite Rmult_0_r, Rmax_left by lra. lra. }
  unfold tmin in HT. rewrite !Rmult_0_r in HT. replace ((0 + 0) / 2 + A * d) with (A * d) in HT by field.
  rewrite !Rminus_0_r in HT. fold r in HT.
  assert (Rabs (s * A) <= A) as HaA by (rewrite Rabs_tau, Rabs_right by (assumption || lra); lra).
  destruct (rltb_spec V r) as [Hv|Hv]; cbn [negb]; (destruct (rleb_spec r V) as [Hv'|Hv']; try (exfalso; lra)).
  - assert (s * V <> 0) as HsV by (apply s_mul; [assumption|lra]).
    unfold phases. rewrite !kdiv_ok; [|lra|exact HsV|apply Rmult_integral_contrapositive_currified; [lra|exact HsA]|exact HsA]. cbn [bind].
    replace ((s * V - 0) / (s * A)) with (V / A) by (destruct Hs; subst; field; lra).
    replace ((0 - s * V) / - (s * A)) with (V / A) by (destruct Hs; subst; field; lra).
    replace ((0 * 0 + 0 * 0 - 2 * (s * V) * (s * V)) / (2 * (s * V) * (s * A)) + (p2 - p1) / (s * V)) with (d / V - V / A) by (rewrite Ep; destruct Hs; subst; field; lra).
    assert (V < r) as Hvr by lra.
    assert (V * V <= A * d) as HVV. { assert (0 < (r - V) * (r + V)) by (apply Rmult_lt_0_compat; lra). lra. }
    assert (0 <= d / V - V / A) as Htv.
    { replace (d / V - V / A) with ((A * d - V * V) * / (A * V)) by (field; lra). apply Rmult_le_pos; [lra|].
      apply Rlt_le, Rinv_0_lt_compat. apply Rmult_lt_0_compat; assumption. }
    replace ((V + A * d / V) / A) with (V / A + d / V) in HT by (field; lra).
    assert (0 < V / A) by (apply Rdiv_lt_0_compat; assumption).
    eexists. split; [reflexivity|]. unfold law_axis. cbn [l_a1 l_t0 l_t1 l_tv l_t2 l_vlim].
    split; [|split; [exact HaA|]].
    + destruct (reqb_spec 0 0) as [_|]; [|exfalso; lra]. constructor; cbn; try lra.
      * intros _. field. lra.
      * rewrite <- (Rplus_minus p1 p2), Ep. field. lra.
    + replace (0 + s * A * (V / A)) with (s * V) by (field; lra). rewrite Rabs_tau, Rabs_right by (assumption || lra). lra.
  - unfold phases. rewrite kdiv_ok by lra. cbn [bind].
    replace ((0 - 0) / - (s * A)) with 0 by (field; destruct Hs; subst; lra).
    replace (2 * r / A) with (r / A + r / A) in HT by (field; lra).
    eexists. split; [reflexivity|]. unfold law_axis. cbn [l_a1 l_t0 l_t1 l_tv l_t2 l_vlim].
    split; [|split; [exact HaA|]].
    + destruct (reqb_spec 0 0) as [_|]; [|exfalso; lra]. constructor; cbn; try lra. rewrite <- (Rplus_minus p1 p2) at 1. rewrite Ep.
      replace (s * d) with (s * (A * d) / A) by (field; lra). rewrite <- Er. field. lra.
    + replace (0 + s * A * (r / A)) with (s * r) by (field; lra). rewrite Rabs_tau, Rabs_right by (assumption || lra). lra.
Qed.

Lemma fixed_time_good eps A V sync T k g : 0 < A -> 0 < V -> 0 < eps -> 0 < T -> eps < T * T -> slow V g ->
  feasible A V T g -> good eps A V sync T k g ->
  exists w, fixed_time eps A V sync (Nat.eqb k 2) T (g_p1 g) (g_p2 g) (g_v1 g) (g_v2 g) = Ok w /\
    axis_ok T (law_axis w (g_p1 g) (g_p2 g) (g_v1 g) (g_v2 g)) /\
    Rabs (l_a1 w) <= A /\ Rabs (g_v1 g + l_a1 w * l_t1 w) <= V.
Proof.
  intros HA HV He HT HTe [H1 H2] HF. destruct g as [p1 p2 v1 v2]. unfold good, feasible, parked, moving in *. cbn [g_p1 g_p2 g_v1 g_v2] in *.
  intros [(E1 & E2 & E3)|[(Hm & E1 & E2 & E3)|[(Hm & Hd & Hz)|(Hm & -> & -> & -> & -> & Hx & Hy)]]].
  - subst p2 v1 v2. unfold fixed_time. destruct (sigma_val A p1 p1 0 0 HA) as (s & -> & _). cbn [bind].
    rewrite !Rminus_diag_eq, Rabs_R0 by reflexivity. destruct (rltb_spec 0 eps); [|exfalso; lra]. cbn [andb].
    eexists. split; [reflexivity|]. unfold law_axis. cbn [l_a1 l_t0 l_t1 l_tv l_t2 l_vlim]. split; [constructor; cbn; lra|].
    rewrite Rmult_0_l, Rplus_0_r, Rabs_R0. lra.
  - subst v2. apply fixed_time_cruise; try assumption. destruct Hm as [Hm|Hm]; [exact Hm|].
    rewrite Rminus_diag_eq, Rabs_R0 in Hm by reflexivity. exfalso. lra.
  - apply fixed_time_ok; try assumption; [lra|tauto|].
    destruct Hz as [->|[Hk|Hv]]; [tauto| |tauto]. right. left. apply PeanoNat.Nat.eqb_neq. exact Hk.
  - cbn [Nat.eqb]. apply fixed_time_vertical; try assumption. destruct Hm as [Hm|Hm]; [exact Hm|].
    rewrite Rminus_diag_eq, Rabs_R0 in Hm by reflexivity. exfalso. lra.
Qed.

Lemma law_loop_ok eps A V sync T l : 0 < A -> 0 < V -> 0 < eps -> 0 < T -> eps < T * T ->
  Forall (slow V) l -> Forall (feasible A V T) l ->
  forall k, (forall j g, nth_error l j = Some g -> good eps A V sync T (k + j) g) ->
  exists ax, law_loop eps A V sync T k l = Ok ax /\ Forall (axis_ok T) ax /\ Forall2 (joins A V) l ax.
Proof.
  intros HA HV He HT HTe. induction l as [|g l IH]; intros Hs Hf k Hg; cbn [law_loop].
  - exists []. repeat split; constructor.
  - inversion Hs; subst. inversion Hf; subst.
    destruct (fixed_time_good eps A V sync T k g) as (w & -> & Hok & Ha & Hv); try assumption.
    { specialize (Hg 0%nat g eq_refl). rewrite Nat.add_0_r in Hg. exact Hg. }
    cbn [bind]. destruct (IH ltac:(assumption) ltac:(assumption) (S k)) as (ax & -> & Hax & Hj).
    { intros j g' Hj. specialize (Hg (S j) g' Hj). rewrite Nat.add_succ_r in Hg. exact Hg. }
    cbn [bind]. eexists. split; [reflexivity|]. split; (constructor; [|assumption]); [exact Hok|].
    unfold joins. cbn [si se a1 t1 v_]. tauto.
Qed.

Lemma gap_bounded A u1 u2 d : exists B, forall T, B <= T -> ~ inside (Fin T) (gap A u1 u2 d).
Proof.
  unfold gap. destruct (rleb u1 0 || rleb u2 0 || rltb _ 0)%bool.
  - exists 0. intros T _ (I1 & _). apply I1. exact I.
  - eexists. intros T HT (_ & I2 & _). apply I2. cbn [snd xle]. exact HT.
Qed.

Lemma all_feasible eps A V l : 0 < A -> 0 < V -> 0 < eps -> Forall (leg_ok eps V) l ->
  exists B, 0 <= B /\ forall T, B <= T -> Forall (feasible A V T) l.
Proof.
  intros HA HV He. induction 1 as [|g l [Hs Hmp] _ IH]; [exists 0; split; [lra|constructor]|].
  destruct IH as (B & HB & Hall). destruct Hmp as [Hm|Hp].
  - destruct Hs as [H1 H2].
    destruct (min_time_exact eps A V (g_p1 g) (g_p2 g) (g_v1 g) (g_v2 g) (Fin 0, Fin 0) HA HV He H1 H2 Hm) as (T & i & E & HT & HF).
    destruct (min_time_val eps A V (g_p1 g) (g_p2 g) (g_v1 g) (g_v2 g) (Fin 0, Fin 0) HA HV H1 H2 Hm) as (s & Hs & Hd & Hd0 & E').
    rewrite E in E'. injection E' as ET Ei.
    destruct (gap_bounded A (s * g_v1 g) (s * g_v2 g) (s * (g_p2 g - g_p1 g))) as (B' & HB'). rewrite <- Ei in HB'.
    exists (Rmax B (Rmax T B')). split; [pose proof (Rmax_l B (Rmax T B')); lra|]. intros T' HT'.
    pose proof (Rmax_l B (Rmax T B')). pose proof (Rmax_r B (Rmax T B')). pose proof (Rmax_l T B'). pose proof (Rmax_r T B').
    constructor; [apply HF; split; [lra|apply HB'; lra]|apply Hall; lra].
  - exists B. split; [exact HB|]. intros T' HT'. constructor; [apply parked_feasible; try assumption; lra|apply Hall; exact HT'].
Qed.

Theorem steer_ok small eps A V sync l : 0 < A -> 0 < V -> 0 < eps -> 0 <= small -> Forall (leg_ok eps V) l ->
  exists T, 0 <= T /\ Forall (feasible A V T) l /\ (forall T', 0 <= T' -> Forall (feasible A V T') l -> T <= T') /\
    ((forall g, In g l -> exists T', T' <= small /\ feasible A V T' g) -> steer small eps A V sync l = Ok None) /\
    ((exists g, In g l /\ forall T', feasible A V T' g -> small < T') -> eps < T * T ->
     (forall k g, nth_error l k = Some g -> good eps A V sync T k g) ->
     exists p, steer small eps A V sync l = Ok (Some p) /\ klen p = T /\ path_ok p /\ Forall2 (joins A V) l (axes p)).
Proof.
  intros HA HV He Hsm Hl.
  destruct (tmax_loop_ok eps A V l HA HV He Hl (Fin 0, Fin 0) 0 []) as (Tm & is & Elo & HTm & Hex & Hfe & Hiff); [lra|].
  cbn [app] in Elo.
  assert (forall T', ~ inside (Fin T') (Fin 0, Fin 0)) as H00.
  { intros T' (I1 & I2 & _). cbn [fst snd xle] in *. lra. }
  assert (forall T', (0 <= T' /\ Forall (feasible A V T') l) <-> (Tm <= T' /\ forall i, In i is -> ~ inside (Fin T') i)) as Hiff'.
  { intros T'. specialize (Hiff T'). specialize (H00 T'). tauto. }
  destruct (max_required_ok is (S (length is)) (Fin Tm)) as (T & ET & X1 & X2 & X3); [discriminate| |].
  { apply PeanoNat.Nat.lt_succ_r. clear. induction is as [|i l IH]; cbn [filter length]; [lia|]. destruct (above (Fin Tm) i); cbn [length]; lia. }
  destruct (all_feasible eps A V l HA HV He Hl) as (B & HB & Hall).
  destruct (proj1 (Hiff' B)) as [Y1 Y2]; [split; [exact HB|apply Hall; lra]|].
  pose proof (X3 (Fin B) Y1 Y2) as Hfin.
  destruct T as [T| | |]; cbn [xle] in X1, Hfin; try tauto.
  destruct (proj2 (Hiff' T) (conj X1 X2)) as [HT0 HTf].
  assert (forall T', 0 <= T' -> Forall (feasible A V T') l -> T <= T') as Hleast.
  { intros T' HT' Hf. apply (X3 (Fin T')); apply (Hiff' T'); split; assumption. }
  exists T. split; [exact HT0|]. split; [exact HTf|]. split; [exact Hleast|].
  unfold steer. rewrite Elo. cbn [bind]. split.
  - intros Hnone. assert (Tm <= small) as Hle.
    { destruct Hex as [->|(g & Hg & Hf & Hlt)]; [exact Hsm|]. destruct (Hnone g Hg) as (T' & HT' & Hf'). specialize (Hlt T' Hf'). lra. }
    destruct (rleb_spec Tm small); [reflexivity|contradiction].
  - intros (g & Hg & Hlong) HTe Hgood.
    assert (small < Tm) as Hlt.
    { destruct (Hfe g Hg) as (T' & HT' & Hf'). specialize (Hlong T' Hf'). lra. }
    destruct (rleb_spec Tm small) as [Hx|_]; [exfalso; lra|]. rewrite ET. cbn [bind].
    destruct (law_loop_ok eps A V sync T l HA HV He) with (k := 0%nat) as (ax & -> & Hax & Hj); try assumption; try lra.
    { eapply Forall_impl; [|exact Hl]. intros ? [? _]. assumption. }
    cbn [bind]. eexists. split; [reflexivity|]. cbn [klen axes]. split; [reflexivity|]. split; [|exact Hj].
    split; [exact HT0|exact Hax].
Qed.

Lemma can_move_iff A V T g : 0 < A -> 0 < V -> slow V g -> (can_move A V T g <-> feasible A V T g).
Proof. intros HA HV [H1 H2]. unfold can_move, feasible. symmetry. apply feasible_iff; assumption. Qed.

Lemma joins_motion A V T g x : axis_ok T x -> slow V g -> joins A V g x ->
  motion A V T (g_p1 g) (g_v1 g) (g_p2 g) (g_v2 g) (fun t => x_ (axis_at x t)) (fun t => v_ (axis_at x t)).
Proof.
  intros Hok [H1 H2] (E1 & E2 & Ha & Hp).
  pose proof (axis_motion T x V Hok) as M. rewrite E1 in Hp. rewrite E1, E2 in M. cbn [x_ v_] in M, Hp.
  destruct (M H1 H2 Hp) as [M1 M2 M3 M4 M5 M6 M7 M8].
  constructor; [exact M1|exact M2|exact M3|exact M4|exact M5|exact M6| |exact M8].
  intros s t Hs Ht. eapply Rle_trans; [apply M7; assumption|]. apply Rmult_le_compat_r; [apply Rabs_pos|exact Ha].
Qed.
