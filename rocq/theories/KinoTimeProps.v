(* Properties C60-C63: kinodynamic steering method and distance. *)
From Coq Require Import Reals List Lra Lia.
From Verif Require Import Base XReal KinoModel KinoSpec PolyProofs KinoProofs KinoProofs2 KinoTimeModel KinoTimeSpec KinoTimeProofs KinoTimeProofs2 KinoTimeProofs3 KinoTimeProofs4 KinoTimeProofs5.
Import ListNotations.
Open Scope R_scope.

(* computeMinTime: the duration returned is the least duration of a motion with
   bounded velocity and acceleration, and the interval returned contains exactly
   the longer durations for which there is none. *)
Theorem C60_minimal_duration eps A V g inf0 : 0 < A -> 0 < V -> 0 < eps -> slow V g -> moving eps g ->
  exists T i, min_time eps A V (g_p1 g) (g_p2 g) (g_v1 g) (g_v2 g) inf0 = Ok (T, i) /\
    can_move A V T g /\ forall T', can_move A V T' g <-> T <= T' /\ ~ inside (Fin T') i.
Proof.
  intros HA HV He Hs Hm. destruct (min_time_moving eps A V g inf0 HA HV He Hs Hm) as (T & i & E & HT & Hf & HF).
  exists T, i. split; [exact E|]. split; [apply can_move_iff; assumption|].
  intros T'. rewrite (can_move_iff A V T' g HA HV Hs). apply HF.
Qed.

(* From velocity 1 to velocity 1 over a distance 3/4: 3/4, but not between 1 and 3. *)
Example C60_example inf0 : slow 1 (mkLeg 0 (3/4) 1 1) /\ moving (1/100) (mkLeg 0 (3/4) 1 1) /\
  min_time (1/100) 1 1 0 (3/4) 1 1 inf0 = Ok (3/4, (Fin 1, Fin 3)).
Proof.
  assert (Rabs 1 <= 1) as B by (rewrite Rabs_right; lra).
  assert (1/100 <= Rabs (3/4 - 0)) as M by (rewrite Rabs_right; lra).
  split; [split; exact B|]. split; [left; exact M|].
  destruct (min_time_val (1/100) 1 1 0 (3/4) 1 1 inf0) as (s & Hs & Hd & _ & ->); try lra.
  assert (s = 1) as ->.
  { destruct Hs as [->|Hs]; [reflexivity|]. exfalso. subst s.
    replace (-1 * 1 - -1 * 1) with 0 in Hd by ring. rewrite Rabs_R0 in Hd. lra. }
  unfold tmin, gap. rewrite !Rmult_1_l, !Rminus_0_r.
  replace ((1 + 1) / 2 + 3 / 4) with (7/4) by field. replace ((1 + 1) / 2 - 3 / 4) with (1/2 * (1/2)) by field.
  rewrite sqrt_square by lra.
  destruct (rleb_spec (sqrt (7/4)) 1) as [H|_].
  { exfalso. assert (sqrt (7/4) * sqrt (7/4) = 7/4) as E by (apply sqrt_sqrt; lra). pose proof (sqrt_pos (7/4)).
    assert (0 <= (1 - sqrt (7/4)) * (1 + sqrt (7/4))) by (apply Rmult_le_pos; lra). lra. }
  destruct (rleb_spec 1 0); [exfalso; lra|]. cbn [orb]. destruct (rltb_spec (1/2 * (1/2)) 0); [exfalso; lra|].
  f_equal. f_equal; [field|]. f_equal; f_equal; field.
Qed.

(* fixedTimeTrajectory: for any duration of an existing motion, out of the cases
   excluded by [good], the phases returned are a motion of this duration that
   respects the limits. *)
Theorem C61_fixed_duration_partial eps A V sync T k g : 0 < A -> 0 < V -> 0 < eps -> 0 < T -> eps < T * T ->
  slow V g -> can_move A V T g -> good eps A V sync T k g ->
  exists w, fixed_time eps A V sync (Nat.eqb k 2) T (g_p1 g) (g_p2 g) (g_v1 g) (g_v2 g) = Ok w /\
    let x := mkAxis (mkSt (g_p1 g) (g_v1 g) 0) (mkSt (g_p2 g) (g_v2 g) 0) (l_a1 w) (l_t0 w) (l_t1 w) (l_tv w) (l_t2 w) (l_vlim w) in
    axis_ok T x /\ motion A V T (g_p1 g) (g_v1 g) (g_p2 g) (g_v2 g) (fun t => x_ (axis_at x t)) (fun t => v_ (axis_at x t)).
Proof.
  intros HA HV He HT HTe Hs Hc Hg. apply can_move_iff in Hc; try assumption.
  destruct (fixed_time_good eps A V sync T k g HA HV He HT HTe Hs Hc Hg) as (w & E & Hok & Ha & Hv).
  exists w. split; [exact E|]. cbn zeta. split; [exact Hok|].
  apply (joins_motion A V T g _ Hok Hs). repeat split; assumption.
Qed.

Example C61_example : good (1/100) 1 1 true 3 0 (mkLeg 0 (3/4) 1 1) /\ can_move 1 1 3 (mkLeg 0 (3/4) 1 1).
Proof.
  assert (Rabs 1 <= 1) as B by (rewrite Rabs_right; lra).
  split.
  - right. right. left. cbn. split; [left; cbn; rewrite Rabs_right; lra|]. split; [|tauto].
    right. rewrite Rabs_left; lra.
  - destruct (C60_minimal_duration (1/100) 1 1 (mkLeg 0 (3/4) 1 1) (Fin 0, Fin 0)) as (T & i & E & _ & HF); try lra.
    { split; exact B. } { left. cbn. rewrite Rabs_right; lra. }
    cbn [g_p1 g_p2 g_v1 g_v2] in E. rewrite (proj2 (proj2 (C60_example _))) in E. injection E as <- <-.
    apply HF. split; [lra|]. intros (I1 & I2 & _). apply I2. cbn. lra.
Qed.

(* Full claim, refuted: a motion at constant velocity under the limit exists but
   the trajectory returned accelerates and decelerates, and arrives further. *)
Theorem C61_constant_velocity_refuted eps A V sync z T p v : 0 < A -> 0 < v -> 0 < T -> v + T * A / 2 <= V ->
  0 < eps -> eps < T * T -> eps <= v * T ->
  can_move A V T (mkLeg p (p + v * T) v v) /\
  fixed_time eps A V sync z T p (p + v * T) v v = Ok (mkLaw A 0 (T / 2) 0 (T / 2) V) /\
  x_ (axis_at (mkAxis (mkSt p v 0) (mkSt (p + v * T) v 0) A 0 (T / 2) 0 (T / 2) V) T) = p + v * T + A * T * T / 4.
Proof.
  intros HA Hv HT HV He HTe Hp. assert (0 < T * A) as HTA by (apply Rmult_lt_0_compat; assumption).
  assert (0 < v * T) as HvT by (apply Rmult_lt_0_compat; assumption). split; [|split].
  - exists (fun t => p + v * t), (fun _ => v). cbn. constructor; try ring; try lra.
    + intros t e Ht Hee. exists 1. split; [lra|]. intros s Hs _.
      replace (p + v * s - (p + v * t) - v * (s - t)) with 0 by ring. rewrite Rabs_R0.
      apply Rmult_le_pos; [lra|apply Rabs_pos].
    + intros s t Hs Ht. rewrite Rminus_diag_eq, Rabs_R0 by reflexivity. apply Rmult_le_pos; [lra|apply Rabs_pos].
    + intros t Ht. rewrite Rabs_right by lra. lra.
  - unfold fixed_time, sigma. rewrite kdiv_ok by lra. cbn [bind]. rewrite (Rminus_diag_eq v v), Rabs_R0 by reflexivity.
    replace (p + v * T - p) with (v * T) by ring.
    replace (v * T - 1 / 2 * (v + v) * (0 / A)) with (v * T) by (field; lra). unfold sgnenum.
    destruct (rltb_spec 0 (v * T)); [|contradiction]. destruct (reqb_spec 1 0); [exfalso; lra|].
    rewrite (Rabs_right (v * T)) by lra. destruct (rltb_spec (v * T) eps); [exfalso; lra|]. rewrite Bool.andb_false_r.
    destruct (reqb_spec v 0); [exfalso; lra|]. rewrite Bool.andb_false_r.
    replace (2 * T * (v + v) - 4 * (v * T)) with 0 by ring.
    rewrite !Rmult_0_l, Ropp_0, Rmult_0_r, Rminus_0_r. rewrite ksqrt_ok by lra. cbn [bind].
    rewrite sqrt_0, Rmult_0_r, Rplus_0_r, Rmult_0_r, Rabs_R0.
    destruct (rltb_spec eps 0) as [Hx|_]; [exfalso; lra|].
    rewrite (Rabs_right (T * T)) by lra. destruct (rltb_spec eps (T * T)); [|contradiction].
    replace (0 / (T * T)) with 0 by (unfold Rdiv; ring). rewrite Rabs_R0, Rmult_1_l, (Rabs_right A) by lra.
    destruct (rltb_spec A 0); [exfalso; lra|]. unfold clip, sgn. rewrite (Rabs_right A) by lra.
    destruct (rltb_spec A A); [exfalso; lra|]. rewrite kdiv_ok by lra. cbn [bind].
    replace (1 / 2 * (0 / A + T)) with (T / 2) by (field; lra). replace (v + T / 2 * A) with (v + T * A / 2) by field.
    rewrite (Rabs_right (v + T * A / 2)) by lra. destruct (rleb_spec (v + T * A / 2) V); [|contradiction].
    destruct (rleb_spec 0 A); [|exfalso; lra]. rewrite Rmult_1_l. replace (T - T / 2) with (T / 2) by field. reflexivity.
  - unfold axis_at. cbn. kcase; try (exfalso; lra). cbn. field.
Qed.

(* Refuted as well when the axis leaves a position and comes back to it with the
   same velocity: the velocity jumps to 0. *)
Theorem C61_return_refuted eps A V sync z T t p v : 0 < A -> 0 < eps -> 0 < t < T ->
  fixed_time eps A V sync z T p p v v = Ok (mkLaw 0 0 0 T 0 0) /\
  v_ (axis_at (mkAxis (mkSt p v 0) (mkSt p v 0) 0 0 0 T 0 0) t) = 0.
Proof.
  intros HA He Ht. split.
  - unfold fixed_time. destruct (sigma_val A p p v v HA) as (s & -> & _). cbn [bind].
    rewrite !Rminus_diag_eq, Rabs_R0 by reflexivity. destruct (rltb_spec 0 eps); [reflexivity|contradiction].
  - unfold axis_at. cbn. kcase; try (exfalso; lra). reflexivity.
Qed.
(* such motions exist: from velocity 1 back to the same state *)
Example C61_return_exists : exists T, can_move 1 1 T (mkLeg 0 0 1 1) /\ 0 < T.
Proof.
  assert (feasible 1 1 4 (mkLeg 0 0 1 1)) as Hf.
  { unfold feasible, feas, up. cbn. rewrite !Rminus_diag_eq, Rabs_R0 by reflexivity.
    split; [lra|]. split; [lra|]. split; split; intros; lra. }
  exists 4. split; [|lra]. apply can_move_iff; try lra; [|exact Hf]. split; cbn; rewrite Rabs_right; lra.
Qed.

(* Refuted as well for the vertical axis when it is not synchronised and has an
   initial velocity: the phases last 1 whatever the duration. *)
Theorem C61_vertical_refuted eps T : 0 < eps < 1/4 ->
  fixed_time eps 1 1 false true T 0 (1/2) 1 0 = Ok (mkLaw 1 0 0 0 1 1).
Proof.
  intros He. unfold fixed_time, sigma. rewrite kdiv_ok by lra. cbn [bind].
  replace (0 - 1) with (-1) by ring. assert (Rabs (-1) = 1) as E1 by (rewrite Rabs_left; lra).
  replace (1 / 2 - 0 - 1 / 2 * (1 + 0) * (Rabs (-1) / 1)) with 0 by (rewrite E1; field).
  unfold sgnenum. destruct (rltb_spec 0 0); [exfalso; lra|]. destruct (reqb_spec 0 0); [|exfalso; lra].
  rewrite Rminus_0_r, E1. destruct (rltb_spec 1 eps); [exfalso; lra|]. cbn [andb negb].
  assert (sgn (1/2) = 1) as -> by (unfold sgn; destruct (rleb_spec 0 (1/2)); lra).
  unfold vertical, eq13. rewrite kdiv_ok by lra. cbn [bind].
  replace (1 / 2 * (1 + 0) * (0 - 1) / - (1 * 1) - (1 / 2 - 0)) with 0 by field.
  replace (2 * 1 * (2 * 1) - 4 * (1 * 1) * 0) with (2 * 2) by ring. rewrite ksqrt_ok by lra. cbn [bind]. rewrite sqrt_square by lra.
  assert (sgn (2 * 1) = 1) as -> by (unfold sgn; destruct (rleb_spec 0 (2 * 1)); lra).
  replace (- (1 / 2) * (2 * 1 + 1 * 2)) with (-2) by field.
  rewrite Rmult_1_l, (Rabs_right 1), (Rabs_left (-2)) by lra.
  destruct (rltb_spec eps 1); [|exfalso; lra]. destruct (rltb_spec eps (- -2)); [|exfalso; lra].
  replace (-2 / 1) with (-2) by field. replace (0 / -2) with 0 by field. rewrite (Rmax_right (-2) 0) by lra.
  rewrite kdiv_ok by lra. cbn [bind]. replace ((0 - 1) / - (1)) with 1 by field. rewrite Rmax_left by lra.
  destruct (rleb_spec 0 0); [|exfalso; lra]. replace (1 + 0 * 1) with 1 by ring. rewrite (Rabs_right 1) by lra.
  destruct (rltb_spec 1 1); [exfalso; lra|]. cbn [andb negb]. unfold phases. rewrite kdiv_ok by lra. cbn [bind].
  destruct (reqb_spec 1 0); [exfalso; lra|]. do 2 f_equal. field.
Qed.

(* impl_compute, for any number of axes: the path returned lasts the least
   duration for which every axis has a motion, each axis of the path is such a
   motion; there is no path when no axis needs more than the threshold.  The full
   claim is refuted by the C61 theorems. *)
Theorem C62_steering_partial small eps A V sync l : 0 < A -> 0 < V -> 0 < eps -> 0 <= small -> Forall (leg_ok eps V) l ->
  exists T, Forall (can_move A V T) l /\ (forall T', 0 <= T' -> Forall (can_move A V T') l -> T <= T') /\
    ((forall g, In g l -> exists T', T' <= small /\ can_move A V T' g) -> steer small eps A V sync l = Ok None) /\
    ((exists g, In g l /\ forall T', can_move A V T' g -> small < T') -> eps < T * T ->
     (forall k g, nth_error l k = Some g -> good eps A V sync T k g) ->
     exists p, steer small eps A V sync l = Ok (Some p) /\ klen p = T /\ path_ok p /\
       Forall2 (fun g x => motion A V T (g_p1 g) (g_v1 g) (g_p2 g) (g_v2 g) (fun t => x_ (axis_at x t)) (fun t => v_ (axis_at x t)))
         l (axes p)).
Proof.
  intros HA HV He Hsm Hl.
  assert (forall g, In g l -> slow V g) as Hslow by (rewrite Forall_forall in Hl; intros g Hg; apply Hl; exact Hg).
  assert (forall T g, In g l -> (can_move A V T g <-> feasible A V T g)) as Hiff by (intros; apply can_move_iff; auto).
  destruct (steer_ok small eps A V sync l HA HV He Hsm Hl) as (T & HT & Hf & Hleast & Hnone & Hsome).
  exists T. rewrite Forall_forall in Hf. split; [rewrite Forall_forall; intros g Hg; apply Hiff; auto|]. split.
  { intros T' HT' Hc. apply Hleast; [exact HT'|]. rewrite Forall_forall in Hc |- *. intros g Hg. apply Hiff; auto. }
  split.
  - intros Hn. apply Hnone. intros g Hg. destruct (Hn g Hg) as (T' & X & Y). exists T'. split; [exact X|]. apply Hiff; assumption.
  - intros (g & Hg & Hlong) HTe Hgood.
    destruct Hsome as (p & Ep & Ek & Hok & Hj); try assumption.
    { exists g. split; [exact Hg|]. intros T' HT'. apply Hlong. apply Hiff; assumption. }
    exists p. split; [exact Ep|]. split; [exact Ek|]. split; [exact Hok|]. destruct Hok as [_ Hok]. rewrite Ek in Hok.
    clear - Hj Hok Hslow. induction Hj as [|g x l xs Hgx Hj IH]; [constructor|].
    inversion Hok; subst. constructor; [apply joins_motion; try assumption; apply Hslow; left; reflexivity|].
    apply IH; [intros g' Hg'; apply Hslow; right; exact Hg'|assumption].
Qed.

(* The second axis needs at least 2, a duration that the first one cannot take:
   the path lasts 3. *)
Example C62_example : exists p, steer 0 (1/100) 1 1 true [mkLeg 0 (3/4) 1 1; mkLeg 0 1 0 0] = Ok (Some p) /\ klen p = 3.
Proof.
  set (g1 := mkLeg 0 (3/4) 1 1). set (g2 := mkLeg 0 1 0 0).
  assert (slow 1 g1) as S1 by (split; cbn; rewrite Rabs_right; lra).
  assert (slow 1 g2) as S2 by (split; cbn; rewrite Rabs_R0; lra).
  assert (moving (1/100) g1) as M1 by (left; cbn; rewrite Rabs_right; lra).
  assert (moving (1/100) g2) as M2 by (left; cbn; rewrite Rabs_right; lra).
  assert (forall T, can_move 1 1 T g1 <-> 3/4 <= T /\ ~ inside (Fin T) (Fin 1, Fin 3)) as F1.
  { destruct (C60_minimal_duration (1/100) 1 1 g1 (Fin 0, Fin 0)) as (T & i & E & _ & HF); try lra; try assumption.
    cbn [g1 g_p1 g_p2 g_v1 g_v2] in E. rewrite (proj2 (proj2 (C60_example _))) in E. injection E as <- <-. exact HF. }
  assert (forall T, can_move 1 1 T g2 <-> 2 <= T) as F2.
  { intros T. rewrite can_move_iff by (assumption || lra). unfold feasible, feas, up. cbn.
    replace ((1 * T + 0 + 0) / 2) with (T / 2) by field. replace ((1 * T + - 0 + - 0) / 2) with (T / 2) by field.
    rewrite Rminus_0_r, Rabs_R0. split.
    - intros (HT & _ & [X1 X2] & _). destruct (Rle_lt_dec (T / 2) 1) as [Hc|Hc]; [|lra]. specialize (X1 Hc).
      destruct (Rle_lt_dec 2 T); [assumption|]. exfalso. assert (0 < (2 - T) * (2 + T)) by (apply Rmult_lt_0_compat; lra). lra.
    - intros HT. split; [lra|]. split; [lra|]. pose proof (sqr_pos (T / 2)).
      repeat split; intros Hc; try lra. assert (T = 2) as -> by lra. lra. }
  destruct (C62_steering_partial 0 (1/100) 1 1 true [g1; g2]) as (T & Hf & Hleast & _ & Hsome); try lra.
  { constructor; [split; [exact S1|left; exact M1]|]. constructor; [split; [exact S2|left; exact M2]|]. constructor. }
  inversion Hf as [|? ? C1 Hf']; subst. inversion Hf' as [|? ? C2 _]; subst.
  apply F1 in C1 as [C1 C1']. apply F2 in C2.
  assert (T = 3) as ->.
  { apply Rle_antisym.
    - apply Hleast; [lra|]. constructor; [|constructor; [|constructor]].
      + apply F1. split; [lra|]. intros (_ & I2 & _). apply I2. cbn. lra.
      + apply F2. lra.
    - destruct (Rle_lt_dec 3 T); [assumption|]. exfalso. apply C1'. unfold inside. cbn. repeat split; try discriminate; lra. }
  destruct Hsome as (p & Ep & Ek & _).
  - exists g2. split; [right; left; reflexivity|]. intros T' HT'. apply F2 in HT'. lra.
  - lra.
  - intros [|[|k]] g Hg; cbn in Hg; [| |destruct k; discriminate]; injection Hg as <-; right; right; left.
    + split; [assumption|]. split; [|tauto]. right. cbn. rewrite Rabs_left; lra.
    + split; [assumption|]. split; [|tauto]. right. cbn. rewrite Rabs_right; lra.
  - exists p. split; assumption.
Qed.

(* KinodynamicDistance, for any number of axes: the greatest of the least
   durations of the axes (0 if there is none), out of the case [backwards]. *)
Theorem C63_distance_partial eps A V l : 0 < A -> 0 < V -> 0 < eps -> Forall (leg_fine eps A V) l ->
  exists T, kino_distance eps A V l 0 = Ok T /\ 0 <= T /\
    (forall g, In g l -> exists t, t <= T /\ can_move A V t g) /\
    (T = 0 \/ exists g, In g l /\ can_move A V T g /\ forall t, can_move A V t g -> T <= t).
Proof.
  intros HA HV He Hl.
  assert (forall T g, In g l -> (can_move A V T g <-> feasible A V T g)) as Hiff.
  { intros T g Hg. apply can_move_iff; try assumption. rewrite Forall_forall in Hl. apply (Hl g Hg). }
  destruct (kino_distance_ok eps A V l HA HV He Hl 0) as (T & E & HT & X1 & X2); [lra|].
  exists T. split; [exact E|]. split; [exact HT|]. split.
  - intros g Hg. destruct (X1 g Hg) as (t & Y1 & Y2). exists t. split; [exact Y1|]. apply Hiff; assumption.
  - destruct X2 as [->|(g & Hg & Y1 & Y2)]; [left; reflexivity|]. right. exists g. split; [exact Hg|].
    split; [apply Hiff; assumption|]. intros t Ht. apply Y2. apply Hiff; assumption.
Qed.

(* A lower bound of the duration of any path. *)
Theorem C63_lower_bound_partial eps A V l T : 0 < A -> 0 < V -> 0 < eps -> Forall (leg_fine eps A V) l ->
  0 <= T -> Forall (can_move A V T) l -> exists d, kino_distance eps A V l 0 = Ok d /\ d <= T.
Proof.
  intros HA HV He Hl HT Hc. destruct (C63_distance_partial eps A V l HA HV He Hl) as (d & E & _ & _ & X).
  exists d. split; [exact E|]. destruct X as [->|(g & Hg & _ & Hle)]; [exact HT|]. apply Hle.
  rewrite Forall_forall in Hc. apply Hc. exact Hg.
Qed.

(* Triangle inequality. *)
Theorem C63_triangle_partial eps A V q1 q2 q3 : 0 < A -> 0 < V -> 0 < eps ->
  length q1 = length q2 -> length q2 = length q3 ->
  Forall (leg_fine eps A V) (legs q1 q2) -> Forall (leg_fine eps A V) (legs q2 q3) -> Forall (leg_fine eps A V) (legs q1 q3) ->
  exists d12 d23 d13, kino_distance eps A V (legs q1 q2) 0 = Ok d12 /\ kino_distance eps A V (legs q2 q3) 0 = Ok d23 /\
    kino_distance eps A V (legs q1 q3) 0 = Ok d13 /\ d13 <= d12 + d23.
Proof.
  intros HA HV He L1 L2 F12 F23 F13.
  destruct (C63_distance_partial eps A V _ HA HV He F12) as (d12 & E12 & P12 & X12 & _).
  destruct (C63_distance_partial eps A V _ HA HV He F23) as (d23 & E23 & P23 & X23 & _).
  destruct (C63_distance_partial eps A V _ HA HV He F13) as (d13 & E13 & P13 & _ & X13).
  exists d12, d23, d13. repeat (split; [assumption|]). destruct X13 as [->|(g & Hg & _ & Hle)]; [lra|].
  unfold legs in Hg. apply in_map_iff in Hg as ([c1 c3] & <- & Hin). apply In_nth_error in Hin as (k & Hk).
  assert (nth_error q1 k = Some c1 /\ nth_error q3 k = Some c3) as [K1 K3].
  { assert (length q1 = length q3) as L by congruence. clear - Hk L. revert q1 q3 L Hk. induction k as [|k IH]; intros [|a q1] [|b q3] L Hk; try discriminate; cbn in *.
    - injection Hk as -> ->. split; reflexivity.
    - apply IH; [lia|exact Hk]. }
  destruct (nth_error q2 k) as [c2|] eqn:K2.
  2:{ exfalso. apply nth_error_None in K2. assert (k < length q1)%nat by (apply nth_error_Some; congruence). lia. }
  assert (forall q q' c c', length q = length q' -> nth_error q k = Some c -> nth_error q' k = Some c' -> In (mkLeg (fst c) (fst c') (snd c) (snd c')) (legs q q')) as Hin.
  { intros q q' c c' _ Hc Hc'. unfold legs. apply in_map_iff. exists (c, c'). split; [reflexivity|].
    apply nth_error_In with k. revert q q' Hc Hc'. clear. induction k as [|k IH]; intros [|a q] [|b q'] Hc Hc'; try discriminate; cbn in *.
    - congruence.
    - apply IH; assumption. }
  destruct (X12 _ (Hin q1 q2 c1 c2 L1 K1 K2)) as (t12 & H12 & x & v & Mx).
  destruct (X23 _ (Hin q2 q3 c2 c3 L2 K2 K3)) as (t23 & H23 & y & w & My).
  cbn in *. assert (d13 <= t12 + t23); [|lra]. apply Hle.
  exists (glue t12 x y), (glue t12 v w). cbn. eapply motion_glue; [lra|exact Mx|exact My].
Qed.

Example C63_example : Forall (leg_fine (1/100) 1 1) (legs [(0, 1); (0, 0)] [(3/4, 1); (1, 0)]).
Proof.
  unfold legs. cbn [combine map fst snd]. constructor; [|constructor; [|constructor]].
  - split; [|intros (H & _); cbn in H; lra]. split; [split; cbn; rewrite Rabs_right; lra|]. left. left. cbn. rewrite Rabs_right; lra.
  - split; [|intros (H & _); cbn in H; lra]. split; [split; cbn; rewrite Rabs_R0; lra|]. left. left. cbn. rewrite Rabs_right; lra.
Qed.

(* The distance is not symmetric: 3/4 forwards, 19/4 backwards. *)
Theorem C63_not_symmetric : kino_distance (1/100) 1 1 (legs [(0, 1)] [(3/4, 1)]) 0 = Ok (3/4) /\
  kino_distance (1/100) 1 1 (legs [(3/4, 1)] [(0, 1)]) 0 = Ok (19/4).
Proof.
  assert (Rabs 1 <= 1) as B by (rewrite Rabs_right; lra).
  assert (1 < sqrt (7/4)) as Hq.
  { assert (sqrt (7/4) * sqrt (7/4) = 7/4) as E by (apply sqrt_sqrt; lra). pose proof (sqrt_pos (7/4)).
    destruct (Rle_lt_dec (sqrt (7/4)) 1) as [Hc|Hc]; [|exact Hc]. exfalso.
    assert (0 <= (1 - sqrt (7/4)) * (1 + sqrt (7/4))) by (apply Rmult_le_pos; lra). lra. }
  split; cbn.
  - destruct (dist_time_val (1/100) 1 1 0 (3/4) 1 1) as (s & Hs & Hd & _ & ->); try lra; [left; rewrite Rabs_right; lra|].
    assert (s = 1) as ->.
    { destruct Hs as [->|Hs]; [reflexivity|]. exfalso. subst s.
      replace (-1 * 1 - -1 * 1) with 0 in Hd by ring. rewrite Rabs_R0 in Hd. lra. }
    cbn [bind]. unfold tmin. replace ((1 * 1 * (1 * 1) + 1 * 1 * (1 * 1)) / 2 + 1 * (1 * (3 / 4 - 0))) with (7/4) by field.
    destruct (rleb_spec (sqrt (7/4)) 1); [exfalso; lra|]. destruct (rltb_spec 0 ((1 + 7 / 4 / 1 - 1 * 1 - 1 * 1) / 1)); [f_equal; field|exfalso; lra].
  - destruct (dist_time_val (1/100) 1 1 (3/4) 0 1 1) as (s & Hs & Hd & _ & ->); try lra; [left; rewrite Rabs_left; lra|].
    assert (s = -1) as ->.
    { destruct Hs as [Hs| ->]; [|reflexivity]. exfalso. subst s.
      replace (1 * 1 - 1 * 1) with 0 in Hd by ring. rewrite Rabs_R0 in Hd. lra. }
    cbn [bind]. unfold tmin. replace ((-1 * 1 * (-1 * 1) + -1 * 1 * (-1 * 1)) / 2 + 1 * (-1 * (0 - 3 / 4))) with (7/4) by field.
    destruct (rleb_spec (sqrt (7/4)) 1); [exfalso; lra|].
    destruct (rltb_spec 0 ((1 + 7 / 4 / 1 - -1 * 1 - -1 * 1) / 1)); [f_equal; field|exfalso; lra].
Qed.

(* Full claim, refuted: accelerating backwards from velocity -1 to -2 takes 1
   (and the steering method finds it), the distance is 5. *)
Theorem C63_backwards_refuted : can_move 1 2 1 (mkLeg 0 (-3/2) (-1) (-2)) /\
  kino_distance (1/100) 1 2 [mkLeg 0 (-3/2) (-1) (-2)] 0 = Ok 5 /\
  exists i, min_time (1/100) 1 2 0 (-3/2) (-1) (-2) (Fin 0, Fin 0) = Ok (1, i).
Proof.
  assert (Rabs (-1) <= 2) as B1 by (rewrite Rabs_left; lra).
  assert (Rabs (-2) <= 2) as B2 by (rewrite Rabs_left; lra).
  assert (Rabs (-2 - -1) = 1) as E1 by (rewrite Rabs_left; lra).
  split; [|split].
  - apply can_move_iff; try lra; [split; assumption|]. unfold feasible, feas, up. cbn. rewrite E1.
    split; [lra|]. split; [lra|]. split; split; intros; lra.
  - cbn. destruct (dist_time_val (1/100) 1 2 0 (-3/2) (-1) (-2)) as (s & Hs & Hd & Hd0 & ->); try lra.
    assert (s = 1) as ->.
    { destruct Hs as [->|Hs]; [reflexivity|]. exfalso. specialize (Hd0 Hs). subst s.
      replace (-1 * -2 - -1 * -1) with 1 in Hd0 by ring. rewrite Rabs_R1 in Hd0. lra. }
    cbn [bind]. unfold tmin. replace ((1 * -1 * (1 * -1) + 1 * -2 * (1 * -2)) / 2 + 1 * (1 * (-3 / 2 - 0))) with (1 * 1) by field.
    rewrite sqrt_square by lra. destruct (rleb_spec 1 2); [|exfalso; lra].
    destruct (rltb_spec 0 ((2 * 1 - 1 * -1 - 1 * -2) / 1)); [f_equal; field|exfalso; lra].
  - destruct (min_time_val (1/100) 1 2 0 (-3/2) (-1) (-2) (Fin 0, Fin 0)) as (s & Hs & Hd & Hd0 & ->); try lra.
    assert (s = -1) as ->.
    { destruct Hs as [Hs| ->]; [|reflexivity]. exfalso. subst s.
      replace (1 * -2 - 1 * -1) with (-2 - -1) in Hd0 by ring. rewrite E1 in Hd0. lra. }
    eexists. f_equal. f_equal. unfold tmin.
    replace ((-1 * -1 * (-1 * -1) + -1 * -2 * (-1 * -2)) / 2 + 1 * (-1 * (-3 / 2 - 0))) with (2 * 2) by field.
    rewrite sqrt_square by lra. destruct (rleb_spec 2 2); [field|exfalso; lra].
Qed.

Print Assumptions C60_minimal_duration.
Print Assumptions C61_fixed_duration_partial.
Print Assumptions C61_constant_velocity_refuted.
Print Assumptions C61_return_refuted.
Print Assumptions C61_vertical_refuted.
Print Assumptions C62_steering_partial.
Print Assumptions C63_distance_partial.
Print Assumptions C63_lower_bound_partial.
Print Assumptions C63_triangle_partial.
Print Assumptions C63_not_symmetric.
Print Assumptions C63_backwards_refuted.
