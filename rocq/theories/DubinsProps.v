(* C80 - C82: Dubins paths. *)
From Coq Require Import Reals ZArith List Bool Lia Lra.
From Verif Require Import Base XReal PolyProofs CurvModel CurvSpec CurvProofs CurvProofs2 CurvProofs3 AngleProofs CurvProofs4
  DubinsModel DubinsSpec DubinsProofs DubinsProofs2 DubinsProofs3 DubinsProofs4.
Import ListNotations.
Open Scope R_scope.

(* The wheels have a steering angle in the three kinds of segments. *)
Definition can_steer (rho : R) (ws : list wheel) : Prop :=
  forall k, k = 1 / rho \/ k = 0 \/ k = - (1 / rho) -> exists wv, wheel_values k ws = Ok wv.
Lemma can_ok rho ws ss : can_steer rho ws -> wheels_ok rho ws ss.
Proof.
  intros H s _. apply H. rewrite seg_curv. destruct s; cbn; auto.
Qed.

Lemma path_ok rho ws extra q1 q2 : 0 < rho -> 0 <= extra -> can_steer rho ws ->
  unit_heading q1 -> unit_heading q2 -> ~ same_place q1 q2 ->
  exists ps q' al be d w o, dubins_path rho ws extra q1 q2 = Ok ps /\
    dubins_params rho q1 q2 = (al, be, d) /\ dubins_init_normalised al be d = Ok (w, o) /\
    linked q1 ps q' /\ same_but (map w_rank ws) q' q2 /\ Forall built ps /\
    map p_kappa ps = map (curv rho) (dirdata w) /\
    (let '(t, p, q) := o in 0 <= t < 2 * PI /\ 0 <= p /\ 0 <= q < 2 * PI /\ 
       map p_cl ps = [rho * t; rho * p; rho * q] /\ map p_t0 ps = [0; 0; 0] /\
       map p_t1 ps = map (fun l => rho * l + l / cost o * extra) [t; p; q]) /\
    0 < cost o.
Proof.
  intros Hr He Hw U1 U2 N. unfold dubins_path.
  destruct (dubins_params rho q1 q2) as [[al be] d] eqn:Ep.
  destruct (init_some al be d) as [w [o [Ei [Ew _]]]]. rewrite Ei. cbn [bind].
  destruct (cost_zero rho q1 q2 al be d w o Hr U1 U2 Ep Ei) as [Cz Cp].
  destruct o as [[t p] q]. cbn [cost] in Cz, Cp.
  pose proof (word_nonneg _ _ _ _ _ _ _ Ew) as [B1 [B2 B3]].
  assert (HL : 0 < t + p + q).
  { destruct (Req_dec (t + p + q) 0) as [Z|Z]; [exfalso; apply N, Cz, Z | lra]. }
  destruct (reqb_spec (t + p + q) 0) as [Z|_]; [lra|].
  destruct (segments_ok rho extra (t + p + q) ws Hr He HL (dirdata w) [t; p; q]
    [interpolate q1 q2 (t / (t + p + q)); interpolate q1 q2 ((t + p) / (t + p + q)); q2] q1 (can_ok rho ws _ Hw))
    as [ps [q' [E [Lk [U [D [B [K [Cl [T0 [T1 [W J]]]]]]]]]]]]; try (destruct w; reflexivity); try exact U1.
  { intros l [<-|[<-|[<-|[]]]]; lra. }
  exists ps, q', al, be, d, w, (t, p, q). split; [exact E|]. split; [reflexivity|]. split; [exact Ei|].
  split; [exact Lk|].
  enough (S0 : same_but (map w_rank ws) q' q2).
  { split; [exact S0|]. split; [exact B|]. split; [exact K|]. split; [|exact HL].
    split; [exact B1|]. split; [exact B2|]. split; [exact B3|]. split; [exact Cl|]. split; [exact T0 | exact T1]. }
  assert (D2 : drives_word rho (dirdata w) [rho * t; rho * p; rho * q] q1 q2).
  { apply (leads_drives rho q1 q2 al be d w t p q Hr U1 U2 Ep), word_end, Ew. }
  cbn [map] in D.
  destruct (polar_unit (cc q1) (cs q1) U1) as [Ac As].
  assert (Ha : at_angle q1 (atan2 (cs q1) (cc q1))) by (split; symmetry; assumption).
  assert (Hlen : length [t; p; q] = length (dirdata w)) by (destruct w; reflexivity).
  apply (word_place rho Hr (dirdata w) [t; p; q] q1 _ q' Hlen Ha) in D.
  apply (word_place rho Hr (dirdata w) [t; p; q] q1 _ q2 Hlen Ha) in D2.
  destruct D as [X [Y [C S]]], D2 as [X2 [Y2 [C2 S2]]].
  split; [congruence|]. split; [congruence|]. split; [congruence|]. split; [congruence|].
  intros k Hk. rewrite (J k Hk). apply track_end; lra.
Qed.

(* C80: the path goes from one configuration to the other along arcs and
   segments driven forward whose curvature is at most 1 / rho. *)
Theorem C80_reaches dist rho ws q1 q2 : 0 < rho -> (forall a b, 0 <= dist a b) -> can_steer rho ws ->
  unit_heading q1 -> unit_heading q2 -> ~ same_place q1 q2 ->
  exists ps q', dubins_steer dist rho ws q1 q2 = Ok ps /\ linked q1 ps q' /\ same_but (map w_rank ws) q' q2 /\
    Forall (fun p => built p /\ p_t0 p = 0 /\ 0 <= p_cl p <= p_t1 p /\
              (p_kappa p = 1 / rho \/ p_kappa p = 0 \/ p_kappa p = - (1 / rho))) ps.
Proof.
  intros Hr Hd Hw U1 U2 N. unfold dubins_steer.
  destruct (path_ok rho ws (dist q1 {| cx := cx q1; cy := cy q1; cc := cc q1; cs := cs q1;
                 cj := set_all (map (fun w => (w_rank w, cj q1 (w_rank w))) ws) (cj q2) |}) q1 q2 Hr (Hd _ _) Hw U1 U2 N)
    as [ps [q' [al [be [d [w [[[t p] q] [E [_ [_ [Lk [S [B [K [[H1 [H2 [H3 [Cl [T0 T1]]]]] Hc]]]]]]]]]]]]]]].
  exists ps, q'. split; [exact E|]. split; [exact Lk|]. split; [exact S|].
  destruct ps as [|p1 [|p2 [|p3 [|]]]]; try discriminate.
  pose proof (Hd q1 {| cx := cx q1; cy := cy q1; cc := cc q1; cs := cs q1;
                 cj := set_all (map (fun w => (w_rank w, cj q1 (w_rank w))) ws) (cj q2) |}) as Hx.
  set (x := dist _ _) in *.
  assert (Pos : forall l, 0 <= l -> 0 <= rho * l <= rho * l + l / cost (t, p, q) * x).
  { intros l Hl. assert (0 <= l / cost (t, p, q) * x).
    { apply Rmult_le_pos; [|exact Hx]. apply Rmult_le_pos; [exact Hl | left; apply Rinv_0_lt_compat; exact Hc]. }
    split; [apply Rmult_le_pos; lra | lra]. }
  assert (Kc : forall s, curv rho s = 1 / rho \/ curv rho s = 0 \/ curv rho s = - (1 / rho)) by (intros []; cbn; auto).
  assert (Hss : exists s1 s2 s3, dirdata w = [s1; s2; s3]) by (destruct w; cbn; eauto).
  destruct Hss as [s1 [s2 [s3 Es]]]. rewrite Es in K.
  cbn [map] in K, Cl, T0, T1. injection K as K1 K2 K3. injection Cl as C1 C2 C3. injection T0 as T01 T02 T03. injection T1 as T11 T12 T13.
  inversion B as [|? ? B1 B']; subst. inversion B' as [|? ? B2 B'']; subst. inversion B'' as [|? ? B3 _]; subst.
  cbn [cost] in Pos.
  constructor; [|constructor; [|constructor; [|constructor]]].
  - split; [assumption|]. split; [assumption|]. split; [rewrite C1, T11; apply Pos; lra | rewrite K1; apply Kc].
  - split; [assumption|]. split; [assumption|]. split; [rewrite C2, T12; apply Pos; lra | rewrite K2; apply Kc].
  - split; [assumption|]. split; [assumption|]. split; [rewrite C3, T13; apply Pos; lra | rewrite K3; apply Kc].
Qed.
(* The other degrees of freedom move in proportion to the length driven. *)
Theorem C80_other_joints rho ws extra q1 q2 ps k : 0 < rho -> 0 <= extra -> ~ In k (map w_rank ws) ->
  dubins_path rho ws extra q1 q2 = Ok ps ->
  along p_cl (fun s => cj q1 k + s / total p_cl ps * (cj q2 k - cj q1 k)) k 0 ps.
Proof.
  intros Hr He Hk E. unfold dubins_path in E. destruct (dubins_params rho q1 q2) as [[al be] d].
  destruct (init_some al be d) as [w [[[t p] q] [Ei [Ew _]]]]. rewrite Ei in E. cbn [bind] in E.
  pose proof (word_nonneg _ _ _ _ _ _ _ Ew) as [B1 [B2 B3]].
  destruct (reqb_spec (t + p + q) 0) as [Z|N]; [discriminate|].
  assert (HL : 0 < t + p + q) by lra.
  assert (T : total p_cl ps = rho * (t + p + q)).
  { destruct w; cbn [dirdata dubins_segments] in E;
    repeat (match type of E with context [wheel_values ?a ?b] => destruct (wheel_values a b); cbn [bind] in E; try discriminate end);
    injection E as <-; unfold total; cbn [fold_right cc_create set_end p_cl]; ring. }
  rewrite T.
  assert (Hl : forall l, In l [t; p; q] -> 0 <= l) by (intros l [<-|[<-|[<-|[]]]]; lra).
  assert (R0 : rho * (t + p + q) <> 0) by (apply Rmult_integral_contrapositive; split; lra).
  refine (segments_along rho extra (t + p + q) ws Hr He HL _ k Hk _ _ _ _ _ _ E Hl _ _).
  - field. lra.
  - unfold interpolate. cbn [cj]. split; [field; lra|]. split; [field; lra|]. split; [field; lra | exact I].
Qed.
(* Steering to the same position and heading divides zero by zero. *)
Theorem C80_same_place_refuted dist rho ws q1 q2 : 0 < rho -> unit_heading q1 -> unit_heading q2 -> same_place q1 q2 ->
  dubins_steer dist rho ws q1 q2 = UB.
Proof.
  intros Hr U1 U2 P. unfold dubins_steer, dubins_path.
  destruct (dubins_params rho q1 q2) as [[al be] d] eqn:Ep.
  destruct (init_some al be d) as [w [o [Ei _]]]. rewrite Ei. cbn [bind].
  destruct (cost_zero rho q1 q2 al be d w o Hr U1 U2 Ep Ei) as [Cz _]. apply Cz in P.
  destruct o as [[t p] q]. cbn [cost] in P. destruct (reqb_spec (t + p + q) 0); [reflexivity|contradiction].
Qed.
(* The search for a word never fails, whatever the input. *)
Theorem C80_never_throws dist rho ws q1 q2 : dubins_steer dist rho ws q1 q2 <> Throw.
Proof.
  unfold dubins_steer, dubins_path. destruct (dubins_params rho q1 q2) as [[al be] d].
  destruct (init_some al be d) as [w [[[t p] q] [-> _]]]. cbn [bind]. destruct (reqb _ _); [discriminate|].
  assert (V : forall k, wheel_values k ws <> Throw).
  { intros k. induction ws as [|wh ws' IH]; cbn [wheel_values]; [discriminate|].
    unfold wheel_value. destruct (reqb k 0); cbn [bind].
    - destruct (wheel_values k ws'); cbn [bind]; try discriminate; congruence.
    - unfold atan_quot. destruct (reqb _ _); [destruct (rltb _ _); [|destruct (rltb _ _)]|]; cbn [bind]; try discriminate;
        destruct (wheel_values k ws'); cbn [bind]; try discriminate; congruence. }
  assert (G : forall rho0 ex L ss ls next a, dubins_segments rho0 ex L ws a ss ls next <> Throw).
  { intros rho0 ex L. induction ss as [|s ss IH]; intros [|l ls] [|n next] a; cbn [dubins_segments]; try discriminate.
    pose proof (V (seg_curvature rho0 s)) as Vk.
    destruct (wheel_values (seg_curvature rho0 s) ws) as [wv| | |]; cbn [bind]; try discriminate; [|congruence].
    pose proof (IH ls next (p_end (cc_create a n (rho0 * l) (rho0 * l + l / L * ex) (seg_curvature rho0 s) wv))) as I.
    destruct (dubins_segments _ _ _ _ _ _ _ _); cbn [bind]; try discriminate; congruence. }
  apply G.
Qed.

(* C81: length.  The parameter length is the length driven plus the distance
   of the other degrees of freedom. *)
Theorem C81_length rho ws extra q1 q2 ps : 0 < rho -> 0 <= extra -> can_steer rho ws ->
  unit_heading q1 -> unit_heading q2 -> dubins_path rho ws extra q1 q2 = Ok ps ->
  total p_t1 ps = total p_cl ps + extra /\ 0 < total p_cl ps.
Proof.
  intros Hr He Hw U1 U2 E.
  assert (N : ~ same_place q1 q2).
  { intros P. pose proof (C80_same_place_refuted (fun _ _ => extra) rho ws q1 q2 Hr U1 U2 P) as K.
    unfold dubins_steer in K. rewrite E in K. discriminate. }
  destruct (path_ok rho ws extra q1 q2 Hr He Hw U1 U2 N)
    as [ps' [q' [al [be [d [w [[[t p] q] [E' [_ [_ [Lk [S [B [K [[H1 [H2 [H3 [Cl [T0 T1]]]]] Hc]]]]]]]]]]]]]]].
  rewrite E in E'. injection E' as <-.
  destruct ps as [|p1 [|p2 [|p3 [|]]]]; try discriminate.
  cbn [map] in Cl, T1. injection Cl as C1 C2 C3. injection T1 as T11 T12 T13.
  unfold total. cbn [fold_right]. rewrite C1, C2, C3, T11, T12, T13. cbn [cost] in *. split.
  - field. lra.
  - replace (rho * t + (rho * p + (rho * q + 0))) with (rho * (t + p + q)) by ring. apply Rmult_lt_0_compat; lra.
Qed.

(* The length driven is at most the length of any path that consists of an
   arc, a straight segment and an arc, or of three arcs of which the second is
   at least half a circle and less than a circle.  Missing: paths that are
   not of these kinds (Dubins' theorem: they are not shorter). *)
Theorem C81_shortest_partial rho ws extra q1 q2 ps : 0 < rho -> 0 <= extra -> can_steer rho ws ->
  unit_heading q1 -> unit_heading q2 -> dubins_path rho ws extra q1 q2 = Ok ps ->
  forall w l1 l2 l3, 0 <= l1 -> 0 <= l2 -> 0 <= l3 ->
    (w = RLR \/ w = LRL -> PI * rho <= l2 < 2 * PI * rho) ->
    drives_word rho (dirdata w) [l1; l2; l3] q1 q2 -> total p_cl ps <= l1 + l2 + l3.
Proof.
  intros Hr He Hw U1 U2 E w' l1 l2 l3 G1 G2 G3 Hm D.
  assert (N : ~ same_place q1 q2).
  { intros P. pose proof (C80_same_place_refuted (fun _ _ => extra) rho ws q1 q2 Hr U1 U2 P) as K.
    unfold dubins_steer in K. rewrite E in K. discriminate. }
  destruct (path_ok rho ws extra q1 q2 Hr He Hw U1 U2 N)
    as [ps' [q' [al [be [d [w [[[t p] q] [E' [Ep [Ei [Lk [S [B [K [[H1 [H2 [H3 [Cl [T0 T1]]]]] Hc]]]]]]]]]]]]]]].
  rewrite E in E'. injection E' as <-.
  destruct ps as [|p1 [|p2 [|p3 [|]]]]; try discriminate.
  cbn [map] in Cl. injection Cl as C1 C2 C3. unfold total. cbn [fold_right]. rewrite C1, C2, C3.
  destruct (params_bounds rho q1 q2 al be d Hr Ep) as [Ha [Hb Hd]].
  assert (Q : forall l, l = rho * (l / rho)) by (intros l; field; lra).
  rewrite (Q l1), (Q l2), (Q l3) in D.
  apply (leads_drives rho q1 q2 al be d w' _ _ _ Hr U1 U2 Ep) in D.
  assert (P : forall l, 0 <= l -> 0 <= l / rho) by (intros l Hl; apply Rmult_le_pos; [exact Hl | left; apply Rinv_0_lt_compat; exact Hr]).
  pose proof (init_least al be d w _ w' _ _ _ Ha Hb Hd Ei (P _ G1) (P _ G2) (P _ G3)) as M.
  assert (Hm' : w' = RLR \/ w' = LRL -> PI <= l2 / rho < 2 * PI).
  { intros Hx. specialize (Hm Hx). split.
    - apply (Rmult_le_reg_r rho); [exact Hr|]. replace (l2 / rho * rho) with l2 by (field; lra). lra.
    - apply (Rmult_lt_reg_r rho); [exact Hr|]. replace (l2 / rho * rho) with l2 by (field; lra). lra. }
  specialize (M Hm' D). cbn [cost] in M.
  apply (Rmult_le_compat_l rho) in M; [|lra].
  replace (rho * (l1 / rho + l2 / rho + l3 / rho)) with (l1 + l2 + l3) in M by (field; lra). lra.
Qed.
(* The path itself is one of these. *)
Theorem C81_attained rho ws extra q1 q2 ps : 0 < rho -> 0 <= extra -> can_steer rho ws ->
  unit_heading q1 -> unit_heading q2 -> dubins_path rho ws extra q1 q2 = Ok ps ->
  exists w l1 l2 l3, map p_cl ps = [l1; l2; l3] /\ 0 <= l1 < 2 * PI * rho /\ 0 <= l2 /\ 0 <= l3 < 2 * PI * rho /\
    (w = RLR \/ w = LRL -> PI * rho <= l2 < 2 * PI * rho \/ l2 = 0) /\
    drives_word rho (dirdata w) [l1; l2; l3] q1 q2.
Proof.
  intros Hr He Hw U1 U2 E.
  assert (N : ~ same_place q1 q2).
  { intros P. pose proof (C80_same_place_refuted (fun _ _ => extra) rho ws q1 q2 Hr U1 U2 P) as K.
    unfold dubins_steer in K. rewrite E in K. discriminate. }
  destruct (path_ok rho ws extra q1 q2 Hr He Hw U1 U2 N)
    as [ps' [q' [al [be [d [w [[[t p] q] [E' [Ep [Ei [Lk [S [B [K [[H1 [H2 [H3 [Cl [T0 T1]]]]] Hc]]]]]]]]]]]]]]].
  rewrite E in E'. injection E' as <-.
  destruct (init_some al be d) as [w1 [o1 [E1 [Ew _]]]]. rewrite Ei in E1. injection E1 as <- <-.
  exists w, (rho * t), (rho * p), (rho * q). split; [exact Cl|].
  assert (P : forall l, 0 <= l < 2 * PI -> 0 <= rho * l < 2 * PI * rho).
  { intros l [L1 L2]. split; [apply Rmult_le_pos; lra|]. rewrite (Rmult_comm (2 * PI)). apply Rmult_lt_compat_l; assumption. }
  split; [apply P; exact H1|]. split; [apply Rmult_le_pos; lra|]. split; [apply P; exact H3|]. split.
  - intros Hx. assert (M : exists x, Rabs x <= 1 /\ p = mod2pi (2 * PI - acos x)).
    { destruct Hx as [-> | ->]; cbn [dubins_word] in Ew; [unfold dubins_RLR in Ew | unfold dubins_LRL in Ew];
      match type of Ew with context [rltb 1 (Rabs ?y)] => destruct (rltb_spec 1 (Rabs y)) as [|G]; [discriminate|]; exists y end;
      (split; [lra|]; injection Ew; intros _ Ep' _; symmetry; exact Ep'). }
    destruct M as [x [Hx1 ->]]. pose proof (acos_bound x) as Ab. pose proof PI_RGT_0.
    destruct (Req_dec (acos x) 0) as [Z|Nz].
    + right. rewrite Z. replace (mod2pi (2 * PI - 0)) with 0; [ring|]. symmetry. apply mod2pi_unique; [|lra].
      exists 1%Z. ring.
    + left. rewrite (mod2pi_unique (2 * PI - acos x) (2 * PI - acos x)) by (try apply eqm_refl; lra).
      split; [rewrite (Rmult_comm PI); apply Rmult_le_compat_l; lra|].
      rewrite (Rmult_comm (2 * PI)); apply Rmult_lt_compat_l; lra.
  - apply (leads_drives rho q1 q2 al be d w t p q Hr U1 U2 Ep), word_end, Ew.
Qed.

(* straight ahead *)
Definition q_0 : cfg := {| cx := 0; cy := 0; cc := 1; cs := 0; cj := fun _ => 0 |}.
Definition q_5 : cfg := {| cx := 5; cy := 0; cc := 1; cs := 0; cj := fun _ => 3 |}.
Definition front : wheel := {| w_rank := 0; w_lo := -1; w_up := 1; w_x := 1; w_y := 0 |}.
Lemma front_steer : can_steer 2 [front].
Proof.
  intros k Hk. cbn [wheel_values]. unfold wheel_value. destruct (reqb_spec k 0) as [Z|N]; cbn [bind]; [eauto|].
  unfold atan_quot. destruct (reqb _ _); cbn [bind]; [|eauto]. destruct (rltb_spec 0 (w_x front)) as [_|G]; [cbn [bind]; eauto|].
  cbn in G. lra.
Qed.
Example C80_example : exists ps q', dubins_steer (fun _ _ => 1) 2 [front] q_0 q_5 = Ok ps /\
  linked q_0 ps q' /\ same_but [0%nat] q' q_5 /\ total p_cl ps <= 5 /\ total p_t1 ps = total p_cl ps + 1.
Proof.
  assert (U0 : unit_heading q_0) by (unfold unit_heading; cbn; ring).
  assert (U5 : unit_heading q_5) by (unfold unit_heading; cbn; ring).
  assert (N : ~ same_place q_0 q_5) by (intros [X _]; cbn in X; lra).
  destruct (C80_reaches (fun _ _ => 1) 2 [front] q_0 q_5 ltac:(lra) ltac:(intros; lra) front_steer U0 U5 N)
    as [ps [q' [E [Lk [S F]]]]].
  exists ps, q'. split; [exact E|]. split; [exact Lk|]. split; [exact S|]. unfold dubins_steer in E. split.
  - replace 5 with (0 + 5 + 0) by ring.
    apply (C81_shortest_partial 2 [front] 1 q_0 q_5 ps ltac:(lra) ltac:(lra) front_steer U0 U5 E LSL 0 5 0); try lra.
    + intros [H|H]; discriminate.
    + cbn [dirdata drives_word].
      exists q_0. split; [apply drives_arc, arc_0|]. exists q_5. split.
      * apply drives_arc. unfold arc, arc_x, arc_y, arc_c, arc_s. destruct (reqb_spec 0 0); [|lra].
        rewrite Rmult_0_l, cos_0, sin_0. cbn. repeat split; ring.
      * exists q_5. split; [apply drives_arc, arc_0 | apply place_refl].
  - apply (C81_length 2 [front] 1 q_0 q_5 ps); try assumption; try lra. exact front_steer.
Qed.

Print Assumptions C80_reaches.
Print Assumptions C80_other_joints.
Print Assumptions C80_same_place_refuted.
Print Assumptions C80_never_throws.
Print Assumptions C81_length.
Print Assumptions C81_shortest_partial.
Print Assumptions C81_attained.
