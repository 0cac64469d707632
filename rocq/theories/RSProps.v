(* C82, C83: Reeds and Shepp paths. *)
From Coq Require Import Reals ZArith List Bool Lia Lra.
From Verif Require Import Base XReal PolyProofs CurvModel CurvSpec CurvProofs CurvProofs2 CurvProofs3 AngleProofs CurvProofs4
  DubinsModel DubinsSpec DubinsProofs DubinsProofs2 DubinsProofs3 DubinsProofs4 DubinsProps
  RSModel RSSpec RSProofs RSProofs2 RSProofs3 RSProofs4 RSProofs5 RSProofs6 RSProofs7.
Import ListNotations.
Open Scope R_scope.

Definition nonneg_dist (dist : cfg -> cfg -> R) : Prop := forall a b, 0 <= dist a b.

(* C82: unless the goal is in the immediate neighbourhood of the start, a path
   is found; it goes, along arcs and segments driven one way or the other and
   whose curvature is at most 1 / rho, to a configuration that is the goal up
   to the segments that are too short to be kept. *)
Theorem C82_reaches dist rho ws q1 q2 : 0 < rho -> nonneg_dist dist -> can_steer rho ws ->
  unit_heading q1 -> unit_heading q2 -> apart rho q1 q2 ->
  exists ps q' d f, rs_steer dist rho ws q1 q2 = Ok ps /\ rs_dist dist rho ws q1 q2 = Ok d /\ ps <> [] /\
    linked q1 ps q' /\ close_place (5 / 67108864 * (rho + d)) (5 / 67108864) q' q2 /\
    (forall k, ~ In k (map w_rank ws) -> cj q' k = cj q1 k + f * (cj q2 k - cj q1 k)) /\
    0 < f <= 1 /\ (1 - f) * gap q1 q2 <= 5 / 67108864 * rho /\
    Forall (fun p => built p /\ p_t0 p = 0 /\ 0 < Rabs (p_cl p) <= p_t1 p /\
              (p_kappa p = 1 / rho \/ p_kappa p = 0 \/ p_kappa p = - (1 / rho)) /\
              wheel_values (p_kappa p) ws = Ok (p_wheels p)) ps.
Proof.
  intros Hr Hd Hw U1 U2 Ha. unfold rs_steer, rs_dist. set (extra := rs_extra dist ws q1 q2).
  assert (He : 0 <= extra) by apply Hd.
  destruct (path_spec rho ws extra q1 q2 Hr He Hw U1 U2 Ha) as [ps [q' [D [E [Ed [HD [Hg [Ht [Hp [Lk [Cl [J [F _]]]]]]]]]]]]].
  assert (Q : travel ps / D * D = travel ps) by (field; lra).
  exists ps, q', (D + extra), (travel ps / D). split; [exact E|]. split; [exact Ed|].
  split; [intros ->; unfold travel, total in Hp; cbn in Hp; lra|]. split; [exact Lk|].
  unfold precision in *. split.
  { destruct Cl as [X [Y [C S]]]. unfold close_place. split; [lra|]. split; [lra|]. split; lra. }
  split; [exact J|].
  assert (F1 : 0 < travel ps / D) by (apply Rdiv_lt_0_compat; assumption).
  assert (F2 : travel ps / D <= 1) by (apply (Rmult_le_reg_r D); lra).
  split; [lra|]. split.
  { apply (Rle_trans _ ((1 - travel ps / D) * D)); [apply Rmult_le_compat_l; lra|]. rewrite Rmult_minus_distr_r, Q. lra. }
  eapply Forall_impl; [|exact F]. intros p [B [T0 [T1 [G [K W]]]]]. split; [exact B|]. split; [exact T0|].
  split; [|split; [exact K | exact W]].
  assert (0 < Rabs (p_cl p)) by (unfold precision in G; assert (0 < rho * / 67108864) by (apply Rmult_lt_0_compat; lra); lra).
  split; [assumption|]. rewrite T1.
  assert (0 <= extra / D) by (apply Rmult_le_pos; [exact He | left; apply Rinv_0_lt_compat, HD]).
  assert (0 <= Rabs (p_cl p) * (extra / D)) by (apply Rmult_le_pos; lra). lra.
Qed.
(* The goal itself is reached when the length driven is the distance. *)
Theorem C82_exact dist rho ws q1 q2 ps : 0 < rho -> nonneg_dist dist -> can_steer rho ws ->
  unit_heading q1 -> unit_heading q2 -> apart rho q1 q2 -> rs_steer dist rho ws q1 q2 = Ok ps ->
  rs_dist dist rho ws q1 q2 = Ok (travel ps + rs_extra dist ws q1 q2) ->
  exists q', linked q1 ps q' /\ same_but (map w_rank ws) q' q2.
Proof.
  intros Hr Hd Hw U1 U2 Ha Es Edd. unfold rs_steer, rs_dist in *. set (extra := rs_extra dist ws q1 q2) in *.
  assert (He : 0 <= extra) by apply Hd.
  destruct (path_spec rho ws extra q1 q2 Hr He Hw U1 U2 Ha) as [ps' [q' [D [E [Ed [_ [_ [_ [_ [Lk [_ [_ [_ X]]]]]]]]]]]]].
  rewrite Es in E. injection E as <-. rewrite Edd in Ed. injection Ed as Ed. exists q'. split; [exact Lk | apply X; lra].
Qed.

(* The other degrees of freedom move in proportion to the length driven. *)
Theorem C82_other_joints dist rho ws q1 q2 ps d k : 0 < rho -> nonneg_dist dist -> can_steer rho ws ->
  unit_heading q1 -> unit_heading q2 -> apart rho q1 q2 -> ~ In k (map w_rank ws) ->
  rs_steer dist rho ws q1 q2 = Ok ps -> rs_dist dist rho ws q1 q2 = Ok d ->
  along (fun p => Rabs (p_cl p)) (fun s => cj q1 k + s / (d - rs_extra dist ws q1 q2) * (cj q2 k - cj q1 k)) k 0 ps.
Proof.
  intros Hr Hd Hw U1 U2 Ha Hk Es Ed. unfold rs_steer, rs_dist in *. set (extra := rs_extra dist ws q1 q2) in *.
  assert (He : 0 <= extra) by apply Hd.
  destruct (path_spec rho ws extra q1 q2 Hr He Hw U1 U2 Ha) as [_ [_ [D [_ [Ed' [HD _]]]]]].
  rewrite Ed in Ed'. injection Ed' as ->. replace (D + extra - extra) with D by ring.
  unfold rs_path, rs_distance in *. destruct (rs_params rho q1 q2) as [[[[x y] c] s] phi] eqn:E.
  rewrite (proj2 (near_apart rho q1 q2 x y c s phi Hr U1 U2 E) Ha) in Es, Ed.
  destruct (rs_search rho x y c s phi) as [[ty ls]|]; [|discriminate]. injection Ed as Ed.
  replace (rho * norm1 ls) with D in Es by lra.
  apply (rs_segments_along rho extra D ws q1 q2 Hr He HD k Hk _ _ _ _ _ Es). field. lra.
Qed.

Lemma near_path dist rho ws q1 q2 : 0 < rho -> nonneg_dist dist -> can_steer rho ws ->
  unit_heading q1 -> unit_heading q2 -> ~ apart rho q1 q2 ->
  exists p, rs_steer dist rho ws q1 q2 = Ok [p] /\ rs_dist dist rho ws q1 q2 = Ok (rs_extra dist ws q1 q2) /\
    p_init p = q1 /\ same_place (p_end p) q1 /\ p_cl p = 0 /\ p_t0 p = 0 /\ p_t1 p = rs_extra dist ws q1 q2 /\ built p.
Proof.
  intros Hr Hd Hw U1 U2 Ha. unfold rs_steer, rs_dist, rs_path, rs_distance. set (extra := rs_extra dist ws q1 q2).
  assert (He : 0 <= extra) by apply Hd.
  destruct (rs_params rho q1 q2) as [[[[x y] c] s] phi] eqn:E.
  destruct (near x y phi) eqn:N; [|exfalso; apply Ha, (near_apart rho q1 q2 x y c s phi Hr U1 U2 E), N].
  destruct (Hw 0) as [wv Ew]; [auto|]. rewrite Ew. cbn [bind].
  exists (cc_create q1 q2 0 extra 0 wv). split; [reflexivity|]. split; [reflexivity|]. split; [reflexivity|].
  split.
  { cbn [cc_create set_end p_end]. unfold cc_compute. cbn [p_kappa p_cl p_init]. destruct (reqb_spec 0 0); [|lra].
    rewrite !Rmult_0_r, !Rmult_0_l, cos_0, sin_0. unfold same_place. cbn. repeat split; ring. }
  split; [reflexivity|]. split; [reflexivity|].
  split; [cbn; apply Rabs_right; lra | apply built_create; exact U1].
Qed.
(* A goal in the immediate neighbourhood of the start is not reached: the
   path does not leave the position and heading of the start. *)
Theorem C82_near_refuted dist rho ws q1 q2 : 0 < rho -> nonneg_dist dist -> can_steer rho ws ->
  unit_heading q1 -> unit_heading q2 -> ~ apart rho q1 q2 -> ~ same_place q1 q2 ->
  exists ps q', rs_steer dist rho ws q1 q2 = Ok ps /\ linked q1 ps q' /\ same_place q' q1 /\ ~ same_place q' q2.
Proof.
  intros Hr Hd Hw U1 U2 Ha Np. destruct (near_path dist rho ws q1 q2 Hr Hd Hw U1 U2 Ha) as [p [E [_ [I [P _]]]]].
  exists [p], (p_end p). split; [exact E|]. split; [split; [exact I | reflexivity]|]. split; [exact P|].
  intros P2. apply Np. unfold same_place in *. destruct P as [<- [<- [<- <-]]]. exact P2.
Qed.

(* C83: the distance is the length driven plus the distance of the other
   degrees of freedom (up to the segments that are not kept), at least the
   distance between the positions; the parameter length of the path is in the
   same ratio. *)
Theorem C83_distance dist rho ws q1 q2 ps d : 0 < rho -> nonneg_dist dist -> can_steer rho ws ->
  unit_heading q1 -> unit_heading q2 ->
  rs_steer dist rho ws q1 q2 = Ok ps -> rs_dist dist rho ws q1 q2 = Ok d ->
  let extra := rs_extra dist ws q1 q2 in
  0 <= extra <= d /\ travel ps <= d - extra <= travel ps + 5 / 67108864 * rho /\
  total p_t1 ps <= d /\ (total p_t1 ps) * (d - extra) = travel ps * d /\
  (travel ps = d - extra -> total p_t1 ps = d) /\
  (apart rho q1 q2 -> gap q1 q2 <= d - extra /\ 0 < d - extra).
Proof.
  intros Hr Hd Hw U1 U2 Es Edd extra. assert (He : 0 <= extra) by apply Hd.
  destruct (rs_params rho q1 q2) as [[[[x y] c] s] phi] eqn:Ep.
  destruct (near x y phi) eqn:N.
  - assert (Na : ~ apart rho q1 q2) by (intros Ha; apply (near_apart rho q1 q2 x y c s phi Hr U1 U2 Ep) in Ha; congruence).
    destruct (near_path dist rho ws q1 q2 Hr Hd Hw U1 U2 Na) as [p [E [Ed [_ [_ [Cl [T0 [T1 _]]]]]]]].
    rewrite Es in E. injection E as ->. rewrite Edd in Ed. injection Ed as ->. fold extra in T1 |- *.
    unfold travel, total. cbn [fold_right]. rewrite Cl, T1, Rabs_R0. split; [lra|]. split; [lra|]. split; [lra|]. split; [ring|].
    split; [intros _; ring|]. intros Ha. contradiction.
  - assert (Ha : apart rho q1 q2) by (apply (near_apart rho q1 q2 x y c s phi Hr U1 U2 Ep), N).
    unfold rs_steer, rs_dist in *. fold extra in Es, Edd.
    destruct (path_spec rho ws extra q1 q2 Hr He Hw U1 U2 Ha) as [ps' [q' [D [E [Ed [HD [Hg [Ht [Hp [_ [_ [_ [F _]]]]]]]]]]]]].
    rewrite Es in E. injection E as <-. rewrite Edd in Ed. injection Ed as ->.
    assert (T : total p_t1 ps = travel ps * (1 + extra / D)).
    { clear - F. unfold travel, total. induction F as [|p ps [_ [_ [T1 _]]] _ IH]; cbn [fold_right]; [ring|]. rewrite IH, T1. ring. }
    assert (Hx : 0 <= extra / D) by (apply Rmult_le_pos; [exact He | left; apply Rinv_0_lt_compat, HD]).
    assert (Td : D * (1 + extra / D) = D + extra) by (field; lra).
    unfold precision in *. replace (D + extra - extra) with D by ring.
    split; [lra|]. split; [lra|]. split; [rewrite T, <- Td; apply Rmult_le_compat_r; lra|].
    split; [rewrite T; field; lra|]. split; [intros Q; rewrite T, Q; exact Td|]. intros _. split; lra.
Qed.
(* The distance between different configurations may be 0. *)
Theorem C83_separated_refuted dist rho ws q1 q2 : 0 < rho -> nonneg_dist dist -> can_steer rho ws ->
  unit_heading q1 -> unit_heading q2 -> ~ apart rho q1 q2 -> rs_extra dist ws q1 q2 = 0 ->
  rs_dist dist rho ws q1 q2 = Ok 0.
Proof.
  intros Hr Hd Hw U1 U2 Ha He. destruct (near_path dist rho ws q1 q2 Hr Hd Hw U1 U2 Ha) as [p [_ [E _]]]. rewrite E, He. reflexivity.
Qed.

(* With turning radius 1 the distance is at most the length of any path along
   one of the words of Reeds and Shepp.  Missing: paths along none of them
   (theorem of Reeds and Shepp: they are not shorter than the best word). *)
Theorem C83_shortest_partial dist ws q1 q2 d : nonneg_dist dist -> can_steer 1 ws ->
  unit_heading q1 -> unit_heading q2 -> apart 1 q1 q2 -> rs_dist dist 1 ws q1 q2 = Ok d ->
  forall ss ls, rs_word ss ls -> drives_word 1 ss ls q1 q2 ->
  d - rs_extra dist ws q1 q2 <= word_length ls.
Proof.
  intros Hd Hw U1 U2 Ha Ed ss ls W Dr. unfold rs_dist, rs_distance in Ed. set (extra := rs_extra dist ws q1 q2) in *.
  destruct (rs_params 1 q1 q2) as [[[[x y] c] s] phi] eqn:E.
  rewrite (proj2 (near_apart 1 q1 q2 x y c s phi Rlt_0_1 U1 U2 E) Ha) in Ed.
  destruct (params_eq 1 q1 q2 x y c s phi U1 U2 E) as [_ [_ [-> [-> _]]]].
  assert (Len : length ls = length ss) by (clear - W; induction W; try reflexivity; rewrite map_length; exact IHW).
  assert (M : map (Rmult 1) ls = ls).
  { rewrite <- (map_id ls) at 2. apply map_ext. intros a. ring. }
  rewrite <- M in Dr. apply (word_place 1 Rlt_0_1 ss ls q1 (ang q1) q2 Len (ang_at q1 U1)) in Dr.
  apply (ends_goal 1 q1 q2 x y _ _ phi Rlt_0_1 U1 U2 E) in Dr.
  destruct (word_found x y phi ss ls W ls (or_introl eq_refl) Dr) as [ty [l [C N]]].
  destruct (search_least x y phi ty l C) as [ty0 [l0 [E0 L0]]]. rewrite E0 in Ed. injection Ed as <-. lra.
Qed.

(* With another turning radius it is not: 10 ahead, with turning radius 2. *)
Definition q_10 : cfg := {| cx := 10; cy := 0; cc := 1; cs := 0; cj := fun _ => 0 |}.
Lemma base_pos : LpRmSLmRp 5 0 1 0 0 = Some (PI / 2, -1, PI / 2).
Proof.
  unfold LpRmSLmRp, polar_r. cbv zeta.
  replace ((5 + 0) * (5 + 0) + (0 - 1 - 1) * (0 - 1 - 1)) with 29 by ring. rewrite sqrt_sqrt by lra.
  destruct (rleb_spec 2 (sqrt 29)) as [_|G].
  2:{ exfalso. apply G. rewrite <- (sqrt_square 2) by lra. apply sqrt_le_1; lra. }
  replace (29 - 4) with (5 * 5) by ring. rewrite sqrt_square by lra.
  unfold nonpos. destruct (rleb_spec (4 - 5) zero_eps) as [_|G]; [|unfold zero_eps in G; lra].
  replace ((4 - (4 - 5)) * (5 + 0) - 2 * (0 - 1 - 1)) with 29 by ring.
  replace (-2 * (5 + 0) + (4 - 5 - 4) * (0 - 1 - 1)) with 0 by ring.
  assert (At : atan2 29 0 = PI / 2).
  { unfold atan2. destruct (rltb_spec 0 0); [lra|]. destruct (rltb_spec 0 29); [reflexivity | lra]. }
  rewrite At. pose proof PI_RGT_0. rewrite (rmod_id (PI / 2)) by lra. rewrite Rminus_0_r, (rmod_id (PI / 2)) by lra.
  rewrite nonneg_ok by lra. replace (4 - 5) with (-1) by ring. reflexivity.
Qed.
Lemma base_neg : LpRmSLmRp (-5) 0 1 0 0 = None.
Proof.
  unfold LpRmSLmRp, polar_r. cbv zeta.
  replace ((-5 + 0) * (-5 + 0) + (0 - 1 - 1) * (0 - 1 - 1)) with 29 by ring. rewrite sqrt_sqrt by lra.
  destruct (rleb_spec 2 (sqrt 29)) as [_|G].
  2:{ exfalso. apply G. rewrite <- (sqrt_square 2) by lra. apply sqrt_le_1; lra. }
  replace (29 - 4) with (5 * 5) by ring. rewrite sqrt_square by lra.
  unfold nonpos. destruct (rleb_spec (4 - 5) zero_eps) as [_|G]; [|unfold zero_eps in G; lra].
  replace ((4 - (4 - 5)) * (-5 + 0) - 2 * (0 - 1 - 1)) with (-21) by ring.
  replace (-2 * (-5 + 0) + (4 - 5 - 4) * (0 - 1 - 1)) with 20 by ring.
  assert (At : - (PI / 2) < atan2 (-21) 20 < - (PI / 4)).
  { unfold atan2. destruct (rltb_spec 0 20); [|lra]. split; [pose proof (atan_bound (-21 / 20)); lra|].
    rewrite <- atan_1, <- atan_opp. apply atan_increasing. lra. }
  pose proof PI_RGT_0. pose proof PI2_1.
  assert (Rm : rmod2pi (atan2 (-21) 20) = atan2 (-21) 20) by (apply rmod_is; [apply eqm_refl | lra]).
  rewrite Rm. unfold nonneg. destruct (rleb_spec (- zero_eps) (atan2 (-21) 20)) as [G|_]; [unfold zero_eps in G; lra|]. reflexivity.
Qed.
Definition four_families (rho x y c s phi : R) : data :=
  family rho (/ 2 * PI) (CCSC x y c s phi) (family rho 0 (CCCC x y c s phi) (family rho 0 (CCC x y c s phi) (family rho 0 (CSC x y c s phi) None))).
Lemma four_candidate rho x y phi ty l : four_families rho x y (cos phi) (sin phi) phi = Some (ty, l) -> candidate x y phi ty l.
Proof.
  unfold four_families, family. intros E4.
  apply pick_in in E4. destruct E4 as [E4|[L E4]]; [|exists L, (/ 2 * PI); apply in_CCSC, E4].
  apply pick_in in E4. destruct E4 as [E4|[L E4]]; [|exists L, 0; apply in_CCCC, E4].
  apply pick_in in E4. destruct E4 as [E4|[L E4]]; [|exists L, 0; apply in_CCC, E4].
  apply pick_in in E4. destruct E4 as [E4|[L E4]]; [discriminate|exists L, 0; apply in_CSC, E4].
Qed.
Lemma four_norm rho x phi ty l : 0 <= x -> four_families rho x 0 (cos phi) (sin phi) phi = Some (ty, l) -> x <= norm1 l.
Proof.
  intros Hx E4. apply four_candidate in E4. destruct E4 as [L [e I]]. destruct (cands_good x 0 phi ty l L e I) as [[EX [EY _]] _].
  pose proof (word_euclid (segs (rs_types ty)) l 0) as W. rewrite EX, EY in W.
  replace (x * x + 0 * 0) with (x * x) in W by ring. rewrite sqrt_square in W by exact Hx. exact W.
Qed.
Lemma last_family d : (forall ty l, d = Some (ty, l) -> 5 <= norm1 l) ->
  family 2 PI (CCSCC 5 0 1 0 0) d = Some (16%nat, [PI / 2; - / 2 * PI; -1; - / 2 * PI; PI / 2]).
Proof.
  intros H4. pose proof PI2_1. pose proof PI_4. unfold family.
  assert (Ab : above (match rs_length 2 d with None => None | Some m => Some (m - PI) end) (cost1 (PI / 2) (-1) (PI / 2)) = true).
  { unfold cost1. rewrite (Rabs_right (PI / 2)), (Rabs_left (-1)) by lra. destruct d as [[ty l]|]; [|reflexivity].
    cbn [rs_length above]. pose proof (H4 ty l eq_refl). destruct (rltb_spec (PI / 2 + - -1 + PI / 2) (2 * norm1 l - PI)); [reflexivity | lra]. }
  unfold CCSCC, four. replace (- (5)) with (-5) by ring. rewrite !Ropp_0, base_pos, base_neg. cbn [mk pick].
  rewrite Ab. cbn [above]. destruct (rltb_spec (cost1 (PI / 2) (-1) (PI / 2)) (cost1 (PI / 2) (-1) (PI / 2))); [lra | reflexivity].
Qed.
Lemma search_5 : rs_search 2 5 0 1 0 0 = Some (16%nat, [PI / 2; - / 2 * PI; -1; - / 2 * PI; PI / 2]).
Proof.
  change (rs_search 2 5 0 1 0 0) with (family 2 PI (CCSCC 5 0 1 0 0) (four_families 2 5 0 1 0 0)).
  apply last_family. intros ty l E. apply (four_norm 2 5 0 ty l); [lra|]. rewrite cos_0, sin_0. exact E.
Qed.
Lemma params_10 : rs_params 2 q_0 q_10 = (5, 0, 1, 0, 0).
Proof.
  unfold rs_params, rotate. cbn [cx cy cc cs q_0 q_10].
  replace (1 * 1 + 0 * 0) with 1 by ring. replace (- (1) * 0 + 0 * 1) with 0 by ring.
  assert (At : atan2 0 1 = 0) by (unfold atan2; destruct (rltb_spec 0 1); [|lra]; replace (0 / 1) with 0 by field; apply atan_0).
  rewrite At. f_equal. f_equal. f_equal. f_equal; field.
Qed.
Theorem C83_shortest_refuted :
  rs_dist (fun _ _ => 0) 2 [] q_0 q_10 = Ok (2 * (2 * PI + 1)) /\ 10 < 2 * (2 * PI + 1) /\
  drives_word 2 [L_SEG; S_SEG; L_SEG] [0; 10; 0] q_0 q_10.
Proof.
  pose proof PI2_1.
  split; [|split; [lra|]].
  - unfold rs_dist, rs_distance. rewrite params_10, search_5.
    unfold near. destruct (rltb_spec (5 * 5 + 0 * 0 + 0 * 0) (/ 100000000)); [lra|].
    cbn [norm1 fold_right]. rewrite (Rabs_right (PI / 2)), (Rabs_left (-1)), (Rabs_left (- / 2 * PI)) by lra.
    unfold rs_extra. f_equal. field.
  - cbn [drives_word]. exists q_0. split; [apply drives_arc, arc_0|]. exists q_10. split.
    + apply drives_arc. unfold arc, arc_x, arc_y, arc_c, arc_s. destruct (reqb_spec 0 0); [|lra].
      rewrite Rmult_0_l, cos_0, sin_0. cbn. repeat split; ring.
    + exists q_10. split; [apply drives_arc, arc_0 | apply place_refl].
Qed.

(* parallel parking: one length of the turning radius to the side *)
Definition q_side : cfg := {| cx := 0; cy := 1; cc := 1; cs := 0; cj := fun _ => 3 |}.
Lemma front_steer1 : can_steer 1 [front].
Proof.
  intros k Hk. cbn [wheel_values]. unfold wheel_value. destruct (reqb_spec k 0) as [Z|N]; cbn [bind]; [eauto|].
  unfold atan_quot. destruct (reqb _ _); cbn [bind]; [|eauto]. destruct (rltb_spec 0 (w_x front)) as [_|G]; [cbn [bind]; eauto|].
  cbn in G. lra.
Qed.
Lemma far rho q q' : 0 < rho -> rho <= gap q q' -> apart rho q q'.
Proof.
  intros Hr Hg a a' _ _ _ _. assert (1 <= gap q q' / rho).
  { apply (Rmult_le_reg_r rho); [exact Hr|]. replace (gap q q' / rho * rho) with (gap q q') by (field; lra). lra. }
  assert (1 <= (gap q q' / rho) ^ 2) by (apply pow_R1_Rle; assumption). pose proof (pow2_ge_0 (a' - a)). lra.
Qed.
Lemma gap_side : gap q_0 q_side = 1.
Proof. unfold gap. cbn. replace ((0 - 0) * (0 - 0) + (1 - 0) * (1 - 0)) with 1 by ring. apply sqrt_1. Qed.
Lemma U_0 : unit_heading q_0. Proof. unfold unit_heading; cbn; ring. Qed.
Lemma U_side : unit_heading q_side. Proof. unfold unit_heading; cbn; ring. Qed.
Lemma nd_1 : nonneg_dist (fun _ _ => 1). Proof. intros a b. lra. Qed.
Lemma apart_side : apart 1 q_0 q_side.
Proof. apply far; [lra | rewrite gap_side; lra]. Qed.
Example C82_example : exists ps q' d f, rs_steer (fun _ _ => 1) 1 [front] q_0 q_side = Ok ps /\
  rs_dist (fun _ _ => 1) 1 [front] q_0 q_side = Ok d /\ linked q_0 ps q' /\
  close_place (5 / 67108864 * (1 + d)) (5 / 67108864) q' q_side /\ cj q' 1%nat = 3 * f /\ 1 - 5 / 67108864 <= f <= 1 /\ 2 <= d.
Proof.
  destruct (C82_reaches (fun _ _ => 1) 1 [front] q_0 q_side Rlt_0_1 nd_1 front_steer1 U_0 U_side apart_side)
    as [ps [q' [d [f [E [Ed [_ [Lk [C [J [Bf [G _]]]]]]]]]]]].
  exists ps, q', d, f. split; [exact E|]. split; [exact Ed|]. split; [exact Lk|]. split; [exact C|].
  split; [rewrite J; [cbn; ring | cbn; lia]|]. rewrite gap_side in G. split; [lra|].
  destruct (C83_distance (fun _ _ => 1) 1 [front] q_0 q_side ps d Rlt_0_1 nd_1 front_steer1 U_0 U_side E Ed) as [_ [_ [_ [_ [_ K]]]]].
  destruct (K apart_side) as [K1 _]. rewrite gap_side in K1. unfold rs_extra in K1. lra.
Qed.
(* five ahead: the word is a straight line; five behind: it is driven backward *)
Lemma ahead (l : R) (q : cfg) : q = {| cx := l; cy := 0; cc := 1; cs := 0; cj := fun _ => 3 |} ->
  drives_word 1 [L_SEG; S_SEG; R_SEG] [0; l; 0] q_0 q.
Proof.
  intros ->. cbn [drives_word]. exists q_0. split; [apply drives_arc, arc_0|].
  exists {| cx := l; cy := 0; cc := 1; cs := 0; cj := fun _ => 3 |}. split.
  - apply drives_arc. unfold arc, arc_x, arc_y, arc_c, arc_s. destruct (reqb_spec 0 0); [|lra].
    rewrite Rmult_0_l, cos_0, sin_0. cbn. repeat split; ring.
  - eexists. split; [apply drives_arc, arc_0 | apply place_refl].
Qed.
Definition q_back : cfg := {| cx := -5; cy := 0; cc := 1; cs := 0; cj := fun _ => 3 |}.
Lemma gap_back : gap q_0 q_back = 5.
Proof. unfold gap. cbn. replace ((-5 - 0) * (-5 - 0) + (0 - 0) * (0 - 0)) with (5 * 5) by ring. apply sqrt_square. lra. Qed.
Example C83_example : rs_dist (fun _ _ => 1) 1 [front] q_0 q_back = Ok 6.
Proof.
  assert (Ub : unit_heading q_back) by (unfold unit_heading; cbn; ring).
  assert (Ab : apart 1 q_0 q_back) by (apply far; [lra | rewrite gap_back; lra]).
  destruct (C82_reaches (fun _ _ => 1) 1 [front] q_0 q_back Rlt_0_1 nd_1 front_steer1 U_0 Ub Ab) as [ps [q' [d [f [E [Ed _]]]]]].
  rewrite Ed. f_equal.
  destruct (C83_distance (fun _ _ => 1) 1 [front] q_0 q_back ps d Rlt_0_1 nd_1 front_steer1 U_0 Ub E Ed) as [_ [_ [_ [_ [_ K]]]]].
  destruct (K Ab) as [K1 _]. rewrite gap_back in K1. unfold rs_extra in K1.
  pose proof (C83_shortest_partial (fun _ _ => 1) [front] q_0 q_back d nd_1 front_steer1 U_0 Ub Ab Ed [L_SEG; S_SEG; R_SEG] [0; -5; 0]) as M.
  unfold rs_extra, word_length in M. cbn [fold_right] in M. rewrite Rabs_R0, (Rabs_left (-5)) in M by lra.
  enough (d - 1 <= 0 + (- -5 + (0 + 0))) by lra. apply M; [|apply ahead; reflexivity]. pose proof PI_RGT_0.
  assert (W : rs_word [L_SEG; S_SEG; R_SEG] (map Ropp [0; 5; 0])) by (apply word_reverse, word_CSC; try discriminate; lra).
  cbn [map] in W. rewrite Ropp_0 in W. replace (- (5)) with (-5) in W by ring. exact W.
Qed.

Definition q_near : cfg := {| cx := / 100000; cy := 0; cc := 1; cs := 0; cj := fun _ => 0 |}.
Lemma near_not : ~ apart 1 q_0 q_near.
Proof.
  intros H. specialize (H 0 0). cbn [cc cs q_0 q_near] in H. rewrite cos_0, sin_0 in H. specialize (H eq_refl eq_refl eq_refl eq_refl).
  assert (G : gap q_0 q_near = / 100000).
  { unfold gap. cbn [cx cy q_0 q_near]. replace ((/ 100000 - 0) * (/ 100000 - 0) + (0 - 0) * (0 - 0)) with (/ 100000 * / 100000) by ring.
    apply sqrt_square. lra. }
  rewrite G in H. replace ((/ 100000 / 1) ^ 2 + (0 - 0) ^ 2) with (/ 100000 * / 100000) in H by field. lra.
Qed.
Example C82_near_example : exists ps q', rs_steer (fun _ _ => 0) 1 [front] q_0 q_near = Ok ps /\ linked q_0 ps q' /\ ~ same_place q' q_near /\
  rs_dist (fun _ _ => 0) 1 [front] q_0 q_near = Ok 0.
Proof.
  assert (Nd : nonneg_dist (fun _ _ => 0)) by (intros a b; lra).
  assert (Un : unit_heading q_near) by (unfold unit_heading; cbn; ring).
  assert (Np : ~ same_place q_0 q_near) by (intros [X _]; cbn in X; lra).
  destruct (C82_near_refuted (fun _ _ => 0) 1 [front] q_0 q_near Rlt_0_1 Nd front_steer1 U_0 Un near_not Np) as [ps [q' [E [Lk [_ N]]]]].
  exists ps, q'. split; [exact E|]. split; [exact Lk|]. split; [exact N|].
  exact (C83_separated_refuted (fun _ _ => 0) 1 [front] q_0 q_near Rlt_0_1 Nd front_steer1 U_0 Un near_not eq_refl).
Qed.

Print Assumptions C82_reaches.
Print Assumptions C82_exact.
Print Assumptions C82_other_joints.
Print Assumptions C82_near_refuted.
Print Assumptions C83_distance.
Print Assumptions C83_separated_refuted.
Print Assumptions C83_shortest_partial.
Print Assumptions C83_shortest_refuted.
