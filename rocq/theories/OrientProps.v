(* C90: along an oriented kinodynamic path the robot faces its velocity. *)
From Coq Require Import Reals List Bool Lra Lia.
From Verif Require Import Base XReal PolyProofs KinoModel KinoSpec KinoProofs KinoProofs2 KinoProps OrientModel OrientSpec.
Import ListNotations.
Open Scope R_scope.

Lemma norm3_sq v : norm3 v * norm3 v = X v * X v + Y v * Y v + Z v * Z v.
Proof. unfold norm3. apply sqrt_sqrt. nra. Qed.
Lemma norm3_pos v : 0 <= norm3 v.
Proof. apply sqrt_pos. Qed.

Section S.
Variable svd : vec3 -> vec3.
Variable interp : quat -> quat -> R -> quat.
Hypothesis Hsvd : orthogonal_axis svd.

(* direction of a vector *)
Definition dir (v : vec3) : vec3 := V3 (X v / norm3 v) (Y v / norm3 v) (Z v / norm3 v).
Lemma dir_unit v : 0 < norm3 v -> X (dir v) * X (dir v) + Y (dir v) * Y (dir v) + Z (dir v) * Z (dir v) = 1.
Proof.
  intros H. unfold dir. cbn. pose proof (norm3_sq v) as S.
  replace (X v / norm3 v * (X v / norm3 v) + Y v / norm3 v * (Y v / norm3 v) + Z v / norm3 v * (Z v / norm3 v))
    with ((X v * X v + Y v * Y v + Z v * Z v) / (norm3 v * norm3 v)) by (field; lra).
  rewrite S. field. rewrite <- S. nra.
Qed.
Lemma dir_direction v : 0 < norm3 v -> has_direction v (dir v).
Proof. intros H. unfold has_direction, dir. cbn. repeat split; try exact H; field; lra. Qed.

Lemma regular_case v : 0 < norm3 v -> -1 + precision <= X (dir v) ->
  unit (from_two svd v) /\ forward (from_two svd v) = dir v /\ qx (from_two svd v) = 0 /\ (Z v = 0 -> qy (from_two svd v) = 0).
Proof.
  intros Hn Hc. pose proof (dir_unit v Hn) as U. unfold from_two. cbv zeta. change (X (V3 (X v / norm3 v) (Y v / norm3 v) (Z v / norm3 v))) with (X (dir v)).
  destruct (rltb_spec (X (dir v)) (-1 + precision)); [lra|].
  change (Z (V3 (X v / norm3 v) (Y v / norm3 v) (Z v / norm3 v))) with (Z (dir v)). change (Y (V3 (X v / norm3 v) (Y v / norm3 v) (Z v / norm3 v))) with (Y (dir v)).
  set (x := X (dir v)) in *. set (y := Y (dir v)) in *. set (z := Z (dir v)) in *.
  assert (Hp : 0 < precision) by (unfold precision; lra).
  set (s := sqrt ((1 + x) * 2)). assert (S2 : s * s = (1 + x) * 2) by (apply sqrt_sqrt; lra). assert (Hs : 0 < s) by (apply sqrt_lt_R0; lra).
  split; [|split; [|split]].
  - unfold unit. cbn [qx qy qz qw]. clearbody s.
    assert (E : 0 / s * (0 / s) + - z / s * (- z / s) + y / s * (y / s) + s * / 2 * (s * / 2) = (y * y + z * z) / (s * s) + s * s / 4) by (field; lra).
    rewrite E, S2. replace (y * y + z * z) with ((1 + x) * (1 - x)) by lra. field. lra.
  - unfold forward. cbn [qx qy qz qw]. replace (dir v) with (V3 x y z) by (unfold x, y, z; destruct (dir v); reflexivity). f_equal.
    + replace (- z / s * (- z / s) + y / s * (y / s)) with ((y * y + z * z) / (s * s)) by (field; lra). rewrite S2.
      replace (y * y + z * z) with ((1 + x) * (1 - x)) by lra. field. lra.
    + field. lra.
    + field. lra.
  - cbn. unfold Rdiv. ring.
  - intros Z0. cbn. unfold z, dir. cbn. rewrite Z0. unfold Rdiv. ring.
Qed.
Lemma singular_case v : 0 < norm3 v -> X (dir v) < -1 + precision ->
  unit (from_two svd v) /\ within (3 / 1000000) (forward (from_two svd v)) (dir v) /\ (X (dir v) = -1 -> forward (from_two svd v) = dir v).
Proof.
  intros Hn Hc. pose proof (dir_unit v Hn) as U. unfold from_two. cbv zeta. change (V3 (X v / norm3 v) (Y v / norm3 v) (Z v / norm3 v)) with (dir v).
  destruct (rltb_spec (X (dir v)) (-1 + precision)); [|lra]. destruct (Hsvd (dir v)) as [A0 [A1 A2]].
  set (a := svd (dir v)) in *. set (x := X (dir v)) in *. set (y := Y (dir v)) in *. set (z := Z (dir v)) in *.
  assert (Hx : -1 <= x) by nra. assert (Hp : 0 < precision < / 1000) by (unfold precision; lra).
  rewrite Rmax_left by exact Hx. set (w := sqrt ((1 + x) * / 2)). set (s := sqrt (1 - (1 + x) * / 2)).
  assert (W2 : w * w = (1 + x) * / 2) by (apply sqrt_sqrt; lra). assert (S2 : s * s = 1 - (1 + x) * / 2) by (apply sqrt_sqrt; lra).
  assert (Fw : forward (Q (X a * s) (Y a * s) (Z a * s) w) = V3 x (2 * (Z a * s * w)) (- 2 * (Y a * s * w))).
  { unfold forward. cbn [qx qy qz qw]. rewrite A0. f_equal; [|ring|ring].
    replace (Y a * s * (Y a * s) + Z a * s * (Z a * s)) with ((Y a * Y a + Z a * Z a) * (s * s)) by ring. rewrite A2, S2. field. }
  split; [|split].
  - unfold unit. cbn. rewrite A0, W2.
    replace (0 * s * (0 * s) + Y a * s * (Y a * s) + Z a * s * (Z a * s) + (1 + x) * / 2) with ((Y a * Y a + Z a * Z a) * (s * s) + (1 + x) * / 2) by ring.
    rewrite A2, S2. ring.
  - rewrite Fw. unfold within. cbn [X Y Z]. fold x y z. unfold norm3. cbn [X Y Z].
    set (p := 2 * (Z a * s * w)). set (q := - 2 * (Y a * s * w)).
    assert (PQ : p * p + q * q = 1 - x * x).
    { unfold p, q. replace (2 * (Z a * s * w) * (2 * (Z a * s * w)) + -2 * (Y a * s * w) * (-2 * (Y a * s * w))) with (4 * (Y a * Y a + Z a * Z a) * (s * s) * (w * w)) by ring.
      rewrite A2, S2, W2. field. }
    assert (YZ : y * y + z * z = 1 - x * x) by lra.
    assert (Sm : 1 - x * x <= 2 * precision) by nra.
    rewrite <- (sqrt_Rsqr (3 / 1000000)) by lra. apply sqrt_le_1_alt. unfold Rsqr.
    clearbody p q y z. pose proof (Rle_0_sqr (p + y)) as Q1. pose proof (Rle_0_sqr (q + z)) as Q2. unfold Rsqr in Q1, Q2.
    assert (8 * precision <= 3 / 1000000 * (3 / 1000000)) by (unfold precision; lra).
    replace ((x - x) * (x - x) + (p - y) * (p - y) + (q - z) * (q - z)) with (2 * (p * p + q * q) + 2 * (y * y + z * z) - ((p + y) * (p + y) + (q + z) * (q + z))) by ring.
    rewrite PQ, YZ. lra.
  - intros X1. rewrite Fw. assert (W0 : w = 0) by (unfold w; rewrite X1; replace ((1 + -1) * / 2) with 0 by ring; apply sqrt_0).
    rewrite W0. replace (dir v) with (V3 x y z) by (unfold x, y, z; destruct (dir v); reflexivity).
    assert (YZ : y * y + z * z = 0) by (rewrite X1 in U; lra). clearbody y z.
    pose proof (Rle_0_sqr y) as Q1. pose proof (Rle_0_sqr z) as Q2. unfold Rsqr in Q1, Q2.
    assert (y = 0) as -> by (apply Rsqr_0_uniq; unfold Rsqr; lra). assert (z = 0) as -> by (apply Rsqr_0_uniq; unfold Rsqr; lra).
    f_equal; ring.
Qed.
Lemma faces v : 0 < norm3 v -> unit (from_two svd v) /\
  within (3 / 1000000) (forward (from_two svd v)) (dir v) /\
  (X (dir v) = -1 \/ -1 + precision <= X (dir v) -> forward (from_two svd v) = dir v).
Proof.
  intros Hn. destruct (Rlt_le_dec (X (dir v)) (-1 + precision)) as [H|H].
  - destruct (singular_case v Hn H) as [A [B C]]. split; [exact A|]. split; [exact B|]. intros [E|E]; [exact (C E) | lra].
  - destruct (regular_case v Hn H) as [A [B _]]. split; [exact A|]. split; [|auto]. rewrite B. unfold within, norm3. cbn [X Y Z].
    replace ((X (dir v) - X (dir v)) * (X (dir v) - X (dir v)) + (Y (dir v) - Y (dir v)) * (Y (dir v) - Y (dir v)) + (Z (dir v) - Z (dir v)) * (Z (dir v) - Z (dir v))) with 0 by ring.
    rewrite sqrt_0. lra.
Qed.
Lemma moves_velocity b q v : moves b q v -> velocity b q = v.
Proof. unfold moves, velocity. destruct (trans q) as [|s1 [|s2 [|s3 [|]]]]; try contradiction. intros ->. reflexivity. Qed.

(* Wherever it moves, the robot faces its velocity; the translations and the
   other joints are those of the kinodynamic path. *)
Theorem C90_faces p t v : moves (o_ignoreZ p) (kcompute (o_path p) t) v -> 0 < norm3 v ->
  fst (ocompute svd interp p t) = kcompute (o_path p) t /\
  unit (snd (ocompute svd interp p t)) /\
  exists d, has_direction v d /\
    within (3 / 1000000) (forward (snd (ocompute svd interp p t))) d /\
    (X d = -1 \/ -1 + / 1000000000000 <= X d -> forward (snd (ocompute svd interp p t)) = d).
Proof.
  intros M Hv. split; [reflexivity|]. unfold ocompute, orient. cbn [snd]. rewrite (moves_velocity _ _ _ M).
  destruct (rltb_spec 0 (norm3 v)); [|contradiction]. destruct (faces v Hv) as [U [W E]]. split; [exact U|].
  exists (dir v). split; [exact (dir_direction v Hv)|]. split; [exact W | exact E].
Qed.

(* With the vertical velocity ignored the robot stays upright, unless its
   velocity is opposite to UnitX. *)
Theorem C90_upright_partial p t v d : o_ignoreZ p = true ->
  moves true (kcompute (o_path p) t) v -> has_direction v d -> -1 + / 1000000000000 <= X d ->
  upward (snd (ocompute svd interp p t)) = V3 0 0 1.
Proof.
  intros Hz M [Hv [Dx _]] Hd. unfold ocompute, orient. cbn [snd]. rewrite Hz, (moves_velocity _ _ _ M).
  destruct (rltb_spec 0 (norm3 v)); [|contradiction].
  assert (E : X (dir v) = X d) by (unfold dir; cbn; rewrite Dx; field; lra).
  destruct (regular_case v Hv) as [U [_ [Q0 Q1]]]; [rewrite E; exact Hd|].
  assert (Z0 : Z v = 0) by (unfold moves in M; destruct (trans _) as [|s1 [|s2 [|s3 [|]]]]; try contradiction; rewrite M; reflexivity).
  specialize (Q1 Z0). unfold upward. rewrite Q0, Q1. f_equal; ring.
Qed.

(* Where it does not move, the orientation is interpolated between the ends. *)
Theorem C90_still p t v : moves (o_ignoreZ p) (kcompute (o_path p) t) v -> norm3 v = 0 -> 0 < t < klen (o_path p) ->
  snd (ocompute svd interp p t) = interp (o_q0 p) (o_q1 p) (t / klen (o_path p)).
Proof.
  intros M Hv Ht. unfold ocompute, orient. cbn [snd]. rewrite (moves_velocity _ _ _ M), Hv.
  destruct (rltb_spec 0 0); [lra|]. unfold base_orientation. destruct (reqb_spec t 0); [lra|]. destruct (reqb_spec (klen (o_path p)) 0); [lra|].
  destruct (reqb_spec t (klen (o_path p))); [lra | reflexivity].
Qed.

(* A path, when it is built or copied, begins and ends with its initial and
   final configurations. *)
Lemma orient_twice b q r : orient svd b q (orient svd b q r) = orient svd b q r.
Proof. unfold orient. destruct (rltb 0 (norm3 (velocity b q))); reflexivity. Qed.
Theorem C90_ends p q0 q1 b : 0 < klen p ->
  let o := ocreate svd p q0 q1 b in
  ocompute svd interp o 0 = (kinit p, o_q0 o) /\ ocompute svd interp o (klen p) = (kend p, o_q1 o) /\ ocopy svd o = o /\
  (forall v, moves b (kinit p) v -> norm3 v = 0 -> o_q0 o = q0) /\ (forall v, moves b (kend p) v -> norm3 v = 0 -> o_q1 o = q1).
Proof.
  intros HL o. unfold ocompute, base_orientation, kcompute. subst o. cbn [ocreate o_path o_q0 o_q1 o_ignoreZ].
  destruct (reqb_spec 0 0); [|contradiction]. cbn [orb]. destruct (reqb_spec (klen p) 0); [lra|]. destruct (reqb_spec (klen p) (klen p)); [|contradiction]. cbn [orb].
  rewrite !orient_twice. split; [reflexivity|]. split; [reflexivity|]. split; [unfold ocopy; cbn [ocreate o_path o_q0 o_q1 o_ignoreZ]; unfold ocreate; rewrite !orient_twice; reflexivity|].
  split; intros v M Hv; unfold orient; rewrite (moves_velocity _ _ _ M), Hv; (destruct (rltb_spec 0 0); [lra | reflexivity]).
Qed.

(* A part of a path has the same motion, the same orientation at its ends and
   wherever it moves. *)
Lemma velocity_same b q q' : map v_ (trans q) = map v_ (trans q') -> velocity b q = velocity b q'.
Proof.
  intros E. unfold velocity. assert (N : forall i, v_ (nth i (trans q) (mkSt 0 0 0)) = v_ (nth i (trans q') (mkSt 0 0 0))).
  { intros i. rewrite <- (map_nth v_ (trans q)), <- (map_nth v_ (trans q')), E. reflexivity. }
  rewrite !N. reflexivity.
Qed.
Lemma orient_velocity b q q' r : velocity b q = velocity b q' -> orient svd b q r = orient svd b q' r.
Proof. intros E. unfold orient. rewrite E. reflexivity. Qed.
Lemma created_ends r q0 q1 b c0 c1 : 0 < klen r -> velocity b (kcompute r 0) = velocity b c0 -> velocity b (kcompute r (klen r)) = velocity b c1 ->
  snd (ocompute svd interp (ocreate svd r (orient svd b c0 q0) (orient svd b c1 q1) b) 0) = orient svd b c0 q0 /\
  snd (ocompute svd interp (ocreate svd r (orient svd b c0 q0) (orient svd b c1 q1) b) (klen r)) = orient svd b c1 q1.
Proof.
  intros HL V0 V1. destruct (C90_ends r (orient svd b c0 q0) (orient svd b c1 q1) b HL) as [E0 [E1 _]]. cbv zeta in *. rewrite E0, E1. cbn [snd ocreate o_q0 o_q1].
  assert (K0 : kcompute r 0 = kinit r) by (unfold kcompute; destruct (reqb_spec 0 0); [reflexivity|contradiction]).
  assert (K1 : kcompute r (klen r) = kend r).
  { unfold kcompute. destruct (reqb_spec (klen r) 0); [lra|]. destruct (reqb_spec (klen r) (klen r)); [reflexivity|contradiction]. }
  rewrite K0 in V0. rewrite K1 in V1. rewrite (orient_velocity b _ _ _ V0), (orient_velocity b _ _ _ V1), !orient_twice. auto.
Qed.
Theorem C90_extract p a b : path_ok (o_path p) -> 0 <= a -> a < b -> b <= klen (o_path p) ->
  exists r, oextract svd interp p a b = Some r /\ klen (o_path r) = b - a /\
    snd (ocompute svd interp r 0) = snd (ocompute svd interp p a) /\ snd (ocompute svd interp r (b - a)) = snd (ocompute svd interp p b) /\
    forall t, 0 <= t <= b - a ->
      same_motion (fst (ocompute svd interp r t)) (fst (ocompute svd interp p (a + t))) /\
      forall v, moves (o_ignoreZ p) (kcompute (o_path p) (a + t)) v -> 0 < norm3 v ->
        snd (ocompute svd interp r t) = snd (ocompute svd interp p (a + t)).
Proof.
  intros P Ha Hab Hb. destruct (C43_extract_keeps_motion (o_path p) a b P Ha ltac:(lra) Hb) as [Len [_ Mot]].
  assert (G : forall r, o_ignoreZ r = o_ignoreZ p ->
    (forall t, 0 <= t <= b - a -> same_motion (kcompute (o_path r) t) (kcompute (o_path p) (a + t))) ->
    forall t, 0 <= t <= b - a ->
      same_motion (fst (ocompute svd interp r t)) (fst (ocompute svd interp p (a + t))) /\
      forall v, moves (o_ignoreZ p) (kcompute (o_path p) (a + t)) v -> 0 < norm3 v ->
        snd (ocompute svd interp r t) = snd (ocompute svd interp p (a + t))).
  { intros r Ez K t Ht. split; [exact (K t Ht)|]. intros v M Hv. unfold ocompute, orient. cbn [snd]. rewrite Ez.
    destruct (K t Ht) as [_ [Ev _]]. rewrite (velocity_same (o_ignoreZ p) _ _ Ev), (moves_velocity _ _ _ M).
    destruct (rltb_spec 0 (norm3 v)); [reflexivity | contradiction]. }
  unfold oextract. destruct (kextract (o_path p) a b) as [|q|r|] eqn:E.
  - eexists. split; [reflexivity|]. split; [exact Len|].
    assert (AB : a = 0 /\ b = klen (o_path p)).
    { unfold kextract in E. destruct (reqb_spec a 0) as [A0|A0]; [destruct (reqb_spec b (klen (o_path p))) as [B0|B0]; [auto|]|]; cbn [andb] in E;
        rewrite Rabs_right in E by lra; (destruct (rleb_spec (b - a) 0); [lra|]); destruct (rltb b a); discriminate. }
    destruct AB as [-> ->].
    assert (W : forall t, t = 0 \/ t = klen (o_path p) -> snd (ocompute svd interp (ocopy svd p) t) = snd (ocompute svd interp p t)).
    { intros t Ht. unfold ocompute, ocopy, base_orientation. cbn [ocreate o_path o_q0 o_q1 o_ignoreZ snd]. unfold kcompute.
      destruct (reqb_spec t 0) as [T0|T0]; cbn [orb].
      - apply orient_twice.
      - destruct Ht as [Ht|Ht]; [contradiction|]. destruct (reqb_spec (klen (o_path p)) 0); [lra|]. destruct (reqb_spec t (klen (o_path p))); [|contradiction]. cbn [orb]. apply orient_twice. }
    split; [apply W; auto|]. split; [replace (klen (o_path p) - 0) with (klen (o_path p)) by lra; apply W; auto|].
    apply G; [reflexivity|]. intros t Ht. destruct (Mot t Ht) as [q [[= <-] [S _]]]. exact S.
  - exfalso. unfold kextract in E. destruct (reqb a 0 && reqb b (klen (o_path p))); [discriminate|]. rewrite Rabs_right in E by lra.
    destruct (rleb_spec (b - a) 0); [lra|]. destruct (rltb b a); discriminate.
  - eexists. split; [reflexivity|]. split; [exact Len|].
    assert (MK : forall t, 0 <= t <= b - a -> same_motion (kcompute r t) (kcompute (o_path p) (a + t))) by (intros t Ht; destruct (Mot t Ht) as [q [[= <-] [S _]]]; exact S).
    assert (LR : klen r = b - a) by exact Len.
    assert (V0 : velocity (o_ignoreZ p) (kcompute r 0) = velocity (o_ignoreZ p) (kcompute (o_path p) a)).
    { destruct (MK 0 ltac:(lra)) as [_ [Ev _]]. rewrite Rplus_0_r in Ev. apply velocity_same, Ev. }
    assert (V1 : velocity (o_ignoreZ p) (kcompute r (klen r)) = velocity (o_ignoreZ p) (kcompute (o_path p) b)).
    { destruct (MK (b - a) ltac:(lra)) as [_ [Ev _]]. replace (a + (b - a)) with b in Ev by lra. rewrite LR. apply velocity_same, Ev. }
    destruct (created_ends r (base_orientation interp p a) (base_orientation interp p b) (o_ignoreZ p) _ _ ltac:(lra) V0 V1) as [C0 C1].
    split; [exact C0|]. split; [rewrite <- LR; exact C1|]. apply G; [reflexivity|exact MK].
  - exfalso. unfold kextract in E. destruct (reqb a 0 && reqb b (klen (o_path p))); [discriminate|]. rewrite Rabs_right in E by lra.
    destruct (rleb_spec (b - a) 0); [lra|]. destruct (rltb_spec b a); [lra | discriminate].
Qed.

(* ---------------------------------------------------------- counterexamples *)
Definition still_axis : axis := mkAxis (mkSt 0 0 0) (mkSt 0 0 0) 0 2 0 0 0 0.
Definition dash_axis : axis := mkAxis (mkSt 0 0 0) (mkSt 1 0 0) 1 0 1 0 1 1.
Definition sideways : kpath := mkK 2 [still_axis; dash_axis; still_axis] [].
Definition identity : quat := Q 0 0 0 1.
Lemma sideways_ok : path_ok sideways.
Proof. split; [cbn; lra|]. repeat constructor; cbn; lra. Qed.
Lemma sideways_moves b t : 0 < t < 2 -> exists v, 0 < v /\ moves b (kcompute sideways t) (V3 0 v 0).
Proof.
  intros Ht. unfold kcompute, moves. cbn [sideways klen axes others]. destruct (reqb_spec t 0); [lra|]. destruct (reqb_spec 2 0); [lra|]. destruct (reqb_spec t 2); [lra|].
  cbn [orb trans map]. unfold axis_at. cbn [still_axis dash_axis t0 t1 tv t2 a1 si se vlim x_ v_ ac_].
  destruct (rleb_spec t 2); [|lra]. destruct (rleb_spec t 0); [lra|]. cbn [v_]. destruct (rleb_spec t (0 + 1)).
  - exists ((t - 0) * 1 + 0). split; [lra|]. cbn [v_]. destruct b; reflexivity.
  - destruct (rleb_spec t (0 + 1 + 0)); [lra|]. destruct (rleb_spec t (0 + 1 + 0 + 1)); [|lra]. destruct (rltb_spec 0 0); [lra|]. cbn [v_].
    exists (1 * 1 + 0 - (t - 0 - 1 - 0) * 1). split; [lra|]. destruct b; reflexivity.
Qed.
(* The orientation jumps when the robot starts or stops: moving sideways from
   rest to rest, it faces its initial direction at both ends and the direction
   of its motion at any date in between. *)
Theorem C90_continuous_refuted b : path_ok sideways /\
  let o := ocreate svd sideways identity identity b in
  forward (snd (ocompute svd interp o 0)) = V3 1 0 0 /\ forward (snd (ocompute svd interp o 2)) = V3 1 0 0 /\
  forall t, 0 < t < 2 -> forward (snd (ocompute svd interp o t)) = V3 0 1 0.
Proof.
  split; [exact sideways_ok|]. destruct (C90_ends sideways identity identity b ltac:(cbn; lra)) as [E0 [E1 [_ [F0 F1]]]]. cbv zeta in *.
  assert (N0 : norm3 (V3 0 0 0) = 0) by (unfold norm3; cbn; replace (0 * 0 + 0 * 0 + 0 * 0) with 0 by ring; apply sqrt_0).
  set (o := ocreate svd sideways identity identity b) in *. change (klen sideways) with 2 in E1.
  split; [|split].
  - rewrite E0. cbn [snd]. rewrite (F0 (V3 0 0 0)); [unfold forward, identity; cbn; f_equal; ring | cbn; destruct b; reflexivity | exact N0].
  - rewrite E1. cbn [snd]. rewrite (F1 (V3 0 0 0)); [unfold forward, identity; cbn; f_equal; ring | cbn; destruct b; reflexivity | exact N0].
  - intros t Ht. destruct (sideways_moves b t Ht) as [v [Hv M]].
    assert (Nv : norm3 (V3 0 v 0) = v) by (unfold norm3; cbn [X Y Z]; replace (0 * 0 + v * v + 0 * 0) with (Rsqr v) by (unfold Rsqr; ring); apply sqrt_Rsqr; lra).
    destruct (C90_faces o t (V3 0 v 0) M ltac:(rewrite Nv; exact Hv)) as [_ [_ [d [[_ [Dx [Dy Dz]]] [_ F]]]]].
    cbn [X Y Z] in Dx, Dy, Dz. rewrite Nv in *. assert (X d = 0) as Xd by nra. assert (Y d = 1) as Yd by nra. assert (Z d = 0) as Zd by nra.
    rewrite F by (right; rewrite Xd; lra). destruct d as [x y z]. cbn in *. subst. reflexivity.
Qed.
(* Changing ignoreZValue afterwards leaves the ends as they were: the path no
   longer begins at its initial configuration. *)
Definition climb_axis : axis := mkAxis (mkSt 0 1 0) (mkSt 1 1 0) 0 1 0 0 0 0.
Definition climb : kpath := mkK 1 [climb_axis; mkAxis (mkSt 0 0 0) (mkSt 0 0 0) 0 1 0 0 0 0; climb_axis] [].
Theorem C90_setter_refuted : path_ok climb /\
  let o := set_ignoreZ (ocreate svd climb identity identity false) true in
  snd (ocompute svd interp o 0) <> o_q0 o.
Proof.
  split; [split; [cbn; lra|]; repeat constructor; cbn; lra|]. cbv zeta.
  assert (M1 : moves true (kcompute climb 0) (V3 1 0 0)) by (unfold kcompute; destruct (reqb_spec 0 0); [reflexivity | contradiction]).
  assert (M2 : moves false (kinit climb) (V3 1 0 1)) by reflexivity.
  assert (N1 : norm3 (V3 1 0 0) = 1) by (unfold norm3; cbn [X Y Z]; replace (1 * 1 + 0 * 0 + 0 * 0) with 1 by ring; apply sqrt_1).
  assert (N2 : norm3 (V3 1 0 1) = sqrt 2) by (unfold norm3; cbn [X Y Z]; f_equal; ring).
  assert (S2 : 1 < sqrt 2) by (rewrite <- sqrt_1 at 1; apply sqrt_lt_1; lra).
  intros E. apply (f_equal forward) in E.
  destruct (C90_faces (set_ignoreZ (ocreate svd climb identity identity false) true) 0 (V3 1 0 0) M1 ltac:(rewrite N1; lra)) as [_ [_ [d [[_ [Dx [Dy Dz]]] [_ F]]]]].
  cbn [X Y Z] in Dx, Dy, Dz. rewrite N1 in *. rewrite F in E by (right; lra).
  cbn [set_ignoreZ ocreate o_q0] in E. unfold orient in E. rewrite (moves_velocity _ _ _ M2), N2 in E. destruct (rltb_spec 0 (sqrt 2)); [|lra].
  assert (Hc : -1 + precision <= X (dir (V3 1 0 1))).
  { unfold dir. cbn [X]. rewrite N2. assert (0 < 1 / sqrt 2) by (apply Rdiv_lt_0_compat; lra). unfold precision. lra. }
  destruct (regular_case (V3 1 0 1) ltac:(rewrite N2; lra) Hc) as [_ [G _]]. rewrite G in E. apply (f_equal Z) in E. unfold dir in E. cbn [Z] in E. rewrite N2 in E.
  assert (0 < 1 / sqrt 2) by (apply Rdiv_lt_0_compat; lra). lra.
Qed.
End S.

(* A choice of axis, and a motion along a curve: C90_faces and C90_extract
   apply. *)
Definition some_axis (u : vec3) : vec3 :=
  let n := sqrt (Y u * Y u + Z u * Z u) in
  if reqb n 0 then V3 0 0 1 else V3 0 (- Z u / n) (Y u / n).
Example some_axis_ok : orthogonal_axis some_axis.
Proof.
  intros u. unfold some_axis. set (n := sqrt (Y u * Y u + Z u * Z u)).
  assert (N2 : n * n = Y u * Y u + Z u * Z u) by (apply sqrt_sqrt; nra).
  destruct (reqb_spec n 0) as [E|E]; cbn [X Y Z].
  - rewrite E in N2. assert (Z u = 0) by nra. split; [reflexivity|]. split; nra.
  - split; [reflexivity|]. split; [field; exact E|]. replace (- Z u / n * (- Z u / n) + Y u / n * (Y u / n)) with ((Y u * Y u + Z u * Z u) / (n * n)) by (field; exact E).
    rewrite N2. field. rewrite <- N2. intros H. apply Rmult_integral in H. tauto.
Qed.
Example C90_example interp : exists v, 0 < v /\ moves false (kcompute sideways 1) (V3 0 v 0) /\
  forward (snd (ocompute some_axis interp (ocreate some_axis sideways identity identity false) 1)) = V3 0 1 0.
Proof.
  destruct (sideways_moves false 1 ltac:(lra)) as [v [Hv M]]. exists v. split; [exact Hv|]. split; [exact M|].
  apply (proj2 (C90_continuous_refuted some_axis interp some_axis_ok false)). lra.
Qed.

Print Assumptions C90_faces.
Print Assumptions C90_upright_partial.
Print Assumptions C90_still.
Print Assumptions C90_ends.
Print Assumptions C90_extract.
Print Assumptions C90_continuous_refuted.
Print Assumptions C90_setter_refuted.
