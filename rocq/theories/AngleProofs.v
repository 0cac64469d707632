(* atan2, floor and angles modulo 2 PI. *)
From Coq Require Import Reals ZArith Lia Lra.
From Verif Require Import XReal PolyProofs CurvModel.
Open Scope R_scope.

Lemma floor_le x : floor x <= x < floor x + 1.
Proof. unfold floor. destruct (base_Int_part x). lra. Qed.
Lemma floor_unique x z : IZR z <= x < IZR z + 1 -> floor x = IZR z.
Proof.
  intros H. unfold floor, Int_part. f_equal.
  rewrite <- (tech_up x (z + 1)); [lia | |]; rewrite plus_IZR; lra.
Qed.

Lemma hyp_pos x y : x <> 0 \/ y <> 0 -> 0 < x * x + y * y.
Proof. intros [H|H]; nra. Qed.

Lemma sqrt_scale x y : 0 < x -> sqrt (x * x + y * y) = x * sqrt (1 + (y / x)²).
Proof.
  intros H. transitivity (sqrt ((x * x) * (1 + (y / x)²))).
  - f_equal. unfold Rsqr. field. lra.
  - rewrite sqrt_mult; [|nra|unfold Rsqr; nra]. rewrite sqrt_square by lra. reflexivity.
Qed.
Lemma sqrt_one_pos z : 0 < sqrt (1 + z²).
Proof. apply sqrt_lt_R0. unfold Rsqr. nra. Qed.

Lemma polar x y : sqrt (x * x + y * y) * cos (atan2 y x) = x /\ sqrt (x * x + y * y) * sin (atan2 y x) = y.
Proof.
  unfold atan2. destruct (rltb_spec 0 x) as [Hx|Hx].
  - rewrite cos_atan, sin_atan, (sqrt_scale x y Hx). pose proof (sqrt_one_pos (y / x)). split; field; lra.
  - destruct (rltb_spec x 0) as [Hn|Hn].
    + assert (E : sqrt (x * x + y * y) = (- x) * sqrt (1 + (y / x)²)).
      { replace (x * x + y * y) with ((- x) * (- x) + (- y) * (- y)) by ring.
        rewrite (sqrt_scale (- x) (- y)) by lra. f_equal. f_equal. f_equal. f_equal. field. lra. }
      pose proof (sqrt_one_pos (y / x)) as P. rewrite E.
      destruct (rleb_spec 0 y).
      * rewrite neg_cos, neg_sin, cos_atan, sin_atan. split; field; lra.
      * assert (C : forall a, cos (a - PI) = - cos a) by (intros a; rewrite cos_minus, cos_PI, sin_PI; ring).
        assert (S : forall a, sin (a - PI) = - sin a) by (intros a; rewrite sin_minus, cos_PI, sin_PI; ring).
        rewrite C, S, cos_atan, sin_atan. split; field; lra.
    + assert (x = 0) by lra. subst x. replace (0 * 0 + y * y) with (y * y) by ring.
      destruct (rltb_spec 0 y) as [Hy|Hy].
      * rewrite sqrt_square by lra. rewrite cos_PI2, sin_PI2. split; ring.
      * destruct (rltb_spec y 0) as [Hy'|Hy'].
        -- replace (y * y) with ((- y) * (- y)) by ring. rewrite sqrt_square by lra.
           rewrite cos_neg, sin_neg, cos_PI2, sin_PI2. split; ring.
        -- assert (y = 0) by lra. subst y. rewrite Rmult_0_l, sqrt_0. split; ring.
Qed.
Lemma polar_unit x y : x * x + y * y = 1 -> cos (atan2 y x) = x /\ sin (atan2 y x) = y.
Proof.
  intros H. destruct (polar x y) as [A B]. rewrite H, sqrt_1 in A, B. rewrite Rmult_1_l in A, B. auto.
Qed.
Lemma atan2_bound y x : - PI < atan2 y x <= PI.
Proof.
  unfold atan2. pose proof PI_RGT_0. pose proof (atan_bound (y / x)) as A.
  destruct (rltb_spec 0 x); [lra|]. destruct (rltb_spec x 0) as [Hn|].
  - destruct (rleb_spec 0 y) as [Hy|Hy].
    + assert (y / x <= 0).
      { unfold Rdiv. pose proof (Rinv_lt_0_compat x Hn). nra. }
      destruct (Req_dec (y / x) 0) as [->|N]; [rewrite atan_0; lra|].
      pose proof (atan_increasing (y / x) 0 ltac:(lra)). rewrite atan_0 in *. lra.
    + assert (0 < y / x).
      { unfold Rdiv. pose proof (Rinv_lt_0_compat x Hn). nra. }
      pose proof (atan_increasing 0 (y / x) ltac:(lra)). rewrite atan_0 in *. lra.
  - destruct (rltb_spec 0 y); [lra|]. destruct (rltb_spec y 0); lra.
Qed.

(* equality of angles modulo 2 PI *)
Definition eqm (a b : R) : Prop := exists k : Z, a = b + IZR k * (2 * PI).
Lemma eqm_refl a : eqm a a. Proof. exists 0%Z. ring. Qed.
Lemma eqm_sym a b : eqm a b -> eqm b a.
Proof. intros [k ->]. exists (- k)%Z. rewrite opp_IZR. ring. Qed.
Lemma eqm_trans a b c : eqm a b -> eqm b c -> eqm a c.
Proof. intros [k ->] [j ->]. exists (k + j)%Z. rewrite plus_IZR. ring. Qed.
Lemma eqm_plus a b c d : eqm a b -> eqm c d -> eqm (a + c) (b + d).
Proof. intros [k ->] [j ->]. exists (k + j)%Z. rewrite plus_IZR. ring. Qed.
Lemma eqm_opp a b : eqm a b -> eqm (- a) (- b).
Proof. intros [k ->]. exists (- k)%Z. rewrite opp_IZR. ring. Qed.
Lemma eqm_minus a b c d : eqm a b -> eqm c d -> eqm (a - c) (b - d).
Proof. intros H K. apply eqm_plus; [exact H | apply eqm_opp, K]. Qed.

Lemma cos_nat a n : cos (a + INR n * (2 * PI)) = cos a.
Proof. replace (a + INR n * (2 * PI)) with (a + 2 * INR n * PI) by ring. apply cos_period. Qed.
Lemma sin_nat a n : sin (a + INR n * (2 * PI)) = sin a.
Proof. replace (a + INR n * (2 * PI)) with (a + 2 * INR n * PI) by ring. apply sin_period. Qed.
Lemma eqm_cos a b : eqm a b -> cos a = cos b.
Proof.
  intros [k ->]. destruct k as [|n|n].
  - f_equal. ring.
  - rewrite <- (positive_nat_Z n), <- INR_IZR_INZ. apply cos_nat.
  - change (Z.neg n) with (- Z.pos n)%Z. rewrite opp_IZR, <- (positive_nat_Z n), <- INR_IZR_INZ.
    rewrite <- (cos_nat (b + - INR (Pos.to_nat n) * (2 * PI)) (Pos.to_nat n)). f_equal. ring.
Qed.
Lemma eqm_sin a b : eqm a b -> sin a = sin b.
Proof.
  intros [k ->]. destruct k as [|n|n].
  - f_equal. ring.
  - rewrite <- (positive_nat_Z n), <- INR_IZR_INZ. apply sin_nat.
  - change (Z.neg n) with (- Z.pos n)%Z. rewrite opp_IZR, <- (positive_nat_Z n), <- INR_IZR_INZ.
    rewrite <- (sin_nat (b + - INR (Pos.to_nat n) * (2 * PI)) (Pos.to_nat n)). f_equal. ring.
Qed.
(* two angles in an interval of length 2 PI that are equal modulo 2 PI *)
Lemma eqm_small a b : eqm a b -> - (2 * PI) < a - b < 2 * PI -> a = b.
Proof.
  intros [k ->] H. pose proof PI_RGT_0. replace (b + IZR k * (2 * PI) - b) with (IZR k * (2 * PI)) in H by ring.
  assert (-1 < IZR k < 1) as [H1 H2] by (split; nra).
  apply (lt_IZR (-1)) in H1. apply (lt_IZR k 1) in H2. replace k with 0%Z by lia. ring.
Qed.
(* an angle is determined by its cosine and sine *)
Lemma cos_sin_eqm a b : cos a = cos b -> sin a = sin b -> eqm a b.
Proof.
  intros C S.
  assert (H : cos (a - b) = 1).
  { rewrite cos_minus, C, S. pose proof (sin2_cos2 b) as E. unfold Rsqr in E. lra. }
  pose proof PI_RGT_0 as P.
  set (x := (a - b) / (2 * PI)). set (k := Int_part x).
  pose proof (floor_le x) as F. unfold floor in F. fold k in F.
  assert (D : a - b = x * (2 * PI)) by (unfold x; field; lra).
  set (r := a - b - IZR k * (2 * PI)).
  assert (Hr : 0 <= r < 2 * PI) by (unfold r; rewrite D; split; nra).
  assert (Hc : cos r = 1).
  { rewrite <- H. apply eqm_cos. exists (- k)%Z. rewrite opp_IZR. unfold r. ring. }
  exists k. destruct (Req_dec r 0) as [E|N].
  - unfold r in E. lra.
  - exfalso. assert (Hh : 0 < r / 2 < PI) by lra.
    assert (Hs : sin (r / 2) = 0).
    { replace r with (2 * (r / 2)) in Hc by field. rewrite cos_2a_sin in Hc. nra. }
    pose proof (sin_gt_0 (r / 2) ltac:(lra) ltac:(lra)). lra.
Qed.
