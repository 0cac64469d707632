(* Constant curvature paths: derivatives returned by the code, extraction,
   reversal. *)
From Coq Require Import Reals ZArith List Bool Lia Lra.
From Verif Require Import Base XReal PolySpec PolyProofs SplineProofs CurvModel CurvSpec CurvProofs.
Import ListNotations.
Open Scope R_scope.

Definition fwd_ok (p : cpath) : Prop := p_fwd p = rltb 0 (p_cl p).

Section Der.
Variable p : cpath.
Hypothesis HL : p_t0 p < p_t1 p.
Hypothesis HF : fwd_ok p.
Hypothesis HU : unit_heading (p_init p).
Let L := param_length p.
Let be := p_cl p / L.

Lemma Lpos : 0 < L. Proof. unfold L, param_length. lra. Qed.
Lemma be_pos : 0 < p_cl p -> 0 < be.
Proof. intros H. unfold be. apply Rdiv_lt_0_compat; [exact H | exact Lpos]. Qed.
Lemma be_neg : p_cl p <= 0 -> be <= 0.
Proof.
  intros H. unfold be, Rdiv. pose proof (Rinv_0_lt_compat _ Lpos). nra.
Qed.
Lemma alpha_odd n : (Z.rem n 2 =? 1)%Z = true ->
  (if negb (p_fwd p) && (Z.rem n 2 =? 1)%Z then Rabs be * -1 else Rabs be) = be.
Proof.
  intros ->. rewrite HF. destruct (rltb_spec 0 (p_cl p)) as [H|H]; cbn [negb andb].
  - apply Rabs_right. apply Rle_ge, Rlt_le, be_pos, H.
  - rewrite Rabs_left1; [ring|]. apply be_neg. lra.
Qed.
Lemma alpha_even n : (Z.rem n 2 =? 1)%Z = false ->
  (if negb (p_fwd p) && (Z.rem n 2 =? 1)%Z then Rabs be * -1 else Rabs be) = Rabs be.
Proof. intros ->. rewrite andb_false_r. reflexivity. Qed.

Lemma rotate_back C S a b : C * C + S * S = 1 ->
  (C * a + S * b) * C - (- S * a + C * b) * S = a /\
  (C * a + S * b) * S + (- S * a + C * b) * C = b.
Proof.
  intros H. split.
  - transitivity (a * (C * C + S * S)); [ring | rewrite H; ring].
  - transitivity (b * (C * C + S * S)); [ring | rewrite H; ring].
Qed.
Lemma unit_h t : hC p t * hC p t + hS p t * hS p t = 1.
Proof.
  pose proof (heading_unit p HL t HU) as H. unfold unit_heading in H.
  rewrite compute_cc, compute_cs in H by exact HL. exact H.
Qed.

Lemma derivative_1 t : exists v, cc_derivative p t 1 = Ok v /\ vx v = be /\ vy v = 0 /\
  vth v = p_kappa p * be /\ (forall k, vj v k = vj (true_velocity p) k).
Proof.
  unfold cc_derivative. cbn [Z.leb Z.eqb Z.compare Pos.compare Pos.compare_cont Pos.eqb].
  rewrite (L_test p HL). cbn [andb]. fold L. fold be.
  rewrite (angle_lin p HL).
  rewrite (alpha_odd 1) by reflexivity.
  change (cc (p_init p) * cos (p_kappa p * (p_cl p / param_length p) * t + - (p_kappa p * (p_cl p / param_length p) * p_t0 p)) -
          cs (p_init p) * sin (p_kappa p * (p_cl p / param_length p) * t + - (p_kappa p * (p_cl p / param_length p) * p_t0 p))) with (hC p t).
  change (cc (p_init p) * sin (p_kappa p * (p_cl p / param_length p) * t + - (p_kappa p * (p_cl p / param_length p) * p_t0 p)) +
          cs (p_init p) * cos (p_kappa p * (p_cl p / param_length p) * t + - (p_kappa p * (p_cl p / param_length p) * p_t0 p))) with (hS p t).
  eexists. split; [reflexivity|]. cbn [vx vy vth vj fst snd].
  pose proof (unit_h t) as E.
  repeat split.
  - transitivity (be * (hC p t * hC p t + hS p t * hS p t)); [ring | rewrite E; ring].
  - ring.
  - ring.
Qed.
Lemma derivative_1_ok t : exists v, cc_derivative p t 1 = Ok v /\ is_velocity (cc_compute p) t v /\
  vx v = be /\ vy v = 0 /\ vth v = p_kappa p * be.
Proof.
  destruct (derivative_1 t) as [v [E [H1 [H2 [H3 H4]]]]]. exists v. split; [exact E|].
  split; [|auto].
  destruct (true_velocity_ok p HL t) as [A [B [C [D F]]]]. unfold is_velocity.
  rewrite H1, H2, H3. repeat split; try assumption. intros k. rewrite H4. apply F.
Qed.

(* sign of the result for the orders above 1 *)
Definition wrong_sign (n : nat) : bool :=
  (((n mod 4) =? 2)%nat && rltb 0 (p_cl p)) || (((n mod 4) =? 0)%nat && rltb (p_cl p) 0).
Definition sigma (n : nat) : R := if wrong_sign n then -1 else 1.

Lemma zrem_nat n m : (0 < m)%nat -> Z.rem (Z.of_nat n) (Z.of_nat m) = Z.of_nat (n mod m).
Proof.
  intros H. rewrite Z.rem_mod_nonneg by lia. rewrite Nat2Z.inj_mod. reflexivity.
Qed.
Lemma zrem4 n : Z.rem (Z.of_nat n) 4 = Z.of_nat (n mod 4).
Proof. apply (zrem_nat n 4). lia. Qed.
Lemma zrem2 n : (Z.rem (Z.of_nat n) 2 =? 1)%Z = ((n mod 2) =? 1)%nat.
Proof.
  change 2%Z with (Z.of_nat 2). rewrite (zrem_nat n 2) by lia.
  destruct (Nat.eqb_spec (n mod 2) 1) as [->|N]; [reflexivity|]. apply Z.eqb_neq. lia.
Qed.
Lemma mod4_2 n : (n mod 2 = (n mod 4) mod 2)%nat.
Proof.
  rewrite (Nat.div_mod n 4) at 1 by lia.
  replace (4 * (n / 4) + n mod 4)%nat with (n mod 4 + (2 * (n / 4)) * 2)%nat by lia.
  rewrite Nat.mod_add by lia. reflexivity.
Qed.

Lemma derivative_high n t : (2 <= n)%nat -> exists v, cc_derivative p t (Z.of_nat n) = Ok v /\
  vx v * hC p t - vy v * hS p t = sigma n * derX p n t /\
  vx v * hS p t + vy v * hC p t = sigma n * derY p n t /\ vth v = 0 /\
  forall k, vj v k = 0.
Proof.
  intros Hn. unfold cc_derivative. rewrite (L_test p HL).
  destruct (Z.leb_spec (Z.of_nat n) 0) as [N|_]; [lia|].
  destruct (Z.eqb_spec (Z.of_nat n) 1) as [N|_]; [lia|].
  cbn [andb]. rewrite (angle_lin p HL).
  change (cc (p_init p) * cos (p_kappa p * (p_cl p / param_length p) * t + - (p_kappa p * (p_cl p / param_length p) * p_t0 p)) -
          cs (p_init p) * sin (p_kappa p * (p_cl p / param_length p) * t + - (p_kappa p * (p_cl p / param_length p) * p_t0 p))) with (hC p t).
  change (cc (p_init p) * sin (p_kappa p * (p_cl p / param_length p) * t + - (p_kappa p * (p_cl p / param_length p) * p_t0 p)) +
          cs (p_init p) * cos (p_kappa p * (p_cl p / param_length p) * t + - (p_kappa p * (p_cl p / param_length p) * p_t0 p))) with (hS p t).
  fold L. fold be.
  replace (Z.to_nat (Z.of_nat n - 1)) with (n - 1)%nat by lia.
  set (al := if _ && _ then _ else _).
  eexists. split; [reflexivity|]. cbn [vx vy vth vj].
  match goal with |- context [fst ?d] => set (dxy := d) end.
  destruct (rotate_back (hC p t) (hS p t) (fst dxy) (snd dxy) (unit_h t)) as [A B].
  rewrite A, B.
  assert (G : fst dxy = sigma n * derX p n t /\ snd dxy = sigma n * derY p n t).
  { pose proof (mod4_2 n) as M2. pose proof (Nat.div_mod n 4 ltac:(lia)) as Dv.
    pose proof (Nat.mod_upper_bound n 4 ltac:(lia)) as Hb.
    assert (Hn1 : n = S (n - 1)) by lia.
    unfold dxy, sigma, wrong_sign. rewrite zrem4. unfold derX, derY.
    replace (match n with O => cx (cc_compute p t) | S n0 => p_cl p / param_length p * (p_kappa p * (p_cl p / param_length p)) ^ n0 * rotC p n0 t end)
      with (be * (p_kappa p * be) ^ (n - 1) * rotC p (n - 1) t)
      by (rewrite Hn1; cbn [Nat.sub]; rewrite Nat.sub_0_r; reflexivity).
    replace (match n with O => cy (cc_compute p t) | S n0 => p_cl p / param_length p * (p_kappa p * (p_cl p / param_length p)) ^ n0 * rotS p n0 t end)
      with (be * (p_kappa p * be) ^ (n - 1) * rotS p (n - 1) t)
      by (rewrite Hn1; cbn [Nat.sub]; rewrite Nat.sub_0_r; reflexivity).
    set (q := (n / 4)%nat) in *.
    destruct (n mod 4) as [|[|[|[|r]]]] eqn:E4; try lia.
    - (* 0 *)
      destruct (rot4k p (q - 1) 3 t) as [R1 R2].
      replace (4 * (q - 1) + 3)%nat with (n - 1)%nat in R1, R2 by lia. rewrite R1, R2. cbn [rotC rotS].
      cbn [Z.of_nat Z.eqb Pos.eqb Nat.eqb andb orb].
      unfold al. rewrite zrem2, M2. cbn [Nat.modulo Nat.divmod fst snd Nat.sub Nat.eqb]. rewrite andb_false_r.
      destruct (rltb_spec (p_cl p) 0) as [H|H].
      + rewrite Rabs_left1 by (apply be_neg; lra). split; ring.
      + rewrite Rabs_right; [split; ring|]. apply Rle_ge.
        destruct (Rle_lt_or_eq_dec 0 (p_cl p) ltac:(lra)) as [G|G]; [apply Rlt_le, be_pos, G|].
        unfold be. rewrite <- G. unfold Rdiv. lra.
    - (* 1 *)
      destruct (rot4k p q 0 t) as [R1 R2].
      replace (4 * q + 0)%nat with (n - 1)%nat in R1, R2 by lia. rewrite R1, R2. cbn [rotC rotS].
      cbn [Z.of_nat Pos.of_succ_nat Z.eqb Pos.eqb Nat.eqb andb orb].
      unfold al. rewrite alpha_odd by (rewrite zrem2, M2; reflexivity). cbn [fst snd]. split; ring.
    - (* 2 *)
      destruct (rot4k p q 1 t) as [R1 R2].
      replace (4 * q + 1)%nat with (n - 1)%nat in R1, R2 by lia. rewrite R1, R2. cbn [rotC rotS].
      cbn [Z.of_nat Pos.of_succ_nat Pos.succ Z.eqb Pos.eqb Nat.eqb andb orb].
      unfold al. rewrite zrem2, M2. cbn [Nat.modulo Nat.divmod fst snd Nat.sub Nat.eqb]. rewrite andb_false_r.
      rewrite orb_false_r.
      destruct (rltb_spec 0 (p_cl p)) as [H|H].
      + rewrite Rabs_right by (apply Rle_ge, Rlt_le, be_pos, H). split; ring.
      + rewrite Rabs_left1 by (apply be_neg; lra). split; ring.
    - (* 3 *)
      destruct (rot4k p q 2 t) as [R1 R2].
      replace (4 * q + 2)%nat with (n - 1)%nat in R1, R2 by lia. rewrite R1, R2. cbn [rotC rotS].
      cbn [Z.of_nat Pos.of_succ_nat Pos.succ Z.eqb Pos.eqb Nat.eqb andb orb].
      unfold al. rewrite alpha_odd by (rewrite zrem2, M2; reflexivity). cbn [fst snd]. split; ring. }
  destruct G as [G1 G2]. repeat split; try assumption.
  intros k. destruct (in_dec Nat.eq_dec k (map fst (p_wheels p))) as [Hi|Hn0].
  - apply set_all_zero, Hi.
  - rewrite set_all_zero_out by exact Hn0. reflexivity.
Qed.
End Der.
