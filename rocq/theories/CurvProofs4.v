(* Constant curvature paths: invariant of the paths that can be built, bounds
   on the velocity, wheels. *)
From Coq Require Import Reals ZArith List Bool Lia Lra.
From Verif Require Import Base XReal PolySpec PolyProofs SplineProofs CurvModel CurvSpec CurvProofs CurvProofs2 CurvProofs3 AngleProofs.
Import ListNotations.
Open Scope R_scope.

Lemma abscissa_deg p t : p_t0 p = p_t1 p -> abscissa p t = 0.
Proof.
  intros E. unfold abscissa, param_length. destruct (reqb_spec (p_t1 p - p_t0 p) 0); [reflexivity | lra].
Qed.
Lemma compute_deg p t : p_t0 p = p_t1 p -> same_but (wheel_ranks p) (cc_compute p t) (p_init p).
Proof.
  intros E.
  pose proof (compute_arc p t) as A. rewrite (abscissa_deg p t E), Rmult_0_l in A.
  destruct (arc_same _ _ _ _ A (p_init p) (p_init p) eq_refl eq_refl eq_refl eq_refl (arc_0 _ _)) as [X [Y [C S]]].
  repeat split; try assumption. intros k Hk. rewrite compute_cj_out by exact Hk. rewrite abscissa_deg by exact E. ring.
Qed.
Lemma same_sym l q q' : same_but l q q' -> same_but l q' q.
Proof. intros [X [Y [C [S J]]]]. repeat split; auto. intros k Hk. symmetry. auto. Qed.
Lemma same_trans l q q' q2 : same_but l q q' -> same_but l q' q2 -> same_but l q q2.
Proof. intros [X [Y [C [S J]]]] [X' [Y' [C' [S' J']]]]. repeat split; try congruence. intros k Hk. rewrite J, J' by exact Hk. reflexivity. Qed.
Lemma same_weaken l q q' : same_cfg q q' -> same_but l q q'.
Proof. intros [X [Y [C [S J]]]]. repeat split; auto. Qed.
Lemma same_unit l q q' : same_but l q q' -> unit_heading q -> unit_heading q'.
Proof. intros [X [Y [C [S J]]]]. unfold unit_heading. rewrite C, S. auto. Qed.
Lemma compute_unit p t : unit_heading (p_init p) -> unit_heading (cc_compute p t).
Proof. intros H. exact (arc_unit _ _ _ _ (compute_arc p t) H). Qed.

Record invariant (p : cpath) : Prop := {
  inv_fwd : fwd_ok p;
  inv_unit : unit_heading (p_init p);
  inv_0 : p_t0 p = 0;
  inv_len : p_t0 p <= p_t1 p;
  inv_closed : closed p
}.

Lemma built_invariant p : built p -> invariant p.
Proof.
  induction 1 as [init fin cl pl kappa ws U | p a b Hp IH Ha Hb | p Hp IH].
  - constructor; try reflexivity.
    + exact U.
    + cbn. apply Rabs_pos.
    + apply same_weaken. apply create_closed.
  - destruct IH as [F U Z Ln C].
    destruct (Rle_lt_or_eq_dec _ _ Ln) as [HL|HL].
    + constructor; try reflexivity.
      * change (p_init (cc_extract p a b)) with
          (if reqb a (p_t0 p) then p_init p else if reqb a (p_t1 p) then p_end p else cc_compute p a).
        apply (same_unit (wheel_ranks p) (cc_compute p a)); [|apply compute_unit, U].
        apply same_sym, (at_same p C).
      * rewrite (ext_len p HL). cbn. apply Rabs_pos.
      * apply (extract_closed p HL C a b); assumption.
    + assert (Hl : reqb (param_length p) 0 = true).
      { destruct (reqb_spec (param_length p) 0) as [|N]; [reflexivity|]. unfold param_length in N. lra. }
      assert (Ea : a = p_t0 p) by lra. assert (Eb : b = p_t0 p) by lra.
      assert (E1 : p_t1 (cc_extract p a b) = 0) by (unfold cc_extract; cbn [p_t1]; rewrite Hl; reflexivity).
      assert (Ei : p_init (cc_extract p a b) = p_init p).
      { unfold cc_extract. cbn [p_init]. destruct (reqb_spec a (p_t0 p)); [reflexivity|contradiction]. }
      assert (Ee : p_end (cc_extract p a b) = p_init p).
      { unfold cc_extract. cbn [p_end]. destruct (reqb_spec b (p_t0 p)); [reflexivity|contradiction]. }
      constructor; try reflexivity.
      * rewrite Ei. exact U.
      * rewrite E1. cbn. lra.
      * unfold closed. apply same_sym. rewrite Ee. rewrite <- Ei. apply (compute_deg (cc_extract p a b)).
        rewrite E1. reflexivity.
  - destruct IH as [F U Z Ln C].
    assert (P : 0 <= param_length p) by (unfold param_length; lra).
    constructor; try reflexivity.
    + unfold fwd_ok, cc_reverse. cbn [p_fwd p_cl].
      destruct (rltb_spec (p_cl p) 0), (rltb_spec 0 (- p_cl p)); try reflexivity; lra.
    + cbn. apply (same_unit (wheel_ranks p) (cc_compute p (p_t1 p))); [apply same_sym, C | apply compute_unit, U].
    + cbn. exact P.
    + destruct (Rle_lt_or_eq_dec _ _ Ln) as [HL|HL]; [apply reverse_closed; assumption|].
      unfold closed. cbn [p_end cc_reverse].
      pose proof (compute_deg (cc_reverse p) (p_t1 (cc_reverse p))) as D.
      specialize (D ltac:(cbn; unfold param_length; lra)).
      apply same_sym. apply (same_trans _ _ _ _ D). cbn [p_init cc_reverse].
      apply (same_trans _ _ _ _ C). apply (compute_deg p). exact HL.
Qed.

(* ---- n-th derivatives of the other degrees of freedom ---- *)
Lemma cj_nth p t n k : p_t0 p < p_t1 p -> (2 <= n)%nat ->
  exists g, nth_derivative n (fun u => cj (cc_compute p u) k) g /\ g t = 0.
Proof.
  intros HL Hn. set (v := vj (true_velocity p) k).
  set (F := fun j => match j with O => fun u => cj (cc_compute p u) k | 1%nat => fun _ => v | _ => fun _ : R => 0 end).
  exists (F n). split.
  - refine (nth_derivative_seq F _ n 0%nat). intros j u. destruct j as [|[|j]].
    + apply (d_cj p HL).
    + apply derivable_pt_lim_const.
    + apply derivable_pt_lim_const.
  - destruct n as [|[|n]]; [lia|lia|reflexivity].
Qed.

(* ---- velocity bound ---- *)
Lemma sq_le a b : 0 <= a -> a <= b -> a * a <= b * b.
Proof. intros. nra. Qed.
Lemma abs_sq a : Rabs a * Rabs a = a * a.
Proof. rewrite <- Rabs_mult. apply Rabs_right. nra. Qed.
Lemma one_le_sq a b c : Rabs (cos c) <= a -> sin c * sin c <= b * b -> 1 <= a * a + b * b.
Proof.
  intros H K. pose proof (sq_le _ _ (Rabs_pos (cos c)) H) as Q. rewrite abs_sq in Q.
  pose proof (sin2_cos2 c) as E. unfold Rsqr in E. lra.
Qed.
Lemma max_norm t0 t1 : 0 <= t0 < 2 * PI -> t0 <= t1 < t0 + PI ->
  1 <= abs_cos_max t0 t1 * abs_cos_max t0 t1 + abs_sin_max t0 t1 * abs_sin_max t0 t1.
Proof.
  intros H0 H1. pose proof PI_RGT_0 as P.
  assert (HM : abs_cos_max t0 t1 = 1 \/ Rabs (cos t0) <= abs_cos_max t0 t1 /\ (t1 <= PI \/ PI < t0)).
  { unfold abs_cos_max. destruct (rleb_spec t1 PI); [right; split; [apply Rmax_l | auto]|].
    destruct (rleb_spec t0 PI); [left; reflexivity | right; split; [apply Rmax_l | right; lra]]. }
  destruct HM as [->|[HM Hor]]; [nra|].
  unfold abs_sin_max.
  destruct (rleb_spec t1 (PI / 2)) as [A|A].
  { apply (one_le_sq _ _ t0 HM). apply sq_le; [apply sin_ge_0; lra|].
    apply sin_incr_1; lra. }
  destruct (rleb_spec t0 (PI / 2)) as [B|B]; [nra|].
  destruct (rleb_spec (3 * (PI / 2)) t0) as [C|C].
  { apply (one_le_sq _ _ t0 HM). nra. }
  destruct (rleb_spec (3 * (PI / 2)) t1) as [D|D]; [nra|].
  apply (one_le_sq _ _ t0 HM).
  assert (S : sin t1 <= sin t0).
  { destruct (Req_dec t0 t1) as [->|N]; [lra|]. apply Rlt_le, sin_decreasing_1; lra. }
  rewrite Rmax_left by exact S. lra.
Qed.

Section Bound.
Variable p : cpath.
Hypothesis HI : invariant p.
Hypothesis HL : p_t0 p < p_t1 p.
Variables t0 t1 : R.

Let L := param_length p.
Lemma Lp : 0 < L. Proof. unfold L, param_length. lra. Qed.
Lemma deg_test : reqb (p_t0 p) (p_t1 p) = false.
Proof. destruct (reqb_spec (p_t0 p) (p_t1 p)); [lra|reflexivity]. Qed.

Lemma bound_planar :
  let b := cc_velocity_bound p t0 t1 in
  (Rabs (p_cl p) / L) * (Rabs (p_cl p) / L) <= planar_norm2 b.
Proof.
  cbv zeta. unfold cc_velocity_bound, planar_norm2. rewrite deg_test. cbn [vx vy]. fold L.
  set (al := Rabs (p_cl p) / L). match goal with |- context [fst ?m] => set (M := m) end.
  assert (H : 1 <= fst M * fst M + snd M * snd M).
  { unfold M. destruct (reqb_spec (p_kappa p) 0) as [K|K]; cbn [negb fst snd]; [lra|].
    set (a0 := p_kappa p * p_cl p * (t0 - p_t0 p) / L). set (a1 := p_kappa p * p_cl p * (t1 - p_t0 p) / L).
    assert (Hle : (if rltb a1 a0 then a1 else a0) <= (if rltb a1 a0 then a0 else a1)).
    { destruct (rltb_spec a1 a0); lra. }
    set (u0 := if rltb a1 a0 then a1 else a0) in *. set (u1 := if rltb a1 a0 then a0 else a1) in *.
    destruct (rleb_spec PI (u1 - u0)) as [E|E]; cbn [fst snd]; [lra|].
    set (tI := atan2 _ _).
    assert (P : 0 < PI) by apply PI_RGT_0.
    pose proof (floor_le ((u0 + tI) * (1 / PI) / 2)) as F.
    set (k := floor ((u0 + tI) * (1 / PI) / 2)) in *.
    assert (G : (u0 + tI) * (1 / PI) / 2 * (2 * PI) = u0 + tI) by (field; lra).
    set (z := (u0 + tI) * (1 / PI) / 2) in *.
    apply max_norm; split; try lra; nra. }
  assert (0 <= al * al) by nra.
  replace (al * fst M * (al * fst M) + al * snd M * (al * snd M)) with (al * al * (fst M * fst M + snd M * snd M)) by ring.
  nra.
Qed.
Lemma bound_vth : vth (cc_velocity_bound p t0 t1) = Rabs (p_cl p) / L * Rabs (p_kappa p).
Proof. unfold cc_velocity_bound. rewrite deg_test. reflexivity. Qed.
Lemma bound_vj k : vj (cc_velocity_bound p t0 t1) k =
  set_all (map (fun w : nat * R => (fst w, 0)) (p_wheels p)) (fun i => Rabs (cj (p_end p) i - cj (p_init p) i) / L) k.
Proof. unfold cc_velocity_bound. rewrite deg_test. reflexivity. Qed.
Lemma abs_be : Rabs (p_cl p / L) = Rabs (p_cl p) / L.
Proof. unfold Rdiv. rewrite Rabs_mult. f_equal. apply Rabs_right. apply Rle_ge, Rlt_le, Rinv_0_lt_compat, Lp. Qed.
Lemma vj_bound k : Rabs (vj (true_velocity p) k) <= vj (cc_velocity_bound p t0 t1) k.
Proof.
  rewrite bound_vj. unfold true_velocity. cbn [vj].
  destruct (in_dec Nat.eq_dec k (map fst (p_wheels p))) as [Hi|Ho].
  - rewrite !set_all_zero by exact Hi. rewrite Rabs_R0. lra.
  - rewrite !set_all_zero_out by exact Ho. unfold Rdiv. rewrite Rabs_mult.
    rewrite (Rabs_right (/ _)); [fold L; lra|]. apply Rle_ge, Rlt_le, Rinv_0_lt_compat, Lp.
Qed.
End Bound.

(* ---- wheels ---- *)
Lemma atan_quot_rolls kappa x y v : atan_quot x (1 / kappa - y) = Ok v ->
  wheel_rolls kappa x y v /\ - (PI / 2) <= v <= PI / 2.
Proof.
  unfold atan_quot, wheel_rolls. pose proof PI_RGT_0.
  destruct (reqb_spec (1 / kappa - y) 0) as [E|E].
  - replace (y - 1 / kappa) with 0 by lra.
    destruct (rltb_spec 0 x); [intros [= <-]; rewrite cos_PI2; split; [ring|lra]|].
    destruct (rltb_spec x 0); [|discriminate].
    intros [= <-]. rewrite cos_neg, cos_PI2. split; [ring|lra].
  - intros [= <-]. pose proof (atan_bound (x / (1 / kappa - y))) as B. split; [|lra].
    rewrite cos_atan, sin_atan.
    set (d := 1 / kappa - y) in *. replace (y - 1 / kappa) with (- d) by (unfold d; ring).
    pose proof (sqrt_one_pos (x / d)). field. split; lra.
Qed.
Lemma wheel_values_nth kappa ws : forall l, wheel_values kappa ws = Ok l ->
  Forall2 (fun w kv => fst kv = w_rank w /\ wheel_value kappa w = Ok (snd kv)) ws l.
Proof.
  induction ws as [|w ws IH]; intros l E; cbn [wheel_values] in E.
  - injection E as <-. constructor.
  - destruct (wheel_value kappa w) as [v| | |] eqn:Ev; cbn [bind] in E; try discriminate.
    destruct (wheel_values kappa ws) as [l'| | |]; cbn [bind] in E; try discriminate.
    injection E as <-. constructor; [cbn; auto | apply IH; reflexivity].
Qed.
