(* The curve of a spline: values, derivatives, energy, gradient of the energy. *)
From Coq Require Import Reals Arith Lia Lra List Bool.
From Verif Require Import Base XReal PolySpec PolyProofs SplineModel SplineSpec SplineProofs SplineProofs2.
Import ListNotations.
Open Scope R_scope.

Lemma len_pos s : sp_t0 s < sp_t1 s -> reqb (sp_len s) 0 = false /\ 0 < sp_len s.
Proof. intros H. unfold sp_len. destruct (reqb_spec (sp_t1 s - sp_t0 s) 0); [lra|]. split; [reflexivity|lra]. Qed.

Lemma sp_compute_curve s t d : sp_t0 s < sp_t1 s -> sp_t0 s <= t <= sp_t1 s -> sp_compute s t d = curve s d t.
Proof.
  intros H Ht. destruct (len_pos s H) as [E P]. unfold sp_compute. rewrite E. cbn zeta.
  set (u := (t - sp_t0 s) / sp_len s).
  assert (0 <= u) by (unfold u; apply Rmult_le_pos; [lra|left; apply Rinv_0_lt_compat; exact P]).
  assert (u <= 1). { unfold u. apply (Rmult_le_reg_r (sp_len s)); [exact P|]. unfold Rdiv. rewrite Rmult_assoc, Rinv_l by lra. unfold sp_len. lra. }
  destruct (rltb_spec u 0); [lra|]. destruct (rltb_spec 1 u); [lra|].
  unfold sp_value, combine_par, curve. f_equal. apply rsum_ext. intros i Hi. f_equal. fold (sp_len s). fold u. apply bern_eval_bernstein. lia.
Qed.
(* before the start and after the end *)
Lemma sp_compute_out s t d : sp_t0 s < sp_t1 s ->
  (t <= sp_t0 s -> sp_compute s t d = sp_compute s (sp_t0 s) d) /\ (sp_t1 s <= t -> sp_compute s t d = sp_compute s (sp_t1 s) d).
Proof.
  intros H. destruct (len_pos s H) as [E P]. unfold sp_compute. rewrite E. cbn zeta.
  replace ((sp_t0 s - sp_t0 s) / sp_len s) with 0 by (field; lra).
  replace ((sp_t1 s - sp_t0 s) / sp_len s) with 1 by (unfold sp_len in *; field; lra).
  destruct (rltb_spec 0 0); [lra|]. destruct (rltb_spec 1 0); [lra|]. destruct (rltb_spec 1 1); [lra|].
  split; intros Ht; set (u := (t - sp_t0 s) / sp_len s).
  - assert (u <= 0). { unfold u, Rdiv. pose proof (Rinv_0_lt_compat _ P). nra. }
    destruct (rltb_spec u 0); [reflexivity|]. destruct (rltb_spec 1 u); [exfalso; lra|]. replace u with 0 by lra. reflexivity.
  - assert (1 <= u). { apply (Rmult_le_reg_r (sp_len s)); [exact P|]. unfold u, Rdiv. rewrite Rmult_assoc, Rinv_l by lra. unfold sp_len. lra. }
    destruct (rltb_spec u 0); [exfalso; lra|]. destruct (rltb_spec 1 u); [reflexivity|]. replace u with 1 by lra. reflexivity.
Qed.
Lemma curve_ends s d : sp_t0 s < sp_t1 s ->
  curve s d (sp_t0 s) = sp_base s d + sp_par s 0%nat d /\ curve s d (sp_t1 s) = sp_base s d + sp_par s (sp_deg s) d.
Proof.
  intros H. unfold curve. replace ((sp_t0 s - sp_t0 s) / (sp_t1 s - sp_t0 s)) with 0 by (field; lra).
  replace ((sp_t1 s - sp_t0 s) / (sp_t1 s - sp_t0 s)) with 1 by (field; lra). split; f_equal.
  - rewrite (rsum_single _ _ 0%nat); [rewrite bernstein_0 by lia; cbn [Nat.eqb]; ring|lia|].
    intros p Hp Hn. rewrite bernstein_0 by lia. destruct (Nat.eqb_spec p 0); [lia|ring].
  - rewrite (rsum_single _ _ (sp_deg s)); [rewrite bernstein_1 by lia; rewrite Nat.eqb_refl; ring|lia|].
    intros p Hp Hn. rewrite bernstein_1 by lia. destruct (Nat.eqb_spec p (sp_deg s)); [lia|ring].
Qed.

Lemma sp_derivative_val s t k d : sp_t0 s < sp_t1 s ->
  sp_derivative s t k d = rsum (fun i => sp_par s i d * (bern_der (sp_deg s) k ((t - sp_t0 s) / sp_len s) i / sp_len s ^ k)) (S (sp_deg s)).
Proof. intros H. destruct (len_pos s H) as [E P]. unfold sp_derivative, combine_par, basis_der, sp_ratio. rewrite E. reflexivity. Qed.

Lemma bern_der_subst_derivable n k i a T t : 0 < T ->
  derivable_pt_lim (fun x => bern_der n k ((x - a) / T) i / T ^ k) t (bern_der n (S k) ((t - a) / T) i / T ^ S k).
Proof.
  intros HT. apply (derivable_ext (fun x => / T ^ k * bern_der n k ((x - a) / T) i)); [intros; unfold Rdiv; ring|].
  apply (derivable_eq _ _ (/ T ^ k * (bern_der n (S k) ((t - a) / T) i * / T))).
  { cbn [pow]. field. split; [apply pow_nonzero|]; lra. }
  apply derivable_scal. apply (derivable_pt_lim_comp (fun x => (x - a) / T) (fun u => bern_der n k u i)); [|apply bern_der_derivable].
  apply (derivable_ext (fun x => / T * (x - a))); [intros; field; lra|].
  apply (derivable_eq _ _ (/ T * (1 - 0))); [ring|]. apply derivable_scal.
  apply (derivable_pt_lim_minus (fun x => x) (fun _ => a)); [apply derivable_pt_lim_id|apply derivable_pt_lim_const].
Qed.

Lemma sp_derivative_derivable s k d t : sp_t0 s < sp_t1 s ->
  derivable_pt_lim (fun x => sp_derivative s x k d) t (sp_derivative s t (S k) d).
Proof.
  intros H. destruct (len_pos s H) as [E P]. rewrite sp_derivative_val by exact H.
  apply (derivable_ext (fun x => rsum (fun i => sp_par s i d * (bern_der (sp_deg s) k ((x - sp_t0 s) / sp_len s) i / sp_len s ^ k)) (S (sp_deg s))));
    [intros; symmetry; apply sp_derivative_val; exact H|].
  apply (derivable_rsum (fun i x => sp_par s i d * (bern_der (sp_deg s) k ((x - sp_t0 s) / sp_len s) i / sp_len s ^ k))).
  intros p Hp. apply derivable_scal. apply bern_der_subst_derivable. exact P.
Qed.

Lemma sp_derivative_0 s t d : sp_t0 s < sp_t1 s -> sp_base s d + sp_derivative s t 0 d = curve s d t.
Proof.
  intros H. rewrite sp_derivative_val by exact H. unfold curve. f_equal. apply rsum_ext. intros i Hi. f_equal.
  rewrite <- bern_eval_bernstein by lia. unfold bern_eval, sp_len. cbn [pow]. field.
Qed.

Lemma sp_curve_derivative s k : sp_t0 s < sp_t1 s -> (0 < k)%nat -> curve_derivative k s (fun d t => sp_derivative s t k d).
Proof.
  intros H Hk d _. destruct k as [|k]; [lia|]. cbn [nth_derivative]. exists (fun t => sp_derivative s t 1 d). split.
  - intros t. apply (derivable_ext (fun x => sp_base s d + sp_derivative s x 0 d)); [intros; apply sp_derivative_0; exact H|].
    apply (derivable_eq _ _ (0 + sp_derivative s t 1 d)); [ring|].
    apply (derivable_pt_lim_plus (fun _ => sp_base s d) (fun x => sp_derivative s x 0 d)); [apply derivable_pt_lim_const|].
    apply sp_derivative_derivable; exact H.
  - apply (nth_derivative_seq (fun k t => sp_derivative s t k d) (fun k t => sp_derivative_derivable s k d t H) k 1%nat).
Qed.

Lemma nth_derivative_unique k : forall f g h, nth_derivative k f g -> nth_derivative k f h -> forall t, g t = h t.
Proof.
  induction k as [|k IH]; intros f g h; cbn [nth_derivative]; [intros H1 H2 t; rewrite <- H1, <- H2; reflexivity|].
  intros (f1 & D1 & N1) (f2 & D2 & N2). apply (IH f1); [exact N1|].
  apply (nth_derivative_ext _ f2); [|exact N2]. intros t. symmetry. eapply uniqueness_limite; [apply D1|apply D2].
Qed.

(* ------------------------------------------------------------- energy *)
Definition ratio (n k : nat) : R := INR (fact n) / INR (fact (n - k)).

Lemma norm_integral_val s k i j : sp_t0 s < sp_t1 s ->
  norm_integral s k i j = sp_len s * (bern_integral (sp_deg s) k i j / (sp_len s ^ k * sp_len s ^ k)).
Proof.
  intros H. destruct (len_pos s H) as [E P]. unfold norm_integral. rewrite E. destruct (Nat.ltb_spec 0 k) as [Hk|Hk].
  - destruct k as [|k]; [lia|]. replace (2 * S k - 1)%nat with (k + S k)%nat by lia. rewrite pow_add. cbn [pow]. field. split; [apply pow_nonzero; lra|lra].
  - replace k with 0%nat by lia. cbn [pow]. field.
Qed.

(* the energy of the derivative of order k, without the base *)
Lemma energy_anti s k : sp_t0 s < sp_t1 s -> (k <= sp_deg s)%nat ->
  anti (sq_norm (sp_nv s) (fun d t => sp_derivative s t k d)) (sp_t0 s) (sp_t1 s) (ratio (sp_deg s) k * sp_norm_integral s k).
Proof.
  intros H Hk. destruct (len_pos s H) as [E P]. set (n := sp_deg s) in *. set (T := sp_len s) in *.
  replace (sp_t1 s) with (sp_t0 s + T) by (unfold T, sp_len; ring).
  set (Bd := fun i t => bern_der n k ((t - sp_t0 s) / T) i).
  eapply anti_eq; [|eapply anti_ext; [|
    apply (anti_rsum (fun d t => rsum (fun i => rsum (fun j => sp_par s i d * sp_par s j d / (T ^ k * T ^ k) * (Bd i t * Bd j t)) (S n)) (S n))
      (fun d => rsum (fun i => rsum (fun j => sp_par s i d * sp_par s j d / (T ^ k * T ^ k) * (T * (ratio n k * bern_integral n k i j))) (S n)) (S n)) _ _ (sp_nv s));
    intros d Hd; apply (anti_rsum (fun i t => rsum (fun j => sp_par s i d * sp_par s j d / (T ^ k * T ^ k) * (Bd i t * Bd j t)) (S n)));
    intros i Hi; apply (anti_rsum (fun j t => sp_par s i d * sp_par s j d / (T ^ k * T ^ k) * (Bd i t * Bd j t)));
    intros j Hj; apply anti_scal; apply (anti_subst (fun u => bern_der n k u i * bern_der n k u j)); [lra|apply anti_bern; lia]]].
  - unfold sp_norm_integral. fold n. rewrite rsum_swap.
    rewrite <- rsum_scal. apply rsum_ext. intros i Hi. rewrite rsum_swap, <- rsum_scal. apply rsum_ext. intros j Hj.
    rewrite norm_integral_val by exact H. fold T n. rewrite <- rsum_scal_r, <- rsum_scal. apply rsum_ext. intros d Hd.
    field. apply pow_nonzero. lra.
  - intros t. unfold sq_norm. apply rsum_ext. intros d Hd. rewrite sp_derivative_val by exact H. fold n T.
    rewrite <- rsum_scal_r. apply rsum_ext. intros i Hi. rewrite <- rsum_scal. apply rsum_ext. intros j Hj.
    unfold Bd. field. apply pow_nonzero. lra.
Qed.

Lemma sq_norm_derivable s k t : sp_t0 s < sp_t1 s ->
  derivable_pt_lim (sq_norm (sp_nv s) (fun d t => sp_derivative s t k d)) t
    (rsum (fun d => sp_derivative s t (S k) d * sp_derivative s t k d + sp_derivative s t k d * sp_derivative s t (S k) d) (sp_nv s)).
Proof.
  intros H. unfold sq_norm. apply (derivable_rsum (fun d t => sp_derivative s t k d * sp_derivative s t k d)). intros d Hd.
  apply derivable_mult; apply sp_derivative_derivable; exact H.
Qed.

Lemma energy_integral s k : sp_t0 s < sp_t1 s -> (k <= sp_deg s)%nat ->
  integral_is (sq_norm (sp_nv s) (fun d t => sp_derivative s t k d)) (sp_t0 s) (sp_t1 s) (ratio (sp_deg s) k * sp_norm_integral s k).
Proof.
  intros H Hk. eapply anti_integral; [lra|intros t; apply sq_norm_derivable; exact H|apply energy_anti; assumption].
Qed.

Lemma bern_integral_out n k i j : (n < k)%nat -> bern_integral n k i j = 0.
Proof. intros H. unfold bern_integral. destruct (Nat.ltb_spec n k); [reflexivity|lia]. Qed.
Lemma energy_out s k : (sp_deg s < k)%nat -> sp_norm_integral s k = 0.
Proof.
  intros H. unfold sp_norm_integral. apply rsum_zero. intros i Hi. apply rsum_zero. intros j Hj.
  unfold norm_integral. rewrite bern_integral_out by exact H. destruct (reqb _ _); [ring|]. destruct (0 <? k)%nat; unfold Rdiv; ring.
Qed.
Lemma derivative_out s t k d : (sp_deg s < k)%nat -> sp_derivative s t k d = 0.
Proof.
  intros H. unfold sp_derivative, combine_par. apply rsum_zero. intros i Hi. unfold basis_der, bern_der.
  destruct (Nat.ltb_spec (sp_deg s) k); [|lia]. destruct (reqb _ _); unfold Rdiv; ring.
Qed.

(* ----------------------------------------------------------- gradient *)
Lemma alpha_sym m i p j q : alpha m i p j q = alpha m j q i p.
Proof.
  unfold alpha. destruct (inr m i p), (inr m j q); cbn [andb]; try reflexivity. rewrite (Nat.add_comm (i - p)). f_equal. ring.
Qed.
Lemma bern_integral_sym n k i j : (i <= n)%nat -> (j <= n)%nat -> bern_integral n k i j = bern_integral n k j i.
Proof.
  intros Hi Hj. destruct (le_lt_dec k n) as [Hk|Hk]; [|rewrite !bern_integral_out by exact Hk; reflexivity].
  rewrite !bern_integral_sum by assumption. f_equal. rewrite rsum_swap. apply rsum_ext. intros q Hq. apply rsum_ext. intros p Hp.
  rewrite (alpha_sym (n - k) i p j q). ring.
Qed.
Lemma norm_integral_sym s k i j : (i <= sp_deg s)%nat -> (j <= sp_deg s)%nat -> norm_integral s k i j = norm_integral s k j i.
Proof. intros Hi Hj. unfold norm_integral. rewrite (bern_integral_sym (sp_deg s) k i j Hi Hj). reflexivity. Qed.

Lemma rsum_flat nv m (f : nat -> R) : rsum f (m * nv) = rsum (fun j => rsum (fun d => f (j * nv + d)%nat) nv) m.
Proof.
  induction m as [|m IH]; [reflexivity|]. cbn [rsum]. replace (S m * nv)%nat with (m * nv + nv)%nat by lia. rewrite rsum_app, IH. reflexivity.
Qed.
Lemma flat_div nv j d : (d < nv)%nat -> ((j * nv + d) / nv = j)%nat /\ ((j * nv + d) mod nv = d)%nat.
Proof.
  intros H. split.
  - rewrite Nat.add_comm, Nat.div_add by lia. rewrite Nat.div_small by exact H. lia.
  - rewrite Nat.add_comm, Nat.mod_add by lia. apply Nat.mod_small. exact H.
Qed.

Lemma norm_expansion s k (dp : nat -> R) e :
  sp_norm_integral (sp_param_integrate s (fun r => e * dp r)) k =
  sp_norm_integral s k + e * rsum (fun r => sp_norm_gradient s k r * dp r) (S (sp_deg s) * sp_nv s)
  + e * e * sp_norm_integral (mkSpline (sp_deg s) (sp_nv s) (sp_base s) (fun i d => dp (i * sp_nv s + d)%nat) (sp_t0 s) (sp_t1 s)) k.
Proof.
  set (n := sp_deg s). set (nv := sp_nv s). set (P := sp_par s). set (I := norm_integral s k).
  set (Q := fun i d => dp (i * nv + d)%nat).
  assert (rsum (fun r => sp_norm_gradient s k r * dp r) (S n * nv) = 2 * rsum (fun i => rsum (fun j => rsum (fun d => P i d * Q j d) nv * I i j) (S n)) (S n)) as ->.
  { rewrite rsum_flat.
    transitivity (rsum (fun j => rsum (fun d => rsum (fun i => 2 * (P i d * Q j d * I i j)) (S n)) nv) (S n)).
    { apply rsum_ext. intros j Hj. apply rsum_ext. intros d Hd. unfold sp_norm_gradient. fold n nv P I.
      destruct (flat_div nv j d Hd) as [-> ->]. rewrite rsum_scal, Rmult_assoc, <- rsum_scal_r. f_equal. apply rsum_ext. intros i Hi. unfold Q, P. ring. }
    transitivity (rsum (fun j => rsum (fun i => rsum (fun d => 2 * (P i d * Q j d * I i j)) nv) (S n)) (S n)).
    { apply rsum_ext. intros j Hj. apply rsum_swap. }
    rewrite rsum_swap, <- rsum_scal. apply rsum_ext. intros i Hi. rewrite <- rsum_scal. apply rsum_ext. intros j Hj. rewrite <- rsum_scal_r, <- rsum_scal. apply rsum_ext. intros d Hd. ring. }
  unfold sp_norm_integral at 1 2 3. cbn [sp_deg sp_nv sp_par sp_param_integrate]. fold n nv P.
  set (S1 := rsum (fun i => rsum (fun j => rsum (fun d => P i d * P j d) nv * I i j) (S n)) (S n)).
  set (S2 := rsum (fun i => rsum (fun j => rsum (fun d => P i d * Q j d) nv * I i j) (S n)) (S n)).
  set (S3 := rsum (fun i => rsum (fun j => rsum (fun d => Q i d * Q j d) nv * I i j) (S n)) (S n)).
  assert (rsum (fun i => rsum (fun j => rsum (fun d => Q i d * P j d) nv * I i j) (S n)) (S n) = S2) as E2.
  { unfold S2. rewrite rsum_swap. apply rsum_ext. intros j Hj. apply rsum_ext. intros i Hi.
    unfold I. rewrite (norm_integral_sym s k i j) by (fold n; lia). f_equal. apply rsum_ext. intros d Hd. ring. }
  transitivity (S1 + e * S2 + e * rsum (fun i => rsum (fun j => rsum (fun d => Q i d * P j d) nv * I i j) (S n)) (S n) + e * e * S3).
  2:{ rewrite E2. match goal with |- _ = ?a + _ + e * e * ?b => change a with S1; change b with S3 end. ring. }
  unfold S1, S2, S3. rewrite <- !rsum_scal, <- !rsum_plus. apply rsum_ext. intros i Hi.
  rewrite <- !rsum_scal, <- !rsum_plus. apply rsum_ext. intros j Hj.
  change (norm_integral (sp_param_integrate s (fun r => e * dp r)) k i j) with (I i j).
  rewrite <- !rsum_scal_r, <- !rsum_scal, <- !rsum_plus. apply rsum_ext. intros d Hd. unfold Q. ring.
Qed.
