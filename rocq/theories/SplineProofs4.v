(* Velocity bounds of splines. *)
From Coq Require Import Reals Arith Lia Lra List Bool ZArith.
From Verif Require Import Base XReal PolySpec PolyProofs SplineModel SplineSpec SplineProofs SplineProofs2 SplineProofs3.
Import ListNotations.
Open Scope R_scope.

Lemma bernstein_le_1 n i t : (i <= n)%nat -> 0 <= t <= 1 -> bernstein n i t <= 1.
Proof.
  intros Hi Ht. rewrite <- (bernstein_unity n t).
  apply Rle_trans with (rsum (fun j => if (j =? i)%nat then bernstein n i t else 0) (S n)).
  - rewrite (rsum_single _ (S n) i); [rewrite Nat.eqb_refl; lra|lia|].
    intros p _ Hn. destruct (Nat.eqb_spec p i); [lia|reflexivity].
  - apply rsum_le. intros p Hp. destruct (Nat.eqb_spec p i) as [->|]; [lra|].
    apply bernstein_nonneg; exact Ht.
Qed.

Lemma cell_bernstein m i p t : (p <= i)%nat -> (i - p <= m)%nat -> INR (fact (S m)) * cell m i p t = INR (S m) * bernstein m (i - p) t.
Proof.
  intros H1 H2. unfold cell, bernstein, C. bool_nat. change (fact (S m)) with (S m * fact m)%nat. rewrite mult_INR.
  field. split; apply INR_fact_neq_0.
Qed.
Lemma cell_range m i p t : 0 <= t <= 1 -> 0 <= INR (fact (S m)) * cell m i p t <= INR (S m).
Proof.
  intros Ht. pose proof (pos_INR (S m)). destruct (le_lt_dec p i) as [Hp|Hp].
  2:{ unfold cell. bool_nat. lra. }
  destruct (le_lt_dec (i - p) m) as [Hj|Hj].
  2:{ unfold cell. bool_nat. lra. }
  rewrite cell_bernstein by assumption. pose proof (bernstein_nonneg m (i - p) t Ht). pose proof (bernstein_le_1 m (i - p) t Hj Ht). nra.
Qed.
Lemma bern_der_1 m t i : bern_der (S m) 1 t i = INR (fact (S m)) * cell m i 1 t - INR (fact (S m)) * cell m i 0 t.
Proof.
  rewrite bern_der_dsum by lia. unfold dsum. cbn [rsum]. replace (S m - 1)%nat with m by lia. rewrite C_0, C_n. cbn [Nat.sub pow]. ring.
Qed.
Lemma bern_der_1_le n t i : 0 <= t <= 1 -> Rabs (bern_der n 1 t i) <= INR n.
Proof.
  intros Ht. destruct n as [|m].
  - unfold bern_der. destruct (Nat.ltb_spec 0 1); [|lia]. rewrite Rabs_R0. cbn [INR]. lra.
  - rewrite bern_der_1. pose proof (cell_range m i 1 t Ht). pose proof (cell_range m i 0 t Ht). apply Rabs_le. lra.
Qed.

Lemma ratio_range s t : sp_t0 s < sp_t1 s -> sp_t0 s <= t <= sp_t1 s -> 0 <= (t - sp_t0 s) / sp_len s <= 1.
Proof.
  intros H Ht. destruct (len_pos s H) as [_ P]. split.
  - apply Rmult_le_pos; [lra|left; apply Rinv_0_lt_compat; exact P].
  - apply (Rmult_le_reg_r (sp_len s)); [exact P|]. unfold Rdiv. rewrite Rmult_assoc, Rinv_l by lra. unfold sp_len. lra.
Qed.

Lemma velocity_sum s t d (b : nat -> R) : sp_t0 s < sp_t1 s ->
  (forall i, (i <= sp_deg s)%nat -> Rabs (bern_der (sp_deg s) 1 ((t - sp_t0 s) / sp_len s) i) <= b i) ->
  Rabs (sp_derivative s t 1 d) <= rsum (fun i => Rabs (sp_par s i d) * (b i / sp_len s)) (S (sp_deg s)).
Proof.
  intros H Hb. destruct (len_pos s H) as [_ P]. rewrite sp_derivative_val by exact H. eapply Rle_trans; [apply rsum_abs|].
  apply rsum_le. intros i Hi. rewrite Rabs_mult. apply Rmult_le_compat_l; [apply Rabs_pos|].
  cbn [pow]. rewrite Rmult_1_r. unfold Rdiv. rewrite Rabs_mult, (Rabs_right (/ sp_len s)) by (left; apply Rinv_0_lt_compat; exact P).
  apply Rmult_le_compat_r; [left; apply Rinv_0_lt_compat; exact P|]. apply Hb. lia.
Qed.

Lemma max_velocity_ok s t d : sp_t0 s < sp_t1 s -> sp_t0 s <= t <= sp_t1 s ->
  exists v, sp_max_velocity s d = Fin v /\ Rabs (sp_derivative s t 1 d) <= v.
Proof.
  intros H Ht. destruct (len_pos s H) as [E P]. unfold sp_max_velocity. rewrite E. eexists. split; [reflexivity|].
  eapply Rle_trans; [apply (velocity_sum s t d (fun i => abs_der_bound (sp_deg s) i) H)|].
  - intros i Hi. eapply Rle_trans; [apply bern_der_1_le; apply ratio_range; assumption|].
    unfold abs_der_bound. rewrite mult_INR. change (INR 2) with 2. pose proof (pos_INR (sp_deg s)). lra.
  - right. apply rsum_ext. intros i Hi. ring.
Qed.

(* ------------------------------------------------------ degrees 1 and 3 *)
Lemma der1 t : bern_der 1 1 t 0 = -1 /\ bern_der 1 1 t 1 = 1.
Proof. rewrite !bern_der_1. unfold cell. cbn. split; field. Qed.
Lemma der3 t : bern_der 3 1 t 0 = -3 * (1 - t) * (1 - t) /\ bern_der 3 1 t 1 = 3 - 12 * t + 9 * (t * t) /\
  bern_der 3 1 t 2 = 6 * t - 9 * (t * t) /\ bern_der 3 1 t 3 = 3 * (t * t).
Proof. rewrite !bern_der_1. unfold cell. cbn. repeat split; field. Qed.
Lemma raise_at_ge c j v r i : r i <= raise_at c j v r i.
Proof. unfold raise_at. destruct (_ && _)%bool; [apply Rmax_l|lra]. Qed.
Lemma raise_at_val j v r : v <= raise_at true j v r j.
Proof. unfold raise_at. rewrite Nat.eqb_refl. cbn [andb]. apply Rmax_r. Qed.

Lemma abs_le_max x y z : (y <= x <= z \/ z <= x <= y) -> Rabs x <= Rmax (Rabs y) (Rabs z).
Proof.
  intros H. pose proof (Rmax_l (Rabs y) (Rabs z)). pose proof (Rmax_r (Rabs y) (Rabs z)).
  pose proof (Rle_abs y). pose proof (Rle_abs z). pose proof (Rle_abs (- y)). pose proof (Rle_abs (- z)). rewrite Rabs_Ropp in *.
  apply Rabs_le. lra.
Qed.

Lemma bound_1 t0 t1 i t : (i <= 1)%nat -> Rabs (bern_der 1 1 t i) <= bern_bound 1 t0 t1 i.
Proof.
  intros Hi. unfold bern_bound. cbn [Nat.ltb Nat.leb]. cbn zeta.
  eapply Rle_trans; [|apply raise_at_ge]. eapply Rle_trans; [|apply raise_at_ge]. eapply Rle_trans; [|apply Rmax_l].
  right. f_equal. destruct (der1 t) as [A B], (der1 t0) as [A' B']. destruct i as [|[|i]]; [congruence|congruence|lia].
Qed.

Lemma abs_bound_3 b : abs_bound 3 b 1 = 1 /\ abs_bound 3 b 2 = 1.
Proof. unfold abs_bound, self_pow. cbn. split; field. Qed.

Lemma quad_max a b c l u t : 0 <= a -> l <= t <= u ->
  c + b * t + a * (t * t) <= Rmax (c + b * l + a * (l * l)) (c + b * u + a * (u * u)).
Proof.
  intros Ha Ht. set (m := a * (l + u) + b).
  assert (0 <= a * ((t - l) * (u - t))) by (apply Rmult_le_pos; [exact Ha|apply Rmult_le_pos; lra]).
  destruct (Rle_dec 0 m) as [Hm|Hm].
  - eapply Rle_trans; [|apply Rmax_r]. assert (0 <= m * (u - t)) by (apply Rmult_le_pos; lra). unfold m in *. nra.
  - eapply Rle_trans; [|apply Rmax_l]. assert (0 <= - m * (t - l)) by (apply Rmult_le_pos; lra). unfold m in *. nra.
Qed.

Lemma bound_3 t0 t1 i t : (i <= 3)%nat -> 0 <= t0 -> t1 <= 1 -> t0 <= t <= t1 -> Rabs (bern_der 3 1 t i) <= bern_bound 3 t0 t1 i.
Proof.
  intros Hi H0 H1 Ht. unfold bern_bound. cbn [Nat.ltb Nat.leb]. cbn zeta.
  destruct (der3 t) as (A & B & C & D), (der3 t0) as (A0 & B0 & C0 & D0), (der3 t1) as (A1 & B1 & C1 & D1).
  set (base := fun i => Rmax (Rabs (bern_der 3 1 t0 i)) (Rabs (bern_der 3 1 t1 i))).
  replace (INR 3) with 3 by (cbn; ring).
  set (r1 := raise_at _ 1 _ base). set (r2 := raise_at _ (3 - 1) _ r1).
  assert (forall j, base j <= r2 j) as Hb by (intros j; eapply Rle_trans; [apply raise_at_ge|apply (raise_at_ge _ (3 - 1))]).
  destruct i as [|[|[|[|i]]]]; [| | | |lia].
  - eapply Rle_trans; [|apply Hb]. unfold base. apply abs_le_max. rewrite A, A0, A1. left. split; nra.
  - assert (bern_der 3 1 t 1 <= Rmax (bern_der 3 1 t0 1) (bern_der 3 1 t1 1)) as Up.
    { rewrite B, B0, B1. pose proof (quad_max 9 (-12) 3 t0 t1 t ltac:(lra) Ht) as Q.
      replace (3 - 12 * t) with (3 + -12 * t) by ring. replace (3 - 12 * t0) with (3 + -12 * t0) by ring. replace (3 - 12 * t1) with (3 + -12 * t1) by ring. exact Q. }
    assert (Rmax (bern_der 3 1 t0 1) (bern_der 3 1 t1 1) <= base 1%nat) as Mb.
    { unfold base. apply Rmax_lub; [eapply Rle_trans; [apply Rle_abs|apply Rmax_l]|eapply Rle_trans; [apply Rle_abs|apply Rmax_r]]. }
    apply Rabs_le. split; [|eapply Rle_trans; [exact Up|]; eapply Rle_trans; [exact Mb|apply Hb]].
    destruct (Rle_dec (2/3) t0) as [L|L].
    { assert (bern_der 3 1 t0 1 <= bern_der 3 1 t 1) by (rewrite B, B0; nra). pose proof (Hb 1%nat). unfold base in H2 at 1.
      pose proof (Rmax_l (Rabs (bern_der 3 1 t0 1)) (Rabs (bern_der 3 1 t1 1))). pose proof (Rle_abs (- bern_der 3 1 t0 1)). rewrite Rabs_Ropp in *. lra. }
    destruct (Rle_dec t1 (2/3)) as [U|U].
    { assert (bern_der 3 1 t1 1 <= bern_der 3 1 t 1) by (rewrite B, B1; nra). pose proof (Hb 1%nat). unfold base in H2 at 1.
      pose proof (Rmax_r (Rabs (bern_der 3 1 t0 1)) (Rabs (bern_der 3 1 t1 1))). pose proof (Rle_abs (- bern_der 3 1 t1 1)). rewrite Rabs_Ropp in *. lra. }
    assert (1 <= r2 1%nat) as G.
    { eapply Rle_trans; [|apply raise_at_ge]. unfold r1. destruct (abs_bound_3 true) as [-> _].
      destruct (rltb_spec (t0 * 3) 2); [|lra]. destruct (rltb_spec 2 (t1 * 3)); [|lra]. apply raise_at_val. }
    assert (-1 <= bern_der 3 1 t 1) by (rewrite B; pose proof (Rle_0_sqr (t - 2/3)) as Q; unfold Rsqr in Q; lra). lra.
  - assert (Rmin (bern_der 3 1 t0 2) (bern_der 3 1 t1 2) <= bern_der 3 1 t 2) as Lo.
    { rewrite C, C0, C1. pose proof (quad_max 9 (-6) 0 t0 t1 t ltac:(lra) Ht) as Q. revert Q.
      unfold Rmin, Rmax. destruct (Rle_dec _ _), (Rle_dec _ _); lra. }
    assert (- base 2%nat <= Rmin (bern_der 3 1 t0 2) (bern_der 3 1 t1 2)) as Mb.
    { unfold base. pose proof (Rmax_l (Rabs (bern_der 3 1 t0 2)) (Rabs (bern_der 3 1 t1 2))). pose proof (Rmax_r (Rabs (bern_der 3 1 t0 2)) (Rabs (bern_der 3 1 t1 2))).
      pose proof (Rle_abs (- bern_der 3 1 t0 2)). pose proof (Rle_abs (- bern_der 3 1 t1 2)). rewrite Rabs_Ropp in *. apply Rmin_glb; lra. }
    pose proof (Hb 2%nat) as Hb2. apply Rabs_le. split; [lra|].
    destruct (Rle_dec (1/3) t0) as [L|L].
    { assert (bern_der 3 1 t 2 <= bern_der 3 1 t0 2) by (rewrite C, C0; nra). unfold base in Hb2 at 1.
      pose proof (Rmax_l (Rabs (bern_der 3 1 t0 2)) (Rabs (bern_der 3 1 t1 2))). pose proof (Rle_abs (bern_der 3 1 t0 2)). lra. }
    destruct (Rle_dec t1 (1/3)) as [U|U].
    { assert (bern_der 3 1 t 2 <= bern_der 3 1 t1 2) by (rewrite C, C1; nra). unfold base in Hb2 at 1.
      pose proof (Rmax_r (Rabs (bern_der 3 1 t0 2)) (Rabs (bern_der 3 1 t1 2))). pose proof (Rle_abs (bern_der 3 1 t1 2)). lra. }
    assert (1 <= r2 2%nat) as G.
    { unfold r2. change (3 - 1)%nat with 2%nat. destruct (abs_bound_3 true) as [_ ->].
      destruct (rltb_spec (t0 * 3) (3 - 2)); [|lra]. destruct (rltb_spec (3 - 2) (t1 * 3)); [|lra]. apply raise_at_val. }
    assert (bern_der 3 1 t 2 <= 1) by (rewrite C; pose proof (Rle_0_sqr (t - 1/3)) as Q; unfold Rsqr in Q; lra). lra.
  - eapply Rle_trans; [|apply Hb]. unfold base. apply abs_le_max. rewrite D, D0, D1. left. split; nra.
Qed.

Lemma velocity_bound_ok s a b t d : (sp_deg s = 1%nat \/ sp_deg s = 3%nat) -> sp_t0 s < sp_t1 s ->
  sp_t0 s <= a -> a <= t <= b -> b <= sp_t1 s ->
  exists v, sp_velocity_bound s a b d = Fin v /\ Rabs (sp_derivative s t 1 d) <= v.
Proof.
  intros Hd H Ha Ht Hb. destruct (len_pos s H) as [E P]. unfold sp_velocity_bound, sp_ratio. rewrite E. eexists. split; [reflexivity|].
  apply (velocity_sum s t d (bern_bound (sp_deg s) ((a - sp_t0 s) / sp_len s) ((b - sp_t0 s) / sp_len s)) H).
  intros i Hi. assert (forall x y, x <= y -> (x - sp_t0 s) / sp_len s <= (y - sp_t0 s) / sp_len s) as M.
  { intros x y L. apply Rmult_le_compat_r; [left; apply Rinv_0_lt_compat; exact P|lra]. }
  destruct (ratio_range s a H ltac:(lra)). destruct (ratio_range s b H ltac:(lra)).
  destruct Hd as [Hd|Hd]; rewrite Hd in *; [apply bound_1; exact Hi|].
  apply bound_3; try assumption. split; apply M; lra.
Qed.

(* ------------------------------------------------------------- degree 5 *)
Lemma raise_le r1 r2 b r i : raise r1 r2 b r i <= Rmax (r i) (b i).
Proof. unfold raise. destruct (_ && _)%bool; [lra|apply Rmax_l]. Qed.

Lemma der5 t : bern_der 5 1 t 2 = 10 * t * (1 - t) * (1 - t) * (2 - 5 * t).
Proof. rewrite bern_der_1. unfold cell. cbn. field. Qed.
Lemma bound_5 : bern_bound 5 0 1 2 <= 270 / 256.
Proof.
  unfold bern_bound. cbn zeta. replace (3 <? 5)%nat with true by reflexivity.
  assert (abs_bound 5 true 2 = 160 / 256) as E1.
  { unfold abs_bound, self_pow. cbn [Nat.ltb Nat.leb andb Nat.sub Nat.pow]. replace (INR (binom 5 2 * (2 * (2 * 1) * (2 * (2 * 1))))) with 160 by (vm_compute binom; cbn; ring).
    cbn. field. }
  assert (abs_bound 5 false 2 = 270 / 256) as E2.
  { unfold abs_bound, self_pow. cbn [Nat.ltb Nat.leb andb Nat.sub Nat.pow]. replace (INR (binom 5 2 * (3 * (3 * (3 * 1)) * (1 * 1)))) with 270 by (vm_compute binom; cbn; ring).
    cbn. field. }
  eapply Rle_trans; [apply raise_le|]. apply Rmax_lub; [|lra].
  eapply Rle_trans; [apply raise_le|]. apply Rmax_lub; [|lra].
  unfold raise_at. cbn [Nat.eqb Nat.sub]. rewrite !andb_false_r, !der5. apply Rmax_lub; (rewrite Rabs_right; lra).
Qed.
Definition bump : spline := mkSpline 5 1 (fun _ => 0) (fun i _ => if (i =? 2)%nat then 1 else 0) 0 1.
Lemma bump_bad : exists v, sp_velocity_bound bump 0 1 0 = Fin v /\ v < Rabs (sp_derivative bump (1/6) 1 0).
Proof.
  destruct (len_pos bump ltac:(cbn; lra)) as [E P]. unfold sp_velocity_bound, sp_ratio. rewrite E. eexists. split; [reflexivity|].
  assert (sp_len bump = 1) as -> by (unfold sp_len; cbn; ring).
  rewrite sp_derivative_val by (cbn; lra). assert (sp_len bump = 1) as -> by (unfold sp_len; cbn; ring).
  change (sp_deg bump) with 5%nat. change (sp_t0 bump) with 0. rewrite !(rsum_single _ 6 2%nat); try lia.
  - change (sp_par bump 2%nat 0%nat) with 1. replace ((0 - 0) / 1) with 0 by field. replace ((1 - 0) / 1) with 1 by field. replace ((1 / 6 - 0) / 1) with (1/6) by field.
    rewrite der5. cbn [pow]. pose proof bound_5. rewrite (Rabs_right 1) by lra. rewrite Rabs_right by lra. lra.
  - intros p Hp Hn. cbn [bump sp_par]. destruct (Nat.eqb_spec p 2); [lia|]. ring.
  - intros p Hp Hn. cbn [bump sp_par]. destruct (Nat.eqb_spec p 2); [lia|]. rewrite Rabs_R0. ring.
Qed.
