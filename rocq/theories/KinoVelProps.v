(* C89: velocities and velocity bounds of kinodynamic paths. *)
From Coq Require Import Reals ZArith List Bool Lra Lia.
From Verif Require Import Base XReal PolyProofs KinoModel KinoSpec KinoProofs KinoProofs2 KinoProps KinoVelModel KinoTimeProofs.
Import ListNotations.
Open Scope R_scope.

(* the coordinates of a path along time *)
Definition position (p : kpath) (k : nat) (t : R) : R := nth k (map x_ (trans (kcompute p t))) 0.
Definition velocity (p : kpath) (k : nat) (t : R) : R := nth k (map v_ (trans (kcompute p t))) 0.
Definition other (p : kpath) (k : nat) (t : R) : R := nth k (rest (kcompute p t)) 0.
(* b bounds the variations of f over [0, T] *)
Definition bounds (T : R) (f : R -> R) (b : R) : Prop :=
  forall s t, 0 <= s <= T -> 0 <= t <= T -> Rabs (f s - f t) <= b * Rabs (s - t).

(* ------------------------------------------------------------ other joints *)
Lemma other_linear p k c t : 0 < klen p -> nth_error (others p) k = Some c -> 0 <= t <= klen p ->
  other p k t = fst c + t * ((snd c - fst c) / klen p).
Proof.
  intros HL Hk Ht. unfold other, kcompute.
  assert (N : forall f : R * R -> R, nth k (map f (others p)) 0 = f c).
  { intros f. apply nth_error_nth. rewrite nth_error_map, Hk. reflexivity. }
  destruct (reqb_spec t 0) as [->|Ht0]; cbn [orb rest kinit].
  - rewrite N. ring.
  - destruct (reqb_spec (klen p) 0); [lra|]. destruct (reqb_spec t (klen p)) as [->|Ht1]; cbn [rest kend]; rewrite N; [field; lra|]. unfold lin. field. lra.
Qed.
(* The joints that are interpolated move at the announced velocity, which the
   bound exceeds. *)
Theorem C89_other_joints p k c : 0 < klen p -> nth_error (others p) k = Some c ->
  exists v d, kderivative p 0 1 = Ok v /\ (forall t, kderivative p t 1 = Ok v) /\ nth_error (vrest v) k = Some d /\
    (forall t, 0 <= t <= klen p -> other p k t = fst c + t * d) /\
    (forall ta tb, exists b, nth_error (vrest (kvelocity_bound p ta tb)) k = Some b /\ bounds (klen p) (other p k) b).
Proof.
  intros HL Hk. unfold kderivative, kvelocity_bound. cbn. destruct (reqb_spec 0 (klen p)); [lra|].
  eexists. exists ((snd c - fst c) / klen p). split; [reflexivity|]. split; [reflexivity|]. split.
  { cbn. rewrite map_map, nth_error_map, Hk. reflexivity. }
  split; [intros t; apply other_linear; assumption|]. intros _ _. exists (Rabs (snd c - fst c) / klen p). split.
  { cbn. rewrite map_map, nth_error_map, Hk. reflexivity. }
  intros s t Hs Ht. rewrite !(other_linear p k c) by assumption.
  replace (fst c + s * ((snd c - fst c) / klen p) - (fst c + t * ((snd c - fst c) / klen p))) with ((snd c - fst c) / klen p * (s - t)) by ring.
  rewrite Rabs_mult. apply Rmult_le_compat_r; [apply Rabs_pos|]. unfold Rdiv. rewrite Rabs_mult, (Rabs_right (/ klen p)) by (apply Rle_ge; left; apply Rinv_0_lt_compat, HL). lra.
Qed.

(* ------------------------------------------------------------ translations *)
Lemma bound_nth p k x ta tb : 0 < klen p -> nth_error (axes p) k = Some x ->
  exists s, nth_error (vtrans (kvelocity_bound p ta tb)) k = Some s /\ x_ s = Rabs ((x_ (se x) - x_ (si x)) / klen p).
Proof.
  intros HL Hk. unfold kvelocity_bound. destruct (reqb_spec 0 (klen p)); [lra|]. cbn. rewrite map_map, nth_error_map, Hk. cbn.
  eexists. split; [reflexivity|]. cbn. unfold Rdiv. rewrite Rabs_mult, (Rabs_right (/ klen p)) by (apply Rle_ge; left; apply Rinv_0_lt_compat, HL). reflexivity.
Qed.
Lemma derivative_nth p k x t : 0 < klen p -> nth_error (axes p) k = Some x ->
  exists v s, kderivative p t 1 = Ok v /\ nth_error (vtrans v) k = Some s /\ x_ s = (x_ (se x) - x_ (si x)) / klen p.
Proof.
  intros HL Hk. unfold kderivative. cbn. destruct (reqb_spec 0 (klen p)); [lra|]. eexists. eexists. split; [reflexivity|].
  cbn. rewrite map_map, nth_error_map, Hk. split; reflexivity.
Qed.
Lemma motion_of p k x : path_ok p -> nth_error (axes p) k = Some x ->
  exists V, motion (Rabs (a1 x)) V (klen p) (x_ (si x)) (v_ (si x)) (x_ (se x)) (v_ (se x)) (position p k) (velocity p k).
Proof.
  intros P Hk. exists (Rmax (Rmax (Rabs (v_ (si x))) (Rabs (v_ (se x)))) (Rabs (v_ (si x) + a1 x * t1 x))).
  apply C43_path_is_a_motion; [exact P | exact Hk | | |].
  - eapply Rle_trans; [apply Rmax_l|apply Rmax_l].
  - eapply Rle_trans; [apply Rmax_r|apply Rmax_l].
  - apply Rmax_r.
Qed.

(* A translation at constant velocity has this velocity, and the bound holds. *)
Theorem C89_constant_partial p k x : path_ok p -> 0 < klen p -> nth_error (axes p) k = Some x ->
  (forall s t, 0 <= s <= klen p -> 0 <= t <= klen p -> velocity p k s = velocity p k t) ->
  forall t, 0 <= t <= klen p ->
  exists v s, kderivative p t 1 = Ok v /\ nth_error (vtrans v) k = Some s /\ x_ s = velocity p k t /\
    forall ta tb, exists b, nth_error (vtrans (kvelocity_bound p ta tb)) k = Some b /\ bounds (klen p) (position p k) (x_ b).
Proof.
  intros P HL Hk HC t Ht. destruct (motion_of p k x P Hk) as [V M].
  destruct (derivative_nth p k x t HL Hk) as [v [s [Dv [Dn Ds]]]].
  (* position is linear *)
  set (c := velocity p k 0).
  assert (Lin : forall t1 t2, 0 <= t1 -> t1 <= t2 -> t2 <= klen p -> position p k t2 - position p k t1 = c * (t2 - t1)).
  { intros u w Hu Huw Hw. pose proof (m_vel _ _ _ _ _ _ _ _ _ M) as D.
    pose proof (upper_quad _ _ _ c 0 u w D Hu Huw Hw) as U.
    pose proof (mono (klen p) _ _ u w (derivative_quad _ _ _ c 0 u D) Hu Huw Hw) as U1.
    assert (D2 : derivative_on (klen p) (fun t => position p k t - c * t) (fun t => velocity p k t - c)).
    { intros r eps Hr He. destruct (D r eps Hr He) as [d [Hd K]]. exists d. split; [exact Hd|]. intros q Hq Hqd.
      replace (position p k q - c * q - (position p k r - c * r) - (velocity p k r - c) * (q - r)) with (position p k q - position p k r - velocity p k r * (q - r)) by ring. exact (K q Hq Hqd). }
    pose proof (mono _ _ _ u w D2 Hu Huw Hw) as U2. cbn beta in U2.
    assert (E : forall r, u <= r <= w -> velocity p k r = c) by (intros r Hr; apply HC; lra).
    specialize (U ltac:(intros r Hr; rewrite (E r Hr); lra)). specialize (U2 ltac:(intros r Hr; rewrite (E r Hr); lra)). lra. }
  assert (Ec : (x_ (se x) - x_ (si x)) / klen p = c).
  { rewrite <- (m_x0 _ _ _ _ _ _ _ _ _ M), <- (m_x1 _ _ _ _ _ _ _ _ _ M), (Lin 0 (klen p)) by lra. field. lra. }
  exists v, s. split; [exact Dv|]. split; [exact Dn|]. split; [rewrite Ds, Ec; apply HC; lra|].
  intros ta tb. destruct (bound_nth p k x ta tb HL Hk) as [b [Hb Eb]]. exists b. split; [exact Hb|]. intros u w Hu Hw. rewrite Eb, Ec.
  rewrite <- Rabs_mult. right. f_equal. destruct (Rle_lt_dec w u) as [H|H]; [apply Lin; lra|].
  pose proof (Lin u w ltac:(lra) ltac:(lra) ltac:(lra)). lra.
Qed.

(* As soon as the velocity of a translation varies, the bound does not hold. *)
Theorem C89_bound_refuted p k x : path_ok p -> 0 < klen p -> nth_error (axes p) k = Some x ->
  forall s t, 0 <= s <= klen p -> 0 <= t <= klen p -> velocity p k s <> velocity p k t ->
  forall ta tb, exists b, nth_error (vtrans (kvelocity_bound p ta tb)) k = Some b /\ ~ bounds (klen p) (position p k) (x_ b).
Proof.
  intros P HL Hk s t Hs Ht Hne ta tb. destruct (motion_of p k x P Hk) as [V M]. destruct (bound_nth p k x ta tb HL Hk) as [b [Hb Eb]].
  exists b. split; [exact Hb|]. rewrite Eb. set (m := (x_ (se x) - x_ (si x)) / klen p). intros B.
  assert (Tot : position p k (klen p) - position p k 0 = m * klen p).
  { rewrite (m_x0 _ _ _ _ _ _ _ _ _ M), (m_x1 _ _ _ _ _ _ _ _ _ M). unfold m. field. lra. }
  assert (Line : forall u, 0 <= u <= klen p -> position p k u - position p k 0 = m * u).
  { intros u Hu. pose proof (B u 0 Hu ltac:(lra)) as B0. pose proof (B (klen p) u ltac:(lra) Hu) as B1.
    rewrite (Rabs_right (u - 0)) in B0 by lra. rewrite (Rabs_right (klen p - u)) in B1 by lra.
    destruct (Rle_lt_dec 0 m) as [Hm|Hm]; [rewrite (Rabs_right m) in * by lra | rewrite (Rabs_left m) in * by lra];
      apply Rabs_le_iff in B0; apply Rabs_le_iff in B1; lra. }
  assert (Vel : forall u, 0 <= u <= klen p -> velocity p k u = m).
  { intros u Hu. destruct (Req_dec (velocity p k u) m) as [|N]; [assumption|exfalso].
    assert (He : 0 < Rabs (velocity p k u - m) / 2) by (assert (0 < Rabs (velocity p k u - m)) by (apply Rabs_pos_lt; lra); lra).
    destruct (m_vel _ _ _ _ _ _ _ _ _ M u _ Hu He) as [d [Hd K]].
    assert (W : exists w, 0 <= w <= klen p /\ 0 < Rabs (w - u) < d).
    { destruct (Rle_lt_dec u (klen p / 2)) as [H|H].
      - exists (u + Rmin (d / 2) (klen p / 2)). assert (0 < Rmin (d / 2) (klen p / 2) <= klen p / 2 /\ Rmin (d / 2) (klen p / 2) <= d / 2) by (unfold Rmin; destruct Rle_dec; lra).
        rewrite Rabs_right; lra.
      - exists (u - Rmin (d / 2) (klen p / 2)). assert (0 < Rmin (d / 2) (klen p / 2) <= klen p / 2 /\ Rmin (d / 2) (klen p / 2) <= d / 2) by (unfold Rmin; destruct Rle_dec; lra).
        rewrite Rabs_left; lra. }
    destruct W as [w [Hw Hwd]]. specialize (K w Hw (proj2 Hwd)).
    replace (position p k w - position p k u - velocity p k u * (w - u)) with (- ((velocity p k u - m) * (w - u))) in K
      by (pose proof (Line u Hu); pose proof (Line w Hw); lra).
    rewrite Rabs_Ropp, Rabs_mult in K. nra. }
  apply Hne. rewrite (Vel s Hs), (Vel t Ht). reflexivity.
Qed.

(* A translation that starts at rest and goes somewhere is announced to start
   with its mean velocity. *)
Theorem C89_derivative_refuted p k x : path_ok p -> 0 < klen p -> nth_error (axes p) k = Some x ->
  v_ (si x) = 0 -> x_ (si x) <> x_ (se x) ->
  velocity p k 0 = 0 /\
  exists v s, kderivative p 0 1 = Ok v /\ nth_error (vtrans v) k = Some s /\ x_ s <> velocity p k 0.
Proof.
  intros P HL Hk V0 Hx. destruct (motion_of p k x P Hk) as [V M].
  assert (E : velocity p k 0 = 0) by (rewrite (m_v0 _ _ _ _ _ _ _ _ _ M); exact V0). split; [exact E|].
  destruct (derivative_nth p k x 0 HL Hk) as [v [s [Dv [Dn Ds]]]]. exists v, s. split; [exact Dv|]. split; [exact Dn|]. rewrite E, Ds.
  unfold Rdiv. intros Z. apply Rmult_integral in Z. destruct Z as [Z|Z]; [lra|]. assert (0 < / klen p) by (apply Rinv_0_lt_compat, HL). lra.
Qed.

(* From rest to rest: at half time the translation moves twice as fast as the
   bound. *)
Definition dash : kpath := mkK 2 [mkAxis (mkSt 0 0 0) (mkSt 1 0 0) 1 0 1 0 1 1] [(0, 1)].
Example dash_ok : path_ok dash /\ velocity dash 0 0 = 0 /\ velocity dash 0 1 = 1 /\
  map x_ (vtrans (kvelocity_bound dash 0 2)) = [1 / 2].
Proof.
  split; [split; [cbn; lra|]; constructor; [|constructor]; constructor; cbn; lra|].
  split; [unfold velocity, kcompute; destruct (reqb_spec 0 0); [reflexivity | contradiction]|]. split.
  - unfold velocity, kcompute. cbn [dash klen axes others]. destruct (reqb_spec 1 0); [lra|]. destruct (reqb_spec 2 0); [lra|]. destruct (reqb_spec 1 2); [lra|].
    cbn. unfold axis_at. cbn. destruct (rleb_spec 1 0); [lra|]. destruct (rleb_spec 1 (0 + 1)); [|lra]. cbn. lra.
  - unfold kvelocity_bound. cbn. destruct (reqb_spec 0 2); [lra|]. cbn. f_equal. rewrite Rabs_right by lra. lra.
Qed.
(* a translation at constant velocity *)
Definition cruise : kpath := mkK 2 [mkAxis (mkSt 0 1 0) (mkSt 2 1 0) 0 2 0 0 0 1] [].
Example cruise_ok : path_ok cruise /\ forall s t, 0 <= s <= 2 -> 0 <= t <= 2 -> velocity cruise 0 s = velocity cruise 0 t.
Proof.
  split; [split; [cbn; lra|]; constructor; [|constructor]; constructor; cbn; lra|].
  assert (E : forall t, 0 <= t <= 2 -> velocity cruise 0 t = 1).
  { intros t Ht. unfold velocity, kcompute. cbn [cruise klen axes others]. destruct (reqb_spec t 0); [reflexivity|]. destruct (reqb_spec 2 0); [lra|].
    cbn [orb]. destruct (reqb_spec t 2); [reflexivity|]. cbn. unfold axis_at. cbn. destruct (rleb_spec t 2); [reflexivity | lra]. }
  intros s t Hs Ht. rewrite !E by assumption. reflexivity.
Qed.

(* The derivatives of order two and more are zero; those of order zero and
   less are refused. *)
Theorem C89_orders p t order :
  ((1 < order)%Z -> exists v, kderivative p t order = Ok v /\
     length (vtrans v) = length (axes p) /\ length (vrest v) = length (others p) /\
     Forall (fun s => x_ s = 0 /\ v_ s = 0 /\ ac_ s = 0) (vtrans v) /\ Forall (fun d => d = 0) (vrest v)) /\
  ((order < 1)%Z -> kderivative p t order = Throw) /\ exists v, kderivative p t 1 = Ok v.
Proof.
  unfold kderivative. split; [|split].
  - intros H. destruct (Z.ltb_spec 1 order); [|lia]. eexists. split; [reflexivity|]. unfold vmap, difference. cbn. rewrite !map_map, !map_length. split; [reflexivity|]. split; [reflexivity|].
    split; apply Forall_forall; intros s Hs; apply in_map_iff in Hs as (y & <- & _); cbn; auto.
  - intros H. destruct (Z.ltb_spec 1 order); [lia|]. destruct (Z.eqb_spec order 1); [lia|reflexivity].
  - cbn. destruct (reqb 0 (klen p)); eauto.
Qed.
Print Assumptions C89_other_joints.
Print Assumptions C89_constant_partial.
Print Assumptions C89_bound_refuted.
Print Assumptions C89_derivative_refuted.
Print Assumptions C89_orders.
