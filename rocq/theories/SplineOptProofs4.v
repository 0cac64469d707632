(* The joint bound constraint of the spline optimisers. *)
From Coq Require Import Reals Lra Lia List Arith Bool.
From Verif Require Import Base XReal PolySpec PolyProofs SplineModel SplineSpec SplineProofs SplineProofs2 SplineProofs3 SplineProofs4 SplineProofs5
  LinConsModel LinConsSpec LinConsProofs LinConsProofs2 SplineOptModel SplineOptSpec SplineOptProofs SplineOptProofs2.
Import ListNotations.
Open Scope R_scope.

Lemma curve_within s d low up t : sp_t0 s < sp_t1 s -> sp_t0 s <= t <= sp_t1 s ->
  (forall i, (i <= sp_deg s)%nat -> within low up (sp_base s d + sp_par s i d)) -> within low up (curve s d t).
Proof.
  intros H Ht HB. set (u := (t - sp_t0 s) / (sp_t1 s - sp_t0 s)).
  assert (Hu : 0 <= u <= 1) by (apply (ratio_range s t H Ht)).
  assert (E : curve s d t = rsum (fun i => (sp_base s d + sp_par s i d) * bernstein (sp_deg s) i u) (S (sp_deg s))).
  { unfold curve. fold u.
    rewrite (rsum_ext (fun i => (_ + _) * _) (fun i => sp_base s d * bernstein (sp_deg s) i u + sp_par s i d * bernstein (sp_deg s) i u)) by (intros; ring).
    rewrite rsum_plus, rsum_scal, bernstein_unity. ring. }
  assert (HC : forall c, c = rsum (fun i => c * bernstein (sp_deg s) i u) (S (sp_deg s))).
  { intro c. rewrite rsum_scal, bernstein_unity. ring. }
  split.
  - destruct low as [l| | |]; try exact I; try (destruct (HB 0%nat ltac:(lia)) as [F _]; exact F).
    rewrite E, (HC l). apply rsum_le. intros i Hi. apply Rmult_le_compat_r; [apply bernstein_nonneg; exact Hu|]. apply (HB i). lia.
  - destruct up as [v| | |]; try exact I; try (destruct (HB 0%nat ltac:(lia)) as [_ F]; exact F).
    rewrite E, (HC v). apply rsum_le. intros i Hi. apply Rmult_le_compat_r; [apply bernstein_nonneg; exact Hu|]. apply (HB i). lia.
Qed.

(* ------------------------------------------------------------ constraint *)
Lemma pidx_shift n nv j k d : pidx n nv j k d = (pidx n nv j k 0 + d)%nat.
Proof. unfold pidx. lia. Qed.
Section BOUND.
  Variables (n nv ns : nat) (bases : nat -> vec) (joints : list bjoint) (low up : nat -> xr).

  Lemma dot_shift j k (f : vec) x : (j < ns)%nat -> (k <= n)%nat ->
    dot (ns * bsize n nv) (fun c => if ((pidx n nv j k 0 <=? c) && (c <? pidx n nv j k 0 + nv))%nat then f (c - pidx n nv j k 0)%nat else 0) x
    = rsum (fun d => f d * x (pidx n nv j k d)) nv.
  Proof.
    intros Hj Hk. unfold dot. rewrite rsum_params. rewrite (rsum_single _ _ j Hj).
    - rewrite (rsum_single _ (S n) k ltac:(lia)).
      + apply rsum_ext. intros d Hd. unfold pidx.
        replace (j * bsize n nv + (k * nv + d) - (j * bsize n nv + (k * nv + 0)))%nat with d by lia.
        destruct (Nat.leb_spec (j * bsize n nv + (k * nv + 0)) (j * bsize n nv + (k * nv + d))); [|lia].
        destruct (Nat.ltb_spec (j * bsize n nv + (k * nv + d)) (j * bsize n nv + (k * nv + 0) + nv)); [|lia]. reflexivity.
      + intros k' Hk' Hn. apply rsum_zero. intros d Hd.
        destruct (Nat.leb_spec (pidx n nv j k 0) (pidx n nv j k' d)); [|cbn [andb]; ring].
        destruct (Nat.ltb_spec (pidx n nv j k' d) (pidx n nv j k 0 + nv)); [|cbn [andb]; ring]. exfalso.
        assert (E : pidx n nv j k' d = pidx n nv j k (pidx n nv j k' d - pidx n nv j k 0)).
        { rewrite (pidx_shift n nv j k (pidx n nv j k' d - pidx n nv j k 0)). lia. }
        apply pidx_inj in E; try lia.
    - intros j' Hj' Hn. apply rsum_zero. intros k' Hk'. apply rsum_zero. intros d Hd.
      destruct (Nat.leb_spec (pidx n nv j k 0) (pidx n nv j' k' d)); [|cbn [andb]; ring].
      destruct (Nat.ltb_spec (pidx n nv j' k' d) (pidx n nv j k 0 + nv)); [|cbn [andb]; ring]. exfalso.
      assert (E : pidx n nv j' k' d = pidx n nv j k (pidx n nv j' k' d - pidx n nv j k 0)).
      { rewrite (pidx_shift n nv j k (pidx n nv j' k' d - pidx n nv j k 0)). lia. }
      apply pidx_inj in E; try lia.
  Qed.

  Lemma in_bound_rows b r : In r (bound_rows joints low up b) <-> exists jt i, In jt joints /\ (i < bj_n jt)%nat /\
    ((is_inf (low (bj_q jt + i)%nat) = false /\ r = (unit_row (bj_v jt + i) (-1), - (fin (low (bj_q jt + i)%nat) - b (bj_q jt + i)%nat))) \/
     (is_inf (up (bj_q jt + i)%nat) = false /\ r = (unit_row (bj_v jt + i) 1, fin (up (bj_q jt + i)%nat) - b (bj_q jt + i)%nat))).
  Proof.
    unfold bound_rows. rewrite in_flat_map. split.
    - intros (jt & Hj & Hr). unfold joint_rows in Hr. apply in_flat_map in Hr. destruct Hr as (i & Hi & Hr). apply in_seq in Hi.
      exists jt, i. split; [exact Hj|]. split; [lia|]. apply in_app_or in Hr. destruct Hr as [Hr|Hr].
      + left. destruct (is_inf _); [destruct Hr|]. destruct Hr as [<-|[]]. split; reflexivity.
      + right. destruct (is_inf (up _)); [destruct Hr|]. destruct Hr as [<-|[]]. split; reflexivity.
    - intros (jt & i & Hj & Hi & Hr). exists jt. split; [exact Hj|]. unfold joint_rows. apply in_flat_map. exists i. split; [apply in_seq; lia|].
      apply in_or_app. destruct Hr as [(E & ->)|(E & ->)]; [left|right]; rewrite E; left; reflexivity.
  Qed.
  Lemma unit_sum c v x : (c < nv)%nat -> rsum (fun d => - unit_row c v d * x d) nv = - v * x c.
  Proof.
    intro H. rewrite (rsum_single _ _ c H).
    - unfold unit_row. rewrite Nat.eqb_refl. ring.
    - intros d Hd Hn. unfold unit_row. destruct (Nat.eqb_spec d c); [congruence|ring].
  Qed.

  Hypothesis HS : sound_bounds nv joints low up.
  Lemma bound_near e x :
    (forall j k r, (j < ns)%nat -> (k <= n)%nat -> In r (bound_rows joints low up (bases j)) ->
       - snd r - e <= rsum (fun d => - fst r d * x (pidx n nv j k d)) nv) <->
    (forall j k jt i, (j < ns)%nat -> (k <= n)%nat -> In jt joints -> (i < bj_n jt)%nat ->
       nearly_within e (low (bj_q jt + i)%nat) (up (bj_q jt + i)%nat) (bases j (bj_q jt + i)%nat + x (pidx n nv j k (bj_v jt + i)))).
  Proof.
    split.
    - intros HR j k jt i Hj Hk Hjt Hi. destruct (HS jt i Hjt Hi) as (Hv & HL & HU). split.
      + destruct HL as [->|(l & El)]; [exact I|]. rewrite El.
        pose proof (HR j k (unit_row (bj_v jt + i) (-1), - (l - bases j (bj_q jt + i)%nat)) Hj Hk) as E.
        cbn [fst snd] in E. rewrite (unit_sum _ _ (fun d => x (pidx n nv j k d)) Hv) in E.
        assert (In (unit_row (bj_v jt + i) (-1), - (l - bases j (bj_q jt + i)%nat)) (bound_rows joints low up (bases j))) as HI.
        { apply in_bound_rows. exists jt, i. repeat split; try assumption. left. rewrite El. split; reflexivity. }
        specialize (E HI). lra.
      + destruct HU as [->|(u & Eu)]; [exact I|]. rewrite Eu.
        pose proof (HR j k (unit_row (bj_v jt + i) 1, u - bases j (bj_q jt + i)%nat) Hj Hk) as E.
        cbn [fst snd] in E. rewrite (unit_sum _ _ (fun d => x (pidx n nv j k d)) Hv) in E.
        assert (In (unit_row (bj_v jt + i) 1, u - bases j (bj_q jt + i)%nat) (bound_rows joints low up (bases j))) as HI.
        { apply in_bound_rows. exists jt, i. repeat split; try assumption. right. rewrite Eu. split; reflexivity. }
        specialize (E HI). lra.
    - intros HW j k r Hj Hk Hr. apply in_bound_rows in Hr. destruct Hr as (jt & i & Hjt & Hi & Hr).
      destruct (HS jt i Hjt Hi) as (Hv & HL & HU). destruct (HW j k jt i Hj Hk Hjt Hi) as (W1 & W2).
      destruct Hr as [(E & ->)|(E & ->)]; cbn [fst snd]; rewrite (unit_sum _ _ (fun d => x (pidx n nv j k d)) Hv).
      + destruct HL as [El|(l & El)]; rewrite El in *; [discriminate|]. cbn [fin]. lra.
      + destruct HU as [El|(l & El)]; rewrite El in *; [discriminate|]. cbn [fin]. lra.
  Qed.
  Lemma bound_rows_all (P : row -> Prop) :
    (forall r, In r (flat_map (fun j => flat_map (fun k =>
         map (fun r : row => ((fun c => if ((pidx n nv j k 0 <=? c) && (c <? pidx n nv j k 0 + nv))%nat
                                        then - fst r (c - pidx n nv j k 0)%nat else 0) : vec, - snd r))
             (bound_rows joints low up (bases j))) (seq 0 (S n))) (seq 0 ns)) -> P r) <->
    forall j k r, (j < ns)%nat -> (k <= n)%nat -> In r (bound_rows joints low up (bases j)) ->
      P ((fun c => if ((pidx n nv j k 0 <=? c) && (c <? pidx n nv j k 0 + nv))%nat
                                        then - fst r (c - pidx n nv j k 0)%nat else 0) : vec, - snd r).
  Proof.
    split.
    - intros H j k r Hj Hk Hr. apply H. apply in_flat_map. exists j. split; [apply in_seq; lia|].
      apply in_flat_map. exists k. split; [apply in_seq; lia|]. apply in_map_iff. exists r. split; [reflexivity|exact Hr].
    - intros H r Hr. apply in_flat_map in Hr. destruct Hr as (j & Hj & Hr). apply in_flat_map in Hr. destruct Hr as (k & Hk & Hr).
      apply in_map_iff in Hr. destruct Hr as (r' & <- & Hr'). apply in_seq in Hj. apply in_seq in Hk. apply H; lia || assumption.
  Qed.
  Lemma nearly_0 l u q : nearly_within 0 l u q <-> within l u q.
  Proof. unfold nearly_within, within. destruct l, u; rewrite ?Rminus_0_r, ?Rplus_0_r; tauto. Qed.

  Lemma bound_sat x : sat_ineq (bound_constraint n nv ns bases joints low up) x <->
    forall j k jt i, (j < ns)%nat -> (k <= n)%nat -> In jt joints -> (i < bj_n jt)%nat ->
      within (low (bj_q jt + i)%nat) (up (bj_q jt + i)%nat) (bases j (bj_q jt + i)%nat + x (pidx n nv j k (bj_v jt + i))).
  Proof.
    unfold bound_constraint. rewrite sat_ineq_rows, bound_rows_all. pose proof (bound_near 0 x) as B. split.
    - intros H j k jt i Hj Hk Hjt Hi. apply nearly_0. apply B; try assumption. clear j k jt i Hj Hk Hjt Hi. intros j k r Hj Hk Hr.
      pose proof (H j k r Hj Hk Hr) as E. cbn [fst snd] in E. rewrite (dot_shift j k (fun d => - fst r d) x Hj Hk) in E. lra.
    - intros H j k r Hj Hk Hr. cbn [fst snd]. rewrite (dot_shift j k (fun d => - fst r d) x Hj Hk).
      assert (E : - snd r - 0 <= rsum (fun d => - fst r d * x (pidx n nv j k d)) nv); [|lra].
      apply B; try assumption. clear j k r Hj Hk Hr. intros. apply nearly_0. apply H; assumption.
  Qed.
  Lemma bound_err_near e x :
    let lc := bound_constraint n nv ns bases joints low up in
    (forall r, (r < lc_rows lc)%nat -> - e <= bound_err lc x r) <->
    forall j k jt i, (j < ns)%nat -> (k <= n)%nat -> In jt joints -> (i < bj_n jt)%nat ->
      nearly_within e (low (bj_q jt + i)%nat) (up (bj_q jt + i)%nat) (bases j (bj_q jt + i)%nat + x (pidx n nv j k (bj_v jt + i))).
  Proof.
    cbv zeta. rewrite <- bound_near.
    transitivity (forall r, In r (flat_map (fun j => flat_map (fun k =>
         map (fun r : row => ((fun c => if ((pidx n nv j k 0 <=? c) && (c <? pidx n nv j k 0 + nv))%nat
                                        then - fst r (c - pidx n nv j k 0)%nat else 0) : vec, - snd r))
             (bound_rows joints low up (bases j))) (seq 0 (S n))) (seq 0 ns)) -> - e <= dot (ns * bsize n nv) (fst r) x - snd r).
    - unfold bound_err, bound_constraint, lc_of_rows. cbn [lc_rows lc_cols lc_J lc_b val]. set (l := flat_map _ _). split.
      + intros H r Hr. destruct (In_nth l r row0 Hr) as (i & Hi & <-). apply (H i Hi).
      + intros H i Hi. apply (H (nth i l row0)). apply nth_In. exact Hi.
    - rewrite bound_rows_all. split; intros H j k r Hj Hk Hr; specialize (H j k r Hj Hk Hr); cbn [fst snd] in *;
        rewrite (dot_shift j k (fun d => - fst r d) x Hj Hk) in *; lra.
  Qed.
End BOUND.

(* number of rows when all the bounds are finite *)
Lemma joint_rows_len low up b j : (forall i, (i < bj_n j)%nat -> (exists r, low (bj_q j + i)%nat = Fin r) /\ exists r, up (bj_q j + i)%nat = Fin r) ->
  length (joint_rows low up b j) = (2 * bj_n j)%nat.
Proof.
  intro H. unfold joint_rows. rewrite flat_map_len. rewrite (list_sum_ext _ (fun _ => 2%nat)).
  - rewrite list_sum_const, seq_length. lia.
  - intros i Hi. apply in_seq in Hi. destruct (H i ltac:(lia)) as ((r & ->) & (r' & ->)). reflexivity.
Qed.
Lemma bound_rows_len joints low up b : finite_bounds joints low up ->
  length (bound_rows joints low up b) = (2 * list_sum (map bj_n joints))%nat.
Proof.
  intro H. unfold bound_rows. rewrite flat_map_len. rewrite (list_sum_ext _ (fun j => 2 * bj_n j)%nat).
  - clear H. induction joints as [|a t IH]; [reflexivity|]. cbn [map list_sum fold_right] in *. unfold list_sum in IH. rewrite IH. lia.
  - intros j Hj. apply joint_rows_len. intros i Hi. apply H; assumption.
Qed.
Lemma bound_constraint_len n nv ns bases joints low up : finite_bounds joints low up ->
  lc_rows (bound_constraint n nv ns bases joints low up) = (ns * (S n * (2 * list_sum (map bj_n joints))))%nat.
Proof.
  intro H. unfold bound_constraint, lc_of_rows. cbn [lc_rows]. rewrite flat_map_len.
  rewrite (list_sum_ext _ (fun _ => S n * (2 * list_sum (map bj_n joints)))%nat).
  - rewrite list_sum_const, seq_length. reflexivity.
  - intros j _. rewrite flat_map_len. rewrite (list_sum_ext _ (fun _ => 2 * list_sum (map bj_n joints))%nat).
    + rewrite list_sum_const, seq_length. reflexivity.
    + intros k _. rewrite map_length. apply bound_rows_len. exact H.
Qed.

(* ---------------------------------------------------------- validateBounds *)
Section VALIDATE.
  Variables (n nb : nat).
  Definition cand (j k : nat) (side : bool) : nat := (2 * j + k * 2 * nb + (if side then 1 else 0))%nat.
  Lemma worst_inv err j l : forall acc, fst acc <= - thr ->
    (snd acc = None -> fst acc = - thr) -> (forall r, snd acc = Some r -> err r = fst acc /\ fst acc < - thr) ->
    let res := fold_left (fun (acc : R * option nat) k =>
      let low := (2 * j + k * 2 * nb)%nat in
      let up := (2 * j + k * 2 * nb + 1)%nat in
      let acc := if rltb (err low) (fst acc) then (err low, Some low) else acc in
      if rltb (err up) (fst acc) then (err up, Some up) else acc) l acc in
    fst res <= fst acc /\ (snd res = None -> snd acc = None /\ fst res = - thr) /\
    (forall r, snd res = Some r -> err r = fst res /\ fst res < - thr /\ (snd acc = Some r \/ exists k side, In k l /\ r = cand j k side)) /\
    forall k side, In k l -> fst res <= err (cand j k side).
  Proof.
    induction l as [|k t IH]; intros acc H1 H2 H3; cbn [fold_left].
    - cbv zeta. split; [lra|]. split; [intro E; split; [exact E|exact (H2 E)]|]. split; [|intros ? ? []].
      intros r E. destruct (H3 r E). repeat split; try assumption. left; exact E.
    - cbv zeta.
      set (a1 := if rltb (err (2 * j + k * 2 * nb)%nat) (fst acc) then (err (2 * j + k * 2 * nb)%nat, Some (2 * j + k * 2 * nb)%nat) else acc).
      set (a2 := if rltb (err (2 * j + k * 2 * nb + 1)%nat) (fst a1) then (err (2 * j + k * 2 * nb + 1)%nat, Some (2 * j + k * 2 * nb + 1)%nat) else a1).
      assert (A1 : fst a1 <= fst acc /\ fst a1 <= err (2 * j + k * 2 * nb)%nat /\ (snd a1 = None -> snd acc = None /\ fst a1 = - thr) /\
        (forall r, snd a1 = Some r -> err r = fst a1 /\ fst a1 < - thr /\ (snd acc = Some r \/ r = cand j k false))).
      { unfold a1. destruct (rltb_spec (err (2 * j + k * 2 * nb)%nat) (fst acc)) as [L|L]; cbn [fst snd].
        - split; [lra|]. split; [lra|]. split; [discriminate|]. intros r [= <-]. split; [reflexivity|]. split; [lra|]. right. unfold cand. lia.
        - split; [lra|]. split; [lra|]. split; [auto|]. intros r E. destruct (H3 r E). auto. }
      destruct A1 as (A11 & A12 & A13 & A14).
      assert (A2 : fst a2 <= fst a1 /\ fst a2 <= err (2 * j + k * 2 * nb + 1)%nat /\ (snd a2 = None -> snd acc = None /\ fst a2 = - thr) /\
        (forall r, snd a2 = Some r -> err r = fst a2 /\ fst a2 < - thr /\ (snd acc = Some r \/ exists side, r = cand j k side))).
      { unfold a2. destruct (rltb_spec (err (2 * j + k * 2 * nb + 1)%nat) (fst a1)) as [L|L]; cbn [fst snd].
        - split; [lra|]. split; [lra|]. split; [discriminate|]. intros r [= <-]. split; [reflexivity|]. split; [lra|]. right. exists true. unfold cand. lia.
        - split; [lra|]. split; [lra|]. split; [exact A13|]. intros r E. destruct (A14 r E) as (Q1 & Q2 & Q3). split; [exact Q1|]. split; [exact Q2|].
          destruct Q3 as [Q3|Q3]; [left; exact Q3|right; exists false; exact Q3]. }
      destruct A2 as (A21 & A22 & A23 & A24).
      destruct (IH a2) as (R1 & R2 & R3 & R4).
      + lra.
      + intro E. apply A23 in E. apply E.
      + intros r E. destruct (A24 r E) as (Q1 & Q2 & _). split; assumption.
      + split; [lra|]. split; [|split].
        * intro E. destruct (R2 E) as (E1 & E2). split; [|exact E2]. apply A23 in E1. apply E1.
        * intros r E. destruct (R3 r E) as (Q1 & Q2 & Q3). split; [exact Q1|]. split; [exact Q2|]. destruct Q3 as [Q3|(k' & side & Hk & Er)].
          -- destruct (A24 r Q3) as (_ & _ & [Q4|(side & Q4)]); [left; exact Q4|]. right. exists k, side. split; [left; reflexivity|exact Q4].
          -- right. exists k', side. split; [right; exact Hk|exact Er].
        * intros k' side [->|Hk]; [|apply R4; exact Hk]. destruct side; unfold cand; [lra|]. rewrite Nat.add_0_r. lra.
  Qed.
  Lemma worst_none err j : snd (worst n nb j err) = None <-> forall k side, (k <= n)%nat -> - thr <= err (cand j k side).
  Proof.
    unfold worst. destruct (worst_inv err j (seq 0 (S n)) (- thr, None)) as (R1 & R2 & R3 & R4); cbn [fst snd]; try lra; try (intros; discriminate).
    split.
    - intros E k side Hk. destruct (R2 E) as (_ & E2). rewrite <- E2. apply R4. apply in_seq. lia.
    - intro H. destruct (snd _) as [r|] eqn:E; [|reflexivity]. exfalso. destruct (R3 r eq_refl) as (Q1 & Q2 & [Q3|(k & side & Hk & ->)]); [discriminate Q3|].
      apply in_seq in Hk. specialize (H k side ltac:(lia)). lra.
  Qed.
  Lemma worst_some err j r : snd (worst n nb j err) = Some r -> err r < - thr /\ (exists k side, (k <= n)%nat /\ r = cand j k side) /\
    forall k side, (k <= n)%nat -> err r <= err (cand j k side).
  Proof.
    unfold worst. destruct (worst_inv err j (seq 0 (S n)) (- thr, None)) as (R1 & R2 & R3 & R4); cbn [fst snd]; try lra; try (intros; discriminate).
    intro E. destruct (R3 r E) as (Q1 & Q2 & [Q3|(k & side & Hk & ->)]); [discriminate Q3|]. apply in_seq in Hk.
    split; [lra|]. split; [exists k, side; split; [lia|reflexivity]|]. intros k' side' Hk'. rewrite Q1. apply R4. apply in_seq. lia.
  Qed.

  Variables (ns : nat) (err : nat -> R).
  Let rows := (S n * (2 * nb))%nat.
  Let step i (acc : list nat * (nat -> bool)) j :=
      if snd acc j then acc
      else
        match worst n nb j (fun r => err (i * rows + r)%nat) with
        | (_, None) => acc
        | (_, Some r) => (fst acc ++ [(i * rows + r)%nat], upd (snd acc) j true)
        end.
  Definition dof_of (r : nat) : nat := ((r mod (2 * nb)) / 2)%nat.
  Lemma dof_cand i j k side : (j < nb)%nat -> dof_of (i * rows + cand j k side) = j.
  Proof.
    intro Hj. unfold dof_of, cand, rows.
    replace (i * (S n * (2 * nb)) + (2 * j + k * 2 * nb + (if side then 1 else 0)))%nat
      with ((i * S n + k) * (2 * nb) + (2 * j + (if side then 1 else 0)))%nat by lia.
    rewrite mod_block by (destruct side; lia). rewrite (Nat.mul_comm 2 j), Nat.div_add_l by lia. destruct side; cbn [Nat.div Nat.divmod fst Nat.sub]; lia.
  Qed.
  Lemma cand_lt i j k side : (i < ns)%nat -> (j < nb)%nat -> (k <= n)%nat -> (i * rows + cand j k side < ns * rows)%nat.
  Proof.
    intros Hi Hj Hk. unfold cand. assert (2 * j + k * 2 * nb + (if side then 1 else 0) < rows)%nat.
    { unfold rows. assert (k * (2 * nb) <= n * (2 * nb))%nat by (apply Nat.mul_le_mono_r; lia).
      replace (S n * (2 * nb))%nat with (n * (2 * nb) + 2 * nb)%nat by lia. destruct side; lia. }
    assert (S i * rows <= ns * rows)%nat by (apply Nat.mul_le_mono_r; lia). cbn [Nat.mul] in *. lia.
  Qed.
  Lemma cand_surj r : (r < ns * rows)%nat -> exists i j k side, (i < ns)%nat /\ (j < nb)%nat /\ (k <= n)%nat /\ r = (i * rows + cand j k side)%nat.
  Proof.
    intro Hr. assert (0 < rows)%nat as Hp by (destruct rows; lia).
    assert (0 < nb)%nat as Hb by (destruct nb; [unfold rows in Hp; lia|lia]).
    pose proof (Nat.div_mod r rows ltac:(lia)) as E1. pose proof (Nat.mod_upper_bound r rows ltac:(lia)) as B1.
    set (q := (r mod rows)%nat) in *. pose proof (Nat.div_mod q (2 * nb) ltac:(lia)) as E2. pose proof (Nat.mod_upper_bound q (2 * nb) ltac:(lia)) as B2.
    set (w := (q mod (2 * nb))%nat) in *. pose proof (Nat.div_mod w 2 ltac:(lia)) as E3. pose proof (Nat.mod_upper_bound w 2 ltac:(lia)) as B3.
    exists (r / rows)%nat, (w / 2)%nat, (q / (2 * nb))%nat, ((w mod 2) =? 1)%nat. split; [|split; [|split]].
    - apply Nat.div_lt_upper_bound; [lia|]. rewrite Nat.mul_comm. exact Hr.
    - apply Nat.div_lt_upper_bound; lia.
    - apply Nat.lt_succ_r. apply Nat.div_lt_upper_bound; [lia|]. unfold rows in B1. rewrite Nat.mul_comm. exact B1.
    - unfold cand. destruct (Nat.eqb_spec (w mod 2) 1); lia.
  Qed.

  Definition vinv (acc : list nat * (nat -> bool)) : Prop :=
    (forall r, In r (fst acc) -> (r < ns * rows)%nat /\ err r < - thr) /\
    (forall j, snd acc j = true <-> In j (map dof_of (fst acc))) /\ NoDup (map dof_of (fst acc)).
  Definition seen (acc : list nat * (nat -> bool)) i j : Prop :=
    (exists k side, (k <= n)%nat /\ err (i * rows + cand j k side) < - thr) -> In j (map dof_of (fst acc)).
  Lemma step_inv i j acc : (i < ns)%nat -> (j < nb)%nat -> vinv acc ->
    vinv (step i acc j) /\ seen (step i acc j) i j /\ (forall d, In d (map dof_of (fst acc)) -> In d (map dof_of (fst (step i acc j)))).
  Proof.
    intros Hi Hj (V1 & V2 & V3). unfold step. destruct (snd acc j) eqn:Es.
    { split; [exact (conj V1 (conj V2 V3))|]. split; [|auto]. intros _. apply V2. exact Es. }
    set (e := fun r => err (i * rows + r)%nat).
    pose proof (worst_none e j) as WN. pose proof (worst_some e j) as WS.
    destruct (worst n nb j e) as (v & [r|]); cbn [snd] in *.
    - destruct (WS r eq_refl) as (S1 & (k & side & Hk & ->) & _). clear WS WN.
      assert (Hn : ~ In j (map dof_of (fst acc))) by (intro F; apply V2 in F; congruence).
      cbn [fst snd]. rewrite map_app. cbn [map]. rewrite (dof_cand i j k side Hj). split; [|split].
      + unfold vinv. cbn [fst snd]. rewrite map_app. cbn [map]. rewrite (dof_cand i j k side Hj). split; [|split].
        * intros r Hr. apply in_app_or in Hr. destruct Hr as [Hr|[<-|[]]]; [apply V1; exact Hr|]. split; [apply cand_lt; assumption|exact S1].
        * intro j'. destruct (Nat.eq_dec j' j) as [->|Hn'].
          -- rewrite upd_eq. split; [intros _; apply in_or_app; right; left; reflexivity|reflexivity].
          -- rewrite upd_neq by congruence. rewrite V2. split; [intro F; apply in_or_app; left; exact F|].
             intro F. apply in_app_or in F. destruct F as [F|[F|[]]]; [exact F|congruence].
        * clear - V3 Hn. induction (map dof_of (fst acc)) as [|a t IH]; cbn [app].
          -- constructor; [intros []|constructor].
          -- inversion V3; subst. constructor.
             ++ intro F. apply in_app_or in F. destruct F as [F|[F|[]]]; [contradiction|]. subst. apply Hn. left; reflexivity.
             ++ apply IH; [assumption|]. intro F. apply Hn. right; exact F.
      + intros _. cbn [fst]. rewrite map_app. apply in_or_app. right. cbn [map]. rewrite (dof_cand i j k side Hj). left; reflexivity.
      + intros d Hd. apply in_or_app. left; exact Hd.
    - split; [exact (conj V1 (conj V2 V3))|]. split; [|auto]. intros (k & side & Hk & F). exfalso.
      pose proof (proj1 WN eq_refl k side Hk) as Q. unfold e in Q. lra.
  Qed.
  Lemma inner_inv i l : (i < ns)%nat -> (forall j, In j l -> (j < nb)%nat) -> forall acc, vinv acc ->
    let acc' := fold_left (step i) l acc in
    vinv acc' /\ (forall j, In j l -> seen acc' i j) /\ (forall d, In d (map dof_of (fst acc)) -> In d (map dof_of (fst acc'))).
  Proof.
    intros Hi. induction l as [|j t IH]; intros Hl acc V; cbn [fold_left]; cbv zeta.
    - split; [exact V|]. split; [intros ? []|auto].
    - destruct (step_inv i j acc Hi (Hl j (or_introl eq_refl)) V) as (V1 & S1 & M1).
      destruct (IH (fun j' H => Hl j' (or_intror H)) _ V1) as (V2 & S2 & M2). split; [exact V2|]. split; [|auto].
      intros j' [<-|Hj']; [|apply S2; exact Hj']. intro F. apply M2, S1, F.
  Qed.
  Lemma outer_inv l : (forall i, In i l -> (i < ns)%nat) -> forall acc, vinv acc ->
    let acc' := fold_left (fun acc i => fold_left (step i) (seq 0 nb) acc) l acc in
    vinv acc' /\ (forall i j, In i l -> (j < nb)%nat -> seen acc' i j) /\ (forall d, In d (map dof_of (fst acc)) -> In d (map dof_of (fst acc'))).
  Proof.
    induction l as [|i t IH]; intros Hl acc V; cbn [fold_left]; cbv zeta.
    - split; [exact V|]. split; [intros ? ? []|auto].
    - destruct (inner_inv i (seq 0 nb) (Hl i (or_introl eq_refl)) ltac:(intros j Hj; apply in_seq in Hj; lia) acc V) as (V1 & S1 & M1).
      destruct (IH (fun j' H => Hl j' (or_intror H)) _ V1) as (V2 & S2 & M2). split; [exact V2|]. split; [|auto].
      intros i' j [<-|Hi'] Hj; [|apply S2; assumption]. intro F. apply M2, S1; [apply in_seq; lia|exact F].
  Qed.
  Lemma validate_list :
    let res := fst (fold_left (fun acc i => fold_left (step i) (seq 0 nb) acc) (seq 0 ns) ([], fun _ => false)) in
    (forall r, In r res -> (r < ns * rows)%nat /\ err r < - thr) /\ NoDup (map dof_of res) /\
    (forall r, (r < ns * rows)%nat -> err r < - thr -> In (dof_of r) (map dof_of res)).
  Proof.
    cbv zeta. destruct (outer_inv (seq 0 ns) ltac:(intros i Hi; apply in_seq in Hi; lia) ([], fun _ => false)) as ((V1 & _ & V3) & S & _).
    - split; [intros ? []|]. split; [intro j; split; [discriminate|intros []]|constructor].
    - split; [exact V1|]. split; [exact V3|]. intros r Hr He. destruct (cand_surj r Hr) as (i & j & k & side & Hi & Hj & Hk & ->).
      rewrite dof_cand by exact Hj. apply (S i j); [apply in_seq; lia|exact Hj|]. exists k, side. split; assumption.
  Qed.
End VALIDATE.

Lemma validate_ok n nv ns nb lc x : (0 < ns)%nat -> lc_rows lc = (ns * (S n * (2 * nb)))%nat ->
  (forall r, In r (validate_bounds n nv ns lc x) -> (r < lc_rows lc)%nat /\ bound_err lc x r < - thr) /\
  NoDup (map (dof_of nb) (validate_bounds n nv ns lc x)) /\
  (forall r, (r < lc_rows lc)%nat -> bound_err lc x r < - thr -> In (dof_of nb r) (map (dof_of nb) (validate_bounds n nv ns lc x))).
Proof.
  intros Hns Hr. assert (E1 : (lc_rows lc / ns = S n * (2 * nb))%nat).
  { rewrite Hr. rewrite Nat.mul_comm. apply Nat.div_mul. lia. }
  assert (E2 : (S n * (2 * nb) / (2 * S n) = nb)%nat).
  { replace (S n * (2 * nb))%nat with (nb * (2 * S n))%nat by lia. apply Nat.div_mul. lia. }
  unfold validate_bounds. rewrite E1. cbv zeta. rewrite E2, Hr. exact (validate_list n nb ns (bound_err lc x)).
Qed.
Lemma validate_nil n nv ns nb lc x : (0 < ns)%nat -> lc_rows lc = (ns * (S n * (2 * nb)))%nat ->
  validate_bounds n nv ns lc x = [] <-> forall r, (r < lc_rows lc)%nat -> - thr <= bound_err lc x r.
Proof.
  intros Hns Hr. destruct (validate_ok n nv ns nb lc x Hns Hr) as (V1 & _ & V3). split.
  - intros E r Hlt. destruct (Rle_or_lt (- thr) (bound_err lc x r)) as [|L]; [assumption|]. specialize (V3 r Hlt L). rewrite E in V3. destruct V3.
  - intro H. destruct (validate_bounds n nv ns lc x) as [|r t]; [reflexivity|]. destruct (V1 r (or_introl eq_refl)) as (Q1 & Q2).
    specialize (H r Q1). lra.
Qed.
