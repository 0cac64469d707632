(* The constraint of the spline optimisers says what the specification says. *)
From Coq Require Import Reals Lra Lia List Arith Bool.
From Verif Require Import Base XReal PolySpec PolyProofs SplineModel SplineSpec SplineProofs SplineProofs2 SplineProofs3
  LinConsModel LinConsSpec LinConsProofs LinConsProofs2 SplineOptModel SplineOptSpec SplineOptProofs.
Import ListNotations.
Open Scope R_scope.

Lemma deriv_at_iff k s d t v : sp_t0 s < sp_t1 s -> (0 < k)%nat -> (d < sp_nv s)%nat ->
  deriv_at k s d t v <-> sp_derivative s t k d = v.
Proof.
  intros H Hk Hd. pose proof (sp_curve_derivative s k H Hk d Hd) as HD. split.
  - intros (D & H1 & <-). exact (nth_derivative_unique k _ _ _ HD H1 t).
  - intro E. exists (fun t => sp_derivative s t k d). split; assumption.
Qed.

Lemma ratio_0 s : sp_t0 s < sp_t1 s -> sp_ratio s (sp_t0 s) = 0.
Proof. intro H. destruct (len_pos s H) as [E P]. unfold sp_ratio. rewrite E. field. lra. Qed.
Lemma ratio_1 s : sp_t0 s < sp_t1 s -> sp_ratio s (sp_t1 s) = 1.
Proof. intro H. destruct (len_pos s H) as [E P]. unfold sp_ratio. rewrite E. unfold sp_len in *. field. lra. Qed.

Section KEEP.
  Variables (n nv : nat) (ss : list spline).
  Hypothesis HP : proper n nv ss.

  Lemma nth_proper j : (j < length ss)%nat ->
    sp_deg (nth_spline ss j) = n /\ sp_nv (nth_spline ss j) = nv /\ sp_t0 (nth_spline ss j) < sp_t1 (nth_spline ss j).
  Proof. intro Hj. destruct HP as (_ & _ & H). apply H. apply nth_In. exact Hj. Qed.
  Lemma len_ss : (0 < length ss)%nat.
  Proof. destruct HP as (H & _). destruct ss; [congruence|cbn; lia]. Qed.

  Lemma comb_der x j k d u t : (j < length ss)%nat -> sp_ratio (nth_spline ss j) t = u ->
    comb n nv j d (basis_der (nth_spline ss j) k u) x = sp_derivative (nth_spline (update_splines n nv x ss) j) t k d.
  Proof.
    intros Hj Hu. rewrite update_nth by exact Hj. destruct (nth_proper j Hj) as (En & _ & _).
    unfold sp_derivative, combine_par. cbn [set_par sp_deg sp_par]. rewrite En.
    unfold comb. apply rsum_ext. intros i _. rewrite <- Hu.
    unfold basis_der, sp_ratio, sp_len. cbn [set_par sp_deg sp_t0 sp_t1]. ring.
  Qed.
  Lemma comb_der0 j k d u t : (j < length ss)%nat -> (d < nv)%nat -> sp_ratio (nth_spline ss j) t = u ->
    comb n nv j d (basis_der (nth_spline ss j) k u) (params n nv ss) = sp_derivative (nth_spline ss j) t k d.
  Proof.
    intros Hj Hd Hu. destruct (nth_proper j Hj) as (En & _ & _).
    unfold sp_derivative, combine_par. rewrite En. unfold comb. apply rsum_ext. intros i Hi. rewrite params_pidx by lia.
    rewrite <- Hu. ring.
  Qed.

  (* passive dofs unchanged: same combinations *)
  Lemma comb_passive x j d B : (d < nv)%nat ->
    (forall i, (i <= n)%nat -> x (pidx n nv j i d) = sp_par (nth_spline ss j) i d) ->
    comb n nv j d B x = comb n nv j d B (params n nv ss).
  Proof. intros Hd H. unfold comb. apply rsum_ext. intros i Hi. rewrite H, params_pidx by lia. reflexivity. Qed.

  Variable act : nat -> nat -> bool.
  Let l := (length ss - 1)%nat.

  Lemma path_sat x : sat (path_constraint n nv ss act) x <-> keeps n nv ((n - 1) / 2) act ss (update_splines n nv x ss).
  Proof.
    pose proof len_ss as Hl. assert (Hll : (l < length ss)%nat) by (unfold l; lia).
    set (m := ((n - 1) / 2)%nat).
    assert (Esat : sat (path_constraint n nv ss act) x <->
      (forall r, In r (problem_rows n nv ss act) -> dot (length ss * bsize n nv) (fst r) x = snd r) /\
      (forall r, In r (continuity_rows n nv ss act m) -> dot (length ss * bsize n nv) (fst r) x = snd r)).
    { unfold path_constraint. rewrite sat_rows. split.
      - intro H. split; intros r Hr; apply H, in_or_app; auto.
      - intros (H1 & H2) r Hr. apply in_app_or in Hr. destruct Hr; auto. }
    rewrite Esat, problem_sat, continuity_sat by exact Hl. cbv zeta.
    set (ss' := update_splines n nv x ss).
    (* facts on the new splines *)
    assert (N : forall j, (j < length ss)%nat -> sp_nv (nth_spline ss' j) = nv /\ sp_t0 (nth_spline ss' j) = sp_t0 (nth_spline ss j) /\
       sp_t1 (nth_spline ss' j) = sp_t1 (nth_spline ss j) /\ sp_base (nth_spline ss' j) = sp_base (nth_spline ss j) /\
       (forall i d, sp_par (nth_spline ss' j) i d = x (pidx n nv j i d)) /\ sp_t0 (nth_spline ss' j) < sp_t1 (nth_spline ss' j)).
    { intros j Hj. destruct (nth_proper j Hj) as (_ & Ev & Ht). unfold ss'. rewrite update_nth by exact Hj. cbn [set_par sp_nv sp_t0 sp_t1 sp_base sp_par]. repeat split; auto. }
    (* values as combinations *)
    assert (C0 : forall j d, (j < length ss)%nat -> (d < nv)%nat ->
       curve (nth_spline ss' j) d (sp_t0 (nth_spline ss' j)) = sp_base (nth_spline ss j) d + comb n nv j d (basis_der (nth_spline ss j) 0 0) x /\
       curve (nth_spline ss' j) d (sp_t1 (nth_spline ss' j)) = sp_base (nth_spline ss j) d + comb n nv j d (basis_der (nth_spline ss j) 0 1) x /\
       curve (nth_spline ss j) d (sp_t0 (nth_spline ss j)) = sp_base (nth_spline ss j) d + comb n nv j d (basis_der (nth_spline ss j) 0 0) (params n nv ss) /\
       curve (nth_spline ss j) d (sp_t1 (nth_spline ss j)) = sp_base (nth_spline ss j) d + comb n nv j d (basis_der (nth_spline ss j) 0 1) (params n nv ss)).
    { intros j d Hj Hd. destruct (N j Hj) as (_ & E0 & E1 & Eb & _ & Hp). destruct (nth_proper j Hj) as (_ & _ & Ht).
      rewrite <- !sp_derivative_0 by assumption. rewrite Eb.
      rewrite (comb_der x j 0 d 0 (sp_t0 (nth_spline ss j)) Hj (ratio_0 _ Ht)), (comb_der x j 0 d 1 (sp_t1 (nth_spline ss j)) Hj (ratio_1 _ Ht)).
      rewrite (comb_der0 j 0 d 0 (sp_t0 (nth_spline ss j)) Hj Hd (ratio_0 _ Ht)), (comb_der0 j 0 d 1 (sp_t1 (nth_spline ss j)) Hj Hd (ratio_1 _ Ht)).
      rewrite E0, E1. repeat split; reflexivity. }
    assert (CD : forall k j d v, (0 < k)%nat -> (j < length ss)%nat -> (d < nv)%nat ->
       (deriv_at k (nth_spline ss' j) d (sp_t0 (nth_spline ss' j)) v <-> comb n nv j d (basis_der (nth_spline ss j) k 0) x = v) /\
       (deriv_at k (nth_spline ss' j) d (sp_t1 (nth_spline ss' j)) v <-> comb n nv j d (basis_der (nth_spline ss j) k 1) x = v)).
    { intros k j d v Hk Hj Hd. destruct (N j Hj) as (Env & E0 & E1 & _ & _ & Hp). destruct (nth_proper j Hj) as (_ & _ & Ht).
      rewrite !deriv_at_iff by (try assumption; rewrite Env; exact Hd).
      rewrite (comb_der x j k d 0 (sp_t0 (nth_spline ss j)) Hj (ratio_0 _ Ht)), (comb_der x j k d 1 (sp_t1 (nth_spline ss j)) Hj (ratio_1 _ Ht)).
      rewrite E0, E1. split; reflexivity. }
    split.
    - intros (Hpas & Hcon).
      assert (Pas : forall j d B, (j < length ss)%nat -> (d < nv)%nat -> act j d = false -> comb n nv j d B x = comb n nv j d B (params n nv ss)).
      { intros j d B Hj Hd Ha. apply comb_passive; [exact Hd|]. intros i Hi. apply Hpas; assumption. }
      split.
      + intros d Hd. destruct (C0 0%nat d Hl Hd) as (-> & _ & -> & _). f_equal.
        destruct (act 0%nat d) eqn:Ha; [|apply Pas; assumption].
        destruct (Hcon 0%nat ltac:(lia)) as (H1 & _ & _). exact (H1 d Hd Ha).
      + intros d Hd. cbv zeta. fold l. destruct (C0 l d Hll Hd) as (_ & -> & _ & ->). f_equal.
        destruct (act l d) eqn:Ha; [|apply Pas; assumption].
        destruct (Hcon 0%nat ltac:(lia)) as (_ & _ & H3). exact (H3 d Hd Ha).
      + intros j d Hj Hd. destruct (C0 j d ltac:(lia) Hd) as (_ & -> & _ & ->). destruct (C0 (S j) d Hj Hd) as (-> & _ & -> & _).
        destruct (act j d || act (S j) d)%bool eqn:Ha.
        * apply orb_true_iff in Ha. destruct (Hcon 0%nat ltac:(lia)) as (_ & H2 & _). pose proof (H2 j d Hj Hd Ha) as E. cbn [Nat.eqb] in E. lra.
        * apply orb_false_iff in Ha. destruct Ha as (Ha & Hb).
          rewrite (Pas j d _ ltac:(lia) Hd Ha), (Pas (S j) d _ Hj Hd Hb). ring.
      + intros k d Hk Hd Ha. apply (CD k 0%nat d 0); try (assumption || lia).
        destruct (Hcon k ltac:(lia)) as (H1 & _ & _). rewrite (H1 d Hd Ha). destruct (Nat.eqb_spec k 0); [lia|reflexivity].
      + intros k d Hk Hd. cbv zeta. fold l. intro Ha. apply (CD k l d 0); try (assumption || lia).
        destruct (Hcon k ltac:(lia)) as (_ & _ & H3). fold l in H3. rewrite (H3 d Hd Ha). destruct (Nat.eqb_spec k 0); [lia|reflexivity].
      + intros k j d Hk Hj Hd Ha. exists (comb n nv j d (basis_der (nth_spline ss j) k 1) x). split.
        * apply (CD k j d); try (assumption || lia). reflexivity.
        * apply (CD k (S j) d); try (assumption || lia). destruct (Hcon k ltac:(lia)) as (_ & H2 & _). pose proof (H2 j d Hj Hd Ha) as E.
          destruct (Nat.eqb_spec k 0); [lia|]. lra.
      + intros j i d Hj Hi Hd Ha. destruct (N j Hj) as (_ & _ & _ & _ & E & _). rewrite E. apply Hpas; assumption.
    - intro K. split.
      + intros j i d Hj Hi Hd Ha. destruct (N j Hj) as (_ & _ & _ & _ & E & _). rewrite <- E. exact (k_passive _ _ _ _ _ _ K j i d Hj Hi Hd Ha).
      + intros k Hk. fold l. split; [|split].
        * intros d Hd Ha. destruct (Nat.eqb_spec k 0) as [->|Hk0].
          -- pose proof (k_start _ _ _ _ _ _ K d Hd) as E. destruct (C0 0%nat d Hl Hd) as (E1 & _ & E2 & _). rewrite E1, E2 in E. lra.
          -- apply (CD k 0%nat d 0); try (assumption || lia). exact (k_start_der _ _ _ _ _ _ K k d ltac:(lia) Hd Ha).
        * intros j d Hj Hd Ha. destruct (Nat.eqb_spec k 0) as [->|Hk0].
          -- pose proof (k_meet _ _ _ _ _ _ K j d Hj Hd) as E. destruct (C0 j d ltac:(lia) Hd) as (_ & E1 & _ & E2). destruct (C0 (S j) d Hj Hd) as (E3 & _ & E4 & _).
             rewrite E1, E2, E3, E4 in E. lra.
          -- destruct (k_meet_der _ _ _ _ _ _ K k j d ltac:(lia) Hj Hd Ha) as (v & V1 & V2).
             apply (CD k j d v) in V1; try (assumption || lia). apply (CD k (S j) d v) in V2; try (assumption || lia). lra.
        * intros d Hd Ha. destruct (Nat.eqb_spec k 0) as [->|Hk0].
          -- pose proof (k_end _ _ _ _ _ _ K d Hd) as E. cbv zeta in E. fold l in E. destruct (C0 l d Hll Hd) as (_ & E1 & _ & E2). rewrite E1, E2 in E. lra.
          -- apply (CD k l d 0); try (assumption || lia). exact (k_end_der _ _ _ _ _ _ K k d ltac:(lia) Hd Ha).
  Qed.
End KEEP.

(* number of rows *)
Lemma flat_map_len {A B} (f : A -> list B) l : length (flat_map f l) = list_sum (map (fun a => length (f a)) l).
Proof. induction l as [|a t IH]; cbn [flat_map map list_sum fold_right length]; [reflexivity|]. rewrite app_length, IH. reflexivity. Qed.
Lemma list_sum_const {A} (l : list A) c : list_sum (map (fun _ => c) l) = (length l * c)%nat.
Proof. induction l as [|a t IH]; cbn [map list_sum fold_right length Nat.mul]; [reflexivity|]. unfold list_sum in IH. rewrite IH. reflexivity. Qed.
Lemma list_sum_ext {A} (f g : A -> nat) l : (forall a, In a l -> f a = g a) -> list_sum (map f l) = list_sum (map g l).
Proof. intro H. f_equal. apply map_ext_in. exact H. Qed.
Lemma continuity_count n nv ss act m : length (continuity_rows n nv ss act m) = continuity_nb_rows nv ss act m.
Proof.
  unfold continuity_rows, continuity_nb_rows. cbv zeta. set (l := (length ss - 1)%nat).
  rewrite flat_map_len.
  rewrite (list_sum_ext _ (fun _ => (length (selected nv (act 0%nat))
    + list_sum (map (fun i => length (selected nv (fun d => act (i - 1)%nat d || act i d)%bool)) (seq 1 l))
    + length (selected nv (act l)))%nat)).
  - rewrite list_sum_const, seq_length. lia.
  - intros k _. rewrite !app_length, !map_length, flat_map_len.
    rewrite <- (seq_shift l 0), map_map.
    rewrite (list_sum_ext _ (fun i => length (selected nv (fun d => act (S i - 1)%nat d || act (S i) d)%bool))).
    + lia.
    + intros j _. rewrite map_length. replace (S j - 1)%nat with j by lia. reflexivity.
Qed.
