From Verif Require Import Base Ext ContValModel ValidationsModel.
From Coq Require Import Lqa ZArith Qround.

Section Disc.
Variable ok : Q -> bool.
Variable reverse : bool.
Variables ta tb stepSize : Q.
Hypothesis Htr : (ta <= tb)%Q.
Hypothesis Hstep : (0 < stepSize)%Q.
(* the k-th sample *)
Fixpoint sample (k : nat) : Q :=
  match k with 0 => d_start reverse ta tb | S j => (sample j + d_step reverse stepSize)%Q end.
Definition drange (v : Q) : Prop := (ta <= v)%Q /\ (v <= tb)%Q.
Lemma sample_eq k : (sample k == d_start reverse ta tb + inject_Z (Z.of_nat k) * d_step reverse stepSize)%Q.
Proof.
  induction k as [|k IH]; [cbn [sample]; change (inject_Z (Z.of_nat 0)) with 0%Q; lra|]. cbn [sample]. rewrite IH.
  rewrite Nat2Z.inj_succ, <- Z.add_1_r, inject_Z_plus. change (inject_Z 1) with 1%Q. lra.
Qed.
Lemma past_spec t : d_past reverse ta tb t = true <-> (if reverse then (t < ta)%Q else (tb < t)%Q).
Proof.
  unfold d_past, d_T1. destruct reverse; rewrite Bool.negb_true_iff.
  - split; intros H.
    + apply Qnot_le_lt. rewrite <- Qle_bool_iff, H. discriminate.
    + destruct (Qle_bool ta t) eqn:E; [|reflexivity]. apply Qle_bool_iff in E. lra.
  - split; intros H.
    + apply Qnot_le_lt. rewrite <- Qle_bool_iff, H. discriminate.
    + destruct (Qle_bool t tb) eqn:E; [|reflexivity]. apply Qle_bool_iff in E. lra.
Qed.
Lemma past_next k : drange (sample k) -> d_past reverse ta tb (sample (S k)) = false <-> drange (sample k) /\ drange (sample (S k)).
Proof.
  intros Hk. rewrite <- Bool.not_true_iff_false, past_spec. cbn [sample] in *. unfold drange, d_step in *.
  destruct reverse; split; intros H; try (split; [split; lra|]); try (split; lra); lra.
Qed.
Lemma out_stays k j : ~ drange (sample k) -> k <= j -> ~ drange (sample j).
Proof.
  intros Hk Hkj Hj. apply Hk. unfold drange in *. rewrite sample_eq in *.
  assert (L : (inject_Z (Z.of_nat k) <= inject_Z (Z.of_nat j))%Q) by (rewrite <- Zle_Qle; lia).
  assert (L0 : (0 <= inject_Z (Z.of_nat k))%Q) by (change 0%Q with (inject_Z 0); rewrite <- Zle_Qle; lia).
  unfold d_start, d_step in *. set (x := inject_Z (Z.of_nat k)) in *. set (y := inject_Z (Z.of_nat j)) in *.
  destruct reverse; split; nra.
Qed.

Lemma classic_range k : drange (sample k) \/ ~ drange (sample k).
Proof. unfold drange. destruct (Qlt_le_dec (sample k) ta); [right; lra|]. destruct (Qlt_le_dec tb (sample k)); [right; lra|left; split; assumption]. Qed.

Definition dinv (t last : Q) (fin : nat) : Prop :=
  (fin = 0 /\ exists k, t = sample k /\ drange t /\ (forall j, j < k -> ok (sample j) = true) /\ last = sample (pred k)) \/
  (1 <= fin /\ t = d_T1 reverse ta tb /\ (fin = 1 \/ ok t = true) /\
   exists k, drange (sample k) /\ ~ drange (sample (S k)) /\ (forall j, j <= k -> ok (sample j) = true) /\ (fin = 1 -> last = sample k)).

Definition first_failure (p : Q) (last : Q) : Prop :=
  ok p = false /\
  ((exists k, p = sample k /\ drange p /\ (forall j, j < k -> ok (sample j) = true) /\ last = sample (pred k)) \/
   (p = d_T1 reverse ta tb /\ exists k, drange (sample k) /\ ~ drange (sample (S k)) /\ (forall j, j <= k -> ok (sample j) = true) /\ last = sample k)).
Definition dverdict (r : vres) : Prop :=
  match r with
  | Valid => (forall k, drange (sample k) -> ok (sample k) = true) /\ ok (d_T1 reverse ta tb) = true
  | Invalid lo hi p => exists last, first_failure p last /\
       (if reverse then lo = Fin last /\ hi = Fin tb else lo = Fin ta /\ hi = Fin last)
  end.
Lemma start_range : drange (d_start reverse ta tb).
Proof. unfold drange, d_start; destruct reverse; split; lra. Qed.
Lemma T1_range : drange (d_T1 reverse ta tb).
Proof. unfold drange, d_T1; destruct reverse; split; lra. Qed.
Lemma T1_past : d_past reverse ta tb (d_T1 reverse ta tb + d_step reverse stepSize)%Q = true.
Proof. apply past_spec. unfold d_T1, d_step. destruct reverse; lra. Qed.
Lemma disc_sound : forall fuel t last fin, dinv t last fin ->
  disc ok reverse ta tb stepSize fuel t last fin = Fuel \/
  exists r, disc ok reverse ta tb stepSize fuel t last fin = Ok r /\ dverdict r.
Proof.
  assert (Hdone : forall t last fin, dinv t last fin -> 2 <= fin -> dverdict Valid).
  { intros t last fin [[-> _]|[_ [-> [[->|Hok] [k [K1 [K2 [K3 _]]]]]]]] Hf; [lia|lia|].
    split; [|exact Hok]. intros j Hj. apply K3. destruct (le_lt_dec j k) as [L|L]; [exact L|].
    exfalso. exact (out_stays (S k) j K2 L Hj). }
  induction fuel as [|f IH]; intros t last fin HI; cbn [disc].
  - destruct (Nat.leb_spec 2 fin) as [Hf|Hf]; [right; exists Valid; split; [reflexivity|exact (Hdone _ _ _ HI Hf)]|left; reflexivity].
  - destruct (Nat.leb_spec 2 fin) as [Hf|Hf]; [right; exists Valid; split; [reflexivity|exact (Hdone _ _ _ HI Hf)]|].
    destruct (ok t) eqn:Eok.
    + destruct HI as [[-> [k [-> [Hr [Hj Hl]]]]]|[H1 [-> [_ [k [K1 [K2 [K3 K4]]]]]]]].
      * change (sample k + d_step reverse stepSize)%Q with (sample (S k)).
        destruct (d_past reverse ta tb (sample (S k))) eqn:EP.
        -- apply IH. right. split; [lia|split; [reflexivity|split; [left; reflexivity|]]].
           exists k. split; [exact Hr|split; [|split; [|reflexivity]]].
           ++ intros HC. assert (X : d_past reverse ta tb (sample (S k)) = false) by (apply past_next; auto). congruence.
           ++ intros j Hjk. destruct (Nat.eq_dec j k) as [->|]; [exact Eok|apply Hj; lia].
        -- apply IH. left. split; [reflexivity|]. exists (S k). split; [reflexivity|].
           split; [apply past_next; assumption|]. split; [|reflexivity].
           intros j Hjk. destruct (Nat.eq_dec j k) as [->|]; [exact Eok|apply Hj; lia].
      * rewrite T1_past. apply IH. right. split; [lia|split; [reflexivity|split; [right; exact Eok|]]].
        exists k. split; [exact K1|split; [exact K2|split; [exact K3|lia]]].
    + right. eexists; split; [reflexivity|].
      assert (HF : first_failure t last).
      { split; [exact Eok|]. destruct HI as [[-> [k [-> [Hr [Hj Hl]]]]]|[H1 [-> [[->|Hc] [k [K1 [K2 [K3 K4]]]]]]]]; [left|right|congruence].
        - exists k; auto.
        - split; [reflexivity|]. exists k; auto. }
      unfold dverdict. destruct reverse; exists last; auto.
Qed.
Lemma dinv_init : dinv (d_start reverse ta tb) (d_start reverse ta tb) 0.
Proof. left. split; [reflexivity|]. exists 0. split; [reflexivity|split; [exact start_range|split; [lia|reflexivity]]]. Qed.
Theorem discretized_sound fuel : discretized ok reverse ta tb stepSize fuel = Fuel \/
  exists r, discretized ok reverse ta tb stepSize fuel = Ok r /\ dverdict r.
Proof. apply disc_sound, dinv_init. Qed.

(* number of checks *)
Definition nsteps : nat := Z.to_nat (Qfloor ((tb - ta) / stepSize)).
Lemma sample_bound k : drange (sample k) -> k <= nsteps.
Proof.
  intros H. unfold drange in H. rewrite sample_eq in H. unfold nsteps.
  assert (X : (inject_Z (Z.of_nat k) <= (tb - ta) / stepSize)%Q).
  { apply Qle_shift_div_l; [exact Hstep|]. unfold d_start, d_step in H. destruct reverse; lra. }
  assert (Y : (Z.of_nat k <= Qfloor ((tb - ta) / stepSize))%Z).
  { rewrite <- (Qfloor_Z (Z.of_nat k)). apply Qfloor_resp_le; exact X. }
  lia.
Qed.
Lemma disc_fuel0 : forall n k fuel last, drange (sample k) -> n + k = S nsteps -> n + 1 <= fuel ->
  disc ok reverse ta tb stepSize fuel (sample k) last 0 <> Fuel.
Proof.
  induction n as [|n IH]; intros k fuel last Hk Hn Hf.
  - pose proof (sample_bound k Hk). lia.
  - destruct fuel as [|f]; [lia|]. cbn [disc Nat.leb]. destruct (ok (sample k)); [|discriminate].
    change (sample k + d_step reverse stepSize)%Q with (sample (S k)).
    destruct (d_past reverse ta tb (sample (S k))) eqn:EP.
    + destruct f as [|f]; [lia|]. cbn [disc Nat.leb Nat.add]. destruct (ok (d_T1 reverse ta tb)); [|discriminate].
      rewrite T1_past. destruct f; cbn [disc Nat.leb Nat.add]; discriminate.
    + apply IH; [apply past_next; assumption|lia|lia].
Qed.
Theorem discretized_terminates fuel : nsteps + 2 <= fuel -> discretized ok reverse ta tb stepSize fuel <> Fuel.
Proof. intros H. apply (disc_fuel0 (S nsteps) 0 fuel); [exact start_range|lia|lia]. Qed.
End Disc.

(* ---- sets of path validations ---- *)
Lemma pvs_true : forall ms p L r, fst (fst (pvs_loop ms p L r)) = true <-> r = true /\ forall m, In m ms -> m p = None.
Proof.
  induction ms as [|m ms IH]; intros p L r; cbn [pvs_loop].
  - cbn. split; [intros ->; split; [reflexivity|intros m []]|tauto].
  - destruct (m p) as [[part t]|] eqn:E.
    + assert (X : forall x y, fst (fst (pvs_loop ms x y false)) = true -> False).
      { intros x y H. apply IH in H as [H _]. discriminate. }
      split.
      * destruct (Qlt_le_dec t L); intros H; destruct (X _ _ H).
      * intros [_ H]. specialize (H m (or_introl eq_refl)). congruence.
    + rewrite IH. split.
      * intros [H1 H2]. split; [exact H1|]. intros x [<-|Hx]; [exact E|exact (H2 x Hx)].
      * intros [H1 H2]. split; [exact H1|]. intros x Hx; apply H2; right; exact Hx.
Qed.

(* forward direction *)
Section Forward.
(* [okm m v]: member m accepts parameter v *)
Variable okm : pmember -> Q -> Prop.
Definition forward_member (m : pmember) : Prop := forall a b, (a <= b)%Q ->
  match m (a, b) with
  | None => forall v, (a <= v)%Q -> (v <= b)%Q -> okm m v
  | Some ((a', b'), t) => a' = a /\ (a <= b')%Q /\ (b' <= t)%Q /\ (t <= b)%Q /\ ((t < b)%Q \/ (a == b)%Q) /\
      forall v, (a <= v)%Q -> (v <= b')%Q -> (v < t)%Q -> okm m v
  end.
Lemma pvs_forward : forall ms a b L r res a' b' L', (forall m, In m ms -> forward_member m) ->
  (a <= b)%Q -> (b <= L)%Q -> pvs_loop ms (a, b) L r = (res, (a', b'), L') ->
  a' = a /\ (a <= b')%Q /\ (b' <= b)%Q /\ (b' <= L')%Q /\ (L' <= L)%Q /\
  forall m v, In m ms -> (a <= v)%Q -> (v <= b')%Q -> res = false -> (v < L')%Q -> okm m v.
Proof.
  induction ms as [|m ms IH]; intros a b L r res a' b' L' Hms Hab HbL E; cbn [pvs_loop] in E.
  - injection E as <- <- <- <-. repeat split; try lra. intros m v [].
  - pose proof (Hms m (or_introl eq_refl) a b Hab) as Hm.
    assert (Hms' : forall m, In m ms -> forward_member m) by (intros x Hx; apply Hms; right; exact Hx).
    destruct (m (a, b)) as [[[pa pb] t]|] eqn:Em.
    + destruct Hm as [-> [H1 [H2 [H3 [H4 H5]]]]]. destruct (Qlt_le_dec t L) as [Ht|Ht].
      * destruct (IH a pb t false res a' b' L' Hms' H1 H2 E) as [J1 [J2 [J3 [J4 [J5 J6]]]]].
        split; [exact J1|split; [exact J2|split; [lra|split; [exact J4|split; [lra|]]]]].
        intros x v [<-|Hx] V1 V2 Hr V3; [apply H5; lra|apply (J6 x v); auto].
      * destruct (IH a b L false res a' b' L' Hms' Hab HbL E) as [J1 [J2 [J3 [J4 [J5 J6]]]]].
        split; [exact J1|split; [exact J2|split; [exact J3|split; [exact J4|split; [exact J5|]]]]].
        intros x v [<-|Hx] V1 V2 Hr V3; [|apply (J6 x v); auto].
        (* t >= L >= b >= t: the range is degenerate *)
        destruct H4 as [H4|H4]; [lra|]. apply H5; lra.
    + destruct (IH a b L r res a' b' L' Hms' Hab HbL E) as [J1 [J2 [J3 [J4 [J5 J6]]]]].
      split; [exact J1|split; [exact J2|split; [exact J3|split; [exact J4|split; [exact J5|]]]]].
      intros x v [<-|Hx] V1 V2 Hr V3; [apply Hm; lra|apply (J6 x v); auto].
Qed.
End Forward.

(* ---- configuration validations ---- *)
Lemma config_validations_spec {C} (q : C) : forall ms i,
  match config_validations ms q i with
  | None => forall m, In m ms -> m q = true
  | Some k => exists j m, k = i + j /\ nth_error ms j = Some m /\ m q = false /\
                forall j' m', j' < j -> nth_error ms j' = Some m' -> m' q = true
  end.
Proof.
  induction ms as [|m ms IH]; intros i; cbn [config_validations]; [intros m []|].
  destruct (m q) eqn:E.
  - specialize (IH (i + 1)). destruct (config_validations ms q (i + 1)) as [k|].
    + destruct IH as [j [m' [-> [H1 [H2 H3]]]]]. exists (S j), m'. split; [lia|split; [exact H1|split; [exact H2|]]].
      intros [|j'] x Hj Hx; cbn in Hx; [injection Hx as <-; exact E|apply (H3 j' x); [lia|exact Hx]].
    + intros x [<-|Hx]; [exact E|exact (IH x Hx)].
  - exists 0, m. split; [lia|split; [reflexivity|split; [exact E|intros; lia]]].
Qed.

(* ---- joint bounds ---- *)
Definition in_bounds (lower upper : list ext) (q : list Q) (i : nat) : Prop :=
  forall l u x, nth_error lower i = Some l -> nth_error upper i = Some u -> nth_error q i = Some x ->
    ele l (Fin x) /\ ele (Fin x) u.
Lemma joint_loop_spec : forall lower upper q i, length upper = length lower -> length lower <= length q ->
  match joint_loop lower upper q i with
  | Ok None => forall j, j < length lower -> in_bounds lower upper q j
  | Ok (Some (JointBound k)) => exists j, k = i + j /\ j < length lower /\ ~ in_bounds lower upper q j /\ forall j', j' < j -> in_bounds lower upper q j'
  | _ => False
  end.
Proof.
  induction lower as [|l lower IH]; intros upper q i Hl Hq; destruct upper as [|u upper]; cbn in Hl; try discriminate; cbn [joint_loop].
  - intros j Hj; cbn in Hj; lia.
  - destruct q as [|x q]; [cbn in Hq; lia|]. destruct (eltb u (Fin x) || eltb (Fin x) l) eqn:E.
    + exists 0. split; [lia|split; [cbn; lia|split; [|intros; lia]]].
      intros H. destruct (H l u x eq_refl eq_refl eq_refl) as [H1 H2].
      apply Bool.orb_true_iff in E as [E|E]; ord.
    + apply Bool.orb_false_iff in E as [E1 E2].
      assert (H0 : in_bounds (l :: lower) (u :: upper) (x :: q) 0).
      { intros l0 u0 x0 A B D. cbn in A, B, D. injection A as <-. injection B as <-. injection D as <-. split; ord. }
      specialize (IH upper q (i + 1)). injection Hl as Hl. specialize (IH Hl). cbn in Hq.
      specialize (IH ltac:(lia)). destruct (joint_loop lower upper q (i + 1)) as [[[k|k]|]| | |]; try exact IH.
      * destruct IH as [j [-> [J1 [J2 J3]]]]. exists (S j). split; [lia|split; [cbn; lia|split; [exact J2|]]].
        intros [|j'] Hj'; [exact H0|]. apply J3; lia.
      * intros [|j] Hj; [exact H0|]. apply IH. cbn in Hj; lia.
Qed.
Lemma extra_loop_spec : forall lower upper q i, length upper = length lower -> length lower <= length q ->
  match extra_loop lower upper q i with
  | Ok None => forall j, j < length lower -> in_bounds lower upper q j
  | Ok (Some (ExtraBound k)) => exists j, k = i + j /\ j < length lower /\ ~ in_bounds lower upper q j /\ forall j', j' < j -> in_bounds lower upper q j'
  | _ => False
  end.
Proof.
  induction lower as [|l lower IH]; intros upper q i Hl Hq; destruct upper as [|u upper]; cbn in Hl; try discriminate; cbn [extra_loop].
  - intros j Hj; cbn in Hj; lia.
  - destruct q as [|x q]; [cbn in Hq; lia|]. destruct (eltb (Fin x) l || eltb u (Fin x)) eqn:E.
    + exists 0. split; [lia|split; [cbn; lia|split; [|intros; lia]]].
      intros H. destruct (H l u x eq_refl eq_refl eq_refl) as [H1 H2].
      apply Bool.orb_true_iff in E as [E|E]; ord.
    + apply Bool.orb_false_iff in E as [E1 E2].
      assert (H0 : in_bounds (l :: lower) (u :: upper) (x :: q) 0).
      { intros l0 u0 x0 A B D. cbn in A, B, D. injection A as <-. injection B as <-. injection D as <-. split; ord. }
      specialize (IH upper q (i + 1)). injection Hl as Hl. specialize (IH Hl). cbn in Hq.
      specialize (IH ltac:(lia)). destruct (extra_loop lower upper q (i + 1)) as [[[k|k]|]| | |]; try exact IH.
      * destruct IH as [j [-> [J1 [J2 J3]]]]. exists (S j). split; [lia|split; [cbn; lia|split; [exact J2|]]].
        intros [|j'] Hj'; [exact H0|]. apply J3; lia.
      * intros [|j] Hj; [exact H0|]. apply IH. cbn in Hj; lia.
Qed.
