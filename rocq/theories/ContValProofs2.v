(* The interval computation of the pairs, with refinement and caching. *)
From Verif Require Import Base Ext IntervalsModel IntervalsProofs ContValModel ContValSpec ContValProofs.
From Coq Require Import Lqa ZArith Qround.

Lemma Qdiv_le_iff a b c : (0 < c)%Q -> (a <= b / c <-> a * c <= b)%Q.
Proof.
  intros Hc. split; intros H.
  - assert (E : (b / c * c == b)%Q) by (field; lra). rewrite <- E. apply Qmult_le_compat_r; lra.
  - apply Qle_shift_div_l; assumption.
Qed.
Lemma Qeq_bool_false a b : Qeq_bool a b = false -> ~ (a == b)%Q.
Proof. intros H E. apply Qeq_bool_iff in E. congruence. Qed.
Local Transparent ele.
Lemma minus_le t h w : ele (minus_ t h) (Fin w) <-> match h with Fin q => (t - q <= w)%Q | _ => True end.
Proof. destruct h; simpl; tauto. Qed.
Lemma plus_le t h w : ele (Fin w) (plus_ t h) <-> match h with Fin q => (w <= t + q)%Q | _ => True end.
Proof. destruct h; simpl; tauto. Qed.
Lemma minus_anti t a b : ele a b -> a <> NInf -> ele (minus_ t b) (minus_ t a).
Proof. destruct a, b; simpl; try tauto; try congruence. intros; lra. Qed.
Lemma plus_mono t a b : ele a b -> a <> NInf -> ele (plus_ t a) (plus_ t b).
Proof. destruct a, b; simpl; try tauto; try congruence. intros; lra. Qed.
Lemma ediv_anti d v w : (0 <= d)%Q -> (0 <= v)%Q -> (v <= w)%Q -> ele (ediv d (Fin w)) (ediv d (Fin v)).
Proof.
  intros Hd Hv Hvw. unfold ediv. destruct (Qeq_bool w 0) eqn:Ew.
  - apply Qeq_bool_iff in Ew. assert (Ev : Qeq_bool v 0 = true) by (apply Qeq_bool_iff; lra). rewrite Ev. exact I.
  - apply Qeq_bool_false in Ew. destruct (Qeq_bool v 0) eqn:Ev; [exact I|]. apply Qeq_bool_false in Ev.
    simpl. apply Qdiv_le_iff; [lra|].
    assert (E : (d / w * w == d)%Q) by (field; lra).
    assert (P : (0 <= d / w)%Q) by (apply Qdiv_le_iff; lra). nra.
Qed.
Lemma ediv_nninf d v : ediv d v <> NInf.
Proof. unfold ediv. destruct v as [|q|]; try discriminate. destruct (Qeq_bool q 0); discriminate. Qed.
Local Opaque ele.

Section Pairs.
Variables ta tb tol : Q.
Hypothesis Htr : (ta <= tb)%Q.
Hypothesis Htol : (0 <= tol)%Q.
Notation inr := (in_range ta tb).

Section One.
Variable p : pair.
Variable sep : nat -> Q -> Q.
Hypothesis F : faithful ta tb p sep.
Hypothesis Hmode : (tol == 0)%Q \/ p_straight p = true.

Definition pfree (v : Q) : Prop := forall i, i < p_objs p -> (- (2 * tol) <= sep i v)%Q.

Lemma dist_bound_spec t : inr t -> forall n, n <= p_objs p ->
  match dist_bound p t n with
  | None => True
  | Some PInf => forall i, i < n -> forall v, inr v -> (0 <= sep i v)%Q
  | Some (Fin q) => (0 <= q)%Q /\ forall i, i < n -> (forall v, inr v -> (0 <= sep i v)%Q) \/ (q <= sep i t)%Q
  | Some NInf => False
  end.
Proof.
  intros Ht. induction n as [|n IH]; intros Hn; cbn [dist_bound].
  { intros i Hi; lia. }
  specialize (IH ltac:(lia)). destruct (dist_bound p t n) as [b|]; [|exact I].
  destruct (p_coll p n t) as [d|] eqn:E; [|exact I].
  assert (Hn' : n < p_objs p) by lia.
  destruct d as [|q|]; [exfalso; exact (test_not_ninf _ _ _ _ F n t E)| |].
  - destruct (test_finite _ _ _ _ F n t q Hn' Ht E) as [Q1 Q2].
    destruct b as [|q'|]; [destruct IH| |].
    + destruct (eltb (Fin q) (Fin q')) eqn:EL.
      * apply eltb_iff, elt_fin in EL. split; [exact Q1|]. intros i Hi.
        destruct (Nat.eq_dec i n) as [->|Hne]; [right; exact Q2|].
        destruct (proj2 IH i ltac:(lia)) as [K|K]; [left; exact K|right; lra].
      * split; [apply IH|]. intros i Hi. destruct (Nat.eq_dec i n) as [->|Hne]; [|apply IH; lia].
        right. assert (L : ele (Fin q') (Fin q)) by ord. apply ele_fin in L. lra.
    + replace (eltb (Fin q) PInf) with true by reflexivity. split; [exact Q1|]. intros i Hi.
      destruct (Nat.eq_dec i n) as [->|Hne]; [right; exact Q2|left; apply IH; lia].
  - pose proof (test_infinite _ _ _ _ F n t Hn' Ht E) as Q.
    replace (eltb PInf b) with false by (destruct b; reflexivity).
    destruct b as [|q'|]; [destruct IH| |].
    + split; [apply IH|]. intros i Hi. destruct (Nat.eq_dec i n) as [->|Hne]; [left; exact Q|apply IH; lia].
    + intros i Hi. destruct (Nat.eq_dec i n) as [->|Hne]; [exact Q|apply IH; lia].
Qed.

(* one certificate: V bounds the variation between t and w, and w is within q/V + 2tol/V *)
Lemma cert (s0 s1 q V dt x : Q) : (0 <= q)%Q -> (q <= s0)%Q -> (0 <= V)%Q -> (0 <= dt)%Q -> (0 <= x)%Q ->
  (s0 - s1 <= V * dt)%Q ->
  match eadd (ediv q (Fin V)) (if Qeq_bool V 0 then PInf else ediv x (Fin V)) with Fin h => (dt <= h)%Q | _ => True end ->
  (- x <= s1)%Q.
Proof.
  intros Hq Hs HV Hdt Hx HL. unfold ediv. destruct (Qeq_bool V 0) eqn:E.
  - intros _. apply Qeq_bool_iff in E. rewrite E in HL. lra.
  - apply Qeq_bool_false in E. cbn [eadd]. intros H.
    assert (E1 : (q / V * V == q)%Q) by (field; lra). assert (E2 : (x / V * V == x)%Q) by (field; lra).
    set (a := (q / V)%Q) in *. set (b := (x / V)%Q) in *. nra.
Qed.

(* both sides of t *)
Lemma vel_sides i x y t w : i < p_objs p -> inr t -> inr w ->
  ele x (Fin t) -> ele (Fin t) y -> ele x (Fin w) -> ele (Fin w) y ->
  (sep i t - sep i w <= p_vel p x y * (if Qlt_le_dec w t then t - w else w - t))%Q.
Proof.
  intros Hi Ht Hw H1 H2 H3 H4. destruct (Qlt_le_dec w t) as [K|K].
  - apply (vel_bound _ _ _ _ F i x y w t Hi Hw Ht); auto. lra.
  - apply (vel_bound _ _ _ _ F i x y t w Hi Ht Hw); auto.
Qed.
Definition adist (t w : Q) : Q := if Qlt_le_dec w t then (t - w)%Q else (w - t)%Q.
Lemma adist_pos t w : (0 <= adist t w)%Q.
Proof. unfold adist; destruct (Qlt_le_dec w t); lra. Qed.
Lemma adist_within t h w : ele (minus_ t h) (Fin w) -> ele (Fin w) (plus_ t h) ->
  match h with Fin q => (adist t w <= q)%Q | _ => True end.
Proof.
  rewrite minus_le, plus_le. destruct h; auto. intros H1 H2. unfold adist. destruct (Qlt_le_dec w t); lra.
Qed.

Definition half (q : Q) (hv : ext * ext) : ext :=
  eadd (fst hv) (match snd hv with
                 | Fin v => if Qeq_bool v 0 then PInf else ediv (2 * tol)%Q (snd hv)
                 | _ => Fin 0
                 end).

(* the whole-range bound *)
Lemma whole_sound i t q w : i < p_objs p -> inr t -> inr w -> (0 <= q)%Q -> (q <= sep i t)%Q ->
  forall T, half q (ediv q (max_vel ta tb p), max_vel ta tb p) = T ->
  ele (minus_ t T) (Fin w) -> ele (Fin w) (plus_ t T) -> (- (2 * tol) <= sep i w)%Q.
Proof.
  intros Hi Ht Hw Hq Hs T HT H1 H2. pose proof (adist_within _ _ _ H1 H2) as HA.
  assert (HL : (sep i t - sep i w <= p_vel p (Fin ta) (Fin tb) * adist t w)%Q).
  { destruct Ht, Hw. apply vel_sides; try split; try (apply ele_fin); auto. }
  pose proof (vel_pos _ _ _ _ F (Fin ta) (Fin tb)) as HV.
  unfold max_vel in HT. destruct (Qeq_bool (tb - ta) 0) eqn:E.
  - apply Qeq_bool_iff in E. destruct Ht, Hw.
    assert (Ez : (adist t w == 0)%Q) by (unfold adist; destruct (Qlt_le_dec w t); lra).
    rewrite Ez in HL. lra.
  - unfold half in HT; cbn [fst snd] in HT. subst T.
    apply (cert (sep i t) (sep i w) q _ (adist t w) (2 * tol) Hq Hs HV (adist_pos t w)); [lra|exact HL|exact HA].
Qed.

Section Refine.
Variables (t q : Q) (left right : bool).
Hypothesis Ht : inr t.
Hypothesis Hq : (0 <= q)%Q.
Let tm (T : ext) := minus_ t (if left then Fin 0 else T).
Let tM (T : ext) := plus_ t (if right then Fin 0 else T).
Let W (T : ext) := p_vel p (tm T) (tM T).
Let nxt (T : ext) := ediv q (Fin (W T)).
Lemma W_mono a b : ele a b -> a <> NInf -> (W a <= W b)%Q.
Proof.
  intros H Hn. apply (vel_mono _ _ _ _ F); unfold tm, tM.
  - destruct left; [apply ele_refl|apply minus_anti; assumption].
  - destruct right; [apply ele_refl|apply plus_mono; assumption].
Qed.
Lemma nxt_anti a b : ele a b -> a <> NInf -> ele (nxt b) (nxt a).
Proof. intros H Hn. apply ediv_anti; [exact Hq|apply (vel_pos _ _ _ _ F)|apply W_mono; assumption]. Qed.
Lemma nxt_nn a : nxt a <> NInf.
Proof. apply ediv_nninf. Qed.
Lemma refine_step_eq T : refine_step p t q left right T = (nxt T, Fin (W T)).
Proof. reflexivity. Qed.
(* after an even number of steps the velocity was bounded on a larger interval *)
Lemma refine_decreases T0 : T0 <> NInf -> ele T0 (nxt T0) -> ele (nxt (nxt (nxt (nxt T0)))) (nxt (nxt (nxt T0))).
Proof.
  intros Hn H. assert (H1 : ele (nxt (nxt T0)) (nxt T0)) by (apply nxt_anti; assumption).
  assert (H2 : ele (nxt (nxt T0)) (nxt (nxt (nxt T0)))) by (apply nxt_anti; [exact H1|apply nxt_nn]).
  apply nxt_anti; [exact H2|apply nxt_nn].
Qed.
End Refine.

Lemma eadd_zero T : T <> NInf -> forall w (t : Q), ele (minus_ t (eadd T (Fin 0))) (Fin w) -> ele (minus_ t T) (Fin w).
Proof. intros Hn w t. rewrite !minus_le. destruct T; [congruence| |auto]. cbn [eadd]. lra. Qed.

Lemma cfi_sound i t q w hv : i < p_objs p -> inr t -> inr w -> (0 <= q)%Q -> (q <= sep i t)%Q ->
  collision_free_interval ta tb p t q = hv ->
  ele (minus_ t (half q hv)) (Fin w) -> ele (Fin w) (plus_ t (half q hv)) -> (- (2 * tol) <= sep i w)%Q.
Proof.
  intros Hi Ht Hw Hq Hs Ehv H1 H2. unfold collision_free_interval in Ehv.
  destruct (negb (refine ta tb p)) eqn:ER.
  { subst hv. exact (whole_sound i t q w Hi Ht Hw Hq Hs _ eq_refl H1 H2). }
  (* refinement: the tolerance is zero *)
  assert (Hz : (tol == 0)%Q).
  { destruct Hmode as [H|H]; [exact H|exfalso]. unfold refine in ER. rewrite H in ER.
    destruct (Qeq_bool (tb - ta) 0); discriminate. }
  assert (EM : max_vel ta tb p = Fin (p_vel p (Fin ta) (Fin tb))).
  { unfold refine in ER. unfold max_vel. destruct (Qeq_bool (tb - ta) 0); [discriminate|reflexivity]. }
  set (T0 := ediv q (max_vel ta tb p)) in *.
  assert (HT0 : T0 <> NInf) by apply ediv_nninf.
  set (left := eltb (minus_ t T0) (Fin ta)) in *. set (right := eltb (Fin tb) (plus_ t T0)) in *.
  destruct (left && right) eqn:EB.
  { subst hv. exact (whole_sound i t q w Hi Ht Hw Hq Hs _ eq_refl H1 H2). }
  rewrite !refine_step_eq in Ehv. cbv beta iota in Ehv.
  set (nxt := fun T : ext => ediv q (Fin (p_vel p (minus_ t (if left then Fin 0 else T)) (plus_ t (if right then Fin 0 else T))))) in *.
  (* the certificate on the whole range covers the sides known valid *)
  assert (Hside : ele (minus_ t T0) (Fin w) -> ele (Fin w) (plus_ t T0) -> (- (2 * tol) <= sep i w)%Q).
  { intros K1 K2. eapply (whole_sound i t q w Hi Ht Hw Hq Hs _ eq_refl); fold T0.
    - unfold half; cbn [fst snd]. rewrite minus_le. rewrite minus_le in K1. rewrite EM.
      destruct T0 as [|u|]; [congruence| |cbn [eadd]; auto]. 
      destruct (Qeq_bool (p_vel p (Fin ta) (Fin tb)) 0) eqn:E0; cbn [eadd]; [auto|].
      unfold ediv. rewrite E0. cbn [eadd]. apply Qeq_bool_false in E0.
      assert (P : (0 <= (2 * tol) / p_vel p (Fin ta) (Fin tb))%Q).
      { pose proof (vel_pos _ _ _ _ F (Fin ta) (Fin tb)). apply Qdiv_le_iff; lra. }
      lra.
    - unfold half; cbn [fst snd]. rewrite plus_le. rewrite plus_le in K2. rewrite EM.
      destruct T0 as [|u|]; [congruence| |cbn [eadd]; auto]. 
      destruct (Qeq_bool (p_vel p (Fin ta) (Fin tb)) 0) eqn:E0; cbn [eadd]; [auto|].
      unfold ediv. rewrite E0. cbn [eadd]. apply Qeq_bool_false in E0.
      assert (P : (0 <= (2 * tol) / p_vel p (Fin ta) (Fin tb))%Q).
      { pose proof (vel_pos _ _ _ _ F (Fin ta) (Fin tb)). apply Qdiv_le_iff; lra. }
      lra. }
  assert (HT0' : T0 = ediv q (Fin (p_vel p (Fin ta) (Fin tb)))) by (unfold T0; rewrite EM; reflexivity).
  pose proof Ht as [T1 T2]. pose proof Hw as [W1 W2].
  apply ele_fin in T1 as T1', T2 as T2', W1 as W1', W2 as W2'.
  assert (HTn : match T0 with Fin u => (0 <= u)%Q | _ => True end).
  { rewrite HT0'. unfold ediv. destruct (Qeq_bool (p_vel p (Fin ta) (Fin tb)) 0) eqn:E0; [exact I|].
    apply Qeq_bool_false in E0. pose proof (vel_pos _ _ _ _ F (Fin ta) (Fin tb)). apply Qdiv_le_iff; lra. }
  (* first step does not decrease *)
  assert (Hinc : ele T0 (nxt T0)).
  { rewrite HT0' at 1. apply ediv_anti; [exact Hq|apply (vel_pos _ _ _ _ F)|].
    apply (vel_mono _ _ _ _ F).
    - unfold left. destruct (eltb (minus_ t T0) (Fin ta)) eqn:E.
      + cbn [minus_]. apply ele_fin. lra.
      + ord.
    - unfold right. destruct (eltb (Fin tb) (plus_ t T0)) eqn:E.
      + cbn [plus_]. apply ele_fin. lra.
      + ord. }
  pose proof (refine_decreases t q left right Hq T0 HT0 Hinc) as Hdec.
  change (ele (nxt (nxt (nxt (nxt T0)))) (nxt (nxt (nxt T0)))) in Hdec.
  set (T3 := nxt (nxt (nxt T0))) in *.
  assert (HT3 : T3 <> NInf) by apply ediv_nninf.
  set (V := p_vel p (minus_ t (if left then Fin 0 else T3)) (plus_ t (if right then Fin 0 else T3))) in *.
  assert (Ehv' : hv = (nxt T3, Fin V)) by (symmetry; exact Ehv). clear Ehv.
  assert (HV : (0 <= V)%Q) by apply (vel_pos _ _ _ _ F).
  (* w within T4 <= T3 *)
  assert (HA : match half q hv with Fin h => (adist t w <= h)%Q | _ => True end) by (apply adist_within; assumption).
  assert (Hin4 : ele (minus_ t (nxt T3)) (Fin w) /\ ele (Fin w) (plus_ t (nxt T3))).
  { rewrite Ehv' in H1, H2. unfold half in H1, H2; cbn [fst snd] in H1, H2.
    rewrite minus_le in H1. rewrite plus_le in H2. rewrite minus_le, plus_le.
    change (nxt T3) with (ediv q (Fin V)) in *. unfold ediv in *.
    destruct (Qeq_bool V 0) eqn:E0; [split; exact I|]. cbn [eadd] in H1, H2. apply Qeq_bool_false in E0.
    assert (Z : (2 * tol / V == 0)%Q) by (rewrite Hz; field; lra). split; lra. }
  destruct Hin4 as [I1 I2].
  assert (J1 : ele (minus_ t T3) (Fin w)).
  { eapply ele_trans; [apply minus_anti; [exact Hdec|apply ediv_nninf]|exact I1]. }
  assert (J2 : ele (Fin w) (plus_ t T3)).
  { eapply ele_trans; [exact I2|apply plus_mono; [exact Hdec|apply ediv_nninf]]. }
  assert (Hcert : ele (minus_ t (if left then Fin 0 else T3)) (Fin w) ->
                  ele (Fin w) (plus_ t (if right then Fin 0 else T3)) -> (- (2 * tol) <= sep i w)%Q).
  { intros K1 K2.
    assert (HTp : match T3 with Fin u => (0 <= u)%Q | _ => True end).
    { unfold T3. unfold nxt at 1. unfold ediv.
      set (v3 := p_vel p _ _). destruct (Qeq_bool v3 0) eqn:E0; [exact I|].
      apply Qeq_bool_false in E0. assert (0 <= v3)%Q by apply (vel_pos _ _ _ _ F). apply Qdiv_le_iff; lra. }
    assert (HL : (sep i t - sep i w <= V * adist t w)%Q).
    { apply vel_sides; auto.
      - rewrite minus_le. destruct left; [lra|]. destruct T3; auto; lra.
      - rewrite plus_le. destruct right; [lra|]. destruct T3; auto; lra. }
    rewrite Ehv' in HA. unfold half in HA; cbn [fst snd] in HA.
    apply (cert (sep i t) (sep i w) q V (adist t w) (2 * tol) Hq Hs HV (adist_pos t w)); [lra|exact HL|exact HA]. }
  destruct (Qlt_le_dec w t) as [Kwt|Kwt].
  - (* left side *)
    destruct left eqn:EL.
    + apply eltb_iff in EL. apply Hside; [ord|]. rewrite plus_le. destruct T0; auto. lra.
    + apply Hcert; [exact J1|]. destruct right; [|exact J2]. cbn [plus_]. apply ele_fin. lra.
  - destruct right eqn:ERt.
    + apply eltb_iff in ERt. apply Hside; [|ord]. rewrite minus_le. destruct T0; auto. lra.
    + apply Hcert; [|exact J2]. destruct left; [|exact J1]. cbn [minus_]. apply ele_fin. lra.
Qed.

(* ---- the pair with its cache ---- *)
Definition pinv (st : pstate) : Prop :=
  isorted (p_set st) /\ (forall v, inr v -> covered (p_set st) (Fin v) -> pfree v) /\
  (p_valid st = true -> forall v, inr v -> pfree v).
Lemma pinit_inv : pinv pinit.
Proof.
  split; [exact I|split; [|discriminate]]. intros v _ H. apply covered_nil in H; destruct H.
Qed.
Lemma eadd_pos a b : (match a with Fin u => (0 <= u)%Q | NInf => False | PInf => True end) ->
  (match b with Fin u => (0 <= u)%Q | NInf => False | PInf => True end) ->
  match eadd a b with Fin u => (0 <= u)%Q | NInf => False | PInf => True end.
Proof. destruct a, b; cbn; try tauto. intros; lra. Qed.
Lemma ediv_pos d v : (0 <= d)%Q -> (match v with Fin u => (0 <= u)%Q | _ => True end) ->
  match ediv d v with Fin u => (0 <= u)%Q | NInf => False | PInf => True end.
Proof.
  intros Hd Hv. unfold ediv. destruct v as [|u|]; try lra. destruct (Qeq_bool u 0) eqn:E; [exact I|].
  apply Qeq_bool_false in E. apply Qdiv_le_iff; lra.
Qed.
Lemma max_vel_pos : match max_vel ta tb p with Fin u => (0 <= u)%Q | _ => True end.
Proof. unfold max_vel. destruct (Qeq_bool (tb - ta) 0); [exact I|apply (vel_pos _ _ _ _ F)]. Qed.
(* the pair returned is (d / V, V) for a velocity bound V *)
Lemma cfi_shape t q : exists V, collision_free_interval ta tb p t q = (ediv q V, V) /\
  (V = max_vel ta tb p \/ exists x y, V = Fin (p_vel p x y)).
Proof.
  unfold collision_free_interval. destruct (negb (refine ta tb p)); [eexists; split; [reflexivity|auto]|].
  destruct (_ && _); [eexists; split; [reflexivity|auto]|].
  unfold refine_step. cbv beta iota zeta. eexists; split; [reflexivity|right; eauto].
Qed.
Lemma half_pos t q : (0 <= q)%Q ->
  match half q (collision_free_interval ta tb p t q) with Fin u => (0 <= u)%Q | NInf => False | PInf => True end.
Proof.
  intros Hq. destruct (cfi_shape t q) as [V [-> HV]]. unfold half; cbn [fst snd].
  assert (HVp : match V with Fin u => (0 <= u)%Q | _ => True end).
  { destruct HV as [->|[x [y ->]]]; [apply max_vel_pos|apply (vel_pos _ _ _ _ F)]. }
  apply eadd_pos; [apply ediv_pos; auto|]. destruct V as [|v|]; try lra.
  destruct (Qeq_bool v 0); [exact I|apply ediv_pos; [lra|exact HVp]].
Qed.

(* unfolding of pair_validate when the pair is really tested *)
Definition new_half (t : Q) (d : ext) : ext :=
  match d with Fin q => half q (collision_free_interval ta tb p t q) | _ => PInf end.
Lemma pair_validate_fresh st t iv : p_valid st = false -> contains_interval (p_set st) iv = false ->
  pair_validate ta tb tol p st t iv =
  match dist_bound p t (p_objs p) with
  | None => (st, None)
  | Some d => let iv' := (minus_ t (new_half t d), plus_ t (new_half t d)) in
              let set' := union_interval iv' (p_set st) in
              (mkPs (contains_interval set' (Fin ta, Fin tb)) set', Some iv')
  end.
Proof.
  intros H1 H2. unfold pair_validate. rewrite H1, H2. destruct (dist_bound p t (p_objs p)) as [d|]; [|reflexivity].
  unfold new_half, half. destruct d as [|q|]; [reflexivity| |reflexivity].
  destruct (collision_free_interval ta tb p t q) as [hd V]. cbn [fst snd]. reflexivity.
Qed.
Lemma new_half_in t d : inr t -> dist_bound p t (p_objs p) = Some d ->
  ele (minus_ t (new_half t d)) (Fin t) /\ ele (Fin t) (plus_ t (new_half t d)).
Proof.
  intros Ht E. pose proof (dist_bound_spec t Ht (p_objs p) (le_n _)) as HD. rewrite E in HD.
  rewrite minus_le, plus_le. unfold new_half. destruct d as [|q|]; auto.
  pose proof (half_pos t q (proj1 HD)) as HP. destruct (half q _); auto. split; lra.
Qed.
Lemma new_half_free t d : inr t -> dist_bound p t (p_objs p) = Some d -> forall w, inr w ->
  ele (minus_ t (new_half t d)) (Fin w) -> ele (Fin w) (plus_ t (new_half t d)) -> pfree w.
Proof.
  intros Ht E w Hw H1 H2 i Hi. pose proof (dist_bound_spec t Ht (p_objs p) (le_n _)) as HD. rewrite E in HD.
  unfold new_half in *. destruct d as [|q|]; [destruct HD| |].
  - destruct HD as [Hq HD]. destruct (HD i Hi) as [K|K]; [specialize (K w Hw); lra|].
    exact (cfi_sound i t q w _ Hi Ht Hw Hq K eq_refl H1 H2).
  - specialize (HD i Hi w Hw). lra.
Qed.

Lemma pair_validate_sound st t iv st' o : pinv st -> inr t ->
  ele (fst iv) (Fin t) -> ele (Fin t) (snd iv) ->
  pair_validate ta tb tol p st t iv = (st', o) ->
  pinv st' /\
  forall tmp, o = Some tmp ->
    ele (fst tmp) (Fin t) /\ ele (Fin t) (snd tmp) /\
    forall v, inr v -> ele (fst tmp) (Fin v) -> ele (Fin v) (snd tmp) -> pfree v.
Proof.
  intros HP Ht Hi1 Hi2 E. pose proof HP as [P1 [P2 P3]]. pose proof Ht as [T1 T2].
  destruct (p_valid st) eqn:EV.
  { unfold pair_validate in E. rewrite EV in E. injection E as <- <-. split; [exact HP|].
    intros tmp Htmp; injection Htmp as <-. cbn [fst snd]. split; [apply ele_fin; exact T1|split; [apply ele_fin; exact T2|]].
    intros v Hv _ _. apply P3; auto. }
  destruct (contains_interval (p_set st) iv) eqn:EC.
  { unfold pair_validate in E. rewrite EV, EC in E. injection E as <- <-. split; [exact HP|].
    intros tmp Htmp; injection Htmp as <-. split; [exact Hi1|split; [exact Hi2|]].
    intros v Hv K1 K2. apply P2; [exact Hv|]. destruct iv as [x y]. apply contains_interval_iff in EC as [a [b [A1 [A2 A3]]]].
    cbn [fst snd] in *. exists a, b. split; [exact A1|split; ord]. }
  rewrite (pair_validate_fresh st t iv EV EC) in E.
  destruct (dist_bound p t (p_objs p)) as [d|] eqn:ED; [|injection E as <- <-; split; [exact HP|discriminate]].
  cbv zeta in E. set (x := minus_ t (new_half t d)) in *. set (y := plus_ t (new_half t d)) in *.
  destruct (new_half_in t d Ht ED) as [N1 N2]. fold x y in N1, N2.
  assert (Hxy : ele x y) by ord.
  destruct (union_interval_spec (p_set st) x y P1 Hxy) as [U1 U2].
  assert (HF : forall v, inr v -> covered (union_interval (x, y) (p_set st)) (Fin v) -> pfree v).
  { intros v Hv K. apply U2 in K. destruct K as [K|[K1 K2]]; [apply P2; assumption|].
    exact (new_half_free t d Ht ED v Hv K1 K2). }
  injection E as <- <-. split.
  - split; [exact U1|split; [exact HF|]]. cbn [p_valid]. intros Hc v Hv. apply HF; [exact Hv|].
    destruct Hv as [V1 V2]. revert v V1 V2. apply (contains_interval_covered _ ta tb U1 Htr). exact Hc.
  - intros tmp Htmp; injection Htmp as <-. cbn [fst snd]. split; [exact N1|split; [exact N2|]].
    intros v Hv K1 K2. exact (new_half_free t d Ht ED v Hv K1 K2).
Qed.

(* width of the certified interval *)
Variables m M : Q.
Hypothesis Hm : (0 < m)%Q.
Hypothesis HM : (0 < M)%Q.
Hypothesis Hclear : forall t q, inr t -> dist_bound p t (p_objs p) = Some (Fin q) -> (m <= q + 2 * tol)%Q.
Hypothesis Hspeed : forall x y, (p_vel p x y <= M)%Q.
Definition wide_at (t : Q) (iv : interval) : Prop :=
  (ele (fst iv) (Fin (t - m / M)) \/ ele (fst iv) (Fin ta)) /\ (ele (Fin (t + m / M)) (snd iv) \/ ele (Fin tb) (snd iv)).
Lemma new_half_wide t d : inr t -> dist_bound p t (p_objs p) = Some d ->
  wide_at t (minus_ t (new_half t d), plus_ t (new_half t d)).
Proof.
  intros Ht E. pose proof (dist_bound_spec t Ht (p_objs p) (le_n _)) as HD. rewrite E in HD.
  unfold wide_at; cbn [fst snd]. destruct d as [|q|]; [destruct HD| |].
  - unfold new_half. destruct HD as [Hq _]. specialize (Hclear t q Ht E).
    destruct (cfi_shape t q) as [V [-> HV]]. unfold half; cbn [fst snd].
    assert (Hgen : forall v, (0 <= v)%Q -> (v <= M)%Q -> V = Fin v ->
              (ele (minus_ t (eadd (ediv q V) (match V with Fin v => if Qeq_bool v 0 then PInf else ediv (2 * tol) V | _ => Fin 0 end))) (Fin (t - m / M)) \/
               ele (minus_ t (eadd (ediv q V) (match V with Fin v => if Qeq_bool v 0 then PInf else ediv (2 * tol) V | _ => Fin 0 end))) (Fin ta)) /\
              (ele (Fin (t + m / M)) (plus_ t (eadd (ediv q V) (match V with Fin v => if Qeq_bool v 0 then PInf else ediv (2 * tol) V | _ => Fin 0 end))) \/
               ele (Fin tb) (plus_ t (eadd (ediv q V) (match V with Fin v => if Qeq_bool v 0 then PInf else ediv (2 * tol) V | _ => Fin 0 end))))).
    { intros v V0 V1 ->. rewrite !minus_le, !plus_le. unfold ediv. destruct (Qeq_bool v 0) eqn:E0; [cbn [eadd]; auto|].
      apply Qeq_bool_false in E0. cbn [eadd].
      assert (K : (m / M <= q / v + 2 * tol / v)%Q).
      { assert (E1 : (q / v + 2 * tol / v == (q + 2 * tol) / v)%Q) by (field; lra). rewrite E1.
        apply Qdiv_le_iff; [lra|]. assert (E2 : (m / M * M == m)%Q) by (field; lra).
        assert (0 <= m / M)%Q by (apply Qdiv_le_iff; lra). nra. }
      split; left; lra. }
    destruct HV as [->|[x [y ->]]].
    + unfold max_vel in *. destruct (Qeq_bool (tb - ta) 0) eqn:E0.
      * apply Qeq_bool_iff in E0. cbn [ediv eadd]. rewrite !minus_le, !plus_le. destruct Ht. split; right; lra.
      * eapply Hgen; [apply (vel_pos _ _ _ _ F)|apply Hspeed|reflexivity].
    + eapply Hgen; [apply (vel_pos _ _ _ _ F)|apply Hspeed|reflexivity].
  - unfold new_half. rewrite !minus_le, !plus_le. auto.
Qed.
Lemma pair_validate_wide st t iv st' tmp : inr t -> wide_at t iv ->
  pair_validate ta tb tol p st t iv = (st', Some tmp) -> wide_at t tmp.
Proof.
  intros Ht Hw E. destruct (p_valid st) eqn:EV.
  { unfold pair_validate in E. rewrite EV in E. injection E as <- <-. split; right; apply ele_refl. }
  destruct (contains_interval (p_set st) iv) eqn:EC.
  { unfold pair_validate in E. rewrite EV, EC in E. injection E as <- <-. exact Hw. }
  rewrite (pair_validate_fresh st t iv EV EC) in E.
  destruct (dist_bound p t (p_objs p)) as [d|] eqn:ED; [|discriminate].
  cbv zeta in E. injection E as <- <-. apply new_half_wide; assumption.
Qed.
End One.
End Pairs.
