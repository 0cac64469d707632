(* Extraction of sub-paths. *)
From Coq Require Import Sorting.Sorted.
From Verif Require Import Base QcTac PathModel PathSpec PathProofs PathProofs2.
Open Scope Qc_scope.

Section PathProofs3.
Variable conf : Type.
Variable interp : conf -> conf -> Qc -> conf.
Hypothesis Hgeo : geodesic interp.
Notation path := (path conf).
Notation knot := (Qc * conf)%type.
Notation eval := (eval conf interp).
Notation compute := (compute conf interp).
Notation extract := (extract conf interp).
Notation reverse := (reverse conf interp).
Notation restricts := (restricts conf interp).
Notation plays_back := (plays_back conf interp).
Notation pl := (pl conf interp).

(* value of a straight path *)
Definition sval (I : itv) (q0 q1 : conf) (s : Qc) : conf :=
  if qeqb (ilen I) 0 then q0 else interp q0 q1 ((s - fst I) / ilen I).

Lemma straight_compute_val h q0 q1 s : 
  straight_compute conf interp h q0 q1 s = sval (pr h) q0 q1 s.
Proof.
  unfold straight_compute, sval. qcaseeq (ilen (pr h)) 0; [rewrite orb_true_r; reflexivity|].
  rewrite orb_false_r. qcaseeq s (fst (pr h)).
  - subst s. replace ((fst (pr h) - fst (pr h)) / ilen (pr h)) with 0 by (field; exact Hc).
    symmetry. apply Hgeo.
  - qcaseeq s (snd (pr h)); [|reflexivity]. subst s.
    replace ((snd (pr h) - fst (pr h)) / ilen (pr h)) with 1.
    + symmetry. apply Hgeo.
    + unfold ilen. field. unfold ilen in Hc. exact Hc.
Qed.

Lemma Qcminus_0 (a b : Qc) : a - b <> 0 -> b <= a -> 0 < a - b.
Proof. intros H1 H2. apply qneq_lt; [qc|]. intros E. apply H1. symmetry; exact E. Qed.

(* the straight path between two points of a straight path *)
Lemma sval_sub I q0 q1 a b l t (sg : Qc) :
  fst I <= a -> a <= snd I -> fst I <= b -> b <= snd I ->
  (sg = 1 \/ sg = -(1)) -> b - a = sg * l -> 0 <= t -> t <= l ->
  sval (0, l) (sval I q0 q1 a) (sval I q0 q1 b) t = sval I q0 q1 (a + sg * t).
Proof.
  intros H1 H2 H3 H4 Hsg Hl Ht0 Ht1. unfold sval.
  unfold ilen. cbn [fst snd].
  qcaseeq (snd I - fst I) 0.
  - qcaseeq (l - 0) 0; [reflexivity|].
    exfalso. apply Hc0. destruct Hsg as [->| ->]; qc.
  - assert (HL : 0 < snd I - fst I) by (apply Qcminus_0; [exact Hc|qc]).
    qcaseeq (l - 0) 0.
    + f_equal. f_equal. assert (t = 0) by qc. subst t. qc.
    + assert (Hl0 : 0 < l - 0) by (apply Qcminus_0; [exact Hc0|qc]).
      destruct Hgeo as (_ & _ & G). rewrite G.
      * f_equal. replace (b - fst I) with (a - fst I + sg * l) by (rewrite <- Hl; qc).
        replace (t - 0) with t by qc. replace (l - 0) with l in * by qc. field. auto.
      * apply Qcdiv_le_1; [exact HL|qc|qc].
      * apply Qcdiv_le_1; [exact HL|qc|qc].
      * apply Qcdiv_le_1; [exact Hl0|qc|qc].
Qed.

Lemma bare_eval p t : bare (hd_of p) -> eval p t = compute p t.
Proof. intros (H1 & H2 & _). apply eval_plain; assumption. Qed.

Lemma straight_eval h q0 q1 t : bare h -> eval (Straight h q0 q1) t = Ok (Some (sval (tr h) q0 q1 t)).
Proof.
  intros H. rewrite bare_eval by exact H. cbn [PathModel.compute].
  rewrite straight_compute_val. destruct H as (_ & _ & ->). reflexivity.
Qed.

Lemma straight_extract_ok h q0 q1 I p' : bare h ->
  straight_extract conf interp h q0 q1 I = Ok p' ->
  p' = Straight (mk_hdr (0, if qleb (fst I) (snd I) then snd I - fst I else fst I - snd I) None)
         (sval (tr h) q0 q1 (fst I)) (sval (tr h) q0 q1 (snd I)).
Proof.
  intros (H1 & H2 & H3) H. unfold straight_extract, config_at, config_or_throw, apply_cs in H.
  cbn [PathModel.compute hd_of] in H. rewrite H2 in H. cbn [bind] in H.
  rewrite !straight_compute_val, H3 in H. unfold straight_create in H.
  unfold check_ends in H. cbn [mk_hdr cs] in H. injection H as <-. reflexivity.
Qed.

Lemma straight_extract_total h q0 q1 I : bare h ->
  exists p', straight_extract conf interp h q0 q1 I = Ok p'.
Proof.
  intros (H1 & H2 & H3). unfold straight_extract, config_at, config_or_throw, apply_cs.
  cbn [PathModel.compute hd_of]. rewrite H2. cbn [bind].
  unfold straight_create, check_ends. cbn [mk_hdr cs]. eexists; reflexivity.
Qed.

Lemma straight_restricts h q0 q1 a b : bare h -> fst (tr h) <= a -> a <= b -> b <= snd (tr h) ->
  restricts (Straight h q0 q1) a b
    (Straight (mk_hdr (0, b - a) None) (sval (tr h) q0 q1 a) (sval (tr h) q0 q1 b)).
Proof.
  intros Hb H1 H2 H3. split.
  - unfold plength, ilen. cbn. qc.
  - intros t Ht0 Ht1. rewrite !straight_eval; [|exact Hb|repeat split; reflexivity].
    do 2 f_equal. unfold start, timeRange. cbn [hd_of mk_hdr tr fst].
    replace (0 + t) with t by qc.
    rewrite (sval_sub (tr h) q0 q1 a b (b - a) t 1); try qc; [|left; reflexivity].
    f_equal. qc.
Qed.

Lemma straight_plays_back h q0 q1 a b : bare h -> fst (tr h) <= b -> b <= a -> a <= snd (tr h) ->
  plays_back (Straight h q0 q1) a b
    (Straight (mk_hdr (0, a - b) None) (sval (tr h) q0 q1 a) (sval (tr h) q0 q1 b)).
Proof.
  intros Hb H1 H2 H3. split.
  - unfold plength, ilen. cbn. qc.
  - intros t Ht0 Ht1. rewrite !straight_eval; [|exact Hb|repeat split; reflexivity].
    do 2 f_equal. unfold start, timeRange. cbn [hd_of mk_hdr tr fst].
    replace (0 + t) with t by qc.
    rewrite (sval_sub (tr h) q0 q1 a b (a - b) t (-(1))); try qc; [|right; reflexivity].
    f_equal; qc.
Qed.

(* interpolated paths *)
Lemma interp_eval h a r t q : bare h -> knots_ok (tr h) (a :: r) -> 
  fst (tr h) <= t -> t <= snd (tr h) ->
  eval (Interp h (a :: r)) t = Ok (Some (pl (a :: r) q t)).
Proof.
  intros Hb Hk H1 H2. rewrite bare_eval by exact Hb. cbn [PathModel.compute].
  destruct Hb as (_ & _ & E).
  apply interp_compute_pl; rewrite ?E; assumption.
Qed.

Lemma interp_config h a r t q : bare h -> knots_ok (tr h) (a :: r) -> 
  fst (tr h) <= t -> t <= snd (tr h) ->
  config_at conf interp (Interp h (a :: r)) t = Ok (Some (pl (a :: r) q t)).
Proof.
  intros Hb Hk H1 H2. rewrite <- (interp_eval h a r t q Hb Hk H1 H2).
  destruct Hb as (E & _). unfold PathModel.eval, param_at. cbn [hd_of]. rewrite E. reflexivity.
Qed.

Lemma interp_create_bare (q0 q1 : conf) l : 0 < l ->
  interp_create q0 q1 (0, l) None = Ok (Interp (mk_hdr (0, l) None) [(0, q0); (l, q1)]).
Proof.
  intros Hl. unfold interp_create. cbn [fst snd kinsert].
  qcaselt l 0; [exfalso; apply (Qclt_not_le _ _ Hc); apply Qclt_le_weak; exact Hl|].
  qcaseeq l 0; [exfalso; subst; exact (Qclt_not_le _ _ Hl (Qcle_refl _))|].
  reflexivity.
Qed.
Lemma interp_create_zero (q0 q1 : conf) :
  interp_create q0 q1 (0, 0) None = Ok (Interp (mk_hdr (0, 0) None) [(0, q0)]).
Proof. reflexivity. Qed.

Lemma takew_lt tmax (ks : list knot) : Forall (fun k => fst k < tmax) (takew conf tmax ks).
Proof.
  induction ks as [|k r IH]; cbn [takew]; [constructor|].
  qcaselt (fst k) tmax; constructor; assumption.
Qed.
Lemma takew_In tmax (ks : list knot) x : In x (takew conf tmax ks) -> In x ks.
Proof.
  induction ks as [|k r IH]; cbn [takew]; [auto|].
  destruct (qltb (fst k) tmax); [|intros []]. intros [<-|H]; [left; reflexivity|right; auto].
Qed.
Lemma takew_kok tmax (ks : list knot) : kok conf ks -> kok conf (takew conf tmax ks).
Proof.
  induction ks as [|k r IH]; intros H; cbn [takew]; [constructor|].
  apply kok_cons in H. destruct H as [H1 H2].
  destruct (qltb (fst k) tmax); constructor; [apply IH; exact H1|].
  rewrite Forall_forall in *. intros x Hx. apply H2. apply takew_In in Hx. exact Hx.
Qed.
Lemma upper_kok (ks : list knot) t : kok conf ks -> kok conf (upper ks t).
Proof.
  induction ks as [|k r IH]; intros H; cbn [upper]; [constructor|].
  destruct (qltb t (fst k)); [exact H|]. apply kok_cons in H. apply IH, H.
Qed.
Lemma upper_gt (ks : list knot) t : kok conf ks -> Forall (fun k => t < fst k) (upper ks t).
Proof.
  induction ks as [|k r IH]; intros H; cbn [upper]; [constructor|].
  apply kok_cons in H. destruct H as [H1 H2].
  qcaselt t (fst k); [|apply IH; exact H1].
  constructor; [exact Hc|]. rewrite Forall_forall in *. intros x Hx.
  apply Qclt_trans with (fst k); [exact Hc|apply H2; exact Hx].
Qed.

Lemma kok_framed (K0 K1 : knot) mid : kok conf mid -> fst K0 < fst K1 ->
  Forall (fun k => fst K0 < fst k) mid -> Forall (fun k => fst k < fst K1) mid ->
  kok conf (K0 :: mid ++ [K1]).
Proof.
  intros H1 H2 H3 H4. constructor.
  - apply kok_snoc; [exact H1|]. rewrite Forall_forall in H4. exact H4.
  - apply Forall_app. split; [exact H3|]. constructor; [exact H2|constructor].
Qed.

Lemma knots_ok_framed (K0 K1 : knot) mid : kok conf (K0 :: mid ++ [K1]) ->
  knots_ok (fst K0, fst K1) (K0 :: mid ++ [K1]).
Proof.
  intros H. split; [exact H|]. exists K0, K1. split; [reflexivity|].
  split; [|split; reflexivity].
  change (K0 :: mid ++ [K1]) with ((K0 :: mid) ++ [K1]). apply klast_app.
Qed.

Lemma kok_shift d (ks : list knot) : kok conf ks -> kok conf (map (shift_knot conf d) ks).
Proof.
  induction ks as [|k r IH]; intros H; cbn [map]; [constructor|].
  apply kok_cons in H. destruct H as [H1 H2]. constructor; [apply IH; exact H1|].
  apply Forall_forall. intros x Hx. apply in_map_iff in Hx. destruct Hx as (y & <- & Hy).
  rewrite Forall_forall in H2. specialize (H2 y Hy). cbn [shift_knot fst]. qc.
Qed.

Definition mids (ks : list knot) (tmin tmax : Qc) : list knot := takew conf tmax (upper ks tmin).

Lemma framed_mids (ks : list knot) tmin tmax q1 q2 : kok conf ks -> tmin < tmax ->
  kok conf ((tmin, q1) :: mids ks tmin tmax ++ [(tmax, q2)]).
Proof.
  intros Hk Hlt. apply kok_framed.
  - apply takew_kok, upper_kok. exact Hk.
  - exact Hlt.
  - apply Forall_forall. intros x Hx. apply takew_In in Hx.
    pose proof (upper_gt ks tmin Hk) as H. rewrite Forall_forall in H. apply H; exact Hx.
  - apply takew_lt.
Qed.

(* forward extraction *)
Lemma interp_extract_fwd h ks a b p' : bare h -> knots_ok (tr h) ks ->
  fst (tr h) <= a -> a < b -> b <= snd (tr h) ->
  interp_extract conf interp h ks (a, b) = Ok p' ->
  forall q, p' = Interp (mk_hdr (0, b - a) None)
         (map (shift_knot conf a) ((a, pl ks q a) :: mids ks a b ++ [(b, pl ks q b)])).
Proof.
  intros Hb Hk H1 H2 H3 H q.
  destruct ks as [|k0 ks]; [destruct Hk as (_ & k0 & kl & E & _); discriminate|].
  unfold interp_extract in H. cbn [fst snd] in H.
  qcaselt b a; [exfalso; apply (Qclt_not_le _ _ Hc); apply Qclt_le_weak; exact H2|].
  rewrite (interp_config h k0 ks a q Hb Hk) in H by qc.
  rewrite (interp_config h k0 ks b q Hb Hk) in H by qc.
  cbn [config_or_throw bind] in H.
  destruct Hb as (E1 & E2 & E3). rewrite E2 in H.
  rewrite interp_create_bare in H by qc. cbn [bind] in H.
  apply extract_loop_ok in H. subst p'. f_equal.
  destruct Hk as (Hk & _).
  pose proof (fold_insert_up conf a (0, pl (k0 :: ks) q a) (b - a, pl (k0 :: ks) q b) (b - a) []
                (takew conf b (upper (k0 :: ks) a))) as F.
  cbn [app map] in F. rewrite F.
  - unfold mids. cbn [map shift_knot fst snd]. rewrite map_app. cbn [map shift_knot fst snd].
    assert (Ea : forall c : conf, shift_knot conf a (a, c) = (0, c))
      by (intros c; unfold shift_knot; cbn [fst snd]; f_equal; qc).
    rewrite Ea. reflexivity.
  - apply takew_kok, upper_kok. exact Hk.
  - reflexivity.
  - apply Forall_forall. intros x Hx. cbn [fst].
    pose proof (takew_lt b (upper (k0 :: ks) a)) as L. rewrite Forall_forall in L.
    pose proof (upper_gt (k0 :: ks) a Hk) as G. rewrite Forall_forall in G.
    specialize (L x Hx). apply takew_In in Hx. specialize (G x Hx). split; qc.
Qed.

Lemma knots_last_le (h : hdr conf) (ks : list knot) b : knots_ok (tr h) ks -> b <= snd (tr h) ->
  exists kl, klast ks = Some kl /\ b <= fst kl.
Proof.
  intros (_ & k0 & kl & _ & E & _ & El) Hb. exists kl. split; [exact E|]. rewrite El; exact Hb.
Qed.

Lemma interp_restricts h ks a b p' : bare h -> knots_ok (tr h) ks ->
  fst (tr h) <= a -> a <= b -> b <= snd (tr h) ->
  interp_extract conf interp h ks (a, b) = Ok p' ->
  restricts (Interp h ks) a b p'.
Proof.
  intros Hb Hk H1 H2 H3 H.
  assert (exists q : conf, True) as [q _].
  { destruct ks as [|k0 ks]; [destruct Hk as (_ & k0 & kl & E & _); discriminate|].
    exists (snd k0). exact I. }
  destruct (Qclt_le_dec a b) as [Hab|Hab].
  - rewrite (interp_extract_fwd h ks a b p' Hb Hk H1 Hab H3 H q).
    split.
    + unfold plength, ilen. cbn. qc.
    + intros t Ht0 Ht1. unfold start, timeRange. cbn [hd_of mk_hdr tr fst].
      replace (0 + t) with t by qc.
      destruct ks as [|k0 ks]; [destruct Hk as (_ & k0 & kl & E & _); discriminate|].
      rewrite (interp_eval h k0 ks (a + t) q Hb Hk) by qc.
      cbn [map].
      rewrite (interp_eval _ _ _ t q).
      * change (shift_knot conf a (a, pl (k0 :: ks) q a) ::
                map (shift_knot conf a) (mids (k0 :: ks) a b ++ [(b, pl (k0 :: ks) q b)]))
          with (map (shift_knot conf a)
                 ((a, pl (k0 :: ks) q a) :: mids (k0 :: ks) a b ++ [(b, pl (k0 :: ks) q b)])).
        rewrite pl_shift by exact Hgeo. unfold mids.
        replace (t + a) with (a + t) by qc.
        destruct Hk as (Hk & Hk'). rewrite pl_restrict; try assumption; [reflexivity| | |qc|qc].
        -- destruct Hk' as (k0' & kl & E0 & _ & E & _). cbn in E0. injection E0 as <-. rewrite E; exact H1.
        -- apply (knots_last_le h); [split; [exact Hk|exact Hk']|exact H3].
      * repeat split; reflexivity.
      * cbn [mk_hdr tr]. destruct Hk as (Hk & _).
        pose proof (kok_shift a _ (framed_mids (k0 :: ks) a b (pl (k0 :: ks) q a)
                                     (pl (k0 :: ks) q b) Hk Hab)) as Hs.
        cbn [map] in Hs. rewrite map_app in *. cbn [map] in *.
        pose proof (knots_ok_framed _ _ _ Hs) as F. cbn [shift_knot fst] in F.
        replace (a - a) with 0 in F by qc. exact F.
      * cbn [mk_hdr tr fst]. exact Ht0.
      * cbn [mk_hdr tr snd]. exact Ht1.
  - assert (E : a = b) by (apply Qcle_antisym; assumption). subst b. clear H2 Hab.
    destruct ks as [|k0 ks]; [destruct Hk as (_ & k0 & kl & E & _); discriminate|].
    unfold interp_extract in H. cbn [fst snd] in H.
    qcaselt a a; [exfalso; exact (Qclt_not_le _ _ Hc (Qcle_refl _))|].
    rewrite (interp_config h k0 ks a q Hb Hk) in H by assumption.
    cbn [config_or_throw bind] in H.
    replace (cs h) with (@None (constr conf)) in H by (destruct Hb as (_ & -> & _); reflexivity).
    replace (a - a) with 0 in H by qc. rewrite interp_create_zero in H. cbn [bind] in H.
    apply extract_loop_ok in H.
    assert (Et : takew conf a (upper (k0 :: ks) a) = []).
    { destruct Hk as (Hk & _). pose proof (upper_gt (k0 :: ks) a Hk) as G.
      destruct (upper (k0 :: ks) a) as [|x xs]; [reflexivity|]. cbn [takew].
      inversion G; subst. qcaselt (fst x) a; [|reflexivity].
      exfalso. exact (Qclt_not_le _ _ Hc0 (Qclt_le_weak _ _ H4)). }
    rewrite Et in H. cbn [fold_left] in H. subst p'. split.
    + unfold plength, ilen. cbn. qc.
    + intros t Ht0 Ht1. assert (t = 0) by qc. subst t.
      rewrite (interp_eval h k0 ks (a + 0) q Hb Hk) by qc.
      replace (a + 0) with a by qc. reflexivity.
Qed.

(* backward extraction *)
Lemma interp_extract_bwd h ks a b p' : bare h -> knots_ok (tr h) ks ->
  fst (tr h) <= b -> b < a -> a <= snd (tr h) ->
  interp_extract conf interp h ks (a, b) = Ok p' ->
  forall q, p' = Interp (mk_hdr (0, a - b) None)
         (map (mirror_knot conf a) (rev ((b, pl ks q b) :: mids ks b a ++ [(a, pl ks q a)]))).
Proof.
  intros Hb Hk H1 H2 H3 H q.
  destruct ks as [|k0 ks]; [destruct Hk as (_ & k0 & kl & E & _); discriminate|].
  unfold interp_extract in H. cbn [fst snd] in H.
  qcaselt b a; [|exfalso; exact (Qclt_not_le _ _ H2 Hc)].
  rewrite (interp_config h k0 ks a q Hb Hk) in H by qc.
  rewrite (interp_config h k0 ks b q Hb Hk) in H by qc.
  cbn [config_or_throw bind] in H.
  destruct Hb as (E1 & E2 & E3). rewrite E2 in H.
  rewrite interp_create_bare in H by qc. cbn [bind] in H.
  apply extract_loop_ok in H. subst p'. f_equal.
  destruct Hk as (Hk & _).
  pose proof (fold_insert_down conf (fun k => a - b - (fst k - b))
                (0, pl (k0 :: ks) q a) (a - b, pl (k0 :: ks) q b) []
                (takew conf a (upper (k0 :: ks) b))) as F.
  cbn [app map rev] in F. rewrite F.
  - unfold mids. cbn [rev map]. rewrite rev_app_distr. cbn [rev app map]. 
    rewrite !map_app. cbn [map app].
    assert (Ea : forall c : conf, mirror_knot conf a (a, c) = (0, c))
      by (intros c; unfold mirror_knot; cbn [fst snd]; f_equal; qc).
    rewrite Ea. f_equal. f_equal.
    apply map_ext. intros k. unfold mirror_knot. f_equal. qc.
  - intros x y _ _ Hxy. qc.
  - apply takew_kok, upper_kok. exact Hk.
  - apply Forall_forall. intros x Hx. cbn [fst].
    pose proof (takew_lt a (upper (k0 :: ks) b)) as L. rewrite Forall_forall in L.
    pose proof (upper_gt (k0 :: ks) b Hk) as G. rewrite Forall_forall in G.
    specialize (L x Hx). apply takew_In in Hx. specialize (G x Hx). split; qc.
Qed.

Lemma knots_ok_mirror c K0 K1 mid : kok conf (K0 :: mid ++ [K1]) ->
  knots_ok (c - fst K1, c - fst K0) (map (mirror_knot conf c) (rev (K0 :: mid ++ [K1]))).
Proof.
  intros H. pose proof (kok_mirror conf c _ H) as M.
  assert (Er : map (mirror_knot conf c) (rev (K0 :: mid ++ [K1])) =
               mirror_knot conf c K1 :: map (mirror_knot conf c) (rev mid) ++ [mirror_knot conf c K0]).
  { cbn [rev]. rewrite rev_app_distr. cbn [rev app map]. rewrite map_app. reflexivity. }
  rewrite Er in *.
  exact (knots_ok_framed _ _ _ M).
Qed.

Lemma interp_mirror_eval c K0 K1 mid q t :
  kok conf (K0 :: mid ++ [K1]) -> c = fst K1 -> 0 <= t -> t <= fst K1 - fst K0 ->
  eval (Interp (mk_hdr (0, fst K1 - fst K0) None)
          (map (mirror_knot conf c) (rev (K0 :: mid ++ [K1])))) t
  = Ok (Some (pl (K0 :: mid ++ [K1]) q (c - t))).
Proof.
  intros H Hc H0 H1. pose proof (knots_ok_mirror c K0 K1 mid H) as M. subst c.
  replace (fst K1 - fst K1) with 0 in M by qc.
  destruct (map (mirror_knot conf (fst K1)) (rev (K0 :: mid ++ [K1]))) as [|m0 ms] eqn:E.
  - destruct M as (_ & k0 & _ & Ek & _). discriminate.
  - rewrite (interp_eval _ m0 ms t q).
    + rewrite <- E. rewrite pl_mirror; [reflexivity|exact Hgeo|exact H|].
      exists K0, K1. split; [reflexivity|].
      change (K0 :: mid ++ [K1]) with ((K0 :: mid) ++ [K1]). rewrite klast_app.
      split; [reflexivity|]. split; qc.
    + repeat split; reflexivity.
    + exact M.
    + exact H0.
    + exact H1.
Qed.

Lemma interp_plays_back h ks a b p' : bare h -> knots_ok (tr h) ks ->
  fst (tr h) <= b -> b <= a -> a <= snd (tr h) ->
  interp_extract conf interp h ks (a, b) = Ok p' ->
  plays_back (Interp h ks) a b p'.
Proof.
  intros Hb Hk H1 H2 H3 H.
  destruct (Qclt_le_dec b a) as [Hab|Hab].
  - assert (exists q : conf, True) as [q _].
    { destruct ks as [|k0 ks]; [destruct Hk as (_ & k0 & kl & E & _); discriminate|].
      exists (snd k0). exact I. }
    rewrite (interp_extract_bwd h ks a b p' Hb Hk H1 Hab H3 H q).
    split.
    + unfold plength, ilen. cbn. qc.
    + intros t Ht0 Ht1. unfold start, timeRange. cbn [hd_of mk_hdr tr fst].
      replace (0 + t) with t by qc.
      destruct ks as [|k0 ks]; [destruct Hk as (_ & k0 & kl & E & _); discriminate|].
      rewrite (interp_eval h k0 ks (a - t) q Hb Hk) by qc.
      pose proof (interp_mirror_eval a (b, pl (k0 :: ks) q b) (a, pl (k0 :: ks) q a)
                    (mids (k0 :: ks) b a) q t) as M. cbn [fst] in M.
      rewrite M; try assumption; [| |reflexivity].
      * unfold mids. rewrite pl_restrict; try assumption; [reflexivity|apply Hk| | |qc|qc].
        -- destruct Hk as (_ & k0' & kl & E0 & _ & E & _). cbn in E0. injection E0 as <-. rewrite E; exact H1.
        -- apply (knots_last_le h); assumption.
      * apply framed_mids; [apply Hk|exact Hab].
  - assert (E : a = b) by (apply Qcle_antisym; assumption). subst b.
    destruct (interp_restricts h ks a a p' Hb Hk H1 H2 H3 H) as [E1 E2]. split; [exact E1|].
    intros t Ht0 Ht1. rewrite (E2 t Ht0 Ht1). f_equal. qc.
Qed.

End PathProofs3.
