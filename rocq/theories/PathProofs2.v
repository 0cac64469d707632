(* Interpolated paths: piecewise interpolation along sorted knots, knot
   insertion, extraction and mirroring. *)
From Coq Require Import Sorting.Sorted.
From Verif Require Import Base QcTac PathModel PathSpec PathProofs.
Open Scope Qc_scope.

Section PathProofs2.
Variable conf : Type.
Variable interp : conf -> conf -> Qc -> conf.
Hypothesis Hgeo : geodesic interp.
Notation path := (path conf).
Notation knot := (Qc * conf)%type.
Notation eval := (eval conf interp).
Notation compute := (compute conf interp).

Definition kok (ks : list knot) : Prop := StronglySorted (fun a b => fst a < fst b) ks.

Definition seg (a b : knot) (s : Qc) : conf :=
  interp (snd a) (snd b) ((s - fst a) / (fst b - fst a)).

Fixpoint pl (ks : list knot) (q : conf) (s : Qc) : conf :=
  match ks with
  | [] => q
  | a :: r => match r with
              | [] => snd a
              | b :: _ => if qleb s (fst b) then seg a b s else pl r q s
              end
  end.

Lemma sub_neq0 a b : a < b -> b - a <> 0.
Proof.
  intros H E. apply (Qclt_not_le _ _ H). qc.
Qed.

Lemma Qcdiv_le_1 x d : 0 < d -> 0 <= x -> x <= d -> unit_itv (x / d).
Proof.
  intros Hd H0 H1. split.
  - unfold Qcdiv. replace 0 with (0 * / d) by (apply Qcmult_0_l).
    apply Qcmult_le_compat_r; [exact H0|].
    apply Qclt_le_weak. unfold Qclt, Qcinv, Q2Qc. cbn [this]. rewrite !Qred_correct.
    apply Qinv_lt_0_compat. exact Hd.
  - replace 1 with (d / d) by (field; apply not_eq_sym; apply qlt_neq; exact Hd).
    unfold Qcdiv. apply Qcmult_le_compat_r; [exact H1|].
    apply Qclt_le_weak. unfold Qclt, Qcinv, Q2Qc. cbn [this]. rewrite !Qred_correct.
    apply Qinv_lt_0_compat. exact Hd.
Qed.

Lemma seg_left a b : fst a < fst b -> seg a b (fst a) = snd a.
Proof.
  intros H. unfold seg. replace ((fst a - fst a) / (fst b - fst a)) with 0.
  - apply Hgeo.
  - field. apply sub_neq0; exact H.
Qed.
Lemma seg_right a b : fst a < fst b -> seg a b (fst b) = snd b.
Proof.
  intros H. unfold seg. replace ((fst b - fst a) / (fst b - fst a)) with 1.
  - apply Hgeo.
  - field. apply sub_neq0; exact H.
Qed.

(* a sub-segment of a segment *)
Lemma seg_sub a b c d s : fst a < fst b -> fst a <= fst c -> fst c < fst d -> fst d <= fst b ->
  snd c = seg a b (fst c) -> snd d = seg a b (fst d) ->
  fst c <= s -> s <= fst d -> seg c d s = seg a b s.
Proof.
  intros Hab Hac Hcd Hdb Ec Ed H1 H2. unfold seg at 1. rewrite Ec, Ed. unfold seg.
  destruct Hgeo as (_ & _ & G).
  assert (Hn1 : fst b - fst a <> 0) by (apply sub_neq0; exact Hab).
  assert (Hn2 : fst d - fst c <> 0) by (apply sub_neq0; exact Hcd).
  rewrite G.
  - f_equal. field. split; assumption.
  - apply Qcdiv_le_1; qc.
  - apply Qcdiv_le_1; qc.
  - apply Qcdiv_le_1; qc.
Qed.

(* reversed sub-segment: c is at the larger parameter *)
Lemma interp_sym a b w : unit_itv w -> interp b a w = interp a b (1 - w).
Proof.
  intros Hw. destruct Hgeo as (G0 & G1 & G).
  assert (U0 : unit_itv 0) by (split; discriminate).
  assert (U1 : unit_itv 1) by (split; discriminate).
  pose proof (G a b 1 0 w U1 U0 Hw) as E. rewrite G0, G1 in E. rewrite E. f_equal. qc.
Qed.

Lemma seg_mirror (a b : knot) k1 k2 s :
  fst a < fst b -> k2 - k1 = fst b - fst a -> k1 <= s -> s <= k2 ->
  seg (k1, snd b) (k2, snd a) s = seg a b (fst a + (k2 - s)).
Proof.
  intros Hab Hk H1 H2. unfold seg. cbn [fst snd].
  rewrite interp_sym by (apply Qcdiv_le_1; qc).
  f_equal. assert (k2 - k1 <> 0) by (rewrite Hk; apply sub_neq0; exact Hab).
  rewrite <- Hk. replace (fst a + (k2 - s) - fst a) with ((k2 - k1) - (s - k1)) by qc.
  field. assumption.
Qed.

Lemma kok_cons a r : kok (a :: r) -> kok r /\ Forall (fun b => fst a < fst b) r.
Proof. intros H. inversion H; subst. auto. Qed.

Lemma pl_first ks q a : kok (a :: ks) -> pl (a :: ks) q (fst a) = snd a.
Proof.
  intros H. cbn [pl]. destruct ks as [|b r]; [reflexivity|].
  apply kok_cons in H. destruct H as [_ H]. inversion H; subst.
  qcase (fst a) (fst b); [apply seg_left; assumption|].
  exfalso. apply (Qclt_not_le _ _ Hc). apply Qclt_le_weak. assumption.
Qed.


(* pl is used only to the right of the first knot *)
Lemma pl_app xs a k ys q s : kok (a :: xs ++ k :: ys) -> fst a <= s ->
  pl (a :: xs ++ k :: ys) q s =
  if qleb s (fst k) then pl (a :: xs ++ [k]) q s else pl (k :: ys) q s.
Proof.
  revert a. induction xs as [|b xs IH]; intros a H Hs.
  - cbn [app] in *. pose proof (kok_cons _ _ H) as [Hk Hf]. inversion Hf; subst.
    cbn [pl]. qcase s (fst k); reflexivity.
  - cbn [app] in *. pose proof (kok_cons _ _ H) as [Hk Hf].
    pose proof (kok_cons _ _ Hk) as [_ Hf2].
    change (pl (a :: b :: xs ++ k :: ys) q s)
      with (if qleb s (fst b) then seg a b s else pl (b :: xs ++ k :: ys) q s).
    change (pl (a :: b :: xs ++ [k]) q s)
      with (if qleb s (fst b) then seg a b s else pl (b :: xs ++ [k]) q s).
    qcase s (fst b).
    + rewrite Forall_forall in Hf2. assert (fst b < fst k) by (apply Hf2, in_elt).
      qcase s (fst k); [reflexivity|]. exfalso. apply (Qclt_not_le _ _ Hc0). qc.
    + rewrite IH; [reflexivity|exact Hk|qc].
Qed.

Lemma pl_dflt ks q q' s : ks <> [] -> pl ks q s = pl ks q' s.
Proof.
  induction ks as [|a r IH]; intros H; [contradiction|]. cbn [pl].
  destruct r as [|b r']; [reflexivity|]. rewrite IH by discriminate. reflexivity.
Qed.

Lemma pl_last a xs q : kok (a :: xs) -> forall kl, klast (a :: xs) = Some kl ->
  pl (a :: xs) q (fst kl) = snd kl.
Proof.
  revert a. induction xs as [|b xs IH]; intros a H kl Hl.
  - cbn in Hl. injection Hl as <-. reflexivity.
  - assert (Hl' : klast (b :: xs) = Some kl).
    { unfold klast in *. cbn [rev] in *. destruct (rev xs ++ [b]) as [|z zs] eqn:E.
      - destruct (rev xs); discriminate.
      - cbn [app] in Hl. exact Hl. }
    pose proof (kok_cons _ _ H) as [Hk Hf].
    change (pl (a :: b :: xs) q (fst kl))
      with (if qleb (fst kl) (fst b) then seg a b (fst kl) else pl (b :: xs) q (fst kl)).
    qcase (fst kl) (fst b); [|apply IH; assumption].
    (* then kl = b *)
    assert (In kl (b :: xs)) as Hin.
    { unfold klast in Hl'. destruct (rev (b :: xs)) as [|z zs] eqn:E; [discriminate|].
      injection Hl' as ->. apply in_rev. rewrite E. left; reflexivity. }
    destruct Hin as [<-|Hin].
    + inversion Hf; subst. apply seg_right. assumption.
    + apply kok_cons in Hk. destruct Hk as [_ Hk]. rewrite Forall_forall in Hk.
      exfalso. exact (Qclt_not_le _ _ (Hk _ Hin) Hc).
Qed.

Lemma klast_cons (a b : knot) r : klast (a :: b :: r) = klast (b :: r).
Proof.
  unfold klast. cbn [rev]. destruct (rev r ++ [b]) as [|z zs] eqn:E; [|reflexivity].
  destruct (rev r); discriminate.
Qed.
Lemma klast_In (ks : list knot) kl : klast ks = Some kl -> In kl ks.
Proof.
  unfold klast. destruct (rev ks) as [|z zs] eqn:E; [discriminate|]. intros [= ->].
  apply in_rev. rewrite E. left; reflexivity.
Qed.
Lemma klast_app (xs : list knot) k : klast (xs ++ [k]) = Some k.
Proof. unfold klast. rewrite rev_app_distr. reflexivity. Qed.

Lemma lb_prev_pl prev a r s q : kok (a :: r) -> fst a < s ->
  (forall kl, klast (a :: r) = Some kl -> s <= fst kl) ->
  exists x y, lb_prev prev (a :: r) s = Some (x, y) /\ seg x y s = pl (a :: r) q s.
Proof.
  revert prev a. induction r as [|b r IH]; intros prev a H Ha Hl.
  - exfalso. specialize (Hl a eq_refl). exact (Qclt_not_le _ _ Ha Hl).
  - pose proof (kok_cons _ _ H) as [Hk Hf].
    cbn [lb_prev pl]. qcase s (fst a); [exfalso; exact (Qclt_not_le _ _ Ha Hc)|].
    qcase s (fst b).
    + exists a, b. split; reflexivity.
    + destruct (IH (Some a) b Hk Hc0) as (x & y & E1 & E2).
      * intros kl Hkl. apply Hl. rewrite klast_cons. exact Hkl.
      * exists x, y. cbn [lb_prev] in E1. qcase s (fst b); [exfalso; exact (Qclt_not_le _ _ Hc0 Hc1)|].
        split; [exact E1|exact E2].
Qed.

(* the value of an interpolated path *)
Lemma interp_compute_pl h a r s q : knots_ok (pr h) (a :: r) ->
  fst (pr h) <= s -> s <= snd (pr h) ->
  interp_compute conf interp h (a :: r) s = Ok (Some (pl (a :: r) q s)).
Proof.
  intros (Hk & k0 & kl & H0 & Hl & E0 & El) H1 H2. cbn in H0. injection H0 as <-.
  unfold interp_compute. rewrite Hl.
  qcaseeq s (fst (pr h)); cbn [orb].
  - rewrite Hc, <- E0. rewrite pl_first by exact Hk. reflexivity.
  - qcaseeq (ilen (pr h)) 0.
    + exfalso. apply Hc. unfold ilen in Hc0. qc.
    + qcase (fst kl) s.
      * replace s with (fst kl) by (apply Qcle_antisym; [exact Hc1|rewrite El; exact H2]).
        rewrite (pl_last a r q Hk kl Hl). reflexivity.
      * assert (Ha : fst a < s).
        { rewrite E0. apply qneq_lt; [exact H1|]. intros E. apply Hc. symmetry; exact E. }
        destruct (lb_prev_pl None a r s q Hk Ha) as (x & y & E1 & E2).
        -- intros kl' Hkl'. rewrite Hl in Hkl'. injection Hkl' as <-. apply Qclt_le_weak; exact Hc1.
        -- rewrite E1. unfold seg in E2. rewrite E2. reflexivity.
Qed.

(* insertion in a sorted list of knots *)
Lemma kinsert_mid k q (xs ys : list knot) :
  Forall (fun a => fst a < k) xs -> Forall (fun b => k < fst b) ys ->
  kinsert k q (xs ++ ys) = xs ++ (k, q) :: ys.
Proof.
  induction 1 as [|[k' q'] xs Hx Hxs IH]; intros Hy; cbn [app kinsert].
  - destruct ys as [|[k' q'] ys]; [reflexivity|]. inversion Hy; subst. cbn [fst] in *.
    cbn [kinsert]. qcaselt k k'; [reflexivity|]. exfalso. apply (Qclt_not_le _ _ H1 Hc).
  - cbn [fst] in Hx. qcaselt k k'; [exfalso; apply (Qclt_not_le _ _ Hc); apply Qclt_le_weak; exact Hx|].
    qcaseeq k k'; [exfalso; subst; exact (Qclt_not_le _ _ Hx (Qcle_refl _))|].
    rewrite IH by exact Hy. reflexivity.
Qed.

Fixpoint takew (tmax : Qc) (ks : list knot) : list knot :=
  match ks with [] => [] | k :: r => if qltb (fst k) tmax then k :: takew tmax r else [] end.

Lemma extract_loop_ok ks tmax key h acc r :
  extract_loop ks tmax key (Interp h acc) = Ok r ->
  r = Interp h (fold_left (fun acc k => kinsert (key (fst k)) (snd k) acc) (takew tmax ks) acc).
Proof.
  revert acc. induction ks as [|k ks IH]; intros acc H; cbn [extract_loop takew] in *; [discriminate|].
  qcaselt (fst k) tmax.
  - cbn [path_insert] in H. apply IH in H. cbn [fold_left]. exact H.
  - injection H as <-. reflexivity.
Qed.

Definition shift_knot (tmin : Qc) (k : knot) : knot := (fst k - tmin, snd k).
Definition flip_knot (l tmin : Qc) (k : knot) : knot := (l - (fst k - tmin), snd k).

Lemma fold_insert_up tmin (K0 K1 : knot) l done ks :
  kok (done ++ ks) -> fst K1 = l -> 
  Forall (fun k => fst K0 < fst k - tmin /\ fst k - tmin < l) ks ->
  fold_left (fun acc k => kinsert (fst k - tmin) (snd k) acc) ks
    (K0 :: map (shift_knot tmin) done ++ [K1]) =
  K0 :: map (shift_knot tmin) (done ++ ks) ++ [K1].
Proof.
  intros Hk HK1. revert done Hk. induction ks as [|k ks IH]; intros done Hk Hf.
  - rewrite app_nil_r. reflexivity.
  - inversion Hf as [|? ? [H1 H2] Hf']; subst. cbn [fold_left].
    replace (K0 :: map (shift_knot tmin) done ++ [K1])
      with ((K0 :: map (shift_knot tmin) done) ++ [K1]) by reflexivity.
    rewrite kinsert_mid.
    + specialize (IH (done ++ [k])). rewrite <- !app_assoc in IH. cbn [app] in IH.
      rewrite map_app in IH. cbn [map] in IH. rewrite <- !app_assoc in IH. cbn [app] in IH.
      cbn [app]. apply IH; assumption.
    + constructor; [exact H1|]. apply Forall_forall. intros y Hy. apply in_map_iff in Hy.
      destruct Hy as (z & <- & Hz). cbn [shift_knot fst].
      assert (fst z < fst k).
      { clear - Hk Hz. induction done as [|d done IHd]; [destruct Hz|].
        cbn [app] in Hk. apply kok_cons in Hk. destruct Hk as [Hk Hd]. destruct Hz as [->|Hz].
        - rewrite Forall_forall in Hd. apply Hd. apply in_elt.
        - apply IHd; assumption. }
      qc.
    + constructor; [exact H2|constructor].
Qed.

Lemma kok_app_lt (xs ys : list knot) x y : kok (xs ++ ys) -> In x xs -> In y ys -> fst x < fst y.
Proof.
  induction xs as [|d xs IH]; cbn [app]; intros H Hx Hy; [destruct Hx|].
  apply kok_cons in H. destruct H as [H1 H2]. destruct Hx as [->|Hx].
  - rewrite Forall_forall in H2. apply H2. apply in_or_app. right; exact Hy.
  - apply IH; assumption.
Qed.

Lemma fold_insert_down (f : knot -> Qc) (K0 K1 : knot) done ks :
  (forall x y, In x (done ++ ks) -> In y (done ++ ks) -> fst x < fst y -> f y < f x) ->
  kok (done ++ ks) ->
  Forall (fun k => fst K0 < f k /\ f k < fst K1) ks ->
  fold_left (fun acc k => kinsert (f k) (snd k) acc) ks
    (K0 :: map (fun k => (f k, snd k)) (rev done) ++ [K1]) =
  K0 :: map (fun k => (f k, snd k)) (rev (done ++ ks)) ++ [K1].
Proof.
  revert done. induction ks as [|k ks IH]; intros done Hm Hk Hf.
  - rewrite app_nil_r. reflexivity.
  - inversion Hf as [|? ? [H1 H2] Hf']; subst. cbn [fold_left].
    change (K0 :: map (fun k => (f k, snd k)) (rev done) ++ [K1])
      with ([K0] ++ (map (fun k => (f k, snd k)) (rev done) ++ [K1])).
    rewrite kinsert_mid.
    + specialize (IH (done ++ [k])). rewrite <- !app_assoc in IH. cbn [app] in IH.
      rewrite rev_app_distr in IH. cbn [rev app map] in IH.
      cbn [app]. apply IH; assumption.
    + constructor; [exact H1|constructor].
    + apply Forall_app. split; [|constructor; [exact H2|constructor]].
      apply Forall_forall. intros y Hy. apply in_map_iff in Hy. destruct Hy as (z & <- & Hz).
      cbn [fst]. apply in_rev in Hz. apply Hm.
      * apply in_or_app; left; exact Hz.
      * apply in_elt.
      * apply (kok_app_lt done (k :: ks)); [exact Hk|exact Hz|left; reflexivity].
Qed.

(* restricting to [ts, tmax], starting inside the first segment *)
Lemma pl_restrict_at ks a q ts qs tmax qe :
  kok (a :: ks) -> fst a <= ts -> ts < tmax ->
  (forall b r, ks = b :: r -> ts < fst b) ->
  qs = pl (a :: ks) q ts -> qe = pl (a :: ks) q tmax ->
  (exists kl, klast (a :: ks) = Some kl /\ tmax <= fst kl) ->
  forall t, ts <= t -> t <= tmax ->
  pl ((ts, qs) :: takew tmax ks ++ [(tmax, qe)]) q t = pl (a :: ks) q t.
Proof.
  revert a ts qs. induction ks as [|b ks IH]; intros a ts qs Hk Ha Hts Hb Eqs Eqe Hkl t H1 H2.
  - exfalso. destruct Hkl as (kl & E & Hle). cbn in E. injection E as <-.
    apply (Qclt_not_le _ _ Hts). qc.
  - pose proof (kok_cons _ _ Hk) as [Hk' Hf]. inversion Hf as [|? ? Hab _]; subst x l.
    specialize (Hb b ks eq_refl).
    assert (Eqs' : qs = seg a b ts).
    { rewrite Eqs. cbn [pl]. qcase ts (fst b); [reflexivity|].
      exfalso. apply (Qclt_not_le _ _ Hc). apply Qclt_le_weak; exact Hb. }
    cbn [takew]. qcaselt (fst b) tmax.
    + cbn [app]. 
      change (pl ((ts, qs) :: b :: takew tmax ks ++ [(tmax, qe)]) q t)
        with (if qleb t (fst b) then seg (ts, qs) b t
              else pl (b :: takew tmax ks ++ [(tmax, qe)]) q t).
      change (pl (a :: b :: ks) q t)
        with (if qleb t (fst b) then seg a b t else pl (b :: ks) q t).
      qcase t (fst b).
      * apply seg_sub; cbn [fst snd]; try assumption.
        -- apply Qcle_refl.
        -- symmetry. apply seg_right. exact Hab.
      * rewrite (surjective_pairing b) at 1. apply IH.
        -- exact Hk'.
        -- apply Qcle_refl.
        -- exact Hc.
        -- intros c r ->. apply kok_cons in Hk'. destruct Hk' as [_ Hf']. inversion Hf'; assumption.
        -- symmetry. apply pl_first. exact Hk'.
        -- rewrite Eqe.
           change (pl (a :: b :: ks) q tmax)
             with (if qleb tmax (fst b) then seg a b tmax else pl (b :: ks) q tmax).
           qcase tmax (fst b); [exfalso; exact (Qclt_not_le _ _ Hc Hc1)|reflexivity].
        -- destruct Hkl as (kl & E & Hle). exists kl. rewrite klast_cons in E. split; assumption.
        -- apply Qclt_le_weak; exact Hc0.
        -- exact H2.
    + cbn [app]. assert (Etm : qe = seg a b tmax).
      { rewrite Eqe. cbn [pl]. qcase tmax (fst b); [reflexivity|].
        exfalso. exact (Qclt_not_le _ _ Hc0 Hc). }
      cbn [pl]. cbn [fst]. qcase t tmax; [|exfalso; exact (Qclt_not_le _ _ Hc0 H2)].
      qcase t (fst b); [|exfalso; apply (Qclt_not_le _ _ Hc1); qc].
      apply seg_sub; cbn [fst snd]; assumption.
Qed.

(* general start *)
Lemma pl_restrict a ks q tmin tmax :
  kok (a :: ks) -> fst a <= tmin -> tmin < tmax ->
  (exists kl, klast (a :: ks) = Some kl /\ tmax <= fst kl) ->
  forall t, tmin <= t -> t <= tmax ->
  pl ((tmin, pl (a :: ks) q tmin) :: takew tmax (upper (a :: ks) tmin)
        ++ [(tmax, pl (a :: ks) q tmax)]) q t = pl (a :: ks) q t.
Proof.
  revert a. induction ks as [|b ks IH]; intros a Hk Ha Hlt Hkl t H1 H2.
  - exfalso. destruct Hkl as (kl & E & Hle). cbn in E. injection E as <-.
    apply (Qclt_not_le _ _ Hlt). qc.
  - pose proof (kok_cons _ _ Hk) as [Hk' Hf]. inversion Hf as [|? ? Hab _]; subst x l.
    cbn [upper]. qcaselt tmin (fst a); [exfalso; exact (Qclt_not_le _ _ Hc Ha)|].
    qcaselt tmin (fst b).
    + apply pl_restrict_at; try assumption; try reflexivity.
      intros b' r' [= <- <-]. exact Hc0.
    + assert (E1 : forall u, fst b <= u -> pl (a :: b :: ks) q u = pl (b :: ks) q u).
      { intros u Hu. change (pl (a :: b :: ks) q u)
          with (if qleb u (fst b) then seg a b u else pl (b :: ks) q u).
        qcase u (fst b); [|reflexivity].
        replace u with (fst b) by (apply Qcle_antisym; assumption).
        rewrite pl_first by exact Hk'. apply seg_right; exact Hab. }
      rewrite !E1 by qc.
      specialize (IH b Hk' Hc0 Hlt). cbn [upper] in IH.
      qcaselt tmin (fst b); [exfalso; exact (Qclt_not_le _ _ Hc1 Hc0)|].
      apply IH; try assumption.
      destruct Hkl as (kl & E & Hle). exists kl. rewrite klast_cons in E. split; assumption.
Qed.

(* translating the knots *)
Lemma pl_shift d ks q t : 
  pl (map (shift_knot d) ks) q t = pl ks q (t + d).
Proof.
  induction ks as [|a r IH]; [reflexivity|]. cbn [map].
  destruct r as [|b r]; [reflexivity|].
  change (pl (shift_knot d a :: map (shift_knot d) (b :: r)) q t)
    with (if qleb t (fst b - d) then seg (shift_knot d a) (shift_knot d b) t
          else pl (map (shift_knot d) (b :: r)) q t).
  change (pl (a :: b :: r) q (t + d))
    with (if qleb (t + d) (fst b) then seg a b (t + d) else pl (b :: r) q (t + d)).
  rewrite IH.
  qcase t (fst b - d); qcase (t + d) (fst b).
  - unfold seg, shift_knot. cbn [fst snd]. f_equal. f_equal; qc.
  - exfalso. apply (Qclt_not_le _ _ Hc0). qc.
  - exfalso. apply (Qclt_not_le _ _ Hc). qc.
  - reflexivity.
Qed.

(* mirroring the knots: key k becomes c - k, order reversed *)
Definition mirror_knot (c : Qc) (k : knot) : knot := (c - fst k, snd k).

Lemma kok_snoc xs k : kok xs -> (forall x, In x xs -> fst x < fst k) -> kok (xs ++ [k]).
Proof.
  induction xs as [|a xs IH]; intros H Hl; cbn [app].
  - repeat constructor.
  - apply kok_cons in H. destruct H as [H1 H2]. constructor.
    + apply IH; [exact H1|]. intros x Hx. apply Hl. right; exact Hx.
    + apply Forall_app. split; [exact H2|]. constructor; [apply Hl; left; reflexivity|constructor].
Qed.
Lemma kok_mirror c ks : kok ks -> kok (map (mirror_knot c) (rev ks)).
Proof.
  induction ks as [|a ks IH]; intros H; [constructor|].
  apply kok_cons in H. destruct H as [H1 H2]. cbn [rev]. rewrite map_app. cbn [map].
  apply kok_snoc; [apply IH; exact H1|].
  intros x Hx. apply in_map_iff in Hx. destruct Hx as (y & <- & Hy). apply in_rev in Hy.
  rewrite Forall_forall in H2. specialize (H2 y Hy). unfold mirror_knot. cbn [fst]. qc.
Qed.

Lemma pl_mirror c ks q t :
  kok ks -> (exists k0 kl, hd_error ks = Some k0 /\ klast ks = Some kl /\
                           fst k0 <= c - t /\ c - t <= fst kl) ->
  pl (map (mirror_knot c) (rev ks)) q t = pl ks q (c - t).
Proof.
  induction ks as [|a ks IH]; intros Hk Hr; [reflexivity|].
  destruct Hr as (k0 & kl & E0 & El & H0 & H1). cbn in E0. injection E0 as <-.
  destruct ks as [|b ks]; [reflexivity|].
  pose proof (kok_cons _ _ Hk) as [Hk' Hf]. inversion Hf as [|? ? Hab _]; subst x l.
  set (mid := mirror_knot c b).
  assert (Em : map (mirror_knot c) (rev (a :: b :: ks))
               = map (mirror_knot c) (rev ks) ++ mid :: [mirror_knot c a]).
  { cbn [rev]. rewrite !map_app. cbn [map]. rewrite <- app_assoc. reflexivity. }
  assert (Em' : map (mirror_knot c) (rev (b :: ks)) = map (mirror_knot c) (rev ks) ++ [mid]).
  { cbn [rev]. rewrite map_app. reflexivity. }
  pose proof (kok_mirror c _ Hk) as HkM. rewrite Em in *.
  change (pl (a :: b :: ks) q (c - t))
    with (if qleb (c - t) (fst b) then seg a b (c - t) else pl (b :: ks) q (c - t)).
  assert (Hseg : pl [mid; mirror_knot c a] q t = seg a b (c - t) \/ t < fst mid).
  { destruct (Qclt_le_dec t (fst mid)) as [L|L]; [right; exact L|left].
    cbn [pl]. cbn [mirror_knot fst]. qcase t (c - fst a).
    - unfold mid. unfold mirror_knot. rewrite seg_mirror; try assumption.
      + f_equal. qc.
      + qc.
    - exfalso. apply (Qclt_not_le _ _ Hc). qc. }
  assert (Emid : fst mid = c - fst b) by reflexivity.
  destruct (map (mirror_knot c) (rev ks)) as [|m0 ms] eqn:Ems.
  - cbn [app] in *.
    assert (ks = []).
    { destruct ks as [|z zs]; [reflexivity|]. cbn [rev] in Ems. rewrite map_app in Ems.
      destruct (map (mirror_knot c) (rev zs)); discriminate. }
    subst ks. rewrite klast_cons in El. cbn in El. injection El as <-.
    destruct Hseg as [Hs|Hs].
    + rewrite Hs. qcase (c - t) (fst b); [reflexivity|].
      exfalso. exact (Qclt_not_le _ _ Hc H1).
    + exfalso. apply (Qclt_not_le _ _ Hs). rewrite Emid. qc.
  - cbn [app] in *.
    assert (Hm0 : fst m0 <= t).
    { (* m0 is the mirror of the last knot *)
      rewrite !klast_cons in El.
      destruct ks as [|z zs]; [discriminate|]. rewrite klast_cons in El.
      unfold klast in El. destruct (rev (z :: zs)) as [|y ys] eqn:Er; [discriminate|].
      injection El as <-. cbn [map] in Ems. injection Ems as <- _. cbn [mirror_knot fst]. qc. }
    rewrite pl_app by assumption.
    rewrite Emid. rewrite <- Em'.
    qcase t (c - fst b).
    + qcase (c - t) (fst b).
      * replace t with (c - fst b) by qc.
        assert (IH' : pl (map (mirror_knot c) (rev (b :: ks))) q (c - fst b) = snd b).
        { rewrite Em'. change (m0 :: ms ++ [mid]) with ((m0 :: ms) ++ [mid]).
          replace (c - fst b) with (fst mid) by reflexivity.
          change ((m0 :: ms) ++ [mid]) with (m0 :: (ms ++ [mid])).
          rewrite pl_last with (kl := mid); [reflexivity| |].
          - rewrite <- Em'.
            apply kok_mirror. exact Hk'.
          - change (m0 :: ms ++ [mid]) with ((m0 :: ms) ++ [mid]). apply klast_app. }
        rewrite IH'. replace (c - (c - fst b)) with (fst b) by qc. symmetry. apply seg_right; exact Hab.
      * apply IH; [exact Hk'|]. exists b, kl. rewrite klast_cons in El.
        split; [reflexivity|]. split; [exact El|]. split; [qc|exact H1].
    + qcase (c - t) (fst b).
      * destruct Hseg as [Hs|Hs]; [exact Hs|].
        exfalso. apply (Qclt_not_le _ _ Hs). rewrite Emid. qc.
      * exfalso. apply (Qclt_not_le _ _ Hc). qc.
Qed.

End PathProofs2.
