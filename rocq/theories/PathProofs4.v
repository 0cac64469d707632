(* Extraction and reversal of all paths; flattening and concatenation. *)
From Coq Require Import Sorting.Sorted.
From Verif Require Import Base QcTac PathModel PathSpec PathProofs PathProofs2 PathProofs3.
Open Scope Qc_scope.

Section PathProofs4.
Variable conf : Type.
Variable interp : conf -> conf -> Qc -> conf.
Hypothesis Hgeo : geodesic interp.
Notation path := (path conf).
Notation knot := (Qc * conf)%type.
Notation eval := (eval conf interp).
Notation compute := (compute conf interp).
Notation extract := (extract conf interp).
Notation reverse := (reverse conf interp).
Notation restricts := (restricts conf interp).
Notation plays_back := (plays_back conf interp).
Notation pl := (pl conf interp).
Notation continuous_list := (continuous_list conf interp).
Notation reversible := (reversible conf interp).

(* ---- reverse of interpolated paths ---- *)
Lemma path_insert_fold h (f : knot -> Qc) l acc :
  fold_left (fun acc k => path_insert (f k) (snd k) acc) l (Interp h acc) =
  Interp h (fold_left (fun acc k => kinsert (f k) (snd k) acc) l acc).
Proof. revert acc. induction l as [|k l IH]; intros acc; [reflexivity|]. cbn [fold_left path_insert]. apply IH. Qed.

Lemma fold_insert_asc (f : knot -> Qc) (K0 K1 : knot) done ks :
  StronglySorted (fun a b => f a < f b) (done ++ ks) ->
  Forall (fun k => fst K0 < f k /\ f k < fst K1) ks ->
  fold_left (fun acc k => kinsert (f k) (snd k) acc) ks
    (K0 :: map (fun k => (f k, snd k)) done ++ [K1]) =
  K0 :: map (fun k => (f k, snd k)) (done ++ ks) ++ [K1].
Proof.
  revert done. induction ks as [|k ks IH]; intros done Hk Hf.
  - rewrite app_nil_r. reflexivity.
  - inversion Hf as [|? ? [H1 H2] Hf']; subst. cbn [fold_left].
    change (K0 :: map (fun k => (f k, snd k)) done ++ [K1])
      with ((K0 :: map (fun k => (f k, snd k)) done) ++ [K1]).
    rewrite kinsert_mid.
    + specialize (IH (done ++ [k])). rewrite <- !app_assoc in IH. cbn [app] in IH.
      rewrite map_app in IH. cbn [map] in IH. rewrite <- !app_assoc in IH. cbn [app] in IH.
      cbn [app]. apply IH; assumption.
    + constructor; [exact H1|]. apply Forall_forall. intros y Hy. apply in_map_iff in Hy.
      destruct Hy as (z & <- & Hz). cbn [fst]. clear - Hk Hz.
      induction done as [|d done IHd]; [destruct Hz|]. cbn [app] in Hk. inversion Hk; subst.
      destruct Hz as [->|Hz]; [|apply IHd; assumption].
      rewrite Forall_forall in H2. apply H2. apply in_elt.
    + constructor; [exact H2|constructor].
Qed.

Lemma desc_sorted l (mid : list knot) : kok conf mid ->
  StronglySorted (fun a b => l - fst a < l - fst b) (rev mid).
Proof.
  induction mid as [|m mid IH]; intros H; cbn [rev]; [constructor|].
  apply kok_cons in H. destruct H as [H1 H2]. specialize (IH H1).
  assert (Hm : forall x, In x (rev mid) -> l - fst x < l - fst m).
  { intros x Hx. apply in_rev in Hx. rewrite Forall_forall in H2. specialize (H2 x Hx). qc. }
  clear - IH Hm. induction (rev mid) as [|y ys IHy]; cbn [app]; [repeat constructor|].
  inversion IH; subst. constructor.
  - apply IHy; [assumption|]. intros x Hx. apply Hm. right; exact Hx.
  - apply Forall_app. split; [assumption|]. constructor; [|constructor]. apply Hm. left; reflexivity.
Qed.

Lemma last_split (k0 : knot) (r : list knot) : r = [] \/ exists mid kl, r = mid ++ [kl].
Proof.
  destruct r as [|a r]; [left; reflexivity|right].
  destruct (@exists_last _ (a :: r)) as (mid & kl & E); [discriminate|]. exists mid, kl. exact E.
Qed.

Lemma interp_reverse_ok h ks : bare h -> knots_ok (tr h) ks -> fst (tr h) = 0 ->
  interp_reverse h ks =
  Ok (Interp (mk_hdr (0, snd (tr h)) None) (map (mirror_knot conf (snd (tr h))) (rev ks))).
Proof.
  intros (H1 & H2 & H3) (Hk & k0 & kl & E0 & El & F0 & Fl) Hz.
  destruct ks as [|k ks]; [discriminate|]. cbn in E0. injection E0 as ->.
  unfold interp_reverse. rewrite El, H2, H3. unfold ilen. rewrite Hz.
  replace (snd (tr h) - 0) with (snd (tr h)) by qc.
  destruct (last_split k0 ks) as [->|(mid & kl' & ->)].
  - cbn in El. injection El as <-.
    assert (E : snd (tr h) = 0) by (rewrite <- Fl, F0; exact Hz). rewrite E.
    rewrite interp_create_zero. cbn [bind length rev app map]. 
    unfold mirror_knot. rewrite F0, Hz. replace (0 - 0) with 0 by qc. reflexivity.
  - change (k0 :: mid ++ [kl']) with ((k0 :: mid) ++ [kl']) in El. rewrite klast_app in El.
    injection El as ->.
    assert (Hlt : 0 < snd (tr h)).
    { rewrite <- Fl, <- Hz, <- F0. apply kok_cons in Hk. destruct Hk as [_ Hk].
      rewrite Forall_forall in Hk. apply Hk. apply in_elt. }
    rewrite interp_create_bare by exact Hlt. cbn [bind]. f_equal.
    assert (Emir : map (mirror_knot conf (snd (tr h))) (rev (k0 :: mid ++ [kl])) =
            (0, snd kl) :: map (mirror_knot conf (snd (tr h))) (rev mid) ++ [(snd (tr h), snd k0)]).
    { cbn [rev]. rewrite rev_app_distr. cbn [rev app map]. rewrite map_app. cbn [map].
      unfold mirror_knot at 1 3. rewrite Fl, F0, Hz.
      replace (snd (tr h) - snd (tr h)) with 0 by qc.
      replace (snd (tr h) - 0) with (snd (tr h)) by qc. reflexivity. }
    rewrite Emir.
    destruct mid as [|m mid'] eqn:Em.
    + reflexivity.
    + rewrite <- Em in *. assert (Hlen : (2 <? length (k0 :: mid ++ [kl]))%nat = true).
      { apply Nat.ltb_lt. cbn [length]. rewrite app_length, Em. cbn [length]. lia. }
      rewrite Hlen. cbn [tl]. rewrite rev_app_distr. cbn [rev app tl].
      rewrite path_insert_fold. f_equal.
      pose proof (kok_cons _ _ _ Hk) as [Hk' Hf].
      pose proof (fold_insert_asc (fun k => snd (tr h) - fst k) (0, snd kl) (snd (tr h), snd k0)
                    [] (rev mid)) as A.
      cbn [app map] in A. rewrite A; [reflexivity| |].
      * apply desc_sorted. clear - Hk'. induction mid as [|x mid IH]; [constructor|].
        cbn [app] in Hk'. apply kok_cons in Hk'. destruct Hk' as [A B].
        constructor; [apply IH; exact A|]. apply Forall_app in B. apply B.
      * apply Forall_forall. intros x Hx. apply in_rev in Hx. cbn [fst].
        assert (fst x < fst kl) by (apply (kok_app_lt conf mid [kl]); [exact Hk'|exact Hx|left; reflexivity]).
        rewrite Forall_forall in Hf.
        assert (fst k0 < fst x) by (apply Hf; apply in_or_app; left; exact Hx).
        rewrite Fl in H. rewrite F0, Hz in H0. split; qc.
Qed.

Lemma knots_ok_mirrored (h : hdr conf) (ks : list knot) : knots_ok (tr h) ks -> fst (tr h) = 0 ->
  knots_ok (0, snd (tr h)) (map (mirror_knot conf (snd (tr h))) (rev ks)).
Proof.
  intros (Hk & k0 & kl & E0 & El & F0 & Fl) Hz.
  split; [apply kok_mirror; exact Hk|].
  unfold klast in El. destruct (rev ks) as [|r0 rs] eqn:Er; [discriminate|]. injection El as ->.
  exists (mirror_knot conf (snd (tr h)) kl), (mirror_knot conf (snd (tr h)) k0).
  split; [reflexivity|]. split.
  - unfold klast. rewrite <- map_rev, <- Er, rev_involutive.
    destruct ks as [|k ks']; [discriminate|]. cbn in E0. injection E0 as ->. reflexivity.
  - unfold mirror_knot. cbn [fst snd]. rewrite F0, Fl, Hz. split; qc.
Qed.

Lemma interp_reverse_back h ks p' : bare h -> knots_ok (tr h) ks -> fst (tr h) = 0 ->
  ranged (Interp h ks) ->
  interp_reverse h ks = Ok p' ->
  plays_back (Interp h ks) (snd (tr h)) (fst (tr h)) p'.
Proof.
  intros Hb Hk Hz Hr H. rewrite (interp_reverse_ok h ks Hb Hk Hz) in H. injection H as <-.
  unfold ranged, start, stop, timeRange in Hr. cbn [hd_of] in Hr.
  split.
  - unfold plength, ilen. cbn. rewrite Hz. qc.
  - intros t Ht0 Ht1. unfold start, timeRange. cbn [hd_of mk_hdr tr fst].
    replace (0 + t) with t by qc.
    pose proof (knots_ok_mirrored h ks Hk Hz) as M.
    destruct ks as [|k0 ks]; [destruct Hk as (_ & k0 & kl & E & _); discriminate|].
    destruct (map (mirror_knot conf (snd (tr h))) (rev (k0 :: ks))) as [|m0 ms] eqn:E.
    { destruct M as (_ & ? & ? & A & _). discriminate. }
    rewrite (interp_eval conf interp Hgeo (mk_hdr (0, snd (tr h)) None) m0 ms t (snd k0));
      [|repeat split; reflexivity|exact M|exact Ht0|cbn; qc].
    rewrite (interp_eval conf interp Hgeo h k0 ks (snd (tr h) - t) (snd k0) Hb Hk) by qc.
    rewrite <- E. rewrite pl_mirror; [reflexivity|exact Hgeo|apply Hk|].
    destruct Hk as (Hk & k0' & kl & E0 & El & F0 & Fl). exists k0', kl.
    split; [exact E0|]. split; [exact El|]. rewrite F0, Fl. split; qc.
Qed.

(* ---- unfolding of the methods ---- *)
Lemma extract_PV h subs I : tp h = None ->
  extract (PV h subs) I = pv_extract subs (map extract subs) (map reverse subs) I.
Proof. intros H. unfold PathModel.extract. cbn [ops]. unfold ext_wrap. cbn [hd_of]. rewrite H. reflexivity. Qed.
Lemma reverse_PV h subs :
  reverse (PV h subs) = bind (sequence (rev (map reverse subs))) (fun l =>
    Ok (fold_left append l (pv_create None))).
Proof. reflexivity. Qed.

Lemma ok_inj {A} (a b : A) : Ok a = Ok b -> a = b.
Proof. intros [= ->]; reflexivity. Qed.

(* ---- forward extraction ---- *)
Lemma eval_PV_at h l t pre x post : bare h -> Forall ranged l -> l = pre ++ x :: post ->
  (pre = [] \/ total pre < t) -> t <= total pre + plength x ->
  eval (PV h l) t = eval x (start x + (t - total pre)).
Proof.
  intros Hb Hr E Hp Ht. apply (eval_locate conf interp h l t pre x post Hb Hr).
  split; [exact E|]. split; assumption.
Qed.

Lemma sequence_map_Ok {A B} (f : A -> res B) (g : A -> B) l :
  (forall x, In x l -> f x = Ok (g x)) -> sequence (map f l) = Ok (map g l).
Proof.
  induction l as [|x l IH]; intros H; [reflexivity|]. cbn [map sequence].
  rewrite (H x (or_introl eq_refl)). cbn [bind]. rewrite IH; [reflexivity|].
  intros y Hy. apply H. right; exact Hy.
Qed.

Lemma sequence_nth {A} (l : list A) (pre mid post : list A) :
  l = pre ++ mid ++ post ->
  sequence (map (fun i => match nth_error l i with Some x => Ok x | None => UB end)
              (seq (length pre) (length mid))) = Ok mid.
Proof.
  revert pre. induction mid as [|m mid IH]; intros pre E; [reflexivity|].
  cbn [length seq map sequence]. subst l. cbn [app]. rewrite nth_error_mid. cbn [bind].
  specialize (IH (pre ++ [m])). rewrite <- app_assoc in IH. cbn [app] in IH.
  rewrite app_length in IH. cbn [length] in IH. rewrite Nat.add_1_r in IH.
  rewrite (IH eq_refl). reflexivity.
Qed.

Lemma app_eq_split {A} (p1 p2 : list A) x1 x2 q1 q2 :
  p1 ++ x1 :: q1 = p2 ++ x2 :: q2 -> (length p1 <= length p2)%nat ->
  (p1 = p2 /\ x1 = x2 /\ q1 = q2) \/
  exists mid, p2 = p1 ++ x1 :: mid /\ q1 = mid ++ x2 :: q2.
Proof.
  revert p2. induction p1 as [|a p1 IH]; intros [|b p2] E Hl; cbn [app length] in *.
  - injection E as -> ->. left. auto.
  - injection E as -> ->. right. exists p2. auto.
  - lia.
  - injection E as -> E. destruct (IH p2 E ltac:(lia)) as [(-> & -> & ->)|(mid & -> & ->)].
    + left; auto.
    + right. exists mid. auto.
Qed.

Lemma locate_order l a b p1 x1 q1 p2 x2 q2 : Forall ranged l -> 0 <= a -> a <= b ->
  locate conf l a p1 x1 q1 -> locate conf l b p2 x2 q2 -> (length p1 <= length p2)%nat.
Proof.
  intros Hr H0 Hab (E1 & A1 & B1) (E2 & A2 & B2).
  destruct (le_lt_dec (length p1) (length p2)) as [L|L]; [exact L|exfalso].
  rewrite E1 in E2. symmetry in E2.
  destruct (app_eq_split _ _ _ _ _ _ E2 ltac:(lia)) as [(-> & _)|(mid & -> & _)]; [lia|].
  destruct A1 as [A1|A1]; [destruct p2; discriminate|].
  rewrite total_app in A1. cbn [total] in A1.
  assert (0 <= total mid).
  { apply total_nonneg. rewrite E1 in Hr. rewrite <- app_assoc in Hr. cbn [app] in Hr.
    apply Forall_app in Hr. destruct Hr as [_ Hr]. inversion Hr as [|? ? HA HB]; subst.
    apply Forall_app in HB. apply HB. }
  apply (Qclt_not_le _ _ A1). qc.
Qed.

Lemma bare_mk I : @bare conf (mk_hdr I None).
Proof. repeat split; reflexivity. Qed.

Lemma plength_ranged (p : path) : 0 <= plength p -> ranged p.
Proof. unfold ranged, start, stop, plength, ilen. intros H. qc. Qed.

Lemma restricts_ranged p a b p' : a <= b -> restricts p a b p' -> ranged p'.
Proof. intros H (E & _). apply plength_ranged. rewrite E. qc. Qed.



Lemma snoc_split {A} (mid : list A) z pre y post : mid ++ [z] = pre ++ y :: post ->
  (exists m2, mid = pre ++ y :: m2) \/ (pre = mid /\ y = z /\ post = []).
Proof.
  revert pre. induction mid as [|m mid IH]; intros [|p pre] E; cbn [app] in *.
  - injection E as <- <-. right; auto.
  - injection E as _ E. destruct pre; discriminate.
  - injection E as <- _. left. exists mid. reflexivity.
  - injection E as <- E. destruct (IH pre E) as [(m2 & ->)|(-> & -> & ->)].
    + left. exists m2. reflexivity.
    + right; auto.
Qed.

Lemma pv_restricts h subs a b pre1 x1 mid x2 post2 first last :
  bare h -> Forall ranged subs -> 
  subs = pre1 ++ x1 :: mid ++ x2 :: post2 ->
  0 <= a -> a <= b ->
  (pre1 = [] \/ total pre1 < a) -> a <= total pre1 + plength x1 ->
  total pre1 + plength x1 + total mid < b ->
  b <= total pre1 + plength x1 + total mid + plength x2 ->
  restricts x1 (start x1 + (a - total pre1)) (stop x1) first ->
  restricts x2 (start x2) (start x2 + (b - (total pre1 + plength x1 + total mid))) last ->
  restricts (PV h subs) a b (PV (mk_hdr (0, total (first :: mid ++ [last])) None)
                               (first :: mid ++ [last])).
Proof.
  intros Hb Hr E Ha Hab Hp1 Hx1 Hp2 Hx2 (F1 & F2) (L1 & L2).
  assert (Hlen1 : plength first = total pre1 + plength x1 - a).
  { rewrite F1. unfold plength, ilen, stop, start. qc. }
  assert (Hlen2 : plength last = b - (total pre1 + plength x1 + total mid)).
  { rewrite L1. qc. }
  assert (Htot : total (first :: mid ++ [last]) = b - a).
  { cbn [total]. rewrite total_app. cbn [total]. rewrite Hlen1, Hlen2. qc. }
  assert (Hrm : Forall ranged (first :: mid ++ [last])).
  { subst subs. apply Forall_app in Hr. destruct Hr as [_ Hr]. inversion Hr as [|? ? HA HB]; subst.
    apply Forall_app in HB. destruct HB as [Hm _].
    constructor; [apply plength_ranged; rewrite Hlen1; qc|].
    apply Forall_app. split; [exact Hm|]. constructor; [|constructor].
    apply plength_ranged. rewrite Hlen2. qc. }
  split.
  { unfold plength, timeRange, ilen. cbn [hd_of mk_hdr tr fst snd]. rewrite Htot. qc. }
  intros t Ht0 Ht1. unfold start at 1, timeRange. cbn [hd_of mk_hdr tr fst].
  replace (0 + t) with t by qc.
  destruct (locate_exists conf (first :: mid ++ [last]) t) as (pre & y & post & Hloc).
  { discriminate. }
  { exact Ht0. }
  { rewrite Htot. exact Ht1. }
  rewrite (eval_locate conf interp _ _ t pre y post (bare_mk _) Hrm Hloc).
  destruct Hloc as (El & Hp & Hy).
  destruct pre as [|z pre].
  - cbn [app] in El. injection El as <- <-. cbn [total] in *.
    replace (t - 0) with t by qc.
    assert (Htf : t <= plength first) by qc.
    rewrite F2; [|exact Ht0|rewrite <- F1; exact Htf].
    symmetry. rewrite (eval_PV_at h subs (a + t) pre1 x1 (mid ++ x2 :: post2) Hb Hr E).
    + f_equal. qc.
    + destruct Hp1 as [->|Hp1]; [left; reflexivity|right; qc].
    + rewrite Hlen1 in Htf. qc.
  - cbn [app] in El. injection El as <- El. destruct Hp as [Hp|Hp]; [discriminate|].
    cbn [total] in Hp, Hy. rewrite Hlen1 in *.
    destruct (snoc_split _ _ _ _ _ El) as [(m2 & Em)|(-> & -> & ->)].
    + symmetry.
      assert (E' : subs = (pre1 ++ x1 :: pre) ++ y :: m2 ++ x2 :: post2).
      { rewrite E, Em. repeat (rewrite <- app_assoc; cbn [app]). reflexivity. }
      rewrite (eval_PV_at h subs (a + t) _ _ _ Hb Hr E').
      * rewrite total_app. cbn [total]. f_equal. rewrite Hlen1. qc.
      * right. rewrite total_app. cbn [total]. qc.
      * rewrite total_app. cbn [total]. qc.
    + symmetry.
      assert (E' : subs = (pre1 ++ x1 :: mid) ++ x2 :: post2).
      { rewrite E, <- !app_assoc. reflexivity. }
      rewrite (eval_PV_at h subs (a + t) _ _ _ Hb Hr E').
      * cbn [total]. rewrite Hlen1, L2.
        -- rewrite total_app. cbn [total]. f_equal. qc.
        -- qc.
        -- qc.
      * right. rewrite total_app. cbn [total]. qc.
      * rewrite total_app. cbn [total]. qc.
Qed.

Lemma pv_restricts_one h subs a b pre1 x1 post1 first :
  bare h -> Forall ranged subs -> subs = pre1 ++ x1 :: post1 ->
  0 <= a -> a <= b ->
  (pre1 = [] \/ total pre1 < a) -> b <= total pre1 + plength x1 ->
  restricts x1 (start x1 + (a - total pre1)) (start x1 + (b - total pre1)) first ->
  restricts (PV h subs) a b (PV (mk_hdr (0, total [first]) None) [first]).
Proof.
  intros Hb Hr E Ha Hab Hp Hx (F1 & F2).
  assert (Hl : plength first = b - a) by (rewrite F1; qc).
  split.
  - unfold plength at 1, timeRange, ilen. cbn [hd_of mk_hdr tr fst snd total]. rewrite Hl. qc.
  - intros t Ht0 Ht1. unfold start at 1, timeRange. cbn [hd_of mk_hdr tr fst].
    replace (0 + t) with t by qc.
    rewrite (eval_PV_at _ [first] t [] first [] (bare_mk _)).
    + cbn [total]. replace (t - 0) with t by qc. rewrite F2 by qc.
      symmetry. rewrite (eval_PV_at h subs (a + t) pre1 x1 post1 Hb Hr E).
      * f_equal. qc.
      * destruct Hp as [->|Hp]; [left; reflexivity|right; qc].
      * qc.
    + constructor; [|constructor]. apply plength_ranged. rewrite Hl. qc.
    + reflexivity.
    + left; reflexivity.
    + cbn [total]. rewrite Hl. qc.
Qed.

Lemma plain_ranged (p : path) : plain p -> ranged p.
Proof. destruct p; cbn [plain]; intros [H _]; exact H. Qed.
Lemma Forall_plain_ranged l : Forall (@plain conf) l -> Forall ranged l.
Proof. intros H. eapply Forall_impl; [|exact H]. intros p. apply plain_ranged. Qed.

Lemma generic_restricts (p : path) a b :
  tp (hd_of p) = None -> pr (hd_of p) = tr (hd_of p) -> start p <= a -> a <= b -> b <= stop p ->
  forall p', base_extract p (a, b) = Ok p' -> restricts p a b p'.
Proof.
  intros Ht Hpr Ha Hab Hb p' H. unfold base_extract in H. cbn [fst snd] in H.
  unfold paramRange in H. rewrite Hpr in H.
  qcaseeq a (fst (tr (hd_of p))); [qcaseeq b (snd (tr (hd_of p)))|]; cbn [andb] in H.
  - injection H as <-. split.
    + unfold plength, ilen, timeRange. rewrite <- Hc, <- Hc0. reflexivity.
    + intros t _ _. unfold start, timeRange. rewrite <- Hc. reflexivity.
  - qcase a b; [|exfalso; exact (Qclt_not_le _ _ Hc1 Hab)]. cbn [negb] in H. injection H as <-.
    split; [unfold plength, ilen; cbn; reflexivity|].
    intros t _ _. unfold start, timeRange. cbn [hd_of mk_hdr tr fst].
    rewrite !eval_no_tp by (try reflexivity; exact Ht). reflexivity.
  - qcase a b; [|exfalso; exact (Qclt_not_le _ _ Hc0 Hab)]. cbn [negb] in H. injection H as <-.
    split; [unfold plength, ilen; cbn; reflexivity|].
    intros t _ _. unfold start, timeRange. cbn [hd_of mk_hdr tr fst].
    rewrite !eval_no_tp by (try reflexivity; exact Ht). reflexivity.
Qed.

Lemma extract_restricts (p : path) : plain p ->
  forall a b p', start p <= a -> a <= b -> b <= stop p ->
  extract p (a, b) = Ok p' -> restricts p a b p'.
Proof.
  induction p as [h q0 q1|h ks|h f|h o rv IHo|h subs IH] using path_ind'; intros Hp a b p' Ha Hab Hb H.
  - destruct Hp as [Hr Hp]. unfold PathModel.extract in H. cbn [ops fst] in H.
    unfold ext_wrap in H. cbn [hd_of] in H. pose proof Hp as (Ht & _). rewrite Ht in H.
    apply straight_extract_ok in H; [|exact Hgeo|exact Hp]. cbn [fst snd] in H.
    qcase a b; [|exfalso; exact (Qclt_not_le _ _ Hc Hab)]. subst p'.
    apply straight_restricts; assumption.
  - destruct Hp as [Hr [Hp Hk]]. unfold PathModel.extract in H. cbn [ops fst] in H.
    unfold ext_wrap in H. cbn [hd_of] in H. pose proof Hp as (Ht & _). rewrite Ht in H.
    eapply interp_restricts; eassumption.
  - destruct Hp as [Hr [Ht Hpr]]. unfold PathModel.extract in H. cbn [ops fst] in H.
    unfold ext_wrap in H. cbn [hd_of] in H. rewrite Ht in H.
    apply generic_restricts; assumption.
  - destruct Hp as [Hr [Ht [Hpr Hrv]]]. unfold PathModel.extract in H. cbn [ops fst] in H.
    unfold ext_wrap in H. cbn [hd_of] in H. rewrite Ht in H. subst rv.
    unfold extr_extract, s_in_original in H. cbn [fst snd] in H.
    qcaselt b a; [exfalso; exact (Qclt_not_le _ _ Hc Hab)|]. injection H as <-.
    split; [unfold plength, ilen; cbn; reflexivity|].
    intros t _ _. unfold start, timeRange. cbn [hd_of set_tp set_tr tp tr fst].
    rewrite !eval_no_tp by (try reflexivity; exact Ht). reflexivity.
  - destruct Hp as [Hr [Hbare [Hne [Htr Hs]]]]. apply fold_and_Forall in Hs.
    pose proof Hbare as (Ht & _). rewrite extract_PV in H by exact Ht.
    pose proof (Forall_plain_ranged _ Hs) as Hrs.
    unfold start, stop, timeRange in Ha, Hb. cbn [hd_of] in Ha, Hb. rewrite Htr in Ha, Hb.
    cbn [fst snd] in Ha, Hb.
    assert (Hb0 : 0 <= b) by qc. assert (Hat : a <= total subs) by qc.
    destruct (locate_exists conf subs a Hne Ha Hat) as (p1 & x1 & q1 & L1).
    destruct (locate_exists conf subs b Hne Hb0 Hb) as (p2 & x2 & q2 & L2).
    pose proof (locate_order _ _ _ _ _ _ _ _ _ Hrs Ha Hab L1 L2) as Ho.
    pose proof (locate_le _ _ _ _ _ _ L1 Hrs Ha) as Hle1.
    pose proof (locate_le _ _ _ _ _ _ L2 Hrs Hb0) as Hle2.
    unfold pv_extract in H. cbn [fst snd] in H.
    rewrite (rank_at_locate _ _ _ _ _ _ Hrs L1), (rank_at_locate _ _ _ _ _ _ Hrs L2) in H.
    cbn [bind] in H.
    qcaselt b a; [exfalso; exact (Qclt_not_le _ _ Hc Hab)|]. unfold Iend, Iinit in H.
    pose proof L1 as (E1 & A1 & B1). pose proof L2 as (E2 & A2 & B2).
    rewrite Forall_forall in IH, Hs.
    assert (Hn1 : nth_error (map extract subs) (length p1) = Some (extract x1)).
    { rewrite E1, map_app. cbn [map]. rewrite <- (map_length extract p1). apply nth_error_mid. }
    assert (Hn2 : nth_error (map extract subs) (length p2) = Some (extract x2)).
    { rewrite E2, map_app. cbn [map]. rewrite <- (map_length extract p2). apply nth_error_mid. }
    assert (Hm1 : nth_error subs (length p1) = Some x1) by (rewrite E1; apply nth_error_mid).
    assert (Hm2 : nth_error subs (length p2) = Some x2) by (rewrite E2; apply nth_error_mid).
    assert (Hi1 : In x1 subs) by (rewrite E1; apply in_elt).
    assert (Hi2 : In x2 subs) by (rewrite E2; apply in_elt).
    assert (Hs1 : stop x1 = start x1 + plength x1) by (unfold stop, start, plength, ilen; qc).
    assert (Hs2 : stop x2 = start x2 + plength x2) by (unfold stop, start, plength, ilen; qc).
    pose proof E2 as E12. rewrite E1 in E12.
    destruct (app_eq_split _ _ _ _ _ _ E12 Ho) as [(-> & -> & ->)|(mid & Ep2 & Eq1)].
    + rewrite Nat.eqb_refl, Hn2 in H.
      destruct (extract x2 (start x2 + (a - total p2), start x2 + (b - total p2))) as [x'| | |] eqn:Ex;
        try discriminate. cbn [bind] in H. apply ok_inj in H. subst p'.
      change (append (pv_create None) x') with (fold_left append [x'] (@pv_create conf None)).
      rewrite fold_append_create.
      apply (pv_restricts_one h subs a b p2 x2 q2 x' Hbare Hrs E2 Ha Hab A1 B2).
      apply (IH x2 Hi2 (Hs x2 Hi2)); [| | |exact Ex]; qc.
    + assert (Hneq : (length p1 =? length p2)%nat = false).
      { apply Nat.eqb_neq. rewrite Ep2, app_length. cbn [length]. lia. }
      rewrite Hneq, Hn1, Hn2, Hm1, Hm2 in H.
      assert (Esub : subs = p1 ++ x1 :: mid ++ x2 :: q2).
      { rewrite E1, Eq1. reflexivity. }
      assert (Hp2t : total p2 = total p1 + plength x1 + total mid).
      { rewrite Ep2, total_app. cbn [total]. qc. }
      assert (Hp2b : total p2 < b).
      { destruct A2 as [A2|A2]; [|exact A2]. rewrite Ep2 in A2. destruct p1; discriminate. }
      change (snd (timeRange x1)) with (stop x1) in H.
      change (fst (timeRange x2)) with (start x2) in H.
      destruct (extract x1 (start x1 + (a - total p1), stop x1)) as [f1| | |] eqn:Ef; try discriminate.
      cbn [bind] in H.
      assert (Hseq : sequence (map (fun i => match nth_error subs i with Some x => Ok x | None => UB end)
                (seq (length p1 + 1) (length p2 - length p1 - 1))) = Ok mid).
      { replace (length p1 + 1)%nat with (length (p1 ++ [x1])) by (rewrite app_length; cbn; lia).
        replace (length p2 - length p1 - 1)%nat with (length mid)
          by (rewrite Ep2, app_length; cbn [length]; lia).
        apply (sequence_nth subs (p1 ++ [x1]) mid (x2 :: q2)).
        rewrite Esub, <- app_assoc. reflexivity. }
      rewrite Hseq in H. cbn [bind] in H.
      destruct (extract x2 (start x2, start x2 + (b - total p2))) as [f2| | |] eqn:Ef2; try discriminate.
      cbn [bind] in H. apply ok_inj in H. subst p'.
      change (fold_left append (mid ++ [f2]) (append (pv_create None) f1))
        with (fold_left append (f1 :: mid ++ [f2]) (@pv_create conf None)).
      rewrite fold_append_create.
      apply (pv_restricts h subs a b p1 x1 mid x2 q2 f1 f2 Hbare Hrs Esub Ha Hab A1 B1).
      * rewrite <- Hp2t. exact Hp2b.
      * rewrite <- Hp2t. exact B2.
      * apply (IH x1 Hi1 (Hs x1 Hi1)); [| | |exact Ef]; qc.
      * rewrite <- Hp2t. apply (IH x2 Hi2 (Hs x2 Hi2)); [| | |exact Ef2]; qc.
Qed.

(* extraction always succeeds when no interpolated path is involved *)
Lemma extract_total (p : path) : plain p -> no_interp p ->
  forall a b, start p <= a -> a <= b -> b <= stop p -> exists p', extract p (a, b) = Ok p'.
Proof.
  induction p as [h q0 q1|h ks|h f|h o rv IHo|h subs IH] using path_ind'; intros Hp Hni a b Ha Hab Hb.
  - destruct Hp as [Hr Hp]. unfold PathModel.extract. cbn [ops fst]. unfold ext_wrap. cbn [hd_of].
    pose proof Hp as (Ht & _). rewrite Ht. apply straight_extract_total. exact Hp.
  - destruct Hni.
  - destruct Hp as [Hr [Ht Hpr]]. unfold PathModel.extract. cbn [ops fst]. unfold ext_wrap. cbn [hd_of].
    rewrite Ht. unfold base_extract. destruct (_ && _); eexists; reflexivity.
  - destruct Hp as [Hr [Ht _]]. unfold PathModel.extract. cbn [ops fst]. unfold ext_wrap. cbn [hd_of].
    rewrite Ht. eexists; reflexivity.
  - destruct Hp as [Hr [Hbare [Hne [Htr Hs]]]]. apply fold_and_Forall in Hs.
    cbn [no_interp] in Hni. apply fold_and_Forall in Hni.
    pose proof Hbare as (Ht & _). rewrite extract_PV by exact Ht.
    pose proof (Forall_plain_ranged _ Hs) as Hrs.
    unfold start, stop, timeRange in Ha, Hb. cbn [hd_of] in Ha, Hb. rewrite Htr in Ha, Hb.
    cbn [fst snd] in Ha, Hb.
    assert (Hb0 : 0 <= b) by qc. assert (Hat : a <= total subs) by qc.
    destruct (locate_exists conf subs a Hne Ha Hat) as (p1 & x1 & q1 & L1).
    destruct (locate_exists conf subs b Hne Hb0 Hb) as (p2 & x2 & q2 & L2).
    pose proof (locate_order _ _ _ _ _ _ _ _ _ Hrs Ha Hab L1 L2) as Ho.
    pose proof (locate_le _ _ _ _ _ _ L1 Hrs Ha) as Hle1.
    pose proof (locate_le _ _ _ _ _ _ L2 Hrs Hb0) as Hle2.
    unfold pv_extract. cbn [fst snd].
    rewrite (rank_at_locate _ _ _ _ _ _ Hrs L1), (rank_at_locate _ _ _ _ _ _ Hrs L2).
    cbn [bind].
    qcaselt b a; [exfalso; exact (Qclt_not_le _ _ Hc Hab)|]. unfold Iend, Iinit.
    pose proof L1 as (E1 & A1 & B1). pose proof L2 as (E2 & A2 & B2).
    rewrite Forall_forall in IH, Hs, Hni.
    assert (Hn1 : nth_error (map extract subs) (length p1) = Some (extract x1)).
    { rewrite E1, map_app. cbn [map]. rewrite <- (map_length extract p1). apply nth_error_mid. }
    assert (Hn2 : nth_error (map extract subs) (length p2) = Some (extract x2)).
    { rewrite E2, map_app. cbn [map]. rewrite <- (map_length extract p2). apply nth_error_mid. }
    assert (Hm1 : nth_error subs (length p1) = Some x1) by (rewrite E1; apply nth_error_mid).
    assert (Hm2 : nth_error subs (length p2) = Some x2) by (rewrite E2; apply nth_error_mid).
    assert (Hi1 : In x1 subs) by (rewrite E1; apply in_elt).
    assert (Hi2 : In x2 subs) by (rewrite E2; apply in_elt).
    assert (Hs1 : stop x1 = start x1 + plength x1) by (unfold stop, start, plength, ilen; qc).
    assert (Hs2 : stop x2 = start x2 + plength x2) by (unfold stop, start, plength, ilen; qc).
    pose proof E2 as E12. rewrite E1 in E12.
    destruct (app_eq_split _ _ _ _ _ _ E12 Ho) as [(-> & -> & ->)|(mid & Ep2 & Eq1)].
    + rewrite Nat.eqb_refl, Hn2.
      destruct (IH x2 Hi2 (Hs x2 Hi2) (Hni x2 Hi2) (start x2 + (a - total p2)) (start x2 + (b - total p2)))
        as [x' Ex]; [qc|qc|qc|]. rewrite Ex. cbn [bind]. eexists; reflexivity.
    + assert (Hneq : (length p1 =? length p2)%nat = false).
      { apply Nat.eqb_neq. rewrite Ep2, app_length. cbn [length]. lia. }
      rewrite Hneq, Hn1, Hn2, Hm1, Hm2.
      assert (Esub : subs = p1 ++ x1 :: mid ++ x2 :: q2).
      { rewrite E1, Eq1. reflexivity. }
      change (snd (timeRange x1)) with (stop x1).
      change (fst (timeRange x2)) with (start x2).
      destruct (IH x1 Hi1 (Hs x1 Hi1) (Hni x1 Hi1) (start x1 + (a - total p1)) (stop x1))
        as [f1 Ef]; [qc|qc|qc|]. rewrite Ef. cbn [bind].
      assert (Hseq : sequence (map (fun i => match nth_error subs i with Some x => Ok x | None => UB end)
                (seq (length p1 + 1) (length p2 - length p1 - 1))) = Ok mid).
      { replace (length p1 + 1)%nat with (length (p1 ++ [x1])) by (rewrite app_length; cbn; lia).
        replace (length p2 - length p1 - 1)%nat with (length mid)
          by (rewrite Ep2, app_length; cbn [length]; lia).
        apply (sequence_nth subs (p1 ++ [x1]) mid (x2 :: q2)).
        rewrite Esub, <- app_assoc. reflexivity. }
      rewrite Hseq. cbn [bind].
      destruct (IH x2 Hi2 (Hs x2 Hi2) (Hni x2 Hi2) (start x2) (start x2 + (b - total p2)))
        as [f2 Ef2]; [qc|qc|qc|]. rewrite Ef2. cbn [bind]. eexists; reflexivity.
Qed.

End PathProofs4.
