(* Reversal of all paths. *)
From Coq Require Import Sorting.Sorted.
From Verif Require Import Base QcTac PathModel PathSpec PathProofs PathProofs2 PathProofs3 PathProofs4.
Open Scope Qc_scope.

Section PathProofs5.
Variable conf : Type.
Variable interp : conf -> conf -> Qc -> conf.
Hypothesis Hgeo : geodesic interp.
Notation path := (path conf).
Notation knot := (Qc * conf)%type.
Notation eval := (eval conf interp).
Notation compute := (compute conf interp).
Notation extract := (extract conf interp).
Notation reverse := (reverse conf interp).
Notation initial := (initial conf interp).
Notation end_ := (end_ conf interp).
Notation restricts := (restricts conf interp).
Notation plays_back := (plays_back conf interp).
Notation continuous_list := (continuous_list conf interp).
Notation reversible := (reversible conf interp).

Lemma continuous_iff l : continuous_list l <->
  forall pre x y post, l = pre ++ x :: y :: post -> eval x (stop x) = eval y (start y).
Proof.
  induction l as [|a l IH]; split.
  - intros _ [|] x y post E; discriminate.
  - intros _. exact I.
  - intros H pre x y post E. destruct l as [|b l]; [destruct pre as [|? [|]]; discriminate|].
    destruct H as [H1 H2]. destruct pre as [|z pre]; cbn [app] in E.
    + injection E as <- <- <-. exact H1.
    + injection E as <- E. exact (proj1 IH H2 pre x y post E).
  - intros H. destruct l as [|b l]; [exact I|]. split.
    + apply (H [] a b l). reflexivity.
    + apply IH. intros pre x y post E. apply (H (a :: pre) x y post). rewrite E. reflexivity.
Qed.

Lemma stop_start (x : path) : stop x = start x + plength x.
Proof. unfold stop, start, plength, ilen; qc. Qed.

Lemma eval_boundary h l : bare h -> Forall ranged l -> continuous_list l ->
  forall pre x post, l = pre ++ x :: post -> eval (PV h l) (total pre) = eval x (start x).
Proof.
  intros Hb Hr Hc. induction pre as [|y pre IH] using rev_ind; intros x post E.
  - rewrite (eval_PV_at conf interp h l _ [] x post Hb Hr E).
    + f_equal. cbn [total]. qc.
    + left; reflexivity.
    + cbn [total]. destruct (Forall_pre _ _ _ _ _ Hr E) as (_ & Hx & _).
      apply ranged_len in Hx. qc.
  - rewrite <- app_assoc in E. cbn [app] in E.
    pose proof (proj1 (continuous_iff l) Hc pre y x post E) as Hyx.
    destruct (Forall_pre _ _ _ _ _ Hr E) as (Hpre & Hy & _). apply ranged_len in Hy.
    rewrite total_app. cbn [total].
    destruct pre as [|z pre'] eqn:Ep.
    + rewrite (eval_PV_at conf interp h l _ [] y (x :: post) Hb Hr E).
      * rewrite <- Hyx. f_equal. cbn [total]. rewrite stop_start. qc.
      * left; reflexivity.
      * cbn [total]. qc.
    + rewrite <- Ep in *.
      qcaseeq (plength y) 0.
      * replace (total pre + (plength y + 0)) with (total pre) by (rewrite Hc0; qc).
        rewrite (IH y (x :: post) E). rewrite <- Hyx. f_equal. rewrite stop_start, Hc0. qc.
      * rewrite (eval_PV_at conf interp h l _ pre y (x :: post) Hb Hr E).
        -- rewrite <- Hyx. f_equal. rewrite stop_start. qc.
        -- right. assert (0 < plength y) by (apply qneq_lt; [exact Hy|congruence]). qc.
        -- qc.
Qed.

Lemma eval_at h l : bare h -> Forall ranged l -> continuous_list l ->
  forall pre x post u, l = pre ++ x :: post -> 0 <= u -> u <= plength x ->
  eval (PV h l) (total pre + u) = eval x (start x + u).
Proof.
  intros Hb Hr Hc pre x post u E H0 H1.
  qcaseeq u 0.
  - subst u. replace (total pre + 0) with (total pre) by qc.
    rewrite (eval_boundary h l Hb Hr Hc pre x post E). f_equal. qc.
  - rewrite (eval_PV_at conf interp h l _ pre x post Hb Hr E).
    + f_equal. qc.
    + right. assert (0 < u) by (apply qneq_lt; [exact H0|congruence]). qc.
    + qc.
Qed.

(* a vector whose every piece plays a part of F backwards *)
Lemma pieces_back (p : path) (a b : Qc) (R : list path) :
  R <> [] -> Forall ranged R -> total R = a - b ->
  (forall rpre y rpost, R = rpre ++ y :: rpost -> forall v, 0 <= v -> v <= plength y ->
     eval y (start y + v) = eval p (a - total rpre - v)) ->
  plays_back p a b (PV (mk_hdr (0, total R) None) R).
Proof.
  intros Hne Hr Ht H. split.
  - unfold plength, timeRange, ilen. cbn [hd_of mk_hdr tr fst snd]. rewrite Ht. qc.
  - intros t H0 H1. unfold start at 1, timeRange. cbn [hd_of mk_hdr tr fst].
    replace (0 + t) with t by qc.
    destruct (locate_exists conf R t Hne H0) as (pre & y & post & L); [rewrite Ht; exact H1|].
    rewrite (eval_locate conf interp _ R t pre y post (bare_mk conf _) Hr L).
    pose proof (locate_le _ _ _ _ _ _ L Hr H0) as Hle. destruct L as (E & _ & Hy).
    rewrite (H pre y post E (t - total pre)) by qc. f_equal. qc.
Qed.

Lemma Forall2_split_r {A B} (R : A -> B -> Prop) l l' pre' y post' :
  Forall2 R l l' -> l' = pre' ++ y :: post' ->
  exists pre x post, l = pre ++ x :: post /\ Forall2 R pre pre' /\ R x y /\ Forall2 R post post'.
Proof.
  intros H ->. apply Forall2_app_inv_r in H. destruct H as (pre & r & H1 & H2 & ->).
  inversion H2; subst. exists pre, x, l. auto.
Qed.

Definition back (x x' : path) : Prop := plays_back x (stop x) (start x) x'.

Lemma back_len x x' : back x x' -> plength x' = plength x.
Proof. intros (H & _). rewrite H. unfold plength, stop, start, ilen. reflexivity. Qed.
Lemma back_total l l' : Forall2 back l l' -> total l' = total l.
Proof. induction 1 as [|x x' l l' H _ IH]; [reflexivity|]. cbn [total]. rewrite IH, (back_len _ _ H). reflexivity. Qed.
Lemma back_ranged l l' : Forall2 back l l' -> Forall ranged l -> Forall ranged l'.
Proof.
  induction 1 as [|x x' l l' H _ IH]; intros Hr; constructor; inversion Hr; subst.
  - apply plength_ranged. rewrite (back_len _ _ H). apply ranged_len. assumption.
  - apply IH. assumption.
Qed.
Lemma total_rev (l : list path) : total (rev l) = total l.
Proof. induction l as [|x l IH]; [reflexivity|]. cbn [rev]. rewrite total_app. cbn [total]. rewrite IH. qc. Qed.
Lemma back_at x x' v : back x x' -> 0 <= v -> v <= plength x ->
  eval x' (start x' + v) = eval x (start x + (plength x - v)).
Proof.
  intros (H1 & H2) H0 Hv. rewrite H2; [|exact H0|].
  - f_equal. rewrite stop_start. qc.
  - rewrite stop_start. qc.
Qed.

Lemma rev_split {A} (l : list A) pre y post : rev l = pre ++ y :: post ->
  l = rev post ++ y :: rev pre.
Proof.
  intros H. rewrite <- (rev_involutive l), H, rev_app_distr. cbn [rev]. rewrite <- app_assoc. reflexivity.
Qed.

Lemma pv_back h l l' : bare h -> tr h = (0, total l) -> l <> [] -> Forall ranged l ->
  continuous_list l -> Forall2 back l l' ->
  plays_back (PV h l) (total l) 0 (PV (mk_hdr (0, total (rev l')) None) (rev l')).
Proof.
  intros Hb Htr Hne Hr Hc H2.
  apply pieces_back.
  - intros E. apply (f_equal (@rev _)) in E. rewrite rev_involutive in E. cbn in E. subst l'.
    inversion H2; subst. contradiction.
  - apply Forall_rev. exact (back_ranged _ _ H2 Hr).
  - rewrite total_rev, (back_total _ _ H2). qc.
  - intros rpre y rpost E v H0 H1. apply rev_split in E.
    destruct (Forall2_split_r _ _ _ _ _ _ H2 E) as (pre & x & post & El & Hpre & Hx & Hpost).
    rewrite (back_len _ _ Hx) in H1.
    rewrite (back_at x y v Hx H0 H1).
    pose proof (back_total _ _ Hpost) as Hpt. rewrite total_rev in Hpt.
    replace (total l - total rpre - v) with (total pre + (plength x - v)).
    + symmetry. apply (eval_at h l Hb Hr Hc pre x post); [exact El|qc|qc].
    + rewrite El, total_app. cbn [total]. rewrite Hpt. qc.
Qed.

Lemma rev_continuous l l' : Forall ranged l -> continuous_list l -> Forall2 back l l' ->
  continuous_list (rev l').
Proof.
  intros Hr Hc H2. apply continuous_iff. intros rpre y1 y2 rpost E.
  apply rev_split in E. cbn [rev] in E. 
  assert (E' : l' = rev (y2 :: rpost) ++ y1 :: rev rpre) by exact E. clear E.
  cbn [rev] in E'. rewrite <- app_assoc in E'. cbn [app] in E'.
  destruct (Forall2_split_r _ _ _ _ _ _ H2 E') as (pre & x2 & post & El & _ & Hx2 & Hpost).
  inversion Hpost as [|x1 ? post' ? Hx1 Hpost']; subst.
  assert (R1 : ranged x1 /\ ranged x2).
  { apply Forall_app in Hr. destruct Hr as [_ Hr]. inversion Hr as [|? ? A B]; subst.
    inversion B; subst. split; assumption. }
  destruct R1 as [R1 R2]. apply ranged_len in R1. apply ranged_len in R2.
  pose proof (proj1 (continuous_iff _) Hc pre x2 x1 post' eq_refl) as Hj.
  rewrite (stop_start y1), (back_len _ _ Hx1).
  rewrite (back_at x1 y1 (plength x1) Hx1) by qc.
  replace (start y2) with (start y2 + 0) by qc.
  rewrite (back_at x2 y2 0 Hx2) by qc.
  replace (start x1 + (plength x1 - plength x1)) with (start x1) by qc.
  rewrite <- Hj. f_equal. rewrite stop_start. qc.
Qed.

Lemma last_app {A} (l : list A) x d : last (l ++ [x]) d = x.
Proof. apply last_last. Qed.

Lemma reversible_ranged p : reversible p -> ranged p.
Proof. destruct p; cbn [PathSpec.reversible]; intros [H _]; exact H. Qed.

Definition rev_ok (p p' : path) : Prop :=
  back p p' /\ reversible p' /\ initial p' = end_ p /\ end_ p' = initial p.

Lemma sequence_Forall2 {A B} (f : A -> res B) (R : A -> B -> Prop) l :
  Forall (fun x => exists y, f x = Ok y /\ R x y) l ->
  exists l', sequence (map f l) = Ok l' /\ Forall2 R l l'.
Proof.
  induction 1 as [|x l (y & E & HR) _ (l' & El & HF)].
  - exists []. split; [reflexivity|constructor].
  - exists (y :: l'). cbn [map sequence]. rewrite E. cbn [bind]. rewrite El. cbn [bind].
    split; [reflexivity|constructor; assumption].
Qed.

Lemma sval_ends I (q0 q1 : conf) : fst I <= snd I -> (fst I = snd I -> q0 = q1) ->
  sval conf interp I q0 q1 (snd I) = q1 /\ sval conf interp I q0 q1 (fst I) = q0.
Proof.
  intros Hr Hz. unfold sval, ilen. qcaseeq (snd I - fst I) 0.
  - split; [|reflexivity]. apply Hz. qc.
  - replace ((snd I - fst I) / (snd I - fst I)) with 1 by (field; exact Hc).
    replace ((fst I - fst I) / (snd I - fst I)) with 0 by (field; exact Hc).
    split; apply Hgeo.
Qed.

Lemma eval_eq_compute_bare (p : path) t : bare (hd_of p) -> eval p t = compute p t.
Proof. intros (H1 & H2 & _). apply eval_plain; assumption. Qed.

Lemma back_self (p : path) : start p = stop p -> back p p.
Proof.
  intros E. split.
  - unfold plength, ilen. reflexivity.
  - intros t H0 H1. rewrite E in *. replace t with 0 by qc. f_equal; qc.
Qed.

Lemma reverse_ok (p : path) : reversible p -> exists p', reverse p = Ok p' /\ rev_ok p p'.
Proof.
  induction p as [h q0 q1|h ks|h f|h o rv IHo|h subs IH] using path_ind'; intros Hp.
  - destruct Hp as [Hr [Hb Hz]]. unfold ranged, start, stop, timeRange in Hr. cbn [hd_of] in Hr.
    unfold PathModel.reverse. cbn [ops snd]. unfold ext_wrap. cbn [hd_of].
    pose proof Hb as (Ht & _). rewrite Ht.
    destruct (straight_extract_total conf interp h q0 q1
                (snd (timeRange (Straight h q0 q1)), fst (timeRange (Straight h q0 q1))) Hb) as [p' E].
    exists p'. split; [exact E|]. apply straight_extract_ok in E; [|exact Hgeo|exact Hb].
    unfold timeRange in E. cbn [hd_of fst snd] in E.
    destruct (sval_ends (tr h) q0 q1 Hr Hz) as [S1 S0].
    assert (E' : p' = Straight (mk_hdr (0, snd (tr h) - fst (tr h)) None) q1 q0).
    { rewrite E, S1, S0. qcase (snd (tr h)) (fst (tr h)); [|reflexivity].
      replace (fst (tr h) - snd (tr h)) with (snd (tr h) - fst (tr h)); [reflexivity|].
      assert (fst (tr h) = snd (tr h)) by (apply Qcle_antisym; assumption). qc. }
    clear E. rewrite E'. split.
    + pose proof (straight_plays_back conf interp Hgeo h q0 q1 (snd (tr h)) (fst (tr h)) Hb) as B.
      rewrite S1, S0 in B. apply B; [apply Qcle_refl|exact Hr|apply Qcle_refl].
    + split; [|split; reflexivity]. split.
      * unfold ranged, start, stop, timeRange. cbn [hd_of mk_hdr tr fst snd]. qc.
      * split; [apply bare_mk|]. cbn [mk_hdr tr fst snd]. intros E. symmetry. apply Hz. qc.
  - destruct Hp as [Hr [Hb [Hk Hz]]].
    unfold PathModel.reverse. cbn [ops snd].
    exists (Interp (mk_hdr (0, snd (tr h)) None) (map (mirror_knot conf (snd (tr h))) (rev ks))).
    pose proof (interp_reverse_ok conf h ks Hb Hk Hz) as E. split; [exact E|]. split.
    + exact (interp_reverse_back conf interp Hgeo h ks _ Hb Hk Hz Hr E).
    + split.
      * split.
        -- unfold ranged, start, stop, timeRange in *. cbn [hd_of mk_hdr tr fst snd] in *. 
           rewrite <- Hz. exact Hr.
        -- split; [apply bare_mk|]. split; [|reflexivity].
           apply knots_ok_mirrored; assumption.
      * destruct Hk as (_ & k0 & kl & E0 & El & _).
        cbn [PathModel.initial PathModel.end_]. rewrite El.
        unfold klast in El. destruct (rev ks) as [|r0 rs] eqn:Er; [discriminate|]. injection El as ->.
        destruct ks as [|k ks']; [discriminate|]. cbn in E0. injection E0 as ->.
        split; [reflexivity|].
        unfold klast. rewrite <- map_rev, <- Er, rev_involutive. reflexivity.
  - destruct Hp as [Hr [Hb Hz]]. pose proof Hb as (Ht & Hcs & Hpr).
    unfold PathModel.reverse. cbn [ops snd]. unfold ext_wrap. cbn [hd_of]. rewrite Ht.
    unfold base_extract, timeRange, paramRange. cbn [hd_of fst snd]. rewrite Hpr.
    unfold ranged, start, stop, timeRange in Hr. cbn [hd_of] in Hr.
    assert (Hp : reversible (Gen h f)) by (split; [exact Hr|split; assumption]).
    qcaseeq (snd (tr h)) (fst (tr h)).
    + qcaseeq (fst (tr h)) (snd (tr h)); [|congruence]. cbn [andb].
      eexists; split; [reflexivity|]. split; [apply back_self; exact Hc0|].
      split; [exact Hp|]. cbn [PathModel.initial PathModel.end_]. rewrite Hpr, Hc0. split; reflexivity.
    + cbn [andb]. qcase (snd (tr h)) (fst (tr h));
        [exfalso; apply Hc; apply Qcle_antisym; assumption|]. cbn [negb].
      eexists; split; [reflexivity|]. split; [|split; [|split]].
      * split.
        -- unfold plength, ilen, start, stop. cbn. reflexivity.
        -- intros t H0 H1. unfold start, stop, timeRange. cbn [hd_of mk_hdr tr fst].
           rewrite !eval_eq_compute_bare; [|exact Hb|cbn [hd_of]; rewrite Hcs; apply bare_mk].
           cbn [PathModel.compute]. unfold s_in_original. cbn [mk_hdr pr snd].
           do 2 f_equal. rewrite Hz. qc.
      * split; [unfold ranged, start, stop; cbn; exact Hr|].
        rewrite Hcs. split; [apply bare_mk|]. split; [exact Hb|exact Hz].
      * cbn [PathModel.initial PathModel.end_ mk_hdr tr snd].
        rewrite eval_eq_compute_bare by exact Hb. cbn [PathModel.compute]. rewrite Hpr. reflexivity.
      * cbn [PathModel.initial PathModel.end_ mk_hdr tr fst].
        rewrite eval_eq_compute_bare by exact Hb. cbn [PathModel.compute]. rewrite Hpr. reflexivity.
  - destruct Hp as [Hr [Hb [Hbo Hz]]]. pose proof Hb as (Ht & Hcs & Hpr).
    unfold PathModel.reverse. cbn [ops snd]. unfold ext_wrap. cbn [hd_of]. rewrite Ht.
    unfold extr_extract, timeRange. cbn [hd_of fst snd].
    unfold ranged, start, stop, timeRange in Hr. cbn [hd_of] in Hr. 
    eexists; split; [reflexivity|].
    unfold set_tp, set_tr. cbn [tp tr pr cs]. rewrite Hcs.
    assert (Hs : s_in_original h rv (snd (tr h)) = if rv then 0 else snd (tr h)).
    { unfold s_in_original. rewrite Hpr. destruct rv; [qc|reflexivity]. }
    assert (Hf : s_in_original h rv (fst (tr h)) = if rv then snd (tr h) else 0).
    { unfold s_in_original. rewrite Hpr, Hz. destruct rv; [qc|reflexivity]. }
    rewrite Hs, Hf. rewrite Hz in Hr.
    assert (Hpath : forall rv' : bool,
      (rv' = negb rv \/ snd (tr h) = 0) ->
      rev_ok (Extr h o rv) (Extr (mk_hdr (0, snd (tr h)) None) o rv')).
    { intros rv' Hrv'. split; [|split; [|split]].
      - split.
        + unfold plength, ilen, start, stop, timeRange. cbn [hd_of mk_hdr tr fst snd]. rewrite Hz. reflexivity.
        + intros t H0 H1. unfold start, stop, timeRange in *. cbn [hd_of mk_hdr tr fst snd] in *.
          rewrite !eval_eq_compute_bare; [|exact Hb|apply bare_mk].
          cbn [PathModel.compute]. unfold s_in_original. cbn [mk_hdr pr snd]. rewrite Hpr.
          f_equal. destruct Hrv' as [->|Hrv'].
          * destruct rv; cbn [negb]; qc.
          * rewrite Hz in H1. assert (t = 0) by qc. subst t. destruct rv, rv'; qc.
      - split; [unfold ranged, start, stop; cbn; exact Hr|].
        split; [apply bare_mk|]. split; [exact Hbo|reflexivity].
      - cbn [PathModel.initial PathModel.end_ mk_hdr tr fst snd]. rewrite Hz.
        destruct Hrv' as [->|Hrv']; [destruct rv; reflexivity|].
        rewrite Hrv'. destruct rv, rv'; reflexivity.
      - cbn [PathModel.initial PathModel.end_ mk_hdr tr fst snd]. rewrite Hz.
        destruct Hrv' as [->|Hrv']; [destruct rv; reflexivity|].
        rewrite Hrv'. destruct rv, rv'; reflexivity. }
    destruct rv.
    + qcaselt (snd (tr h)) 0; [exfalso; exact (Qclt_not_le _ _ Hc Hr)|].
      apply Hpath. left; reflexivity.
    + qcaselt 0 (snd (tr h)).
      * apply Hpath. left; reflexivity.
      * assert (E : snd (tr h) = 0) by (apply Qcle_antisym; assumption).
        specialize (Hpath false (or_intror E)). rewrite E in *. exact Hpath.
  - destruct Hp as [Hr [Hb [Hne [Htr [Hcont Hs]]]]]. apply fold_and_Forall in Hs.
    rewrite reverse_PV. rewrite <- map_rev.
    assert (Hrs : Forall ranged subs)
      by (eapply Forall_impl; [|exact Hs]; intros p; apply reversible_ranged).
    assert (HF : exists l', sequence (map reverse subs) = Ok l' /\ Forall2 rev_ok subs l').
    { apply sequence_Forall2. rewrite Forall_forall in IH, Hs |- *. intros x Hx.
      destruct (IH x Hx (Hs x Hx)) as (p' & E & HH). exists p'. split; assumption. }
    destruct HF as (l' & El' & HF).
    assert (Hseq : sequence (map reverse (rev subs)) = Ok (rev l')).
    { clear - El'. revert l' El'. induction subs as [|x subs IHs]; intros l' E.
      - cbn in E. injection E as <-. reflexivity.
      - cbn [map sequence] in E. destruct (reverse x) as [y| | |] eqn:Ex; try discriminate.
        cbn [bind] in E. destruct (sequence (map reverse subs)) as [t| | |] eqn:Et; try discriminate.
        cbn [bind] in E. injection E as <-. cbn [rev]. rewrite map_app. cbn [map].
        specialize (IHs t eq_refl). clear Et. revert IHs. generalize (rev t) as rt.
        induction (map reverse (rev subs)) as [|r rs IHr]; intros rt E.
        + cbn in E. injection E as <-. cbn [app sequence bind]. rewrite Ex. reflexivity.
        + cbn [sequence app] in *. destruct r as [z| | |]; try discriminate. cbn [bind] in *.
          destruct (sequence rs) as [u| | |]; try discriminate. cbn [bind] in E. injection E as <-.
          rewrite (IHr u eq_refl). reflexivity. }
    rewrite Hseq. cbn [bind]. rewrite fold_append_create.
    eexists; split; [reflexivity|].
    assert (HFb : Forall2 back subs l').
    { clear - HF. induction HF as [|x y l l' (A & _) _ IHF]; constructor; assumption. }
    assert (Hne' : l' <> []).
    { intros ->. inversion HF; subst. contradiction. }
    split; [|split; [|split]].
    + unfold back. unfold start, stop, timeRange. cbn [hd_of]. rewrite Htr. cbn [fst snd].
      apply pv_back; assumption.
    + split.
      * unfold ranged, start, stop, timeRange. cbn [hd_of mk_hdr tr fst snd].
        rewrite total_rev, (back_total _ _ HFb). apply total_nonneg; exact Hrs.
      * split; [apply bare_mk|]. split.
        -- intros E. apply (f_equal (@rev _)) in E. rewrite rev_involutive in E. exact (Hne' E).
        -- split; [reflexivity|]. split; [exact (rev_continuous _ _ Hrs Hcont HFb)|].
           apply fold_and_Forall. apply Forall_rev. clear - HF.
           induction HF as [|x y l l' (_ & A & _) _ IHF]; constructor; assumption.
    + (* initial of the reverse *)
      cbn [PathModel.initial PathModel.end_].
      destruct (exists_last Hne') as (m' & y & ->). rewrite rev_app_distr. cbn [rev app].
      destruct (Forall2_split_r _ _ _ m' y [] HF eq_refl) as (m & x & post & -> & _ & (_ & _ & Hi & _) & Hpost).
      inversion Hpost; subst. rewrite map_app. cbn [map]. rewrite last_app. exact Hi.
    + cbn [PathModel.initial PathModel.end_].
      inversion HF as [|x y l lr (_ & _ & _ & He) HFr]; subst; [contradiction|].
      cbn [rev]. rewrite map_app. cbn [map]. rewrite last_app. exact He.
Qed.

(* ---- backward extraction ---- *)
Lemma pv_back_extract h subs a b pre2 x2 mid x1 post1 first mid' last :
  bare h -> Forall ranged subs -> continuous_list subs ->
  subs = pre2 ++ x2 :: mid ++ x1 :: post1 ->
  0 <= b -> b <= a ->
  total pre2 <= b -> b <= total pre2 + plength x2 ->
  total pre2 + plength x2 + total mid <= a ->
  a <= total pre2 + plength x2 + total mid + plength x1 ->
  plays_back x1 (start x1 + (a - (total pre2 + plength x2 + total mid))) (start x1) first ->
  Forall2 back mid mid' ->
  plays_back x2 (stop x2) (start x2 + (b - total pre2)) last ->
  plays_back (PV h subs) a b (PV (mk_hdr (0, total (first :: rev mid' ++ [last])) None)
                               (first :: rev mid' ++ [last])).
Proof.
  intros Hb Hr Hc E Hb0 Hba Hp2 Hx2 Hp1 Hx1 (F1 & F2) HM (L1 & L2).
  assert (Hlen1 : plength first = a - (total pre2 + plength x2 + total mid)) by (rewrite F1; qc).
  assert (Hlen2 : plength last = total pre2 + plength x2 - b).
  { rewrite L1, stop_start. qc. }
  pose proof (back_total _ _ HM) as HMt.
  assert (Hrm : Forall ranged mid).
  { subst subs. apply Forall_app in Hr. destruct Hr as [_ Hr]. inversion Hr as [|? ? HA HB]; subst.
    apply Forall_app in HB. apply HB. }
  apply pieces_back.
  - discriminate.
  - constructor; [apply plength_ranged; rewrite Hlen1; qc|].
    apply Forall_app. split; [apply Forall_rev; exact (back_ranged _ _ HM Hrm)|].
    constructor; [|constructor]. apply plength_ranged. rewrite Hlen2. qc.
  - cbn [total]. rewrite total_app, total_rev, HMt. cbn [total]. rewrite Hlen1, Hlen2. qc.
  - intros rpre y rpost El v H0 H1.
    destruct rpre as [|z rpre]; cbn [app] in El.
    + injection El as <- _. cbn [total]. rewrite Hlen1 in H1. rewrite F2 by qc.
      replace (a - 0 - v) with (total (pre2 ++ x2 :: mid) + (a - (total pre2 + plength x2 + total mid) - v)).
      * symmetry. rewrite (eval_at h subs Hb Hr Hc (pre2 ++ x2 :: mid) x1 post1).
        -- f_equal. qc.
        -- rewrite E, <- app_assoc. reflexivity.
        -- qc.
        -- qc.
      * rewrite total_app. cbn [total]. qc.
    + injection El as <- El. cbn [total]. rewrite Hlen1.
      destruct (snoc_split _ _ _ _ _ El) as [(m2 & Em)|(-> & -> & ->)].
      * apply rev_split in Em.
        destruct (Forall2_split_r _ _ _ _ _ _ HM Em) as (mp & x & mq & Emid & _ & Hx & Hmq).
        pose proof (back_total _ _ Hmq) as Hq. rewrite total_rev in Hq.
        rewrite (back_len _ _ Hx) in H1. rewrite (back_at x y v Hx H0 H1).
        replace (a - (a - (total pre2 + plength x2 + total mid) + total rpre) - v)
          with (total (pre2 ++ x2 :: mp) + (plength x - v)).
        -- symmetry. apply (eval_at h subs Hb Hr Hc (pre2 ++ x2 :: mp) x (mq ++ x1 :: post1)).
           ++ rewrite E, Emid. repeat (rewrite <- app_assoc; cbn [app]). reflexivity.
           ++ qc.
           ++ qc.
        -- rewrite total_app. cbn [total]. rewrite Emid, total_app. cbn [total]. rewrite Hq. qc.
      * rewrite Hlen2 in H1. rewrite total_rev, HMt. rewrite L2.
        -- replace (a - (a - (total pre2 + plength x2 + total mid) + total mid) - v)
             with (total pre2 + (plength x2 - v)) by qc.
           symmetry. rewrite (eval_at h subs Hb Hr Hc pre2 x2 (mid ++ x1 :: post1) _ E).
           ++ f_equal. rewrite stop_start. qc.
           ++ qc.
           ++ qc.
        -- exact H0.
        -- rewrite stop_start. qc.
Qed.

Lemma pv_back_one h subs a b pre x post first :
  bare h -> Forall ranged subs -> continuous_list subs -> subs = pre ++ x :: post ->
  0 <= b -> b <= a -> total pre <= b -> a <= total pre + plength x ->
  plays_back x (start x + (a - total pre)) (start x + (b - total pre)) first ->
  plays_back (PV h subs) a b (PV (mk_hdr (0, total [first]) None) [first]).
Proof.
  intros Hb Hr Hc E Hb0 Hba Hp Hx (F1 & F2).
  assert (Hl : plength first = a - b) by (rewrite F1; qc).
  apply pieces_back.
  - discriminate.
  - constructor; [|constructor]. apply plength_ranged. rewrite Hl. qc.
  - cbn [total]. rewrite Hl. qc.
  - intros [|z rpre] y rpost El v H0 H1; cbn [app] in El; [|destruct rpre; discriminate].
    injection El as <- _. cbn [total]. rewrite Hl in H1. rewrite F2 by qc.
    replace (a - 0 - v) with (total pre + (a - total pre - v)) by qc.
    symmetry. rewrite (eval_at h subs Hb Hr Hc pre x post _ E); [f_equal; qc|qc|qc].
Qed.


Lemma extract_back (p : path) : reversible p -> no_generic p ->
  forall a b p', start p <= b -> b <= a -> a <= stop p ->
  extract p (a, b) = Ok p' -> plays_back p a b p'.
Proof.
  induction p as [h q0 q1|h ks|h f|h o rv IHo|h subs IH] using path_ind'; intros Hp Hng a b p' Hb Hba Ha H.
  - destruct Hp as [Hr [Hp Hz]]. unfold PathModel.extract in H. cbn [ops fst] in H.
    unfold ext_wrap in H. cbn [hd_of] in H. pose proof Hp as (Ht & _). rewrite Ht in H.
    apply straight_extract_ok in H; [|exact Hgeo|exact Hp]. cbn [fst snd] in H.
    assert (E : p' = Straight (mk_hdr (0, a - b) None) (sval conf interp (tr h) q0 q1 a)
                       (sval conf interp (tr h) q0 q1 b)).
    { rewrite H. qcase a b; [|reflexivity].
      replace (b - a) with (a - b); [reflexivity|]. assert (a = b) by (apply Qcle_antisym; assumption). qc. }
    rewrite E. apply straight_plays_back; assumption.
  - destruct Hp as [Hr [Hp [Hk Hz]]]. unfold PathModel.extract in H. cbn [ops fst] in H.
    unfold ext_wrap in H. cbn [hd_of] in H. pose proof Hp as (Ht & _). rewrite Ht in H.
    eapply interp_plays_back; eassumption.
  - destruct Hng.
  - destruct Hng.
  - destruct Hp as [Hr [Hbare [Hne [Htr [Hcont Hs]]]]]. apply fold_and_Forall in Hs.
    cbn [no_generic] in Hng. apply fold_and_Forall in Hng.
    pose proof Hbare as (Ht & _). rewrite extract_PV in H by exact Ht.
    assert (Hrs : Forall ranged subs)
      by (eapply Forall_impl; [|exact Hs]; intros q; apply reversible_ranged).
    unfold start, stop, timeRange in Ha, Hb. cbn [hd_of] in Ha, Hb. rewrite Htr in Ha, Hb.
    cbn [fst snd] in Ha, Hb.
    assert (Ha0 : 0 <= a) by qc. assert (Hbt : b <= total subs) by qc.
    destruct (locate_exists conf subs b Hne Hb Hbt) as (p2 & x2 & q2 & L2).
    destruct (locate_exists conf subs a Hne Ha0 Ha) as (p1 & x1 & q1 & L1).
    pose proof (locate_order conf _ _ _ _ _ _ _ _ _ Hrs Hb Hba L2 L1) as Ho.
    pose proof (locate_le _ _ _ _ _ _ L1 Hrs Ha0) as Hle1.
    pose proof (locate_le _ _ _ _ _ _ L2 Hrs Hb) as Hle2.
    unfold pv_extract in H. cbn [fst snd] in H.
    rewrite (rank_at_locate _ _ _ _ _ _ Hrs L1), (rank_at_locate _ _ _ _ _ _ Hrs L2) in H.
    cbn [bind] in H.
    pose proof L1 as (E1 & A1 & B1). pose proof L2 as (E2 & A2 & B2).
    rewrite Forall_forall in IH, Hs, Hng.
    assert (Hn1 : nth_error (map extract subs) (length p1) = Some (extract x1)).
    { rewrite E1, map_app. cbn [map]. rewrite <- (map_length extract p1). apply nth_error_mid. }
    assert (Hn2 : nth_error (map extract subs) (length p2) = Some (extract x2)).
    { rewrite E2, map_app. cbn [map]. rewrite <- (map_length extract p2). apply nth_error_mid. }
    assert (Hm1 : nth_error subs (length p1) = Some x1) by (rewrite E1; apply nth_error_mid).
    assert (Hm2 : nth_error subs (length p2) = Some x2) by (rewrite E2; apply nth_error_mid).
    assert (Hi1 : In x1 subs) by (rewrite E1; apply in_elt).
    assert (Hi2 : In x2 subs) by (rewrite E2; apply in_elt).
    assert (Hs1 : stop x1 = start x1 + plength x1) by (unfold stop, start, plength, ilen; qc).
    assert (Hs2 : stop x2 = start x2 + plength x2) by (unfold stop, start, plength, ilen; qc).
    pose proof E1 as E12. rewrite E2 in E12.
    destruct (app_eq_split _ _ _ _ _ _ E12 Ho) as [(Ee1 & Ee2 & Ee3)|(mid & Ep1 & Eq2)].
    + subst p2 x2 q2. rewrite Nat.eqb_refl, Hn1 in H.
      destruct (extract x1 (start x1 + (a - total p1), start x1 + (b - total p1))) as [x'| | |] eqn:Ex;
        try discriminate. cbn [bind] in H. apply ok_inj in H. subst p'.
      change (append (pv_create None) x') with (fold_left append [x'] (@pv_create conf None)).
      rewrite fold_append_create.
      apply (pv_back_one h subs a b p1 x1 q1 x' Hbare Hrs Hcont E1 Hb Hba Hle2 B1).
      apply (IH x1 Hi1 (Hs x1 Hi1) (Hng x1 Hi1)); [| | |exact Ex]; qc.
    + assert (Hneq : (length p1 =? length p2)%nat = false).
      { apply Nat.eqb_neq. rewrite Ep1, app_length. cbn [length]. lia. }
      assert (Esub : subs = p2 ++ x2 :: mid ++ x1 :: q1).
      { rewrite E2, Eq2. reflexivity. }
      assert (Hp1t : total p1 = total p2 + plength x2 + total mid).
      { rewrite Ep1, total_app. cbn [total]. qc. }
      assert (Hp1a : total p1 < a).
      { destruct A1 as [A1|A1]; [|exact A1]. rewrite Ep1 in A1. destruct p2; discriminate. }
      assert (Hmr : 0 <= total mid).
      { apply total_nonneg. rewrite Esub in Hrs. apply Forall_app in Hrs. destruct Hrs as [_ Hrs'].
        inversion Hrs' as [|? ? HA HB]; subst. apply Forall_app in HB. apply HB. }
      qcaselt b a; [|exfalso; apply (Qclt_not_le _ _ Hp1a); qc].
      rewrite Hneq, Hn1, Hn2, Hm1, Hm2 in H. unfold Iend, Iinit in H.
      change (fst (timeRange x1)) with (start x1) in H.
      change (snd (timeRange x2)) with (stop x2) in H.
      destruct (extract x1 (start x1 + (a - total p1), start x1)) as [f1| | |] eqn:Ef; try discriminate.
      cbn [bind] in H.
      assert (HFm : exists mid', sequence (map reverse mid) = Ok mid' /\ Forall2 rev_ok mid mid').
      { apply sequence_Forall2. apply Forall_forall. intros x Hx. apply reverse_ok. apply Hs.
        rewrite Esub. apply in_or_app. right. right. apply in_or_app. left. exact Hx. }
      destruct HFm as (mid' & Emid' & HFm).
      assert (Hseq : sequence (map (fun i => match nth_error (map reverse subs) i with
                                             | Some r => r | None => UB end)
                (rev (seq (length p2 + 1) (length p1 - length p2 - 1)))) = Ok (rev mid')).
      { rewrite map_rev.
        assert (Em : map (fun i => match nth_error (map reverse subs) i with
                                             | Some r => r | None => UB end)
                 (seq (length p2 + 1) (length p1 - length p2 - 1)) = map reverse mid).
        { replace (length p2 + 1)%nat with (length (p2 ++ [x2])) by (rewrite app_length; cbn; lia).
          replace (length p1 - length p2 - 1)%nat with (length mid)
            by (rewrite Ep1, app_length; cbn [length]; lia).
          assert (Esub' : subs = (p2 ++ [x2]) ++ mid ++ x1 :: q1).
          { rewrite Esub, <- app_assoc. reflexivity. }
          rewrite Esub'. generalize (p2 ++ [x2]) as P. generalize (x1 :: q1) as Q. clear.
          induction mid as [|m mid IHm]; intros Q P; [reflexivity|].
          cbn [length seq map]. f_equal.
          - rewrite map_app. cbn [map app]. rewrite <- (map_length reverse P), nth_error_mid. reflexivity.
          - specialize (IHm Q (P ++ [m])). rewrite <- app_assoc in IHm. cbn [app] in IHm.
            rewrite app_length in IHm. cbn [length] in IHm. rewrite Nat.add_1_r in IHm. exact IHm. }
        rewrite Em. clear - Emid'. revert mid' Emid'.
        induction (map reverse mid) as [|r rs IHr]; intros mid' E.
        - cbn in E. injection E as <-. reflexivity.
        - cbn [sequence] in E. destruct r as [y| | |]; try discriminate. cbn [bind] in E.
          destruct (sequence rs) as [t| | |]; try discriminate. cbn [bind] in E. injection E as <-.
          cbn [rev]. specialize (IHr t eq_refl). revert IHr. generalize (rev t) as rt.
          induction (rev rs) as [|r' rs' IHr']; intros rt E.
          + cbn in E. injection E as <-. reflexivity.
          + cbn [sequence app] in *. destruct r' as [z| | |]; try discriminate. cbn [bind] in *.
            destruct (sequence rs') as [u| | |]; try discriminate. cbn [bind] in E. injection E as <-.
            rewrite (IHr' u eq_refl). reflexivity. }
      rewrite Hseq in H. cbn [bind] in H.
      destruct (extract x2 (stop x2, start x2 + (b - total p2))) as [f2| | |] eqn:Ef2; try discriminate.
      cbn [bind] in H. apply ok_inj in H. subst p'.
      change (fold_left append (rev mid' ++ [f2]) (append (pv_create None) f1))
        with (fold_left append (f1 :: rev mid' ++ [f2]) (@pv_create conf None)).
      rewrite fold_append_create.
      apply (pv_back_extract h subs a b p2 x2 mid x1 q1 f1 mid' f2 Hbare Hrs Hcont Esub Hb Hba Hle2 B2).
      * rewrite <- Hp1t. exact Hle1.
      * rewrite <- Hp1t. exact B1.
      * rewrite <- Hp1t. apply (IH x1 Hi1 (Hs x1 Hi1) (Hng x1 Hi1)); [| | |exact Ef]; qc.
      * clear - HFm. induction HFm as [|x y l l' (A & _) _ IHF]; constructor; assumption.
      * apply (IH x2 Hi2 (Hs x2 Hi2) (Hng x2 Hi2)); [| | |exact Ef2]; qc.
Qed.

End PathProofs5.
