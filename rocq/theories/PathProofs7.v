(* Waypoints of interpolated paths. *)
From Coq Require Import Sorting.Sorted.
From Verif Require Import Base QcTac PathModel PathSpec PathProofs PathProofs2 PathProofs3 PathProofs4.
Open Scope Qc_scope.

Section PathProofs7.
Variable conf : Type.
Variable interp : conf -> conf -> Qc -> conf.
Hypothesis Hgeo : geodesic interp.
Notation path := (path conf).
Notation knot := (Qc * conf)%type.
Notation eval := (eval conf interp).
Notation kok := (kok conf).

Lemma kinsert_In k q (ks : list knot) : kok ks -> forall x,
  In x (kinsert k q ks) <-> In x ks \/ (x = (k, q) /\ forall y, In y ks -> fst y <> k).
Proof.
  induction ks as [|[k' q'] r IH]; intros H x; cbn [kinsert].
  - cbn [In]. split.
    + intros [<-|[]]. right. split; [reflexivity|]. intros y [].
    + intros [[]|[-> _]]. left; reflexivity.
  - pose proof (kok_cons _ _ _ H) as [Hr Hf]. rewrite Forall_forall in Hf. cbn [fst] in Hf.
    qcaselt k k'.
    + cbn [In]. split.
      * intros [<-|Hx]; [|left; exact Hx]. right. split; [reflexivity|].
        intros y [<-|Hy]; [cbn [fst]; intros ->; exact (Qclt_not_le _ _ Hc (Qcle_refl _))|].
        specialize (Hf y Hy). intros E. subst k. apply (Qclt_not_le _ _ Hc). apply Qclt_le_weak. exact Hf.
      * intros [Hx|[-> _]]; [right; exact Hx|left; reflexivity].
    + qcaseeq k k'.
      * subst k'. split; [left; assumption|]. intros [Hx|[-> Hn]]; [exact Hx|].
        exfalso. exact (Hn (k, q') (or_introl eq_refl) eq_refl).
      * cbn [In]. rewrite (IH Hr x). split.
        -- intros [<-|[Hx|[-> Hn]]]; auto. right. split; [reflexivity|].
           intros y [<-|Hy]; [cbn [fst]; congruence|exact (Hn y Hy)].
        -- intros [[<-|Hx]|[-> Hn]]; auto. right. right. split; [reflexivity|].
           intros y Hy. apply Hn. right; exact Hy.
Qed.

Lemma kinsert_kok k q (ks : list knot) : kok ks -> kok (kinsert k q ks).
Proof.
  induction ks as [|[k' q'] r IH]; intros H; cbn [kinsert]; [repeat constructor|].
  pose proof (kok_cons _ _ _ H) as [Hr Hf]. pose proof Hf as Hf'. rewrite Forall_forall in Hf. cbn [fst] in Hf.
  qcaselt k k'.
  - constructor; [exact H|]. constructor; [exact Hc|]. eapply Forall_impl; [|exact Hf'].
    intros y Hy. cbn [fst] in *. eapply Qclt_trans; eassumption.
  - qcaseeq k k'; [exact H|]. constructor; [apply IH; exact Hr|].
    apply Forall_forall. intros y Hy. apply (kinsert_In k q r Hr) in Hy.
    destruct Hy as [Hy|[-> _]]; [apply Hf; exact Hy|]. cbn [fst].
    apply qneq_lt; [exact Hc|congruence].
Qed.

Definition wp_inv (l ks : list knot) : Prop := kok ks /\ forall x, In x ks <-> waypoint l x.

Lemma waypoint_In (l : list knot) x : waypoint l x -> In x l.
Proof. intros (l1 & l2 & -> & _). apply in_elt. Qed.

Lemma first_key (l : list knot) x : In x l -> exists w, waypoint l w /\ fst w = fst x.
Proof.
  induction l as [|y l IH]; intros H; [destruct H|].
  destruct (Qc_eq_dec (fst y) (fst x)) as [E|E].
  - exists y. split; [|exact E]. exists [], l. split; [reflexivity|constructor].
  - destruct H as [->|H]; [contradiction|]. destruct (IH H) as (w & (l1 & l2 & -> & F) & Ew).
    exists w. split; [|exact Ew]. exists (y :: l1), l2. split; [reflexivity|].
    constructor; [congruence|exact F].
Qed.

Lemma waypoint_snoc (l : list knot) k x :
  waypoint (l ++ [k]) x <-> waypoint l x \/ (x = k /\ forall y, In y l -> fst y <> fst k).
Proof.
  split.
  - intros (l1 & l2 & E & F).
    destruct (snoc_split _ _ _ _ _ E) as [(m & Em)|(E1 & E2 & E3)].
    + left. exists l1, m. split; assumption.
    + right. subst. split; [reflexivity|]. rewrite Forall_forall in F. exact F.
  - intros [(l1 & l2 & -> & F)|[-> H]].
    + exists l1, (l2 ++ [k]). split; [rewrite <- app_assoc; reflexivity|exact F].
    + exists l, []. split; [reflexivity|]. apply Forall_forall. exact H.
Qed.

Lemma wp_inv_insert l ks k q : wp_inv l ks -> wp_inv (l ++ [(k, q)]) (kinsert k q ks).
Proof.
  intros [H1 H2]. split; [apply kinsert_kok; exact H1|].
  intros x. rewrite (kinsert_In k q ks H1), waypoint_snoc, H2. cbn [fst].
  assert (E : (forall y, In y ks -> fst y <> k) <-> (forall y, In y l -> fst y <> k)).
  { split; intros H y Hy.
    - destruct (first_key l y Hy) as (w & Hw & Ew). rewrite <- Ew. apply H. apply H2. exact Hw.
    - apply H. apply waypoint_In. apply H2. exact Hy. }
  rewrite E. reflexivity.
Qed.

Definition inserted (ins : list knot) (p : path) : path :=
  fold_left (fun p k => path_insert (fst k) (snd k) p) ins p.

Lemma inserted_knots h ks ins l : wp_inv l ks ->
  exists ks', inserted ins (Interp h ks) = Interp h ks' /\ wp_inv (l ++ ins) ks'.
Proof.
  revert ks l. induction ins as [|[k q] ins IH]; intros ks l H.
  - exists ks. rewrite app_nil_r. split; [reflexivity|exact H].
  - cbn [inserted fold_left path_insert fst snd].
    destruct (IH (kinsert k q ks) (l ++ [(k, q)]) (wp_inv_insert l ks k q H)) as (ks' & E & H').
    exists ks'. rewrite <- app_assoc in H'. split; [exact E|exact H'].
Qed.

Definition given (q0 q1 : conf) (I : itv) (ins : list knot) : list knot :=
  (fst I, q0) :: (snd I, q1) :: ins.

Lemma built q0 q1 I ins p0 :
  interp_create q0 q1 I None = Ok p0 ->
  exists ks, inserted ins p0 = Interp (mk_hdr I None) ks /\ wp_inv (given q0 q1 I ins) ks.
Proof.
  intros H. unfold interp_create in H.
  set (ks0 := kinsert (snd I) q1 (kinsert (fst I) q0 [])) in *.
  assert (W : wp_inv [(fst I, q0); (snd I, q1)] ks0).
  { change [(fst I, q0); (snd I, q1)] with (([] ++ [(fst I, q0)]) ++ [(snd I, q1)]).
    apply wp_inv_insert, wp_inv_insert. split; [constructor|].
    intros x. split; [intros []|]. intros (l1 & l2 & E & _). destruct l1; discriminate. }
  destruct ks0 as [|k0 r]; [discriminate|]. destruct (klast (k0 :: r)); [|discriminate].
  cbn [check_ends mk_hdr cs] in H. injection H as <-.
  exact (inserted_knots (mk_hdr I None) (k0 :: r) ins _ W).
Qed.

Lemma kok_nodup_key (ks : list knot) x y : kok ks -> In x ks -> In y ks -> fst x = fst y -> x = y.
Proof.
  induction ks as [|a ks IH]; intros H Hx Hy E; [destruct Hx|].
  apply kok_cons in H. destruct H as [H1 H2]. rewrite Forall_forall in H2.
  destruct Hx as [->|Hx], Hy as [->|Hy]; auto.
  - exfalso. specialize (H2 y Hy). rewrite E in H2. exact (Qclt_not_le _ _ H2 (Qcle_refl _)).
  - exfalso. specialize (H2 x Hx). rewrite E in H2. exact (Qclt_not_le _ _ H2 (Qcle_refl _)).
Qed.

Lemma kok_hd (ks : list knot) a : kok ks -> In a ks -> (forall x, In x ks -> fst a <= fst x) ->
  hd_error ks = Some a.
Proof.
  destruct ks as [|k ks]; intros H Ha Hm; [destruct Ha|]. cbn. f_equal.
  apply (kok_nodup_key (k :: ks)); [exact H|left; reflexivity|exact Ha|].
  apply Qcle_antisym; [|apply Hm; left; reflexivity].
  apply kok_cons in H. destruct H as [_ H]. rewrite Forall_forall in H.
  destruct Ha as [->|Ha]; [apply Qcle_refl|apply Qclt_le_weak, H, Ha].
Qed.
Lemma klast_max (ks : list knot) kl : kok ks -> klast ks = Some kl -> forall x, In x ks -> fst x <= fst kl.
Proof.
  intros H Hl x Hx. induction ks as [|a ks IH]; [destruct Hx|].
  pose proof (kok_cons _ _ _ H) as [H1 H2]. rewrite Forall_forall in H2.
  destruct ks as [|b ks]; [cbn in Hl; injection Hl as ->; destruct Hx as [->|[]]; apply Qcle_refl|].
  rewrite klast_cons in Hl. destruct Hx as [->|Hx]; [|exact (IH H1 Hl Hx)].
  apply Qclt_le_weak. apply H2. apply klast_In. exact Hl.
Qed.
Lemma kok_last (ks : list knot) a : kok ks -> In a ks -> (forall x, In x ks -> fst x <= fst a) ->
  klast ks = Some a.
Proof.
  intros H Ha Hm. destruct (klast ks) as [kl|] eqn:E.
  - f_equal. pose proof (klast_In _ _ _ E) as Hk. apply (kok_nodup_key ks); auto.
    apply Qcle_antisym; [apply Hm; exact Hk|]. exact (klast_max ks kl H E a Ha).
  - exfalso. unfold klast in E. destruct (rev ks) eqn:Er; [|discriminate].
    apply (f_equal (@rev _)) in Er. rewrite rev_involutive in Er. subst ks. destruct Ha.
Qed.

Lemma kok_pair (ks : list knot) a b : kok ks -> In a ks -> In b ks -> fst a < fst b ->
  (forall x, In x ks -> fst x <= fst a \/ fst b <= fst x) ->
  exists pre post, ks = pre ++ a :: b :: post.
Proof.
  intros H Ha Hb Hab Hn. destruct (in_split _ _ Ha) as (pre & post & E). exists pre.
  subst ks. destruct post as [|c post].
  - exfalso. assert (L : klast (pre ++ [a]) = Some a) by apply klast_app.
    pose proof (klast_max _ _ H L b Hb) as M. exact (Qclt_not_le _ _ Hab M).
  - assert (Hac : fst a < fst c).
    { apply (kok_app_lt conf (pre ++ [a]) (c :: post)).
      - rewrite <- app_assoc. exact H.
      - apply in_or_app. right. left. reflexivity.
      - left; reflexivity. }
    assert (Hc : In c (pre ++ a :: c :: post)) by (apply in_or_app; right; right; left; reflexivity).
    destruct (Hn c Hc) as [Hle|Hbc]; [exfalso; exact (Qclt_not_le _ _ Hac Hle)|].
    exists post. do 3 f_equal. apply (kok_nodup_key _ _ _ H Hc Hb).
    apply Qcle_antisym; [|exact Hbc].
    apply in_app_or in Hb. destruct Hb as [Hb|[->|[->|Hb]]].
    + exfalso. assert (fst b < fst a).
      { apply (kok_app_lt conf pre (a :: c :: post) b a H Hb). left; reflexivity. }
      exact (Qclt_not_le _ _ Hab (Qclt_le_weak _ _ H0)).
    + exfalso. exact (Qclt_not_le _ _ Hab (Qcle_refl _)).
    + apply Qcle_refl.
    + apply Qclt_le_weak. apply (kok_app_lt conf (pre ++ [a; c]) post).
      * rewrite <- app_assoc. exact H.
      * apply in_or_app. right. right. left. reflexivity.
      * exact Hb.
Qed.

Notation pl := (pl conf interp).
Lemma pl_pair pre a b post q t : kok (pre ++ a :: b :: post) -> fst a <= t -> t <= fst b ->
  pl (pre ++ a :: b :: post) q t = seg conf interp a b t.
Proof.
  intros H H1 H2. destruct pre as [|k pre].
  - cbn [app PathProofs2.pl]. qcase t (fst b); [reflexivity|].
    exfalso. exact (Qclt_not_le _ _ Hc H2).
  - cbn [app] in *. assert (Hka : fst k < fst a).
    { apply (kok_app_lt conf (k :: pre) (a :: b :: post) k a H); left; reflexivity. }
    rewrite (pl_app conf interp pre k a (b :: post) q t H) by (apply Qclt_le_weak; eapply Qclt_le_trans; eassumption).
    assert (Hab : fst a < fst b).
    { apply (kok_app_lt conf ((k :: pre) ++ [a]) (b :: post)).
      - rewrite <- app_assoc. exact H.
      - apply in_or_app. right; left; reflexivity.
      - left; reflexivity. }
    qcase t (fst a).
    + assert (t = fst a) by (apply Qcle_antisym; assumption). subst t.
      assert (Hk : kok (k :: pre ++ [a])).
      { clear - H. assert (G : forall xs (ys : list knot), kok (xs ++ ys) -> kok xs).
        { induction xs as [|x xs IH]; intros ys Hx; [constructor|]. cbn [app] in Hx.
          pose proof (kok_cons _ _ _ Hx) as [A B]. constructor; [eapply IH; exact A|].
          apply Forall_app in B. apply B. }
        apply (G (k :: pre ++ [a]) (b :: post)). cbn [app]. rewrite <- app_assoc. exact H. }
      rewrite (pl_last conf interp Hgeo k (pre ++ [a]) q Hk a) by (apply (klast_app conf (k :: pre) a)).
      symmetry. apply seg_left; assumption.
    + cbn [PathProofs2.pl]. qcase t (fst b); [reflexivity|]. exfalso. exact (Qclt_not_le _ _ Hc0 H2).
Qed.

Lemma pl_at (ks : list knot) q k : kok ks -> In k ks -> pl ks q (fst k) = snd k.
Proof.
  intros H Hk. destruct (in_split _ _ Hk) as (pre & post & E).
  destruct post as [|b post].
  - destruct pre as [|a pre]; cbn [app] in E; subst ks.
    + apply pl_first; assumption.
    + apply (pl_last conf interp Hgeo a (pre ++ [k]) q H). apply (klast_app conf (a :: pre) k).
  - subst ks. assert (Hab : fst k < fst b).
    { apply (kok_app_lt conf (pre ++ [k]) (b :: post)).
      - rewrite <- app_assoc. exact H.
      - apply in_or_app. right; left; reflexivity.
      - left; reflexivity. }
    rewrite pl_pair; [apply seg_left; assumption|exact H|apply Qcle_refl|apply Qclt_le_weak; exact Hab].
Qed.

Lemma built_knots_ok q0 q1 I ins ks : fst I <= snd I ->
  Forall (fun k => fst I <= fst k /\ fst k <= snd I) ins ->
  wp_inv (given q0 q1 I ins) ks ->
  knots_ok I ks /\ hd_error ks = Some (fst I, q0) /\
  exists qe, klast ks = Some (snd I, qe) /\ (fst I < snd I -> qe = q1).
Proof.
  intros HI Hins [Hk Hin].
  assert (Hrange : forall x, In x ks -> fst I <= fst x /\ fst x <= snd I).
  { intros x Hx. apply Hin, waypoint_In in Hx. destruct Hx as [<-|[<-|Hx]]; cbn [fst].
    - split; [apply Qcle_refl|exact HI].
    - split; [exact HI|apply Qcle_refl].
    - rewrite Forall_forall in Hins. apply Hins; exact Hx. }
  assert (H0 : hd_error ks = Some (fst I, q0)).
  { apply kok_hd; [exact Hk| |intros x Hx; apply Hrange; exact Hx].
    apply Hin. exists [], ((snd I, q1) :: ins). split; [reflexivity|constructor]. }
  assert (H1 : exists qe, klast ks = Some (snd I, qe) /\ (fst I < snd I -> qe = q1)).
  { destruct (first_key (given q0 q1 I ins) (snd I, q1)) as ([k q] & Hw & Ew).
    { right; left; reflexivity. }
    cbn [fst] in Ew. subst k. exists q. split.
    - apply kok_last; [exact Hk|apply Hin; exact Hw|]. intros x Hx. apply Hrange; exact Hx.
    - intros Hlt. assert (In (snd I, q1) ks).
      { apply Hin. exists [(fst I, q0)], ins. split; [reflexivity|].
        constructor; [cbn [fst]; apply qlt_neq; exact Hlt|constructor]. }
      pose proof (kok_nodup_key ks (snd I, q) (snd I, q1) Hk (proj2 (Hin _) Hw) H eq_refl) as E.
      congruence. }
  split; [|split; assumption]. split; [exact Hk|]. destruct H1 as (qe & H1 & _).
  exists (fst I, q0), (snd I, qe). repeat split; assumption.
Qed.

Lemma built_eval q0 q1 I ins p0 : fst I <= snd I ->
  Forall (fun k => fst I <= fst k /\ fst k <= snd I) ins ->
  interp_create q0 q1 I None = Ok p0 ->
  (forall k, waypoint (given q0 q1 I ins) k -> eval (inserted ins p0) (fst k) = Ok (Some (snd k))) /\
  (forall a b t, consecutive (given q0 q1 I ins) a b -> fst a <= t -> t <= fst b ->
     eval (inserted ins p0) t = Ok (Some (interp (snd a) (snd b) ((t - fst a) / (fst b - fst a))))) /\
  initial conf interp (inserted ins p0) = Ok (Some q0) /\
  (fst I < snd I -> end_ conf interp (inserted ins p0) = Ok (Some q1)).
Proof.
  intros HI Hins H. destruct (built q0 q1 I ins p0 H) as (ks & E & W). rewrite E.
  destruct (built_knots_ok q0 q1 I ins ks HI Hins W) as (Hok & H0 & qe & H1 & Hqe).
  destruct W as [Hk Hin].
  destruct ks as [|k0 r]; [discriminate|].
  assert (Hrange : forall x, In x (k0 :: r) -> fst I <= fst x /\ fst x <= snd I).
  { intros x Hx. apply Hin, waypoint_In in Hx. destruct Hx as [<-|[<-|Hx]]; cbn [fst].
    - split; [apply Qcle_refl|exact HI].
    - split; [exact HI|apply Qcle_refl].
    - rewrite Forall_forall in Hins. apply Hins; exact Hx. }
  split; [|split; [|split]].
  - intros k Hw. apply Hin in Hw. destruct (Hrange k Hw) as [R1 R2].
    rewrite (interp_eval conf interp Hgeo _ k0 r (fst k) q0); [|apply bare_mk|exact Hok|exact R1|exact R2].
    do 2 f_equal. apply pl_at; assumption.
  - intros a b t (Ha & Hb & Hab & Hn) T1 T2. apply Hin in Ha. apply Hin in Hb.
    destruct (Hrange a Ha) as [Ra _]. destruct (Hrange b Hb) as [_ Rb].
    rewrite (interp_eval conf interp Hgeo _ k0 r t q0); [|apply bare_mk|exact Hok|cbn [mk_hdr tr]; eapply Qcle_trans; eassumption|cbn [mk_hdr tr]; eapply Qcle_trans; eassumption].
    do 2 f_equal. destruct (kok_pair (k0 :: r) a b Hk Ha Hb Hab) as (pre & post & Ep).
    { intros x Hx. apply Hn. apply Hin. exact Hx. }
    rewrite Ep. rewrite Ep in Hk. apply pl_pair; assumption.
  - cbn in H0. injection H0 as ->. reflexivity.
  - intros Hlt. cbn [end_]. rewrite H1. rewrite (Hqe Hlt). reflexivity.
Qed.

(* every parameter falls at a waypoint or between two consecutive ones *)
Lemma waypoints_cover q0 q1 I ins t : fst I <= t -> t <= snd I ->
  Forall (fun k => fst I <= fst k /\ fst k <= snd I) ins ->
  (exists k, waypoint (given q0 q1 I ins) k /\ fst k = t) \/
  (exists a b, consecutive (given q0 q1 I ins) a b /\ fst a <= t /\ t <= fst b).
Proof.
  intros T1 T2 Hins. set (l := given q0 q1 I ins).
  assert (Hlo : exists a, waypoint l a /\ fst a <= t /\ forall w, waypoint l w -> fst w <= t -> fst w <= fst a).
  { assert (G : forall m : list knot, incl m l -> (exists x, In x m /\ fst x <= t) ->
        exists a, In a m /\ fst a <= t /\ forall w, In w m -> fst w <= t -> fst w <= fst a).
    { induction m as [|x m IH]; intros Hm [y [Hy Ey]]; [destruct Hy|].
      destruct (Qclt_le_dec t (fst x)) as [Hx|Hx].
      - destruct Hy as [->|Hy]; [exfalso; exact (Qclt_not_le _ _ Hx Ey)|].
        destruct (IH (fun z Hz => Hm z (or_intror Hz)) (ex_intro _ y (conj Hy Ey))) as (a & A1 & A2 & A3).
        exists a. split; [right; exact A1|split; [exact A2|]].
        intros w [<-|Hw] Ew; [exfalso; exact (Qclt_not_le _ _ Hx Ew)|apply A3; assumption].
      - assert (Dec : (exists z, In z m /\ fst z <= t) \/ (forall z, In z m -> t < fst z)).
        { clear. induction m as [|z m [(w & Hw & Ew)|Hn]].
          - right. intros z [].
          - left. exists w. split; [right; exact Hw|exact Ew].
          - destruct (Qclt_le_dec t (fst z)) as [Hz|Hz].
            + right. intros w [<-|Hw]; auto.
            + left. exists z. split; [left; reflexivity|exact Hz]. }
        destruct Dec as [(z & Hz & Ez)|Dec].
        + destruct (IH (fun z Hz => Hm z (or_intror Hz)) (ex_intro _ z (conj Hz Ez))) as (a & A1 & A2 & A3).
          destruct (Qclt_le_dec (fst a) (fst x)) as [C|C].
          * exists x. split; [left; reflexivity|split; [exact Hx|]].
            intros w [<-|Hw] Ew; [apply Qcle_refl|]. eapply Qcle_trans; [apply A3; assumption|apply Qclt_le_weak; exact C].
          * exists a. split; [right; exact A1|split; [exact A2|]].
            intros w [<-|Hw] Ew; [exact C|apply A3; assumption].
        + exists x. split; [left; reflexivity|split; [exact Hx|]].
          intros w [<-|Hw] Ew; [apply Qcle_refl|]. exfalso. exact (Qclt_not_le _ _ (Dec w Hw) Ew). }
    destruct (G l (incl_refl _)) as (a & A1 & A2 & A3).
    { exists (fst I, q0). split; [left; reflexivity|exact T1]. }
    destruct (first_key l a A1) as (w & Hw & Ew). exists w. rewrite Ew.
    split; [exact Hw|split; [exact A2|]]. intros v Hv Ev. apply A3; [apply waypoint_In; exact Hv|exact Ev]. }
  assert (Hhi : exists b, waypoint l b /\ t <= fst b /\ forall w, waypoint l w -> t <= fst w -> fst b <= fst w).
  { assert (G : forall m : list knot, (exists x, In x m /\ t <= fst x) ->
        exists a, In a m /\ t <= fst a /\ forall w, In w m -> t <= fst w -> fst a <= fst w).
    { induction m as [|x m IH]; intros [y [Hy Ey]]; [destruct Hy|].
      destruct (Qclt_le_dec (fst x) t) as [Hx|Hx].
      - destruct Hy as [->|Hy]; [exfalso; exact (Qclt_not_le _ _ Hx Ey)|].
        destruct (IH (ex_intro _ y (conj Hy Ey))) as (a & A1 & A2 & A3).
        exists a. split; [right; exact A1|split; [exact A2|]].
        intros w [<-|Hw] Ew; [exfalso; exact (Qclt_not_le _ _ Hx Ew)|apply A3; assumption].
      - assert (Dec : (exists z, In z m /\ t <= fst z) \/ (forall z, In z m -> fst z < t)).
        { clear. induction m as [|z m [(w & Hw & Ew)|Hn]].
          - right. intros z [].
          - left. exists w. split; [right; exact Hw|exact Ew].
          - destruct (Qclt_le_dec (fst z) t) as [Hz|Hz].
            + right. intros w [<-|Hw]; auto.
            + left. exists z. split; [left; reflexivity|exact Hz]. }
        destruct Dec as [(z & Hz & Ez)|Dec].
        + destruct (IH (ex_intro _ z (conj Hz Ez))) as (a & A1 & A2 & A3).
          destruct (Qclt_le_dec (fst x) (fst a)) as [C|C].
          * exists x. split; [left; reflexivity|split; [exact Hx|]].
            intros w [<-|Hw] Ew; [apply Qcle_refl|]. eapply Qcle_trans; [apply Qclt_le_weak; exact C|apply A3; assumption].
          * exists a. split; [right; exact A1|split; [exact A2|]].
            intros w [<-|Hw] Ew; [exact C|apply A3; assumption].
        + exists x. split; [left; reflexivity|split; [exact Hx|]].
          intros w [<-|Hw] Ew; [apply Qcle_refl|]. exfalso. exact (Qclt_not_le _ _ (Dec w Hw) Ew). }
    destruct (G l) as (a & A1 & A2 & A3).
    { exists (snd I, q1). split; [right; left; reflexivity|exact T2]. }
    destruct (first_key l a A1) as (w & Hw & Ew). exists w. rewrite Ew.
    split; [exact Hw|split; [exact A2|]]. intros v Hv Ev. apply A3; [apply waypoint_In; exact Hv|exact Ev]. }
  destruct Hlo as (a & A1 & A2 & A3). destruct Hhi as (b & B1 & B2 & B3).
  destruct (Qc_eq_dec (fst a) t) as [E|E]; [left; exists a; auto|].
  right. exists a, b. split; [|split; assumption].
  split; [exact A1|split; [exact B1|split]].
  - apply Qclt_le_trans with t; [apply qneq_lt; assumption|exact B2].
  - intros w Hw. destruct (Qclt_le_dec t (fst w)) as [C|C].
    + right. apply B3; [exact Hw|apply Qclt_le_weak; exact C].
    + left. apply A3; assumption.
Qed.

End PathProofs7.
Arguments inserted {conf} ins p.
Arguments given {conf} q0 q1 I ins.
