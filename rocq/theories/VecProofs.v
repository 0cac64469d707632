(* Path vectors: evaluation and extraction of a contiguous vector. *)
From Coq Require Import Lia.
From Verif Require Import Base QcTac PathModel PathProofs PathProofs4 VecModel VecSpec.
Open Scope Qc_scope.

Section VecProofs.
Variables C P : Type.
Variable init fin : P -> C.
Variable rng : P -> Qc * Qc.
Variable ev : P -> Qc -> option C.
Variable cut : P -> Qc * Qc -> res P.
Variable G : P -> Prop.
Hypothesis HG : honest init fin rng ev cut G.
Notation plen := (plen rng).
Notation vlen := (vlen rng).
Notation vrank := (vrank rng).
Notation veval := (veval rng ev).
Notation vextract := (vextract rng cut).
Notation chained := (chained init fin).
Notation cost := (cost init fin).

Lemma plen_nonneg p : G p -> 0 <= plen p.
Proof. intros H. pose proof (h_fwd HG p H). unfold VecModel.plen. qc. Qed.
Lemma vlen_nonneg l : Forall G l -> 0 <= vlen l.
Proof.
  induction 1 as [|p l Hp Hl IH]; cbn [VecModel.vlen]; [apply Qcle_refl|].
  apply plen_nonneg in Hp. qc.
Qed.
Lemma vlen_app l m : vlen (l ++ m) = vlen l + vlen m.
Proof. induction l as [|p l IH]; cbn [VecModel.vlen app]; [qc|rewrite IH; qc]. Qed.
Lemma isum_vlen l : isum (map rng l) = vlen l.
Proof. induction l as [|p l IH]; cbn [VecModel.vlen map isum]; [reflexivity|]. rewrite IH. reflexivity. Qed.

Lemma chained_app q l m q' : chained q (l ++ m) q' <-> exists x, chained q l x /\ chained x m q'.
Proof.
  revert q. induction l as [|p l IH]; intros q; cbn [VecSpec.chained app].
  - split; [intros H; exists q; auto|intros (x & -> & H); exact H].
  - rewrite IH. split; [intros (A & x & B & D); exists x; auto|intros (x & (A & B) & D); eauto].
Qed.
Lemma chained_fun q l q1 q2 : chained q l q1 -> chained q l q2 -> q1 = q2.
Proof.
  revert q. induction l as [|p l IH]; intros q; cbn [VecSpec.chained]; [congruence|].
  intros (_ & A) (_ & B). eauto.
Qed.
Lemma cost_app d l m : cost d (l ++ m) = cost d l + cost d m.
Proof. induction l as [|p l IH]; cbn [VecSpec.cost app]; [qc|rewrite IH; qc]. Qed.

Lemma plen_zero p : G p -> plen p = 0 -> init p = fin p.
Proof.
  intros H E. pose proof (h_init HG p H) as A. pose proof (h_fin HG p H) as B.
  replace (snd (rng p)) with (fst (rng p)) in B by (unfold VecModel.plen in E; qc). congruence.
Qed.
Lemma chained_zero q l q' : Forall G l -> chained q l q' -> vlen l = 0 -> q = q'.
Proof.
  intros H. revert q. induction H as [|p l Hp Hl IH]; intros q; cbn [VecSpec.chained VecModel.vlen];
    [auto|].
  intros (E & Hc) Z. pose proof (plen_nonneg p Hp). pose proof (vlen_nonneg l Hl).
  rewrite <- (IH _ Hc) by qc. rewrite <- E. apply plen_zero; [exact Hp|qc].
Qed.

Definition falls (l : list P) (t : Qc) pre x post : Prop :=
  l = pre ++ x :: post /\ (pre = [] \/ vlen pre < t) /\ vlen pre <= t /\ t <= vlen pre + plen x /\
  vrank l t = Ok (length pre, fst (rng x) + (t - vlen pre)).

Lemma falls_exists l t : Forall G l -> l <> [] -> 0 <= t -> t <= vlen l ->
  exists pre x post, falls l t pre x post.
Proof.
  intros H Hne H0 H1.
  assert (A : exists pre x post, l = pre ++ x :: post /\ (pre = [] \/ vlen pre < t) /\
                                 t <= vlen pre + plen x).
  { clear H. revert t Hne H0 H1. induction l as [|p l IH]; intros t Hne H0 H1; [contradiction|].
    cbn [VecModel.vlen] in H1. qcase t (plen p).
    - exists [], p, l. cbn [VecModel.vlen app]. repeat split; [auto|qc].
    - destruct l as [|p' l'].
      + cbn [VecModel.vlen] in H1. exfalso. apply (Qclt_not_le _ _ Hc). qc.
      + destruct (IH (t - plen p)) as (pre & x & post & E & F & L); [discriminate|qc|qc|].
        exists (p :: pre), x, post. cbn [VecModel.vlen app]. rewrite <- E.
        repeat split; [right; destruct F as [->|F]; cbn [VecModel.vlen]; qc|qc]. }
  destruct A as (pre & x & post & E & F & L). exists pre, x, post. repeat split; auto.
  - destruct F as [->|F]; [exact H0|apply Qclt_le_weak; exact F].
  - unfold VecModel.vrank. rewrite E, map_app. cbn [map].
    rewrite rank_at.
    + rewrite map_length, isum_vlen. reflexivity.
    + rewrite E in H. apply Forall_app in H. destruct H as [H _]. apply Forall_map.
      eapply Forall_impl; [|exact H]. intros p Hp. exact (plen_nonneg p Hp).
    + rewrite isum_vlen. destruct F as [->|F]; [left; reflexivity|right; exact F].
    + rewrite isum_vlen. exact L.
Qed.

Lemma nth_error_mid' {A} (pre : list A) x post : nth_error (pre ++ x :: post) (length pre) = Some x.
Proof. induction pre as [|y pre IH]; [reflexivity|exact IH]. Qed.

Lemma veval_falls l t pre x post : falls l t pre x post ->
  veval l t = Ok (ev x (fst (rng x) + (t - vlen pre))).
Proof.
  intros (E & _ & _ & _ & R). unfold VecModel.veval. rewrite R. cbn [bind fst snd].
  rewrite E, nth_error_mid'. reflexivity.
Qed.

(* values at the ends of the range *)
Lemma veval_start q l q' : Forall G l -> l <> [] -> chained q l q' -> veval l 0 = Ok (Some q).
Proof.
  intros H Hne Hc.
  destruct (falls_exists l 0 H Hne (Qcle_refl _) (vlen_nonneg l H)) as (pre & x & post & F).
  rewrite (veval_falls _ _ _ _ _ F). destruct F as (E & F & _ & _ & _). subst l.
  apply Forall_app in H. destruct H as [H H']. inversion H' as [|? ? Gx _]; subst.
  destruct F as [->|F].
  - cbn [VecModel.vlen]. replace (fst (rng x) + (0 - 0)) with (fst (rng x)) by qc.
    rewrite (h_init HG x Gx). destruct Hc as (-> & _). reflexivity.
  - exfalso. apply (Qclt_not_le _ _ F). apply vlen_nonneg. exact H.
Qed.
Lemma veval_stop q l q' : Forall G l -> l <> [] -> chained q l q' -> veval l (vlen l) = Ok (Some q').
Proof.
  intros H Hne Hc.
  destruct (falls_exists l (vlen l) H Hne (vlen_nonneg l H) (Qcle_refl _)) as (pre & x & post & F).
  rewrite (veval_falls _ _ _ _ _ F). destruct F as (E & _ & _ & L & _). subst l.
  apply Forall_app in H. destruct H as [H H']. inversion H' as [|? ? Gx Gp]; subst.
  apply chained_app in Hc. destruct Hc as (m & _ & (Ex & Hc)).
  rewrite vlen_app in *. cbn [VecModel.vlen] in *. pose proof (vlen_nonneg post Gp).
  pose proof (chained_zero _ _ _ Gp Hc ltac:(qc)) as <-.
  replace (fst (rng x) + (vlen pre + (plen x + vlen post) - vlen pre)) with (snd (rng x))
    by (unfold VecModel.plen in *; qc).
  rewrite (h_fin HG x Gx). reflexivity.
Qed.

(* a part of a path of l *)
Definition part_of (l : list P) (p' : P) : Prop :=
  In p' l \/ exists p a b, In p l /\ fst (rng p) <= a /\ a <= b /\ b <= snd (rng p) /\ cut p (a, b) = Ok p'.

Lemma firstn_mid {A} (pre mid post : list A) x y :
  firstn (length (pre ++ x :: mid) - length pre - 1) (skipn (length pre + 1) (pre ++ x :: mid ++ y :: post)) = mid.
Proof.
  rewrite app_length. cbn [length].
  replace (length pre + S (length mid) - length pre - 1)%nat with (length mid) by lia.
  replace (skipn (length pre + 1) (pre ++ x :: mid ++ y :: post)) with (mid ++ y :: post).
  - rewrite firstn_app, firstn_all, Nat.sub_diag. cbn [firstn]. apply app_nil_r.
  - induction pre as [|z pre IH]; [reflexivity|]. cbn [length Nat.add app skipn]. exact IH.
Qed.

Lemma vextract_spec q l q' a b : Forall G l -> l <> [] -> chained q l q' ->
  0 <= a -> a <= b -> b <= vlen l ->
  match vextract l a b with
  | Ok l' => Forall G l' /\ vlen l' = b - a /\ Forall (part_of l) l' /\ l' <> [] /\
             exists qa qb, veval l a = Ok (Some qa) /\ veval l b = Ok (Some qb) /\ chained qa l' qb
  | Throw => True
  | UB => ~ cut_defined rng cut G
  | Fuel => ~ cut_defined rng cut G
  end.
Proof.
  intros H Hne Hc H0 Hab Hb.
  destruct (falls_exists l a H Hne H0) as (p1 & x1 & s1 & F1); [eapply Qcle_trans; eassumption|].
  destruct (falls_exists l b H Hne) as (p2 & x2 & s2 & F2); [eapply Qcle_trans; eassumption|exact Hb|].
  rewrite (veval_falls _ _ _ _ _ F1), (veval_falls _ _ _ _ _ F2).
  unfold VecModel.vextract.
  qcaselt b a; [exfalso; exact (Qclt_not_le _ _ Hc0 Hab)|]. clear Hc0.
  destruct F1 as (E1 & A1 & B1 & L1 & R1). destruct F2 as (E2 & A2 & B2 & L2 & R2).
  rewrite R1, R2. cbn [bind].
  assert (N1 : nth_error l (length p1) = Some x1) by (rewrite E1; apply nth_error_mid').
  assert (N2 : nth_error l (length p2) = Some x2) by (rewrite E2; apply nth_error_mid').
  rewrite N1, N2. clear N1 N2.
  assert (HI1 : In x1 l) by (rewrite E1; apply in_elt).
  assert (HI2 : In x2 l) by (rewrite E2; apply in_elt).
  pose proof (proj1 (Forall_forall G l) H) as HF.
  pose proof (HF _ HI1) as G1. pose proof (HF _ HI2) as G2.
  assert (Le : (length p1 <= length p2)%nat).
  { destruct (le_lt_dec (length p1) (length p2)) as [L|L]; [exact L|exfalso].
    pose proof E1 as E. rewrite E2 in E.
    destruct (app_eq_split _ _ _ _ _ _ E ltac:(lia)) as [(-> & _)|(mid & -> & _)]; [lia|].
    destruct A1 as [A1|A1]; [destruct p2; discriminate|].
    rewrite vlen_app in A1. cbn [VecModel.vlen] in A1.
    assert (0 <= vlen mid).
    { apply vlen_nonneg. rewrite E1 in H. rewrite <- app_assoc in H. cbn [app] in H.
      apply Forall_app in H. destruct H as [_ H]. inversion H as [|? ? HA HB]; subst.
      apply Forall_app in HB. apply HB. }
    apply (Qclt_not_le _ _ A1). qc. }
  pose proof E2 as E. rewrite E1 in E.
  destruct (app_eq_split _ _ _ _ _ _ E Le) as [(<- & <- & <-)|(mid & Em & Es)].
  - (* same sub-path *)
    rewrite Nat.eqb_refl.
    set (ta := fst (rng x1) + (a - vlen p1)). set (tb := fst (rng x1) + (b - vlen p1)).
    assert (Q1 : fst (rng x1) <= ta) by (unfold ta; qc).
    assert (Q2 : ta <= tb) by (unfold ta, tb; qc).
    assert (Q3 : tb <= snd (rng x1)) by (unfold tb, VecModel.plen in *; qc).
    destruct (cut x1 (ta, tb)) as [x| | |] eqn:Ex; cbn [bind].
    + destruct (h_cut HG _ _ _ _ G1 Q1 Q2 Q3 Ex) as (Gx & Lx & Ia & Ib).
      repeat split.
      * constructor; [exact Gx|constructor].
      * cbn [VecModel.vlen]. rewrite Lx. unfold ta, tb. qc.
      * constructor; [|constructor]. right. exists x1, ta, tb. auto.
      * discriminate.
      * exists (init x), (fin x). rewrite Ia, Ib. cbn. auto.
    + exact I.
    + intros D. destruct (D _ _ _ G1 Q1 Q2 Q3) as [U _]. auto.
    + intros D. destruct (D _ _ _ G1 Q1 Q2 Q3) as [_ U]. auto.
  - (* different sub-paths *)
    subst p2 s1.
    destruct (Nat.eqb_spec (length p1) (length (p1 ++ x1 :: mid))) as [K|_];
      [rewrite app_length in K; cbn [length] in K; lia|].
    rewrite vlen_app in *. cbn [VecModel.vlen] in *.
    set (ta := fst (rng x1) + (a - vlen p1)).
    set (tb := fst (rng x2) + (b - (vlen p1 + (plen x1 + vlen mid)))).
    pose proof (h_fwd HG _ G1) as W1. pose proof (h_fwd HG _ G2) as W2.
    assert (Q1 : fst (rng x1) <= ta) by (unfold ta; qc).
    assert (Q2 : ta <= snd (rng x1)) by (unfold ta, VecModel.plen in *; qc).
    assert (Q4 : fst (rng x2) <= tb) by (unfold tb; qc).
    assert (Q5 : tb <= snd (rng x2)) by (unfold tb, VecModel.plen in *; qc).
    pose proof (Qcle_refl (snd (rng x1))) as Q3. pose proof (Qcle_refl (fst (rng x2))) as Q6.
    destruct (cut x1 (ta, snd (rng x1))) as [x| | |] eqn:Ex; cbn [bind];
      [|exact I|intros D; destruct (D _ _ _ G1 Q1 Q2 Q3) as [U1 U2]; auto
       |intros D; destruct (D _ _ _ G1 Q1 Q2 Q3) as [U1 U2]; auto].
    destruct (cut x2 (fst (rng x2), tb)) as [y| | |] eqn:Ey; cbn [bind];
      [|exact I|intros D; destruct (D _ _ _ G2 Q6 Q4 Q5) as [U1 U2]; auto
       |intros D; destruct (D _ _ _ G2 Q6 Q4 Q5) as [U1 U2]; auto].
    assert (M : firstn (length (p1 ++ x1 :: mid) - length p1 - 1) (skipn (length p1 + 1) l) = mid)
      by (rewrite E1; apply firstn_mid).
    rewrite M. clear M.
    destruct (h_cut HG _ _ _ _ G1 Q1 Q2 Q3 Ex) as (Gx & Lx & Ia & Ib).
    destruct (h_cut HG _ _ _ _ G2 Q6 Q4 Q5 Ey) as (Gy & Ly & Ja & Jb).
    rewrite (h_fin HG _ G1) in Ib. rewrite (h_init HG _ G2) in Ja.
    rewrite E1 in Hc. apply chained_app in Hc. destruct Hc as (c1 & _ & Hc).
    cbn [VecSpec.chained] in Hc. destruct Hc as (_ & Hc). apply chained_app in Hc.
    destruct Hc as (c2 & Hm & (Hx2 & _)).
    assert (Gm : Forall G mid).
    { rewrite E1 in H. apply Forall_app in H. destruct H as [_ H]. inversion H; subst.
      match goal with K : Forall G (mid ++ _) |- _ => apply Forall_app in K; apply K end. }
    repeat split.
    + constructor; [exact Gx|]. apply Forall_app. split; [exact Gm|]. constructor; [exact Gy|constructor].
    + cbn [VecModel.vlen]. rewrite vlen_app. cbn [VecModel.vlen]. rewrite Lx, Ly.
      unfold ta, tb, VecModel.plen. qc.
    + constructor; [right; exists x1, ta, (snd (rng x1)); auto|]. apply Forall_app. split.
      * apply Forall_forall. intros z Hz. left. rewrite E1. apply in_or_app. right. right.
        apply in_or_app. left. exact Hz.
      * constructor; [|constructor]. right. exists x2, (fst (rng x2)), tb. auto.
    + discriminate.
    + exists (init x), (fin y). split; [congruence|]. split; [congruence|].
      cbn [VecSpec.chained]. split; [reflexivity|]. apply chained_app. exists c2.
      split; [replace (fin x) with (fin x1) by congruence; exact Hm|].
      cbn [VecSpec.chained]. split; [congruence|reflexivity].
Qed.

End VecProofs.
