(* Proofs about the roadmap model, part 3: node insertion and histories. *)
From Verif Require Import Base Reach RoadmapModel RoadmapSpec RoadmapProofs RoadmapProofs2.

Section S.
Context {C P : Type}.
Notation rmS := (rm C P).
Implicit Types s t other : rmS.
Variable ceqb : C -> C -> bool.
Variable dist : C -> C -> Q.
Variable plen : P -> Q.
Variable prev : P -> P.

(* ------------------------------------------------------------------ *)
(* Nearest neighbour                                                   *)

(* acc is the best of the nodes seen so far *)
Definition best_of (s : rmS) rev q (seen : list nat) (acc : option (nat * Q)) : Prop :=
  match acc with
  | None => seen = []
  | Some (n, d) => In n seen /\ (exists c, config_of s n c /\ d = nn_d C dist rev q c) /\
                   forall m c, In m seen -> config_of s m c -> (d <= nn_d C dist rev q c)%Q
  end.

Lemma nn_step_best s rev q seen acc n :
  (exists c, config_of s n c) -> best_of s rev q seen acc ->
  best_of s rev q (seen ++ [n]) (nn_step C P dist s rev q acc n).
Proof.
  intros [c [nd [Hn <-]]] HB; unfold nn_step; rewrite Hn.
  assert (Hu : forall c', config_of s n c' -> c' = ncfg nd) by (intros c' [nd' [H <-]]; congruence).
  destruct acc as [[b d]|]; simpl in HB.
  - destruct HB as [H1 [[cb [H2 H2']] H3]].
    destruct (Qlt_le_dec (nn_d C dist rev q (ncfg nd)) d) as [Hlt|Hle]; simpl.
    + split; [rewrite in_app_iff; simpl; auto|split; [exists (ncfg nd); split; [exists nd; auto|reflexivity]|]].
      intros m cm Hm Hc; rewrite in_app_iff in Hm; simpl in Hm; destruct Hm as [Hm|[<-|[]]].
      * apply Qle_trans with d; [apply Qlt_le_weak; exact Hlt|apply (H3 m); auto].
      * rewrite (Hu _ Hc); apply Qle_refl.
    + split; [rewrite in_app_iff; auto|split; [exists cb; auto|]].
      intros m cm Hm Hc; rewrite in_app_iff in Hm; simpl in Hm; destruct Hm as [Hm|[<-|[]]].
      * apply (H3 m); auto.
      * rewrite (Hu _ Hc); exact Hle.
  - subst seen; simpl. split; [auto|split; [exists (ncfg nd); split; [exists nd; auto|reflexivity]|]].
    intros m cm [<-|[]] Hc; rewrite (Hu _ Hc); apply Qle_refl.
Qed.

Lemma nn_fold_best s rev q l : forall seen acc,
  (forall n, In n l -> exists c, config_of s n c) -> best_of s rev q seen acc ->
  best_of s rev q (seen ++ l) (fold_left (nn_step C P dist s rev q) l acc).
Proof.
  induction l as [|n l IH]; intros seen acc Hl HB; simpl.
  - rewrite app_nil_r; exact HB.
  - replace (seen ++ n :: l) with ((seen ++ [n]) ++ l) by (rewrite <- app_assoc; reflexivity).
    apply IH; [intros m Hm; apply Hl; right; exact Hm|].
    apply nn_step_best; [apply Hl; left; reflexivity|exact HB].
Qed.

Lemma nn_search_best s rev q cc : wfN s -> In cc (live s) ->
  best_of s rev q (cnodes (cinfo s cc)) (nn_search C P dist s rev q cc).
Proof.
  intros HN Hc. unfold nn_search.
  apply (nn_fold_best s rev q (cnodes (cinfo s cc)) [] None); [|reflexivity].
  intros n Hn; destruct (n_of _ HN cc n Hc Hn) as [nd [H1 _]]; exists (ncfg nd), nd; auto.
Qed.

Lemma nn_search_some s rev q cc : wfN s -> In cc (live s) ->
  exists n d, nn_search C P dist s rev q cc = Some (n, d).
Proof.
  intros HN Hc. pose proof (nn_search_best s rev q cc HN Hc) as HB.
  destruct (nn_search C P dist s rev q cc) as [[n d]|]; [eauto|].
  simpl in HB; exfalso; apply (n_ne _ HN cc Hc HB).
Qed.

Lemma nearest_fold_best s rev q : wfN s -> forall l seen acc,
  (forall c, In c l -> In c (live s)) -> best_of s rev q seen acc ->
  best_of s rev q (seen ++ flat_map (fun c => cnodes (cinfo s c)) l)
          (fold_left (nearest_step C P dist s rev q) l acc).
Proof.
  intros HN; induction l as [|c l IH]; intros seen acc Hl HB; simpl.
  - rewrite app_nil_r; exact HB.
  - rewrite app_assoc. apply IH; [intros m Hm; apply Hl; right; exact Hm|].
    assert (Hc : In c (live s)) by (apply Hl; left; reflexivity).
    pose proof (nn_search_best s rev q c HN Hc) as HS. unfold nearest_step.
    destruct (nn_search_some s rev q c HN Hc) as [n [d He]]. rewrite He in *.
    simpl in HS. destruct HS as [S1 [S2 S3]].
    destruct acc as [[b e]|]; simpl in HB.
    + destruct HB as [B1 [B2 B3]]. destruct (Qlt_le_dec d e) as [Hlt|Hle]; simpl.
      * split; [rewrite in_app_iff; auto|split; [exact S2|]].
        intros m cm Hm Hcm; rewrite in_app_iff in Hm; destruct Hm as [Hm|Hm]; [|apply (S3 m); auto].
        apply Qle_trans with e; [apply Qlt_le_weak; exact Hlt|apply (B3 m); auto].
      * split; [rewrite in_app_iff; auto|split; [exact B2|]].
        intros m cm Hm Hcm; rewrite in_app_iff in Hm; destruct Hm as [Hm|Hm]; [apply (B3 m); auto|].
        apply Qle_trans with d; [exact Hle|apply (S3 m); auto].
    + subst seen; simpl. auto.
Qed.

Lemma nearestNode_best s rev q : wfN s ->
  match nearestNode C P dist s rev q with
  | None => nodes s = []
  | Some (n, d) => In n (nodes s) /\ (exists c, config_of s n c /\ d = nn_d C dist rev q c) /\
                   forall m c, In m (nodes s) -> config_of s m c -> (d <= nn_d C dist rev q c)%Q
  end.
Proof.
  intros HN. unfold nearestNode.
  pose proof (nearest_fold_best s rev q HN (live s) [] None (fun c H => H) eq_refl) as HB.
  assert (HF : forall n, In n (nodes s) <-> In n ([] ++ flat_map (fun c => cnodes (cinfo s c)) (live s))).
  { intros n; simpl; rewrite in_flat_map; split.
    - intros Hn. destruct (cof_ex s n HN Hn) as [c [[nd [H1 H2]] Hc]].
      exists c; split; [exact Hc|]. rewrite <- H2; apply (n_cc _ HN n nd H1).
    - intros [c [Hc Hn]]. destruct (n_of _ HN c n Hc Hn) as [nd [H1 _]].
      apply (n_def _ HN); congruence. }
  destruct (fold_left _ (live s) None) as [[n d]|]; simpl in HB |- *.
  - destruct HB as [B1 [B2 B3]]. split; [apply HF; exact B1|split; [exact B2|]].
    intros m c Hm; apply B3, HF; exact Hm.
  - destruct (nodes s) as [|a l] eqn:En; [reflexivity|].
    assert (Ha : In a (a :: l)) by (left; reflexivity). apply HF in Ha. rewrite HB in Ha. destruct Ha.
Qed.

(* ------------------------------------------------------------------ *)
(* New nodes                                                           *)
Lemma inv_empty : inv (@empty C P).
Proof.
  constructor.
  - constructor; simpl; try reflexivity.
    + constructor; simpl; try tauto; constructor.
    + constructor; simpl; try tauto; try constructor; try congruence; try tauto.
    + intros a b [].
  - constructor; simpl; try tauto; try discriminate.
  - intros m n cm cn [nd [H _]]; discriminate.
  - split; simpl; [discriminate|tauto].
Qed.
Lemma sound_empty : sound (@empty C P).
Proof. intros m n cm cn [nd [H _]]; discriminate. Qed.

(* t is s plus an isolated node n with component c, either fresh or old *)
Record added (s t : rmS) (n c : nat) (q : C) : Prop := {
  a_nodes : nodes t = nodes s ++ [n];
  a_fresh : ~ In n (nodes s);
  a_ninfo : ninfo t = upd (ninfo s) n (Some (mkNode q c [] []));
  a_E : forall a b, In a (live s) -> (E (cinfo t) a b <-> E (cinfo s) a b);
  a_sub : forall a, In a (live s) -> In a (live t);
  a_edges : edges t = edges s;
  a_init : initN t = initN s;
  a_goals : goals t = goals s
}.

Lemma reach_from_dead (s : rmS) a b : wfE s -> ~ In a (nodes s) -> reach (arc s) a b -> a = b.
Proof.
  intros HE Ha H; inversion H as [|x y z H1 H2]; subst; [reflexivity|].
  exfalso; apply Ha; apply (arc_end _ _ _ HE H1).
Qed.
Lemma reach_to_dead (s : rmS) a b : wfE s -> ~ In b (nodes s) -> reach (arc s) a b -> a = b.
Proof.
  intros HE Hb H; apply reach_inv_r in H as [H|[y [_ H]]]; [exact H|].
  exfalso; apply Hb; apply (arc_end _ _ _ HE H).
Qed.

Lemma reach_E_ext (L : list nat) ci ci' a b :
  (forall x y, In x L -> In y (rto (ci x)) -> In y L) ->
  (forall x y, In x L -> (E ci' x y <-> E ci x y)) -> In a L ->
  (reach (E ci') a b <-> reach (E ci) a b).
Proof.
  intros HL HE Ha; split; intros H.
  - induction H as [|x y z H1 H2 IH]; [apply reach_refl|].
    apply HE in H1; [|exact Ha]. eapply reach_step; [exact H1|apply IH; eapply HL; eauto].
  - induction H as [|x y z H1 H2 IH]; [apply reach_refl|].
    eapply reach_step; [apply HE; eauto|apply IH; eapply HL; eauto].
Qed.

Lemma added_cof s t n c q x cx : added s t n c q ->
  (comp_of t x cx <-> (x = n /\ cx = c) \/ (x <> n /\ comp_of s x cx)).
Proof.
  intros HA; unfold comp_of; rewrite (a_ninfo _ _ _ _ _ HA).
  destruct (Nat.eq_dec x n) as [->|Hx].
  - rewrite upd_eq. split.
    + intros [nd [H <-]]; injection H as <-; auto.
    + intros [[_ ->]|[H _]]; [eexists; split; [reflexivity|reflexivity]|congruence].
  - rewrite upd_neq by assumption. split; [auto|]. intros [[H _]|[_ H]]; [congruence|exact H].
Qed.
Lemma added_arc s t n c q a b : added s t n c q -> (arc t a b <-> arc s a b).
Proof. intros HA; unfold arc; rewrite (a_edges _ _ _ _ _ HA); tauto. Qed.

Lemma added_wfE s t n c q : added s t n c q -> wfE s -> wfE t.
Proof.
  intros HA [E1 E2 E3 E4 E5 E6 E7]. pose proof (a_ninfo _ _ _ _ _ HA) as Hni.
  constructor; rewrite ?(a_edges _ _ _ _ _ HA), ?(a_nodes _ _ _ _ _ HA), ?Hni.
  - intros e He; rewrite !in_app_iff; destruct (E1 e He); auto.
  - intros x nd e. destruct (Nat.eq_dec x n) as [->|Hx]; [rewrite upd_eq|rewrite upd_neq by assumption; eauto].
    intros H; injection H as <-; intros [].
  - intros x nd e. destruct (Nat.eq_dec x n) as [->|Hx]; [rewrite upd_eq|rewrite upd_neq by assumption; eauto].
    intros H; injection H as <-; intros [].
  - intros e nd He. rewrite upd_neq; [eauto|]. intros Heq; apply (a_fresh _ _ _ _ _ HA); rewrite <- Heq; apply E1; exact He.
  - intros e nd He. rewrite upd_neq; [eauto|]. intros Heq; apply (a_fresh _ _ _ _ _ HA); rewrite <- Heq; apply E1; exact He.
  - intros x nd. destruct (Nat.eq_dec x n) as [->|Hx]; [rewrite upd_eq|rewrite upd_neq by assumption; eauto].
    intros H; injection H as <-; constructor.
  - intros x nd. destruct (Nat.eq_dec x n) as [->|Hx]; [rewrite upd_eq|rewrite upd_neq by assumption; eauto].
    intros H; injection H as <-; constructor.
Qed.
Lemma added_wfR s t n c q : added s t n c q -> wfR s -> wfR t.
Proof.
  intros HA [H1 H2]; split; rewrite ?(a_init _ _ _ _ _ HA), ?(a_goals _ _ _ _ _ HA), ?(a_nodes _ _ _ _ _ HA).
  - intros i Hi; rewrite in_app_iff; left; auto.
  - intros i Hi; rewrite in_app_iff; left; auto.
Qed.
Lemma added_complete s t n c q : added s t n c q -> wf s -> wfE s -> complete s -> complete t.
Proof.
  intros HA HW HE HC x y cx cy Hx Hy Hxy.
  apply (reach_ext _ _ _ _ (fun a b => added_arc _ _ _ _ _ a b HA)) in Hxy.
  apply (added_cof _ _ _ _ _ _ _ HA) in Hx. apply (added_cof _ _ _ _ _ _ _ HA) in Hy.
  destruct Hx as [[-> ->]|[Hx1 Hx2]].
  - apply reach_from_dead in Hxy; [|exact HE|apply (a_fresh _ _ _ _ _ HA)]. subst y.
    destruct Hy as [[_ ->]|[H _]]; [apply reach_refl|congruence].
  - destruct Hy as [[-> ->]|[Hy1 Hy2]].
    + apply reach_to_dead in Hxy; [|exact HE|apply (a_fresh _ _ _ _ _ HA)]. congruence.
    + assert (Hl : In cx (live s)) by (apply (cof_live s x); [apply (w_N _ HW)|exact Hx2]).
      apply (reach_E_ext (live s) (cinfo s) (cinfo t)); auto.
      * apply (g_to _ _ (w_G _ HW)).
      * intros a b Ha; apply (a_E _ _ _ _ _ HA); exact Ha.
      * eapply HC; eauto.
Qed.

Lemma newNode_added (s : rmS) q : inv s -> added s (snd (newNode s q)) (nnext s) (cnext s) q.
Proof.
  intros HI. pose proof (w_N _ (i_wf _ HI)) as HN. constructor; try reflexivity.
  - intros H; apply (n_lt _ HN) in H; lia.
  - intros a b Ha. simpl. unfold E. rewrite upd_neq; [tauto|].
    apply (n_clt _ HN) in Ha; lia.
  - intros a Ha; simpl; rewrite in_app_iff; auto.
Qed.

Lemma newNode_inv (s : rmS) q : inv s -> inv (snd (newNode s q)).
Proof.
  intros HI. pose proof (newNode_added s q HI) as HA.
  pose proof HI as [HW HE HC HR]. destruct HW as [HG HN HY HF].
  assert (Hcn : ~ In (cnext s) (live s)) by (intros H; apply (n_clt _ HN) in H; lia).
  assert (Hnn : ~ In (nnext s) (nodes s)) by (intros H; apply (n_lt _ HN) in H; lia).
  constructor.
  2: apply (added_wfE _ _ _ _ _ HA HE).
  2: apply (added_complete _ _ _ _ _ HA); auto; constructor; auto.
  2: apply (added_wfR _ _ _ _ _ HA HR).
  assert (Hcl : forall x, In x (live s) -> upd (cinfo s) (cnext s) (mkComp [nnext s] [] []) x = cinfo s x).
  { intros x Hx; apply upd_neq; intros ->; contradiction. }
  constructor; simpl; [| | |exact HF].
  - constructor.
    + apply NoDup_snoc; [apply (g_nd _ _ HG)|exact Hcn].
    + intros a b; rewrite !in_app_iff; simpl; intros [Ha|[<-|[]]].
      * rewrite (Hcl a Ha); intros Hb; left; eapply (g_to _ _ HG); eauto.
      * rewrite upd_eq; simpl; tauto.
    + intros a b; rewrite !in_app_iff; simpl; intros [Ha|[<-|[]]].
      * rewrite (Hcl a Ha); intros Hb; left; eapply (g_from _ _ HG); eauto.
      * rewrite upd_eq; simpl; tauto.
    + intros a b; rewrite !in_app_iff; simpl; intros [Ha|[<-|[]]] [Hb|[<-|[]]].
      * rewrite (Hcl a Ha), (Hcl b Hb); apply (g_sym _ _ HG); auto.
      * rewrite (Hcl a Ha), upd_eq; simpl; split; [|tauto]. intros H; apply Hcn; eapply (g_to _ _ HG); eauto.
      * rewrite (Hcl b Hb), upd_eq; simpl; split; [tauto|]. intros H; apply Hcn; eapply (g_from _ _ HG); eauto.
      * rewrite upd_eq; simpl; tauto.
    + intros a; rewrite in_app_iff; simpl; intros [Ha|[<-|[]]].
      * rewrite (Hcl a Ha); apply (g_irr _ _ HG); auto.
      * rewrite upd_eq; simpl; tauto.
  - constructor; simpl.
    + apply NoDup_snoc; [apply (n_nd _ HN)|exact Hnn].
    + intros n; rewrite in_app_iff; simpl; intros [H|[<-|[]]]; [apply (n_lt _ HN) in H; lia|lia].
    + intros n; rewrite in_app_iff; simpl. destruct (Nat.eq_dec n (nnext s)) as [->|Hn].
      * rewrite upd_eq; split; [auto|discriminate].
      * rewrite upd_neq by assumption. rewrite (n_def _ HN n); split; [auto|intros [H|[H|[]]]; [auto|congruence]].
    + intros n nd. destruct (Nat.eq_dec n (nnext s)) as [->|Hn].
      * rewrite upd_eq; intros H; injection H as <-; simpl. rewrite in_app_iff, upd_eq; simpl; auto.
      * rewrite upd_neq by assumption; intros H. destruct (n_cc _ HN n nd H) as [H1 H2].
        rewrite in_app_iff, (Hcl _ H1); auto.
    + intros c n; rewrite in_app_iff; simpl; intros [Hc|[<-|[]]].
      * rewrite (Hcl c Hc); intros Hn. destruct (n_of _ HN c n Hc Hn) as [nd [H1 H2]].
        exists nd; split; [|exact H2]. rewrite upd_neq; [exact H1|].
        intros ->; apply Hnn, (n_def _ HN); congruence.
      * rewrite upd_eq; simpl; intros [<-|[]]. rewrite upd_eq; eexists; split; reflexivity.
    + intros c; rewrite in_app_iff; simpl; intros [Hc|[<-|[]]].
      * rewrite (Hcl c Hc); apply (n_cnd _ HN); auto.
      * rewrite upd_eq; simpl; repeat constructor; simpl; tauto.
    + intros c; rewrite in_app_iff; simpl; intros [Hc|[<-|[]]].
      * rewrite (Hcl c Hc); apply (n_ne _ HN); auto.
      * rewrite upd_eq; simpl; discriminate.
    + intros c; rewrite in_app_iff; simpl; intros [Hc|[<-|[]]]; [apply (n_clt _ HN) in Hc; lia|lia].
  - assert (Hdead : forall b, reach (E (upd (cinfo s) (cnext s) (mkComp [nnext s] [] []))) (cnext s) b -> b = cnext s).
    { intros b H; inversion H as [|x y z H1 H2]; subst; [reflexivity|].
      unfold E in H1; rewrite upd_eq in H1; destruct H1. }
    assert (HE1 : forall x y, In x (live s) -> (E (upd (cinfo s) (cnext s) (mkComp [nnext s] [] [])) x y <-> E (cinfo s) x y)).
    { intros x y Hx; unfold E; rewrite (Hcl x Hx); tauto. }
    intros a b; rewrite !in_app_iff; simpl; intros [Ha|[<-|[]]] [Hb|[<-|[]]] Hab Hba; auto.
    + apply HY; auto;
      [apply (reach_E_ext (live s) (cinfo s)) in Hab|apply (reach_E_ext (live s) (cinfo s)) in Hba]; auto;
      apply (g_to _ _ HG).
    + apply Hdead in Hab; congruence.
Qed.

Lemma newNode_sound (s : rmS) q : inv s -> sound s -> sound (snd (newNode s q)).
Proof.
  intros HI HS. pose proof (newNode_added s q HI) as HA. pose proof (newNode_inv s q HI) as HI'.
  pose proof (w_N _ (i_wf _ HI)) as HN.
  assert (Hcn : ~ In (cnext s) (live s)) by (intros H; apply (n_clt _ HN) in H; lia).
  intros x y cx cy Hx Hy Hxy.
  apply (reach_ext _ _ _ _ (fun a b => added_arc _ _ _ _ _ a b HA)).
  pose proof (fun a b => wfG_reach_L _ _ a b (w_G _ (i_wf _ HI))) as HL.
  assert (HE1 : forall a b, In a (live s) -> (E (cinfo (snd (newNode s q))) a b <-> E (cinfo s) a b))
    by (intros; apply (a_E _ _ _ _ _ HA); assumption).
  apply (added_cof _ _ _ _ _ _ _ HA) in Hx. apply (added_cof _ _ _ _ _ _ _ HA) in Hy.
  destruct Hx as [[-> ->]|[Hx1 Hx2]].
  - inversion Hxy as [z Hz|x1 y1 z1 H1 H2]; subst.
    + destruct Hy as [[-> _]|[Hy1 Hy2]]; [apply reach_refl|].
      exfalso; apply Hcn; apply (cof_live s y); auto.
    + exfalso. unfold E in H1; simpl in H1; rewrite upd_eq in H1; destruct H1.
  - assert (Hl : In cx (live s)) by (apply (cof_live s x); auto).
    apply (reach_E_ext (live s) (cinfo s)) in Hxy; auto; [|apply (g_to _ _ (w_G _ (i_wf _ HI)))].
    destruct Hy as [[-> ->]|[Hy1 Hy2]].
    + exfalso; apply Hcn. eapply HL; eauto.
    + eapply HS; eauto.
Qed.

Lemma newNodeIn_added (s : rmS) q c : inv s -> In c (live s) -> added s (snd (newNodeIn s q c)) (nnext s) c q.
Proof.
  intros HI Hc. pose proof (w_N _ (i_wf _ HI)) as HN. constructor; try reflexivity.
  - intros H; apply (n_lt _ HN) in H; lia.
  - intros a b Ha. simpl. unfold E. destruct (Nat.eq_dec a c) as [->|Hac];
      [rewrite upd_eq; simpl; tauto|rewrite upd_neq by assumption; tauto].
  - auto.
Qed.
Lemma newNodeIn_E (s : rmS) q c a b : E (cinfo (snd (newNodeIn s q c))) a b <-> E (cinfo s) a b.
Proof.
  unfold E; simpl. destruct (Nat.eq_dec a c) as [->|Hac];
      [rewrite upd_eq; simpl; tauto|rewrite upd_neq by assumption; tauto].
Qed.

Lemma newNodeIn_inv (s : rmS) q c : inv s -> In c (live s) -> inv (snd (newNodeIn s q c)).
Proof.
  intros HI Hc. pose proof (newNodeIn_added s q c HI Hc) as HA.
  pose proof HI as [HW HE HC HR]. destruct HW as [HG HN HY HF].
  assert (Hnn : ~ In (nnext s) (nodes s)) by (intros H; apply (n_lt _ HN) in H; lia).
  constructor.
  2: apply (added_wfE _ _ _ _ _ HA HE).
  2: apply (added_complete _ _ _ _ _ HA); auto; constructor; auto.
  2: apply (added_wfR _ _ _ _ _ HA HR).
  set (k := upd (cinfo s) c (set_cnodes (cinfo s c) (cnodes (cinfo s c) ++ [nnext s]))).
  assert (Kt : forall x, rto (k x) = rto (cinfo s x)).
  { intros x; unfold k, upd; destruct (Nat.eqb_spec x c) as [->|]; reflexivity. }
  assert (Kf : forall x, rfrom (k x) = rfrom (cinfo s x)).
  { intros x; unfold k, upd; destruct (Nat.eqb_spec x c) as [->|]; reflexivity. }
  assert (Kc : cnodes (k c) = cnodes (cinfo s c) ++ [nnext s]) by (unfold k; rewrite upd_eq; reflexivity).
  assert (Kn : forall x, x <> c -> cnodes (k x) = cnodes (cinfo s x)).
  { intros x Hx; unfold k; rewrite upd_neq by assumption; reflexivity. }
  constructor; simpl; fold k; [| | |exact HF].
  - destruct HG as [G1 G2 G3 G4 G5]; constructor; auto.
    + intros a b; rewrite Kt; eauto.
    + intros a b; rewrite Kf; eauto.
    + intros a b; rewrite Kt, Kf; auto.
    + intros a; rewrite Kt; auto.
  - constructor; simpl; fold k.
    + apply NoDup_snoc; [apply (n_nd _ HN)|exact Hnn].
    + intros n; rewrite in_app_iff; simpl; intros [H|[<-|[]]]; [apply (n_lt _ HN) in H; lia|lia].
    + intros n; rewrite in_app_iff; simpl. destruct (Nat.eq_dec n (nnext s)) as [->|Hn].
      * rewrite upd_eq; split; [auto|discriminate].
      * rewrite upd_neq by assumption. rewrite (n_def _ HN n); split; [auto|intros [H|[H|[]]]; [auto|congruence]].
    + intros n nd. destruct (Nat.eq_dec n (nnext s)) as [->|Hn].
      * rewrite upd_eq; intros H; injection H as <-; simpl. rewrite Kc, in_app_iff; simpl; auto.
      * rewrite upd_neq by assumption; intros H. destruct (n_cc _ HN n nd H) as [H1 H2].
        split; [exact H1|]. destruct (Nat.eq_dec (ncc nd) c) as [He|He].
        -- rewrite He, Kc, in_app_iff; left; rewrite <- He; exact H2.
        -- rewrite Kn by assumption; exact H2.
    + intros d n Hd. assert (HO : In n (cnodes (cinfo s d)) -> exists nd, upd (ninfo s) (nnext s) (Some (mkNode q c [] [])) n = Some nd /\ ncc nd = d).
      { intros Hn. destruct (n_of _ HN d n Hd Hn) as [nd [H1 H2]]. exists nd; split; [|exact H2].
        rewrite upd_neq; [exact H1|]. intros ->; apply Hnn, (n_def _ HN); congruence. }
      destruct (Nat.eq_dec d c) as [->|Hdc].
      * rewrite Kc, in_app_iff; simpl; intros [Hn|[<-|[]]]; [auto|].
        rewrite upd_eq; eexists; split; reflexivity.
      * rewrite Kn by assumption; auto.
    + intros d Hd. destruct (Nat.eq_dec d c) as [->|Hdc].
      * rewrite Kc; apply NoDup_snoc; [apply (n_cnd _ HN); auto|].
        intros H; destruct (n_of _ HN c _ Hc H) as [nd [H1 _]]. apply Hnn, (n_def _ HN); congruence.
      * rewrite Kn by assumption; apply (n_cnd _ HN); auto.
    + intros d Hd. destruct (Nat.eq_dec d c) as [->|Hdc].
      * rewrite Kc; destruct (cnodes (cinfo s c)); discriminate.
      * rewrite Kn by assumption; apply (n_ne _ HN); auto.
    + intros d Hd; apply (n_clt _ HN) in Hd; lia.
  - assert (HR1 : forall a b, reach (E k) a b <-> reach (E (cinfo s)) a b).
    { intros a b; apply reach_ext; intros x y; unfold E; rewrite Kt; tauto. }
    intros a b Ha Hb; rewrite !HR1; apply HY; auto.
Qed.

(* ------------------------------------------------------------------ *)
(* Public calls                                                        *)
Notation addNode := (addNode C P ceqb dist).
Notation addNodeIn := (addNodeIn C P ceqb dist).
Notation addEdges := (addEdges C P prev).
Notation addNodeAndEdges := (addNodeAndEdges C P ceqb dist prev).
Notation addNodeAndEdge := (addNodeAndEdge C P ceqb dist).
Notation addNodeAndEdgeTo := (addNodeAndEdgeTo C P ceqb dist).

(* the nodes of s keep identifier, configuration and arcs in t *)
Record extends (s t : rmS) : Prop := {
  x_nodes : forall n, In n (nodes s) -> In n (nodes t);
  x_cfg : forall n q, config_of s n q -> config_of t n q;
  x_arc : forall a b, arc s a b -> arc t a b
}.
Lemma extends_refl s : extends s s.
Proof. constructor; auto. Qed.
Lemma extends_trans s t u : extends s t -> extends t u -> extends s u.
Proof. intros [] []; constructor; auto. Qed.
Lemma added_extends s t n c q : wfN s -> added s t n c q -> extends s t.
Proof.
  intros HN HA; constructor.
  - intros x Hx; rewrite (a_nodes _ _ _ _ _ HA), in_app_iff; auto.
  - intros x p [nd [H1 H2]]. exists nd; split; [|exact H2]. rewrite (a_ninfo _ _ _ _ _ HA), upd_neq; [exact H1|].
    intros ->; apply (a_fresh _ _ _ _ _ HA), (n_def _ HN); congruence.
  - intros a b; apply (added_arc _ _ _ _ _ a b HA).
Qed.
Lemma grown_extends s t r u v : grown s t r u v -> extends s t.
Proof.
  intros HG; constructor.
  - intros n; rewrite (gr_nodes _ _ _ _ _ HG); auto.
  - intros n q [nd [H1 H2]]. pose proof (gr_cfg _ _ _ _ _ HG n) as H. rewrite H1 in H; simpl in H.
    destruct (ninfo t n) as [nd'|] eqn:En; simpl in H; [|discriminate]. injection H as H.
    exists nd'; split; [exact En|congruence].
  - intros a b H; apply (gr_arc _ _ _ _ _ HG); left; exact H.
Qed.

Lemma addNode_cases s q : inv s ->
  (exists n, addNode s q = Ok (n, s) /\ In n (nodes s) /\ exists c, config_of s n c /\ ceqb c q = true) \/
  (addNode s q = Ok (newNode s q) /\
   (nodes s = [] \/ exists n c, In n (nodes s) /\ config_of s n c /\ ceqb c q = false /\
      forall m cm, In m (nodes s) -> config_of s m cm -> (dist c q <= dist cm q)%Q)).
Proof.
  intros HI. pose proof (w_N _ (i_wf _ HI)) as HN. unfold RoadmapModel.addNode.
  pose proof (nearestNode_best s false q HN) as HB.
  destruct (nodes s) as [|a l] eqn:En; [right; auto|].
  destruct (nearestNode C P dist s false q) as [[n d]|]; [|discriminate].
  destruct HB as [B1 [[c [[nd [B2 B3]] B4]] B5]]. rewrite B2, B3.
  destruct (ceqb c q) eqn:Ec.
  - left; exists n; split; [reflexivity|split; [exact B1|]]. exists c; split; [exists nd; auto|exact Ec].
  - right; split; [reflexivity|right]. exists n, c. split; [exact B1|split; [exists nd; auto|split; [exact Ec|]]].
    intros m cm Hm Hcm. specialize (B5 m cm Hm Hcm). rewrite B4 in B5. exact B5.
Qed.

Lemma addNode_spec s q : inv s -> exists n t, addNode s q = Ok (n, t) /\ inv t /\ In n (nodes t) /\
  (sound s -> sound t) /\ extends s t /\ edges t = edges s /\ initN t = initN s /\ goals t = goals s /\
  (exists c, config_of t n c /\ (c = q \/ ceqb c q = true)).
Proof.
  intros HI. destruct (addNode_cases s q HI) as [[n [H1 [H2 [c [H3 H4]]]]]|[H1 _]].
  - exists n, s. split; [exact H1|split; [exact HI|split; [exact H2|split; [auto|split; [apply extends_refl|]]]]].
    repeat (split; [reflexivity|]). exists c; auto.
  - exists (nnext s), (snd (newNode s q)). split; [exact H1|].
    split; [apply newNode_inv; exact HI|]. split; [simpl; rewrite in_app_iff; simpl; auto|].
    split; [apply newNode_sound; exact HI|].
    split; [eapply added_extends; [apply (w_N _ (i_wf _ HI))|apply newNode_added; exact HI]|].
    repeat (split; [reflexivity|]). exists q; split; [|auto].
    exists (mkNode q (cnext s) [] []). simpl; rewrite upd_eq; auto.
Qed.

Lemma addNodeIn_spec s q c : inv s -> In c (live s) -> exists n t, addNodeIn s q c = Ok (n, t) /\
  inv t /\ In n (nodes t) /\ comp_of t n c /\ extends s t /\
  (t = s \/ (t = snd (newNodeIn s q c) /\ n = nnext s)).
Proof.
  intros HI Hc. pose proof (w_N _ (i_wf _ HI)) as HN. unfold RoadmapModel.addNodeIn.
  assert (Hne : nodes s <> []).
  { pose proof (n_ne _ HN c Hc) as H. destruct (cnodes (cinfo s c)) as [|a l] eqn:E1; [congruence|].
    destruct (n_of _ HN c a Hc) as [nd [H1 _]]; [rewrite E1; left; reflexivity|].
    assert (In a (nodes s)) by (apply (n_def _ HN); congruence). destruct (nodes s); [contradiction|discriminate]. }
  destruct (nodes s) as [|a l] eqn:En; [congruence|].
  destruct (nn_search_some s false q c HN Hc) as [n [d Hs]].
  pose proof (nn_search_best s false q c HN Hc) as HB. rewrite Hs in HB |- *. simpl in HB.
  destruct HB as [B1 [[cc [[nd [B2 B3]] B4]] B5]]. rewrite B2.
  destruct (ceqb (ncfg nd) q).
  - exists n, s. split; [reflexivity|split; [exact HI|split; [|split; [|split; [apply extends_refl|auto]]]]].
    + apply (n_def _ HN); congruence.
    + destruct (n_of _ HN c n Hc B1) as [nd' [H1 H2]]. exists nd'; auto.
  - exists (nnext s), (snd (newNodeIn s q c)). split; [reflexivity|].
    pose proof (newNodeIn_added s q c HI Hc) as HA.
    split; [apply newNodeIn_inv; auto|]. split; [simpl; rewrite in_app_iff; simpl; auto|].
    split; [apply (added_cof _ _ _ _ _ _ _ HA); auto|].
    split; [eapply added_extends; eauto|auto].
Qed.

Lemma addEdges_spec s u v p : inv s -> In u (nodes s) -> In v (nodes s) ->
  exists s1 s2 r1 r2, addEdges s u v p = Ok s2 /\ inv s1 /\ inv s2 /\
    grown s s1 r1 u v /\ grown s1 s2 r2 v u /\
    edges s2 = edges s ++ [mkEdge u v p; mkEdge v u (prev p)] /\
    (forall c, comp_of s u c -> comp_of s v c -> (forall x, r1 x = x) /\ (forall x, r2 x = x)).
Proof.
  intros HI Hu Hv. unfold RoadmapModel.addEdges.
  assert (HN := w_N _ (i_wf _ HI)).
  destruct (ninfo s u) eqn:E1; [|apply (n_def _ HN) in Hu; congruence].
  destruct (ninfo s v) eqn:E2; [|apply (n_def _ HN) in Hv; congruence].
  rewrite impl_addEdge_unfold.
  destruct (push_connect_spec s _ (mkEdge u v p) HI Hu Hv (pushed_reg s _)) as [s1 [r1 [H1 [HI1 [HG1 [He1 Hid1]]]]]].
  rewrite H1. cbn [bind]. rewrite impl_addEdge_unfold'.
  destruct (push_connect_spec s1 (reg' s1 (mkEdge v u (prev p))) (mkEdge v u (prev p)) HI1)
    as [s2 [r2 [H2 [HI2 [HG2 [He2 Hid2]]]]]].
  - simpl; rewrite (gr_nodes _ _ _ _ _ HG1); exact Hv.
  - simpl; rewrite (gr_nodes _ _ _ _ _ HG1); exact Hu.
  - apply pushed_reg'.
  - exists s1, s2, r1, r2. split; [exact H2|]. split; [exact HI1|split; [exact HI2|split; [exact HG1|split; [exact HG2|split]]]].
    + rewrite He2, He1, <- app_assoc; reflexivity.
    + intros c Hc1 Hc2. simpl in Hid1, Hid2. destruct (Hid1 c Hc1 Hc2) as [_ Hr1]. split; [exact Hr1|].
      apply (Hid2 c); apply (gr_cof _ _ _ _ _ HG1); exists c; split; auto.
Qed.

Lemma addEdges_sound s u v p t : inv s -> In u (nodes s) -> In v (nodes s) -> sound s ->
  addEdges s u v p = Ok t -> sound t.
Proof.
  intros HI Hu Hv HS Ht. destruct (addEdges_spec s u v p HI Hu Hv) as [s1 [s2 [r1 [r2 [H2 [HI1 [HI2 [HG1 [HG2 _]]]]]]]]].
  rewrite H2 in Ht; injection Ht as <-.
  assert (HS1 : sound s1) by (eapply grown_sound; try exact HG1; auto; [apply (w_N _ (i_wf _ HI))|apply (i_E _ HI)]).
  eapply grown_sound; try exact HG2; auto; [apply (w_N _ (i_wf _ HI1))|apply (i_E _ HI1)| |];
    rewrite (gr_nodes _ _ _ _ _ HG1); assumption.
Qed.

Lemma addNodeAndEdges_spec s u q p : inv s -> In u (nodes s) ->
  exists n t, addNodeAndEdges s u q p = Ok (n, t) /\ inv t /\ In n (nodes t) /\ extends s t /\
    (sound s -> sound t) /\ initN t = initN s /\ goals t = goals s.
Proof.
  intros HI Hu. unfold RoadmapModel.addNodeAndEdges.
  pose proof (w_N _ (i_wf _ HI)) as HN.
  destruct (cof_ex s u HN Hu) as [c [[nd [E1 E2]] Hc]]. rewrite E1, E2.
  destruct (addNodeIn_spec s q c HI Hc) as [n [t [H1 [HI1 [Hn [Hcof [HX Hcase]]]]]]].
  rewrite H1; cbn [bind].
  assert (Hu1 : In u (nodes t)) by (apply HX; exact Hu).
  destruct (addEdges_spec t u n p HI1 Hu1 Hn) as [s1 [s2 [r1 [r2 [H2 [HI2 [HI3 [HG1 [HG2 [He Hid]]]]]]]]]].
  pose proof H2 as H2'. rewrite H2; cbn [bind]. exists n, s2. split; [reflexivity|split; [exact HI3|split; [|split; [|split; [|split]]]]].
  - rewrite (gr_nodes _ _ _ _ _ HG2), (gr_nodes _ _ _ _ _ HG1); exact Hn.
  - eapply extends_trans; [exact HX|]. eapply extends_trans; [eapply grown_extends; exact HG1|eapply grown_extends; exact HG2].
  - intros HS. destruct Hcase as [Ht|[Ht Hn']].
    { subst t. apply (addEdges_sound s u n p s2 HI1 Hu1 Hn HS H2'). }
    pose proof (newNodeIn_added s q c HI Hc) as HA. rewrite <- Ht, <- Hn' in HA.
    assert (Hcu : comp_of t u c).
    { apply (added_cof _ _ _ _ _ _ _ HA); right; split; [|exists nd; auto].
      intros ->; apply (a_fresh _ _ _ _ _ HA); exact Hu. }
    destruct (Hid c Hcu Hcof) as [Hr1 Hr2].
    intros x y cx cy Hx Hy Hxy.
    apply (gr_cof _ _ _ _ _ HG2) in Hx as [cx1 [Hx ->]]. apply (gr_cof _ _ _ _ _ HG1) in Hx as [cx0 [Hx ->]].
    apply (gr_cof _ _ _ _ _ HG2) in Hy as [cy1 [Hy ->]]. apply (gr_cof _ _ _ _ _ HG1) in Hy as [cy0 [Hy ->]].
    assert (HlX : In cx0 (live t)) by (apply (cof_live t x); [apply (w_N _ (i_wf _ HI1))|exact Hx]).
    assert (HlY : In cy0 (live t)) by (apply (cof_live t y); [apply (w_N _ (i_wf _ HI1))|exact Hy]).
    assert (Hcu1 : comp_of s1 u c) by (apply (gr_cof _ _ _ _ _ HG1); exists c; split; [exact Hcu|congruence]).
    assert (Hcn1 : comp_of s1 n c) by (apply (gr_cof _ _ _ _ _ HG1); exists c; split; [exact Hcof|congruence]).
    apply (gr_reach _ _ _ _ _ HG2 c c Hcn1 Hcu1) in Hxy;
      [|apply (gr_r _ _ _ _ _ HG1); exact HlX|apply (gr_r _ _ _ _ _ HG1); exact HlY].
    assert (Hxy1 : reach (E (cinfo s1)) (r1 cx0) (r1 cy0)).
    { apply reach_plus in Hxy as [H|[Ha Hb]]; [exact H|eapply reach_trans; eauto]. }
    apply (gr_reach _ _ _ _ _ HG1 c c Hcu Hcof) in Hxy1; auto.
    assert (Hxy2 : reach (E (cinfo s)) cx0 cy0).
    { apply (reach_ext _ _ _ _ (newNodeIn_E s q c)). rewrite <- Ht.
      apply reach_plus in Hxy1 as [H|[Ha Hb]]; [exact H|eapply reach_trans; eauto]. }
    set (im := fun z => if z =? n then u else z).
    assert (Him : forall z cz, comp_of t z cz -> comp_of s (im z) cz).
    { intros z cz Hz; unfold im. apply (added_cof _ _ _ _ _ _ _ HA) in Hz.
      destruct Hz as [[-> ->]|[Hz1 Hz2]].
      - rewrite Nat.eqb_refl. exists nd; auto.
      - destruct (Nat.eqb_spec z n); [contradiction|exact Hz2]. }
    assert (Harc : forall a b, arc s2 a b <-> plus (plus (arc t) u n) n u a b).
    { intros a b. rewrite (gr_arc _ _ _ _ _ HG2). unfold plus at 1 2. rewrite (gr_arc _ _ _ _ _ HG1). tauto. }
    assert (Hbi : forall z, reach (arc s2) z (im z) /\ reach (arc s2) (im z) z).
    { intros z; unfold im; destruct (Nat.eqb_spec z n) as [->|]; [|split; apply reach_refl].
      split; apply reach_one, Harc; [right|left; right]; auto. }
    eapply reach_trans; [apply (Hbi x)|]. eapply reach_trans; [|apply (Hbi y)].
    eapply reach_mono; [|eapply HS; [apply Him; exact Hx|apply Him; exact Hy|exact Hxy2]].
    intros a b Hab; apply Harc; left; left. apply (added_arc _ _ _ _ _ a b HA); exact Hab.
  - rewrite (gr_init _ _ _ _ _ HG2), (gr_init _ _ _ _ _ HG1). destruct Hcase as [->|[-> _]]; reflexivity.
  - rewrite (gr_goals _ _ _ _ _ HG2), (gr_goals _ _ _ _ _ HG1). destruct Hcase as [->|[-> _]]; reflexivity.
Qed.

Lemma addNodeAndEdge_spec s u q p : inv s -> In u (nodes s) ->
  exists n t, addNodeAndEdge s u q p = Ok (n, t) /\ inv t /\ In n (nodes t) /\ extends s t.
Proof.
  intros HI Hu. unfold RoadmapModel.addNodeAndEdge.
  pose proof (w_N _ (i_wf _ HI)) as HN.
  destruct (cof_ex s u HN Hu) as [c [[nd [E1 E2]] Hc]]. rewrite E1, E2.
  destruct (addNodeIn_spec s q c HI Hc) as [n [t [H1 [HI1 [Hn [Hcof [HX _]]]]]]].
  rewrite H1; cbn [bind].
  assert (Hu1 : In u (nodes t)) by (apply HX; exact Hu).
  destruct (addEdge_spec t u n p HI1 Hu1 Hn) as [s1 [r1 [H2 [HI2 [HG1 _]]]]].
  rewrite H2; cbn [bind]. exists n, s1. split; [reflexivity|split; [exact HI2|split]].
  - rewrite (gr_nodes _ _ _ _ _ HG1); exact Hn.
  - eapply extends_trans; [exact HX|eapply grown_extends; exact HG1].
Qed.
Lemma addNodeAndEdgeTo_spec s q u p : inv s -> In u (nodes s) ->
  exists n t, addNodeAndEdgeTo s q u p = Ok (n, t) /\ inv t /\ In n (nodes t) /\ extends s t.
Proof.
  intros HI Hu. unfold RoadmapModel.addNodeAndEdgeTo.
  pose proof (w_N _ (i_wf _ HI)) as HN.
  destruct (cof_ex s u HN Hu) as [c [[nd [E1 E2]] Hc]]. rewrite E1, E2.
  destruct (addNodeIn_spec s q c HI Hc) as [n [t [H1 [HI1 [Hn [Hcof [HX _]]]]]]].
  rewrite H1; cbn [bind].
  assert (Hu1 : In u (nodes t)) by (apply HX; exact Hu).
  destruct (addEdge_spec t n u p HI1 Hn Hu1) as [s1 [r1 [H2 [HI2 [HG1 _]]]]].
  rewrite H2; cbn [bind]. exists n, s1. split; [reflexivity|split; [exact HI2|split]].
  - rewrite (gr_nodes _ _ _ _ _ HG1); exact Hn.
  - eapply extends_trans; [exact HX|eapply grown_extends; exact HG1].
Qed.

Lemma insert_loop_spec both : forall l s n, inv s -> In n (nodes s) ->
  exists t, insert_loop C P ceqb dist prev s n both l = Ok t /\ inv t /\ extends s t /\
    (both = true -> sound s -> sound t).
Proof.
  induction l as [|[q p] l IH]; intros s n HI Hn; simpl.
  - exists s; split; [reflexivity|split; [exact HI|split; [apply extends_refl|auto]]].
  - destruct both.
    + destruct (addNodeAndEdges_spec s n q p HI Hn) as [m [t [H1 [HI1 [Hm [HX [HS _]]]]]]].
      rewrite H1; cbn [bind]. destruct (IH t m HI1 Hm) as [t' [H2 [HI2 [HX2 HS2]]]].
      exists t'; split; [exact H2|split; [exact HI2|split; [eapply extends_trans; eauto|auto]]].
    + destruct (addNodeAndEdge_spec s n q p HI Hn) as [m [t [H1 [HI1 [Hm HX]]]]].
      rewrite H1; cbn [bind]. destruct (IH t m HI1 Hm) as [t' [H2 [HI2 [HX2 HS2]]]].
      exists t'; split; [exact H2|split; [exact HI2|split; [eapply extends_trans; eauto|discriminate]]].
Qed.

Lemma insertPathVector_spec s q0 l both : inv s ->
  exists t, insertPathVector C P ceqb dist prev s false q0 l both = Ok t /\ inv t /\ extends s t /\
    (both = true -> sound s -> sound t).
Proof.
  intros HI. unfold insertPathVector.
  destruct (addNode_spec s q0 HI) as [n [t [H1 [HI1 [Hn [HS [HX _]]]]]]]. rewrite H1; cbn [bind].
  destruct (insert_loop_spec both l t n HI1 Hn) as [t' [H2 [HI2 [HX2 HS2]]]].
  exists t'; split; [exact H2|split; [exact HI2|split; [eapply extends_trans; eauto|auto]]].
Qed.

(* merge of another roadmap *)
Lemma merge_nodes_spec ns : forall s m, inv s -> (forall a k, m a = Some k -> In k (nodes s)) ->
  exists m' t, merge_nodes C P ceqb dist s ns m = Ok (m', t) /\ inv t /\ extends s t /\ (sound s -> sound t) /\
    edges t = edges s /\
    (forall a k, m' a = Some k -> In k (nodes t)) /\
    (forall a, In a (map fst ns) -> exists k, m' a = Some k) /\
    (forall a k, m a = Some k -> exists k', m' a = Some k') /\
    (NoDup (map fst ns) -> forall a q, In (a, q) ns ->
        exists k c, m' a = Some k /\ config_of t k c /\ (c = q \/ ceqb c q = true)) /\
    (forall a, ~ In a (map fst ns) -> m' a = m a).
Proof.
  induction ns as [|[a q] ns IH]; intros s m HI Hm; simpl.
  - exists m, s. split; [reflexivity|split; [exact HI|split; [apply extends_refl|]]].
    split; [auto|split; [reflexivity|split; [exact Hm|split; [intros ? []|split; [eauto|split; [intros _ ? ? []|auto]]]]]].
  - destruct (addNode_spec s q HI) as [n [t [H1 [HI1 [Hn [HS [HX [He [_ [_ Hc]]]]]]]]]].
    rewrite H1; cbn [bind].
    destruct (IH t (upd m a (Some n)) HI1) as [m' [t' [H2 [HI2 [HX2 [HS2 [He2 [Hm2 [Hall [Hkeep [Hcfg Hout]]]]]]]]]]].
    { intros b k. destruct (Nat.eq_dec b a) as [->|Hb].
      - rewrite upd_eq; intros H; injection H as <-; exact Hn.
      - rewrite upd_neq by assumption; intros H; apply HX; eauto. }
    exists m', t'. split; [exact H2|split; [exact HI2|split; [eapply extends_trans; eauto|]]].
    split; [auto|split; [congruence|split; [exact Hm2|split; [|split; [|split]]]]].
    + intros b [<-|Hb]; [|auto]. apply (Hkeep a n); apply upd_eq.
    + intros b k Hb. destruct (Nat.eq_dec b a) as [->|Hba].
      * apply (Hkeep a n); apply upd_eq.
      * apply (Hkeep b k); rewrite upd_neq by assumption; exact Hb.
    + intros Hnd b p Hbp. inversion Hnd as [|? ? Ha Hnd']; subst.
      destruct Hbp as [Heq|Hbp]; [|apply Hcfg; auto]. injection Heq as <- <-.
      destruct Hc as [c [Hc1 Hc2]]. exists n, c. split; [|split; [apply HX2; exact Hc1|exact Hc2]].
      rewrite (Hout a Ha); apply upd_eq.
    + intros b Hb. rewrite Hout by tauto. apply upd_neq; intros ->; apply Hb; auto.
Qed.

Lemma merge_edges_spec m : forall es s, inv s -> (forall a k, m a = Some k -> In k (nodes s)) ->
  (forall e, In e es -> exists a b, m (efrom e) = Some a /\ m (eto e) = Some b) ->
  exists t, merge_edges C P plen prev s es m = Ok t /\ inv t /\ extends s t /\ (sound s -> sound t) /\
   (forall e a b, In e es -> ~ (plen (epath e) == 0)%Q -> m (efrom e) = Some a -> m (eto e) = Some b ->
      arc t a b /\ arc t b a).
Proof.
  induction es as [|e es IH]; intros s HI Hm He; simpl.
  - exists s; split; [reflexivity|split; [exact HI|split; [apply extends_refl|split; [auto|intros ? ? ? []]]]].
  - destruct (Qeq_bool (plen (epath e)) 0) eqn:Eq.
    + destruct (IH s HI Hm) as [t [H1 [HI1 [HX [HS HA]]]]]; [intros; apply He; right; assumption|].
      exists t; split; [exact H1|split; [exact HI1|split; [exact HX|split; [exact HS|]]]].
      intros e' a b [<-|H'] Hq; [|apply HA; auto]. apply Qeq_bool_eq in Eq; contradiction.
    + destruct (He e (or_introl eq_refl)) as [a [b [Ha Hb]]]. rewrite Ha, Hb.
      pose proof (Hm _ _ Ha) as Hna. pose proof (Hm _ _ Hb) as Hnb.
      destruct (addEdges_spec s a b (epath e) HI Hna Hnb) as [s1 [s2 [r1 [r2 [H2 [HI1 [HI2 [HG1 [HG2 _]]]]]]]]].
      pose proof H2 as H2'. rewrite H2; cbn [bind].
      destruct (IH s2 HI2) as [t [H3 [HI3 [HX [HS HA]]]]].
      { intros x k Hk. rewrite (gr_nodes _ _ _ _ _ HG2), (gr_nodes _ _ _ _ _ HG1); eauto. }
      { intros; apply He; right; assumption. }
      assert (HX1 : extends s s2) by (eapply extends_trans; [eapply grown_extends; exact HG1|eapply grown_extends; exact HG2]).
      exists t; split; [exact H3|split; [exact HI3|split; [eapply extends_trans; eauto|split]]].
      * intros Hs; apply HS. apply (addEdges_sound s a b (epath e) s2 HI Hna Hnb Hs H2').
      * intros e' a' b' [<-|H'] Hq Ha' Hb'; [|eapply HA; eauto].
        rewrite Ha in Ha'; rewrite Hb in Hb'. injection Ha' as <-. injection Hb' as <-.
        split; apply HX, (gr_arc _ _ _ _ _ HG2); [left; apply (gr_arc _ _ _ _ _ HG1); right; auto|right; auto].
Qed.

Lemma node_list_fst (s : rmS) : wfN s -> map fst (node_list s) = nodes s.
Proof.
  intros HN. unfold node_list.
  assert (H : forall l, (forall n, In n l -> In n (nodes s)) ->
    map fst (flat_map (fun n => match ninfo s n with Some nd => [(n, ncfg nd)] | None => [] end) l) = l).
  { induction l as [|a l IH]; intros Hl; simpl; [reflexivity|].
    destruct (ninfo s a) as [nd|] eqn:Ea.
    - simpl; f_equal; apply IH; intros; apply Hl; right; assumption.
    - exfalso. assert (In a (nodes s)) as Ha by (apply Hl; left; reflexivity).
      apply (n_def _ HN) in Ha; congruence. }
  apply H; auto.
Qed.

Lemma merge_spec s other : inv s -> inv other ->
  exists m t, merge C P ceqb dist plen prev s other = Ok t /\ inv t /\ extends s t /\ (sound s -> sound t) /\
    (forall n, In n (nodes other) -> exists k, m n = Some k /\ In k (nodes t)) /\
    (forall n k q, m n = Some k -> config_of other n q -> exists c, config_of t k c /\ (c = q \/ ceqb c q = true)) /\
    (forall e a b, In e (edges other) -> ~ (plen (epath e) == 0)%Q -> m (efrom e) = Some a -> m (eto e) = Some b ->
      arc t a b /\ arc t b a).
Proof.
  intros HI HO. unfold merge. pose proof (w_N _ (i_wf _ HO)) as HN.
  destruct (merge_nodes_spec (node_list other) s (fun _ => None) HI) as
    [m [t [H1 [HI1 [HX [HS [He [Hm [Hall [_ [Hcfg Hout]]]]]]]]]]]; [discriminate|].
  rewrite H1; cbn [bind].
  rewrite (node_list_fst _ HN) in *.
  destruct (merge_edges_spec m (edges other) t HI1 Hm) as [t' [H2 [HI2 [HX2 [HS2 HA]]]]].
  { intros e Hie. destruct (e_end _ (i_E _ HO) e Hie) as [Ha Hb].
    destruct (Hall _ Ha) as [a ?]. destruct (Hall _ Hb) as [b ?]. eauto. }
  exists m, t'. split; [exact H2|split; [exact HI2|split; [eapply extends_trans; eauto|split; [auto|split; [|split; [|exact HA]]]]]].
  - intros n Hn; destruct (Hall n Hn) as [k Hk]; exists k; split; [exact Hk|]. apply HX2; eauto.
  - intros n k q Hk Hq. destruct Hq as [nd [Hq1 Hq2]].
    assert (Hin : In (n, q) (node_list other)).
    { unfold node_list; rewrite in_flat_map. exists n; split; [apply (n_def _ HN); congruence|].
      rewrite Hq1, Hq2; left; reflexivity. }
    destruct (Hcfg (n_nd _ HN) n q Hin) as [k' [c [H3 [H4 H5]]]].
    rewrite Hk in H3; injection H3 as <-. exists c; split; [apply HX2; exact H4|exact H5].
Qed.

(* ------------------------------------------------------------------ *)
(* Histories                                                           *)
Notation step := (step C P ceqb dist plen prev).
Notation run := (run C P ceqb dist plen prev).

(* arguments designate nodes of the roadmap *)
Definition valid (s : rmS) (o : op C P) : Prop :=
  match o with
  | OAddEdge a b _ | OAddEdges a b _ => In a (nodes s) /\ In b (nodes s)
  | OAddNodeAndEdges a _ _ | OAddNodeAndEdge a _ _ | OAddNodeAndEdgeTo _ a _ => In a (nodes s)
  | OMerge other => inv other
  | _ => True
  end.
Lemma clear_inv (s : rmS) : inv s -> inv (clear s) /\ sound (clear s).
Proof.
  intros HI. split.
  - constructor.
    + constructor; simpl; try reflexivity.
      * constructor; simpl; try tauto; constructor.
      * constructor; simpl; try tauto; try constructor; try congruence; try tauto.
      * intros a b [].
      * apply (w_F _ (i_wf _ HI)).
    + constructor; simpl; try tauto; try discriminate.
    + intros m n cm cn [nd [H _]]; discriminate.
    + split; simpl; [discriminate|tauto].
  - intros m n cm cn [nd [H _]]; discriminate.
Qed.

Lemma inv_set_roles (s : rmS) i g : inv s -> (forall n, i = Some n -> In n (nodes s)) -> (forall n, In n g -> In n (nodes s)) ->
  inv (set_goals (set_init s i) g).
Proof.
  intros [[HG HN HA HF] HE HC HR] Hi Hg. constructor.
  - constructor; simpl; auto. destruct HN; constructor; simpl; auto.
  - destruct HE; constructor; simpl; auto.
  - exact HC.
  - split; simpl; auto.
Qed.
Lemma set_goals_eta (s : rmS) g : set_goals s g = set_goals (set_init s (initN s)) g.
Proof. destruct s; reflexivity. Qed.
Lemma set_init_eta (s : rmS) i : set_init s i = set_goals (set_init s i) (goals s).
Proof. destruct s; reflexivity. Qed.

Lemma step_spec s o : inv s -> valid s o ->
  exists t, step s o = Ok t /\ inv t /\ (two_way o = true -> sound s -> sound t).
Proof.
  intros HI HV; destruct o; simpl in HV |- *.
  - destruct (addNode_spec s q HI) as [n [t [H1 [HI1 [Hn [HS _]]]]]]. rewrite H1; simpl; eauto.
  - destruct HV as [Ha Hb]. destruct (addEdge_spec s n1 n2 p HI Ha Hb) as [t [r [H1 [HI1 [HG _]]]]].
    exists t; split; [exact H1|split; [exact HI1|]]. intros _ HS.
    eapply grown_sound; try exact HG; auto; [apply (w_N _ (i_wf _ HI))|apply (i_E _ HI)].
  - destruct HV as [Ha Hb]. destruct (addEdges_spec s n1 n2 p HI Ha Hb) as [s1 [t [r1 [r2 [H1 [HI1 [HI2 _]]]]]]].
    exists t; split; [exact H1|split; [exact HI2|]]. intros _ HS. eapply addEdges_sound; try exact H1; auto.
  - destruct (addNodeAndEdges_spec s n q p HI HV) as [m [t [H1 [HI1 [_ [_ [HS _]]]]]]]. rewrite H1; simpl; eauto.
  - destruct (addNodeAndEdge_spec s n q p HI HV) as [m [t [H1 [HI1 _]]]]. rewrite H1; simpl.
    exists t; split; [reflexivity|split; [exact HI1|discriminate]].
  - destruct (addNodeAndEdgeTo_spec s q n p HI HV) as [m [t [H1 [HI1 _]]]]. rewrite H1; simpl.
    exists t; split; [reflexivity|split; [exact HI1|discriminate]].
  - destruct (insertPathVector_spec s q0 l both HI) as [t [H1 [HI1 [_ HS]]]].
    exists t; split; [exact H1|split; [exact HI1|]]. destruct both; [auto|discriminate].
  - unfold initNode. destruct (addNode_spec s q HI) as [n [t [H1 [HI1 [Hn [HS _]]]]]]. rewrite H1; simpl.
    eexists; split; [reflexivity|]. rewrite set_init_eta. split.
    + apply inv_set_roles; [exact HI1|intros m H; injection H as <-; exact Hn|apply (i_R _ HI1)].
    + intros _ Hs; apply HS in Hs; exact Hs.
  - unfold addGoalNode. destruct (addNode_spec s q HI) as [n [t [H1 [HI1 [Hn [HS _]]]]]]. rewrite H1; simpl.
    eexists; split; [reflexivity|]. rewrite set_goals_eta. split.
    + apply inv_set_roles; [exact HI1|apply (i_R _ HI1)|].
      intros m; rewrite in_app_iff; simpl; intros [H|[<-|[]]]; [apply (i_R _ HI1); exact H|exact Hn].
    + intros _ Hs; apply HS in Hs; exact Hs.
  - eexists; split; [reflexivity|]. unfold resetGoalNodes; rewrite set_goals_eta. split.
    + apply inv_set_roles; [exact HI|apply (i_R _ HI)|intros ? []].
    + intros _ Hs; exact Hs.
  - destruct (merge_spec s other HI HV) as [m [t [H1 [HI1 [_ [HS _]]]]]]. exists t; auto.
  - destruct (clear_inv s HI). eexists; split; [reflexivity|auto].
Qed.

Lemma step_valid s o t : inv s -> (forall other, o = OMerge other -> inv other) -> step s o = Ok t -> valid s o.
Proof.
  intros HI Hm H. pose proof (w_N _ (i_wf _ HI)) as HN.
  assert (Hd : forall n, ninfo s n <> None -> In n (nodes s)) by (intros n; apply (n_def _ HN)).
  destruct o; simpl in H |- *; auto.
  - unfold addEdge in H. destruct (ninfo s n1) eqn:E1; [|discriminate]. destruct (ninfo s n2) eqn:E2; [|discriminate].
    split; apply Hd; congruence.
  - unfold RoadmapModel.addEdges in H. destruct (ninfo s n1) eqn:E1; [|discriminate]. destruct (ninfo s n2) eqn:E2; [|discriminate].
    split; apply Hd; congruence.
  - unfold RoadmapModel.addNodeAndEdges in H. destruct (ninfo s n) eqn:E1; [|discriminate]. apply Hd; congruence.
  - unfold RoadmapModel.addNodeAndEdge in H. destruct (ninfo s n) eqn:E1; [|discriminate]. apply Hd; congruence.
  - unfold RoadmapModel.addNodeAndEdgeTo in H. destruct (ninfo s n) eqn:E1; [|discriminate]. apply Hd; congruence.
Qed.

Notation built_with := (built_with ceqb dist plen prev).
Notation built := (built ceqb dist plen prev).

Lemma built_inv s : built s -> inv s.
Proof.
  revert s. fix F 2. intros s H. destruct H as [|s o t Hb Hm Hs].
  - apply inv_empty.
  - assert (HI : inv s) by (apply F; exact Hb).
    assert (HV : valid s o).
    { refine (step_valid s o t HI _ Hs). intros other Ho. apply F. apply Hm; exact Ho. }
    destruct (step_spec s o HI HV) as [t' [H1 [HI1 _]]]. rewrite Hs in H1; injection H1 as <-. exact HI1.
Qed.
Lemma built_weaken ok s : built_with ok s -> built s.
Proof.
  intros H; induction H as [|s o t Hb IH Hok Hm Hs]; [constructor|].
  econstructor; eauto.
Qed.
Lemma built_sound s : built_with two_way s -> sound s.
Proof.
  intros H; induction H as [|s o t Hb IH Hok Hm Hs]; [apply sound_empty|].
  pose proof (built_inv _ (built_weaken _ _ Hb)) as HI.
  assert (HV : valid s o).
  { refine (step_valid s o t HI _ Hs). intros other Ho; apply built_inv, Hm, Ho. }
  destruct (step_spec s o HI HV) as [t' [H1 [_ HS]]]. rewrite Hs in H1; injection H1 as <-. auto.
Qed.

(* ------------------------------------------------------------------ *)
(* Queries                                                             *)
Lemma pathExists_spec (s : rmS) i : inv s -> initN s = Some i ->
  exists b, pathExists s = Ok (b, s) /\
    ((exists g, In g (goals s) /\ reach (arc s) i g) -> b = true) /\
    (sound s -> b = true -> exists g, In g (goals s) /\ reach (arc s) i g).
Proof.
  intros HI Hi. pose proof (i_wf _ HI) as HW. pose proof (w_N _ HW) as HN.
  assert (Hin : In i (nodes s)) by (apply (proj1 (i_R _ HI)); exact Hi).
  destruct (cof_ex s i HN Hin) as [ci [[nd [E1 E2]] Hl]].
  unfold pathExists; rewrite Hi, E1, E2.
  assert (HL : forall gs, (forall g, In g gs -> In g (nodes s)) ->
     exists b, pe_loop s ci gs = Ok (b, s) /\
       (b = true <-> exists g cg, In g gs /\ comp_of s g cg /\ reach (E (cinfo s)) ci cg)).
  { induction gs as [|g gs IH]; intros Hgs; simpl.
    - exists false; split; [reflexivity|]. split; [discriminate|intros [g [cg [[] _]]]].
    - destruct (cof_ex s g HN) as [cg [[ng [F1 F2]] Hcg]]; [apply Hgs; left; reflexivity|].
      rewrite F1, F2. destruct (canReach_spec s ci cg (w_G _ HW) (w_F _ HW) Hl) as [b [-> Hb]]. simpl.
      destruct b.
      + exists true; split; [reflexivity|]. split; [intros _|auto].
        exists g, cg; split; [auto|split; [exists ng; auto|apply Hb; reflexivity]].
      + destruct IH as [b [H1 H2]]; [intros; apply Hgs; right; assumption|].
        exists b; split; [exact H1|]. rewrite H2; split.
        * intros [g' [cg' [A1 A2]]]; exists g', cg'; auto.
        * intros [g' [cg' [[<-|A1] [A2 A3]]]]; [|exists g', cg'; auto].
          exfalso. assert (cg' = cg) by (eapply cof_fun; [exact A2|exists ng; auto]). subst cg'.
          apply Hb in A3; discriminate. }
  destruct (HL (goals s)) as [b [H1 H2]]; [apply (i_R _ HI)|].
  exists b; split; [exact H1|split].
  - intros [g [Hg Hr]]. apply H2. destruct (cof_ex s g HN) as [cg [Hcg _]]; [apply (i_R _ HI); exact Hg|].
    exists g, cg; split; [exact Hg|split; [exact Hcg|]]. eapply (i_C _ HI); eauto. exists nd; auto.
  - intros HS Hb. apply H2 in Hb as [g [cg [Hg [Hcg Hr]]]].
    exists g; split; [exact Hg|]. eapply HS; eauto. exists nd; auto.
Qed.

End S.
