(* Roadmap properties in terms of RoadmapSpec. *)
From Verif Require Import Base Reach RoadmapModel RoadmapSpec RoadmapProofs RoadmapProofs2 RoadmapProofs3.

Section S.
Context {C P : Type}.
Notation rmS := (rm C P).
Implicit Types s t other : rmS.
Variable ceqb : C -> C -> bool.
Variable dist : C -> C -> Q.
Variable plen : P -> Q.
Variable prev : P -> P.
Notation built_with := (built_with ceqb dist plen prev).
Notation built := (built ceqb dist plen prev).
Notation step := (step C P ceqb dist plen prev).

Lemma partition_l s : built s ->
  NoDup (nodes s) /\ NoDup (live s) /\
  (forall n, In n (nodes s) -> exists! c, In c (live s) /\ In n (cnodes (cinfo s c))) /\
  (forall n c, comp_of s n c <-> In c (live s) /\ In n (cnodes (cinfo s c))) /\
  (forall c, In c (live s) -> cnodes (cinfo s c) <> [] /\ NoDup (cnodes (cinfo s c)) /\
     forall n, In n (cnodes (cinfo s c)) -> In n (nodes s)) /\
  (forall c d, In c (live s) -> In d (rto (cinfo s c)) -> In d (live s) /\ d <> c /\ In c (rfrom (cinfo s d))) /\
  (forall c d, In c (live s) -> In d (rfrom (cinfo s c)) -> In d (live s) /\ d <> c /\ In c (rto (cinfo s d))).
Proof.
  intros HB. apply built_inv in HB. destruct HB as [[HG HN HA HF] _ _ _].
  split; [apply (n_nd _ HN)|split; [apply (g_nd _ _ HG)|]].
  assert (HC : forall n c, comp_of s n c <-> In c (live s) /\ In n (cnodes (cinfo s c))).
  { intros n c; split.
    - intros [nd [H1 <-]]. apply (n_cc _ HN n nd H1).
    - intros [H1 H2]. destruct (n_of _ HN c n H1 H2) as [nd [H3 H4]]; exists nd; auto. }
  split; [|split; [exact HC|split; [|split]]].
  - intros n Hn. destruct (cof_ex s n HN Hn) as [c [H1 H2]]. exists c; split; [apply HC; exact H1|].
    intros c' Hc'; apply HC in Hc'. eapply cof_fun; eauto.
  - intros c Hc; split; [apply (n_ne _ HN c Hc)|split; [apply (n_cnd _ HN c Hc)|]].
    intros n Hn; destruct (n_of _ HN c n Hc Hn) as [nd [H3 H4]]; apply (n_def _ HN); congruence.
  - intros c d Hc Hd. pose proof (g_to _ _ HG c d Hc Hd) as Hl. split; [exact Hl|split].
    + intros ->; apply (g_irr _ _ HG c Hc Hd).
    + apply (g_sym _ _ HG c d Hc Hl); exact Hd.
  - intros c d Hc Hd. pose proof (g_from _ _ HG c d Hc Hd) as Hl.
    assert (Hdc : In c (rto (cinfo s d))) by (apply (g_sym _ _ HG d c Hl Hc); exact Hd).
    split; [exact Hl|split; [|exact Hdc]].
    intros ->; apply (g_irr _ _ HG c Hc Hdc).
Qed.

Lemma calls_succeed_l s o : built s -> good_args ceqb dist plen prev s o -> exists t, step s o = Ok t /\ built t.
Proof.
  intros HB HV. pose proof (built_inv ceqb dist plen prev s HB) as HI.
  assert (HV' : valid s o).
  { destruct o; simpl in *; auto. apply (built_inv ceqb dist plen prev); exact HV. }
  destruct (step_spec ceqb dist plen prev s o HI HV') as [t [H1 _]]. exists t; split; [exact H1|].
  eapply built_step; [exact HB| |exact H1]. intros other ->; exact HV.
Qed.

Lemma path_exists_l s i : built_with two_way s -> initN s = Some i ->
  exists b, pathExists s = Ok (b, s) /\
    (b = true <-> exists g, In g (goals s) /\ connected_to s i g).
Proof.
  intros HB Hi. pose proof (built_sound ceqb dist plen prev s HB) as HS.
  pose proof (built_inv _ _ _ _ _ (built_weaken _ _ _ _ _ _ HB)) as HI.
  destruct (pathExists_spec s i HI Hi) as [b [H1 [H2 H3]]]. exists b; split; [exact H1|].
  split; [apply H3; exact HS|exact H2].
Qed.
Lemma path_exists_complete_l s i : built s -> initN s = Some i ->
  exists b, pathExists s = Ok (b, s) /\
    ((exists g, In g (goals s) /\ connected_to s i g) -> b = true).
Proof.
  intros HB Hi. pose proof (built_inv _ _ _ _ _ HB) as HI.
  destruct (pathExists_spec s i HI Hi) as [b [H1 [H2 H3]]]. exists b; auto.
Qed.
Lemma can_reach_l s c d : built_with two_way s -> In c (live s) -> In d (live s) ->
  exists b, canReach s c d = Ok (b, s) /\
    (b = true <-> exists m n, comp_of s m c /\ comp_of s n d /\ connected_to s m n) /\
    (b = true <-> forall m n, comp_of s m c -> comp_of s n d -> connected_to s m n).
Proof.
  intros HB Hc Hd. pose proof (built_sound ceqb dist plen prev s HB) as HS.
  pose proof (built_inv _ _ _ _ _ (built_weaken _ _ _ _ _ _ HB)) as HI.
  pose proof (i_wf _ HI) as HW. pose proof (w_N _ HW) as HN.
  destruct (canReach_spec s c d (w_G _ HW) (w_F _ HW) Hc) as [b [H1 H2]].
  assert (Hne : forall x, In x (live s) -> exists n, comp_of s n x).
  { intros x Hx. pose proof (n_ne _ HN x Hx) as H. destruct (cnodes (cinfo s x)) as [|a l] eqn:Ea; [congruence|].
    destruct (n_of _ HN x a Hx) as [nd [H3 H4]]; [rewrite Ea; left; reflexivity|]. exists a, nd; auto. }
  exists b; split; [exact H1|]. rewrite H2. split; split.
  - intros Hr. destruct (Hne c Hc) as [m Hm]. destruct (Hne d Hd) as [n Hn].
    exists m, n; split; [exact Hm|split; [exact Hn|eapply HS; eauto]].
  - intros [m [n [Hm [Hn Hr]]]]. eapply (i_C _ HI); eauto.
  - intros Hr m n Hm Hn; eapply HS; eauto.
  - intros Hall. destruct (Hne c Hc) as [m Hm]. destruct (Hne d Hd) as [n Hn].
    eapply (i_C _ HI); [exact Hm|exact Hn|apply Hall; auto].
Qed.
Lemma scc_l s m n c d : built_with two_way s -> comp_of s m c -> comp_of s n d ->
  (c = d <-> connected_to s m n /\ connected_to s n m).
Proof.
  intros HB Hm Hn. pose proof (built_sound ceqb dist plen prev s HB) as HS.
  pose proof (built_inv _ _ _ _ _ (built_weaken _ _ _ _ _ _ HB)) as HI.
  pose proof (w_N _ (i_wf _ HI)) as HN. split.
  - intros <-; split; eapply HS; eauto; apply reach_refl.
  - intros [H1 H2]. apply (w_A _ (i_wf _ HI)).
    + apply (cof_live s m); auto.
    + apply (cof_live s n); auto.
    + eapply (i_C _ HI); eauto.
    + eapply (i_C _ HI); eauto.
Qed.
(* holds for every history *)
Lemma scc_one_way_l s m n c d : built s -> comp_of s m c -> comp_of s n d ->
  connected_to s m n -> connected_to s n m -> c = d.
Proof.
  intros HB Hm Hn H1 H2. pose proof (built_inv _ _ _ _ _ HB) as HI.
  pose proof (w_N _ (i_wf _ HI)) as HN. apply (w_A _ (i_wf _ HI)).
  - apply (cof_live s m); auto.
  - apply (cof_live s n); auto.
  - eapply (i_C _ HI); eauto.
  - eapply (i_C _ HI); eauto.
Qed.

(* out-edges and in-edges represent exactly the arcs *)
Lemma adjacency_l s n nd : built s -> ninfo s n = Some nd ->
  (forall b, (exists e, In e (nout nd) /\ eto e = b) <-> arc s n b) /\
  (forall a, (exists e, In e (nin nd) /\ efrom e = a) <-> arc s a n) /\
  (forall e, In e (nout nd) -> In e (edges s) /\ efrom e = n) /\
  (forall e, In e (nin nd) -> In e (edges s) /\ eto e = n).
Proof.
  intros HB Hn. pose proof (i_E _ (built_inv _ _ _ _ _ HB)) as [E1 E2 E3 E4 E5 E6 E7].
  split; [|split; [|split]].
  - intros b; split.
    + intros [e [H1 H2]]. destruct (E2 n nd e Hn H1). exists e; auto.
    + intros [e [H1 [<- <-]]]. destruct (E4 e nd H1 Hn) as [e' ?]; eauto.
  - intros a; split.
    + intros [e [H1 H2]]. destruct (E3 n nd e Hn H1). exists e; auto.
    + intros [e [H1 [<- <-]]]. destruct (E5 e nd H1 Hn) as [e' ?]; eauto.
  - intros e; apply E2; exact Hn.
  - intros e; apply E3; exact Hn.
Qed.

(* ------------------------------------------------------------------ *)
(* Duplicates                                                          *)
Lemma addNode_existing_l s q n : separating ceqb dist -> built s -> In n (nodes s) -> config_of s n q ->
  exists m, addNode C P ceqb dist s q = Ok (m, s) /\ In m (nodes s) /\ config_of s m q.
Proof.
  intros [S1 [S2 S3]] HB Hn Hq. pose proof (built_inv _ _ _ _ _ HB) as HI.
  destruct (addNode_cases ceqb dist s q HI) as [[m [H1 [H2 [c [H3 H4]]]]]|[H1 [H2|[m [c [H2 [H3 [H4 H5]]]]]]]].
  - exists m; split; [exact H1|split; [exact H2|]]. apply S1 in H4; subst c; exact H3.
  - rewrite H2 in Hn; destruct Hn.
  - exfalso. specialize (H5 n q Hn Hq).
    assert (H6 : (dist q q == 0)%Q) by (apply S3; reflexivity). rewrite H6 in H5.
    assert (H7 : (dist c q == 0)%Q) by (apply Qle_antisym; [exact H5|apply S2]).
    apply S3 in H7; subst c. assert (ceqb q q = true) by (apply S1; reflexivity). congruence.
Qed.

Definition cfg_inj s : Prop := forall m n q, config_of s m q -> config_of s n q -> m = n.

Lemma addNode_cfg_inj s q n t : separating ceqb dist -> inv s -> cfg_inj s ->
  addNode C P ceqb dist s q = Ok (n, t) -> cfg_inj t.
Proof.
  intros [S1 [S2 S3]] HI HJ Ht.
  destruct (addNode_cases ceqb dist s q HI) as [[m [H1 _]]|[H1 H2]].
  - rewrite H1 in Ht; injection Ht as <- <-; exact HJ.
  - rewrite H1 in Ht; injection Ht as <- <-.
    assert (Hno : forall m, ~ config_of s m q).
    { intros m Hm. assert (Hmn : In m (nodes s)).
      { destruct Hm as [nd [Hm _]]. apply (n_def _ (w_N _ (i_wf _ HI))); congruence. }
      destruct H2 as [H2|[k [c [H3 [H4 [H5 H6]]]]]]; [rewrite H2 in Hmn; destruct Hmn|].
      specialize (H6 m q Hmn Hm).
      assert (H7 : (dist q q == 0)%Q) by (apply S3; reflexivity). rewrite H7 in H6.
      assert (H8 : (dist c q == 0)%Q) by (apply Qle_antisym; [exact H6|apply S2]).
      apply S3 in H8; subst c. assert (ceqb q q = true) by (apply S1; reflexivity). congruence. }
    assert (Hold : forall x p, config_of (snd (newNode s q)) x p ->
              (x = nnext s /\ p = q) \/ config_of s x p).
    { intros x p [nd [Hx <-]]; simpl in Hx. destruct (Nat.eq_dec x (nnext s)) as [->|Hne].
      - rewrite upd_eq in Hx; injection Hx as <-; left; auto.
      - rewrite upd_neq in Hx by assumption; right; exists nd; auto. }
    intros x y p Hx Hy. apply Hold in Hx; apply Hold in Hy.
    destruct Hx as [[-> Hp]|Hx]; destruct Hy as [[-> Hp']|Hy]; auto.
    + subst p. destruct (Hno _ Hy).
    + subst p. destruct (Hno _ Hx).
    + eapply HJ; eauto.
Qed.
Lemma grown_cfg s t r u v n q : grown s t r u v -> (config_of t n q <-> config_of s n q).
Proof.
  intros HG. pose proof (gr_cfg _ _ _ _ _ HG n) as H. unfold config_of.
  destruct (ninfo t n) as [nd|], (ninfo s n) as [nd'|]; simpl in H; try discriminate.
  - injection H as H. split; intros [x [H1 H2]]; injection H1 as <-; eexists; split; try reflexivity; congruence.
  - tauto.
Qed.
Lemma grown_inj s t r u v : grown s t r u v -> cfg_inj s -> cfg_inj t.
Proof.
  intros HG HJ m n q Hm Hn. apply (grown_cfg _ _ _ _ _ _ _ HG) in Hm. apply (grown_cfg _ _ _ _ _ _ _ HG) in Hn.
  eapply HJ; eauto.
Qed.
Lemma addEdges_inj s u v p t : inv s -> In u (nodes s) -> In v (nodes s) -> cfg_inj s ->
  addEdges C P prev s u v p = Ok t -> cfg_inj t.
Proof.
  intros HI Hu Hv HJ Ht. destruct (addEdges_spec prev s u v p HI Hu Hv) as [s1 [s2 [r1 [r2 [H2 [_ [_ [HG1 [HG2 _]]]]]]]]].
  rewrite H2 in Ht; injection Ht as <-. eapply grown_inj; [exact HG2|eapply grown_inj; eauto].
Qed.
Lemma merge_nodes_inj ns : forall s m m' t, separating ceqb dist -> inv s -> cfg_inj s ->
  merge_nodes C P ceqb dist s ns m = Ok (m', t) -> cfg_inj t.
Proof.
  induction ns as [|[a q] ns IH]; intros s m m' t HS HI HJ H; simpl in H.
  - injection H as <- <-; exact HJ.
  - destruct (addNode_spec ceqb dist s q HI) as [n [s1 [H1 [HI1 _]]]]. rewrite H1 in H; simpl in H.
    eapply IH; [exact HS|exact HI1| |exact H]. exact (addNode_cfg_inj s q n s1 HS HI HJ H1).
Qed.
Lemma merge_edges_inj m : forall es s t, inv s -> cfg_inj s ->
  (forall a k, m a = Some k -> In k (nodes s)) ->
  merge_edges C P plen prev s es m = Ok t -> cfg_inj t.
Proof.
  induction es as [|e es IH]; intros s t HI HJ Hm H; simpl in H.
  - injection H as <-; exact HJ.
  - destruct (Qeq_bool _ _); [eapply IH; eauto|].
    destruct (m (efrom e)) as [a|] eqn:Ea; [|discriminate]. destruct (m (eto e)) as [b|] eqn:Eb; [|discriminate].
    destruct (addEdges_spec prev s a b (epath e) HI (Hm _ _ Ea) (Hm _ _ Eb)) as [s1 [s2 [r1 [r2 [H2 [_ [HI2 [HG1 [HG2 _]]]]]]]]].
    pose proof (addEdges_inj s a b (epath e) s2 HI (Hm _ _ Ea) (Hm _ _ Eb) HJ H2) as HJ2.
    rewrite H2 in H; simpl in H. eapply IH; [exact HI2|exact HJ2| |exact H].
    intros x k Hk. rewrite (gr_nodes _ _ _ _ _ HG2), (gr_nodes _ _ _ _ _ HG1); eauto.
Qed.

Lemma no_duplicates_l s : separating ceqb dist -> built_with plain s -> cfg_inj s.
Proof.
  intros HS HB; induction HB as [|s o t Hb IH Hok Hm Hs].
  - intros m n q [nd [H _]]; discriminate.
  - pose proof (built_inv _ _ _ _ _ (built_weaken _ _ _ _ _ _ Hb)) as HI.
    assert (HV : valid s o).
    { refine (step_valid ceqb dist plen prev s o t HI _ Hs). intros other Ho; eapply built_inv, Hm, Ho. }
    destruct o; simpl in Hok, HV, Hs; try discriminate.
    + destruct (addNode C P ceqb dist s q) as [[n s1]| | |] eqn:Ea; try discriminate. injection Hs as <-.
      exact (addNode_cfg_inj s q n s1 HS HI IH Ea).
    + destruct HV as [Ha Hbb]. destruct (addEdge_spec s n1 n2 p HI Ha Hbb) as [t' [r [H1 [_ [HG _]]]]].
      rewrite Hs in H1; injection H1 as <-. eapply grown_inj; eauto.
    + destruct HV as [Ha Hbb]. eapply addEdges_inj; [exact HI|exact Ha|exact Hbb|exact IH|exact Hs].
    + unfold initNode in Hs. destruct (addNode C P ceqb dist s q) as [[n s1]| | |] eqn:Ea; try discriminate.
      injection Hs as <-. pose proof (addNode_cfg_inj _ _ _ _ HS HI IH Ea) as HJ. exact HJ.
    + unfold addGoalNode in Hs. destruct (addNode C P ceqb dist s q) as [[n s1]| | |] eqn:Ea; try discriminate.
      injection Hs as <-. pose proof (addNode_cfg_inj _ _ _ _ HS HI IH Ea) as HJ. exact HJ.
    + injection Hs as <-. exact IH.
    + unfold merge in Hs.
      destruct (merge_nodes_spec ceqb dist (node_list other) s (fun _ => None) HI) as
        [m [s1 [H1 [HI1 [_ [_ [_ [Hm' _]]]]]]]]; [discriminate|].
      rewrite H1 in Hs; simpl in Hs.
      eapply merge_edges_inj; [exact HI1| |exact Hm'|exact Hs].
      exact (merge_nodes_inj _ s _ m s1 HS HI IH H1).
    + injection Hs as <-. intros m n q [nd [H _]]; discriminate.
Qed.

(* ------------------------------------------------------------------ *)
(* Merge                                                               *)
Lemma merge_l s other : (forall a b, ceqb a b = true -> a = b) -> built s -> built other ->
  (forall e, In e (edges other) -> (plen (epath e) == 0)%Q -> efrom e = eto e) ->
  exists t m, merge C P ceqb dist plen prev s other = Ok t /\
    (forall n, In n (nodes s) -> In n (nodes t)) /\
    (forall n q, config_of s n q -> config_of t n q) /\
    (forall a b, connected_to s a b -> connected_to t a b) /\
    (forall n q, config_of other n q -> exists k, m n = Some k /\ config_of t k q) /\
    (forall a b a' b', connected_to other a b -> m a = Some a' -> m b = Some b' ->
        connected_to t a' b' /\ connected_to t b' a').
Proof.
  intros Hceq HB HO Hz.
  pose proof (built_inv _ _ _ _ _ HB) as HI. pose proof (built_inv _ _ _ _ _ HO) as HIO.
  destruct (merge_spec ceqb dist plen prev s other HI HIO) as [m [t [H1 [HI1 [HX [_ [H2 [H3 H4]]]]]]]].
  exists t, m. split; [exact H1|split; [apply HX|split; [apply HX|split; [|split]]]].
  - intros a b; apply reach_mono; apply HX.
  - intros n q Hq. assert (Hn : In n (nodes other)).
    { destruct Hq as [nd [H _]]; apply (n_def _ (w_N _ (i_wf _ HIO))); congruence. }
    destruct (H2 n Hn) as [k [Hk Hkn]]. exists k; split; [exact Hk|].
    destruct (H3 n k q Hk Hq) as [c [Hc [->|He]]]; [exact Hc|]. apply Hceq in He; subst c; exact Hc.
  - intros a b a' b' Hab. revert a'. induction Hab as [a|a y b Hay Hyb IH]; intros a' Ha' Hb'.
    + assert (a' = b') as <- by congruence. split; apply reach_refl.
    + destruct Hay as [e [He [<- <-]]].
      destruct (e_end _ (i_E _ HIO) e He) as [_ Hy]. destruct (H2 _ Hy) as [y' [Hy' _]].
      specialize (IH y' Hy' Hb'). destruct (Qeq_dec (plen (epath e)) 0) as [Hq|Hq].
      * pose proof (Hz e He Hq) as Heq. rewrite Heq in Ha'. assert (a' = y') as -> by congruence. exact IH.
      * destruct (H4 e a' y' He Hq Ha' Hy') as [A1 A2]. destruct IH as [I1 I2]. split.
        -- eapply reach_step; eauto.
        -- eapply reach_snoc; eauto.
Qed.

(* ------------------------------------------------------------------ *)
(* Nearest node                                                        *)
Lemma nearest_l s rev q : built s ->
  match nearestNode C P dist s rev q with
  | None => nodes s = []
  | Some (n, d) => In n (nodes s) /\ (exists c, config_of s n c /\ d = nn_d C dist rev q c) /\
                   forall m c, In m (nodes s) -> config_of s m c -> (d <= nn_d C dist rev q c)%Q
  end.
Proof. intros HB; apply nearestNode_best, (i_wf _ (built_inv _ _ _ _ _ HB)). Qed.
Lemma nearest_cc_l s rev q c : built s -> In c (live s) ->
  exists n d, nn_search C P dist s rev q c = Some (n, d) /\ comp_of s n c /\
    (exists qn, config_of s n qn /\ d = nn_d C dist rev q qn) /\
    forall m qm, comp_of s m c -> config_of s m qm -> (d <= nn_d C dist rev q qm)%Q.
Proof.
  intros HB Hc. pose proof (w_N _ (i_wf _ (built_inv _ _ _ _ _ HB))) as HN.
  destruct (nn_search_some dist s rev q c HN Hc) as [n [d He]].
  pose proof (nn_search_best dist s rev q c HN Hc) as HS. rewrite He in HS; simpl in HS.
  destruct HS as [A1 [A2 A3]]. exists n, d; split; [exact He|split; [|split; [exact A2|]]].
  - destruct (n_of _ HN c n Hc A1) as [nd [H1 H2]]; exists nd; auto.
  - intros m qm [nd [H1 H2]] Hq. apply (A3 m); [|exact Hq]. rewrite <- H2; apply (n_cc _ HN m nd H1).
Qed.
End S.
