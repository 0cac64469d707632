(* The roadmap calls of the planners keep the edges sound. *)
From Verif Require Import Base Reach RoadmapModel RoadmapSpec RoadmapProofs RoadmapProofs2 RoadmapProofs3.
From Verif Require Import PlannerModel PlannerSpec.

Section S.
Context {C P : Type}.
Notation rmS := (rm C P).
Implicit Types s t : rmS.

(* ------------------------------------------ components only get more nodes *)
Definition kept (ci ci' : nat -> comp) : Prop := forall c, incl (cnodes (ci c)) (cnodes (ci' c)).
Lemma kept_refl ci : kept ci ci. Proof. intro c; apply incl_refl. Qed.
Lemma kept_trans a b c : kept a b -> kept b c -> kept a c.
Proof. intros H1 H2 x; eapply incl_tran; [apply H1|apply H2]. Qed.
Lemma kept_upd ci k v : incl (cnodes (ci k)) (cnodes v) -> kept ci (upd ci k v).
Proof. intros H c. unfold upd. destruct (Nat.eqb_spec c k) as [->|]; [exact H|apply incl_refl]. Qed.
Lemma kept_fold (f : (nat -> comp) -> nat -> (nat -> comp)) l :
  (forall ci c, kept ci (f ci c)) -> forall ci, kept ci (fold_left f l ci).
Proof.
  intros H. induction l as [|x l IH]; intro ci; cbn [fold_left]; [apply kept_refl|].
  eapply kept_trans; [apply H|apply IH].
Qed.
Lemma cc_merge_kept s a b : kept (cinfo s) (cinfo (cc_merge s a b)).
Proof.
  unfold cc_merge. cbn [cinfo set_cinfo].
  set (c0 := upd (cinfo s) a _). assert (K0 : kept (cinfo s) c0) by (apply kept_upd; cbn [cnodes set_cnodes]; apply incl_appl, incl_refl).
  set (c1 := fold_left _ (rto (c0 b)) c0).
  assert (K1 : kept c0 c1) by (apply kept_fold; intros; apply kept_upd; apply incl_refl).
  set (c2 := fold_left _ (rfrom (c1 b)) c1).
  assert (K2 : kept c1 c2) by (apply kept_fold; intros; apply kept_upd; apply incl_refl).
  set (c3 := upd c2 a _). assert (K3 : kept c2 c3) by (apply kept_upd; apply incl_refl).
  assert (K4 : kept c3 (upd c3 a (set_rfrom (c3 a) (ers a (ers b (uni (rfrom (c3 a)) (rfrom (c3 b)))))))) by (apply kept_upd; apply incl_refl).
  eapply kept_trans; [exact K0|]. eapply kept_trans; [exact K1|]. eapply kept_trans; [exact K2|].
  eapply kept_trans; [exact K3|exact K4].
Qed.
Lemma merge_set_kept a l : forall s, kept (cinfo s) (cinfo (merge_set s a l)).
Proof.
  unfold merge_set. induction l as [|x l IH]; intro s; cbn [fold_left]; [apply kept_refl|].
  destruct (x =? a); [apply IH|]. eapply kept_trans; [apply cc_merge_kept|].
  eapply kept_trans; [|apply IH]. apply kept_refl.
Qed.
Lemma canReach_cinfo s a b r t : canReach s a b = Ok (r, t) -> cinfo t = cinfo s.
Proof.
  unfold canReach. destruct (bfs1 _ _ _ _ _ _) as [[[? ?] ?]| | |]; intro H; inversion H; reflexivity.
Qed.
Lemma canReachSet_cinfo s a b r l t : canReachSet s a b = Ok (r, l, t) -> cinfo t = cinfo s.
Proof.
  unfold canReachSet. destruct (bfs2 _ _ _ _ _ _ _) as [[[[|] ?] ?]| | |]; intro H; try discriminate.
  - destruct (bfs2 _ _ _ _ _ _ _) as [[[? ?] ?]| | |]; inversion H; reflexivity.
  - inversion H; reflexivity.
Qed.
Lemma connect_kept s a b t : connect s a b = Ok t -> kept (cinfo s) (cinfo t).
Proof.
  unfold connect. destruct (canReach s a b) as [[r s1]| | |] eqn:E1; cbn [bind]; try discriminate.
  apply canReach_cinfo in E1. destruct r; [intro H; inversion H; subst; rewrite E1; apply kept_refl|].
  destruct (canReachSet s1 b a) as [[[r2 l] s2]| | |] eqn:E2; cbn [bind]; try discriminate.
  apply canReachSet_cinfo in E2. destruct r2; intro H; inversion H; subst.
  - rewrite <- E1, <- E2. apply merge_set_kept.
  - cbn [cinfo set_cinfo]. rewrite E2, E1.
    match goal with |- kept _ (upd ?c1 _ _) => apply kept_trans with c1 end; apply kept_upd; apply incl_refl.
Qed.
Lemma addEdge_kept s a b p t : addEdge s a b p = Ok t -> kept (cinfo s) (cinfo t).
Proof.
  unfold addEdge. destruct (ninfo s a) eqn:E1; [|discriminate]. destruct (ninfo s b) eqn:E2; [|discriminate].
  unfold impl_addEdge. cbn [set_edges ninfo efrom eto].
  destruct (ninfo (registerIn (registerOut s (mkEdge a b p)) (mkEdge a b p)) a); [|discriminate].
  destruct (ninfo (registerIn (registerOut s (mkEdge a b p)) (mkEdge a b p)) b); [|discriminate].
  intro H. apply connect_kept in H. exact H.
Qed.

Record grows s t : Prop := {
  g_x : extends s t;
  g_next : cnext s <= cnext t;
  g_kept : forall c, c < cnext s -> incl (cnodes (cinfo s c)) (cnodes (cinfo t c));
  g_init : initN t = initN s;
  g_goals : goals t = goals s }.
Lemma grows_refl s : grows s s.
Proof. split; auto; [apply extends_refl|intros; apply incl_refl]. Qed.
Lemma grows_trans s t u : grows s t -> grows t u -> grows s u.
Proof.
  intros [A1 A2 A3 A4 A5] [B1 B2 B3 B4 B5]. split; try congruence; try lia.
  - eapply extends_trans; eassumption.
  - intros c Hc. eapply incl_tran; [apply A3; exact Hc|apply B3; lia].
Qed.
Lemma grows_cfg s t n q : grows s t -> config_of s n q -> config_of t n q.
Proof. intros H; apply (g_x _ _ H). Qed.

Variable ceqb : C -> C -> bool.
Variable dist : C -> C -> Q.
Variable plen : P -> Q.
Variable prev : P -> P.
Variable V : env C P.
Variable OK : P -> Prop.

Notation built := (built ceqb dist plen prev).
Notation inv := (@inv C P).
Notation edges_ok := (edges_ok V OK).
Notation addNode := (addNode C P ceqb dist).
Notation addNodeIn := (addNodeIn C P ceqb dist).
Notation addEdges := (addEdges C P prev).
Notation addNodeAndEdges := (addNodeAndEdges C P ceqb dist prev).
Notation addNodeAndEdge := (addNodeAndEdge C P ceqb dist).
Notation addNodeAndEdgeTo := (addNodeAndEdgeTo C P ceqb dist).

Definition good s : Prop := built s /\ edges_ok s.
Hypothesis HEQ : forall a b, ceqb a b = true -> a = b.
Hypothesis HREV : forall p, OK p -> OK (prev p).
Hypothesis HENDS : forall p, e_init V (prev p) = e_end V p /\ e_end V (prev p) = e_init V p.

Lemma good_inv s : good s -> inv s.
Proof. intros [H _]. apply (built_inv ceqb dist plen prev). exact H. Qed.
Lemma cfg_in s n q : inv s -> config_of s n q -> In n (nodes s).
Proof. intros HI [nd [H _]]. apply (n_def _ (w_N _ (i_wf _ HI))). congruence. Qed.
Lemma cfg_fun s n q q' : config_of s n q -> config_of s n q' -> q = q'.
Proof. intros [nd [H1 H2]] [nd' [H3 H4]]; congruence. Qed.

Lemma edges_ok_same s t : edges t = edges s -> extends s t -> edges_ok s -> edges_ok t.
Proof.
  intros HE HX H e He. rewrite HE in He. destruct (H e He) as [H1 [H2 H3]].
  split; [exact H1|]. split; apply (x_cfg _ _ HX); assumption.
Qed.
Lemma edges_ok_snoc s t e : edges t = edges s ++ [e] -> extends s t -> edges_ok s ->
  OK (epath e) -> config_of s (efrom e) (e_init V (epath e)) -> config_of s (eto e) (e_end V (epath e)) -> edges_ok t.
Proof.
  intros HE HX H H1 H2 H3 e' He. rewrite HE in He. apply in_app_iff in He as [He|[<-|[]]].
  - destruct (H e' He) as [X1 [X2 X3]]. split; [exact X1|]. split; apply (x_cfg _ _ HX); assumption.
  - split; [exact H1|]. split; apply (x_cfg _ _ HX); assumption.
Qed.

Lemma good_addNode s q : good s -> exists n t, addNode s q = Ok (n, t) /\ good t /\ grows s t /\ config_of t n q.
Proof.
  intro HG. assert (HI := good_inv s HG). destruct HG as [HB HE].
  destruct (addNode_spec ceqb dist s q HI) as [n [t [H1 [H2 [H3 [_ [H5 [H6 [H7 [H8 [c [H9 H10]]]]]]]]]]]].
  exists n, t. split; [exact H1|]. split.
  - split; [|eapply edges_ok_same; eassumption].
    eapply built_step with (o := OAddNode q); [exact HB|discriminate|]. cbn [step]. rewrite H1; reflexivity.
  - split.
    + split; auto.
      * destruct (addNode_cases ceqb dist s q HI) as [[m [X _]]|[X _]]; rewrite X in H1; inversion H1; subst; [lia|].
        cbn [cnext newNode snd]; lia.
      * intros x Hx. destruct (addNode_cases ceqb dist s q HI) as [[m [X _]]|[X _]]; rewrite X in H1; inversion H1; subst;
          [apply incl_refl|]. cbn [cinfo newNode snd]. rewrite upd_neq by lia. apply incl_refl.
    + destruct H10 as [->|X]; [exact H9|]. apply HEQ in X; subst; exact H9.
Qed.
Lemma good_addEdge s a b p : good s -> OK p -> config_of s a (e_init V p) -> config_of s b (e_end V p) ->
  exists t, addEdge s a b p = Ok t /\ good t /\ grows s t.
Proof.
  intros HG HO Ha Hb. assert (HI := good_inv s HG). destruct HG as [HB HE].
  destruct (addEdge_spec s a b p HI (cfg_in _ _ _ HI Ha) (cfg_in _ _ _ HI Hb)) as [t [r [H1 [H2 [H3 [H4 _]]]]]].
  assert (HX := grown_extends _ _ _ _ _ H3).
  exists t. split; [exact H1|]. split.
  - split.
    + eapply built_step with (o := OAddEdge a b p); [exact HB|discriminate|exact H1].
    + eapply edges_ok_snoc; try eassumption.
  - split; try apply H3; auto.
    + rewrite (gr_cnext _ _ _ _ _ H3); lia.
    + intros c _. apply (addEdge_kept _ _ _ _ _ H1).
Qed.
Lemma good_addNodeIn s q c : inv s -> edges_ok s -> In c (live s) -> exists n t, addNodeIn s q c = Ok (n, t) /\ inv t /\
  edges_ok t /\ grows s t /\ config_of t n q.
Proof.
  intros HI HE Hc. assert (HN := w_N _ (i_wf _ HI)).
  destruct (addNodeIn_spec ceqb dist s q c HI Hc) as [n [t [H1 [H2 [H3 [H4 [H5 H6]]]]]]].
  assert (X1 : edges t = edges s) by (destruct H6 as [->|[-> _]]; reflexivity).
  exists n, t. split; [exact H1|]. split; [exact H2|]. split; [eapply edges_ok_same; eassumption|]. split.
  - split; auto.
    + destruct H6 as [->|[-> _]]; cbn [cnext newNodeIn snd]; lia.
    + intros x Hx. destruct H6 as [->|[-> _]]; [apply incl_refl|]. cbn [cinfo newNodeIn snd]. unfold upd.
      destruct (x =? c) eqn:Exc; [|apply incl_refl]. apply Nat.eqb_eq in Exc; subst x.
      cbn [cnodes set_cnodes]. apply incl_appl, incl_refl.
    + destruct H6 as [->|[-> _]]; reflexivity.
    + destruct H6 as [->|[-> _]]; reflexivity.
  - destruct H6 as [X|[X1' X2]].
    + (* an equal configuration was found *)
      assert (NX : forall k, RoadmapModel.newNodeIn s q c <> (k, t)).
      { intros k Y. assert (Y1 : t = snd (RoadmapModel.newNodeIn s q c)) by (rewrite Y; reflexivity). rewrite X in Y1.
        apply (f_equal (fun z => length (nodes z))) in Y1. cbn [nodes newNodeIn snd] in Y1.
        rewrite app_length in Y1; cbn [length] in Y1; lia. }
      unfold RoadmapModel.addNodeIn in H1. destruct (nodes s) eqn:En.
      { exfalso. apply (NX n). congruence. }
      destruct (nn_search C P dist s false q c) as [[m d]|]; [|discriminate].
      destruct (ninfo s m) as [nd|] eqn:Em; [|discriminate].
      destruct (ceqb (ncfg nd) q) eqn:Eq.
      * inversion H1; subst. apply HEQ in Eq. exists nd; auto.
      * exfalso. apply (NX n). congruence.
    + subst. exists (mkNode q c [] []). cbn [ninfo newNodeIn snd]. rewrite upd_eq; auto.
Qed.
Lemma cof_node s n q : inv s -> config_of s n q -> exists nd, ninfo s n = Some nd /\ In (ncc nd) (live s).
Proof.
  intros HI [nd [H1 _]]. exists nd; split; [exact H1|]. apply (n_cc _ (w_N _ (i_wf _ HI)) n nd H1).
Qed.
Lemma good_addNodeAndEdge s a p : good s -> OK p -> config_of s a (e_init V p) ->
  exists n t, addNodeAndEdge s a (e_end V p) p = Ok (n, t) /\ good t /\ grows s t /\ config_of t n (e_end V p).
Proof.
  intros HG HO Ha. assert (HI := good_inv s HG). destruct HG as [HB HE].
  destruct (cof_node _ _ _ HI Ha) as [nd [H1 H2]].
  destruct (good_addNodeIn s (e_end V p) (ncc nd) HI HE H2) as [n [t [H3 [H4 [H5 [H6 H7]]]]]].
  assert (Ha' := grows_cfg _ _ _ _ H6 Ha).
  destruct (addEdge_spec t a n p H4 (cfg_in _ _ _ H4 Ha') (cfg_in _ _ _ H4 H7)) as [u [r [G1 [G2 [G3 [G4 _]]]]]].
  assert (HX := grown_extends _ _ _ _ _ G3).
  assert (EQ : addNodeAndEdge s a (e_end V p) p = Ok (n, u)).
  { unfold RoadmapModel.addNodeAndEdge. rewrite H1, H3; cbn [bind]. rewrite G1; reflexivity. }
  exists n, u. split; [exact EQ|]. split; [|split].
  - split.
    + eapply built_step with (o := OAddNodeAndEdge a (e_end V p) p); [exact HB|discriminate|]. cbn [step]. rewrite EQ; reflexivity.
    + eapply edges_ok_snoc; try eassumption.
  - eapply grows_trans; [exact H6|]. split; try apply G3; auto.
    + rewrite (gr_cnext _ _ _ _ _ G3); lia.
    + intros c _. apply (addEdge_kept _ _ _ _ _ G1).
  - apply (x_cfg _ _ HX); exact H7.
Qed.
Lemma good_addNodeAndEdgeTo s b p : good s -> OK p -> config_of s b (e_end V p) ->
  exists n t, addNodeAndEdgeTo s (e_init V p) b p = Ok (n, t) /\ good t /\ grows s t /\ config_of t n (e_init V p).
Proof.
  intros HG HO Ha. assert (HI := good_inv s HG). destruct HG as [HB HE].
  destruct (cof_node _ _ _ HI Ha) as [nd [H1 H2]].
  destruct (good_addNodeIn s (e_init V p) (ncc nd) HI HE H2) as [n [t [H3 [H4 [H5 [H6 H7]]]]]].
  assert (Ha' := grows_cfg _ _ _ _ H6 Ha).
  destruct (addEdge_spec t n b p H4 (cfg_in _ _ _ H4 H7) (cfg_in _ _ _ H4 Ha')) as [u [r [G1 [G2 [G3 [G4 _]]]]]].
  assert (HX := grown_extends _ _ _ _ _ G3).
  assert (EQ : addNodeAndEdgeTo s (e_init V p) b p = Ok (n, u)).
  { unfold RoadmapModel.addNodeAndEdgeTo. rewrite H1, H3; cbn [bind]. rewrite G1; reflexivity. }
  exists n, u. split; [exact EQ|]. split; [|split].
  - split.
    + eapply built_step with (o := OAddNodeAndEdgeTo (e_init V p) b p); [exact HB|discriminate|]. cbn [step]. rewrite EQ; reflexivity.
    + eapply edges_ok_snoc; try eassumption.
  - eapply grows_trans; [exact H6|]. split; try apply G3; auto.
    + rewrite (gr_cnext _ _ _ _ _ G3); lia.
    + intros c _. apply (addEdge_kept _ _ _ _ _ G1).
  - apply (x_cfg _ _ HX); exact H7.
Qed.
(* addEdges is the two addEdge, up to the order of the registrations *)
Lemma addEdges_kept s a b p t : addEdges s a b p = Ok t -> kept (cinfo s) (cinfo t).
Proof.
  unfold RoadmapModel.addEdges. destruct (ninfo s a) eqn:E1; [|discriminate]. destruct (ninfo s b) eqn:E2; [|discriminate].
  intro H. destruct (impl_addEdge _ (mkEdge a b p)) as [s1| | |] eqn:E3; cbn [bind] in H; try discriminate.
  assert (K1 : kept (cinfo s) (cinfo s1)).
  { unfold impl_addEdge in E3. cbn [set_edges ninfo efrom eto] in E3.
    destruct (ninfo (registerIn (registerOut s (mkEdge a b p)) (mkEdge a b p)) a); [|discriminate].
    destruct (ninfo (registerIn (registerOut s (mkEdge a b p)) (mkEdge a b p)) b); [|discriminate].
    apply connect_kept in E3. exact E3. }
  eapply kept_trans; [exact K1|].
  unfold impl_addEdge in H. cbn [set_edges ninfo efrom eto] in H.
  destruct (ninfo (registerOut (registerIn s1 (mkEdge b a (prev p))) (mkEdge b a (prev p))) b); [|discriminate].
  destruct (ninfo (registerOut (registerIn s1 (mkEdge b a (prev p))) (mkEdge b a (prev p))) a); [|discriminate].
  apply connect_kept in H. exact H.
Qed.
Lemma ok_two s t a b p : edges t = edges s ++ [mkEdge a b p; mkEdge b a (prev p)] -> extends s t -> edges_ok s ->
  OK p -> config_of s a (e_init V p) -> config_of s b (e_end V p) -> edges_ok t.
Proof.
  intros HE HX H H1 H2 H3 e He. rewrite HE in He. apply in_app_iff in He as [He|[<-|[<-|[]]]]; cbn [epath efrom eto].
  - destruct (H e He) as [X1 [X2 X3]]. split; [exact X1|]. split; apply (x_cfg _ _ HX); assumption.
  - split; [exact H1|]. split; apply (x_cfg _ _ HX); assumption.
  - destruct (HENDS p) as [-> ->]. split; [apply HREV; exact H1|]. split; apply (x_cfg _ _ HX); assumption.
Qed.
Lemma good_addEdges s a b p : good s -> OK p -> config_of s a (e_init V p) -> config_of s b (e_end V p) ->
  exists t, addEdges s a b p = Ok t /\ good t /\ grows s t.
Proof.
  intros HG HO Ha Hb. assert (HI := good_inv s HG). destruct HG as [HB HE].
  destruct (addEdges_spec prev s a b p HI (cfg_in _ _ _ HI Ha) (cfg_in _ _ _ HI Hb))
    as [s1 [t [r1 [r2 [H1 [H2 [H3 [H4 [H5 [H6 _]]]]]]]]]].
  assert (HX : extends s t) by (eapply extends_trans; eapply grown_extends; eassumption).
  exists t. split; [exact H1|]. split.
  - split.
    + eapply built_step with (o := OAddEdges a b p); [exact HB|discriminate|exact H1].
    + eapply ok_two; eassumption.
  - split; auto.
    + rewrite (gr_cnext _ _ _ _ _ H5), (gr_cnext _ _ _ _ _ H4); lia.
    + intros c _. apply (addEdges_kept _ _ _ _ _ H1).
    + rewrite (gr_init _ _ _ _ _ H5), (gr_init _ _ _ _ _ H4); reflexivity.
    + rewrite (gr_goals _ _ _ _ _ H5), (gr_goals _ _ _ _ _ H4); reflexivity.
Qed.
Lemma good_addNodeAndEdges s a p : good s -> OK p -> config_of s a (e_init V p) ->
  exists n t, addNodeAndEdges s a (e_end V p) p = Ok (n, t) /\ good t /\ grows s t /\ config_of t n (e_end V p).
Proof.
  intros HG HO Ha. assert (HI := good_inv s HG). destruct HG as [HB HE].
  destruct (cof_node _ _ _ HI Ha) as [nd [H1 H2]].
  destruct (good_addNodeIn s (e_end V p) (ncc nd) HI HE H2) as [n [t [H3 [H4 [H5 [H6 H7]]]]]].
  assert (Ha' := grows_cfg _ _ _ _ H6 Ha).
  destruct (addEdges_spec prev t a n p H4 (cfg_in _ _ _ H4 Ha') (cfg_in _ _ _ H4 H7))
    as [t1 [u [r1 [r2 [G1 [G2 [G3 [G4 [G5 [G6 _]]]]]]]]]].
  assert (HX : extends t u) by (eapply extends_trans; eapply grown_extends; eassumption).
  assert (EQ : addNodeAndEdges s a (e_end V p) p = Ok (n, u)).
  { unfold RoadmapModel.addNodeAndEdges. rewrite H1, H3; cbn [bind]. rewrite G1; reflexivity. }
  exists n, u. split; [exact EQ|]. split; [|split].
  - split.
    + eapply built_step with (o := OAddNodeAndEdges a (e_end V p) p); [exact HB|discriminate|]. cbn [step]. rewrite EQ; reflexivity.
    + eapply ok_two; eassumption.
  - eapply grows_trans; [exact H6|]. split; auto.
    + rewrite (gr_cnext _ _ _ _ _ G5), (gr_cnext _ _ _ _ _ G4); lia.
    + intros c _. apply (addEdges_kept _ _ _ _ _ G1).
    + rewrite (gr_init _ _ _ _ _ G5), (gr_init _ _ _ _ _ G4); reflexivity.
    + rewrite (gr_goals _ _ _ _ _ G5), (gr_goals _ _ _ _ _ G4); reflexivity.
  - apply (x_cfg _ _ HX); exact H7.
Qed.
End S.
