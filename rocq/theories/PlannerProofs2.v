(* The steps of the planners keep the edges sound and never crash. *)
From Verif Require Import Base Reach RoadmapModel RoadmapSpec RoadmapProofs RoadmapProofs2 RoadmapProofs3.
From Verif Require Import PlannerModel PlannerSpec PlannerProofs.

Definition fine {A} (r : res A) (Q : A -> Prop) : Prop :=
  match r with Ok a => Q a | Throw => True | UB => False | Fuel => False end.
Lemma fine_bind {A B} (r : res A) (f : A -> res B) (Q : A -> Prop) (R : B -> Prop) :
  fine r Q -> (forall a, Q a -> fine (f a) R) -> fine (bind r f) R.
Proof. destruct r; cbn [fine bind]; auto. Qed.
Lemma fine_mono {A} (r : res A) (Q R : A -> Prop) : fine r Q -> (forall a, Q a -> R a) -> fine r R.
Proof. destruct r; cbn [fine]; auto. Qed.
Lemma fine_ok {A} (a : A) (Q : A -> Prop) : Q a -> fine (Ok a) Q.
Proof. auto. Qed.

Section S.
Context {C P : Type}.
Notation rmS := (rm C P).
Implicit Types s t : rmS.
Variable ceqb : C -> C -> bool.
Variable dist : C -> C -> Q.
Variable plen : P -> Q.
Variable prev : P -> P.
Variable V : env C P.
Hypothesis HH : honest ceqb prev V.
Hypothesis HW : answers V.

Notation inv := (@inv C P).
Notation certified := (certified prev V).
Notation projected := (projected prev V).
Notation addNode := (addNode C P ceqb dist).
Notation addNodeAndEdges := (addNodeAndEdges C P ceqb dist prev).
Notation addNodeAndEdge := (addNodeAndEdge C P ceqb dist).
Notation addNodeAndEdgeTo := (addNodeAndEdgeTo C P ceqb dist).
Notation nn_search := (nn_search C P dist).
Notation near_node := (near_node C P dist).
Notation cfgN := (cfgN C P).
Notation ccN := (ccN C P).

(* a node, a component with a node *)
Definition isn s n : Prop := exists q, config_of s n q.
Definition inhab s c : Prop := c < cnext s /\ exists m, In m (cnodes (cinfo s c)) /\ isn s m.
Lemma isn_grows s t n : grows s t -> isn s n -> isn t n.
Proof. intros H [q Hq]; exists q; eapply grows_cfg; eassumption. Qed.
Lemma inhab_grows s t c : grows s t -> inhab s c -> inhab t c.
Proof.
  intros H [H1 [m [H2 H3]]]. split; [pose proof (g_next _ _ H); lia|]. exists m; split; [|eapply isn_grows; eassumption].
  apply (g_kept _ _ H); assumption.
Qed.
Lemma live_inhab s c : inv s -> In c (live s) -> inhab s c.
Proof.
  intros HI Hc. pose proof (w_N _ (i_wf _ HI)) as HN. split; [apply (n_clt _ HN _ Hc)|].
  pose proof (n_ne _ HN c Hc) as H. destruct (cnodes (cinfo s c)) as [|a l] eqn:E; [congruence|].
  exists a; split; [left; reflexivity|]. destruct (n_of _ HN c a Hc) as [nd [H1 _]]; [rewrite E; left; reflexivity|].
  exists (ncfg nd), nd; auto.
Qed.
Lemma nn_fold s rev q l : forall acc, (forall n d, acc = Some (n, d) -> isn s n) ->
  (acc <> None \/ exists m, In m l /\ isn s m) ->
  exists n d, fold_left (nn_step C P dist s rev q) l acc = Some (n, d) /\ isn s n.
Proof.
  induction l as [|x l IH]; intros acc H1 H2; cbn [fold_left].
  - destruct H2 as [H2|[m [[] _]]]. destruct acc as [[n d]|]; [|congruence]. exists n, d; eauto.
  - apply IH.
    + intros n d. unfold nn_step. destruct (ninfo s x) as [nd|] eqn:E; [|apply H1].
      assert (isn s x) by (exists (ncfg nd), nd; auto).
      destruct acc as [[n0 d0]|]; [destruct (Qlt_le_dec _ _)|]; intro X; inversion X; subst; eauto.
    + unfold nn_step. destruct (ninfo s x) as [nd|] eqn:E.
      * left. destruct acc as [[n0 d0]|]; [destruct (Qlt_le_dec _ _)|]; discriminate.
      * destruct H2 as [H2|[m [[->|Hm] Hn]]]; [auto| |right; eauto].
        destruct Hn as [c [nd [X _]]]; congruence.
Qed.
Lemma near_ok s rev q c : inhab s c -> exists n, near_node s rev q c = Ok n /\ isn s n.
Proof.
  intros [_ [m [H1 H2]]]. unfold PlannerModel.near_node, RoadmapModel.nn_search.
  destruct (nn_fold s rev q (cnodes (cinfo s c)) None) as [n [d [-> H]]]; [discriminate|right; eauto|].
  exists n; auto.
Qed.
Lemma cfg_ok s n q : config_of s n q -> cfgN s n = Ok q.
Proof. intros [nd [H1 H2]]. unfold PlannerModel.cfgN. rewrite H1, H2; reflexivity. Qed.
Lemma cc_ok s n : inv s -> isn s n -> exists c, ccN s n = Ok c /\ In c (live s).
Proof.
  intros HI [q Hq]. destruct (cof_node _ _ _ HI Hq) as [nd [H1 H2]]. exists (ncc nd). unfold PlannerModel.ccN.
  rewrite H1; auto.
Qed.

(* ------------------------------------------------------------ certification *)
Definition OKP (p : P) : Prop := certified p /\ (e_proj V <> None -> projected p).
Lemma OKP_rev p : OKP p -> OKP (prev p).
Proof. intros [H1 H2]; split; [apply cert_rev; exact H1|intro H; apply proj_rev; auto]. Qed.
Lemma cert_rev' p : certified p -> certified (prev p).
Proof. apply cert_rev. Qed.

Lemma try_path_ok q1 q2 : fine (try_path C P plen V q1 q2)
  (fun r => forall p, r = Some p -> OKP p /\ e_init V p = q1 /\ e_end V p = q2).
Proof.
  unfold try_path. destruct (e_sm V q1 q2) as [p|] eqn:E1; [|apply fine_ok; discriminate].
  apply (h_sm _ _ _ HH) in E1 as [E1 E2].
  assert (K : forall p', (e_proj V = None /\ p' = p) \/ (exists f, e_proj V = Some f /\ f p = (true, Some p')) ->
     fine (match e_val V p' false with (false, _) => Ok None | (true, None) => UB
           | (true, Some v) => if Qlt_le_dec 0 (plen v) then Ok (Some p') else Ok None end)
       (fun r => forall p, r = Some p -> OKP p /\ e_init V p = q1 /\ e_end V p = q2)).
  { intros p' Hp'. destruct (e_val V p' false) as [[|] [v|]] eqn:E3; try (apply fine_ok; discriminate).
    - destruct (Qlt_le_dec 0 (plen v)); apply fine_ok; [|discriminate].
      intros x Hx; inversion Hx; subst x. split.
      + split; [eapply cert_whole; exact E3|]. intro Hn. destruct Hp' as [[Hp' _]|[f [F1 F2]]]; [contradiction|].
        eapply proj_out; eassumption.
      + destruct Hp' as [[_ ->]|[f [F1 F2]]]; [auto|].
        rewrite (h_proj _ _ _ HH _ _ _ _ F1 F2), (h_proj_ok _ _ _ HH _ _ _ F1 F2); auto.
    - exfalso. apply (w_val _ HW p' false). rewrite E3; reflexivity. }
  destruct (e_proj V) as [f|] eqn:E3.
  - destruct (f p) as [[|] [p'|]] eqn:E4; cbv iota zeta; try (apply fine_ok; discriminate).
    apply K. right; eauto.
  - cbv iota zeta. apply K. auto.
Qed.

Notation good := (good ceqb dist plen prev V).
Definition step_ok (OK : P -> Prop) s (r : res rmS) : Prop := fine r (fun t => good OK t /\ grows s t).

Lemma step_bind OK s (r : res rmS) f : step_ok OK s r ->
  (forall t, good OK t -> grows s t -> step_ok OK t (f t)) -> step_ok OK s (bind r f).
Proof.
  intros H1 H2. eapply fine_bind; [exact H1|]. intros t [Hg Hgr]. eapply fine_mono; [apply H2; assumption|].
  intros u [X Y]; split; [exact X|eapply grows_trans; eassumption].
Qed.

Section OK.
Variable OK : P -> Prop.
Hypothesis HR : forall p, OK p -> OK (prev p).
Notation good := (good OK).

Lemma o_addEdge s a b p : good s -> OK p -> config_of s a (e_init V p) -> config_of s b (e_end V p) ->
  step_ok OK s (addEdge s a b p).
Proof.
  intros H1 H2 H3 H4.
  destruct (good_addEdge ceqb dist plen prev V OK s a b p H1 H2 H3 H4) as [t [-> [X Y]]]. split; assumption.
Qed.
Lemma o_edges2 s a b p : good s -> OK p -> config_of s a (e_init V p) -> config_of s b (e_end V p) ->
  step_ok OK s (bind (addEdge s a b p) (fun s1 => addEdge s1 b a (prev p))).
Proof.
  intros H1 H2 H3 H4. apply step_bind; [apply o_addEdge; assumption|].
  intros t Hg Hgr. destruct (h_prev _ _ _ HH p) as [X Y].
  apply o_addEdge; [exact Hg|auto| |].
  - rewrite X. eapply grows_cfg; eassumption.
  - rewrite Y. eapply grows_cfg; eassumption.
Qed.
Lemma add_edges_ok l : forall s, good s ->
  (forall a b p, In (a, b, p) l -> OK p /\ config_of s a (e_init V p) /\ config_of s b (e_end V p)) ->
  step_ok OK s (add_edges C P s l).
Proof.
  induction l as [|[[a b] p] l IH]; intros s HG HL; cbn [add_edges].
  - split; [exact HG|apply grows_refl].
  - destruct (HL a b p) as [H1 [H2 H3]]; [left; reflexivity|].
    apply step_bind; [apply o_addEdge; assumption|]. intros t Hg Hgr. apply IH; [exact Hg|].
    intros x y z Hz. destruct (HL x y z) as [X1 [X2 X3]]; [right; exact Hz|].
    split; [exact X1|]. split; eapply grows_cfg; eassumption.
Qed.
End OK.

(* --------------------------------------------------- tryConnectInitAndGoals *)
Section TC.
Variable OK : P -> Prop.
Hypothesis HOKP : forall p, OKP p -> OK p.
Notation good := (good OK).

Definition fut_ok s (l : list (nat * nat * P)) : Prop :=
  forall a b p, In (a, b, p) l -> OK p /\ config_of s a (e_init V p) /\ config_of s b (e_end V p).
Lemma future_ok s n qn c0 fwd ccs : config_of s n qn -> (forall c, In c ccs -> inhab s c) ->
  fine (future C P dist plen V s n qn c0 fwd ccs) (fut_ok s).
Proof.
  intros Hn. induction ccs as [|cc ccs IH]; intro HC; cbn [future].
  - apply fine_ok. intros a b p [].
  - assert (IH' : fine (future C P dist plen V s n qn c0 fwd ccs) (fut_ok s)) by (apply IH; intros; apply HC; right; assumption).
    destruct (cc =? c0); [exact IH'|].
    destruct (near_ok s fwd qn cc) as [m [-> [qm Hm]]]; [apply HC; left; reflexivity|]. cbn [bind].
    rewrite (cfg_ok _ _ _ Hm); cbn [bind].
    apply fine_bind with (Q := fun r => forall p, r = Some p -> OK p /\
       e_init V p = (if fwd then qn else qm) /\ e_end V p = (if fwd then qm else qn)).
    { destruct fwd.
      - eapply fine_mono; [apply try_path_ok|]. cbv beta. intros r Hr p Hp. destruct (Hr p Hp) as [X1 X2]; auto.
      - eapply fine_mono; [apply try_path_ok|]. cbv beta. intros r Hr p Hp. destruct (Hr p Hp) as [X1 X2]; auto. }
    intros r Hr. eapply fine_bind; [exact IH'|]. intros l Hl. apply fine_ok.
    destruct r as [p|]; [|exact Hl]. destruct (Hr p eq_refl) as [X1 [X2 X3]].
    intros a b p' Hin. destruct fwd; (destruct Hin as [Hin|Hin]; [injection Hin as <- <- <-; rewrite X2, X3; auto|apply Hl; exact Hin]).
Qed.
Lemma future_goals_ok s gs : inv s -> (forall g, In g gs -> isn s g) ->
  fine (future_goals C P dist plen V s gs) (fut_ok s).
Proof.
  intros HI. induction gs as [|g gs IH]; intro HG; cbn [future_goals].
  - apply fine_ok. intros a b p [].
  - destruct (HG g) as [qg Hg]; [left; reflexivity|]. rewrite (cfg_ok _ _ _ Hg); cbn [bind].
    destruct (cc_ok s g HI) as [c [-> Hc]]; [exists qg; exact Hg|]. cbn [bind].
    eapply fine_bind; [apply future_ok; [exact Hg|intros; apply live_inhab; assumption]|].
    intros l1 H1. eapply fine_bind; [apply IH; intros; apply HG; right; assumption|].
    intros l2 H2. apply fine_ok. intros a b p Hin. apply in_app_iff in Hin as [Hin|Hin]; [apply H1|apply H2]; exact Hin.
Qed.
Lemma nodes_isn s n : inv s -> In n (nodes s) -> isn s n.
Proof.
  intros HI Hn. apply (n_def _ (w_N _ (i_wf _ HI))) in Hn. destruct (ninfo s n) as [nd|] eqn:E; [|congruence].
  exists (ncfg nd), nd; auto.
Qed.
Lemma try_connect_ok s : good s -> initN s <> None -> step_ok OK s (try_connect C P dist plen V s).
Proof.
  intros HG Hi. pose proof (good_inv ceqb dist plen prev V OK s HG) as HI. unfold try_connect.
  destruct (initN s) as [i|] eqn:Ei; [|congruence].
  destruct (nodes_isn s i HI) as [qi Hq]; [apply (proj1 (i_R _ HI)); exact Ei|].
  rewrite (cfg_ok _ _ _ Hq); cbn [bind].
  destruct (cc_ok s i HI) as [c [-> Hc]]; [exists qi; exact Hq|]. cbn [bind].
  eapply fine_bind; [apply future_ok; [exact Hq|intros; apply live_inhab; assumption]|].
  intros l1 H1. eapply fine_bind; [apply future_goals_ok; [exact HI|]|].
  { intros g Hg. apply nodes_isn; [exact HI|]. apply (i_R _ HI); exact Hg. }
  intros l2 H2. apply add_edges_ok; [exact HG|].
  intros a b p Hin. apply in_app_iff in Hin as [Hin|Hin]; [apply H1|apply H2]; exact Hin.
Qed.
End TC.

(* ---------------------------------------------------------- DiffusingPlanner *)
Definition out (p : P) : Prop := e_proj V <> None -> projected p.
Lemma diff_extend_ok sl qn q : fine (diff_extend C P plen V sl qn q)
  (fun r => forall p, r = Some p -> e_init V p = qn /\ out p).
Proof.
  unfold diff_extend. destruct (match e_con V with None => Some q | Some f => f qn q end) as [qp|]; [|apply fine_ok; discriminate].
  destruct (e_sm V qn qp) as [p|] eqn:E1; [|apply fine_ok; discriminate].
  apply (h_sm _ _ _ HH) in E1 as [E1 _].
  apply fine_bind with (Q := fun p1 => e_init V p1 = qn).
  - assert (K : fine (Ok p) (fun p1 => e_init V p1 = qn)) by exact E1.
    destruct (Qlt_le_dec 0 sl); [|exact K]. destruct (Qlt_le_dec sl (plen p)); [|exact K].
    destruct (w_cut _ HW p sl) as [W1 W2]. destruct (e_cut V p sl) as [p1| | |] eqn:E2; cbn [fine]; auto.
    rewrite (h_cut _ _ _ HH _ _ _ E2). exact E1.
  - intros p1 H1. apply fine_ok. intros p2 H2. unfold out. destruct (e_proj V) as [f|] eqn:E3.
    + destruct (f p1) as [b r] eqn:E4. cbn [snd] in H2. subst r.
      rewrite (h_proj _ _ _ HH _ _ _ _ E3 E4). split; [exact H1|]. intros _. eapply proj_out; eassumption.
    + inversion H2; subst p2. split; [exact H1|congruence].
Qed.
Lemma belongs_ok s q l : (forall n, In n l -> isn s n) -> fine (belongs C P ceqb s q l) (fun _ => True).
Proof.
  induction l as [|n l IH]; intro H; cbn [belongs]; [exact I|].
  destruct (H n) as [qn Hn]; [left; reflexivity|]. rewrite (cfg_ok _ _ _ Hn); cbn [bind].
  destruct (ceqb qn q); [exact I|]. apply IH. intros; apply H; right; assumption.
Qed.
Definition dl_ok (OK : P -> Prop) s (dl : list (nat * C * P)) : Prop := forall n q p, In (n, q, p) dl ->
  config_of s n (e_init V p) /\ q = e_end V p /\ OK p.
Lemma dl_grows OK s t dl : grows s t -> dl_ok OK s dl -> dl_ok OK t dl.
Proof. intros H K n q p Hin. destruct (K n q p Hin) as [X1 X2]; split; [eapply grows_cfg; eassumption|exact X2]. Qed.

Section Diff.
Variable OK : P -> Prop.
Hypothesis HOKP : forall p, OKP p -> OK p.
Hypothesis HR : forall p, OK p -> OK (prev p).
Notation goodP := (good OK).
Notation phase1 := (diff_phase1 C P ceqb dist plen prev V).
Lemma diff_phase1_ok sl ratio q ccs : forall s new near dl, goodP s -> (forall c, In c ccs -> inhab s c) ->
  (forall n, In n new -> isn s n) -> (forall n, In n near -> isn s n) -> dl_ok OK s dl ->
  fine (phase1 sl ratio q ccs s new near dl) (fun '(t, new', near', dl') => goodP t /\ grows s t /\
    (forall n, In n new' -> isn t n) /\ (forall n, In n near' -> isn t n) /\ dl_ok OK t dl').
Proof.
  induction ccs as [|cc ccs IH]; intros s new near dl HG HC Hnew Hnear Hdl; cbn [diff_phase1].
  - apply fine_ok. split; [exact HG|]. split; [apply grows_refl|]. auto.
  - destruct (near_ok s false q cc) as [n [-> Hn]]; [apply HC; left; reflexivity|]. cbn [bind].
    pose proof Hn as [qn Hqn]. rewrite (cfg_ok _ _ _ Hqn); cbn [bind].
    assert (HC' : forall c, In c ccs -> inhab s c) by (intros; apply HC; right; assumption).
    assert (Hnear' : forall m, In m (near ++ [n]) -> isn s m).
    { intros m Hm. apply in_app_iff in Hm as [Hm|[<-|[]]]; auto. }
    eapply fine_bind; [apply diff_extend_ok|]. intros r Hr.
    destruct r as [p|]; [|apply IH; assumption].
    destruct (Hr p eq_refl) as [Hi Ho].
    destruct (e_val V p false) as [valid [v|]] eqn:Ev.
    2: { exfalso. apply (w_val _ HW p false). rewrite Ev; reflexivity. }
    assert (Hvi : e_init V v = qn) by (rewrite (h_val_fwd _ _ _ HH _ _ _ Ev); exact Hi).
    assert (Hvo : OKP v).
    { split; [eapply cert_part; exact Ev|]. intro X. eapply proj_part; [apply Ho; exact X|exact Ev]. }
    destruct (Qeq_bool (e_t1 V v) (e_t0 V p)); [apply IH; assumption|].
    apply fine_bind with (Q := fun w => OKP w /\ e_init V w = qn).
    { assert (K : fine (Ok v) (fun w => OKP w /\ e_init V w = qn)) by (split; assumption).
      destruct (negb valid && negb (Qle_bool ratio 0) && negb (Qle_bool 1 ratio))%bool; [|exact K].
      destruct (w_cut _ HW v (plen v * ratio)%Q) as [W1 W2]. destruct (e_cut V v (plen v * ratio)%Q) as [w| | |] eqn:E2; cbn [fine]; auto.
      rewrite (h_cut _ _ _ HH _ _ _ E2). split; [|exact Hvi]. destruct Hvo as [K1 K2].
      split; [eapply cert_cut; eassumption|]. intro X; eapply proj_cut; [apply K2; exact X|exact E2]. }
    intros w [Hw1 Hw2].
    apply fine_bind with (Q := fun _ => True).
    { destruct valid; [apply belongs_ok; exact Hnew|exact I]. }
    intros b _. destruct b.
    + apply IH; try assumption. intros m q' p' Hin. apply in_app_iff in Hin as [Hin|[Hin|[]]]; [apply Hdl; exact Hin|].
      injection Hin as <- <- <-. rewrite Hw2. auto.
    + destruct (good_addNodeAndEdges ceqb dist plen prev V OK (h_eq _ _ _ HH) HR (h_prev _ _ _ HH) s n w HG (HOKP _ Hw1))
        as [m [t [-> [T1 [T2 T3]]]]]; [rewrite Hw2; exact Hqn|]. cbn [bind].
      eapply fine_mono; [apply IH|].
      * exact T1.
      * intros c Hc; eapply inhab_grows; [exact T2|auto].
      * intros k Hk. apply in_app_iff in Hk as [Hk|[<-|[]]]; [eapply isn_grows; [exact T2|auto]|eexists; exact T3].
      * intros k Hk. eapply isn_grows; [exact T2|auto].
      * eapply dl_grows; eassumption.
      * intros [[[u a1] a2] a3] [U1 [U2 U3]]. split; [exact U1|]. split; [eapply grows_trans; eassumption|exact U3].
Qed.
Lemma add_delayed_ok dl : forall s, good OK s -> dl_ok OK s dl ->
  step_ok OK s (add_delayed C P ceqb dist prev s dl).
Proof.
  induction dl as [|[[n q] p] dl IH]; intros s HG Hdl; cbn [add_delayed].
  - split; [exact HG|apply grows_refl].
  - destruct (Hdl n q p) as [H1 [H2 H3]]; [left; reflexivity|].
    destruct (good_addNode ceqb dist plen prev V OK (h_eq _ _ _ HH) s q HG) as [m [s1 [-> [T1 [T2 T3]]]]]. cbn [bind].
    assert (K : step_ok OK s1 (bind (bind (addEdge s1 n m p) (fun s2 => addEdge s2 m n (prev p)))
                  (fun s3 => add_delayed C P ceqb dist prev s3 dl))).
    { apply step_bind.
      - apply o_edges2; [exact HR|exact T1|exact H3|eapply grows_cfg; eassumption|rewrite <- H2; exact T3].
      - intros t Hg Hgr. apply IH; [exact Hg|]. eapply dl_grows; [exact Hgr|]. eapply dl_grows; [exact T2|].
        intros x y z Hz; apply Hdl; right; exact Hz. }
    destruct (addEdge s1 n m p) as [s2| | |]; cbn [bind] in K |- *; try exact K.
    eapply fine_mono; [exact K|]. intros u [U1 U2]. split; [exact U1|eapply grows_trans; eassumption].
Qed.
Lemma diff_link_ok s n1 n2 : goodP s -> isn s n1 -> isn s n2 ->
  step_ok OK s (diff_link C P ceqb dist plen prev V s n1 n2).
Proof.
  intros HG [q1 H1] [q2 H2]. unfold diff_link. rewrite (cfg_ok _ _ _ H1), (cfg_ok _ _ _ H2); cbn [bind].
  assert (K0 : step_ok OK s (Ok s)) by (split; [exact HG|apply grows_refl]).
  destruct (e_sm V q1 q2) as [p|] eqn:E1; [|exact K0]. apply (h_sm _ _ _ HH) in E1 as [E1 E2].
  assert (K : forall b r, match e_proj V with None => (true, Some p) | Some f => f p end = (b, r) ->
     (b = true -> r <> None) /\ forall p', b = true -> r = Some p' -> e_init V p' = q1 /\ e_end V p' = q2 /\ out p').
  { intros b r. unfold out. destruct (e_proj V) as [f|] eqn:E3; intro Hr.
    - split; [intros -> ->; apply (w_proj _ HW f p E3 Hr)|]. intros p' -> ->.
      rewrite (h_proj _ _ _ HH _ _ _ _ E3 Hr), (h_proj_ok _ _ _ HH _ _ _ E3 Hr). split; [exact E1|split; [exact E2|]].
      intros _; eapply proj_out; eassumption.
    - inversion Hr; subst. split; [discriminate|]. intros p' _ X; inversion X; subst. split; [reflexivity|split; [reflexivity|]]. congruence. }
  destruct (match e_proj V with None => (true, Some p) | Some f => f p end) as [b r] eqn:E3.
  destruct (K b r eq_refl) as [K1 K2]. destruct b; [|exact K0].
  destruct r as [p'|]; [|exfalso; apply K1; reflexivity].
  destruct (K2 p' eq_refl eq_refl) as [P1 [P2 P3]].
  destruct (e_val V p' false) as [[|] r] eqn:E4.
  - apply o_edges2; [exact HR|exact HG|apply HOKP; split; [eapply cert_whole; exact E4|exact P3]| |]; rewrite ?P1, ?P2; assumption.
  - destruct r as [v|]; [|exact K0]. destruct (Qlt_le_dec 0 (plen v)); [|exact K0].
    destruct (good_addNodeAndEdges ceqb dist plen prev V OK (h_eq _ _ _ HH) HR (h_prev _ _ _ HH) s n1 v HG)
        as [m [t [-> [T1 [T2 T3]]]]].
    + apply HOKP. split; [eapply cert_part; exact E4|]. intro X. eapply proj_part; [apply P3; exact X|exact E4].
    + rewrite (h_val_fwd _ _ _ HH _ _ _ E4), P1. exact H1.
    + cbn [bind]. split; assumption.
Qed.
Lemma diff_links_ok n1 l : forall s, goodP s -> isn s n1 -> (forall n, In n l -> isn s n) ->
  step_ok OK s (diff_links C P ceqb dist plen prev V s n1 l).
Proof.
  induction l as [|n2 l IH]; intros s HG H1 HL; cbn [diff_links].
  - split; [exact HG|apply grows_refl].
  - apply step_bind; [apply diff_link_ok; auto; apply HL; left; reflexivity|].
    intros t Hg Hgr. apply IH; [exact Hg|eapply isn_grows; eassumption|].
    intros; eapply isn_grows; [exact Hgr|apply HL; right; assumption].
Qed.
Lemma diff_links_cc_ok n1 cc1 l : forall s, goodP s -> isn s n1 -> (forall n, In n l -> isn s n) ->
  step_ok OK s (diff_links_cc C P ceqb dist plen prev V s n1 cc1 l).
Proof.
  induction l as [|n2 l IH]; intros s HG H1 HL; cbn [diff_links_cc].
  - split; [exact HG|apply grows_refl].
  - assert (H2 : isn s n2) by (apply HL; left; reflexivity).
    destruct (cc_ok s n2 (good_inv _ _ _ _ _ _ _ HG) H2) as [c2 [-> _]]. cbn [bind].
    destruct (c2 =? cc1); [apply IH; auto; intros; apply HL; right; assumption|].
    apply step_bind; [apply diff_link_ok; assumption|].
    intros t Hg Hgr. apply IH; [exact Hg|eapply isn_grows; eassumption|].
    intros; eapply isn_grows; [exact Hgr|apply HL; right; assumption].
Qed.
Lemma diff_phase3_ok near new : forall s, goodP s -> (forall n, In n new -> isn s n) -> (forall n, In n near -> isn s n) ->
  step_ok OK s (diff_phase3 C P ceqb dist plen prev V s new near).
Proof.
  induction new as [|n1 new IH]; intros s HG H1 H2; cbn [diff_phase3].
  - split; [exact HG|apply grows_refl].
  - assert (Hn : isn s n1) by (apply H1; left; reflexivity).
    apply step_bind; [apply diff_links_ok; auto; intros; apply H1; right; assumption|].
    intros t Hg Hgr. destruct (cc_ok t n1 (good_inv _ _ _ _ _ _ _ Hg)) as [c [-> _]]; [eapply isn_grows; eassumption|]. cbn [bind].
    apply step_bind.
    { apply diff_links_cc_ok; [exact Hg|eapply isn_grows; eassumption|intros; eapply isn_grows; [exact Hgr|auto]]. }
    intros u Hu Hgu. assert (Hsu : grows s u) by (eapply grows_trans; eassumption).
    apply IH; [exact Hu| |]; intros; eapply isn_grows; [exact Hsu|apply H1; right; assumption|exact Hsu|auto].
Qed.
Lemma diff_step_ok sl ratio s q : goodP s -> step_ok OK s (diff_step C P ceqb dist plen prev V sl ratio s q).
Proof.
  intro HG. pose proof (good_inv _ _ _ _ _ _ _ HG) as HI. unfold diff_step.
  eapply fine_bind; [apply diff_phase1_ok; [exact HG|intros; apply live_inhab; assumption|intros n []|intros n []|intros n x p []]|].
  intros [[[t new] near] dl] [T1 [T2 [T3 [T4 T5]]]].
  assert (K : step_ok OK t (bind (add_delayed C P ceqb dist prev t dl)
                (fun s2 => diff_phase3 C P ceqb dist plen prev V s2 new near))).
  { apply step_bind; [apply add_delayed_ok; [exact T1|exact T5]|].
    intros u Hu Hgu. apply diff_phase3_ok; [exact Hu| |]; intros; eapply isn_grows; eauto. }
  eapply fine_mono; [exact K|]. intros u [U1 U2]. split; [exact U1|eapply grows_trans; eassumption].
Qed.

End Diff.

(* -------------------------------------------------------- VisibilityPrmPlanner *)
Notation goodC := (good certified).
Definition vis_ok s (q : C) (r : option (nat * P)) : Prop := forall n p, r = Some (n, p) ->
  certified p /\ e_init V p = q /\ config_of s n (e_end V p).
Lemma visible_ok s guard q ns : forall best, (forall n, In n ns -> isn s n) -> vis_ok s q best ->
  fine (visible C P plen V s guard q ns best) (vis_ok s q).
Proof.
  induction ns as [|n ns IH]; intros best Hns Hb; cbn [visible]; [exact Hb|].
  assert (Hns' : forall m, In m ns -> isn s m) by (intros; apply Hns; right; assumption).
  destruct (guard n); [|apply IH; assumption].
  destruct (Hns n) as [qn Hn]; [left; reflexivity|]. rewrite (cfg_ok _ _ _ Hn); cbn [bind].
  destruct (e_sm V q qn) as [p|] eqn:E1; [|apply IH; assumption].
  apply (h_sm _ _ _ HH) in E1 as [E1 E2].
  destruct (e_val V p false) as [b v] eqn:E3. destruct b; cbn [fst]; [|apply IH; assumption].
  apply IH; [exact Hns'|].
  assert (K : vis_ok s q (Some (n, p))).
  { intros n' p' X; inversion X; subst. split; [eapply cert_whole; exact E3|auto]. }
  destruct best as [[n0 p0]|]; [destruct (Qlt_le_dec _ _)|]; assumption.
Qed.
Lemma vis_all_ok s guard q ccs : (forall c, In c ccs -> In c (live s)) -> inv s ->
  fine (vis_all C P plen prev V s guard q ccs) (dl_ok certified s).
Proof.
  intros HC HI. induction ccs as [|cc ccs IH]; cbn [vis_all]; [intros n x p []|].
  apply fine_bind with (Q := vis_ok s q).
  { apply visible_ok; [|intros n p X; discriminate]. intros n Hn.
    destruct (n_of _ (w_N _ (i_wf _ HI)) cc n) as [nd [X _]]; [apply HC; left; reflexivity|exact Hn|].
    exists (ncfg nd), nd; auto. }
  intros r Hr. eapply fine_bind; [apply IH; intros; apply HC; right; assumption|].
  intros l Hl. apply fine_ok. destruct r as [[n p]|]; [|exact Hl].
  destruct (Hr n p eq_refl) as [X1 [X2 X3]].
  intros a b c [Hin|Hin]; [|apply Hl; exact Hin]. inversion Hin; subst.
  destruct (h_prev _ _ _ HH p) as [-> ->]. split; [exact X3|]. split; [reflexivity|apply cert_rev; exact X1].
Qed.
Definition vstep_ok s (r : res (rmS * (nat -> bool))) : Prop := fine r (fun '(t, _) => goodC t /\ grows s t).
Lemma vis_insert_ok dl : forall s guard, goodC s -> dl_ok certified s dl ->
  vstep_ok s (vis_insert C P ceqb dist prev s guard dl).
Proof.
  induction dl as [|[[n q] p] dl IH]; intros s guard HG Hdl; cbn [vis_insert].
  - split; [exact HG|apply grows_refl].
  - destruct (Hdl n q p) as [H1 [H2 H3]]; [left; reflexivity|].
    destruct (good_addNode ceqb dist plen prev V certified (h_eq _ _ _ HH) s q HG) as [m [s1 [-> [T1 [T2 T3]]]]]. cbn [bind].
    assert (K : step_ok certified s1 (bind (addEdge s1 n m p) (fun s2 => addEdge s2 m n (prev p)))).
    { apply o_edges2; [apply cert_rev'|exact T1|exact H3|eapply grows_cfg; eassumption|rewrite <- H2; exact T3]. }
    destruct (addEdge s1 n m p) as [s2| | |]; cbn [bind] in K |- *; try exact K.
    destruct (addEdge s2 m n (prev p)) as [s3| | |]; cbn [bind] in K |- *; try exact K.
    destruct K as [K1 K2]. eapply fine_mono; [apply IH; [exact K1|]|].
    + eapply dl_grows; [exact K2|]. eapply dl_grows; [exact T2|]. intros x y z Hz; apply Hdl; right; exact Hz.
    + intros [u g] [U1 U2]. split; [exact U1|]. eapply grows_trans; [exact T2|]. eapply grows_trans; eassumption.
Qed.
Lemma vis_step_ok s guard q : goodC s -> initN s <> None -> vstep_ok s (vis_step C P ceqb dist plen prev V s guard q).
Proof.
  intros HG Hi. pose proof (good_inv _ _ _ _ _ _ _ HG) as HI. unfold vis_step.
  destruct (initN s) as [i|]; [|congruence]. cbv zeta.
  eapply fine_bind; [apply vis_all_ok; [auto|exact HI]|]. intros dl Hdl.
  destruct (length dl) as [|[|k]].
  - destruct (good_addNode ceqb dist plen prev V certified (h_eq _ _ _ HH) s q HG) as [m [s1 [-> [T1 [T2 T3]]]]]. cbn [bind].
    split; assumption.
  - split; [exact HG|apply grows_refl].
  - apply vis_insert_ok; assumption.
Qed.
End S.
