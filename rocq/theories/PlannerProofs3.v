(* Whole executions of the planners. *)
From Verif Require Import Base Reach RoadmapModel RoadmapSpec RoadmapProofs RoadmapProofs2 RoadmapProofs3 AstarSpec.
From Verif Require Import PlannerModel PlannerSpec PlannerProofs PlannerProofs2.

Section S.
Context {C P : Type}.
Notation rmS := (rm C P).
Implicit Types s t : rmS.
Variable ceqb : C -> C -> bool.
Variable dist : C -> C -> Q.
Variable plen : P -> Q.
Variable prev : P -> P.
Variable V : env C P.
Hypothesis HH : honest ceqb prev V.
Hypothesis HW : answers V.

Notation inv := (@inv C P).
Notation certified := (certified prev V).
Notation projected := (projected prev V).
Notation good := (good ceqb dist plen prev V).
Notation OKP := (OKP prev V).

Lemma posed_grows s t qi gs : grows s t -> posed s qi gs -> posed t qi gs.
Proof.
  intros H [i [H1 [H2 H3]]]. exists i. rewrite (g_init _ _ H), (g_goals _ _ H). split; [exact H1|].
  split; [eapply grows_cfg; eassumption|]. induction H3; constructor; [eapply grows_cfg; eassumption|assumption].
Qed.
Lemma posed_init s qi gs : posed s qi gs -> initN s <> None.
Proof. intros [i [H _]]; congruence. Qed.

Lemma good_frame OK s t o : good OK s -> step C P ceqb dist plen prev s o = Ok t ->
  (forall other, o <> OMerge other) -> edges t = edges s -> ninfo t = ninfo s -> good OK t.
Proof.
  intros [H1 H2] H3 H4 H5 H6. split.
  - eapply built_step; [exact H1| |exact H3]. intros other Ho. exfalso; apply (H4 other Ho).
  - intros e He. rewrite H5 in He. destruct (H2 e He) as [X1 [X2 X3]]. split; [exact X1|].
    unfold config_of. rewrite H6. split; assumption.
Qed.
Lemma init_ok OK s q : good OK s -> exists t i, initNode C P ceqb dist s q = Ok t /\ good OK t /\
  initN t = Some i /\ config_of t i q /\ goals t = goals s /\ (forall n x, config_of s n x -> config_of t n x).
Proof.
  intro HG. destruct (good_addNode ceqb dist plen prev V OK (h_eq _ _ _ HH) s q HG) as [n [t [H1 [H2 [H3 H4]]]]].
  assert (E : initNode C P ceqb dist s q = Ok (set_init t (Some n))) by (unfold initNode; rewrite H1; reflexivity).
  exists (set_init t (Some n)), n. split; [exact E|]. split.
  - split.
    + eapply built_step with (o := OInit q); [apply HG|discriminate|exact E].
    + exact (proj2 H2).
  - split; [reflexivity|]. split; [exact H4|]. split; [apply (g_goals _ _ H3)|].
    intros m x Hm. exact (grows_cfg _ _ _ _ H3 Hm).
Qed.
Lemma goal_ok OK s q : good OK s -> exists t g, addGoalNode C P ceqb dist s q = Ok t /\ good OK t /\
  initN t = initN s /\ goals t = goals s ++ [g] /\ config_of t g q /\ (forall n x, config_of s n x -> config_of t n x).
Proof.
  intro HG. destruct (good_addNode ceqb dist plen prev V OK (h_eq _ _ _ HH) s q HG) as [n [t [H1 [H2 [H3 H4]]]]].
  assert (E : addGoalNode C P ceqb dist s q = Ok (set_goals t (goals t ++ [n]))) by (unfold addGoalNode; rewrite H1; reflexivity).
  exists (set_goals t (goals t ++ [n])), n. split; [exact E|]. split.
  - split.
    + eapply built_step with (o := OGoal q); [apply HG|discriminate|exact E].
    + exact (proj2 H2).
  - split; [apply (g_init _ _ H3)|]. split; [cbn [goals set_goals]; rewrite (g_goals _ _ H3); reflexivity|].
    split; [exact H4|]. intros m x Hm. exact (grows_cfg _ _ _ _ H3 Hm).
Qed.
Lemma goals_ok OK gs : forall s qi done, good OK s -> posed s qi done ->
  exists t, add_goals C P ceqb dist s gs = Ok t /\ good OK t /\ posed t qi (done ++ gs).
Proof.
  induction gs as [|g gs IH]; intros s qi done HG HP; cbn [add_goals].
  - exists s. rewrite app_nil_r. auto.
  - destruct (goal_ok OK s g HG) as [t [n [-> [H1 [H2 [H3 [H4 H5]]]]]]]. cbn [bind].
    destruct (IH t qi (done ++ [g])) as [u [U1 [U2 U3]]]; [exact H1| |].
    + destruct HP as [i [P1 [P2 P3]]]. exists i. rewrite H2, H3. split; [exact P1|]. split; [apply H5; exact P2|].
      apply Forall2_app; [|constructor; [exact H4|constructor]].
      clear -P3 H5. induction P3; constructor; auto.
    + rewrite <- app_assoc in U3. exists u; auto.
Qed.
Lemma start_ok OK s qi gs : good OK s ->
  exists t, start_solve C P ceqb dist s qi gs = Ok t /\ good OK t /\ posed t qi gs.
Proof.
  intro HG. unfold start_solve.
  assert (HG' : good OK (resetGoalNodes s)).
  { eapply good_frame with (o := OResetGoals); [exact HG|reflexivity|discriminate|reflexivity|reflexivity]. }
  destruct (init_ok OK _ qi HG') as [t [i [-> [H1 [H2 [H3 [H4 H5]]]]]]]. cbn [bind].
  apply (goals_ok OK gs t qi []); [exact H1|]. exists i. rewrite H4. split; [exact H2|]. split; [exact H3|constructor].
Qed.
Lemma run_ok {A} (I : A -> Prop) (step : A -> C -> res A) : (forall a q, I a -> fine (step a q) I) ->
  forall qs a, I a -> fine (run_steps C step a qs) I.
Proof.
  intros H. induction qs as [|q qs IH]; intros a Ha; cbn [run_steps]; [exact Ha|].
  eapply fine_bind; [apply H; exact Ha|]. exact IH.
Qed.

Lemma rrt_ok (OK : P -> Prop) (HOKP : forall p, OKP p -> OK p) (HR : forall p, OK p -> OK (prev p)) sl ratio s qi gs qs :
  good OK s -> fine (rrt_solve C P ceqb dist plen prev V sl ratio s qi gs qs) (fun t => good OK t /\ posed t qi gs).
Proof.
  intro HG. unfold rrt_solve. destruct (start_ok OK s qi gs HG) as [s1 [-> [H1 H2]]]. cbn [bind].
  eapply fine_bind; [apply (try_connect_ok ceqb dist plen prev V HH HW OK); [auto|exact H1|eapply posed_init; exact H2]|].
  intros s2 [H3 H4]. apply run_ok.
  - intros t q [T1 T2]. eapply fine_mono; [apply (diff_step_ok ceqb dist plen prev V HH HW OK HOKP HR); exact T1|].
    intros u [U1 U2]. split; [exact U1|eapply posed_grows; eassumption].
  - split; [exact H3|eapply posed_grows; eassumption].
Qed.
Lemma vis_solve_ok s g qi gs qs : good certified s ->
  fine (vis_solve C P ceqb dist plen prev V s g qi gs qs) (fun '(t, _) => good certified t /\ posed t qi gs).
Proof.
  intro HG. unfold vis_solve. destruct (start_ok certified s qi gs HG) as [s1 [-> [H1 H2]]]. cbn [bind].
  eapply fine_bind; [apply (try_connect_ok ceqb dist plen prev V HH HW certified); [intros p [X _]; exact X|exact H1|eapply posed_init; exact H2]|].
  intros s2 [H3 H4].
  apply (run_ok (fun '(t, _) => good certified t /\ posed t qi gs)).
  - intros [t g'] q [T1 T2]. eapply fine_mono; [apply (vis_step_ok ceqb dist plen prev V HH); [exact T1|eapply posed_init; exact T2]|].
    intros [u g''] [U1 U2]. split; [exact U1|eapply posed_grows; eassumption].
  - split; [exact H3|eapply posed_grows; eassumption].
Qed.

(* -------------------------------------------------------------- BiRRTPlanner *)
Notation stuck := (accepts_empty V).
(* like fine, a crash being possible if there is such a path *)
Definition almost {A} (r : res A) (Q : A -> Prop) : Prop :=
  match r with Ok a => Q a | Throw => True | UB => stuck | Fuel => False end.
Lemma almost_fine {A} (r : res A) (Q : A -> Prop) : fine r Q -> almost r Q.
Proof. destruct r; cbn [fine almost]; intro H; auto; contradiction. Qed.
Lemma almost_bind {A B} (r : res A) (f : A -> res B) (Q : A -> Prop) (R : B -> Prop) :
  almost r Q -> (forall a, Q a -> almost (f a) R) -> almost (bind r f) R.
Proof. destruct r; cbn [almost bind]; auto. Qed.
Lemma almost_mono {A} (r : res A) (Q R : A -> Prop) : almost r Q -> (forall a, Q a -> R a) -> almost r R.
Proof. destruct r; cbn [almost]; auto. Qed.
Lemma arun_ok {A} (I : A -> Prop) (step : A -> C -> res A) : (forall a q, I a -> almost (step a q) I) ->
  forall qs a, I a -> almost (run_steps C step a qs) I.
Proof.
  intros H. induction qs as [|q qs IH]; intros a Ha; cbn [run_steps]; [exact Ha|].
  eapply almost_bind; [apply H; exact Ha|]. exact IH.
Qed.

(* the projection of the random configuration does not depend on the node *)
Hypothesis HSAME : forall f a b q, e_con V = Some f -> f a q = f b q.
Definition tgt (q : C) : option C := match e_con V with None => Some q | Some f => f q q end.
Lemma tgt_eq qn q : (match e_con V with None => Some q | Some f => f qn q end) = tgt q.
Proof. unfold tgt. destruct (e_con V) as [f|] eqn:E; [apply (HSAME f qn q q eq_refl)|reflexivity]. Qed.
Notation goodC := (good certified).
Notation bgood s := (fun t => goodC t /\ grows s t).

Lemma birrt_ends_ok q ccs b : forall s r, goodC s -> (forall c, In c ccs -> inhab s c) ->
  (forall n qn, r = Some (n, qn) -> config_of s n qn /\ (b = true -> tgt q = Some qn)) ->
  (b = true -> r = None -> stuck) ->
  almost (birrt_ends C P ceqb dist V s r b q ccs) (bgood s).
Proof.
  induction ccs as [|cc ccs IH]; intros s r HG HC Hr Hs; cbn [birrt_ends].
  - split; [exact HG|apply grows_refl].
  - destruct (near_ok dist s true q cc) as [near [-> [qn Hn]]]; [apply HC; left; reflexivity|]. cbn [bind].
    rewrite (cfg_ok _ _ _ Hn); cbn [bind].
    assert (HC' : forall c, In c ccs -> inhab s c) by (intros; apply HC; right; assumption).
    assert (IH0 : almost (birrt_ends C P ceqb dist V s r b q ccs) (bgood s)) by (apply IH; assumption).
    unfold birrt_extend. rewrite tgt_eq. destruct (tgt q) as [qp|] eqn:Eq; [|exact IH0].
    destruct (e_sm V qp qn) as [p|] eqn:E1; [|exact IH0]. apply (h_sm _ _ _ HH) in E1 as [E1 E2].
    destruct (e_val V p true) as [b2 v] eqn:E3.
    destruct (b2 && b)%bool eqn:Eb.
    + apply andb_prop in Eb as [-> ->].
      destruct v as [v|]; [|exfalso; apply (w_val _ HW p true); rewrite E3; reflexivity].
      destruct r as [[n q0]|]; [|cbn [almost]; apply Hs; reflexivity].
      destruct (Hr n q0 eq_refl) as [R1 R2]. specialize (R2 eq_refl). injection R2 as <-.
      destruct (h_val _ _ _ HH _ _ _ E3) as [V1 V2].
      apply almost_fine. apply (o_addEdge ceqb dist plen prev V certified).
      * exact HG.
      * eapply cert_part; exact E3.
      * rewrite V1, E1. exact R1.
      * rewrite V2, E2. exact Hn.
    + destruct v as [v|]; [|exact IH0].
      destruct (Qeq_bool (e_t1 V v) (e_t0 V p)); [exact IH0|].
      destruct (good_addNodeAndEdgeTo ceqb dist plen prev V certified (h_eq _ _ _ HH) s near v HG)
        as [m [s1 [-> [T1 [T2 T3]]]]].
      { eapply cert_part; exact E3. }
      { rewrite (h_val_bwd _ _ _ HH _ _ _ E3), E2. exact Hn. }
      cbn [bind].
      assert (IH1 : almost (birrt_ends C P ceqb dist V s1 r b q ccs) (bgood s)).
      { eapply almost_mono; [apply IH|].
        - exact T1.
        - intros c Hc; eapply inhab_grows; [exact T2|auto].
        - intros n q0 Hq0. destruct (Hr n q0 Hq0) as [R1 R2]. split; [eapply grows_cfg; eassumption|exact R2].
        - exact Hs.
        - intros u [U1 U2]. split; [exact U1|eapply grows_trans; eassumption]. }
      destruct r as [[n q0]|]; [|exact IH1].
      destruct (e_sm V q0 (e_init V v)) as [p2|] eqn:E4; [|exact IH1].
      apply (h_sm _ _ _ HH) in E4 as [E4 E5].
      destruct (e_val V p2 false) as [b3 v3] eqn:E6. destruct b3; cbn [fst]; [|exact IH1].
      apply almost_fine. eapply fine_mono; [apply (o_addEdge ceqb dist plen prev V certified)|].
      * exact T1.
      * eapply cert_whole; exact E6.
      * rewrite E4. eapply grows_cfg; [exact T2|]. apply (Hr n q0 eq_refl).
      * rewrite E5. exact T3.
      * intros u [U1 U2]. split; [exact U1|eapply grows_trans; eassumption].
Qed.
Lemma birrt_step_ok s c0 ccs q : goodC s -> inhab s c0 -> (forall c, In c ccs -> inhab s c) ->
  almost (birrt_step C P ceqb dist V s c0 ccs q) (bgood s).
Proof.
  intros HG H0 HC. unfold birrt_step.
  destruct (near_ok dist s false q c0 H0) as [near [-> [qn Hn]]]. cbn [bind].
  rewrite (cfg_ok _ _ _ Hn); cbn [bind]. unfold birrt_extend at 1. rewrite tgt_eq.
  assert (K : forall b, (b = true -> stuck) -> almost (birrt_ends C P ceqb dist V s None b q ccs) (bgood s)).
  { intros b Hb. apply birrt_ends_ok; [exact HG|exact HC|discriminate|auto]. }
  destruct (tgt q) as [qp|] eqn:Eq; [|apply K; discriminate].
  destruct (e_sm V qn qp) as [p|] eqn:E1; [|apply K; discriminate].
  destruct (e_val V p false) as [b [v|]] eqn:E3.
  2: { exfalso. apply (w_val _ HW p false). rewrite E3; reflexivity. }
  destruct (Qeq_bool (e_t1 V v) (e_t0 V p)) eqn:Ez.
  - apply K. intros ->. exists qn, qp, p, v. split; [exact E1|]. split; [exact E3|apply Qeq_bool_iff; exact Ez].
  - apply (h_sm _ _ _ HH) in E1 as [E1 E2].
    destruct (good_addNodeAndEdge ceqb dist plen prev V certified (h_eq _ _ _ HH) s near v HG)
        as [m [s1 [-> [T1 [T2 T3]]]]].
    { eapply cert_part; exact E3. }
    { rewrite (h_val_fwd _ _ _ HH _ _ _ E3), E1. exact Hn. }
    cbn [bind]. eapply almost_mono; [apply birrt_ends_ok|].
    + exact T1.
    + intros c Hc; eapply inhab_grows; [exact T2|auto].
    + intros n q0 X; inversion X; subst n q0. split; [exact T3|]. intros ->.
      rewrite (proj2 (h_val _ _ _ HH _ _ _ E3)), E2. exact Eq.
    + discriminate.
    + intros u [U1 U2]. split; [exact U1|eapply grows_trans; eassumption].
Qed.
Lemma goal_comps_ok s l : inv s -> (forall g, In g l -> isn s g) ->
  exists cs, goal_comps C P s l = Ok cs /\ forall c, In c cs -> inhab s c.
Proof.
  intros HI. induction l as [|g l IH]; intro H; cbn [goal_comps]; [exists []; split; [reflexivity|intros c []]|].
  destruct (cc_ok s g HI) as [c [-> Hc]]; [apply H; left; reflexivity|]. cbn [bind].
  destruct IH as [cs [-> Hcs]]; [intros; apply H; right; assumption|]. cbn [bind].
  exists (c :: cs); split; [reflexivity|]. intros x [<-|Hx]; [apply live_inhab; assumption|auto].
Qed.
Lemma birrt_ok s qi gs qs : goodC s ->
  almost (birrt_solve C P ceqb dist plen V s qi gs qs) (fun t => goodC t /\ posed t qi gs).
Proof.
  intro HG. unfold birrt_solve. destruct (start_ok certified s qi gs HG) as [s1 [-> [H1 H2]]]. cbn [bind].
  pose proof (good_inv _ _ _ _ _ _ _ H1) as HI.
  assert (Hst : exists c0 cs, birrt_start C P s1 = Ok (c0, cs) /\ inhab s1 c0 /\ forall c, In c cs -> inhab s1 c).
  { unfold birrt_start. destruct H2 as [i [X1 [X2 X3]]]. rewrite X1.
    destruct (cc_ok s1 i HI) as [c [-> Hc]]; [eexists; exact X2|]. cbn [bind].
    destruct (goal_comps_ok s1 (goals s1) HI) as [cs [-> Hcs]].
    { intros g Hg. apply nodes_isn; [exact HI|]. apply (i_R _ HI); exact Hg. }
    cbn [bind]. exists c, cs. split; [reflexivity|]. split; [apply live_inhab; assumption|exact Hcs]. }
  destruct Hst as [c0 [cs [-> [I1 I2]]]]. cbn [bind].
  eapply almost_bind.
  { apply almost_fine. apply (try_connect_ok ceqb dist plen prev V HH HW certified); [intros p [X _]; exact X|exact H1|eapply posed_init; exact H2]. }
  intros s2 [H3 H4].
  eapply almost_mono.
  - apply (arun_ok (fun t => goodC t /\ posed t qi gs /\ inhab t c0 /\ forall c, In c cs -> inhab t c)).
    + intros t q [T1 [T2 [T3 T4]]]. eapply almost_mono; [apply birrt_step_ok; assumption|].
      intros u [U1 U2]. split; [exact U1|]. split; [eapply posed_grows; eassumption|].
      split; [eapply inhab_grows; eassumption|]. intros; eapply inhab_grows; [exact U2|auto].
    + split; [exact H3|]. split; [eapply posed_grows; eassumption|].
      split; [eapply inhab_grows; eassumption|]. intros; eapply inhab_grows; [exact H4|auto].
  - intros t [T1 [T2 _]]; auto.
Qed.
End S.

Lemma edges_ok_mono {C P} (V : env C P) (A B : P -> Prop) s : (forall p, A p -> B p) -> edges_ok V A s -> edges_ok V B s.
Proof. intros H K e He. destruct (K e He) as [X Y]; split; auto. Qed.

Section Sol.
Context {C P : Type}.
Variable prev : P -> P.
Variable V : env C P.
Lemma path_joined (s : rm C P) : edges_ok V (certified prev V) s -> forall l a b qa qb, config_of s a qa -> config_of s b qb ->
  edge_path s a l b -> joined prev V qa (map epath l) qb.
Proof.
  intros HE. induction l as [|e l IH]; intros a b qa qb Ha Hb H; cbn [edge_path map joined] in *.
  - subst b. eapply cfg_fun; eassumption.
  - destruct H as [H1 [H2 H3]]. destruct (HE e H1) as [X1 [X2 X3]]. split; [exact X1|]. split.
    + eapply cfg_fun; [exact X2|]. rewrite H2. exact Ha.
    + eapply IH; eassumption.
Qed.
End Sol.
