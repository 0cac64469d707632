(* C48: checkProblem; C49 (goals of a problem); C52: copies; C53: obstacles
   of a problem and of its validations; C56: constraints of the steering
   method. *)
From Verif Require Import Base ProblemModel ProblemSpec.

Section Proofs.
Context {C : Type}.
Notation wd := (world C).

Lemma check_goals_iff v s (l : list C) :
  (check_goals v s l = Ok tt /\ forall q, In q l -> v q = true /\ s q = true) \/
  (check_goals v s l = Throw /\ exists q, In q l /\ (v q = false \/ s q = false)).
Proof.
  induction l as [|q l IH]; cbn [check_goals]; [left; split; [reflexivity|intros q []]|].
  destruct (v q) eqn:V; cbn [negb].
  - destruct (s q) eqn:S; cbn [negb].
    + destruct IH as [[E H]|[E [q' [H1 H2]]]]; [left|right]; split; try exact E.
      * intros q' [<-|H']; [auto|apply H; exact H'].
      * exists q'; split; [right; exact H1|exact H2].
    + right; split; [reflexivity|]. exists q; split; [left; reflexivity|auto].
  - right; split; [reflexivity|]. exists q; split; [left; reflexivity|auto].
Qed.

(* checkProblem returns exactly on the well posed problems; otherwise it
   throws. *)
Theorem C48_check : forall robot (init : option C) v s goals,
  match checkProblem robot init (Some v) (Some s) goals with
  | Ok _ => well_posed robot init v s goals
  | Throw => ~ well_posed robot init v s goals
  | _ => False
  end.
Proof.
  intros robot init v s goals. unfold checkProblem, well_posed.
  destruct robot; cbn [negb]; [|intros [H _]; discriminate].
  destruct init as [q|]; [|intros [_ [[q [H _]] _]]; discriminate].
  destruct (v q) eqn:V; cbn [negb];
    [|intros [_ [[q' [H [H' _]]] _]]; inversion H; subst; congruence].
  destruct (s q) eqn:S; cbn [negb];
    [|intros [_ [[q' [H [_ H']]] _]]; inversion H; subst; congruence].
  destruct goals as [l|].
  - destruct (check_goals_iff v s l) as [[E H]|[E [q' [H1 H2]]]]; rewrite E.
    + split; [reflexivity|]. split; [exists q; auto|]. intros l' q' Hl Hq. inversion Hl; subst. apply H; exact Hq.
    + intros [_ [_ H]]. destruct (H l q' eq_refl H1). destruct H2; congruence.
  - split; [reflexivity|]. split; [exists q; auto|]. intros l' q' Hl; discriminate.
Qed.

(* ---------------------------------------------------------------- goals *)
Lemma add_obstacle_goals (w : wd) i o j p : pbs (add_obstacle w i o) j = Some p ->
  exists p', pbs w j = Some p' /\ pGoals p' = pGoals p /\ pSMConstr p' = pSMConstr p /\ pConstr p' = pConstr p.
Proof.
  unfold add_obstacle. destruct (pbs w i) as [pi|] eqn:E; [|eauto 10].
  cbn [pbs]. unfold upd. destruct (Nat.eqb_spec j i) as [->|N]; [|eauto 10].
  intro H; inversion H; subst. exists pi; auto 10.
Qed.
Lemma fold_obstacle_goals l : forall (w : wd) i j p,
  pbs (fold_left (fun w o => add_obstacle w i o) l w) j = Some p ->
  exists p', pbs w j = Some p' /\ pGoals p' = pGoals p /\ pSMConstr p' = pSMConstr p /\ pConstr p' = pConstr p.
Proof.
  induction l as [|o l IH]; intros w i j p H; [eauto 10|].
  cbn [fold_left] in H. destruct (IH _ _ _ _ H) as [p1 [H1 [H2 [H3 H4]]]].
  destruct (add_obstacle_goals _ _ _ _ _ H1) as [p2 [G1 [G2 [G3 G4]]]].
  exists p2; repeat split; congruence.
Qed.
Lemma set_obstacles_goals (w : wd) i l j p : pbs (set_obstacles w i l) j = Some p ->
  exists p', pbs w j = Some p' /\ pGoals p' = pGoals p /\ pSMConstr p' = pSMConstr p /\ pConstr p' = pConstr p.
Proof.
  unfold set_obstacles. destruct (pbs w i) as [pi|] eqn:E; [|eauto 10]. intro H.
  destruct (fold_obstacle_goals _ _ _ _ _ H) as [p1 [H1 H2]]. cbn [put pbs] in H1. unfold upd in H1.
  destruct (Nat.eqb_spec j i) as [->|N]; [|eauto 10].
  inversion H1; subst. exists pi; cbn [set_obs pGoals pSMConstr pConstr] in H2; auto.
Qed.
Lemma on_get (w : wd) i f j p : pbs (on w i f) j = Some p ->
  (j <> i /\ pbs w j = Some p) \/ (j = i /\ exists p', pbs w i = Some p' /\ p = f p').
Proof.
  unfold on. destruct (pbs w i) as [pi|] eqn:E.
  - cbn [put pbs]. unfold upd. destruct (Nat.eqb_spec j i) as [->|N]; intro H; [right|left; auto].
    inversion H; subst; eauto.
  - intro H. destruct (Nat.eq_dec j i) as [->|N]; [congruence|auto].
Qed.

Definition wrunr (h : list (wop C)) : wd := fold_right (fun o w => w_step w o) world0 h.
Lemma w_run_rev l : w_run l = wrunr (rev l).
Proof.
  unfold w_run, wrunr. rewrite <- (rev_involutive l) at 1. generalize (rev l) as h.
  intro h. generalize (@world0 C). induction h as [|o h IH]; intro w; [reflexivity|].
  cbn [rev fold_right]. rewrite fold_left_app, IH. reflexivity.
Qed.
Lemma wrunr_cons o h : wrunr (o :: h) = w_step (wrunr h) o.
Proof. reflexivity. Qed.

(* problems are numbered from 0 *)
Lemma step_pbs (w : wd) o : (forall j, npb w <= j -> pbs w j = None) ->
  forall j, npb (w_step w o) <= j -> pbs (w_step w o) j = None.
Proof.
  assert (ON : forall (w : wd) i f, (forall j, npb w <= j -> pbs w j = None) ->
            forall j, npb (on w i f) <= j -> pbs (on w i f) j = None).
  { intros w1 i f H j. unfold on. destruct (pbs w1 i) as [pi|] eqn:E; [|apply H].
    cbn [put npb pbs]. intro L. unfold upd. destruct (Nat.eqb_spec j i) as [->|N]; [|apply H; exact L].
    rewrite (H i L) in E; discriminate. }
  assert (AO : forall (w : wd) i x, (forall j, npb w <= j -> pbs w j = None) ->
            forall j, npb (add_obstacle w i x) <= j -> pbs (add_obstacle w i x) j = None).
  { intros w1 i x H j. unfold add_obstacle. destruct (pbs w1 i) as [pi|] eqn:E; [|apply H].
    cbn [npb pbs]. intro L. unfold upd. destruct (Nat.eqb_spec j i) as [->|N]; [|apply H; exact L].
    rewrite (H i L) in E; discriminate. }
  assert (FO : forall l (w : wd) i, (forall j, npb w <= j -> pbs w j = None) ->
            forall j, npb (fold_left (fun w o => add_obstacle w i o) l w) <= j ->
                      pbs (fold_left (fun w o => add_obstacle w i o) l w) j = None).
  { induction l as [|x l IH]; intros w1 i H; [exact H|]. cbn [fold_left]. apply IH. apply AO; exact H. }
  intro H. destruct o; cbn [w_step]; try (apply ON; exact H); try exact H.
  - cbn. intros j L. unfold upd. destruct (Nat.eqb_spec j (npb w)); [lia|apply H; lia].
  - destruct (pbs w i) as [p|]; [|exact H]. cbn. intros j L. unfold upd.
    destruct (Nat.eqb_spec j (npb w)); [lia|apply H; lia].
  - apply AO; exact H.
  - unfold set_obstacles. destruct (pbs w i) as [p|] eqn:E; [|exact H]. apply FO.
    cbn [put npb pbs]. intros j L. unfold upd. destruct (Nat.eqb_spec j i) as [->|]; [|apply H; exact L].
    rewrite (H i L) in E; discriminate.
  - destruct (pbs w i); exact H.
  - destruct (pbs w i); exact H.
Qed.
Lemma wrunr_pbs h : forall j, npb (wrunr h) <= j -> pbs (wrunr h) j = None.
Proof.
  induction h as [|o h IH]; [reflexivity|]. rewrite wrunr_cons. apply step_pbs; exact IH.
Qed.

Lemma goals_run i h : born i h -> forall g, goals_of i h g ->
  match pbs (wrunr h) i with Some p => goalConfigs p = g | None => g = [] end.
Proof.
  induction h as [|o h IH]; intros HB g HG.
  - inversion HG; subst; reflexivity.
  - assert (HB' : born i h) by (destruct o; cbn [born] in HB; tauto). specialize (IH HB').
    rewrite wrunr_cons. set (w := wrunr h) in *.
    assert (HF := wrunr_pbs h). fold w in HF.
    assert (HW : w_run (rev h) = w) by (rewrite w_run_rev, rev_involutive; reflexivity).
    assert (ON : forall j f, (forall p, goalConfigs (f p) = goalConfigs p) -> goals_of i h g ->
      match pbs (on w j f) i with Some p => goalConfigs p = g | None => g = [] end).
    { intros j f Hf Hg. specialize (IH g Hg). unfold on. destruct (pbs w j) as [pj|] eqn:E; [|exact IH].
      cbn [put pbs]. unfold upd. destruct (Nat.eqb_spec i j) as [->|N]; [|exact IH].
      rewrite E in IH. rewrite Hf; exact IH. }
    inversion HG; subst.
    + (* add *)
      match goal with G : goals_of i h _ |- _ => specialize (IH _ G) end. destruct HB as [HB _]. cbn [w_step]. unfold on.
      rewrite HW in HB. destruct (pbs w i) as [p|] eqn:E; [|exfalso; apply (HB eq_refl eq_refl)].
      cbn [put pbs]. rewrite upd_eq. unfold goalConfigs in *; cbn [set_goals pGoals].
      destruct (pGoals p); subst; reflexivity.
    + destruct HB as [HB _]. cbn [w_step]. unfold on.
      rewrite HW in HB. destruct (pbs w i) as [p|] eqn:E; [|exfalso; apply (HB eq_refl eq_refl)].
      cbn [put pbs]. rewrite upd_eq. reflexivity.
    + destruct HB as [HB _]. cbn [w_step]. unfold on.
      rewrite HW in HB. destruct (pbs w i) as [p|] eqn:E; [|exfalso; apply (HB eq_refl eq_refl)].
      cbn [put pbs]. rewrite upd_eq. reflexivity.
    + match goal with G : goals_of i h _ |- _ => rename G into Hg end. assert (IHg := IH g Hg).
      destruct o; cbn [w_step]; try (apply ON; [reflexivity|exact Hg]); try exact IHg.
      * cbn. unfold upd. destruct (Nat.eqb_spec i (npb w)) as [E|N]; [|exact IHg].
        rewrite (HF i) in IHg by lia. subst g; reflexivity.
      * destruct (pbs w i0) as [p|]; [|exact IHg]. cbn. unfold upd.
        destruct (Nat.eqb_spec i (npb w)) as [E|N]; [|exact IHg].
        rewrite (HF i) in IHg by lia. subst g; reflexivity.
      * unfold on. destruct (pbs w i0); [|exact IHg]. cbn [put pbs]. rewrite upd_neq by auto. exact IHg.
      * unfold on. destruct (pbs w i0); [|exact IHg]. cbn [put pbs]. rewrite upd_neq by auto. exact IHg.
      * unfold on. destruct (pbs w i0); [|exact IHg]. cbn [put pbs]. rewrite upd_neq by auto. exact IHg.
      * destruct (pbs (add_obstacle w i0 o) i) as [p|] eqn:E.
        -- destruct (add_obstacle_goals _ _ _ _ _ E) as [p' [E1 [E2 _]]]. rewrite E1 in IHg.
           unfold goalConfigs in *. rewrite <- E2; exact IHg.
        -- unfold add_obstacle in E. destruct (pbs w i0) as [p0|] eqn:E0; [|rewrite E in IHg; exact IHg].
           cbn [pbs] in E. unfold upd in E. destruct (Nat.eqb i i0); [discriminate|]. rewrite E in IHg; exact IHg.
      * destruct (pbs (set_obstacles w i0 l) i) as [p|] eqn:E.
        -- destruct (set_obstacles_goals _ _ _ _ _ E) as [p' [E1 [E2 _]]]. rewrite E1 in IHg.
           unfold goalConfigs in *. rewrite <- E2; exact IHg.
        -- assert (F : forall l (w' : wd), pbs (fold_left (fun w o => add_obstacle w i0 o) l w') i = None -> pbs w' i = None).
           { induction l0 as [|x l0 IHl]; intros w' Hn; [exact Hn|]. cbn [fold_left] in Hn. apply IHl in Hn.
             unfold add_obstacle in Hn. destruct (pbs w' i0); [|exact Hn]. cbn [pbs] in Hn. unfold upd in Hn.
             destruct (Nat.eqb i i0); [discriminate|exact Hn]. }
           unfold set_obstacles in E. destruct (pbs w i0) as [p0|] eqn:E0; [|rewrite E in IHg; exact IHg].
           apply F in E. cbn [put pbs] in E. unfold upd in E. destruct (Nat.eqb i i0); [discriminate|].
           rewrite E in IHg; exact IHg.
      * destruct (pbs w i0); exact IHg.
      * destruct (pbs w i0); exact IHg.
Qed.
End Proofs.

Section Statements.
Context {C : Type}.

(* goalConfigs lists, in order, the goals added since the last reset or the
   last change of target; there is none after a reset. *)
Theorem C49_goal_list : forall (l : list (wop C)) i g, born i (rev l) -> goals_of i (rev l) g ->
  match pbs (w_run l) i with Some p => goalConfigs p = g | None => g = [] end.
Proof. intros l i g HB HG. rewrite w_run_rev. apply goals_run; assumption. Qed.

(* ---------------------------------------------------------------- copies *)
(* A copy keeps the initial configuration, the obstacle list, the
   configuration validations, the projector and the parameters, and leaves
   every other problem as it was. Missing: the rest, see C52_copy_refuted. *)
Theorem C52_copy_partial : forall (w : world C) p, exists c,
  pbs (fst (createCopy w p)) (snd (createCopy w p)) = Some c /\
  pInit c = pInit p /\ pObs c = pObs p /\ pCV c = pCV p /\ pProj c = pProj p /\ pPars c = pPars p /\
  (forall j, j <> npb w -> pbs (fst (createCopy w p)) j = pbs w j) /\
  (forall v, cvs (fst (createCopy w p)) v = cvs w v) /\
  (forall v, v < npv w -> pvs (fst (createCopy w p)) v = pvs w v).
Proof.
  intros w p. unfold createCopy; cbn [fst snd pbs]. rewrite upd_eq. eexists; split; [reflexivity|].
  repeat split; intros; cbn [fst pbs pvs].
  - apply upd_neq; assumption.
  - apply upd_neq; lia.
Qed.

(* ------------------------------------------------------------- obstacles *)
Lemma know_in o u l : know o u = Some l -> In o l.
Proof. destruct u; [|discriminate]. intro H; inversion H. apply in_app_iff; right; left; reflexivity. Qed.
Lemma know_mono o o' u l : (forall l', u = Some l' -> In o' l') -> know o u = Some l -> In o' l.
Proof.
  intros H E. destruct u; [|discriminate]. inversion E. apply in_app_iff; left; apply H; reflexivity.
Qed.

(* addObstacle gives the obstacle to the path validation and to every
   configuration validation of the problem which uses obstacles, and lists
   it. *)
Theorem C53_add : forall (w : world C) i p o, pbs w i = Some p ->
  exists p', pbs (add_obstacle w i o) i = Some p' /\ pObs p' = pObs p ++ [o] /\
    all_know (add_obstacle w i o) p' o /\
    forall o', all_know w p o' -> all_know (add_obstacle w i o) p' o'.
Proof.
  intros w i p o H. unfold add_obstacle. rewrite H. cbn [pbs]. rewrite upd_eq.
  eexists; split; [reflexivity|]. split; [reflexivity|].
  unfold all_know; cbn [pvs cvs set_obs pPV pCV]. rewrite !upd_eq. split; [split|].
  - intros l; apply know_in.
  - intros l Hl. apply in_map_iff in Hl as [u [Hu _]]. eapply know_in; exact Hu.
  - intros o' [H1 H2]. split.
    + intros l. apply know_mono; exact H1.
    + intros l Hl. apply in_map_iff in Hl as [u [Hu Hi]]. eapply know_mono; [|exact Hu].
      intros l' ->. apply H2; exact Hi.
Qed.
Lemma fold_add l : forall (w : world C) i p, pbs w i = Some p ->
  exists p', pbs (fold_left (fun w o => add_obstacle w i o) l w) i = Some p' /\ pObs p' = pObs p ++ l /\
    (forall o, In o l -> all_know (fold_left (fun w o => add_obstacle w i o) l w) p' o) /\
    (forall o, all_know w p o -> all_know (fold_left (fun w o => add_obstacle w i o) l w) p' o).
Proof.
  induction l as [|x l IH]; intros w i p H.
  - exists p. cbn [fold_left]. split; [exact H|]. split; [rewrite app_nil_r; reflexivity|]. split; [intros o []|auto].
  - destruct (C53_add w i p x H) as [p1 [H1 [H2 [H3 H4]]]].
    destruct (IH _ _ _ H1) as [p2 [G1 [G2 [G3 G4]]]]. exists p2. cbn [fold_left].
    split; [exact G1|]. split; [rewrite G2, H2, <- app_assoc; reflexivity|]. split.
    + intros o [<-|Ho]; [apply G4; exact H3|apply G3; exact Ho].
    + intros o Ho. apply G4, H4; exact Ho.
Qed.
(* collisionObstacles(l) makes l the list of obstacles, and every validation
   knows all of them. *)
Theorem C53_set : forall (w : world C) i p l, pbs w i = Some p ->
  exists p', pbs (set_obstacles w i l) i = Some p' /\ pObs p' = l /\
    forall o, In o l -> all_know (set_obstacles w i l) p' o.
Proof.
  intros w i p l H. unfold set_obstacles. rewrite H.
  destruct (fold_add l (put w i (set_obs p [])) i (set_obs p [])) as [p' [H1 [H2 [H3 _]]]].
  { cbn [put pbs]. apply upd_eq. }
  exists p'. split; [exact H1|]. split; [exact H2|exact H3].
Qed.

(* When the validations of a problem have been given exactly its obstacles,
   addObstacle keeps it so. Missing: other ways to change the obstacles or
   the validations, see C53_in_step_refuted. *)
Theorem C53_in_step_partial : forall (w : world C) i p o, pbs w i = Some p -> in_step w p ->
  exists p', pbs (add_obstacle w i o) i = Some p' /\ in_step (add_obstacle w i o) p'.
Proof.
  intros w i p o H [H1 H2]. unfold add_obstacle. rewrite H. cbn [pbs]. rewrite upd_eq.
  eexists; split; [reflexivity|]. unfold in_step; cbn [pvs cvs set_obs pPV pCV pObs]. rewrite !upd_eq. split.
  - intros l E. destruct (pvs w (pPV p)) as [l'|]; [|discriminate]. inversion E. rewrite (H1 l') by reflexivity. reflexivity.
  - intros l Hl. apply in_map_iff in Hl as [u [Hu Hi]]. destruct u as [l'|]; [|discriminate].
    inversion Hu. rewrite (H2 l' Hi). reflexivity.
Qed.

(* ------------------------------------------------- steering method *)
(* After any history, a problem which has constraints has a steering method
   which uses these constraints. *)
Theorem C56_steering_constraints : forall (l : list (wop C)) i p c,
  pbs (w_run l) i = Some p -> pConstr p = Some c -> pSMConstr p = Some c.
Proof.
  intros l i p c. rewrite w_run_rev. generalize (rev l) as h. clear l. intro h. revert i p c.
  induction h as [|o h IH]; intros i p c HP HC; [discriminate|].
  rewrite wrunr_cons in HP. set (w := wrunr h) in *.
  assert (ON : forall j f, (forall p, pConstr (f p) = pConstr p /\ pSMConstr (f p) = pSMConstr p) ->
    pbs (on w j f) i = Some p -> pSMConstr p = Some c).
  { intros j f Hf Hp. apply on_get in Hp as [[N Hp]|[-> [p' [Hp ->]]]]; [eapply IH; eassumption|].
    destruct (Hf p') as [F1 F2]. rewrite F1 in HC. rewrite F2. eapply IH; eassumption. }
  destruct o; cbn [w_step] in HP;
    try (eapply ON; [|exact HP]; intro; split; reflexivity); try (eapply IH; eassumption).
  - cbn in HP. unfold upd in HP. destruct (Nat.eqb i (npb w)); [|eapply IH; eassumption].
    inversion HP; subst. exact HC.
  - destruct (pbs w i0) as [p0|]; [|eapply IH; eassumption]. cbn in HP. unfold upd in HP.
    destruct (Nat.eqb i (npb w)); [|eapply IH; eassumption]. inversion HP; subst. exact HC.
  - destruct (add_obstacle_goals _ _ _ _ _ HP) as [p' [E1 [_ [E2 E3]]]].
    rewrite <- E2. rewrite <- E3 in HC. eapply IH; eassumption.
  - destruct (set_obstacles_goals _ _ _ _ _ HP) as [p' [E1 [_ [E2 E3]]]].
    rewrite <- E2. rewrite <- E3 in HC. eapply IH; eassumption.
  - destruct (pbs w i0); eapply IH; eassumption.
  - destruct (pbs w i0); eapply IH; eassumption.
  - apply on_get in HP as [[N Hp]|[-> [p' [Hp ->]]]]; [eapply IH; eassumption|].
    cbn [set_constraints pConstr pSMConstr] in *. exact HC.
  - apply on_get in HP as [[N Hp]|[-> [p' [Hp ->]]]]; [eapply IH; eassumption|].
    cbn [set_sm pConstr pSMConstr] in *. rewrite HC; reflexivity.
Qed.
End Statements.

(* ---------------------------------------------------------- examples *)
Example ex_check : well_posed true (Some 1) (fun q => Nat.leb q 5) Nat.odd (Some [3; 5]) /\
  checkProblem true (Some 1) (Some (fun q => Nat.leb q 5)) (Some Nat.odd) (Some [3; 5]) = Ok tt /\
  checkProblem true (Some 1) (Some (fun q => Nat.leb q 5)) (Some Nat.odd) (Some [3; 4]) = Throw.
Proof.
  repeat split.
  - exists 1; auto.
  - inversion H; subst; cbn [In] in H0; intuition; subst; reflexivity.
  - inversion H; subst; cbn [In] in H0; intuition; subst; reflexivity.
Qed.

Definition ex_wops : list (wop nat) :=
  [WCreate; WAddGoal 0 7; WAddGoal 0 8; WTask 0; WAddGoal 0 9; WAddObstacle 0 4; WAddGoal 0 2].
Example ex_wops_goals : born 0 (rev ex_wops) /\ goals_of 0 (rev ex_wops) [9; 2].
Proof.
  split.
  - cbn [ex_wops rev app born]. repeat split; discriminate.
  - cbn [ex_wops rev app]. apply (goals_add 0 2 _ [9]). apply goals_other; [exact I|].
    apply (goals_add 0 9 _ []). apply goals_task.
Qed.
Example ex_wops_in_step : exists p, pbs (w_run ex_wops) 0 = Some p /\ in_step (w_run ex_wops) p /\ pObs p = [4].
Proof.
  eexists; split; [reflexivity|]. split; [|reflexivity]. split; cbn.
  - intros l H; inversion H; reflexivity.
  - intros l [].
Qed.

(* A problem with goals, constraints, a chosen steering method and an
   obstacle: its copy has no goal, the default constraints and steering
   method, and a path validation which knows no obstacle; an obstacle added
   to the copy is also added to the configuration validations of the
   original. *)
Theorem C52_copy_refuted : exists (l : list (wop nat)) p c,
  pbs (w_run l) 0 = Some p /\ pbs (w_run (l ++ [WCopy 0])) 1 = Some c /\
  goalConfigs p = [7] /\ goalConfigs c = [] /\
  pConstr p = Some (User 3) /\ pConstr c = Some Default /\
  pSM p = User 4 /\ pSM c = Default /\
  pObs c = [4] /\ pvs (w_run (l ++ [WCopy 0])) (pPV p) = Some [4] /\
  pvs (w_run (l ++ [WCopy 0])) (pPV c) = Some [] /\
  cvs (w_run l) (pCV p) = [Some [4]] /\
  cvs (w_run (l ++ [WCopy 0; WAddObstacle 1 5])) (pCV p) = [Some [4; 5]].
Proof.
  exists [WCreate; WAddCV 0 true; WAddGoal 0 7; WConstraints 0 (Some (User 3)); WSteering 0 (User 4) None;
          WAddObstacle 0 4].
  eexists; eexists. repeat split; reflexivity.
Qed.

(* The validations of a problem do not follow its obstacles: a path
   validation which replaces the first one does not know them, nor does a
   configuration validation added later, and the validations keep the
   obstacles that collisionObstacles has replaced. *)
Theorem C53_in_step_refuted :
  (exists p, pbs (w_run (C:=nat) [WCreate; WAddObstacle 0 4; WNewPV true; WSetPV 0 1]) 0 = Some p /\
     pObs p = [4] /\ pvs (w_run (C:=nat) [WCreate; WAddObstacle 0 4; WNewPV true; WSetPV 0 1]) (pPV p) = Some []) /\
  (exists p, pbs (w_run (C:=nat) [WCreate; WAddObstacle 0 4; WAddCV 0 true]) 0 = Some p /\
     pObs p = [4] /\ cvs (w_run (C:=nat) [WCreate; WAddObstacle 0 4; WAddCV 0 true]) (pCV p) = [Some []]) /\
  (exists p, pbs (w_run (C:=nat) [WCreate; WAddObstacle 0 4; WObstacles 0 [5]]) 0 = Some p /\
     pObs p = [5] /\ pvs (w_run (C:=nat) [WCreate; WAddObstacle 0 4; WObstacles 0 [5]]) (pPV p) = Some [4; 5]).
Proof. repeat split; eexists; repeat split; reflexivity. Qed.

Print Assumptions C48_check.
Print Assumptions C49_goal_list.
Print Assumptions C52_copy_partial.
Print Assumptions C52_copy_refuted.
Print Assumptions C53_add.
Print Assumptions C53_set.
Print Assumptions C53_in_step_partial.
Print Assumptions C53_in_step_refuted.
Print Assumptions C56_steering_constraints.
