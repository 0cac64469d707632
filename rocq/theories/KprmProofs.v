From Verif Require Import Base Reach RoadmapModel RoadmapSpec RoadmapProofs RoadmapProofs2 RoadmapProofs3.
From Verif Require Import NearestModel NearestProofs NearestProps PlannerModel PlannerSpec PlannerProofs PlannerProofs2 PlannerProofs3.
From Verif Require Import KprmModel KprmSpec.

Section S.
Context {C P : Type}.
Notation rmS := (rm C P).
Implicit Types s t : rmS.
Variable ceqb : C -> C -> bool.
Variable dist : C -> C -> Q.
Variable plen : P -> Q.
Variable prev : P -> P.
Variable V : env C P.
Hypothesis HH : honest ceqb prev V.
Hypothesis HW : answers V.
Variable sel : list dn -> option (dn * list dn).
Hypothesis HS : is_heap sel.
Variable valid : C -> option C.
Variables N K maxTry : nat.
Hypothesis HK : 0 < K.
Variable OK : P -> Prop.
Hypothesis HOKP : forall p, OKP prev V p -> OK p.
Hypothesis HR : forall p, OK p -> OK (prev p).

Notation inv := (@inv C P).
Notation good := (good ceqb dist plen prev V OK).
Notation nearest := (nearest C P dist sel K).
Notation connect_one := (connect_one C P prev V).
Notation connect_all := (connect_all C P prev V).
Notation kstep := (kprm_step C P ceqb dist prev V sel valid N K maxTry).
Notation settled := (settled V).
Notation nearest_set := (nearest_set dist).
Notation handled := (handled dist V).
Notation exec := (exec dist V ceqb prev sel valid N K maxTry).

(* same nodes, more edges *)
Definition more s t : Prop := grows s t /\ nodes t = nodes s.
Lemma more_refl s : more s s. Proof. split; [apply grows_refl|reflexivity]. Qed.
Lemma more_trans s t u : more s t -> more t u -> more s u.
Proof. intros [A B] [A' B']; split; [eapply grows_trans; eassumption|congruence]. Qed.

Lemma good_nodes s n : good s -> In n (nodes s) <-> isn s n.
Proof.
  intro HG. pose proof (good_inv _ _ _ _ _ _ _ HG) as HI. split; [apply nodes_isn; exact HI|].
  intros [q Hq]; eapply cfg_in; eassumption.
Qed.
Lemma more_cfg s t n q : good s -> good t -> more s t -> (config_of t n q <-> config_of s n q).
Proof.
  intros Hs Ht [HM HN]. split; [|apply grows_cfg; exact HM].
  intro H. assert (In n (nodes s)) as Hn by (rewrite <- HN; apply good_nodes; [exact Ht|exists q; exact H]).
  apply good_nodes in Hn; [|exact Hs]. destruct Hn as [q' Hq'].
  pose proof (grows_cfg _ _ _ _ HM Hq') as H'. rewrite (cfg_fun _ _ _ _ H H'). exact Hq'.
Qed.
Lemma settled_more s t n m : more s t -> settled s n m -> settled t n m.
Proof.
  intros [HM _] [H|[a [b [H1 [H2 H3]]]]]; [left; apply (g_x _ _ HM); exact H|].
  right; exists a, b. split; [eapply grows_cfg; eassumption|]. split; [eapply grows_cfg; eassumption|exact H3].
Qed.
Lemma nearest_set_more s t n out : good s -> good t -> more s t -> nearest_set s K n out -> nearest_set t K n out.
Proof.
  intros Hs Ht HM [H1 [H2 [H3 H4]]]. pose proof HM as [_ HN]. split; [exact H1|]. rewrite HN. split; [exact H2|]. split; [exact H3|].
  intros a b qa qb q Ha Hb Hnb Ca Cb Cn.
  apply (proj1 (more_cfg s t _ _ Hs Ht HM)) in Ca. apply (proj1 (more_cfg s t _ _ Hs Ht HM)) in Cb.
  apply (proj1 (more_cfg s t _ _ Hs Ht HM)) in Cn.
  eapply H4; eassumption.
Qed.
Lemma handled_more s t n : good s -> good t -> more s t -> handled s K n -> handled t K n.
Proof.
  intros Hs Ht HM [out [H1 H2]]. exists out. split; [apply (nearest_set_more s t); assumption|].
  intros m Hm Hne. eapply settled_more; [exact HM|auto].
Qed.

Lemma nearest_ok s n : good s -> In n (nodes s) -> exists l, nearest s n = Ok l /\ nearest_set s K n l.
Proof.
  intros HG Hn. apply good_nodes in Hn as [q Hq]; [|exact HG]. unfold KprmModel.nearest.
  rewrite (cfg_ok _ _ _ Hq); cbn [bind].
  assert (Hne : nodes s <> []).
  { intro X. assert (In n (nodes s)) as Y by (apply good_nodes; [exact HG|exists q; exact Hq]). rewrite X in Y; exact Y. }
  destruct (C08_knearest_roadmap _ _ ceqb dist plen prev sel s q K HS (proj1 HG) HK Hne) as [out [m [-> [H1 [H2 [H3 [H4 _]]]]]]].
  cbn [bind fst]. exists out; split; [reflexivity|]. split; [exact H2|]. split; [exact H1|]. split; [exact H3|].
  intros a b qa qb q' Ha Hb Hnb Ca Cb Cn. rewrite (cfg_fun _ _ _ _ Cn Hq). eapply H4; eassumption.
Qed.

Lemma connect_one_ok s n m : good s -> In n (nodes s) -> In m (nodes s) ->
  exists t, connect_one s n m = Ok t /\ good t /\ more s t /\ (m <> n -> settled t n m).
Proof.
  intros HG Hn Hm. pose proof (good_inv _ _ _ _ _ _ _ HG) as HI.
  pose proof Hn as Hn0. pose proof Hm as Hm0.
  apply good_nodes in Hn as [qn [nn [En Cn]]]; [|exact HG]. apply good_nodes in Hm as [qm [nm [Em Cm]]]; [|exact HG].
  assert (Kn : config_of s n qn) by (exists nn; auto). assert (Km : config_of s m qm) by (exists nm; auto).
  unfold KprmModel.connect_one. rewrite Em, En.
  assert (K0 : settled s n m -> exists t, Ok s = Ok t /\ good t /\ more s t /\ (m <> n -> settled t n m)).
  { intro X. exists s. split; [reflexivity|]. split; [exact HG|]. split; [apply more_refl|auto]. }
  destruct (isOutNeighbor nm n || (n =? m))%bool eqn:Eb.
  - exists s. split; [reflexivity|]. split; [exact HG|]. split; [apply more_refl|]. intro Hne.
    apply Bool.orb_true_iff in Eb as [Eb|Eb]; [|apply Nat.eqb_eq in Eb; congruence].
    left. unfold isOutNeighbor in Eb. apply existsb_exists in Eb as [e [E1 E2]]. apply Nat.eqb_eq in E2.
    destruct (RoadmapProofs2.e_out _ (i_E _ HI) m nm e Em E1) as [E3 E4]. exists e; auto.
  - rewrite Cn, Cm.
    assert (NL : (forall p, ~ linkable V qn qm p) -> settled s n m).
    { intro X. right; exists qn, qm; auto. }
    destruct (e_sm V qn qm) as [p|] eqn:E1.
    2: { apply K0, NL. intros p [p0 [X _]]; congruence. }
    pose proof E1 as E1'. apply (h_sm _ _ _ HH) in E1' as [I1 I2].
    destruct (match e_proj V with None => (true, Some p) | Some f => f p end) as [b r] eqn:E2.
    assert (Hpr : forall p', b = true -> r = Some p' ->
              e_init V p' = qn /\ e_end V p' = qm /\ (e_proj V <> None -> projected prev V p') /\
              (forall x, linkable V qn qm x -> x = p')).
    { intros p' -> ->. unfold linkable. destruct (e_proj V) as [f|] eqn:Ef.
      - rewrite (h_proj _ _ _ HH _ _ _ _ Ef E2), (h_proj_ok _ _ _ HH _ _ _ Ef E2).
        split; [exact I1|]. split; [exact I2|]. split; [intros _; eapply proj_out; eassumption|].
        intros x [p0 [X1 [X2 _]]]. congruence.
      - injection E2 as <-. split; [exact I1|]. split; [exact I2|]. split; [congruence|].
        intros x [p0 [X1 [X2 _]]]. congruence. }
    destruct b.
    2: { apply K0, NL. intros x [p0 [X1 [X2 _]]]. rewrite E1 in X1; injection X1 as <-.
         destruct (e_proj V) as [f|]; [|discriminate]. congruence. }
    destruct r as [p'|].
    2: { exfalso. destruct (e_proj V) as [f|] eqn:Ef; [|discriminate]. apply (w_proj _ HW f p Ef E2). }
    destruct (Hpr p' eq_refl eq_refl) as [J1 [J2 [J3 J4]]].
    destruct (fst (e_val V p' false)) eqn:Ev.
    2: { apply K0, NL. intros x Hx. pose proof (J4 x Hx); subst x. destruct Hx as [p0 [_ [_ X]]]; congruence. }
    assert (Hok : OK p').
    { apply HOKP. split; [|exact J3]. destruct (e_val V p' false) as [b v] eqn:Ev'. cbn [fst] in Ev; subst b.
      eapply cert_whole; exact Ev'. }
    destruct (good_addEdges ceqb dist plen prev V OK HR (h_prev _ _ _ HH) s n m p' HG Hok) as [t [T1 [T2 T3]]].
    + rewrite J1; exact Kn.
    + rewrite J2; exact Km.
    + destruct (addEdges_spec prev s n m p' HI Hn0 Hm0) as [s1 [s2 [r1 [r2 [H1 [_ [_ [H4 [H5 [H6 _]]]]]]]]]].
      rewrite T1 in H1; injection H1 as <-.
      exists t. split; [exact T1|]. split; [exact T2|]. split.
      * split; [exact T3|]. rewrite (gr_nodes _ _ _ _ _ H5), (gr_nodes _ _ _ _ _ H4); reflexivity.
      * intros _. left. exists (mkEdge m n (prev p')). rewrite H6. split; [apply in_app_iff; right; right; left; reflexivity|auto].
Qed.
Lemma connect_all_ok n l : forall s, good s -> In n (nodes s) -> (forall m, In m l -> In m (nodes s)) ->
  exists t, connect_all s n l = Ok t /\ good t /\ more s t /\ forall m, In m l -> m <> n -> settled t n m.
Proof.
  induction l as [|m l IH]; intros s HG Hn Hl; cbn [KprmModel.connect_all].
  - exists s. split; [reflexivity|]. split; [exact HG|]. split; [apply more_refl|intros m []].
  - destruct (connect_one_ok s n m HG Hn) as [t [-> [T1 [T2 T3]]]]; [apply Hl; left; reflexivity|]. cbn [bind].
    destruct (IH t) as [u [-> [U1 [U2 U3]]]]; [exact T1|rewrite (proj2 T2); exact Hn|intros; rewrite (proj2 T2); apply Hl; right; assumption|].
    exists u. split; [reflexivity|]. split; [exact U1|]. split; [eapply more_trans; eassumption|].
    intros x [<-|Hx] Hne; [eapply settled_more; [exact U2|auto]|auto].
Qed.

(* ------------------------------------------------------ the initial and goal nodes *)
Lemma connect_goals_ok gs : forall s, good s -> (forall g, In g gs -> In g (nodes s)) ->
  exists t, connect_goals C P dist prev V sel K s gs = Ok t /\ good t /\ more s t /\
    forall g, In g gs -> (exists a, arc t a g) \/ handled t K g.
Proof.
  induction gs as [|g gs IH]; intros s HG Hgs; cbn [connect_goals].
  - exists s. split; [reflexivity|]. split; [exact HG|]. split; [apply more_refl|intros g []].
  - assert (Hg : In g (nodes s)) by (apply Hgs; left; reflexivity).
    destruct (nearest_ok s g HG Hg) as [l [-> Hl]]. cbn [bind].
    pose proof Hg as Hg'. apply good_nodes in Hg' as [qg [ng [Eg _]]]; [|exact HG]. rewrite Eg.
    assert (X : exists t, (match nin ng with [] => connect_all s g l | _ => Ok s end) = Ok t /\ good t /\ more s t /\
              ((exists a, arc t a g) \/ handled t K g)).
    { destruct (nin ng) as [|e es] eqn:En.
      - destruct (connect_all_ok g l s HG Hg (proj1 (proj2 Hl))) as [t [-> [T1 [T2 T3]]]].
        exists t. split; [reflexivity|]. split; [exact T1|]. split; [exact T2|]. right. exists l.
        split; [apply (nearest_set_more s t); assumption|exact T3].
      - exists s. split; [reflexivity|]. split; [exact HG|]. split; [apply more_refl|]. left.
        destruct (e_in _ (i_E _ (good_inv _ _ _ _ _ _ _ HG)) g ng e Eg) as [X1 X2]; [rewrite En; left; reflexivity|].
        exists (efrom e), e; auto. }
    destruct X as [t [-> [T1 [T2 T3]]]]. cbn [bind].
    destruct (IH t) as [u [-> [U1 [U2 U3]]]]; [exact T1|intros; rewrite (proj2 T2); apply Hgs; right; assumption|].
    exists u. split; [reflexivity|]. split; [exact U1|]. split; [eapply more_trans; eassumption|].
    intros x [<-|Hx]; [|auto]. destruct T3 as [[a Ha]|T3].
    + left; exists a. apply (g_x _ _ (proj1 U2)); exact Ha.
    + right. eapply handled_more; [exact T1|exact U1|exact U2|exact T3].
Qed.
Lemma connect_ends_ok s i : good s -> initN s = Some i ->
  exists t, connect_ends C P dist prev V sel K s = Ok t /\ good t /\ more s t /\
    ((exists a, arc t i a) \/ handled t K i) /\ forall g, In g (goals t) -> (exists a, arc t a g) \/ handled t K g.
Proof.
  intros HG Hi. pose proof (good_inv _ _ _ _ _ _ _ HG) as HI. unfold connect_ends. rewrite Hi.
  assert (Hin : In i (nodes s)) by (apply (proj1 (i_R _ HI)); exact Hi).
  pose proof Hin as Hq. apply good_nodes in Hq as [qi [ni [Ei _]]]; [|exact HG]. rewrite Ei.
  assert (X : exists t, (match nout ni with [] => bind (nearest s i) (fun l => connect_all s i l) | _ => Ok s end) = Ok t /\
            good t /\ more s t /\ ((exists a, arc t i a) \/ handled t K i)).
  { destruct (nout ni) as [|e es] eqn:En.
    - destruct (nearest_ok s i HG Hin) as [l [-> Hl]]. cbn [bind].
      destruct (connect_all_ok i l s HG Hin (proj1 (proj2 Hl))) as [t [-> [T1 [T2 T3]]]].
      exists t. split; [reflexivity|]. split; [exact T1|]. split; [exact T2|]. right. exists l.
      split; [apply (nearest_set_more s t); assumption|exact T3].
    - exists s. split; [reflexivity|]. split; [exact HG|]. split; [apply more_refl|]. left.
      destruct (RoadmapProofs2.e_out _ (i_E _ HI) i ni e Ei) as [X1 X2]; [rewrite En; left; reflexivity|].
      exists (eto e), e; auto. }
  destruct X as [t [-> [T1 [T2 T3]]]]. cbn [bind].
  destruct (connect_goals_ok (goals t) t T1) as [u [-> [U1 [U2 U3]]]].
  { intros g Hg. apply (i_R _ (good_inv _ _ _ _ _ _ _ T1)); exact Hg. }
  exists u. split; [reflexivity|]. split; [exact U1|]. split; [eapply more_trans; eassumption|]. split.
  - destruct T3 as [[a Ha]|T3]; [left; exists a; apply (g_x _ _ (proj1 U2)); exact Ha|].
    right. eapply handled_more; [exact T1|exact U1|exact U2|exact T3].
  - intros g Hg. apply U3. rewrite <- (g_goals _ _ (proj1 U2)). exact Hg.
Qed.

(* --------------------------------------------------------------------- the steps *)
Definition linking (k : kst C P) : Prop :=
  length (nodes (kr k)) = N /\
  exists seen, nodes (kr k) = seen ++ left_nodes k /\ (forall n, In n seen -> handled (kr k) K n) /\
    match left_nodes k with
    | [] => True
    | n :: _ => exists l0, nearest_set (kr k) K n (l0 ++ left_neigh k) /\ forall m, In m l0 -> m <> n -> settled (kr k) n m
    end.
(* what each phase guarantees; b: the planner went through the first two phases *)
Definition state_ok (b : bool) (k : kst C P) : Prop :=
  good (kr k) /\ initN (kr k) <> None /\
  match ph k with
  | Build => b = true /\ length (nodes (kr k)) <= N
  | Link => b = true /\ linking k
  | Connect => b = true -> length (nodes (kr k)) = N /\ forall n, In n (nodes (kr k)) -> handled (kr k) K n
  | Failure => (b = true -> length (nodes (kr k)) = N /\ forall n, In n (nodes (kr k)) -> handled (kr k) K n) /\
      (forall i, initN (kr k) = Some i -> (exists a, arc (kr k) i a) \/ handled (kr k) K i) /\
      forall g, In g (goals (kr k)) -> (exists a, arc (kr k) a g) \/ handled (kr k) K g
  end.
Definition weight (k : kst C P) : nat :=
  match ph k with
  | Build => (N - length (nodes (kr k))) + N * (K + 1) + 3
  | Link => match left_nodes k with
            | [] => 2
            | _ :: rest => length (left_neigh k) + 1 + length rest * (K + 1) + 2
            end
  | Connect => 1
  | Failure => 0
  end.
Definition progress (k k' : kst C P) : Prop :=
  rank (ph k) <= rank (ph k') /\ grows (kr k) (kr k') /\
  weight k' + 1 <= weight k + (if idle k k' then 1 else 0) /\
  (ph k <> Build -> nodes (kr k') = nodes (kr k)).

Lemma first_valid_spec k : forall sh,
  match first_valid C valid k sh with
  | Some q => exists i, i < k /\ valid (sh i) = Some q /\ forall j, j < i -> valid (sh j) = None
  | None => forall i, i < k -> valid (sh i) = None
  end.
Proof.
  induction k as [|k IH]; intro sh; cbn [first_valid]; [intros i Hi; lia|].
  destruct (valid (sh 0)) as [q|] eqn:E; [exists 0; split; [lia|split; [exact E|intros; lia]]|].
  specialize (IH (fun i => sh (S i))). destruct (first_valid C valid k (fun i => sh (S i))) as [q|].
  - destruct IH as [i [H1 [H2 H3]]]. exists (S i). split; [lia|]. split; [exact H2|].
    intros [|j] Hj; [exact E|apply H3; lia].
  - intros [|i] Hi; [exact E|apply IH; lia].
Qed.
Lemma nearest_len s n l : nearest_set s K n l -> length l <= K.
Proof. intros [_ [_ [H _]]]; rewrite H; lia. Qed.

Lemma step_ok' b k x : state_ok b k ->
  match kstep k x with
  | Ok k' => state_ok b k' /\ progress k k'
  | Throw => ph k = Failure \/ (ph k = Build /\ forall i, i < maxTry -> valid (x i) = None)
  | _ => False
  end.
Proof.
  intros [HG [Hi HP]]. unfold kprm_step. destruct (ph k) eqn:Eph.
  - (* Build *)
    destruct HP as [-> HL]. unfold gen. destruct (Nat.ltb_spec (length (nodes (kr k))) N) as [Hlt|Hge].
    + pose proof (first_valid_spec maxTry x) as HF.
      destruct (first_valid C valid maxTry x) as [q|]; [|right; auto].
      destruct (good_addNode ceqb dist plen prev V OK (h_eq _ _ _ HH) (kr k) q HG) as [n [t [E1 [T1 [T2 T3]]]]].
      rewrite E1; cbn [bind].
      assert (HLT : length (nodes t) = length (nodes (kr k)) \/ length (nodes t) = S (length (nodes (kr k)))).
      { destruct (addNode_cases ceqb dist (kr k) q (good_inv _ _ _ _ _ _ _ HG)) as [[m [X _]]|[X _]]; rewrite E1 in X.
        - injection X as -> ->. auto.
        - injection X as -> ->. right. cbn [nodes newNode snd]. rewrite app_length; cbn [length]; lia. }
      split.
      * split; [exact T1|]. split; [cbn [kr]; rewrite (g_init _ _ T2); exact Hi|]. cbn [ph kr]. split; [reflexivity|lia].
      * split; [rewrite Eph; cbn; lia|]. split; [exact T2|]. split; [|congruence].
        unfold weight, idle. rewrite Eph. cbn [ph kr].
        destruct (Nat.eqb_spec (length (nodes (kr k))) (length (nodes t))); lia.
    + assert (EN : length (nodes (kr k)) = N) by lia.
      assert (exists n l, nodes (kr k) = n :: l) as [n [l En]].
      { destruct (initN (kr k)) as [i|] eqn:Ei; [|congruence].
        assert (In i (nodes (kr k))) as Hn by (apply (proj1 (i_R _ (good_inv _ _ _ _ _ _ _ HG))); exact Ei).
        destruct (nodes (kr k)) as [|n l]; [destruct Hn|eauto]. }
      rewrite En. destruct (nearest_ok (kr k) n HG) as [nl [-> Hnl]]; [rewrite En; left; reflexivity|]. cbn [bind].
      split.
      * split; [exact HG|]. split; [exact Hi|]. cbn [ph kr]. split; [reflexivity|]. split; [exact EN|].
        exists []. cbn [left_nodes left_neigh kr app]. split; [exact En|]. split; [intros m []|].
        exists []. split; [exact Hnl|intros m []].
      * split; [rewrite Eph; cbn; lia|]. split; [apply grows_refl|]. split; [|congruence].
        unfold weight, idle. rewrite Eph. cbn [ph kr left_nodes left_neigh].
        pose proof (nearest_len _ _ _ Hnl). rewrite En in EN |- *. cbn [length] in EN |- *. nia.
  - (* Link *)
    destruct HP as [-> [EN [seen [E1 [E2 E3]]]]]. unfold KprmModel.link. destruct (left_nodes k) as [|n rest] eqn:El.
    + split.
      * split; [exact HG|]. split; [exact Hi|]. cbn [ph kr]. intros _. split; [exact EN|].
        intros m Hm. apply E2. rewrite E1, app_nil_r in Hm. exact Hm.
      * split; [rewrite Eph; cbn; lia|]. split; [apply grows_refl|]. split; [|reflexivity].
        unfold weight, idle. rewrite Eph, El. cbn [ph kr]. lia.
    + destruct E3 as [l0 [F1 F2]].
      assert (Hn : In n (nodes (kr k))) by (rewrite E1; apply in_app_iff; right; left; reflexivity).
      destruct (left_neigh k) as [|m l] eqn:Eg.
      * assert (Hh : handled (kr k) K n) by (exists l0; rewrite app_nil_r in F1; auto).
        assert (E1' : nodes (kr k) = (seen ++ [n]) ++ rest) by (rewrite <- app_assoc; exact E1).
        assert (Hs : forall x, In x (seen ++ [n]) -> handled (kr k) K x).
        { intros x0 Hx. apply in_app_iff in Hx as [Hx|[<-|[]]]; auto. }
        destruct rest as [|n' rest'].
        -- split.
           ++ split; [exact HG|]. split; [exact Hi|]. cbn [ph kr]. split; [reflexivity|]. split; [exact EN|].
              exists (seen ++ [n]). cbn [left_nodes kr]. auto.
           ++ split; [rewrite Eph; cbn; lia|]. split; [apply grows_refl|]. split; [|reflexivity].
              unfold weight, idle. rewrite Eph, El, Eg. cbn [ph kr left_nodes length]. lia.
        -- destruct (nearest_ok (kr k) n' HG) as [nl [-> Hnl]].
           { rewrite E1'. apply in_app_iff; right; left; reflexivity. }
           cbn [bind]. split.
           ++ split; [exact HG|]. split; [exact Hi|]. cbn [ph kr]. split; [reflexivity|]. split; [exact EN|].
              exists (seen ++ [n]). cbn [left_nodes left_neigh kr]. split; [exact E1'|]. split; [exact Hs|].
              exists []. split; [exact Hnl|intros m []].
           ++ split; [rewrite Eph; cbn; lia|]. split; [apply grows_refl|]. split; [|reflexivity].
              unfold weight, idle. rewrite Eph, El, Eg. cbn [ph kr left_nodes left_neigh length].
              pose proof (nearest_len _ _ _ Hnl). nia.
      * assert (Hm : In m (nodes (kr k))) by (apply (proj1 (proj2 F1)); apply in_app_iff; right; left; reflexivity).
        destruct (connect_one_ok (kr k) n m HG Hn Hm) as [t [-> [T1 [T2 T3]]]]. cbn [bind].
        split.
        -- split; [exact T1|]. split; [cbn [kr]; rewrite (g_init _ _ (proj1 T2)); exact Hi|].
           cbn [ph kr]. split; [reflexivity|]. unfold linking. cbn [kr left_nodes left_neigh].
           rewrite (proj2 T2). split; [exact EN|]. exists seen. split; [exact E1|].
           split; [intros x0 Hx; eapply handled_more; [exact HG|exact T1|exact T2|auto]|].
           exists (l0 ++ [m]). rewrite <- app_assoc. cbn [app]. split; [apply (nearest_set_more (kr k) t); assumption|].
           intros x0 Hx Hne. apply in_app_iff in Hx as [Hx|[<-|[]]]; [eapply settled_more; [exact T2|auto]|auto].
        -- split; [rewrite Eph; cbn; lia|]. split; [apply T2|]. split; [|intros _; apply T2].
           unfold weight, idle. rewrite Eph, El, Eg. cbn [ph kr left_nodes left_neigh length]. lia.
  - (* Connect *)
    destruct (initN (kr k)) as [i|] eqn:Ei; [|congruence].
    destruct (connect_ends_ok (kr k) i HG Ei) as [t [-> [T1 [T2 [T3 T4]]]]]. cbn [bind]. split.
    + split; [exact T1|]. split; [cbn [kr]; rewrite (g_init _ _ (proj1 T2)); congruence|].
      cbn [ph kr]. split; [|split].
      * intro Hb. destruct (HP Hb) as [X Y]. rewrite (proj2 T2). split; [exact X|].
        intros n Hn. eapply handled_more; [exact HG|exact T1|exact T2|auto].
      * intros i' Hi'. rewrite (g_init _ _ (proj1 T2)), Ei in Hi'. injection Hi' as <-. exact T3.
      * exact T4.
    + split; [rewrite Eph; cbn; lia|]. split; [apply T2|]. split; [|intros _; apply T2].
      unfold weight, idle. rewrite Eph. cbn [ph]. lia.
  - left; reflexivity.
Qed.

Lemma exec_ok b k n i (t : kst C P) : state_ok b k -> exec k n i t ->
  state_ok b t /\ rank (ph k) <= rank (ph t) /\ grows (kr k) (kr t) /\ weight t + n <= weight k + i.
Proof.
  intros Hk H. induction H as [|n i t x u H [IH1 [IH2 [IH3 IH4]]] Hs].
  - split; [exact Hk|]. split; [lia|]. split; [apply grows_refl|lia].
  - pose proof (step_ok' b t x IH1) as X. rewrite Hs in X. destruct X as [X1 [X2 [X3 [X4 _]]]].
    split; [exact X1|]. split; [lia|]. split; [eapply grows_trans; eassumption|].
    destruct (idle t u); lia.
Qed.
End S.
