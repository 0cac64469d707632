(* The steps of bidirectional RRT* keep both trees. *)
From Verif Require Import Base Reach RoadmapModel RoadmapSpec RoadmapProofs RoadmapProofs2 RoadmapProofs3 RoadmapProofs4.
From Verif Require Import NearestModel NearestProofs PlannerModel PlannerSpec PlannerProofs PlannerProofs2.
From Verif Require Import StarModel StarSpec StarProofs StarProofs2.
From Coq Require Import Lqa.

Section S.
Context {C P : Type}.
Notation rmS := (rm C P).
Implicit Types s t : rmS.
Variable ceqb : C -> C -> bool.
Variable dist : C -> C -> Q.
Variable plen : P -> Q.
Variable prev : P -> P.
Variable V : env C P.
Hypothesis HH : honest ceqb prev V.
Hypothesis HW : answers V.
Hypothesis HL : forall p, (0 <= plen p)%Q.
Hypothesis HLR : forall p, (plen (prev p) == plen p)%Q.
Variable OK : P -> Prop.
Hypothesis HOKP : forall p, OKP prev V p -> OK p.
Hypothesis HREV : forall p, OK p -> OK (prev p).

Notation inv := (@inv C P).
Notation certified := (certified prev V).
Notation projected := (projected prev V).
Notation OKP := (OKP prev V).
Notation built_with := (built_with ceqb dist plen prev).
Notation cost_to := (cost_to plen).
Notation tree := (@tree C P plen).
Notation lowered := (lowered plen).
Notation pm := (pmap P).
Notation addNode := (addNode C P ceqb dist).
Implicit Types m : pm.

(* ------------------------------------------------------------------ outcomes *)
Notation extract_throws := (extract_throws V).
Notation outcome := (outcome V).
Lemma sf_bind fl {A B} (r : res A) (f : A -> res B) (Q : A -> Prop) (R : B -> Prop) :
  outcome fl r Q -> (forall a, Q a -> outcome fl (f a) R) -> outcome fl (bind r f) R.
Proof. destruct r; cbn [outcome bind]; auto. Qed.
Lemma sf_mono fl {A} (r : res A) (Q R : A -> Prop) : outcome fl r Q -> (forall a, Q a -> R a) -> outcome fl r R.
Proof. destruct r; cbn [outcome]; auto. Qed.
Lemma sf_weak (fl fl' : Prop) {A} (r : res A) (Q : A -> Prop) : (fl -> fl') -> outcome fl r Q -> outcome fl' r Q.
Proof. destruct r; cbn [outcome]; auto. Qed.

(* ------------------------------------------------------------------ roadmaps *)
Notation sound_rm := (sound_rm ceqb dist plen prev V OK).
Lemma g2_inv s : sound_rm s -> inv s.
Proof. intros [H _]. apply (built_inv ceqb dist plen prev), (built_weaken _ _ _ _ _ _ H). Qed.
Definition sup s t : Prop := grows s t /\ incl (edges s) (edges t).
Lemma sup_refl s : sup s s. Proof. split; [apply grows_refl|apply incl_refl]. Qed.
Lemma sup_trans s t u : sup s t -> sup t u -> sup s u.
Proof. intros [A B] [D F]; split; [eapply grows_trans; eassumption|eapply incl_tran; eassumption]. Qed.
Lemma sup_cfg s t n q : sup s t -> config_of s n q -> config_of t n q.
Proof. intros [H _]; apply grows_cfg; exact H. Qed.
Lemma sup_in s t n : sup s t -> In n (nodes s) -> In n (nodes t).
Proof. intros [H _]. apply (g_x _ _ H). Qed.
Lemma sup_tree s t root m : sup s t -> tree s root m -> tree t root m.
Proof. intros [_ H]; apply tree_edges; exact H. Qed.
Lemma mut_incl s t a b : incl (edges s) (edges t) -> mut s a b -> mut t a b.
Proof.
  intros H [A B]; split; (eapply reach_mono; [|eassumption]); intros x y [e [E1 E2]]; exists e; split; auto.
Qed.
Lemma sup_mut s t a b : sup s t -> mut s a b -> mut t a b.
Proof. intros [_ H]; apply mut_incl; exact H. Qed.
Lemma mut_refl s a : mut s a a. Proof. split; apply reach_refl. Qed.
Lemma mut_sym s a b : mut s a b -> mut s b a. Proof. intros [A B]; split; assumption. Qed.
Lemma mut_trans s a b c : mut s a b -> mut s b c -> mut s a c.
Proof. intros [A B] [D F]; split; eapply reach_trans; eassumption. Qed.
Lemma comp_mut s a b ca cb : sound_rm s -> comp_of s a ca -> comp_of s b cb -> (ca = cb <-> mut s a b).
Proof. intros [H _] Ha Hb. apply (scc_l ceqb dist plen prev s a b ca cb H Ha Hb). Qed.

Lemma s_addNode s q : sound_rm s -> exists n t, addNode s q = Ok (n, t) /\ sound_rm t /\ sup s t /\ config_of t n q /\
  edges t = edges s /\ (forall x, In x (nodes t) -> In x (nodes s) \/ x = n).
Proof.
  intro HG. assert (HI := g2_inv s HG). destruct HG as [HB HE].
  assert (HG' : good ceqb dist plen prev V OK s) by (split; [apply (built_weaken _ _ _ _ _ _ HB)|exact HE]).
  destruct (good_addNode ceqb dist plen prev V OK (h_eq _ _ _ HH) s q HG') as [n [t [H1 [[_ H2] [H3 H4]]]]].
  destruct (addNode_spec ceqb dist s q HI) as [n' [t' [X1 [_ [_ [_ [_ [X2 _]]]]]]]].
  rewrite H1 in X1. injection X1 as <- <-.
  exists n, t. split; [exact H1|]. split.
  - split; [|exact H2]. eapply builtw_step with (o := OAddNode q); [exact HB|reflexivity|discriminate|].
    cbn [step]. rewrite H1; reflexivity.
  - split; [split; [exact H3|rewrite X2; apply incl_refl]|]. split; [exact H4|]. split; [exact X2|].
    intros x Hx. destruct (addNode_cases ceqb dist s q HI) as [[k [E _]]|[E _]]; rewrite E in H1; injection H1 as <- <-; auto.
    cbn [newNode snd fst nodes] in Hx |- *. apply in_app_iff in Hx as [Hx|[Hx|[]]]; auto.
Qed.
Lemma s_addEdge s a b p : sound_rm s -> OK p -> config_of s a (e_init V p) -> config_of s b (e_end V p) ->
  exists t, addEdge s a b p = Ok t /\ sound_rm t /\ sup s t /\ nodes t = nodes s /\ In (mkEdge a b p) (edges t).
Proof.
  intros HG HO Ha Hb. assert (HI := g2_inv s HG). destruct HG as [HB HE].
  assert (HG' : good ceqb dist plen prev V OK s) by (split; [apply (built_weaken _ _ _ _ _ _ HB)|exact HE]).
  destruct (good_addEdge ceqb dist plen prev V OK s a b p HG' HO Ha Hb) as [t [H1 [[_ H2] H3]]].
  destruct (addEdge_spec s a b p HI (cfg_in _ _ _ HI Ha) (cfg_in _ _ _ HI Hb)) as [t' [r [X1 [_ [X3 [X4 _]]]]]].
  rewrite H1 in X1. injection X1 as <-.
  exists t. split; [exact H1|]. split.
  - split; [|exact H2]. eapply builtw_step with (o := OAddEdge a b p); [exact HB|reflexivity|discriminate|exact H1].
  - split; [split; [exact H3|rewrite X4; apply incl_appl, incl_refl]|]. split; [apply X3|].
    rewrite X4. apply in_or_app; right; left; reflexivity.
Qed.
(* an edge and the reverse edge *)
Lemma s_edges2 s a b p : sound_rm s -> OK p -> config_of s a (e_init V p) -> config_of s b (e_end V p) ->
  exists s1 t, addEdge s a b p = Ok s1 /\ addEdge s1 b a (prev p) = Ok t /\ sound_rm t /\ sup s t /\ nodes t = nodes s /\
    In (mkEdge a b p) (edges t) /\ In (mkEdge b a (prev p)) (edges t) /\ mut t a b.
Proof.
  intros H1 H2 H3 H4. destruct (s_addEdge s a b p H1 H2 H3 H4) as [s1 [A1 [A2 [A3 [A4 A5]]]]].
  destruct (h_prev _ _ _ HH p) as [X Y].
  destruct (s_addEdge s1 b a (prev p)) as [t [B1 [B2 [B3 [B4 B5]]]]]; [exact A2|auto| | |].
  - rewrite X. eapply sup_cfg; eassumption.
  - rewrite Y. eapply sup_cfg; eassumption.
  - exists s1, t. split; [exact A1|]. split; [exact B1|]. split; [exact B2|]. split; [eapply sup_trans; eassumption|].
    split; [congruence|]. split; [apply B3; exact A5|]. split; [exact B5|].
    split; apply reach_one; [exists (mkEdge a b p)|exists (mkEdge b a (prev p))]; (split; [|split; reflexivity]); [apply B3; exact A5|exact B5].
Qed.
Lemma in_cfg s n : inv s -> In n (nodes s) -> exists q, config_of s n q.
Proof. intros HI Hn. apply (nodes_isn s n HI Hn). Qed.
Lemma cc_of s n : inv s -> In n (nodes s) -> exists c, ccN C P s n = Ok c /\ comp_of s n c /\ In c (live s).
Proof.
  intros HI Hn. destruct (cof_ex s n (w_N _ (i_wf _ HI)) Hn) as [c [[nd [H1 H2]] H3]].
  exists c. unfold ccN. rewrite H1, H2. split; [reflexivity|]. split; [exists nd; auto|exact H3].
Qed.

(* --------------------------------------------------------------------- paths *)
Notation buildPath := (buildPath C P plen V).
Lemma buildPath_ok q0 q1 limit b : outcome False (buildPath q0 q1 limit b) (fun r =>
  (forall p, snd r = Some p -> e_init V p = q0 /\ (e_proj V <> None -> projected p) /\ (b = true -> certified p) /\
     (fst r = true -> b = false -> (limit <= 0)%Q -> e_end V p = q1)) /\
  (fst r = true -> b = false -> snd r <> None)).
Proof.
  unfold StarModel.buildPath. destruct (e_sm V q0 q1) as [p|] eqn:E1; [|split; [discriminate|discriminate]].
  apply (h_sm _ _ _ HH) in E1 as [E1 E2].
  assert (K : forall ok p1, match e_proj V with None => (true, Some p) | Some f => f p end = (ok, Some p1) ->
    e_init V p1 = q0 /\ (ok = true -> e_end V p1 = q1) /\ (e_proj V <> None -> projected p1)).
  { intros ok p1. destruct (e_proj V) as [f|] eqn:E3; intro Hr.
    - rewrite (h_proj _ _ _ HH _ _ _ _ E3 Hr). split; [exact E1|]. split; [|intros _; eapply proj_out; eassumption].
      intros ->. rewrite (h_proj_ok _ _ _ HH _ _ _ E3 Hr). exact E2.
    - injection Hr as <- <-. split; [exact E1|]. split; [intros _; exact E2|congruence]. }
  destruct (match e_proj V with None => (true, Some p) | Some f => f p end) as [ok [p1|]] eqn:E3; [|split; [discriminate|discriminate]].
  destruct (K ok p1 eq_refl) as [K1 [K2 K3]]. clear K.
  apply sf_bind with (Q := fun p2 => e_init V p2 = q0 /\ (e_proj V <> None -> projected p2) /\ ((limit <= 0)%Q -> p2 = p1)).
  - assert (B : outcome False (Ok p1) (fun p2 => e_init V p2 = q0 /\ (e_proj V <> None -> projected p2) /\ ((limit <= 0)%Q -> p2 = p1)))
      by (split; [exact K1|split; [exact K3|reflexivity]]).
    destruct (Qlt_le_dec 0 limit) as [Hl|]; [|exact B]. destruct (Qlt_le_dec limit (plen p1)); [|exact B].
    destruct (w_cut _ HW p1 limit) as [W1 W2]. destruct (e_cut V p1 limit) as [p2| | |] eqn:E4; cbn [outcome]; try congruence.
    + rewrite (h_cut _ _ _ HH _ _ _ E4). split; [exact K1|]. split; [intro X; eapply proj_cut; [apply K3; exact X|exact E4]|]. intro; lra.
    + exists p1, limit; exact E4.
  - intros p2 [P1 [P2 P3]]. destruct b.
    + destruct (e_val V p2 false) as [b v] eqn:E5. split; [|discriminate]. cbn [snd fst]. intros p3 ->.
      rewrite (h_val_fwd _ _ _ HH _ _ _ E5). split; [exact P1|].
      split; [intro X; eapply proj_part; [apply P2; exact X|exact E5]|]. split; [intros _; eapply cert_part; exact E5|discriminate].
    + split; [|discriminate]. cbn [snd fst]. intros p3 X; injection X as <-. split; [exact P1|]. split; [exact P2|]. split; [discriminate|].
      intros Ho _ Hl. rewrite (P3 Hl). auto.
Qed.

(* ------------------------------------------------------------------- parents *)
Definition joins s (q : C) (n : nat) (p : P) : Prop :=
  config_of s n (e_init V p) /\ e_end V p = q /\ (e_proj V <> None -> projected p).
Definition pinfo s q (n : nat) (x : tried P) : Prop :=
  forall p, snd x = Some p -> joins s q n p /\ (fst x = true -> certified p).
Definition chosen s m q (c : choice P) : Prop :=
  let '(cost, best, path) := c in
  (exists cb, cost_to m best cb /\ cost = (cb + plen path)%Q) /\ joins s q best path /\ certified path.
Definition costof (c : choice P) : Q := fst (fst c).
Notation choose := (choose C P plen V).
(* the path tried from a near node *)
Definition trial q qn (p : P) : Prop := buildPath qn q (-(1))%Q false = Ok (true, Some p) /\ fst (e_val V p false) = true.
Lemma trial_of q qn p : StarSpec.trial V q qn p -> trial q qn p.
Proof.
  intros [p0 [H1 [H2 H3]]]. split; [|exact H3]. unfold StarModel.buildPath. rewrite H1.
  destruct (e_proj V) as [f|]; [rewrite H2|subst p]; reflexivity.
Qed.
(* the choice is as good as the trial from any node of the list, n0 excepted *)
Definition best_of_list s m q (n0 : nat) (l : list nat) (c : choice P) : Prop :=
  forall n qn cn p, In n l -> n <> n0 -> config_of s n qn -> cost_to m n cn -> trial q qn p -> (costof c <= cn + plen p)%Q.
Lemma choose_ok s root m q n0 p0 fixed : inv s -> In root (nodes s) -> tree s root m ->
  (fixed = None \/ fixed = Some (n0, p0)) -> joins s q n0 p0 -> certified p0 ->
  forall nears c, (forall n, In n nears -> m n <> None) -> chosen s m q c ->
  (snd (fst c) = n0 \/ exists qb, config_of s (snd (fst c)) qb /\ trial q qb (snd c)) ->
  outcome False (choose s m q fixed nears c) (fun '(paths, c') =>
    chosen s m q c' /\ (costof c' <= costof c)%Q /\
    (forall n x, In (n, x) (combine nears paths) -> m n <> None /\ pinfo s q n x) /\ best_of_list s m q n0 nears c' /\
    (forall n qn p, In n nears -> n <> n0 -> config_of s n qn -> trial q qn p -> exists ran, In (n, (ran, Some p)) (combine nears paths))).
Proof.
  intros HI HR HT HF J0 C0. induction nears as [|n nears IH]; intros c HN HC HB; cbn [StarModel.choose].
  - split; [exact HC|]. split; [lra|]. split; [intros n x []|]. split; [intros n qn cn p []|intros n qn p []].
  - destruct c as [[cost best] path]. cbn [fst snd] in HB.
    assert (Kn : m n <> None) by (apply HN; left; reflexivity).
    pose proof HC as [[cb [Cb Ec]] [Jb Cp]].
    apply sf_bind with (Q := fun tc => chosen s m q (snd tc) /\ (costof (snd tc) <= cost)%Q /\ pinfo s q n (fst tc) /\
      (snd (fst (snd tc)) = n0 \/ exists qb, config_of s (snd (fst (snd tc))) qb /\ trial q qb (snd (snd tc))) /\
      (forall qn cn p, n <> n0 -> config_of s n qn -> cost_to m n cn -> trial q qn p -> (costof (snd tc) <= cn + plen p)%Q) /\
      (forall qn p, n <> n0 -> config_of s n qn -> trial q qn p -> snd (fst tc) = Some p)).
    + destruct (Nat.eqb_spec n (fst (match fixed with Some x => x | None => (best, path) end))) as [Ee|Ne].
      * split; [exact HC|]. split; [unfold costof; cbn; lra|]. split.
        { intros p Hp. cbn [snd fst] in *. injection Hp as <-.
          destruct HF as [->| ->]; cbn [fst snd] in *; subst n; auto. }
        split; [exact HB|]. split.
        2: { intros qn p Hn0 Hq Ht. cbn [snd fst]. destruct HF as [->| ->]; cbn [fst snd] in Ee |- *; [|congruence]. subst n.
             destruct HB as [->|[qb [B1 B2]]]; [congruence|]. cbn [snd] in B2.
             pose proof (cfg_fun _ _ _ _ B1 Hq). subst qb.
             destruct B2 as [B2 _], Ht as [Ht _]. rewrite B2 in Ht. congruence. }
        intros qn cn p Hn0 Hq Hcn Ht. cbn [snd]. unfold costof; cbn [fst].
        destruct HF as [->| ->]; cbn [fst] in Ee; [|congruence]. subst n.
        destruct HB as [->|[qb [B1 B2]]]; [congruence|]. cbn [snd] in B2.
        pose proof (cfg_fun _ _ _ _ B1 Hq). subst qb.
        destruct B2 as [B2 _], Ht as [Ht _]. rewrite B2 in Ht. injection Ht as <-.
        pose proof (cost_fun _ _ _ _ Cb _ Hcn). subst. lra.
      * destruct (in_cfg s n HI (tree_nodes _ _ _ _ _ HI HR HT Kn)) as [qn Hqn].
        rewrite (cfg_ok _ _ _ Hqn); cbn [bind].
        assert (KK : forall r, buildPath qn q (-(1))%Q false = r -> outcome False (bind r (fun r =>
          match r with
          | (true, Some p) =>
              bind (cost_of C P plen s m n) (fun cn =>
              if Qlt_le_dec (cn + plen p)%Q cost
              then if fst (e_val V p false) then Ok ((true, Some p), ((cn + plen p)%Q, n, p)) else Ok ((true, None), (cost, best, path))
              else Ok ((false, Some p), (cost, best, path)))
          | (true, None) => UB
          | (false, _) => Ok ((false, None), (cost, best, path))
          end)) (fun tc : tried P * choice P => chosen s m q (snd tc) /\ (costof (snd tc) <= cost)%Q /\ pinfo s q n (fst tc) /\
          (snd (fst (snd tc)) = n0 \/ exists qb, config_of s (snd (fst (snd tc))) qb /\ trial q qb (snd (snd tc))) /\
          (forall qn cn p, n <> n0 -> config_of s n qn -> cost_to m n cn -> trial q qn p -> (costof (snd tc) <= cn + plen p)%Q) /\
          (forall qn p, n <> n0 -> config_of s n qn -> trial q qn p -> snd (fst tc) = Some p))).
        2: { apply KK; reflexivity. }
        intros r Hr. pose proof (buildPath_ok qn q (-(1))%Q false) as HP. rewrite Hr in HP.
        destruct r as [[ok op]| | |]; cbn [bind]; try exact HP. destruct HP as [HP1 HP2]. cbn [fst snd] in HP1, HP2.
        assert (NEVER : ok = false \/ (exists p, op = Some p /\ (fst (e_val V p false) = false)) ->
           forall qn0 cn p, n <> n0 -> config_of s n qn0 -> cost_to m n cn -> trial q qn0 p -> (cost <= cn + plen p)%Q).
        { intros Hx qn0 cn p _ Hq _ [T1 T2]. pose proof (cfg_fun _ _ _ _ Hqn Hq). subst qn0. rewrite Hr in T1.
          injection T1 as -> ->. destruct Hx as [|[p' [X Y]]]; [discriminate|]. injection X as <-. congruence. }
        assert (NEV2 : ok = false \/ (exists p, op = Some p /\ (fst (e_val V p false) = false)) ->
           forall y qn0 p, n <> n0 -> config_of s n qn0 -> trial q qn0 p -> y = Some p).
        { intros Hx y qn0 p _ Hq [T1 T2]. pose proof (cfg_fun _ _ _ _ Hqn Hq). subst qn0. rewrite Hr in T1.
          injection T1 as -> ->. destruct Hx as [|[p' [X Y]]]; [discriminate|]. injection X as <-. congruence. }
        destruct ok.
        2: { split; [exact HC|]. split; [unfold costof; cbn; lra|]. split; [intros p Hp; discriminate|]. split; [exact HB|].
             split; [apply NEVER; auto|apply NEV2; auto]. }
        destruct op as [p|]; [|apply HP2; reflexivity].
        destruct (HP1 p eq_refl) as [P1 [P2 [_ P4]]].
        assert (Jn : joins s q n p).
        { split; [rewrite P1; exact Hqn|]. split; [|exact P2]. apply P4; try reflexivity. lra. }
        apply (t_cost _ _ _ _ HT) in Kn as [cn Hcn]. rewrite (cost_of_ok plen s root m n cn HI HR HT Hcn); cbn [bind].
        destruct (Qlt_le_dec (cn + plen p) cost) as [Hlt|Hge].
        -- destruct (fst (e_val V p false)) eqn:Ev.
           ++ assert (CP : certified p). { destruct (e_val V p false) as [b v] eqn:E5. cbn [fst] in Ev. subst b. eapply cert_whole; exact E5. }
              split; [split; [exists cn; split; [exact Hcn|reflexivity]|split; assumption]|].
              split; [unfold costof; cbn; lra|]. split; [intros p' Hp'; cbn [snd fst] in *; injection Hp' as <-; auto|].
              split; [right; exists qn; split; [exact Hqn|split; assumption]|].
              split; [|intros qn0 p' _ Hq [T1 T2]; pose proof (cfg_fun _ _ _ _ Hqn Hq); subst qn0; rewrite Hr in T1; injection T1 as <-; reflexivity].
              intros qn0 cn0 p' _ Hq Hc0 [T1 T2]. pose proof (cfg_fun _ _ _ _ Hqn Hq). subst qn0. rewrite Hr in T1. injection T1 as <-.
              pose proof (cost_fun _ _ _ _ Hcn _ Hc0). subst. unfold costof; cbn [snd fst]. lra.
           ++ split; [exact HC|]. split; [unfold costof; cbn; lra|]. split; [intros p' Hp'; discriminate|]. split; [exact HB|].
              split; [apply NEVER; eauto|apply NEV2; eauto].
        -- split; [exact HC|]. split; [unfold costof; cbn; lra|].
           split; [intros p' Hp'; cbn [snd fst] in *; injection Hp' as <-; split; [exact Jn|discriminate]|]. split; [exact HB|].
           split; [|intros qn0 p' _ Hq [T1 T2]; pose proof (cfg_fun _ _ _ _ Hqn Hq); subst qn0; rewrite Hr in T1; injection T1 as <-; reflexivity].
           intros qn0 cn0 p' _ Hq Hc0 [T1 T2]. pose proof (cfg_fun _ _ _ _ Hqn Hq). subst qn0. rewrite Hr in T1. injection T1 as <-.
           pose proof (cost_fun _ _ _ _ Hcn _ Hc0). subst. unfold costof; cbn [snd fst]. lra.
    + intros [x c1] [A1 [A2 [A3 [A4 [A5 A6]]]]]. cbn [fst snd] in *.
      eapply sf_bind; [apply (IH c1); [intros; apply HN; right; assumption|exact A1|exact A4]|].
      intros [paths c'] [B1 [B2 [B3 [B4 B5]]]]. cbn [fst snd outcome]. split; [exact B1|].
      split; [unfold costof in *; cbn [fst] in *; lra|]. split.
      * intros n' x' [Hx|Hx]; [injection Hx as <- <-; auto|auto].
      * split.
        { intros n' qn cn p [<-|Hin] Hn0 Hq Hcn Ht; [|eapply B4; eassumption].
          specialize (A5 qn cn p Hn0 Hq Hcn Ht). lra. }
        intros n' qn p [<-|Hin] Hn0 Hq Ht.
        -- specialize (A6 qn p Hn0 Hq Ht). destruct x as [ran op]. cbn [snd] in A6. subst op. exists ran. left. reflexivity.
        -- destruct (B5 n' qn p Hin Hn0 Hq Ht) as [ran Hr]. exists ran. right. exact Hr.
Qed.

Notation rewire := (rewire C P plen prev V).
Lemma joins_sup s t q n p : sup s t -> joins s q n p -> joins t q n p.
Proof. intros H [A [B D]]; split; [eapply sup_cfg; eassumption|auto]. Qed.
Lemma rewire_ok root q nnew cost best l : forall s m, sound_rm s -> In root (nodes s) -> tree s root m -> config_of s nnew q ->
  cost_to m nnew cost -> (forall n x, In (n, x) l -> m n <> None /\ pinfo s q n x) ->
  outcome False (rewire s m nnew cost best l) (fun '(t, m') =>
    sound_rm t /\ sup s t /\ nodes t = nodes s /\ tree t root m' /\ lowered m m' /\
    (forall x, m' x <> None <-> m x <> None) /\ cost_to m' nnew cost /\
    (forall n ran p, In (n, (ran, Some p)) l -> n <> best -> fst (e_val V p false) = true ->
       exists c', cost_to m' n c' /\ (c' <= cost + plen p)%Q)).
Proof.
  induction l as [|[n [ran op]] l IH]; intros s m HG HR HT Hq Hc Hl; cbn [StarModel.rewire].
  - split; [exact HG|]. split; [apply sup_refl|]. split; [reflexivity|]. split; [exact HT|]. split; [apply lowered_refl|].
    split; [tauto|]. split; [exact Hc|intros n ran p []].
  - assert (Hl' : forall n' x, In (n', x) l -> m n' <> None /\ pinfo s q n' x) by (intros; apply Hl; right; assumption).
    assert (SKIP : (n = best \/ op = None \/ (exists p cn, op = Some p /\ cost_to m n cn /\ (cn <= cost + plen p)%Q) \/
                    (exists p, op = Some p /\ fst (e_val V p false) = false)) ->
      outcome False (rewire s m nnew cost best l) (fun '(t, m') =>
        sound_rm t /\ sup s t /\ nodes t = nodes s /\ tree t root m' /\ lowered m m' /\
        (forall x, m' x <> None <-> m x <> None) /\ cost_to m' nnew cost /\
        (forall n0 ran0 p, In (n0, (ran0, Some p)) ((n, (ran, op)) :: l) -> n0 <> best -> fst (e_val V p false) = true ->
           exists c', cost_to m' n0 c' /\ (c' <= cost + plen p)%Q))).
    { intro Hs. eapply sf_mono; [apply IH; assumption|]. intros [t m'] [A1 [A2 [A3 [A4 [A5 [A6 [A7 A8]]]]]]].
      do 7 (split; [assumption|]). intros n0 ran0 p [Hin|Hin] Hb Hv; [|eapply A8; eassumption].
      injection Hin as -> -> ->. destruct Hs as [Hs|[Hs|[[p' [cn [E1 [E2 E3]]]]|[p' [E1 E2]]]]]; [contradiction|discriminate| |congruence].
      injection E1 as <-. apply A5 in E2 as [c' [X Y]]. exists c'; split; [exact X|lra]. }
    destruct (Nat.eqb_spec n best) as [Eb|Nb]; [apply SKIP; auto|].
    destruct op as [p|]; [|apply SKIP; auto].
    destruct (Hl n (ran, Some p)) as [Kn Hp]; [left; reflexivity|].
    destruct (Hp p eq_refl) as [Hj Hc1]. cbn [fst] in Hc1. pose proof Kn as Kn'.
    apply (t_cost _ _ _ _ HT) in Kn as [cn Hcn]. rewrite (cost_of_ok plen s root m n cn (g2_inv _ HG) HR HT Hcn); cbn [bind].
    destruct (Qlt_le_dec (cost + plen p) cn) as [Hlt|Hge]; [|apply SKIP; right; right; left; exists p, cn; auto].
    destruct (ran || fst (e_val V p false))%bool eqn:Ev.
    2: { apply SKIP. right; right; right. exists p; split; [reflexivity|]. apply Bool.orb_false_iff in Ev. apply Ev. }
    assert (CP : certified p).
    { apply Bool.orb_true_iff in Ev as [->|Ev]; [auto|]. destruct (e_val V p false) as [b v] eqn:E5. cbn [fst] in Ev. subst b. eapply cert_whole; exact E5. }
    destruct Hj as [J1 [J2 J3]].
    destruct (s_edges2 s n nnew p HG) as [s1 [t [A1 [A2 [A3 [A4 [A5 [A6 [A7 A8]]]]]]]]]; [apply HOKP; split; assumption|exact J1|rewrite J2; exact Hq|].
    rewrite A1; cbn [bind]. rewrite A2; cbn [bind]. unfold setParent. cbn [efrom].
    destruct (m nnew) as [en|] eqn:En; [|exfalso; apply (cost_key _ _ _ _ Hc); exact En]. cbn [bind].
    pose proof (HLR p) as Hpp.
    destruct (tree_rewire plen HL t root m n (mkEdge nnew n (prev p)) cost cn) as [T1 [T2 T3]].
    { eapply sup_tree; eassumption. } { exact Hcn. } { exact A7. } { reflexivity. } { exact Hc. } { cbn [epath]. lra. }
    cbn [efrom] in T3. cbv zeta in T1, T2, T3.
    eapply sf_mono; [apply IH|].
    + exact A3.
    + eapply sup_in; eassumption.
    + exact T1.
    + eapply sup_cfg; eassumption.
    + exact T3.
    + intros n' x Hx. destruct (Hl' n' x Hx) as [B1 B2]. split.
      * unfold upd. destruct (n' =? n); [discriminate|exact B1].
      * intros p' Hp'. destruct (B2 p' Hp') as [D1 D2]. split; [eapply joins_sup; eassumption|exact D2].
    + intros [u m'] [B1 [B2 [B3 [B4 [B5 [B6 [B7 B8]]]]]]]. split; [exact B1|]. split; [eapply sup_trans; eassumption|].
      split; [congruence|]. split; [exact B4|]. split; [eapply lowered_trans; eassumption|]. split; [|split; [exact B7|]].
      * intro x. rewrite B6. unfold upd. destruct (Nat.eqb_spec x n) as [->|N]; [|tauto]. split; [intros _; exact Kn'|discriminate].
      * intros n0 ran0 p' [Hin|Hin] Hb Hv; [|eapply B8; eassumption]. injection Hin as -> -> ->.
        assert (X : cost_to (upd m n0 (Some (Some (mkEdge nnew n0 (prev p'))))) n0 (cost + plen (prev p'))%Q).
        { apply (cost_step plen _ n0 (mkEdge nnew n0 (prev p')) cost); [apply upd_eq|exact T3]. }
        apply B5 in X as [c' [X Y]]. exists c'; split; [exact X|lra].
Qed.

Notation insert := (insert C P plen prev V).
Lemma insert_ok s root m q nnew nears paths c : sound_rm s -> In root (nodes s) -> tree s root m -> config_of s nnew q ->
  chosen s m q c -> (forall n x, In (n, x) (combine nears paths) -> m n <> None /\ pinfo s q n x) ->
  outcome False (insert s m nnew nears paths c) (fun '(t, m', b) =>
    sound_rm t /\ sup s t /\ nodes t = nodes s /\ tree t root m' /\ lowered m m' /\
    (forall x, m' x <> None <-> m x <> None \/ x = nnew) /\ (exists k, m k <> None /\ mut t k nnew) /\
    (b = true <-> m nnew = None) /\ (b = false -> m' = m) /\
    (b = true -> cost_to m' nnew (costof c) /\
       forall n ran p, In (n, (ran, Some p)) (combine nears paths) -> fst (e_val V p false) = true ->
         exists c', cost_to m' n c' /\ (c' <= costof c + plen p)%Q)).
Proof.
  destruct c as [[cost best] path]. intros HG HR HT Hq [[cb [Cb Ec]] [[J1 [J2 J3]] CP]] Hl. unfold StarModel.insert.
  destruct (s_edges2 s best nnew path HG) as [s1 [t [A1 [A2 [A3 [A4 [A5 [A6 [A7 A8]]]]]]]]]; [apply HOKP; split; assumption|exact J1|rewrite J2; exact Hq|].
  rewrite A1; cbn [bind]. rewrite A2; cbn [bind].
  assert (HTt : tree t root m) by (eapply sup_tree; eassumption).
  assert (Kb : m best <> None) by (eapply cost_key; exact Cb).
  destruct (m nnew) as [en|] eqn:En.
  - cbn [outcome]. split; [exact A3|]. split; [exact A4|]. split; [exact A5|]. split; [exact HTt|]. split; [apply lowered_refl|].
    split; [intro x; split; [auto|intros [X| ->]; [exact X|congruence]]|]. split; [eauto|]. split; [split; discriminate|]. split; [reflexivity|discriminate].
  - unfold setParent. cbn [efrom]. rewrite En. destruct (m best) as [eb|] eqn:Eb; [|congruence]. cbn [bind].
    destruct (tree_new plen t root m nnew (mkEdge best nnew path) cb HTt En A6 eq_refl Cb) as [T1 [T2 T3]].
    cbn [epath] in T3. rewrite <- Ec in T3.
    eapply sf_bind; [apply (rewire_ok root q); [exact A3|eapply sup_in; eassumption|exact T1|eapply sup_cfg; eassumption|exact T3|]|].
    + intros n x Hx. destruct (Hl n x Hx) as [B1 B2]. split.
      * unfold upd. destruct (n =? nnew); [discriminate|exact B1].
      * intros p' Hp'. destruct (B2 p' Hp') as [D1 D2]. split; [eapply joins_sup; eassumption|exact D2].
    + intros [u m'] [B1 [B2 [B3 [B4 [B5 [B6 [B7 B8]]]]]]]. cbn [outcome]. split; [exact B1|]. split; [eapply sup_trans; eassumption|].
      split; [congruence|]. split; [exact B4|]. split; [eapply lowered_trans; eassumption|]. split.
      { intro x. rewrite B6. unfold upd. destruct (Nat.eqb_spec x nnew) as [->|N]; [split; [auto|discriminate]|].
        split; [auto|intros [X|X]; [exact X|contradiction]]. }
      split; [exists best; split; [congruence|eapply sup_mut; eassumption]|]. split; [tauto|]. split; [discriminate|].
      intros _. unfold costof; cbn [fst]. split; [exact B7|]. intros n ran p Hin Hv.
      destruct (Nat.eq_dec n best) as [->|Nb]; [|eapply B8; eassumption].
      destruct (T2 best cb Cb) as [c1 [X1 X2]]. destruct (B5 _ _ X1) as [c2 [Y1 Y2]]. exists c2. split; [exact Y1|].
      pose proof (HL path). pose proof (HL p). rewrite Ec. lra.
Qed.
End S.
