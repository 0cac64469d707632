(* The simple shortcut optimizer as a whole. *)
From Coq Require Import Lia Lqa.
From Verif Require Import Base Reach RoadmapModel RoadmapSpec RoadmapProofs RoadmapProofs2 RoadmapProofs3 RoadmapProofs4.
From Verif Require Import PlannerModel PlannerSpec PlannerProofs TargetModel.
From Verif Require Import AstarModel AstarSpec AstarProofs.
From Verif Require Import VecSpec SimpleCutModel SimpleCutSpec SimpleCutProofs.

Section S.
Context {C P : Type}.
Variable ceqb : C -> C -> bool.
Variable dist : C -> C -> Q.
Variable plen : P -> Q.
Variable pinit pend : P -> C.
Variable steer sm : C -> C -> option P.
Variable valid : P -> bool.
Hypothesis SEP : separating ceqb dist.
Hypothesis HST : forall a b p, steer a b = Some p -> pinit p = a /\ pend p = b.
Notation rmS := (rm C P).
Notation built := (built ceqb dist plen prv).
Notation opt := (simple_optimize C P ceqb dist plen pinit pend steer sm valid).

Section Path.
Variable path : list P.
Variables q q' : C.
Hypothesis NE : path <> [].
Hypothesis CH : chained pinit pend q path q'.
Notation OK := (candidate pinit pend steer valid path).
Notation W := (V pinit pend sm valid).
Notation stI := (stI pinit pend sm valid OK).

Lemma first_init : exists p0 r, path = p0 :: r /\ pinit p0 = q.
Proof. destruct path as [|p0 r]; [contradiction|]. cbn in CH. exists p0, r. split; [reflexivity|apply CH]. Qed.
Lemma corners_eq : corners pinit pend path = q :: map pend path.
Proof. destruct first_init as (p0 & r & E & <-). rewrite E. reflexivity. Qed.

Lemma newNode_live (s : rmS) x : live (snd (newNode s x)) = live s ++ [cnext s].
Proof. reflexivity. Qed.

(* the roadmap searched by the target *)
Lemma opt_roadmap : exists s i g,
  opt path = tgt_solution C P dist plen sm s /\ built s /\ stI s /\
  initN s = Some i /\ goals s = [g] /\ config_of s i q /\ config_of s g q' /\ connected_to s i g /\
  (forall p, OK p -> exists e, In e (edges s) /\ epath e = p) /\
  (Forall (fun p => 0 <= plen p)%Q path -> near plen s i g (total plen path)).
Proof.
  destruct first_init as (p0 & r & Ep & Eq).
  assert (F : Forall OK path) by (apply Forall_forall; intros x Hx; left; exact Hx).
  set (s0 := set_init (snd (newNode (@empty C P) q)) (Some 0)).
  assert (E0 : initNode C P ceqb dist empty q = Ok s0) by reflexivity.
  assert (B0 : built s0).
  { eapply built_step with (o := OInit q); [apply built_empty|discriminate|exact E0]. }
  assert (C0 : config_of s0 0 q) by (exists (mkNode q 0 [] []); split; reflexivity).
  assert (S0 : stI s0).
  { split; [apply (built_inv _ _ _ _ _ B0)|intros e []|exists 0; reflexivity|].
    assert (Z : forall m x, config_of s0 m x -> m = 0).
    { intros m x (nd & H & _). cbn [ninfo s0 set_init newNode snd] in H. cbn in H. unfold upd in H.
      destruct (Nat.eqb_spec m 0); [assumption|discriminate]. }
    intros m n x Hm Hn. rewrite (Z _ _ Hm), (Z _ _ Hn). reflexivity. }
  destruct (waypoints_spec ceqb dist plen pinit pend sm valid OK SEP path s0 0 q q' S0 B0 C0 CH F)
    as (s1 & m & ns & A1 & A2 & A3 & A4 & A5 & A6 & A7 & A8 & A9).
  destruct (addNode_existing_l ceqb dist plen prv s1 q' m SEP A3 (cfg_in _ _ _ (st_inv _ _ _ _ _ _ A2) A5) A5) as (m' & D1 & D2 & D3).
  pose proof (st_uniq _ _ _ _ _ _ A2 m' m q' D3 A5) as ->.
  set (s2 := set_goals s1 (goals s1 ++ [m])).
  assert (E2 : addGoalNode C P ceqb dist s1 q' = Ok s2) by (unfold addGoalNode; rewrite D1; reflexivity).
  assert (B2 : built s2).
  { eapply built_step with (o := OGoal q'); [exact A3|discriminate|exact E2]. }
  assert (S2 : stI s2).
  { split; [apply (built_inv _ _ _ _ _ B2)|apply A2|apply A2|apply A2]. }
  assert (G1 : goals s1 = []).
  { rewrite (g_goals _ _ (m_grows _ _ A4)). reflexivity. }
  assert (I1 : initN s1 = Some 0).
  { rewrite (g_init _ _ (m_grows _ _ A4)). reflexivity. }
  assert (F2 : Forall2 (config_of s2) (0 :: ns) (corners pinit pend path)).
  { rewrite corners_eq. constructor; [|exact A6]. exact (mono_cfg _ _ _ _ A4 C0). }
  destruct (shortcuts_spec ceqb dist plen pinit pend steer sm valid OK HST (0 :: ns) s2 _ S2 B2 F2)
    as (s3 & K1 & K2 & K3 & K4 & K5).
  { intros i j a b p L Ha Hb Hs Hv. right. exists i, j, a, b. auto. }
  exists s3, 0, m.
  assert (I3 : initN s3 = Some 0) by (rewrite (g_init _ _ (m_grows _ _ K4)); exact I1).
  split.
  { unfold simple_optimize. rewrite Ep. cbn beta iota.
    replace (pinit p0) with q by (symmetry; exact Eq). rewrite E0. cbn [bind]. cbn [initN s0 set_init].
    rewrite <- Ep, A1. cbn [bind]. rewrite (cfgN_ok _ _ _ A5). cbn [bind]. rewrite E2. cbn [bind].
    rewrite K1. cbn [bind]. reflexivity. }
  split; [exact K3|]. split; [exact K2|]. split; [exact I3|].
  split; [rewrite (g_goals _ _ (m_grows _ _ K4)); cbn [goals s2 set_goals]; rewrite G1; reflexivity|].
  split; [exact (mono_cfg _ _ _ _ K4 (mono_cfg _ _ _ _ A4 C0))|]. split; [exact (mono_cfg s2 s3 _ _ K4 A5)|].
  split.
  { eapply reach_mono; [|exact A7]. intros a b. apply (x_arc _ _ (g_x _ _ (m_grows _ _ K4))). }
  split.
  - intros p [Hp|(i & j & a & b & L & Ha & Hb & Hs & Hv)]; [|eapply K5; eassumption].
    destruct (A8 p Hp) as (e & X1 & X2). exists e. split; [apply (m_edges _ _ K4); exact X1|exact X2].
  - intros HF. destruct (A9 0 0%Q HF) as (N1 & _).
    { split; [exists []; split; [reflexivity|cbn; lra]|intros e []]. }
    eapply near_mono; [exact K4| |exact N1]. lra.
Qed.

(* a list of edges of the roadmap as a chain of candidates *)
Lemma path_chained s l : stI s -> forall a b qa qb, config_of s a qa -> config_of s b qb -> edge_path s a l b ->
  chained pinit pend qa (map (fun e => epath e) l) qb /\ Forall OK (map (fun e => epath e) l).
Proof.
  intros HS. induction l as [|e l IH]; cbn; intros a b qa qb Ha Hb.
  - intros <-. split; [eapply cfg_fun; eassumption|constructor].
  - intros (E1 & <- & E3). destruct (st_ok _ _ _ _ _ _ HS e E1) as (O1 & O2 & O3). cbn in O2, O3.
    destruct (IH (eto e) b _ qb O3 Hb E3) as (X & Y).
    split; [split; [eapply cfg_fun; eassumption|exact X]|constructor; assumption].
Qed.
Lemma chained_path s l : stI s -> (forall p, OK p -> exists e, In e (edges s) /\ epath e = p) ->
  forall a b qa qb, config_of s a qa -> config_of s b qb ->
  chained pinit pend qa l qb -> Forall OK l -> exists es, edge_path s a es b /\ map (fun e => epath e) es = l.
Proof.
  intros HS HC. induction l as [|p l IH]; cbn; intros a b qa qb Ha Hb.
  - intros <- _. exists []. split; [cbn; eapply (st_uniq _ _ _ _ _ _ HS); eassumption|reflexivity].
  - intros (E1 & E2) HF. inversion HF as [|? ? F1 F2]; subst. destruct (HC p F1) as (e & X1 & X2).
    destruct (st_ok _ _ _ _ _ _ HS e X1) as (O1 & O2 & O3). cbn in O2, O3. rewrite X2 in *.
    destruct (IH (eto e) b _ qb O3 Hb E2 F2) as (es & Y1 & Y2).
    exists (e :: es). cbn. rewrite X2, Y2. split; [|reflexivity]. split; [exact X1|].
    split; [eapply (st_uniq _ _ _ _ _ _ HS); eassumption|exact Y1].
Qed.
Lemma total_cost l : total plen (map (fun e : edge P => epath e) l) = path_cost plen l.
Proof. induction l as [|e l IH]; cbn; [reflexivity|]. rewrite IH. reflexivity. Qed.

Lemma consistent s : stI s -> qmetric dist -> (forall p, OK p -> (dist (pinit p) (pend p) <= plen p)%Q) ->
  heuristic_consistent dist plen s.
Proof.
  intros HS (M1 & M2 & M3) HL. split; [exact M1|]. split; [exact M2|]. split; [exact M3|].
  intros e He a b Ha Hb. destruct (st_ok _ _ _ _ _ _ HS e He) as (O1 & O2 & O3). cbn in O2, O3.
  rewrite (cfg_fun _ _ _ _ Ha O2), (cfg_fun _ _ _ _ Hb O3). apply HL. exact O1.
Qed.

(* with distinct corners, the ends of a candidate determine it *)
Lemma chained_ends l : forall qa qb k p, chained pinit pend qa l qb -> nth_error l k = Some p ->
  nth_error (qa :: map pend l) k = Some (pinit p) /\ nth_error (qa :: map pend l) (S k) = Some (pend p).
Proof.
  induction l as [|x l IH]; intros qa qb k p HC Hk; [destruct k; discriminate|].
  cbn in HC. destruct HC as (<- & HC). destruct k as [|k].
  - cbn in Hk. injection Hk as <-. split; reflexivity.
  - cbn [nth_error] in Hk. destruct (IH _ _ k p HC Hk) as (A & B). cbn [map]. split; [exact A|exact B].
Qed.
Lemma candidate_where p : OK p -> exists i j a b, i + 1 <= j /\ nth_error (corners pinit pend path) i = Some a /\
  nth_error (corners pinit pend path) j = Some b /\ pinit p = a /\ pend p = b /\
  (if j =? i + 1 then nth_error path i = Some p else steer a b = Some p).
Proof.
  intros [Hp|(i & j & a & b & L & Ha & Hb & Hs & Hv)].
  - apply In_nth_error in Hp as (k & Hk). rewrite corners_eq.
    destruct (chained_ends path q q' k p CH Hk) as (A & B).
    exists k, (S k), (pinit p), (pend p). rewrite (proj2 (Nat.eqb_eq _ _)) by lia. repeat split; auto; lia.
  - destruct (HST _ _ _ Hs) as (I1 & I2). exists i, j, a, b.
    rewrite (proj2 (Nat.eqb_neq _ _)) by lia. repeat split; auto; lia.
Qed.
Lemma candidate_unique p1 p2 : NoDup (corners pinit pend path) -> OK p1 -> OK p2 ->
  pinit p1 = pinit p2 -> pend p1 = pend p2 -> p1 = p2.
Proof.
  intros ND H1 H2 E1 E2.
  destruct (candidate_where p1 H1) as (i & j & a & b & L & A & B & I1 & I2 & D).
  destruct (candidate_where p2 H2) as (i' & j' & a' & b' & L' & A' & B' & I1' & I2' & D').
  assert (a' = a) by congruence. assert (b' = b) by congruence. subst a' b'.
  rewrite NoDup_nth_error in ND.
  assert (i = i') by (apply ND; [apply nth_error_Some; congruence|congruence]).
  assert (j = j') by (apply ND; [apply nth_error_Some; congruence|congruence]).
  subst i' j'. destruct (j =? i + 1); congruence.
Qed.
Lemma distinct_single s : stI s -> NoDup (corners pinit pend path) -> single_edges s.
Proof.
  intros HS ND e1 e2 H1 H2 E1 E2.
  destruct (st_ok _ _ _ _ _ _ HS e1 H1) as (A1 & A2 & A3). destruct (st_ok _ _ _ _ _ _ HS e2 H2) as (B1 & B2 & B3).
  cbn in A2, A3, B2, B3. rewrite E1 in A2. rewrite E2 in A3.
  assert (epath e1 = epath e2).
  { apply candidate_unique; auto; eapply cfg_fun; eassumption. }
  destruct e1, e2; cbn in *; congruence.
Qed.

Lemma astar_at_goal (s : rmS) i : initN s = Some i -> In i (goals s) -> roadmap_astar dist plen s = Ok [].
Proof.
  intros Hi Hg. unfold roadmap_astar. rewrite Hi. unfold solution, findPath. cbn [find_loop].
  cbn [sort_by op_ insert_by]. 
  assert (G : isGoal (goals s) i = true) by (apply existsb_exists; exists i; split; [exact Hg|apply Nat.eqb_refl]).
  rewrite G. cbn [bind]. reflexivity.
Qed.

Lemma opt_closed : q = q' ->
  opt path = match sm q q with None => UB | Some p => Ok [p] end.
Proof.
  intros EQ. destruct opt_roadmap as (s & i & g & E & HB & HS & Hi & Hg & Ci & Cg & _).
  rewrite <- EQ in Cg. assert (g = i) by (eapply (st_uniq _ _ _ _ _ _ HS); eassumption). subst g.
  rewrite E. unfold tgt_solution. rewrite (astar_at_goal s i Hi) by (rewrite Hg; left; reflexivity).
  cbn [bind map]. rewrite Hi. destruct Ci as (nd & N1 & N2). rewrite N1, N2. reflexivity.
Qed.

Lemma opt_open : q <> q' -> exists r, opt path = Ok r /\ chained pinit pend q r q' /\ Forall OK r /\
  (qmetric dist -> (forall p, OK p -> (dist (pinit p) (pend p) <= plen p)%Q) ->
    (total plen r <= total plen path)%Q /\
    (NoDup (corners pinit pend path) -> forall l, chained pinit pend q l q' -> Forall OK l -> (total plen r <= total plen l)%Q)).
Proof.
  intros NEQ. destruct opt_roadmap as (s & i & g & E & HB & HS & Hi & Hg & Ci & Cg & HR & HC & HN).
  destruct (astar_l ceqb dist plen prv s i HB Hi) as [(l & g' & L1 & L2 & L3)|(L1 & L2)].
  2: { exfalso. apply (L2 g); [rewrite Hg; left; reflexivity|exact HR]. }
  rewrite Hg in L2. destruct L2 as [<-|[]].
  destruct (path_chained s l HS i g q q' Ci Cg L3) as (P1 & P2).
  exists (map (fun e => epath e) l). split; [|split; [exact P1|split; [exact P2|]]].
  - rewrite E. unfold tgt_solution. rewrite L1. cbn [bind].
    destruct l as [|e l]; [|reflexivity]. cbn in P1. contradiction.
  - intros HM HL. pose proof (consistent s HS HM HL) as HCo. rewrite total_cost. split.
    + assert (HF : Forall (fun p => (0 <= plen p)%Q) path).
      { apply Forall_forall. intros p Hp. destruct HM as (M1 & _).
        eapply Qle_trans; [apply (M1 (pinit p) (pend p))|apply HL; left; exact Hp]. }
      destruct (HN HF) as (l2 & X1 & X2). eapply Qle_trans; [|exact X2].
      eapply (astar_optimal_outs ceqb dist plen prv s i l HB Hi HCo L1 g); [rewrite Hg; left; reflexivity|exact X1].
    + intros ND l' K1 K2. destruct (chained_path s l' HS HC i g q q' Ci Cg K1 K2) as (es & X1 & <-).
      rewrite total_cost.
      eapply (astar_optimal_l ceqb dist plen prv s i l HB Hi HCo L1 g); [rewrite Hg; left; reflexivity|exact X1|].
      apply distinct_single; assumption.
Qed.
End Path.
End S.
