(* C49: goal handling of the problem targets (the list of goals of a problem
   is in ProblemProps). *)
From Verif Require Import Base Reach RoadmapModel RoadmapSpec AstarModel AstarSpec RoadmapProps AstarProps TargetModel.

Section Statements.
Variables C P : Type.
Variable ceqb : C -> C -> bool.
Variable dist : C -> C -> Q.
Variable plen : P -> Q.
Variable prev : P -> P.
Variable steer : C -> C -> option P.
Notation built := (@built C P ceqb dist plen prev).
Notation built_with := (@built_with C P ceqb dist plen prev).
Notation tt_reached := (tt_reached C P ceqb dist).
Notation tt_loop := (tt_loop C P ceqb dist).
Notation computePath := (gc_computePath C P dist plen steer).
Notation tt_computePath := (tt_computePath C P dist plen steer).

Lemma built_with_mono (ok ok' : op C P -> bool) s : (forall o, ok o = true -> ok' o = true) ->
  built_with ok s -> built_with ok' s.
Proof. intros H; induction 1; [constructor|]. eapply builtw_step; eauto. Qed.
Lemma built_with_built ok s : built_with ok s -> built s.
Proof. induction 1; [constructor|]. eapply built_step; eauto. Qed.

(* GoalConfigurations::reached, on roadmaps built without one-way insertion of
   a new node (see C02_path_exists_refuted for the others). *)
Theorem C49_goal_reached_partial : forall s, built_with two_way s ->
  exists b, gc_reached C P s = Ok (b, s) /\
    (b = true <-> exists i g, initN s = Some i /\ In g (goals s) /\ connected_to s i g).
Proof.
  intros s H. unfold gc_reached. destruct (initN s) as [i|] eqn:E.
  - destruct (C02_path_exists_partial C P ceqb dist plen prev s i H E) as [b [H1 H2]].
    exists b. unfold pathExists in H1; rewrite E in H1. split; [exact H1|]. rewrite H2. split.
    + intros [g Hg]; exists i, g; tauto.
    + intros [i' [g [E' Hg]]]. inversion E'; subst. exists g; exact Hg.
  - exists false; split; [reflexivity|]. split; [discriminate|]. intros [i [g [E' _]]]; discriminate.
Qed.
(* every roadmap: a reachable goal is never missed *)
Theorem C49_goal_reached_complete : forall s, built s ->
  exists b, gc_reached C P s = Ok (b, s) /\
    ((exists i g, initN s = Some i /\ In g (goals s) /\ connected_to s i g) -> b = true).
Proof.
  intros s H. unfold gc_reached. destruct (initN s) as [i|] eqn:E.
  - destruct (C02_path_exists_complete C P ceqb dist plen prev s i H E) as [b [H1 H2]].
    exists b. unfold pathExists in H1; rewrite E in H1. split; [exact H1|].
    intros [i' [g [E' Hg]]]. inversion E'; subst. apply H2; exists g; exact Hg.
  - exists false; split; [reflexivity|]. intros [i [g [E' _]]]; discriminate.
Qed.

(* computePath returns the paths of edges which lead from the initial node to
   a goal, or, when this takes no edge (the initial node is a goal), the path
   from the initial configuration to itself: never an empty path vector. It
   throws when no goal can be reached. *)
Theorem C49_goal_path : forall s i q p0, built s -> initN s = Some i -> config_of s i q -> steer q q = Some p0 ->
  (exists l g, In g (goals s) /\ edge_path s i l g /\
     computePath s = Ok (match l with [] => [p0] | _ => map (fun e => epath e) l end)) \/
  (computePath s = Throw /\ forall g, In g (goals s) -> ~ connected_to s i g).
Proof.
  intros s i q p0 H E [nd [H1 H2]] HS. unfold gc_computePath, tgt_solution.
  destruct (C06_astar_correct C P ceqb dist plen prev s i H E) as [[l [g [A1 [A2 A3]]]]|[A1 A2]].
  - left. exists l, g. split; [exact A2|]. split; [exact A3|]. rewrite A1; cbn [bind].
    destruct l as [|e l]; cbn [map]; [|reflexivity]. rewrite E, H1, H2, HS. reflexivity.
  - right. split; [|exact A2]. rewrite A1; reflexivity.
Qed.

(* ------------------------------------------------------------ task target *)
Lemma set_goals_id (s : rm C P) : set_goals s (goals s) = s.
Proof. destruct s; reflexivity. Qed.
Lemma set_goals2 (s : rm C P) g g' : set_goals (set_goals s g) g' = set_goals s g'.
Proof. destruct s; reflexivity. Qed.

Definition satb (s : rm C P) (f : C -> bool) (n : nat) : bool :=
  match ninfo s n with Some nd => f (ncfg nd) | None => false end.

Lemma tt_loop_run f (HSep : separating ceqb dist) ns : forall s r,
  built_with plain s -> (forall n, In n ns -> In n (nodes s) /\ ninfo s n <> None) ->
  exists t, tt_loop s (Some f) ns r = Ok (r || existsb (satb s f) ns, t) /\
    t = set_goals s (goals s ++ filter (satb s f) ns) /\ built_with plain t.
Proof.
  induction ns as [|n ns IH]; intros s r HB HN.
  - exists s. cbn [TargetModel.tt_loop existsb filter]. rewrite orb_false_r, app_nil_r, set_goals_id. auto.
  - destruct (HN n (or_introl eq_refl)) as [HI HI'].
    destruct (ninfo s n) as [nd|] eqn:E; [|congruence].
    assert (HN' : forall m, In m ns -> In m (nodes s) /\ ninfo s m <> None) by (intros; apply HN; right; assumption).
    cbn [TargetModel.tt_loop existsb filter]. rewrite E.
    assert (ES : satb s f n = f (ncfg nd)) by (unfold satb; rewrite E; reflexivity). rewrite !ES.
    destruct (f (ncfg nd)) eqn:F.
    + assert (HC : config_of s n (ncfg nd)) by (exists nd; auto).
      destruct (C04_add_existing C P ceqb dist plen prev s (ncfg nd) n HSep (built_with_built _ _ HB) HI HC)
        as [m [A1 [A2 A3]]].
      assert (m = n) by (eapply C04_no_duplicates_partial; eassumption). subst m.
      assert (AG : addGoalNode C P ceqb dist s (ncfg nd) = Ok (set_goals s (goals s ++ [n])))
        by (unfold addGoalNode; rewrite A1; reflexivity).
      rewrite AG; cbn [bind].
      assert (HB1 : built_with plain (set_goals s (goals s ++ [n]))).
      { eapply builtw_step with (o := OGoal (ncfg nd)); [exact HB|reflexivity|discriminate|exact AG]. }
      destruct (IH (set_goals s (goals s ++ [n])) true HB1) as [t [T1 [T2 T3]]].
      { intros x Hx. apply HN'; exact Hx. }
      exists t. split; [|split; [|exact T3]].
      * change (satb (set_goals s (goals s ++ [n])) f) with (satb s f) in T1.
        rewrite T1. rewrite orb_true_r. reflexivity.
      * rewrite T2. change (satb (set_goals s (goals s ++ [n])) f) with (satb s f).
        rewrite set_goals2. cbn [set_goals goals]. rewrite <- app_assoc. reflexivity.
    + destruct (IH s r HB HN') as [t T]. exists t. exact T.
Qed.

(* TaskTarget::reached answers whether a node of the component of the initial
   node satisfies the task, and tags these nodes and only them as goals; the
   roadmap is otherwise unchanged. *)
Theorem C49_task_reached_partial : forall s f i c,
  separating ceqb dist -> built_with plain s -> goals s = [] -> initN s = Some i -> comp_of s i c ->
  exists b t, tt_reached s (Some f) = Ok (b, t) /\ t = set_goals s (goals t) /\
    (b = true <-> exists n q, comp_of s n c /\ config_of s n q /\ f q = true) /\
    (forall n, In n (goals t) <-> exists q, comp_of s n c /\ config_of s n q /\ f q = true).
Proof.
  intros s f i c HSep HB HG HI [ni [HN HC]]. unfold TargetModel.tt_reached. rewrite HI, HN, HC.
  assert (HP := C01_partition C P ceqb dist plen prev s (built_with_built _ _ HB)).
  destruct HP as [_ [_ [_ [P4 [P5 _]]]]].
  assert (HL : In c (live s)). { apply (P4 i c). exists ni; auto. }
  assert (HNS : forall n, In n (cnodes (cinfo s c)) -> In n (nodes s) /\ ninfo s n <> None).
  { intros n Hn. split; [apply (P5 c HL); exact Hn|].
    destruct (proj2 (P4 n c) (conj HL Hn)) as [nd [E _]]. rewrite E; discriminate. }
  destruct (tt_loop_run f HSep (cnodes (cinfo s c)) s false HB HNS) as [t [T1 [T2 T3]]].
  exists (existsb (satb s f) (cnodes (cinfo s c))), t. split; [exact T1|].
  assert (HGT : goals t = filter (satb s f) (cnodes (cinfo s c))).
  { rewrite T2. cbn [set_goals goals]. rewrite HG. reflexivity. }
  assert (HS : forall n, In n (cnodes (cinfo s c)) /\ satb s f n = true <->
                         exists q, comp_of s n c /\ config_of s n q /\ f q = true).
  { intro n. split.
    - intros [H1 H2]. unfold satb in H2. destruct (ninfo s n) as [nd|] eqn:E; [|discriminate].
      exists (ncfg nd). split; [apply P4; auto|]. split; [exists nd; auto|exact H2].
    - intros [q [H1 [[nd [H2 H3]] H4]]]. split; [apply P4 in H1; tauto|].
      unfold satb. rewrite H2, H3; exact H4. }
  split; [|split].
  - rewrite HGT. rewrite T2. rewrite HG. reflexivity.
  - rewrite existsb_exists. split.
    + intros [n Hn]. apply HS in Hn as [q Hq]. exists n, q; exact Hq.
    + intros [n [q Hq]]. exists n. apply HS. exists q; exact Hq.
  - intro n. rewrite HGT, filter_In. apply HS.
Qed.

Lemma edge_path_goals (s : rm C P) g l : forall a b, edge_path (set_goals s g) a l b <-> edge_path s a l b.
Proof. induction l as [|e l IH]; intros a b; cbn [edge_path]; [tauto|]. rewrite IH. reflexivity. Qed.

(* When reached has answered true, computePath returns a non-empty path from
   the initial node to a node which satisfies the task, and leaves the
   roadmap as it was before reached: no temporary goal is left. *)
Theorem C49_task_path_partial : forall s f i q p0 t,
  separating ceqb dist -> built_with plain s -> goals s = [] -> initN s = Some i -> config_of s i q ->
  steer q q = Some p0 -> tt_reached s (Some f) = Ok (true, t) ->
  exists l g qg, edge_path s i l g /\ config_of s g qg /\ f qg = true /\
    tt_computePath t = Ok (match l with [] => [p0] | _ => map (fun e => epath e) l end, s).
Proof.
  intros s f i q p0 t HSep HB HG HI HQ HS HR.
  destruct HQ as [ni [HN HQ]].
  destruct (C49_task_reached_partial s f i (ncc ni) HSep HB HG HI (ex_intro _ ni (conj HN eq_refl)))
    as [b [t' [R1 [R2 [R3 R4]]]]].
  rewrite HR in R1; inversion R1; subst b t'. clear R1.
  assert (HP := C01_partition C P ceqb dist plen prev s (built_with_built _ _ HB)).
  destruct HP as [_ [_ [_ [P4 [P5 _]]]]].
  assert (HBt : built_with plain t).
  { unfold TargetModel.tt_reached in HR. rewrite HI, HN in HR.
    assert (HL : In (ncc ni) (live s)). { apply (P4 i). exists ni; auto. }
    destruct (tt_loop_run f HSep (cnodes (cinfo s (ncc ni))) s false HB) as [t' [T1 [T2 T3]]].
    { intros n Hn. split; [apply (P5 _ HL); exact Hn|].
      destruct (proj2 (P4 n _) (conj HL Hn)) as [nd [E _]]. rewrite E; discriminate. }
    rewrite HR in T1; inversion T1; subst t'. exact T3. }
  assert (HIt : initN t = Some i) by (rewrite R2; exact HI).
  assert (HCt : config_of t i q). { exists ni. split; [rewrite R2; exact HN|exact HQ]. }
  destruct (C49_goal_path t i q p0 (built_with_built _ _ HBt) HIt HCt HS) as [[l [g [A1 [A2 A3]]]]|[A1 A2]].
  - apply R4 in A1 as [qg [B1 [B2 B3]]]. exists l, g, qg.
    split; [rewrite R2 in A2; apply edge_path_goals in A2; exact A2|]. split; [exact B2|]. split; [exact B3|].
    unfold TargetModel.tt_computePath. unfold gc_computePath in A3. rewrite A3; cbn [bind].
    f_equal. f_equal. unfold resetGoalNodes. rewrite R2, set_goals2. rewrite <- HG, set_goals_id. reflexivity.
  - exfalso. destruct (proj1 R3 eq_refl) as [n [qn [B1 [B2 B3]]]].
    assert (HG' : In n (goals t)) by (apply R4; exists qn; auto).
    apply (A2 n HG').
    assert (HBt' : built_with two_way s).
    { eapply built_with_mono; [|exact HB]. intros o; destruct o; cbn; congruence. }
    assert (X := C03_scc_partial C P ceqb dist plen prev s i n (ncc ni) (ncc ni) HBt'
                   (ex_intro _ ni (conj HN eq_refl)) B1).
    destruct (proj1 X eq_refl) as [X1 _]. rewrite R2. exact X1.
Qed.
End Statements.

(* ---------------------------------------------------------------- examples *)
Definition zsteer (a b : nat) : option nat := Some (100 + a).
Notation zreached := (tt_reached nat nat Nat.eqb xdist).
Notation zpath := (tt_computePath nat nat xdist xlen zsteer).

(* initial node 0, nodes 5 and 9 linked both ways *)
Definition zt_ops : list (op nat nat) := [OInit 0; OAddNode 5; OAddNode 9; OAddEdges 0 1 1; OAddEdges 1 2 2].
Definition zt := xbuild empty zt_ops.
Example zt_built : built_with Nat.eqb xdist xlen (fun p => p) plain zt.
Proof.
  apply xbuild_built; [constructor|reflexivity|].
  intros o H; simpl in H; intuition discriminate.
Qed.
Definition zshow (s : rm nat nat) (f : nat -> bool) : option (bool * list nat * list nat * list nat) :=
  match zreached s (Some f) with
  | Ok (b, t) => match zpath t with Ok (ps, u) => Some (b, goals t, ps, goals u) | _ => None end
  | _ => None
  end.
Example zt_run : goals zt = [] /\ initN zt = Some 0 /\
  zshow zt (fun q => Nat.eqb q 9) = Some (true, [2], [1; 2], []).
Proof. vm_compute; auto. Qed.
(* the initial configuration satisfies the task *)
Example zt_run0 : zshow zt (fun q => Nat.eqb q 0) = Some (true, [0], [100], []).
Proof. vm_compute; reflexivity. Qed.
Example ex_goal_path : gc_computePath nat nat xdist xlen zsteer ex_s = Ok [1; 2].
Proof. reflexivity. Qed.

(* A task node reached along one-way edges is not in the component of the
   initial node: TaskTarget::reached answers false. *)
Theorem C49_task_reached_refuted : exists s i n t,
  built_with Nat.eqb xdist xlen (fun p => p) plain s /\ goals s = [] /\ initN s = Some i /\
  config_of s n 9 /\ connected_to s i n /\
  zreached s (Some (fun q => Nat.eqb q 9)) = Ok (false, t).
Proof.
  set (s := xbuild empty [OInit 0; OAddNode 9; OAddEdge 0 1 1]).
  assert (X : match zreached s (Some (fun q => Nat.eqb q 9)) with Ok (b, _) => b = false | _ => False end)
    by (vm_compute; reflexivity).
  destruct (zreached s (Some (fun q => Nat.eqb q 9))) as [[b t]| | |] eqn:E; try contradiction. subst b.
  exists s, 0, 1, t. split.
  { apply xbuild_built; [constructor|reflexivity|]. intros o H; simpl in H; intuition discriminate. }
  split; [reflexivity|]. split; [reflexivity|]. split; [eexists; split; reflexivity|]. split.
  - apply reach_one. eexists; split; [left; reflexivity|]. split; reflexivity.
  - exact E.
Qed.

(* When a configuration appears twice in the roadmap, the goal tagged by
   TaskTarget::reached may be a copy which cannot be reached: reached answers
   true, computePath throws, and the temporary goal stays. *)
Theorem C49_task_path_refuted : exists s i t,
  built Nat.eqb xdist xlen (fun p => p) s /\ goals s = [] /\ initN s = Some i /\
  zreached s (Some (fun q => Nat.eqb q 5)) = Ok (true, t) /\ zpath t = Throw /\ goals t <> [].
Proof.
  exists (xbuild empty [OAddNode 5; OInit 0; OAddNodeAndEdges 1 5 1]), 1. eexists. split.
  { assert (X : forall s, built_with Nat.eqb xdist xlen (fun p => p) (fun _ => true) s ->
               built Nat.eqb xdist xlen (fun p => p) s) by (intros s H; eapply built_with_built; exact H).
    apply X. apply xbuild_built; [constructor|reflexivity|]. intros o H; simpl in H; intuition discriminate. }
  split; [reflexivity|]. split; [reflexivity|]. split; [vm_compute; reflexivity|].
  split; [vm_compute; reflexivity|]. vm_compute; discriminate.
Qed.

Print Assumptions C49_goal_reached_partial.
Print Assumptions C49_goal_reached_complete.
Print Assumptions C49_goal_path.
Print Assumptions C49_task_reached_partial.
Print Assumptions C49_task_path_partial.
Print Assumptions C49_task_reached_refuted.
Print Assumptions C49_task_path_refuted.
