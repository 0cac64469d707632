(* C109: searching a path in a given roadmap. *)
From Verif Require Import Base Reach RoadmapModel RoadmapSpec RoadmapProofs RoadmapProofs2 RoadmapProofs3 RoadmapProps.
From Verif Require Import Ext AstarModel AstarSpec AstarProps LoopModel PlannerModel TargetModel TargetProps SearchModel.

Section Statements.
Variables C P : Type.
Variable ceqb : C -> C -> bool.
Variable dist : C -> C -> Q.
Variable plen : P -> Q.
Variable prev : P -> P.
Variable steer : C -> C -> option P.
Variable clock : nat -> Z.
Variable intr : nat -> bool.
Notation built := (@built C P ceqb dist plen prev).
Notation rmt := (rm C P).
Implicit Types s t : rmt.
Notation sr_start := (sr_start C P ceqb dist).
Notation sr_solve := (sr_solve C P ceqb dist plen steer clock intr).

(* [t] is the roadmap [s] with nodes added for some of the configurations
   [qs]; the edges are the same *)
Record only_adds s t (qs : list C) : Prop := {
  oa_edges : edges t = edges s;
  oa_nodes : incl (nodes s) (nodes t);
  oa_cfg : forall n q, config_of s n q -> config_of t n q;
  oa_new : forall n, In n (nodes t) -> In n (nodes s) \/ exists q, In q qs /\ config_of t n q
}.
(* the initial and the goal nodes of [t] carry these configurations *)
Definition poses t (qi : C) (gs : list C) : Prop :=
  exists i, initN t = Some i /\ config_of t i qi /\ Forall2 (config_of t) (goals t) gs.

Hypothesis HEQ : forall a b, ceqb a b = true -> a = b.

Lemma add_one s q : built s -> exists n t, addNode C P ceqb dist s q = Ok (n, t) /\ built t /\ only_adds s t [q] /\
  config_of t n q /\ initN t = initN s /\ goals t = goals s.
Proof.
  intros HB. pose proof (built_inv ceqb dist plen prev s HB) as HI.
  destruct (addNode_spec ceqb dist s q HI) as (n & t & H1 & H2 & H3 & _ & H5 & H6 & H7 & H8 & c & H9 & H10).
  exists n, t. split; [exact H1|]. split.
  { eapply built_step with (o := OAddNode q); [exact HB|discriminate|]. cbn [step]. rewrite H1. reflexivity. }
  assert (Hc : config_of t n q) by (destruct H10 as [<-|X]; [exact H9|apply HEQ in X; subst; exact H9]).
  split; [|auto].
  assert (K : t = s \/ t = snd (newNode s q)).
  { destruct (addNode_cases ceqb dist s q HI) as [[m [X _]]|[X _]]; rewrite X in H1; inversion H1; subst; [left; reflexivity|right; reflexivity]. }
  split.
  - exact H6.
  - destruct K as [->| ->]; [apply incl_refl|]. cbn [nodes newNode snd]. apply incl_appl, incl_refl.
  - intros m x Hm. apply H5. exact Hm.
  - intros m Hm. destruct (addNode_cases ceqb dist s q HI) as [[k [X _]]|[X _]]; rewrite X in H1.
    + left. replace s with t by congruence. exact Hm.
    + assert (Ht : t = snd (newNode s q)) by (destruct (newNode s q); cbn; congruence).
      assert (N : n = nnext s) by (unfold newNode in H1; congruence).
      rewrite Ht in Hm. cbn [nodes newNode snd] in Hm. rewrite in_app_iff in Hm. destruct Hm as [Hm|[<-|[]]]; [left; exact Hm|].
      right. exists q. split; [left; reflexivity|]. rewrite <- N. exact Hc.
Qed.
Lemma only_adds_trans s t u a b : only_adds s t a -> only_adds t u b -> only_adds s u (a ++ b).
Proof.
  intros [A1 A2 A3 A4] [B1 B2 B3 B4]. split.
  - congruence.
  - eapply incl_tran; eassumption.
  - auto.
  - intros n Hn. destruct (B4 n Hn) as [H|(q & Q1 & Q2)].
    + destruct (A4 n H) as [H'|(q & Q1 & Q2)]; [left; exact H'|right; exists q; split; [apply in_or_app; auto|auto]].
    + right. exists q. split; [apply in_or_app; auto|exact Q2].
Qed.
Lemma goals_added gs : forall s, built s -> exists t l, add_goals C P ceqb dist s gs = Ok t /\ built t /\ only_adds s t gs /\
  initN t = initN s /\ goals t = goals s ++ l /\ Forall2 (config_of t) l gs.
Proof.
  induction gs as [|g gs IH]; intros s HB.
  - exists s, []. cbn. rewrite app_nil_r. repeat split; auto; try apply incl_refl; constructor.
  - cbn [add_goals]. destruct (add_one s g HB) as (n & t & H1 & H2 & H3 & H4 & H5 & H6).
    assert (E : addGoalNode C P ceqb dist s g = Ok (set_goals t (goals t ++ [n]))) by (unfold addGoalNode; rewrite H1; reflexivity).
    rewrite E. cbn [bind].
    assert (HB' : built (set_goals t (goals t ++ [n]))).
    { eapply built_step with (o := OGoal g); [exact HB|discriminate|exact E]. }
    destruct (IH _ HB') as (u & l & U1 & U2 & U3 & U4 & U5 & U6).
    exists u, (n :: l). split; [exact U1|]. split; [exact U2|].
    assert (H3' : only_adds s (set_goals t (goals t ++ [n])) [g]) by (destruct H3 as [X1 X2 X3 X4]; split; assumption).
    split; [exact (only_adds_trans _ _ _ [g] gs H3' U3)|].
    split; [rewrite U4; exact H5|].
    split; [rewrite U5; cbn [goals set_goals]; rewrite H6, <- app_assoc; reflexivity|].
    constructor; [apply (oa_cfg _ _ _ U3); exact H4|exact U6].
Qed.

(* Starting adds at most nodes for the initial and goal configurations, no
   edge, and marks them. *)
Theorem C109_start s qi gs : built s -> exists t, sr_start s qi gs = Ok t /\ built t /\
  only_adds s t (qi :: gs) /\ poses t qi gs.
Proof.
  intros HB. unfold SearchModel.sr_start, sr_connect, start_solve.
  assert (HB' : built (resetGoalNodes s)) by (eapply built_step with (o := OResetGoals); [exact HB|discriminate|reflexivity]).
  destruct (add_one (resetGoalNodes s) qi HB') as (n & t & H1 & H2 & H3 & H4 & H5 & H6).
  assert (E : initNode C P ceqb dist (resetGoalNodes s) qi = Ok (set_init t (Some n))) by (unfold initNode; rewrite H1; reflexivity).
  rewrite E. cbn [bind].
  assert (HB2 : built (set_init t (Some n))) by (eapply built_step with (o := OInit qi); [exact HB'|discriminate|exact E]).
  destruct (goals_added gs _ HB2) as (u & l & U1 & U2 & U3 & U4 & U5 & U6). rewrite U1. cbn [bind].
  exists u. split; [reflexivity|]. split; [exact U2|]. split.
  - assert (H3' : only_adds s (set_init t (Some n)) [qi]) by (destruct H3 as [X1 X2 X3 X4]; split; assumption).
    exact (only_adds_trans _ _ _ [qi] gs H3' U3).
  - exists n. split; [rewrite U4; reflexivity|]. split; [apply (oa_cfg _ _ _ U3); exact H4|].
    cbn [goals set_init] in U5. rewrite U5, H6. cbn [goals resetGoalNodes set_goals app]. exact U6.
Qed.

(* When the edges of the roadmap lead from the initial node to a goal, solve
   returns the paths of such edges, without a step; otherwise it ends with an
   exception, without a step. *)
Theorem C109_search s qi gs p0 t i c fuel : built s -> sr_start s qi gs = Ok t -> initN t = Some i ->
  steer qi qi = Some p0 -> intr 0 = false -> 0 < fuel ->
  (exists l g, In g (goals t) /\ edge_path t i l g /\
     sr_solve fuel c s qi gs = Solved 0 (Ok (match l with [] => [p0] | _ => map (fun e => epath e) l end))) \/
  ((forall g, In g (goals t) -> ~ connected_to t i g) /\
   (sr_solve fuel c s qi gs = StepRaised 0 \/ sr_solve fuel c s qi gs = Solved 0 Throw \/
    sr_solve fuel c s qi gs = LimitHit 0 /\ over_time (clock 0) (tmo c) = true)).
Proof.
  intros HB Es Ei Hst Hi Hf. destruct (C109_start s qi gs HB) as (t' & E' & HBt & _ & (i' & Ei' & Hcfg & _)).
  rewrite Es in E'. assert (t' = t) by congruence. subst t'. assert (i' = i) by congruence. subst i'. clear E' Ei'.
  destruct fuel as [|fuel]; [lia|].
  destruct (C49_goal_reached_complete C P ceqb dist plen prev t HBt) as (b & Gb & Gc).
  assert (Hr : sr_reached C P t = b) by (unfold sr_reached; rewrite Gb; reflexivity).
  assert (Hs : sr_solve (S fuel) c s qi gs =
    if b then Solved 0 (gc_computePath C P dist plen steer t)
    else if over_time (clock 0) (tmo c) then LimitHit 0 else StepRaised 0).
  { unfold SearchModel.sr_solve, solve. rewrite Es, Hi, Hr. cbn [loop]. destruct b; [reflexivity|]. rewrite Hr.
    destruct (maxI c) as [|m]; cbn [Nat.eqb uint_infty negb andb Nat.leb]; destruct (over_time (clock 0) (tmo c)); reflexivity. }
  destruct (C49_goal_path C P ceqb dist plen prev steer t i qi p0 HBt Ei Hcfg Hst) as [(l & g & G1 & G2 & G3)|[G1 G2]].
  - left. exists l, g. split; [exact G1|]. split; [exact G2|].
    assert (b = true).
    { apply Gc. exists i, g. split; [exact Ei|]. split; [exact G1|]. clear - G2. revert i G2.
      induction l as [|e l IH]; intros i G2; cbn in G2.
      - subst. constructor.
      - destruct G2 as (E1 & E2 & E3). eapply reach_step; [exists e; eauto|]. apply IH. exact E3. }
    rewrite Hs, H. f_equal. exact G3.
  - right. split; [exact G2|]. rewrite Hs. destruct b.
    + right; left. rewrite G1. reflexivity.
    + destruct (over_time (clock 0) (tmo c)) eqn:Eo; [right; right|left]; auto.
Qed.

(* A roadmap which holds these configurations keeps its nodes: only the marks
   of the initial and goal nodes change. *)
Theorem C109_unmodified_partial s qi gs : separating ceqb dist -> built s ->
  (forall q, In q (qi :: gs) -> exists n, In n (nodes s) /\ config_of s n q) ->
  exists i l, sr_start s qi gs = Ok (set_goals (set_init s (Some i)) l).
Proof.
  intros HSep HB Hq. unfold SearchModel.sr_start, sr_connect, start_solve.
  assert (HB' : built (resetGoalNodes s)) by (eapply built_step with (o := OResetGoals); [exact HB|discriminate|reflexivity]).
  destruct (Hq qi (or_introl eq_refl)) as (n & N1 & N2).
  destruct (C04_add_existing C P ceqb dist plen prev (resetGoalNodes s) qi n HSep HB' N1 N2) as (m & A1 & _).
  assert (E : initNode C P ceqb dist (resetGoalNodes s) qi = Ok (set_init (resetGoalNodes s) (Some m))) by (unfold initNode; rewrite A1; reflexivity).
  rewrite E. cbn [bind].
  assert (HB2 : built (set_init (resetGoalNodes s) (Some m))) by (eapply built_step with (o := OInit qi); [exact HB'|discriminate|exact E]).
  assert (G : forall gs0 l, incl gs0 gs -> built (set_goals (set_init s (Some m)) l) ->
     exists l', add_goals C P ceqb dist (set_goals (set_init s (Some m)) l) gs0 = Ok (set_goals (set_init s (Some m)) l')).
  { induction gs0 as [|g gs0 IH]; intros l Hin Hb; [exists l; reflexivity|]. cbn [add_goals].
    destruct (Hq g (or_intror (Hin g (or_introl eq_refl)))) as (k & K1 & K2).
    destruct (C04_add_existing C P ceqb dist plen prev (set_goals (set_init s (Some m)) l) g k HSep Hb K1 K2) as (k' & B1 & _).
    assert (E' : addGoalNode C P ceqb dist (set_goals (set_init s (Some m)) l) g = Ok (set_goals (set_init s (Some m)) (l ++ [k']))) by (unfold addGoalNode; rewrite B1; reflexivity).
    rewrite E'. cbn [bind]. apply IH; [intros x Hx; apply Hin; right; exact Hx|].
    eapply built_step with (o := OGoal g); [exact Hb|discriminate|exact E']. }
  destruct (G gs [] (incl_refl _) HB2) as (l' & El). exists m, l'.
  change (set_init (resetGoalNodes s) (Some m)) with (set_goals (set_init s (Some m)) []). rewrite El. reflexivity.
Qed.
End Statements.

(* The documentation says that the roadmap is not modified: a node is added for
   an initial configuration which is not there. *)
Theorem C109_unmodified_refuted : exists s t, built Nat.eqb xdist ylen (fun p => p) s /\
  sr_start nat nat Nat.eqb xdist s 1 [5] = Ok t /\ length (nodes t) = S (length (nodes s)).
Proof.
  set (s := ybuild xdist empty [OAddNode 5]).
  assert (B : built Nat.eqb xdist ylen (fun p => p) s) by (apply ybuild_built; [constructor|intros o H; cbn in H; intuition discriminate]).
  destruct (C109_start nat nat Nat.eqb xdist ylen (fun p => p) (fun a b => proj1 (Nat.eqb_eq a b)) s 1 [5] B) as (t & E & _).
  exists s, t. split; [exact B|]. split; [exact E|].
  assert (X : match sr_start nat nat Nat.eqb xdist s 1 [5] with Ok u => length (nodes u) =? S (length (nodes s)) | _ => false end = true) by (vm_compute; reflexivity).
  rewrite E in X. apply Nat.eqb_eq in X. exact X.
Qed.

(* the square of AstarProps, from 0 to 10: found; from 0 to 77: not found *)
Example C109_example :
  sr_solve nat nat Nat.eqb xdist ylen (fun _ _ => Some 0) (fun _ => 0%Z) (fun _ => false) 1 settings0 sq 0 [10] = Solved 0 (Ok [6; 7]) /\
  sr_solve nat nat Nat.eqb xdist ylen (fun _ _ => Some 0) (fun _ => 0%Z) (fun _ => false) 1 settings0 sq 0 [77] = StepRaised 0 /\
  (* the note of search-in-roadmap.hh 51-54: the goal is the initial configuration *)
  sr_solve nat nat Nat.eqb xdist ylen (fun _ _ => Some 0) (fun _ => 0%Z) (fun _ => false) 1 settings0 sq 0 [10; 0] = Solved 0 (Ok [0]).
Proof. repeat split; vm_compute; reflexivity. Qed.

Example C109_kept : exists i l, sr_start nat nat Nat.eqb xdist sq 0 [10] = Ok (set_goals (set_init sq (Some i)) l).
Proof.
  apply (C109_unmodified_partial nat nat Nat.eqb xdist ylen (fun p => p)); [exact ex_separating|exact sq_built|].
  intros q [<-|[<-|[]]]; [exists 0|exists 3]; (split; [vm_compute; tauto|]); eexists; split; vm_compute; reflexivity.
Qed.

Print Assumptions C109_start.
Print Assumptions C109_search.
Print Assumptions C109_unmodified_partial.
Print Assumptions C109_unmodified_refuted.
