(* Property theorems about A* (C06, C07). *)
From Verif Require Import Base Reach RoadmapModel RoadmapSpec AstarModel AstarSpec AstarProofs RoadmapProps.
From Coq Require Import ZArith Lqa.

Section Statements.
Variables C P : Type.
Variable ceqb : C -> C -> bool.
Variable dist : C -> C -> Q.
Variable plen : P -> Q.
Variable prev : P -> P.
Notation built := (@built C P ceqb dist plen prev).

(* C06: on every roadmap built by public calls, the search terminates; it
   returns edges leading from the initial node to a goal node, or throws when
   no goal can be reached. *)
Theorem C06_astar_correct : forall (s : rm C P) i, built s -> initN s = Some i ->
  (exists l g, roadmap_astar dist plen s = Ok l /\ In g (goals s) /\ edge_path s i l g) \/
  (roadmap_astar dist plen s = Throw /\ forall g, In g (goals s) -> ~ connected_to s i g).
Proof. exact (astar_l ceqb dist plen prev). Qed.

(* C07: with a metric not larger than the lengths of the edges, no edge path
   from the initial node to a goal is shorter than the one returned. *)
Theorem C07_astar_optimal_partial : forall (s : rm C P) i l, built s -> initN s = Some i ->
  heuristic_consistent dist plen s -> roadmap_astar dist plen s = Ok l ->
  forall g' l', In g' (goals s) -> edge_path s i l' g' -> single_edges s ->
    (path_cost plen l <= path_cost plen l')%Q.
Proof. exact (astar_optimal_l ceqb dist plen prev). Qed.
End Statements.
Print Assumptions C06_astar_correct.
Print Assumptions C07_astar_optimal_partial.

(* Instances.  Configurations and paths are numbers; the path number is its
   length. *)
Definition ylen (p : nat) : Q := inject_Z (Z.of_nat p).
Section Instance.
Variable d : nat -> nat -> Q.
Definition ystep := step nat nat Nat.eqb d ylen (fun p => p).
Fixpoint ybuild (s : rm nat nat) (l : list (op nat nat)) : rm nat nat :=
  match l with
  | [] => s
  | o :: l' => match ystep s o with Ok t => ybuild t l' | _ => s end
  end.
Lemma ybuild_built l : forall s, built Nat.eqb d ylen (fun p => p) s ->
  (forall o, ~ In (OMerge o) l) -> built Nat.eqb d ylen (fun p => p) (ybuild s l).
Proof.
  induction l as [|o l IH]; intros s Hs Hm; simpl; [exact Hs|].
  destruct (ystep s o) as [t| | |] eqn:E; try exact Hs.
  apply IH; [|intros o' Ho; apply (Hm o'); right; exact Ho].
  eapply built_step; [exact Hs| |exact E].
  intros other ->. exfalso; apply (Hm other); left; reflexivity.
Qed.
End Instance.

(* a square: 0 -> 1 -> 3 is shorter than 0 -> 2 -> 3 *)
Definition sq_ops : list (op nat nat) :=
  [OInit 0; OAddNode 5; OAddNode 9; OGoal 10; OAddEdge 0 2 20; OAddEdge 2 3 3; OAddEdge 0 1 6; OAddEdge 1 3 7; OAddEdge 3 0 10].
Definition sq := ybuild xdist empty sq_ops.
Example sq_built : built Nat.eqb xdist ylen (fun p => p) sq.
Proof. apply ybuild_built; [constructor|]. intros o H; simpl in H; intuition discriminate. Qed.
Example sq_run : initN sq = Some 0 /\ goals sq = [3] /\
  exists l, roadmap_astar xdist ylen sq = Ok l /\ map (fun e => (efrom e, eto e)) l = [(0, 1); (1, 3)].
Proof. vm_compute. repeat split. eexists; split; reflexivity. Qed.
Example sq_single : single_edges sq.
Proof.
  intros e1 e2 H1 H2. vm_compute in H1, H2.
  repeat (destruct H1 as [<-|H1]; [repeat (destruct H2 as [<-|H2]; [vm_compute; congruence|]); destruct H2|]).
  destruct H1.
Qed.
Example sq_consistent : heuristic_consistent xdist ylen sq.
Proof.
  unfold heuristic_consistent. split; [|split; [|split]].
  - intros a b. unfold xdist, Qle, inject_Z; simpl; lia.
  - intros a. unfold xdist, Qeq, inject_Z; simpl; lia.
  - intros a b c. unfold xdist. rewrite <- inject_Z_plus, <- Zle_Qle. lia.
  - intros e He a b [na [Ha1 Ha2]] [nb [Hb1 Hb2]]. vm_compute in He.
    repeat (destruct He as [<-|He]; [vm_compute in Ha1, Hb1; injection Ha1 as <-; injection Hb1 as <-; simpl in Ha2, Hb2; subst a b; vm_compute; discriminate|]).
    destruct He.
Qed.
(* a roadmap whose goal is not reachable *)
Example unreachable_run : roadmap_astar xdist ylen (ybuild xdist empty [OInit 0; OGoal 4; OAddEdge 1 0 4]) = Throw.
Proof. reflexivity. Qed.

(* C07 refuted when two edges join the same nodes: Roadmap::addEdge stores the
   second one in the list of edges only, the search never uses it. *)
Definition par_ops : list (op nat nat) := [OInit 0; OGoal 1; OAddEdge 0 1 20; OAddEdge 0 1 1].
Theorem C07_parallel_edges_refuted : exists s i l g l',
  built Nat.eqb xdist ylen (fun p => p) s /\ initN s = Some i /\ heuristic_consistent xdist ylen s /\
  roadmap_astar xdist ylen s = Ok l /\ In g (goals s) /\ edge_path s i l' g /\
  (path_cost ylen l' < path_cost ylen l)%Q.
Proof.
  exists (ybuild xdist empty par_ops), 0.
  assert (He : edges (ybuild xdist empty par_ops) = [mkEdge 0 1 20; mkEdge 0 1 1]) by (vm_compute; reflexivity).
  exists [mkEdge 0 1 20], 1, [mkEdge 0 1 1].
  split; [apply ybuild_built; [constructor|]; intros o H; simpl in H; intuition discriminate|].
  split; [vm_compute; reflexivity|]. split.
  { unfold heuristic_consistent. split; [|split; [|split]].
    - intros a b. unfold xdist, Qle, inject_Z; simpl; lia.
    - intros a. unfold xdist, Qeq, inject_Z; simpl; lia.
    - intros a b c. unfold xdist. rewrite <- inject_Z_plus, <- Zle_Qle. lia.
    - intros e Hin a b [na [Ha1 Ha2]] [nb [Hb1 Hb2]]. vm_compute in Hin.
      repeat (destruct Hin as [<-|Hin]; [vm_compute in Ha1, Hb1; injection Ha1 as <-; injection Hb1 as <-; simpl in Ha2, Hb2; subst a b; vm_compute; discriminate|]).
      destruct Hin. }
  split; [vm_compute; reflexivity|]. split; [vm_compute; auto|]. split.
  - cbn [edge_path eto efrom]; rewrite He; simpl; auto.
  - vm_compute; reflexivity.
Qed.

(* C07 refuted for a distance which never overestimates but violates the
   triangle inequality: a node closed with a too long path is not reopened. *)
Definition odd (a b : nat) : Q :=
  if a =? b then 0%Q else match a, b with 1, 3 => 11%Q | 3, 1 => 11%Q | 0, 3 => 1%Q | 3, 0 => 1%Q | _, _ => 1%Q end.
Definition adm_ops : list (op nat nat) :=
  [OInit 0; OAddNode 1; OAddNode 2; OGoal 3; OAddEdge 0 2 3; OAddEdge 0 1 1; OAddEdge 1 2 1; OAddEdge 2 3 10].
Definition adm := ybuild odd empty adm_ops.
Lemma adm_edges : edges adm = [mkEdge 0 2 3; mkEdge 0 1 1; mkEdge 1 2 1; mkEdge 2 3 10].
Proof. vm_compute; reflexivity. Qed.
Lemma adm_cons n e l : edge_path adm n (e :: l) 3 ->
  In (n, eto e, epath e) [(0, 2, 3); (0, 1, 1); (1, 2, 1); (2, 3, 10)] /\ edge_path adm (eto e) l 3.
Proof.
  cbn [edge_path]. rewrite adm_edges. intros [H [<- K]]. split; [|exact K].
  destruct H as [<-|[<-|[<-|[<-|[]]]]]; cbn [In efrom eto epath]; auto 10.
Qed.
Lemma adm_paths : forall l n, edge_path adm n l 3 -> exists k : Z,
  n < 4 /\ (path_cost ylen l == inject_Z k)%Q /\
  match n with 0 => (12 <= k)%Z | 1 => (11 <= k)%Z | 2 => (10 <= k)%Z | _ => (0 <= k)%Z end.
Proof.
  induction l as [|e l IH]; intros n Hp.
  - cbn [edge_path] in Hp; subst n. exists 0%Z; split; [lia|split; [reflexivity|lia]].
  - apply adm_cons in Hp as [H K]. apply IH in K as [k [K0 [K1 K2]]].
    exists (Z.of_nat (epath e) + k)%Z. split; [|split].
    + destruct H as [H|[H|[H|[H|[]]]]]; injection H as <- _ _; lia.
    + cbn [path_cost]. rewrite K1. unfold ylen. rewrite inject_Z_plus. reflexivity.
    + destruct e as [f t p]; cbn [eto epath] in *.
      destruct H as [H|[H|[H|[H|[]]]]]; injection H as <- <- <-; lia.
Qed.
Theorem C07_admissible_refuted : exists d s i l g l',
  built Nat.eqb d ylen (fun p => p) s /\ initN s = Some i /\ heuristic_admissible d ylen s /\ single_edges s /\
  roadmap_astar d ylen s = Ok l /\ In g (goals s) /\ edge_path s i l' g /\
  (path_cost ylen l' < path_cost ylen l)%Q.
Proof.
  exists odd, adm, 0, [mkEdge 0 2 3; mkEdge 2 3 10], 3, [mkEdge 0 1 1; mkEdge 1 2 1; mkEdge 2 3 10].
  split; [apply ybuild_built; [constructor|]; intros o H; simpl in H; intuition discriminate|].
  split; [vm_compute; reflexivity|]. split.
  { unfold heuristic_admissible; intros n l g a b Hg Hp Ha Hb.
    destruct Ha as [na [Ha1 Ha2]]. destruct Hb as [nb [Hb1 Hb2]].
    assert (g = 3) as -> by (vm_compute in Hg; intuition congruence).
    destruct (adm_paths l n Hp) as [k [K0 [K1 K2]]]. rewrite K1.
    assert (b = 3) as -> by (vm_compute in Hb1; injection Hb1 as <-; symmetry; exact Hb2).
    assert (a = n) as ->.
    { do 4 (destruct n as [|n]; [vm_compute in Ha1; injection Ha1 as <-; symmetry; exact Ha2|]). lia. }
    do 4 (destruct n as [|n]; [unfold odd; cbn [Nat.eqb]; unfold Qle, inject_Z; cbn [Qnum Qden]; lia|]). lia. }
  split.
  { intros e1 e2 H1 H2. rewrite adm_edges in H1, H2. simpl in H1, H2.
    repeat (destruct H1 as [<-|H1]; [repeat (destruct H2 as [<-|H2]; [simpl; congruence|]); destruct H2|]).
    destruct H1. }
  split; [vm_compute; reflexivity|]. split; [vm_compute; auto|]. split.
  - cbn [edge_path eto efrom]; rewrite adm_edges; simpl; auto 10.
  - vm_compute; reflexivity.
Qed.
Print Assumptions C07_admissible_refuted.
Print Assumptions C07_parallel_edges_refuted.
