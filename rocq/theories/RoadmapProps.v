(* Property theorems about the roadmap (C01 - C05, part of C08). *)
From Verif Require Import Base Reach RoadmapModel RoadmapSpec RoadmapProofs4.
From Coq Require Import ZArith.

Section Statements.
Variables C P : Type.
Variable ceqb : C -> C -> bool.
Variable dist : C -> C -> Q.
Variable plen : P -> Q.
Variable prev : P -> P.
Notation built := (@built C P ceqb dist plen prev).
Notation built_with := (@built_with C P ceqb dist plen prev).

(* C01: nodes are partitioned into the components; the component stored in a
   node is the one listing it; reachability links only join components of the
   roadmap and mirror each other. *)
Theorem C01_partition : forall s, built s ->
  NoDup (nodes s) /\ NoDup (live s) /\
  (forall n, In n (nodes s) -> exists! c, In c (live s) /\ In n (cnodes (cinfo s c))) /\
  (forall n c, comp_of s n c <-> In c (live s) /\ In n (cnodes (cinfo s c))) /\
  (forall c, In c (live s) -> cnodes (cinfo s c) <> [] /\ NoDup (cnodes (cinfo s c)) /\
     forall n, In n (cnodes (cinfo s c)) -> In n (nodes s)) /\
  (forall c d, In c (live s) -> In d (rto (cinfo s c)) -> In d (live s) /\ d <> c /\ In c (rfrom (cinfo s d))) /\
  (forall c d, In c (live s) -> In d (rfrom (cinfo s c)) -> In d (live s) /\ d <> c /\ In c (rto (cinfo s d))).
Proof. exact (partition_l ceqb dist plen prev). Qed.

(* C01: no public call on nodes of the roadmap throws, has undefined
   behaviour or loops. *)
Theorem C01_calls_succeed : forall s o, built s ->
  good_args ceqb dist plen prev s o -> exists t, step C P ceqb dist plen prev s o = Ok t /\ built t.
Proof. exact (calls_succeed_l ceqb dist plen prev). Qed.

(* the out- and in-edge lists of a node represent exactly the arcs *)
Theorem C01_adjacency : forall s n nd, built s -> ninfo s n = Some nd ->
  (forall b, (exists e, In e (nout nd) /\ eto e = b) <-> arc s n b) /\
  (forall a, (exists e, In e (nin nd) /\ efrom e = a) <-> arc s a n) /\
  (forall e, In e (nout nd) -> In e (edges s) /\ efrom e = n) /\
  (forall e, In e (nin nd) -> In e (edges s) /\ eto e = n).
Proof. exact (adjacency_l ceqb dist plen prev). Qed.

(* C02, histories without one-way insertion of a new node *)
Theorem C02_path_exists_partial : forall s i, built_with two_way s -> initN s = Some i ->
  exists b, pathExists s = Ok (b, s) /\
    (b = true <-> exists g, In g (goals s) /\ connected_to s i g).
Proof. exact (path_exists_l ceqb dist plen prev). Qed.
Theorem C02_can_reach_partial : forall s c d, built_with two_way s -> In c (live s) -> In d (live s) ->
  exists b, canReach s c d = Ok (b, s) /\
    (b = true <-> exists m n, comp_of s m c /\ comp_of s n d /\ connected_to s m n) /\
    (b = true <-> forall m n, comp_of s m c -> comp_of s n d -> connected_to s m n).
Proof. exact (can_reach_l ceqb dist plen prev). Qed.
(* C02, every history: pathExists never misses a path *)
Theorem C02_path_exists_complete : forall s i, built s -> initN s = Some i ->
  exists b, pathExists s = Ok (b, s) /\
    ((exists g, In g (goals s) /\ connected_to s i g) -> b = true).
Proof. exact (path_exists_complete_l ceqb dist plen prev). Qed.

(* C03, histories without one-way insertion of a new node *)
Theorem C03_scc_partial : forall s m n c d, built_with two_way s -> comp_of s m c -> comp_of s n d ->
  (c = d <-> connected_to s m n /\ connected_to s n m).
Proof. exact (scc_l ceqb dist plen prev). Qed.
(* C03, every history: mutually reachable nodes share their component *)
Theorem C03_scc_complete : forall s m n c d, built s -> comp_of s m c -> comp_of s n d ->
  connected_to s m n -> connected_to s n m -> c = d.
Proof. exact (scc_one_way_l ceqb dist plen prev). Qed.

(* C04 *)
Theorem C04_add_existing : forall s q n, separating ceqb dist -> built s ->
  In n (nodes s) -> config_of s n q ->
  exists m, addNode C P ceqb dist s q = Ok (m, s) /\ In m (nodes s) /\ config_of s m q.
Proof. exact (addNode_existing_l ceqb dist plen prev). Qed.
Theorem C04_no_duplicates_partial : forall s, separating ceqb dist -> built_with plain s ->
  forall m n q, config_of s m q -> config_of s n q -> m = n.
Proof. exact (no_duplicates_l ceqb dist plen prev). Qed.

(* C05: nodes, configurations and connections of both roadmaps survive.  The
   last hypothesis is the assertion of the code: an edge of length zero is a
   loop. *)
Theorem C05_merge_preserves : forall s other,
  (forall a b, ceqb a b = true -> a = b) -> built s -> built other ->
  (forall e, In e (edges other) -> (plen (epath e) == 0)%Q -> efrom e = eto e) ->
  exists t m, merge C P ceqb dist plen prev s other = Ok t /\
    (forall n, In n (nodes s) -> In n (nodes t)) /\
    (forall n q, config_of s n q -> config_of t n q) /\
    (forall a b, connected_to s a b -> connected_to t a b) /\
    (forall n q, config_of other n q -> exists k, m n = Some k /\ config_of t k q) /\
    (forall a b a' b', connected_to other a b -> m a = Some a' -> m b = Some b' ->
        connected_to t a' b' /\ connected_to t b' a').
Proof. exact (merge_l ceqb dist plen prev). Qed.

(* C08, Roadmap::nearestNode with the exhaustive search *)
Theorem C08_nearest_all : forall s rev q, built s ->
  match nearestNode C P dist s rev q with
  | None => nodes s = []
  | Some (n, d) => In n (nodes s) /\ (exists c, config_of s n c /\ d = (if rev then dist q c else dist c q)) /\
                   forall m c, In m (nodes s) -> config_of s m c -> (d <= if rev then dist q c else dist c q)%Q
  end.
Proof. exact (nearest_l ceqb dist plen prev). Qed.
Theorem C08_nearest_component : forall s rev q c, built s -> In c (live s) ->
  exists n d, nn_search C P dist s rev q c = Some (n, d) /\ comp_of s n c /\
    (exists qn, config_of s n qn /\ d = (if rev then dist q qn else dist qn q)) /\
    forall m qm, comp_of s m c -> config_of s m qm -> (d <= if rev then dist q qm else dist qm q)%Q.
Proof. exact (nearest_cc_l ceqb dist plen prev). Qed.
End Statements.

(* ------------------------------------------------------------------ *)
(* A concrete instance: configurations on a line, paths named by numbers. *)
Definition xdist (a b : nat) : Q := inject_Z (Z.abs (Z.of_nat a - Z.of_nat b)).
Definition xlen (p : nat) : Q := 1%Q.
Definition xrun := run nat nat Nat.eqb xdist xlen (fun p => p).
Definition xstep := step nat nat Nat.eqb xdist xlen (fun p => p).

(* Three nodes, 0 -> 5 one way, 5 <-> 9, and node 0 unreachable from 9:
   components {5, 9} and {0}. *)
Definition ex_ops : list (op nat nat) :=
  [OInit 0; OGoal 9; OAddNode 5; OAddEdge 0 2 1; OAddEdges 2 1 2].
Fixpoint xbuild (s : rm nat nat) (l : list (op nat nat)) : rm nat nat :=
  match l with
  | [] => s
  | o :: l' => match xstep s o with Ok t => xbuild t l' | _ => s end
  end.
Definition ex_s := xbuild empty ex_ops.

Lemma xbuild_built ok l : forall s, built_with Nat.eqb xdist xlen (fun p => p) ok s ->
  forallb ok l = true -> (forall o, ~ In (OMerge o) l) ->
  built_with Nat.eqb xdist xlen (fun p => p) ok (xbuild s l).
Proof.
  induction l as [|o l IH]; intros s Hs Hok Hm; simpl; [exact Hs|].
  simpl in Hok; apply andb_prop in Hok as [H1 H2].
  destruct (xstep s o) as [t| | |] eqn:E; try exact Hs.
  apply IH; [|exact H2|intros o' Ho; apply (Hm o'); right; exact Ho].
  eapply builtw_step; [exact Hs|exact H1| |exact E].
  intros other ->. exfalso; apply (Hm other); left; reflexivity.
Qed.

Example ex_s_built : built_with Nat.eqb xdist xlen (fun p => p) two_way ex_s.
Proof.
  apply xbuild_built; [constructor|reflexivity|].
  intros o H; simpl in H; intuition discriminate.
Qed.
Example ex_s_content :
  nodes ex_s = [0; 1; 2] /\ live ex_s = [0; 1] /\ cnodes (cinfo ex_s 1) = [1; 2] /\
  initN ex_s = Some 0 /\ goals ex_s = [1] /\ length (edges ex_s) = 3 /\
  (exists s, pathExists ex_s = Ok (true, s)) /\ (exists s, canReach ex_s 1 0 = Ok (false, s)).
Proof. vm_compute; repeat split; eexists; reflexivity. Qed.
(* the hypothesis of C04 holds for the example *)
Example ex_separating : separating Nat.eqb xdist.
Proof.
  split; [apply Nat.eqb_eq|]. unfold xdist; split; intros a b.
  - unfold Qle, inject_Z; simpl. lia.
  - unfold Qeq, inject_Z; simpl. lia.
Qed.

(* C02/C03 refuted: addNodeAndEdge puts the new node in the component of its
   neighbour although only one direction exists: from node 1 the initial node
   cannot be reached back, yet pathExists answers true. *)
Definition bad_ops : list (op nat nat) :=
  [OAddNode 0; OAddNodeAndEdge 0 5 1; OInit 5; OGoal 0].
Theorem C02_path_exists_refuted : exists s i,
  built Nat.eqb xdist xlen (fun p => p) s /\ initN s = Some i /\
  (exists t, pathExists s = Ok (true, t)) /\ ~ exists g, In g (goals s) /\ connected_to s i g.
Proof.
  exists (xbuild empty bad_ops), 1. split; [|split; [reflexivity|split; [eexists; vm_compute; reflexivity|]]].
  - apply (RoadmapProofs3.built_weaken _ _ _ _ (fun _ => true)).
    apply xbuild_built; [constructor|reflexivity|]. intros o H; simpl in H; intuition discriminate.
  - intros [g [Hg Hr]]. assert (g = 0) as -> by (vm_compute in Hg; intuition congruence).
    inversion Hr as [|x y z [e [He [H1 H2]]] _]; subst.
    vm_compute in He. destruct He as [He|[]]. subst e; discriminate.
Qed.
Theorem C03_scc_refuted : exists s m n c,
  built Nat.eqb xdist xlen (fun p => p) s /\ comp_of s m c /\ comp_of s n c /\ ~ connected_to s m n.
Proof.
  exists (xbuild empty bad_ops), 1, 0, 0. split; [|split; [|split]].
  - apply (RoadmapProofs3.built_weaken _ _ _ _ (fun _ => true)).
    apply xbuild_built; [constructor|reflexivity|]. intros o H; simpl in H; intuition discriminate.
  - eexists; split; [vm_compute; reflexivity|reflexivity].
  - eexists; split; [vm_compute; reflexivity|reflexivity].
  - intros Hr. inversion Hr as [|x y z [e [He [H1 H2]]] _]; subst.
    vm_compute in He. destruct He as [He|[]]. subst e; discriminate.
Qed.

(* C04 refuted for the calls which search only one component: configuration 5
   is held by two nodes. *)
Definition dup_ops : list (op nat nat) := [OAddNode 0; OAddNode 5; OAddNodeAndEdges 0 5 1].
Theorem C04_no_duplicates_refuted : exists s m n q,
  built Nat.eqb xdist xlen (fun p => p) s /\ separating Nat.eqb xdist /\
  config_of s m q /\ config_of s n q /\ m <> n.
Proof.
  exists (xbuild empty dup_ops), 1, 2, 5. split; [|split; [exact ex_separating|split; [|split]]].
  - apply (RoadmapProofs3.built_weaken _ _ _ _ (fun _ => true)).
    apply xbuild_built; [constructor|reflexivity|]. intros o H; simpl in H; intuition discriminate.
  - eexists; split; [vm_compute; reflexivity|reflexivity].
  - eexists; split; [vm_compute; reflexivity|reflexivity].
  - discriminate.
Qed.

(* C05: merging does not keep directions: a one-way edge of the other roadmap
   becomes a two-way connection. *)
Definition one_ops : list (op nat nat) := [OAddNode 0; OAddNode 5; OAddEdge 0 1 1].
Theorem C05_merge_directions_refuted : exists s other t,
  built Nat.eqb xdist xlen (fun p => p) s /\ built Nat.eqb xdist xlen (fun p => p) other /\
  merge nat nat Nat.eqb xdist xlen (fun p => p) s other = Ok t /\
  nodes s = [] /\ (forall n q, config_of t n q <-> config_of other n q) /\
  connected_to t 1 0 /\ ~ connected_to other 1 0.
Proof.
  exists empty, (xbuild empty one_ops).
  assert (HB : built Nat.eqb xdist xlen (fun p => p) (xbuild empty one_ops)).
  { apply (RoadmapProofs3.built_weaken _ _ _ _ (fun _ => true)).
    apply xbuild_built; [constructor|reflexivity|]. intros o H; simpl in H; intuition discriminate. }
  destruct (merge nat nat Nat.eqb xdist xlen (fun p => p) empty (xbuild empty one_ops)) as [t| | |] eqn:E;
    try (exfalso; vm_compute in E; discriminate).
  exists t. split; [constructor|split; [exact HB|split; [reflexivity|split; [reflexivity|]]]].
  vm_compute in E. injection E as <-. split; [|split].
  - intros n q. unfold config_of; simpl.
    destruct n as [|[|n]]; simpl; (split; intros [nd [H1 H2]]); try discriminate;
      injection H1 as <-; simpl in H2; subst q; eexists; split; reflexivity.
  - apply reach_one. eexists; split; [right; left; reflexivity|split; reflexivity].
  - intros Hr. inversion Hr as [|x y z [e [He [H1 H2]]] _]; subst.
    vm_compute in He. destruct He as [He|[]]. subst e; discriminate.
Qed.

Print Assumptions C01_partition.
Print Assumptions C01_calls_succeed.
Print Assumptions C01_adjacency.
Print Assumptions C02_path_exists_partial.
Print Assumptions C02_can_reach_partial.
Print Assumptions C02_path_exists_complete.
Print Assumptions C02_path_exists_refuted.
Print Assumptions C03_scc_partial.
Print Assumptions C03_scc_complete.
Print Assumptions C03_scc_refuted.
Print Assumptions C04_add_existing.
Print Assumptions C04_no_duplicates_partial.
Print Assumptions C04_no_duplicates_refuted.
Print Assumptions C05_merge_preserves.
Print Assumptions C05_merge_directions_refuted.
Print Assumptions C08_nearest_all.
Print Assumptions C08_nearest_component.
