(* Property theorems about the K nearest neighbour and ball queries (C08). *)
From Verif Require Import Base Reach RoadmapModel RoadmapSpec NearestModel NearestProofs RoadmapProofs RoadmapProofs2 RoadmapProofs3 RoadmapProofs4 RoadmapProps.
From Coq Require Import Permutation ZArith Lqa.

Section Statements.
Variables C P : Type.
Variable ceqb : C -> C -> bool.
Variable dist : C -> C -> Q.
Variable plen : P -> Q.
Variable prev : P -> P.
Notation built := (@built C P ceqb dist plen prev).

Lemma node_dist_cfg (s : rm C P) q n c : config_of s n c -> node_dist dist s q n = dist c q.
Proof. intros [nd [H1 H2]]. unfold node_dist; rewrite H1, H2; reflexivity. Qed.
Lemma comp_nodes (s : rm C P) c : built s -> In c (live s) -> forall n, In n (cnodes (cinfo s c)) <-> comp_of s n c.
Proof.
  intros HB Hc n. destruct (C01_partition C P ceqb dist plen prev s HB) as [_ [_ [_ [H _]]]].
  rewrite (H n c). tauto.
Qed.

(* C08: whatever the heap does with ties, the result lists, by increasing
   distance, K nodes of smallest distance (all the nodes if fewer), without
   repetition, and [distance] is the largest distance of the result. *)
Theorem C08_knearest_component : forall sel (s : rm C P) q c K,
  is_heap sel -> built s -> In c (live s) -> 0 < K ->
  exists out m, knn_cc dist sel s q c K = Ok (out, Some m) /\
    (forall n, In n out -> comp_of s n c) /\ NoDup out /\
    length out = Nat.min K (length (cnodes (cinfo s c))) /\
    (forall a b qa qb, In a out -> comp_of s b c -> ~ In b out -> config_of s a qa -> config_of s b qb ->
        (dist qa q <= dist qb q)%Q) /\
    (forall l1 a l2 b qa qb, out = l1 ++ a :: l2 -> In b l2 -> config_of s a qa -> config_of s b qb ->
        (dist qa q <= dist qb q)%Q) /\
    (exists a qa, In a out /\ config_of s a qa /\ m = dist qa q) /\
    (forall a qa, In a out -> config_of s a qa -> (dist qa q <= m)%Q).
Proof.
  intros sel s q c K Hsel HB Hc HK. pose proof (comp_nodes s c HB Hc) as Hcn.
  destruct (C01_partition C P ceqb dist plen prev s HB) as [_ [_ [_ [_ [Hpart _]]]]].
  destruct (Hpart c Hc) as [Hne [Hnd Hin]].
  unfold knn_cc. destruct (knn_spec sel Hsel (node_dist dist s q) K (cnodes (cinfo s c)) HK)
    as [out [m [E [[[rest [P1 P2]] HL HA] Hm]]]].
  destruct m as [m|]; [|contradiction]. exists out, m.
  assert (Hsub : forall n, In n out -> comp_of s n c).
  { intros n Hn. apply Hcn. rewrite P1. apply in_app_iff; auto. }
  split; [exact E|]. split; [exact Hsub|]. split; [|split; [exact HL|split; [|split; [|split]]]].
  - apply (NoDup_app_l out rest). eapply Permutation_NoDup; eauto.
  - intros a b qa qb Ha Hb Hnb Hqa Hqb. apply Hcn in Hb. rewrite P1, in_app_iff in Hb.
    destruct Hb as [Hb|Hb]; [contradiction|].
    rewrite <- (node_dist_cfg s q a qa Hqa), <- (node_dist_cfg s q b qb Hqb). auto.
  - intros l1 a l2 b qa qb -> Hb Hqa Hqb.
    rewrite <- (node_dist_cfg s q a qa Hqa), <- (node_dist_cfg s q b qb Hqb).
    clear - HA Hb. induction l1 as [|x l1 IH]; simpl in HA; destruct HA as [H1 H2]; auto.
  - destruct Hm as [x [X1 [X2 X3]]]. destruct (Hsub x X1) as [nd [N1 N2]].
    exists x, (ncfg nd). split; [exact X1|]. assert (Hq : config_of s x (ncfg nd)) by (exists nd; auto).
    split; [exact Hq|]. rewrite X2. apply node_dist_cfg; exact Hq.
  - intros a qa Ha Hqa. destruct Hm as [x [X1 [X2 X3]]].
    rewrite <- (node_dist_cfg s q a qa Hqa). auto.
Qed.

Theorem C08_knearest_roadmap : forall sel (s : rm C P) q K,
  is_heap sel -> built s -> 0 < K -> nodes s <> [] ->
  exists out m, knn_roadmap dist sel s q K = Ok (out, Some m) /\
    (forall n, In n out -> In n (nodes s)) /\ NoDup out /\
    length out = Nat.min K (length (nodes s)) /\
    (forall a b qa qb, In a out -> In b (nodes s) -> ~ In b out -> config_of s a qa -> config_of s b qb ->
        (dist qa q <= dist qb q)%Q) /\
    (forall l1 a l2 b qa qb, out = l1 ++ a :: l2 -> In b l2 -> config_of s a qa -> config_of s b qb ->
        (dist qa q <= dist qb q)%Q) /\
    (exists a qa, In a out /\ config_of s a qa /\ m = dist qa q) /\
    (forall a qa, In a out -> config_of s a qa -> (dist qa q <= m)%Q).
Proof.
  intros sel s q K Hsel HB HK Hne.
  destruct (C01_partition C P ceqb dist plen prev s HB) as [Hnd _].
  unfold knn_roadmap. destruct (knn_spec sel Hsel (node_dist dist s q) K (nodes s) HK)
    as [out [m [E [[[rest [P1 P2]] HL HA] Hm]]]].
  destruct m as [m|]; [|contradiction]. exists out, m.
  assert (Hsub : forall n, In n out -> In n (nodes s)).
  { intros n Hn. rewrite P1. apply in_app_iff; auto. }
  split; [exact E|]. split; [exact Hsub|]. split; [|split; [exact HL|split; [|split; [|split]]]].
  - apply (NoDup_app_l out rest). eapply Permutation_NoDup; eauto.
  - intros a b qa qb Ha Hb Hnb Hqa Hqb. rewrite P1, in_app_iff in Hb.
    destruct Hb as [Hb|Hb]; [contradiction|].
    rewrite <- (node_dist_cfg s q a qa Hqa), <- (node_dist_cfg s q b qb Hqb). auto.
  - intros l1 a l2 b qa qb -> Hb Hqa Hqb.
    rewrite <- (node_dist_cfg s q a qa Hqa), <- (node_dist_cfg s q b qb Hqb).
    clear - HA Hb. induction l1 as [|x l1 IH]; simpl in HA; destruct HA as [H1 H2]; auto.
  - destruct Hm as [x [X1 [X2 X3]]]. pose proof (Hsub x X1) as Hx.
    pose proof (w_N _ (i_wf _ (built_inv _ _ _ _ _ HB))) as HN.
    apply (n_def _ HN) in Hx. destruct (ninfo s x) as [nd|] eqn:N1; [|congruence].
    exists x, (ncfg nd). split; [exact X1|]. assert (Hq : config_of s x (ncfg nd)) by (exists nd; auto).
    split; [exact Hq|]. rewrite X2. apply node_dist_cfg; exact Hq.
  - intros a qa Ha Hqa. destruct Hm as [x [X1 [X2 X3]]].
    rewrite <- (node_dist_cfg s q a qa Hqa). auto.
Qed.

(* C08: withinBall lists exactly the nodes strictly inside the ball, once *)
Theorem C08_within_ball : forall (s : rm C P) q c r, built s -> In c (live s) ->
  NoDup (ball_cc dist s q c r) /\
  forall n qn, config_of s n qn -> (In n (ball_cc dist s q c r) <-> comp_of s n c /\ (dist qn q < r)%Q).
Proof.
  intros s q c r HB Hc. pose proof (comp_nodes s c HB Hc) as Hcn.
  destruct (C01_partition C P ceqb dist plen prev s HB) as [_ [_ [_ [_ [Hpart _]]]]].
  destruct (Hpart c Hc) as [_ [Hnd _]]. split; [apply NoDup_filter; exact Hnd|].
  intros n qn Hq. unfold ball_cc. rewrite within_ball_In, Hcn, (node_dist_cfg s q n qn Hq). tauto.
Qed.

(* K = 0 on a component is undefined behaviour: ns.top() on an empty queue *)
Theorem C08_knearest_zero_refuted : forall sel (s : rm C P) q c, is_heap sel -> built s -> In c (live s) ->
  knn_cc dist sel s q c 0 = UB.
Proof.
  intros sel s q c Hsel HB Hc.
  destruct (C01_partition C P ceqb dist plen prev s HB) as [_ [_ [_ [_ [Hpart _]]]]].
  apply knn_zero; [exact Hsel|]. apply (Hpart c Hc).
Qed.
End Statements.
Print Assumptions C08_knearest_component.
Print Assumptions C08_knearest_roadmap.
Print Assumptions C08_within_ball.
Print Assumptions C08_knearest_zero_refuted.

(* a heap exists, and the example roadmap exercises the three queries *)
Fixpoint xsel (l : list dn) : option (dn * list dn) :=
  match l with
  | [] => None
  | x :: l' => match xsel l' with
               | None => Some (x, [])
               | Some (y, r) => if Qlt_le_dec (fst x) (fst y) then Some (y, x :: r) else Some (x, y :: r)
               end
  end.
Example xsel_heap : is_heap xsel.
Proof.
  split; [reflexivity|]. induction l as [|x l IH]; [congruence|]. intros _.
  destruct l as [|x2 l2].
  - exists x, []. split; [reflexivity|split; [apply Permutation_refl|]]. intros y [<-|[]]; apply Qle_refl.
  - destruct IH as [y [r [E1 [E2 E3]]]]; [discriminate|]. cbn [xsel] in *. rewrite E1.
    destruct (Qlt_le_dec (fst x) (fst y)) as [H|H]; eexists _, _; (split; [reflexivity|split]).
    + rewrite E2. apply perm_swap.
    + intros z [<-|Hz]; [apply Qlt_le_weak; exact H|auto].
    + apply perm_skip; exact E2.
    + intros z [<-|Hz]; [apply Qle_refl|]. apply Qle_trans with (fst y); auto.
Qed.
Definition nn_ops : list (op nat nat) := [OAddNode 0; OAddNodeAndEdges 0 7 1; OAddNodeAndEdges 0 3 1; OAddNodeAndEdges 0 12 1].
Definition nn_s := xbuild empty nn_ops.
Example nn_s_built : built Nat.eqb xdist xlen (fun p => p) nn_s.
Proof.
  apply (RoadmapProofs3.built_weaken _ _ _ _ (fun _ => true)).
  apply xbuild_built; [constructor|reflexivity|]. intros o H; simpl in H; intuition discriminate.
Qed.
Example nn_run : live nn_s = [0] /\ (exists m, knn_cc xdist xsel nn_s 4 0 2 = Ok ([2; 1], Some m)) /\
  (exists m, knn_roadmap xdist xsel nn_s 4 9 = Ok ([2; 1; 0; 3], Some m)) /\ ball_cc xdist nn_s 4 0 4 = [1; 2].
Proof. vm_compute. repeat split; eexists; reflexivity. Qed.
