(* Property theorems: C35 collision pairs of an obstacle user, C51 collision
   validation of configurations. *)
From Coq Require Import Permutation.
From Verif Require Import Base RelMotionModel ObstacleModel ObstacleSpec ObstacleProofs ObstacleProofs2 ObstacleProofs3.

(* Every history of calls (exceptions caught by the caller) runs without
   undefined behaviour and leaves the three lists equal to the ledger: one
   request per pair, each entry in the list of its class. *)
Theorem C35_histories_follow_the_ledger :
  forall robot nb r h, Forall (op_ok robot nb) h ->
    exists u d L, run robot nb (create r) h = Ok u /\ ledger_run robot nb r h d L /\
      length (cP u) = length (cR u) /\ length (pP u) = length (pR u) /\ length (dP u) = length (dR u) /\
      combine (cP u) (cR u) = of_class Active L /\
      Permutation (combine (pP u) (pR u)) (of_class Param L) /\
      Permutation (combine (dP u) (dR u)) (of_class Disabled L).
Proof.
  intros robot nb r h Hok. destruct (history robot nb r h Hok) as (u & d & L & E & HL & Hr & _).
  exists u, d, L. split; [exact E|]. split; [exact HL|]. apply (rep_vectors u d L Hr).
Qed.

(* without removals, the three lists together hold every pair ever added, once
   per addition *)
Theorem C35_no_pair_lost :
  forall robot nb r h u, Forall (op_ok robot nb) h -> Forall no_removal h ->
    run robot nb (create r) h = Ok u ->
    Permutation (cP u ++ pP u ++ dP u) (flat_map (added robot) h).
Proof.
  intros robot nb r h u Hok Hn E. destruct (history robot nb r h Hok) as (u' & d & L & E' & HL & Hr & _).
  rewrite E in E'. injection E' as <-. rewrite (rep_all_pairs u d L Hr), (ledger_pairs robot nb r h d L HL Hn). reflexivity.
Qed.

(* filtering moves exactly the active pairs whose motion type requires it,
   each with its request *)
Theorem C35_filter_exact :
  forall robot nb r h u m, Forall (op_ok robot nb) h -> run robot nb (create r) h = Ok u ->
    exists u', filterCollisionPairs (S nb) m u = Ok u' /\
      let type e := m (o_joint (fst (fst e))) (o_joint (snd (fst e))) in
      let active := combine (cP u) (cR u) in
      combine (cP u') (cR u') = filter (fun e => rmt_eqb (type e) Unconstrained) active /\
      combine (pP u') (pR u') = combine (pP u) (pR u) ++ filter (fun e => rmt_eqb (type e) Parameterized) active /\
      combine (dP u') (dR u') = combine (dP u) (dR u) ++ filter (fun e => rmt_eqb (type e) Constrained) active.
Proof.
  intros robot nb r h u m Hok E. destruct (reachable_zipped robot nb r h u Hok E) as [Hz Hp].
  destruct (filter_loop_val nb m (combine (cP u) (cR u)) (length (cP u)) [] (combine (pP u) (pR u)) (combine (dP u) (dR u)) u) as (u' & E' & _ & Hz').
  - rewrite combine_length. apply Nat.le_min_l.
  - apply Forall_forall. intros [p q] Hin. apply Hp. apply in_or_app. left. apply in_combine_l in Hin. exact Hin.
  - exact Hz.
  - exists u'. split; [exact E'|]. destruct Hz' as (H1 & H2 & H3 & H4 & H5 & H6).
    cbn zeta. rewrite H1, H2, H3, H4, H5, H6, !combine_maps. repeat split.
Qed.

(* margins from a matrix of the right size reach every pair of the three lists *)
Theorem C35_margins_everywhere :
  forall robot nb r h u rows cols sm, Forall (op_ok robot nb) h -> run robot nb (create r) h = Ok u ->
    if (rows =? S nb) && (cols =? S nb)
    then exists u', setSecurityMargins nb rows cols sm u = Ok u' /\
      let set l := map (fun e => (fst e, with_margin (snd e) (sm (o_joint (fst (fst e))) (o_joint (snd (fst e)))))) l in
      combine (cP u') (cR u') = set (combine (cP u) (cR u)) /\
      combine (pP u') (pR u') = set (combine (pP u) (pR u)) /\
      combine (dP u') (dR u') = set (combine (dP u) (dR u))
    else setSecurityMargins nb rows cols sm u = Throw.
Proof.
  intros robot nb r h u rows cols sm Hok E. destruct (reachable_zipped robot nb r h u Hok E) as [Hz Hp].
  unfold setSecurityMargins. destruct (Nat.eqb_spec rows (S nb)) as [->|Nr]; cbn [andb negb orb]; [|reflexivity].
  destruct (Nat.eqb_spec cols (S nb)) as [->|Nc]; cbn [negb]; [|reflexivity].
  remember (combine (cP u) (cR u)) as zc. remember (combine (pP u) (pR u)) as zp. remember (combine (dP u) (dR u)) as zd.
  destruct Hz as (H1 & H2 & H3 & H4 & H5 & H6).
  assert (F : forall z l, l = map fst z -> incl l (cP u ++ pP u ++ dP u) -> Forall (fun z : pair * request => pair_ok nb (fst z)) z).
  { intros z l El Hi. apply Forall_forall. intros e He. apply Hp, Hi. rewrite El. apply in_map. exact He. }
  pose proof (margins_loop_val nb sm zc [] (F zc _ H1 (fun p H => in_or_app _ _ _ (or_introl H)))) as Ec.
  pose proof (margins_loop_val nb sm zp [] (F zp _ H3 (fun p H => in_or_app _ _ _ (or_intror (in_or_app _ _ _ (or_introl H)))))) as Ep.
  pose proof (margins_loop_val nb sm zd [] (F zd _ H5 (fun p H => in_or_app _ _ _ (or_intror (in_or_app _ _ _ (or_intror H)))))) as Ed.
  cbn [length app] in Ec, Ep, Ed. rewrite H1, H2, H3, H4, H5, H6, Ec. cbn [bind]. rewrite Ep. cbn [bind]. rewrite Ed. cbn [bind].
  eexists. split; [reflexivity|]. cbn [set_c set_p set_d cP cR pP pR dP dR].
  assert (M : forall z, combine (map fst z) (map snd (map (z_margin sm) z)) = map (z_margin sm) z).
  { intros z. rewrite <- (combine_maps (map (z_margin sm) z)) at 2. f_equal. rewrite map_map. apply map_ext. reflexivity. }
  rewrite !M. repeat split.
Qed.

(* Removing an obstacle from a joint: when the call returns, all and only the
   active pairs between the joint and the obstacle are gone; it throws exactly
   when one of the objects of the joint (given once each) has no active pair
   with the obstacle.  Missing from the full property: the state left behind
   by the exception, and the pairs that filtering has moved (see below). *)
Theorem C35_remove_partial :
  forall robot nb r h u j o, Forall (op_ok robot nb) h -> run robot nb (create r) h = Ok u ->
    NoDup (map o_id (own_objects j)) ->
    exists u' thrown, removeObstacleFromJoint u j o = Ok (u', thrown) /\
      let pair_with i (e : pair * request) := o_id (fst (fst e)) = o_id i /\ o_id (snd (fst e)) = o_id o in
      let active := combine (cP u) (cR u) in
      (thrown = true <-> exists i, In i (own_objects j) /\ forall e, In e active -> ~ pair_with i e) /\
      pP u' = pP u /\ pR u' = pR u /\ dP u' = dP u /\ dR u' = dR u /\
      (thrown = false -> exists keep : pair * request -> bool,
         (forall e, keep e = true <-> ~ exists i, In i (own_objects j) /\ pair_with i e) /\
         combine (cP u') (cR u') = filter keep active).
Proof.
  intros robot nb r h u j o Hok E Hnd. destruct (reachable_zipped robot nb r h u Hok E) as [Hz _].
  assert (Ej : removeObstacleFromJoint u j o = remove_inner (own_objects j) o u).
  { unfold removeObstacleFromJoint, own_objects. destruct (jbody j); reflexivity. }
  rewrite Ej. destruct (remove_inner_val (own_objects j) o u _ _ _ Hz) as (u' & t & E' & _ & Hc).
  (* every object of the joint counted once: a successful removal found each *)
  assert (Ht : t = false -> forall i, In i (own_objects j) -> exists e, In e (combine (cP u) (cR u)) /\ hits (i, o) e = true).
  { intros ->. clear Hc Hok E Ej. revert Hz E' Hnd. generalize (combine (cP u) (cR u)) (combine (pP u) (pR u)) (combine (dP u) (dR u)).
    revert u. induction (own_objects j) as [|x l IH]; intros u zc zp zd Hz E' Hnd i Hi; [destruct Hi|].
    cbn [remove_inner] in E'. destruct (erase_loop_zip u zc zp zd (x, o) Hz) as [El Hz']. rewrite El in E'. cbn [bind] in E'.
    destruct (Nat.eqb_spec (length (filter (hits (x, o)) zc)) 0) as [E0|E0]; [discriminate|].
    destruct Hi as [<-|Hi].
    - destruct (filter (hits (x, o)) zc) as [|e f] eqn:Ef; [contradiction (E0 eq_refl)|].
      exists e. apply filter_In. rewrite Ef. left. reflexivity.
    - cbn [map] in Hnd. inversion Hnd; subst. destruct (IH _ _ _ _ Hz' E' ltac:(assumption) i Hi) as (e & He & Hh).
      exists e. split; [|exact Hh]. apply filter_In in He. apply He. }
  assert (HH : forall i e, hits (i, o) e = true <-> o_id (fst (fst e)) = o_id i /\ o_id (snd (fst e)) = o_id o).
  { intros i e. unfold hits, same_pair. cbn [fst snd]. rewrite andb_true_iff, !Nat.eqb_eq. split; intros [Ha Hb]; auto. }
  exists u', t. split; [exact E'|]. cbn zeta.
  destruct Hc as [[-> Hz']|[-> (l1 & i & l2 & EL & Hz' & Hn)]].
  - split; [|split; [|split; [|split; [|split]]]].
    + split; [discriminate|]. intros (i & Hi & Hno). destruct (Ht eq_refl i Hi) as (e & He & Hh).
      exfalso. apply (Hno e He). apply HH. exact Hh.
    + destruct Hz' as (_ & _ & H3 & _), Hz as (_ & _ & H3' & _). congruence.
    + destruct Hz' as (_ & _ & _ & H4 & _), Hz as (_ & _ & _ & H4' & _). congruence.
    + destruct Hz' as (_ & _ & _ & _ & H5 & _), Hz as (_ & _ & _ & _ & H5' & _). congruence.
    + destruct Hz' as (_ & _ & _ & _ & _ & H6), Hz as (_ & _ & _ & _ & _ & H6'). congruence.
    + intros _. exists (fun z => negb (hits_any (own_objects j) o z)). split.
      * intros e. rewrite negb_true_iff. unfold hits_any. rewrite <- not_true_iff_false, existsb_exists.
        split; intros Hx (i & Hi & Hp); apply Hx; exists i; (split; [exact Hi|]); apply HH; exact Hp.
      * destruct Hz' as (H1 & H2 & _). rewrite H1, H2, combine_maps. reflexivity.
  - split; [|split; [|split; [|split; [|split]]]].
    + split; [|reflexivity]. intros _. exists i. split; [rewrite EL; apply in_elt|].
      intros e He Hp. apply HH in Hp.
      assert (Hk : hits_any l1 o e = false).
      { destruct (hits_any l1 o e) eqn:Ek; [|reflexivity]. exfalso. unfold hits_any in Ek. apply existsb_exists in Ek.
        destruct Ek as (i' & Hi' & Hh'). apply HH in Hh', Hp.
        rewrite EL, map_app in Hnd. cbn [map] in Hnd. apply NoDup_remove_2 in Hnd. apply Hnd.
        apply in_or_app. left. replace (o_id i) with (o_id i') by (destruct Hh', Hp; congruence).
        apply in_map. exact Hi'. }
      assert (Hf : In e (filter (hits (i, o)) (filter (fun z => negb (hits_any l1 o z)) (combine (cP u) (cR u))))).
      { apply filter_In. split; [|exact Hp]. apply filter_In. rewrite Hk. auto. }
      rewrite Hn in Hf. destruct Hf.
    + destruct Hz' as (_ & _ & H3 & _), Hz as (_ & _ & H3' & _). congruence.
    + destruct Hz' as (_ & _ & _ & H4 & _), Hz as (_ & _ & _ & H4' & _). congruence.
    + destruct Hz' as (_ & _ & _ & _ & H5 & _), Hz as (_ & _ & _ & _ & H5' & _). congruence.
    + destruct Hz' as (_ & _ & _ & _ & _ & H6), Hz as (_ & _ & _ & _ & _ & H6'). congruence.
    + discriminate.
Qed.

(* ---- findings ---- *)
Definition req0 : request := {| r_margin := 0; r_other := 1 |}.
Definition o1 := {| o_id := 1; o_joint := 1; o_name := 101 |}.
Definition o2 := {| o_id := 2; o_joint := 1; o_name := 102 |}.
Definition o3 := {| o_id := 3; o_joint := 2; o_name := 103 |}.
Definition obs := {| o_id := 9; o_joint := 0; o_name := 109 |}.
Definition obs2 := {| o_id := 10; o_joint := 2; o_name := 110 |}.
Definition ex_j2 := Joint (Some [o3]) [].
Definition ex_j1 := Joint (Some [o1; o2]) [ex_j2].
Definition ex_robot := [ex_j1; ex_j2].
(* joint 1 is parameterized with respect to the universe *)
Definition ex_m : matrix := symSet initial_matrix 0 1 Parameterized.

(* after filtering, removing the obstacle throws and its pairs stay: they are
   still tested when parameterized pairs are checked *)
Theorem C35_remove_after_filter_refuted :
  exists u u', run ex_robot 2 (create req0) [AddObstacle obs; FilterPairs ex_m] = Ok u /\
    In (o1, obs) (pP u) /\ removeObstacleFromJoint u ex_j1 obs = Ok (u', true) /\ In (o1, obs) (pP u').
Proof. eexists _, _. split; [vm_compute; reflexivity|]. split; [left; reflexivity|]. split; [vm_compute; reflexivity|left; reflexivity]. Qed.
(* the exception may leave the joint half removed *)
Theorem C35_remove_throw_changes_state_refuted :
  exists u u', run ex_robot 2 (create req0) [AddRobotPairs [((o1, obs), true)]] = Ok u /\
    removeObstacleFromJoint u ex_j1 obs = Ok (u', true) /\ u' <> u.
Proof.
  eexists _, _. split; [vm_compute; reflexivity|]. split; [vm_compute; reflexivity|].
  intros E. apply (f_equal cP) in E. discriminate.
Qed.
(* with several pairs between the two bodies only one gets the margin *)
Theorem C35_margin_between_bodies_refuted :
  exists u u', run ex_robot 2 (create req0) [AddObstacle obs; AddObstacle obs] = Ok u /\
    setSecurityMarginBetweenBodies 101 109 7 u = Ok u' /\
    exists e, In e (combine (cP u') (cR u')) /\ fst e = (o1, obs) /\ r_margin (snd e) <> 7.
Proof.
  eexists _, _. split; [vm_compute; reflexivity|]. split; [vm_compute; reflexivity|].
  exists ((o1, obs), req0). vm_compute. split; [right; right; right; left; reflexivity|]. split; [reflexivity|discriminate].
Qed.

(* ---- C51: collision validation ---- *)
(* For every reachable state and every geometric test: the configuration is
   accepted iff no active pair (and, when asked for, no parameterized pair)
   collides with its own request; a refusal reports a colliding pair, or with
   computeAllContacts all those of the list where the first one was found. *)
Theorem C51_validate_exact :
  forall robot nb r h u hit checkParameterized computeAllContacts,
    Forall (op_ok robot nb) h -> run robot nb (create r) h = Ok u ->
    let active := combine (cP u) (cR u) in
    let param := combine (pP u) (pR u) in
    let collides (e : pair * request) := hit (fst e) (snd e) = true in
    exists report, validate hit checkParameterized computeAllContacts u = Ok report /\
      (report = None <-> (forall e, In e active -> ~ collides e) /\
                         (checkParameterized = true -> forall e, In e param -> ~ collides e)) /\
      (forall l, report = Some l -> l <> [] /\
         (forall p, In p l -> exists e, fst e = p /\ collides e /\ (In e active \/ (checkParameterized = true /\ In e param))) /\
         (computeAllContacts = true -> forall e, In e active -> collides e -> In (fst e) l)).
Proof.
  intros robot nb r h u hit cp al Hok E active param collides.
  destruct (reachable_zipped robot nb r h u Hok E) as [Hz _].
  rewrite (validate_val hit cp al u _ _ _ Hz). fold active param. eexists. split; [reflexivity|].
  assert (F : forall z, filter (zhit hit) z = [] <-> forall e, In e z -> ~ collides e).
  { intros z. split.
    - intros H e He Hh. assert (Hf : In e (filter (zhit hit) z)) by (apply filter_In; auto). rewrite H in Hf. destruct Hf.
    - intros H. destruct (filter (zhit hit) z) as [|e f] eqn:Ef; [reflexivity|]. exfalso.
      assert (Hf : In e (filter (zhit hit) z)) by (rewrite Ef; left; reflexivity). apply filter_In in Hf. apply (H e); apply Hf. }
  pose proof (F active) as Fa. pose proof (F param) as Fp.
  assert (G : forall z e f, filter (zhit hit) z = e :: f -> forall p, In p (if al then map fst (e :: f) else [fst e]) ->
            exists e', fst e' = p /\ collides e' /\ In e' z).
  { intros z e f Ef p Hp. assert (Hi : exists e', fst e' = p /\ In e' (e :: f)).
    { destruct al; [apply in_map_iff in Hp; exact Hp|]. destruct Hp as [<-|[]]. exists e. split; [reflexivity|left; reflexivity]. }
    destruct Hi as (e' & E1 & Hi). rewrite <- Ef in Hi. apply filter_In in Hi. exists e'. split; [exact E1|]. split; apply Hi. }
  destruct (filter (zhit hit) active) as [|e f] eqn:Ea.
  - destruct cp.
    + destruct (filter (zhit hit) param) as [|e f] eqn:Ep.
      * split; [|intros l Hl; discriminate]. split; [intros _; split; [apply Fa; reflexivity|intros _; apply Fp; reflexivity]|reflexivity].
      * split; [split; [discriminate|intros [_ H]; apply Fp in H; [discriminate|reflexivity]]|].
        intros l Hl. injection Hl as <-. split; [destruct al; discriminate|]. split.
        -- intros p Hp. destruct (G param e f Ep p Hp) as (e' & ? & ? & ?). exists e'. auto.
        -- intros _ e' He Hh. exfalso. exact (proj1 Fa eq_refl e' He Hh).
    + split; [|intros l Hl; discriminate]. split; [intros _; split; [apply Fa; reflexivity|discriminate]|reflexivity].
  - split; [split; [discriminate|intros [H _]; apply Fa in H; discriminate]|].
    intros l Hl. injection Hl as <-. split; [destruct al; discriminate|]. split.
    + intros p Hp. destruct (G active e f Ea p Hp) as (e' & ? & ? & ?). exists e'. auto.
    + intros -> e' He Hh. change (In (fst e') (map fst (e :: f))). apply in_map. rewrite <- Ea. apply filter_In. auto.
Qed.
(* the exhaustive report forgets parameterized collisions when an active pair collides *)
Theorem C51_all_contacts_refuted :
  exists u l, run ex_robot 2 (create req0) [AddObstacle obs; FilterPairs ex_m] = Ok u /\
    In (o1, obs) (pP u) /\ validate (fun _ _ => true) true true u = Ok (Some l) /\ ~ In (o1, obs) l.
Proof.
  eexists _, _. split; [vm_compute; reflexivity|]. split; [left; reflexivity|]. split; [vm_compute; reflexivity|].
  intros [H|[]]. discriminate.
Qed.

(* ---- a concrete history ---- *)
Definition ex_h := [AddObstacle obs; AddObstacleToJoint obs2 ex_j1 true; AddRobotPairs [((o1, o3), true); ((o2, o3), false)];
                    SetMargins 3 3 (fun i j => i * 10 + j); FilterPairs ex_m; SetMarginBodies 109 101 5; RemoveFromJoint ex_j2 obs].
Example C35_ex_ok : Forall (op_ok ex_robot 2) ex_h.
Proof. repeat constructor; vm_compute; lia. Qed.
Example C35_ex_nodup : NoDup (map o_id (own_objects ex_j2)).
Proof. repeat constructor; intros []. Qed.
Example C35_ex_run : exists u, run ex_robot 2 (create req0) ex_h = Ok u /\
  cP u = [(o1, obs2); (o2, obs2); (o1, o3)] /\ map r_margin (cR u) = [12; 12; 12] /\
  pP u = [(o1, obs); (o2, obs)] /\ map r_margin (pR u) = [5; 10] /\ dP u = [(o3, obs2)].
Proof. eexists. split; [vm_compute; reflexivity|]. repeat split. Qed.

Print Assumptions C35_histories_follow_the_ledger.
Print Assumptions C35_no_pair_lost.
Print Assumptions C35_filter_exact.
Print Assumptions C35_margins_everywhere.
Print Assumptions C35_remove_partial.
Print Assumptions C35_remove_after_filter_refuted.
Print Assumptions C35_remove_throw_changes_state_refuted.
Print Assumptions C35_margin_between_bodies_refuted.
Print Assumptions C51_validate_exact.
Print Assumptions C51_all_contacts_refuted.
