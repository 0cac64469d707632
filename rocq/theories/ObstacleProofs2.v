(* The obstacle user follows the ledger. *)
From Coq Require Import Permutation.
From Verif Require Import Base RelMotionModel ObstacleModel ObstacleSpec ObstacleProofs.

Definition ledger_ok (nb : nat) (L : ledger) : Prop := Forall (fun e => pair_ok nb (e_pair e)) L.

Lemma class_ok nb c L z : ledger_ok nb L -> Permutation z (of_class c L) -> Forall (fun z => pair_ok nb (fst z)) z.
Proof.
  intros Hl Hp. apply (Permutation_Forall (Permutation_sym Hp)). apply Forall_forall. intros [p r] Hin.
  apply In_of_class in Hin. destruct Hin as (e & Hin & _ & <- & _). unfold ledger_ok in Hl.
  rewrite Forall_forall in Hl. apply Hl. exact Hin.
Qed.

Lemma zipped_c u zc zp zd zc' : zipped u zc zp zd -> zipped (set_c u (map fst zc') (map snd zc')) zc' zp zd.
Proof. intros (H1 & H2 & H3 & H4 & H5 & H6). unfold zipped, set_c. cbn. auto 10. Qed.

(* adding *)
Lemma step_add robot nb u d L x : rep u d L ->
  (match x with AddObstacle _ | AddObstacleToJoint _ _ _ | AddRobotPairs _ => True | _ => False end) ->
  exists u', exec robot nb x u = Ok (u', false) /\ rep u' d (L ++ enter d (added robot x)).
Proof.
  intros Hr Hx. destruct x; try contradiction; cbn [exec added]; eexists; (split; [reflexivity|]).
  - rewrite addObstacle_val. apply push_all_rep; exact Hr.
  - rewrite addToJoint_val. apply push_all_rep; exact Hr.
  - rewrite addRobot_val. apply push_all_rep; exact Hr.
Qed.

Lemma step_filter robot nb u d L m : rep u d L -> ledger_ok nb L ->
  exists u', exec robot nb (FilterPairs m) u = Ok (u', false) /\ rep u' d (map (reclass m) L).
Proof.
  intros (Ed & zc & zp & zd & Hz & Hc & Hp & Hd) Hok.
  assert (Hpc : Permutation zc (of_class Active L)) by (rewrite Hc; reflexivity).
  destruct (filter_loop_val nb m zc (length (cP u)) [] zp zd u) as (u' & E & Ed' & Hz').
  - destruct Hz as (H1 & _). rewrite H1, map_length. lia.
  - exact (class_ok nb Active L zc Hok Hpc).
  - exact Hz.
  - exists u'. cbn [exec]. unfold filterCollisionPairs.
    cbn [length] in E. rewrite E. split; [reflexivity|]. split; [congruence|].
    exists (filter (typed m Unconstrained) zc), (zp ++ filter (typed m Parameterized) zc), (zd ++ filter (typed m Constrained) zc).
    split; [exact Hz'|]. split; [subst zc; symmetry; apply reclass_active|]. subst zc. split.
    + rewrite (reclass_other m Parameterized Param L eq_refl) by discriminate. apply Permutation_app_tail. exact Hp.
    + rewrite (reclass_other m Constrained Disabled L eq_refl) by discriminate. apply Permutation_app_tail. exact Hd.
Qed.

Lemma step_margins robot nb u d L rows cols sm : rep u d L -> ledger_ok nb L ->
  exists u' thrown L', exec robot nb (SetMargins rows cols sm) u = Ok (u', thrown) /\ rep u' d L' /\
    ledger_step robot nb (SetMargins rows cols sm) d L L' thrown.
Proof.
  intros Hr Hok. cbn [exec ledger_step]. unfold setSecurityMargins.
  destruct (Nat.eqb_spec rows (S nb)) as [->|Nr]; cbn [negb orb];
    [destruct (Nat.eqb_spec cols (S nb)) as [->|Nc]; cbn [negb]|].
  - destruct Hr as (Ed & zc & zp & zd & (H1 & H2 & H3 & H4 & H5 & H6) & Hc & Hp & Hd).
    assert (Hpc : Permutation zc (of_class Active L)) by (rewrite Hc; reflexivity).
    rewrite H1, H2, H3, H4, H5, H6.
    pose proof (margins_loop_val nb sm zc [] (class_ok nb _ L zc Hok Hpc)) as Ec.
    pose proof (margins_loop_val nb sm zp [] (class_ok nb _ L zp Hok Hp)) as Ep.
    pose proof (margins_loop_val nb sm zd [] (class_ok nb _ L zd Hok Hd)) as Edd.
    cbn [length app] in Ec, Ep, Edd. rewrite Ec. cbn [bind]. rewrite Ep. cbn [bind]. rewrite Edd. cbn [bind caught].
    eexists _, false, _. split; [reflexivity|]. split; [|left; auto].
    split; [exact Ed|]. exists (map (z_margin sm) zc), (map (z_margin sm) zp), (map (z_margin sm) zd).
    assert (M : forall z, map fst (map (z_margin sm) z) = map fst z) by (intros z; rewrite map_map; apply map_ext; reflexivity).
    split; [unfold zipped, set_c, set_p, set_d; cbn; rewrite !M; auto 10|].
    assert (K : forall c, of_class c (map (fun e => set_margin (sm (fst (e_joints e)) (snd (e_joints e))) e) L) = map (z_margin sm) (of_class c L)).
    { intros c. apply of_class_map; reflexivity. }
    rewrite !K. subst zc. split; [reflexivity|]. split; apply Permutation_map; assumption.
  - exists u, true, L. cbn [caught]. split; [reflexivity|]. split; [exact Hr|]. right; auto.
  - exists u, true, L. cbn [caught]. split; [reflexivity|]. split; [exact Hr|]. right; auto.
Qed.

Lemma step_bodies robot nb u d L a b v : rep u d L ->
  exists u' thrown L', exec robot nb (SetMarginBodies a b v) u = Ok (u', thrown) /\ rep u' d L' /\
    ledger_step robot nb (SetMarginBodies a b v) d L L' thrown.
Proof.
  intros Hr. pose proof Hr as (Ed & zc & zp & zd & Hz & Hc & Hp & Hd).
  pose proof Hz as (H1 & H2 & H3 & H4 & H5 & H6).
  assert (Hpc : Permutation zc (of_class Active L)) by (rewrite Hc; reflexivity).
  cbn [exec ledger_step]. unfold setSecurityMarginBetweenBodies. rewrite H1, H2, H3, H4, H5, H6.
  pose proof (setMargin_val a b v zc []) as Xc. pose proof (setMargin_val a b v zp []) as Xp.
  pose proof (setMargin_val a b v zd []) as Xd. cbn [length app] in Xc, Xp, Xd.
  destruct Xc as [[Ec Fc]|(s1 & z & s2 & Es & En & _ & Ec)]; rewrite Ec; cbn [bind fst snd].
  2:{ destruct z as [p r]. cbn [fst snd] in *. eexists _, false.
      rewrite Hc in Es. symmetry in Es. destruct (of_class_split_eq _ _ _ _ _ _ Es) as (l1 & l2 & EL & E1 & E2).
      exists (l1 ++ set_margin v {| e_pair := p; e_req := r; e_cls := Active |} :: l2).
      split; [reflexivity|]. split.
      - split; [exact Ed|]. exists (s1 ++ (p, with_margin r v) :: s2), zp, zd.
        split.
        + replace (map fst zc) with (map fst (s1 ++ (p, with_margin r v) :: s2)); [apply (zipped_c u zc); exact Hz|].
          rewrite Hc, <- Es, !map_app. reflexivity.
        + subst L. rewrite of_class_app, of_class_cons in Hp, Hd. rewrite !of_class_app, !of_class_cons.
          cbn [e_cls set_margin cls_eqb e_pair e_req] in *. rewrite E1, E2. auto.
      - left. split; [reflexivity|]. exists l1, {| e_pair := p; e_req := r; e_cls := Active |}, l2.
        split; [exact EL|]. split; [apply name_match_spec; exact En|]. split; [cbn; intros; lia|reflexivity]. }
  pose proof (no_match_class a b Active L zc Hpc Fc) as Nc.
  destruct Xp as [[Ep Fp]|(s1 & z & s2 & Es & En & _ & Ep)]; rewrite Ep; cbn [bind fst snd].
  2:{ destruct z as [p r]. cbn [fst snd] in *. eexists _, false.
      rewrite Es in Hp. destruct (of_class_split Param L p r s1 s2 Hp) as (l1 & l2 & EL & Hl).
      exists (l1 ++ set_margin v {| e_pair := p; e_req := r; e_cls := Param |} :: l2).
      split; [reflexivity|]. destruct (Hl (with_margin r v)) as [Hl1 Hl2]. split.
      - split; [exact Ed|]. exists zc, (s1 ++ (p, with_margin r v) :: s2), zd.
        split.
        + unfold zipped, set_p. cbn. rewrite Es, !map_app. cbn [map fst]. auto 10.
        + unfold set_margin. cbn [e_pair e_req e_cls]. rewrite (Hl2 Active), (Hl2 Disabled) by discriminate. auto.
      - left. split; [reflexivity|]. exists l1, {| e_pair := p; e_req := r; e_cls := Param |}, l2.
        split; [exact EL|]. split; [apply name_match_spec; exact En|]. split; [|reflexivity].
        intros e' Hin Hb. destruct (e_cls e') eqn:Ece; cbn; try lia. exfalso. exact (Nc e' Hin Ece Hb). }
  pose proof (no_match_class a b Param L zp Hp Fp) as Np.
  destruct Xd as [[Edd Fd]|(s1 & z & s2 & Es & En & _ & Edd)]; rewrite Edd; cbn [bind fst snd].
  2:{ destruct z as [p r]. cbn [fst snd] in *. eexists _, false.
      rewrite Es in Hd. destruct (of_class_split Disabled L p r s1 s2 Hd) as (l1 & l2 & EL & Hl).
      exists (l1 ++ set_margin v {| e_pair := p; e_req := r; e_cls := Disabled |} :: l2).
      split; [reflexivity|]. destruct (Hl (with_margin r v)) as [Hl1 Hl2]. split.
      - split; [exact Ed|]. exists zc, zp, (s1 ++ (p, with_margin r v) :: s2).
        split.
        + unfold zipped, set_d. cbn. rewrite Es, !map_app. cbn [map fst]. auto 10.
        + unfold set_margin. cbn [e_pair e_req e_cls]. rewrite (Hl2 Active), (Hl2 Param) by discriminate. auto.
      - left. split; [reflexivity|]. exists l1, {| e_pair := p; e_req := r; e_cls := Disabled |}, l2.
        split; [exact EL|]. split; [apply name_match_spec; exact En|]. split; [|reflexivity].
        intros e' Hin Hb. destruct (e_cls e') eqn:Ece; cbn; try lia; exfalso;
          [exact (Nc e' Hin Ece Hb)|exact (Np e' Hin Ece Hb)]. }
  pose proof (no_match_class a b Disabled L zd Hd Fd) as Nd.
  exists u, true, L. split; [reflexivity|]. split; [exact Hr|]. right. split; [reflexivity|]. split; [|reflexivity].
  intros e Hin Hb. destruct (e_cls e) eqn:Ece; [exact (Nc e Hin Ece Hb)|exact (Np e Hin Ece Hb)|exact (Nd e Hin Ece Hb)].
Qed.

Lemma step_requests u d L r : rep u d L -> rep (setRequests r u) d (map (set_request r) L).
Proof.
  intros (Ed & zc & zp & zd & (H1 & H2 & H3 & H4 & H5 & H6) & Hc & Hp & Hd).
  split; [exact Ed|]. set (g := fun z : pair * request => (fst z, r)).
  exists (map g zc), (map g zp), (map g zd).
  assert (F : forall z, map fst (map g z) = map fst z) by (intros z; rewrite map_map; apply map_ext; reflexivity).
  assert (S : forall z, map snd (map g z) = map (fun _ => r) (map snd z)) by (intros z; rewrite !map_map; reflexivity).
  split.
  - unfold zipped, setRequests, set_c, set_p, set_d. cbn. rewrite !F, !S, H1, H2, H3, H4, H5, H6. auto 10.
  - assert (K : forall c, of_class c (map (set_request r) L) = map g (of_class c L)) by (intros c; apply of_class_map; reflexivity).
    rewrite !K. subst zc. split; [reflexivity|]. split; apply Permutation_map; assumption.
Qed.

Lemma step_remove robot nb u d L j o : rep u d L ->
  exists u' thrown L', exec robot nb (RemoveFromJoint j o) u = Ok (u', thrown) /\ rep u' d L' /\
    ledger_step robot nb (RemoveFromJoint j o) d L L' thrown.
Proof.
  intros (Ed & zc & zp & zd & Hz & Hc & Hp & Hd). cbn [exec ledger_step].
  assert (E : removeObstacleFromJoint u j o = remove_inner (own_objects j) o u).
  { unfold removeObstacleFromJoint, own_objects. destruct (jbody j); reflexivity. }
  rewrite E. destruct (remove_inner_val (own_objects j) o u zc zp zd Hz) as (u' & th & E' & Ed' & Hcase).
  assert (R : forall inner, zipped u' (filter (fun z => negb (hits_any inner o z)) zc) zp zd ->
            rep u' d (filter (fun e => negb (entry_hit inner o e)) L)).
  { intros inner Hz'. split; [congruence|]. eexists _, _, _. split; [exact Hz'|].
    rewrite !of_class_filter_hit. cbn [cls_eqb]. subst zc. auto. }
  exists u', th. destruct Hcase as [[-> Hz']|[-> (l1 & i & l2 & EL & Hz' & Hn)]].
  - eexists. split; [exact E'|]. split; [apply R; exact Hz'|]. left. split; [reflexivity|].
    exists (fun e => negb (entry_hit (own_objects j) o e)). split; [intros e; apply entry_hit_spec|reflexivity].
  - eexists. split; [exact E'|]. split; [apply R; exact Hz'|]. right. split; [reflexivity|].
    exists l1, i, l2. split; [exact EL|]. split.
    + intros e Hin. apply entry_hit_spec. apply negb_true_iff. unfold entry_hit.
      destruct (cls_eqb (e_cls e) Active) eqn:Ec; [|reflexivity]. cbn [andb].
      apply cls_eqb_eq in Ec.
      assert (Hi : In (e_pair e, e_req e) (of_class Active (filter (fun e => negb (entry_hit l1 o e)) L)))
        by (apply In_of_class; exists e; auto).
      rewrite of_class_filter_hit in Hi. cbn [cls_eqb] in Hi. rewrite <- Hc in Hi.
      cbn [hits_any existsb]. rewrite orb_false_r. destruct (hits (i, o) (e_pair e, e_req e)) eqn:Eh; [|reflexivity].
      exfalso. assert (Hf : In (e_pair e, e_req e) (filter (hits (i, o)) (filter (fun z => negb (hits_any l1 o z)) zc)))
        by (apply filter_In; auto). rewrite Hn in Hf. destruct Hf.
    + exists (fun e => negb (entry_hit l1 o e)). split; [intros e; apply entry_hit_spec|reflexivity].
Qed.

Lemma step_all robot nb u d L x : rep u d L -> ledger_ok nb L ->
  exists u' thrown L', exec robot nb x u = Ok (u', thrown) /\ rep u' (dflt_after x d) L' /\
    ledger_step robot nb x d L L' thrown.
Proof.
  intros Hr Hok. destruct x as [o|o j c|model|m|rows cols sm|a b v|r|r|j o].
  - destruct (step_add robot nb u d L (AddObstacle o) Hr I) as (u' & E & R). exists u', false. eexists. split; [exact E|]. split; [exact R|]. split; reflexivity.
  - destruct (step_add robot nb u d L (AddObstacleToJoint o j c) Hr I) as (u' & E & R). exists u', false. eexists. split; [exact E|]. split; [exact R|]. split; reflexivity.
  - destruct (step_add robot nb u d L (AddRobotPairs model) Hr I) as (u' & E & R). exists u', false. eexists. split; [exact E|]. split; [exact R|]. split; reflexivity.
  - destruct (step_filter robot nb u d L m Hr Hok) as (u' & E & R). exists u', false. eexists. split; [exact E|]. split; [exact R|]. split; reflexivity.
  - destruct (step_margins robot nb u d L rows cols sm Hr Hok) as (u' & t & L' & E & R & S). exists u', t, L'. auto.
  - destruct (step_bodies robot nb u d L a b v Hr) as (u' & t & L' & E & R & S). exists u', t, L'. auto.
  - eexists _, false, _. split; [reflexivity|]. split; [apply step_requests; exact Hr|]. split; reflexivity.
  - eexists _, false, L. split; [reflexivity|]. split; [|split; reflexivity].
    destruct Hr as (Ed & H). split; [reflexivity|exact H].
  - destruct (step_remove robot nb u d L j o Hr) as (u' & t & L' & E & R & S). exists u', t, L'. auto.
Qed.

Lemma ledger_ok_step robot nb x d L L' t : ledger_ok nb L -> op_ok robot nb x -> ledger_step robot nb x d L L' t -> ledger_ok nb L'.
Proof.
  unfold ledger_ok. intros Hok Hx H.
  assert (A : forall ps, Forall (pair_ok nb) ps -> Forall (fun e => pair_ok nb (e_pair e)) (enter d ps)).
  { intros ps Hps. unfold enter. apply Forall_map. exact Hps. }
  assert (M : forall f : entry -> entry, (forall e, e_pair (f e) = e_pair e) -> Forall (fun e => pair_ok nb (e_pair e)) (map f L)).
  { intros f Hf. apply Forall_map. eapply Forall_impl; [|exact Hok]. intros e He. cbn beta. rewrite Hf. exact He. }
  assert (K : forall P L', keeps P L L' -> Forall (fun e => pair_ok nb (e_pair e)) L').
  { intros P L1 (f & _ & ->). apply Forall_forall. intros e He. apply filter_In in He. rewrite Forall_forall in Hok. apply Hok, He. }
  destruct x as [o|o j c|model|m|rows cols sm|a b v|r|r|j o]; cbn [ledger_step] in H.
  1-3: destruct H as [_ ->]; apply Forall_app; split; [exact Hok|apply A; exact Hx].
  - destruct H as [_ ->]. apply M. intros e. unfold reclass. destruct (e_cls e); reflexivity.
  - destruct H as [(_ & _ & _ & ->)|(_ & _ & ->)]; [apply M; reflexivity|exact Hok].
  - destruct H as [(_ & l1 & e & l2 & -> & _ & _ & ->)|(_ & _ & ->)]; [|exact Hok].
    apply Forall_app in Hok. destruct Hok as [H1 H2]. inversion H2; subst. apply Forall_app. split; [exact H1|constructor; assumption].
  - destruct H as [_ ->]. apply M. reflexivity.
  - destruct H as [_ ->]. exact Hok.
  - destruct H as [(_ & H)|(_ & l1 & i & l2 & _ & _ & H)]; exact (K _ _ H).
Qed.

Lemma rep_create r : rep (create r) r [].
Proof. split; [reflexivity|]. exists [], [], []. unfold zipped. cbn. repeat split; constructor. Qed.
