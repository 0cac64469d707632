(* Proofs about the obstacle user. *)
From Coq Require Import Permutation.
From Verif Require Import Base RelMotionModel ObstacleModel ObstacleSpec.

(* one operation, with the state left behind by an exception *)
Definition caught (u : user) (r : res user) : res (user * bool) :=
  match r with Ok u' => Ok (u', false) | Throw => Ok (u, true) | UB => UB | Fuel => Fuel end.
Definition exec (robot : list joint) (nb : nat) (x : op) (u : user) : res (user * bool) :=
  match x with
  | AddObstacle o => Ok (addObstacle robot u o, false)
  | AddObstacleToJoint o j c => Ok (addObstacleToJoint u o j c, false)
  | AddRobotPairs model => Ok (addRobotCollisionPairs u model, false)
  | FilterPairs m => caught u (filterCollisionPairs (S nb) m u)
  | SetMargins rows cols sm => caught u (setSecurityMargins nb rows cols sm u)
  | SetMarginBodies a b v => caught u (setSecurityMarginBetweenBodies a b v u)
  | SetRequests r => Ok (setRequests r u, false)
  | SetDefault r => Ok (set_dflt u r, false)
  | RemoveFromJoint j o => removeObstacleFromJoint u j o
  end.

(* representation: zipped vectors *)
Definition zipped (u : user) (zc zp zd : list (pair * request)) : Prop :=
  cP u = map fst zc /\ cR u = map snd zc /\ pP u = map fst zp /\ pR u = map snd zp /\
  dP u = map fst zd /\ dR u = map snd zd.
Definition rep (u : user) (d : request) (L : ledger) : Prop :=
  dflt u = d /\ exists zc zp zd, zipped u zc zp zd /\
    zc = of_class Active L /\ Permutation zp (of_class Param L) /\ Permutation zd (of_class Disabled L).

Lemma of_class_app c L1 L2 : of_class c (L1 ++ L2) = of_class c L1 ++ of_class c L2.
Proof. unfold of_class. rewrite filter_app, map_app. reflexivity. Qed.
Lemma of_class_cons c e L : of_class c (e :: L) = if cls_eqb (e_cls e) c then (e_pair e, e_req e) :: of_class c L else of_class c L.
Proof. unfold of_class. cbn [filter]. destruct (cls_eqb _ _); reflexivity. Qed.
Lemma of_class_enter c r ps : of_class c (enter r ps) = if cls_eqb Active c then map (fun p => (p, r)) ps else [].
Proof.
  induction ps as [|p ps IH]; [destruct c; reflexivity|]. cbn [enter map]. fold (enter r ps).
  rewrite of_class_cons, IH. cbn [e_cls e_pair e_req]. destruct c; reflexivity.
Qed.

(* ---- additions ---- *)
Definition push_all (u : user) (ps : list pair) : user := fold_left push_active ps u.
Lemma push_all_app u a b : push_all u (a ++ b) = push_all (push_all u a) b.
Proof. apply fold_left_app. Qed.
Lemma push_all_val ps : forall u, push_all u ps = set_c u (cP u ++ ps) (cR u ++ map (fun _ => dflt u) ps).
Proof.
  induction ps as [|p ps IH]; intros u.
  - cbn. rewrite !app_nil_r. destruct u; reflexivity.
  - unfold push_all in *. cbn [fold_left]. rewrite IH. unfold push_active, set_c. cbn.
    rewrite <- !app_assoc. reflexivity.
Qed.
Lemma fold_push_map (o : object) inner : forall u,
  fold_left (fun u i => push_active u (i, o)) inner u = push_all u (map (fun i => (i, o)) inner).
Proof. induction inner as [|i l IH]; intros u; [reflexivity|]. cbn [fold_left map]. rewrite IH. reflexivity. Qed.

Fixpoint joint_ind' (P : joint -> Prop) (H : forall b c, Forall P c -> P (Joint b c)) (j : joint) : P j :=
  match j with
  | Joint b c => H b c ((fix loop (l : list joint) : Forall P l :=
      match l with [] => Forall_nil _ | x :: r => Forall_cons _ (joint_ind' P H x) (loop r) end) c)
  end.

Lemma addToJoint_val j o c : forall u,
  addObstacleToJoint u o j c = push_all u (map (fun i => (i, o)) (if c then all_objects j else own_objects j)).
Proof.
  induction j as [b ch IH] using joint_ind'. intros u. cbn [addObstacleToJoint].
  assert (E1 : match b with Some inner => fold_left (fun u i => push_active u (i, o)) inner u | None => u end
               = push_all u (map (fun i => (i, o)) (own_objects (Joint b ch)))).
  { unfold own_objects. cbn [jbody]. destruct b; [apply fold_push_map|reflexivity]. }
  rewrite E1. destruct c; [|reflexivity].
  cbn [all_objects]. unfold own_objects. cbn [jbody]. rewrite map_app, push_all_app.
  generalize (push_all u (map (fun i => (i, o)) match b with Some l => l | None => [] end)). clear E1 u.
  induction ch as [|x ch IHc]; intros u; [reflexivity|].
  inversion IH as [|? ? Hx Hc]; subst. cbn [flat_map]. rewrite map_app, push_all_app.
  rewrite Hx. apply IHc. exact Hc.
Qed.
Lemma addObstacle_val o robot : forall u,
  addObstacle robot u o = push_all u (map (fun i => (i, o)) (robot_objects robot)).
Proof.
  unfold addObstacle, robot_objects. induction robot as [|j r IH]; intros u; [reflexivity|].
  cbn [fold_left flat_map]. rewrite IH, addToJoint_val, map_app, push_all_app. reflexivity.
Qed.
Lemma addRobot_val model : forall u,
  addRobotCollisionPairs u model = push_all u (map fst (filter snd model)).
Proof.
  unfold addRobotCollisionPairs. induction model as [|[p b] r IH]; intros u; [reflexivity|].
  cbn [fold_left filter snd fst]. destruct b; rewrite IH; reflexivity.
Qed.

Lemma push_all_rep u d L ps : rep u d L -> rep (push_all u ps) d (L ++ enter d ps).
Proof.
  intros (Ed & zc & zp & zd & (H1 & H2 & H3 & H4 & H5 & H6) & Hc & Hp & Hd).
  rewrite push_all_val. split; [exact Ed|].
  exists (zc ++ map (fun p => (p, d)) ps), zp, zd. rewrite !of_class_app, !of_class_enter. cbn [cls_eqb].
  rewrite !app_nil_r. split; [|subst; auto].
  unfold zipped, set_c. cbn [cP cR pP pR dP dR]. rewrite !map_app, !map_map. cbn [fst snd].
  rewrite map_id. subst d. rewrite H1, H2. auto 10.
Qed.

(* ---- erasing ---- *)
Lemma erase_at_app {A} (pre : list A) x suf : erase_at (length pre) (pre ++ x :: suf) = pre ++ suf.
Proof.
  unfold erase_at. rewrite firstn_app, Nat.sub_diag, firstn_all. cbn [firstn]. rewrite app_nil_r. f_equal.
  rewrite skipn_app, (skipn_all2 pre) by lia. replace (S (length pre) - length pre) with 1 by lia. reflexivity.
Qed.
Lemma nth_error_mid {A} (pre : list A) x suf : nth_error (pre ++ x :: suf) (length pre) = Some x.
Proof. rewrite nth_error_app2, Nat.sub_diag by lia. reflexivity. Qed.
Lemma nth_error_end {A} (pre : list A) : nth_error pre (length pre) = None.
Proof. apply nth_error_None. lia. Qed.

Definition hits (p : pair) (z : pair * request) : bool := same_pair p (fst z).

Lemma erase_loop_val p suf : forall turns pre u nb, length suf <= turns ->
  cP u = map fst (pre ++ suf) -> cR u = map snd (pre ++ suf) ->
  erase_loop turns (length pre) u p nb =
    Ok (set_c u (map fst (pre ++ filter (fun z => negb (hits p z)) suf))
                (map snd (pre ++ filter (fun z => negb (hits p z)) suf)),
        nb + length (filter (hits p) suf)).
Proof.
  induction suf as [|z suf IH]; intros turns pre u nb Ht E1 E2.
  - cbn [filter length]. rewrite app_nil_r in E1, E2. rewrite app_nil_r, Nat.add_0_r, <- E1, <- E2.
    assert (Eu : set_c u (cP u) (cR u) = u) by (destruct u; reflexivity). rewrite Eu.
    destruct turns; cbn [erase_loop].
    + rewrite E1, map_length. destruct (Nat.ltb_spec (length pre) (length pre)); [lia|reflexivity].
    + replace (nth_error (cP u) (length pre)) with (@None pair); [reflexivity|].
      symmetry. rewrite E1, <- (map_length fst pre). apply nth_error_end.
  - cbn [length] in Ht. destruct turns as [|turns]; [lia|]. cbn [erase_loop].
    assert (En : nth_error (cP u) (length pre) = Some (fst z)).
    { rewrite E1, map_app, <- (map_length fst pre). cbn [map]. apply nth_error_mid. }
    rewrite En. cbn [filter]. change (same_pair p (fst z)) with (hits p z). destruct (hits p z) eqn:Es; cbn [negb].
    + assert (Hl : length pre < length (cR u)) by (rewrite E2, map_length, app_length; cbn [length]; lia).
      destruct (Nat.ltb_spec (length pre) (length (cR u))); [|lia].
      rewrite (IH turns pre _ (S nb)); [cbn [length]; rewrite Nat.add_succ_comm; reflexivity|lia| |]; unfold set_c; cbn [cP cR].
      * rewrite E1, !map_app. cbn [map]. rewrite <- (map_length fst pre). apply erase_at_app.
      * rewrite E2, !map_app. cbn [map]. rewrite <- (map_length snd pre). apply erase_at_app.
    + specialize (IH turns (pre ++ [z]) u nb). rewrite app_length in IH. cbn [length] in IH.
      rewrite Nat.add_1_r in IH. rewrite <- !app_assoc in IH. cbn [app] in IH.
      rewrite IH; [reflexivity|lia|exact E1|exact E2].
Qed.

Lemma erase_loop_zip u zc zp zd p : zipped u zc zp zd ->
  let zc' := filter (fun z => negb (hits p z)) zc in
  erase_loop (length (cP u)) 0 u p 0 = Ok (set_c u (map fst zc') (map snd zc'), length (filter (hits p) zc)) /\
  zipped (set_c u (map fst zc') (map snd zc')) zc' zp zd.
Proof.
  intros (H1 & H2 & H3 & H4 & H5 & H6) zc'. split.
  - apply (erase_loop_val p zc (length (cP u)) [] u 0); [|exact H1|exact H2].
    rewrite H1, map_length. lia.
  - unfold zipped, set_c. cbn. auto 10.
Qed.

(* what is kept after dealing with the objects of a list *)
Definition hits_any (inner : list object) (o : object) (z : pair * request) : bool :=
  existsb (fun i => hits (i, o) z) inner.
Lemma filter_filter {A} (f g : A -> bool) l : filter f (filter g l) = filter (fun x => g x && f x) l.
Proof.
  induction l as [|x l IH]; [reflexivity|]. cbn [filter]. destruct (g x); cbn [filter andb]; [|exact IH].
  destruct (f x); rewrite IH; reflexivity.
Qed.

Lemma remove_inner_val inner o : forall u zc zp zd, zipped u zc zp zd ->
  exists u' thrown, remove_inner inner o u = Ok (u', thrown) /\ dflt u' = dflt u /\
    ((thrown = false /\ zipped u' (filter (fun z => negb (hits_any inner o z)) zc) zp zd) \/
     (thrown = true /\ exists l1 i l2, inner = l1 ++ i :: l2 /\
        zipped u' (filter (fun z => negb (hits_any l1 o z)) zc) zp zd /\
        filter (hits (i, o)) (filter (fun z => negb (hits_any l1 o z)) zc) = [])).
Proof.
  induction inner as [|i inner IH]; intros u zc zp zd Hz.
  - exists u, false. cbn. split; [reflexivity|]. split; [reflexivity|]. left. split; [reflexivity|].
    replace (filter (fun _ => true) zc) with zc; [exact Hz|]. symmetry.
    clear. induction zc as [|z l IH]; [reflexivity|]. cbn. rewrite IH. reflexivity.
  - cbn [remove_inner]. destruct (erase_loop_zip u zc zp zd (i, o) Hz) as [-> Hz']. cbn [bind].
    destruct (Nat.eqb_spec (length (filter (hits (i, o)) zc)) 0) as [E|E].
    + eexists _, true. split; [reflexivity|]. split; [reflexivity|]. right. split; [reflexivity|].
      exists [], i, inner. split; [reflexivity|]. cbn [hits_any existsb negb].
      assert (Et : filter (fun _ : pair * request => true) zc = zc).
      { clear. induction zc as [|z l IH]; [reflexivity|]. cbn. rewrite IH. reflexivity. }
      rewrite Et. apply length_zero_iff_nil in E. split; [|exact E].
      assert (Es : filter (fun z => negb (hits (i, o) z)) zc = zc).
      { clear -E. induction zc as [|z l IH]; [reflexivity|]. cbn [filter] in *.
        destruct (hits (i, o) z); [discriminate|]. cbn [negb]. rewrite (IH E). reflexivity. }
      rewrite Es in Hz'. rewrite Es. exact Hz'.
    + destruct (IH _ _ _ _ Hz') as (u' & th & E' & Ed & Hcase). exists u', th.
      split; [exact E'|]. split; [rewrite Ed; reflexivity|].
      assert (Ef : forall l, filter (fun z => negb (hits_any l o z)) (filter (fun z => negb (hits (i, o) z)) zc)
                 = filter (fun z => negb (hits_any (i :: l) o z)) zc).
      { intros l. rewrite filter_filter. apply filter_ext. intros z. cbn [hits_any existsb].
        rewrite negb_orb. reflexivity. }
      destruct Hcase as [[-> H]|[-> (l1 & x & l2 & -> & H1 & H2)]].
      * left. split; [reflexivity|]. rewrite Ef in H. exact H.
      * right. split; [reflexivity|]. exists (i :: l1), x, l2. rewrite Ef in H1, H2. auto.
Qed.

(* ledger side of removal *)
Definition entry_hit (inner : list object) (o : object) (e : entry) : bool :=
  cls_eqb (e_cls e) Active && hits_any inner o (e_pair e, e_req e).
Lemma cls_eqb_eq a b : cls_eqb a b = true <-> a = b.
Proof. destruct a, b; split; (reflexivity || discriminate). Qed.
Lemma entry_hit_spec inner o e :
  negb (entry_hit inner o e) = true <-> ~ (e_cls e = Active /\ opposes inner o e).
Proof.
  assert (H : entry_hit inner o e = true <-> e_cls e = Active /\ opposes inner o e).
  { unfold entry_hit, hits_any, opposes. rewrite andb_true_iff, cls_eqb_eq, existsb_exists. unfold hits, same_pair. cbn [fst snd].
    split.
    - intros [Hc (i & Hin & H)]. apply andb_true_iff in H. destruct H as [Ha Hb].
      apply Nat.eqb_eq in Ha, Hb. split; [exact Hc|]. split; [exists i; auto|auto].
    - intros [Hc [(i & Hin & Ha) Hb]]. split; [exact Hc|]. exists i. split; [exact Hin|].
      apply andb_true_iff. split; apply Nat.eqb_eq; auto. }
  rewrite negb_true_iff, <- H. destruct (entry_hit inner o e); split; congruence.
Qed.
Lemma of_class_filter_hit c inner o L :
  of_class c (filter (fun e => negb (entry_hit inner o e)) L) =
  if cls_eqb c Active then filter (fun z => negb (hits_any inner o z)) (of_class c L) else of_class c L.
Proof.
  induction L as [|e L IH]; [destruct c; reflexivity|].
  cbn [filter]. rewrite of_class_cons. unfold entry_hit at 1.
  destruct (cls_eqb (e_cls e) Active) eqn:Ea; cbn [andb].
  - apply cls_eqb_eq in Ea. rewrite Ea. destruct (hits_any inner o (e_pair e, e_req e)) eqn:Eh; cbn [negb].
    + rewrite IH. destruct c; cbn [cls_eqb]; try reflexivity. cbn [filter]. rewrite Eh. reflexivity.
    + rewrite of_class_cons, Ea, IH. destruct c; cbn [cls_eqb]; try reflexivity. cbn [filter]. rewrite Eh. reflexivity.
  - cbn [negb]. rewrite of_class_cons, IH. destruct c; cbn [cls_eqb]; try reflexivity.
    rewrite Ea. reflexivity.
Qed.

Lemma In_of_class c L p r : In (p, r) (of_class c L) <-> exists e, In e L /\ e_cls e = c /\ e_pair e = p /\ e_req e = r.
Proof.
  unfold of_class. rewrite in_map_iff. split.
  - intros (e & E & H). apply filter_In in H. destruct H as [H1 H2]. apply cls_eqb_eq in H2. injection E as E1 E2. exists e. auto.
  - intros (e & H & Hc & <- & <-). exists e. split; [reflexivity|]. apply filter_In. split; [exact H|]. apply cls_eqb_eq. exact Hc.
Qed.

(* ---- filtering ---- *)
Definition z_type (m : matrix) (z : pair * request) : rmt := m (o_joint (fst (fst z))) (o_joint (snd (fst z))).
Definition typed (m : matrix) (t : rmt) (z : pair * request) : bool := rmt_eqb (z_type m z) t.

Lemma filter_loop_val nb m suf : forall turns pre zp zd u, length suf <= turns ->
  Forall (fun z => pair_ok nb (fst z)) suf ->
  zipped u (pre ++ suf) zp zd ->
  exists u', filter_loop (S nb) m turns (length pre) u = Ok u' /\ dflt u' = dflt u /\
    zipped u' (pre ++ filter (typed m Unconstrained) suf) (zp ++ filter (typed m Parameterized) suf)
              (zd ++ filter (typed m Constrained) suf).
Proof.
  induction suf as [|z suf IH]; intros turns pre zp zd u Ht Hok (H1 & H2 & H3 & H4 & H5 & H6).
  - cbn [filter]. rewrite !app_nil_r in *. exists u. split; [|split; [reflexivity|unfold zipped; auto 10]].
    destruct turns; cbn [filter_loop].
    + rewrite H1, map_length. destruct (Nat.ltb_spec (length pre) (length pre)); [lia|reflexivity].
    + replace (nth_error (cP u) (length pre)) with (@None pair); [reflexivity|].
      symmetry. rewrite H1, <- (map_length fst pre). apply nth_error_end.
  - cbn [length] in Ht. destruct turns as [|turns]; [lia|]. inversion Hok as [|? ? [Hj1 Hj2] Hok']; subst.
    cbn [filter_loop].
    assert (En : nth_error (cP u) (length pre) = Some (fst z)).
    { rewrite H1, map_app, <- (map_length fst pre). cbn [map]. apply nth_error_mid. }
    assert (Er : nth_error (cR u) (length pre) = Some (snd z)).
    { rewrite H2, map_app, <- (map_length snd pre). cbn [map]. apply nth_error_mid. }
    assert (Z : erase_at (length pre) (cP u) = map fst (pre ++ suf) /\ erase_at (length pre) (cR u) = map snd (pre ++ suf)).
    { rewrite H1, H2, !map_app. cbn [map]. split; [rewrite <- (map_length fst pre)|rewrite <- (map_length snd pre)]; apply erase_at_app. }
    destruct Z as [Z1 Z2].
    rewrite En. destruct (Nat.ltb_spec (o_joint (fst (fst z))) (S nb)); [|lia].
    destruct (Nat.ltb_spec (o_joint (snd (fst z))) (S nb)); [|lia]. cbn [andb filter].
    assert (Et : forall t, typed m t z = rmt_eqb (m (o_joint (fst (fst z))) (o_joint (snd (fst z)))) t) by reflexivity.
    rewrite !Et. destruct (m (o_joint (fst (fst z))) (o_joint (snd (fst z)))) eqn:Em; cbn [rmt_eqb].
    + rewrite Er.
      destruct (IH turns pre zp (zd ++ [z])
                  (set_c (set_d u (dP u ++ [fst z]) (dR u ++ [snd z])) (erase_at (length pre) (cP u)) (erase_at (length pre) (cR u))))
        as (u' & E & Ed & Hz'); [lia|exact Hok'| |].
      { unfold zipped, set_c, set_d. cbn [cP cR pP pR dP dR]. rewrite Z1, Z2, H5, H6, !(map_app _ zd). auto 10. }
      exists u'. split; [exact E|]. split; [rewrite Ed; reflexivity|]. rewrite <- app_assoc in Hz'. exact Hz'.
    + rewrite Er.
      destruct (IH turns pre (zp ++ [z]) zd
                  (set_c (set_p u (pP u ++ [fst z]) (pR u ++ [snd z])) (erase_at (length pre) (cP u)) (erase_at (length pre) (cR u))))
        as (u' & E & Ed & Hz'); [lia|exact Hok'| |].
      { unfold zipped, set_c, set_p. cbn [cP cR pP pR dP dR]. rewrite Z1, Z2, H3, H4, !(map_app _ zp). auto 10. }
      exists u'. split; [exact E|]. split; [rewrite Ed; reflexivity|]. rewrite <- app_assoc in Hz'. exact Hz'.
    + destruct (IH turns (pre ++ [z]) zp zd u) as (u' & E & Ed & Hz'); [lia|exact Hok'| |].
      { rewrite <- app_assoc. unfold zipped. auto 10. }
      rewrite app_length in E. cbn [length] in E. rewrite Nat.add_1_r in E.
      exists u'. split; [exact E|]. split; [exact Ed|]. rewrite <- app_assoc in Hz'. exact Hz'.
Qed.

Lemma reclass_active m L : of_class Active (map (reclass m) L) = filter (typed m Unconstrained) (of_class Active L).
Proof.
  induction L as [|e L IH]; [reflexivity|]. cbn [map]. rewrite !of_class_cons, IH. unfold reclass.
  destruct (e_cls e) eqn:Ec; cbn [cls_eqb e_cls e_pair e_req]; try (rewrite Ec; reflexivity).
  cbn [filter].
      assert (Et : forall t, typed m t (e_pair e, e_req e) = rmt_eqb (m (fst (e_joints e)) (snd (e_joints e))) t) by reflexivity.
      rewrite !Et.
  destruct (m _ _); reflexivity.
Qed.
Lemma reclass_other m t c L : c = cls_of t -> c <> Active ->
  Permutation (of_class c (map (reclass m) L)) (of_class c L ++ filter (typed m t) (of_class Active L)).
Proof.
  intros Hc Hn. induction L as [|e L IH]; [reflexivity|]. cbn [map]. rewrite !of_class_cons. unfold reclass.
  destruct (e_cls e) eqn:Ec; cbn [cls_eqb e_cls e_pair e_req].
  - destruct c; [congruence| |]; cbn [cls_eqb].
    + cbn [filter].
      assert (Et : forall t, typed m t (e_pair e, e_req e) = rmt_eqb (m (fst (e_joints e)) (snd (e_joints e))) t) by reflexivity.
      rewrite !Et.
      destruct t; try discriminate. destruct (m _ _); cbn [cls_of cls_eqb rmt_eqb]; try exact IH.
      apply Permutation_cons_app. exact IH.
    + cbn [filter].
      assert (Et : forall t, typed m t (e_pair e, e_req e) = rmt_eqb (m (fst (e_joints e)) (snd (e_joints e))) t) by reflexivity.
      rewrite !Et.
      destruct t; try discriminate. destruct (m _ _); cbn [cls_of cls_eqb rmt_eqb]; try exact IH.
      apply Permutation_cons_app. exact IH.
  - rewrite Ec. destruct c; cbn [cls_eqb]; try congruence; first [apply perm_skip; exact IH|exact IH].
  - rewrite Ec. destruct c; cbn [cls_eqb]; try congruence; first [apply perm_skip; exact IH|exact IH].
Qed.

(* ---- margins ---- *)
Lemma set_at_app {A} (pre : list A) x v suf : set_at (length pre) v (pre ++ x :: suf) = pre ++ v :: suf.
Proof. induction pre as [|y l IH]; [reflexivity|]. cbn. rewrite IH. reflexivity. Qed.
Definition z_margin (sm : nat -> nat -> nat) (z : pair * request) : pair * request :=
  (fst z, with_margin (snd z) (sm (o_joint (fst (fst z))) (o_joint (snd (fst z))))).
Lemma margins_loop_val nb sm suf : forall pre, Forall (fun z => pair_ok nb (fst z)) suf ->
  margins_loop (S nb) sm (length pre) (map fst suf) (pre ++ map snd suf) = Ok (pre ++ map snd (map (z_margin sm) suf)).
Proof.
  induction suf as [|z suf IH]; intros pre Hok; [reflexivity|].
  inversion Hok as [|? ? [Hj1 Hj2] Hok']; subst. cbn [map margins_loop].
  rewrite nth_error_mid.
  destruct (Nat.ltb_spec (o_joint (fst (fst z))) (S nb)); [|lia].
  destruct (Nat.ltb_spec (o_joint (snd (fst z))) (S nb)); [|lia]. cbn [andb].
  rewrite set_at_app. specialize (IH (pre ++ [with_margin (snd z) (sm (o_joint (fst (fst z))) (o_joint (snd (fst z))))]) Hok').
  rewrite app_length in IH. cbn [length] in IH. rewrite Nat.add_1_r, <- !app_assoc in IH. cbn [app] in IH. exact IH.
Qed.
Lemma of_class_map c (f : entry -> entry) (g : pair * request -> pair * request) L :
  (forall e, e_cls (f e) = e_cls e) -> (forall e, (e_pair (f e), e_req (f e)) = g (e_pair e, e_req e)) ->
  of_class c (map f L) = map g (of_class c L).
Proof.
  intros H1 H2. induction L as [|e L IH]; [reflexivity|]. cbn [map]. rewrite !of_class_cons, H1.
  destruct (cls_eqb (e_cls e) c); [cbn [map]; rewrite H2, IH; reflexivity|exact IH].
Qed.

(* ---- margin between two bodies ---- *)
Lemma name_match_spec a b e : name_match a b (e_pair e) = true <-> between a b e.
Proof.
  unfold name_match, between. rewrite orb_true_iff, !andb_true_iff, !Nat.eqb_eq. reflexivity.
Qed.
Lemma setMargin_val a b v suf : forall pre,
  (setMargin a b v (length pre) (map fst suf) (pre ++ map snd suf) = Ok (pre ++ map snd suf, false) /\
   Forall (fun z => name_match a b (fst z) = false) suf) \/
  exists s1 z s2, suf = s1 ++ z :: s2 /\ name_match a b (fst z) = true /\
    Forall (fun z => name_match a b (fst z) = false) s1 /\
    setMargin a b v (length pre) (map fst suf) (pre ++ map snd suf) =
      Ok (pre ++ map snd (s1 ++ (fst z, with_margin (snd z) v) :: s2), true).
Proof.
  induction suf as [|z suf IH]; intros pre; [left; split; [reflexivity|constructor]|].
  cbn [map setMargin]. destruct (name_match a b (fst z)) eqn:En.
  - right. exists [], z, suf. rewrite nth_error_mid, set_at_app. auto.
  - specialize (IH (pre ++ [snd z])). rewrite app_length in IH. cbn [length] in IH.
    rewrite Nat.add_1_r, <- !app_assoc in IH. cbn [app] in IH.
    destruct IH as [[E Hf]|(s1 & y & s2 & E1 & E2 & Hf & E3)].
    + left. split; [exact E|constructor; assumption].
    + right. exists (z :: s1), y, s2. subst suf. split; [reflexivity|]. split; [exact E2|].
      split; [constructor; assumption|]. rewrite E3. rewrite <- app_assoc. reflexivity.
Qed.

(* an entry of a class found in the ledger *)
Lemma of_class_split c L p r a b : Permutation (a ++ (p, r) :: b) (of_class c L) ->
  exists l1 l2, L = l1 ++ {| e_pair := p; e_req := r; e_cls := c |} :: l2 /\
    forall r', Permutation (a ++ (p, r') :: b) (of_class c (l1 ++ {| e_pair := p; e_req := r'; e_cls := c |} :: l2)) /\
      forall c', c' <> c -> of_class c' (l1 ++ {| e_pair := p; e_req := r'; e_cls := c |} :: l2) = of_class c' L.
Proof.
  intros H. assert (Hin : In (p, r) (of_class c L)) by (eapply Permutation_in; [exact H|apply in_elt]).
  apply In_of_class in Hin. destruct Hin as (e & Hin & Hc & Hp & Hr). apply in_split in Hin.
  destruct Hin as (l1 & l2 & ->). destruct e as [ep er ec]. cbn in Hc, Hp, Hr. subst.
  exists l1, l2. split; [reflexivity|]. intros r'. split.
  - rewrite of_class_app, of_class_cons in H. rewrite of_class_app, of_class_cons. cbn [e_cls e_pair e_req] in *.
    assert (Ec : cls_eqb c c = true) by (destruct c; reflexivity). rewrite Ec in *.
    apply Permutation_app_inv in H. apply Permutation_elt. exact H.
  - intros c' Hn. rewrite !of_class_app, !of_class_cons. cbn [e_cls].
    assert (Ec : cls_eqb c c' = false) by (destruct c, c'; congruence || reflexivity). rewrite Ec. reflexivity.
Qed.
Lemma of_class_split_eq c L p r a b : a ++ (p, r) :: b = of_class c L ->
  exists l1 l2, L = l1 ++ {| e_pair := p; e_req := r; e_cls := c |} :: l2 /\
    of_class c l1 = a /\ of_class c l2 = b.
Proof.
  revert a. induction L as [|e L IH]; intros a H; [destruct a; discriminate|].
  rewrite of_class_cons in H. destruct (cls_eqb (e_cls e) c) eqn:Ec.
  - apply cls_eqb_eq in Ec. destruct a as [|y a]; cbn [app] in H.
    + injection H as E1 E2 E3. exists [], L. destruct e; cbn in *; subst. auto.
    + injection H as -> H. destruct (IH a H) as (l1 & l2 & -> & <- & <-).
      exists (e :: l1), l2. split; [reflexivity|]. rewrite of_class_cons, Ec.
      assert (E : cls_eqb c c = true) by (destruct c; reflexivity). rewrite E. auto.
  - destruct (IH a H) as (l1 & l2 & -> & <- & <-). exists (e :: l1), l2. split; [reflexivity|].
    rewrite of_class_cons, Ec. auto.
Qed.

Lemma no_match_class a b c L z : Permutation z (of_class c L) ->
  Forall (fun z => name_match a b (fst z) = false) z -> forall e, In e L -> e_cls e = c -> ~ between a b e.
Proof.
  intros Hp Hf e Hin Hc Hb. apply name_match_spec in Hb.
  assert (Hz : In (e_pair e, e_req e) z).
  { eapply Permutation_in; [apply Permutation_sym; exact Hp|]. apply In_of_class. exists e. auto. }
  rewrite Forall_forall in Hf. specialize (Hf _ Hz). cbn [fst] in Hf. congruence.
Qed.
