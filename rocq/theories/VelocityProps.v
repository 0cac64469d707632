(* C50: bound of the relative velocity of two bodies *)
From Verif Require Import Base VelocityModel VelocitySpec VelocityProofs.
From Coq Require Import Reals Lra Psatz.
Open Scope R_scope.

(* The sequence of joints between a and b: always computed, goes from a to b
   through joints adjacent in the tree, none twice. *)
Theorem C50_sequence : forall parent a b, tree parent ->
  exists l, joint_sequence parent a b = Ok l /\ hd_error l = Some a /\ last l b = b /\ NoDup l /\
    forall pre i j post, l = pre ++ i :: j :: post -> (i <> 0%nat /\ parent i = j) \/ (j <> 0%nat /\ parent j = i).
Proof.
  intros parent a b HT. destruct (joint_sequence_spec parent HT a b) as [l [H1 [H2 [H3 [H4 H5]]]]].
  exists l. repeat (split; [assumption|]). intros pre i j post ->. clear -H2.
  induction pre as [|x pre IH]; cbn [app] in H2.
  - destruct H2 as [H _]. exact H.
  - apply IH. destruct pre as [|y pre]; cbn [app linked] in *; apply H2.
Qed.
Example C50_ex_sequence : joint_sequence (fun i => match i with 2 => 1 | 3 => 2 | 4 => 1 | 5 => 4 | _ => 0 end)%nat 3 5 = Ok [3; 2; 1; 4; 5]%nat.
Proof. reflexivity. Qed.

(* the bound is always computed *)
Lemma coefficients_eq parent jb i j r c : coefficients parent jb (i :: j :: r) c =
  if (parent i =? j)%nat then
    bind (coefficients parent jb (j :: r) (c + dpar (jb i))) (fun l => Ok ((i, lin (jb i) + c * ang (jb i)) :: l))
  else if (parent j =? i)%nat then
    bind (coefficients parent jb (j :: r) (c + dpar (jb j))) (fun l => Ok ((j, lin (jb j) + c * ang (jb j)) :: l))
  else UB.
Proof. reflexivity. Qed.
Lemma coefficients_total parent jb : forall l c, linked parent l -> exists cs, coefficients parent jb l c = Ok cs.
Proof.
  induction l as [|i l IH]; intros c HL; [exists []; reflexivity|]. destruct l as [|j r]; [exists []; reflexivity|].
  cbn [linked] in HL. destruct HL as [HA HL]. rewrite coefficients_eq. destruct (Nat.eqb_spec (parent i) j) as [E|E].
  - destruct (IH (c + dpar (jb i)) HL) as [cs H]. rewrite H. eexists; reflexivity.
  - destruct HA as [[_ HA]|[_ HA]]; [contradiction|]. apply Nat.eqb_eq in HA. rewrite HA.
    destruct (IH (c + dpar (jb j)) HL) as [cs H]. rewrite H. eexists; reflexivity.
Qed.
Lemma linked_rev parent l : linked parent l -> linked parent (rev l).
Proof.
  induction l as [|i l IH]; intros H; [exact I|]. destruct l as [|j r]; [exact I|]. destruct H as [HA HL].
  cbn [rev]. cbn [rev] in IH. apply linked_snoc; [apply IH; exact HL|]. unfold adjacent in *. tauto.
Qed.
Theorem C50_total : forall parent jb radius nv a b, tree parent -> exists r, max_velocity parent jb radius nv a b = Ok r.
Proof.
  intros parent jb radius nv a b HT. unfold max_velocity.
  destruct (joint_sequence_spec parent HT a (match b with Some i => i | None => 0%nat end)) as [l [H1 [H2 _]]]. rewrite H1. cbn [bind].
  destruct (coefficients_total parent jb l radius H2) as [cs H3]. rewrite H3. cbn [bind].
  destruct b; [|eexists; reflexivity]. destruct (coefficients_total parent jb (rev l) radius (linked_rev parent l H2)) as [cr H4]. rewrite H4. eexists; reflexivity.
Qed.

(* A body against obstacles: whatever the state of motion compatible with the
   bounds of the joints, every point x of the body (within its radius) moves
   no faster than the bound.  Missing: pairs of bodies of the robot. *)
Theorem C50_obstacle_bound_partial : forall parent jb nv m radius a r x v, tree parent ->
  bounds_hold parent jb nv m ->
  max_velocity parent jb radius nv a None = Ok r ->
  norm (vsub x (org m a)) <= radius ->
  relative_velocity parent m a 0 x v -> norm v <= r.
Proof.
  intros parent jb nv m radius a r x v HT HB E Hx [va [vb [Ha [Hb ->]]]].
  destruct (sequence_anc parent HT a 0 (anc_root parent HT a)) as [l [H1 [H2 [s ->]]]].
  destruct (up_speed parent jb nv m _ _ H2 a s radius x va vb HB eq_refl Hx Ha Hb) as [cs [H3 H4]].
  unfold max_velocity in E. rewrite H1 in E. cbn [bind] in E. rewrite H3 in E. cbn [bind] in E. injection E as <-. exact H4.
Qed.
(* Body a and body b with b an ancestor of a: the sum computed from a to b is
   a bound (the function returns the minimum of this sum and of the reverse one) *)
Theorem C50_ancestor_forward_partial : forall parent jb nv m radius a b x v, tree parent ->
  bounds_hold parent jb nv m -> anc parent a b ->
  norm (vsub x (org m a)) <= radius -> relative_velocity parent m a b x v ->
  exists l cs, joint_sequence parent a b = Ok l /\ coefficients parent jb l radius = Ok cs /\ norm v <= weighted nv cs.
Proof.
  intros parent jb nv m radius a b x v HT HB HA Hx [va [vb [Ha [Hb ->]]]].
  destruct (sequence_anc parent HT a b HA) as [l [H1 [H2 [s ->]]]].
  destruct (up_speed parent jb nv m _ _ H2 a s radius x va vb HB eq_refl Hx Ha Hb) as [cs [H3 H4]].
  exists (a :: s), cs. auto.
Qed.

(* an arm of three joints in a row; joint 2 turns at speed 1 around the z axis *)
Definition arm (i : nat) : nat := match i with 2 => 1 | 3 => 2 | _ => 0 end%nat.
Definition arm_bounds (i : nat) : jbound := {| lin := 0; ang := 1; dpar := match i with 3%nat => 10 | _ => 0 end |}.
Definition arm_nv (i : nat) : R := match i with 2%nat => 1 | _ => 0 end.
Definition arm_motion : motion :=
  {| org := fun i => match i with 3%nat => (10, 0, 0) | _ => (0, 0, 0) end;
     lv := fun _ => vzero;
     av := fun i => match i with 2%nat => (0, 0, 1) | _ => vzero end |}.
Lemma norm_axis c : 0 <= c -> forall v, dot v v = c * c -> norm v = c.
Proof. intros Hc v E. unfold norm. rewrite E. apply sqrt_square. exact Hc. Qed.
Ltac norm_is c := rewrite (norm_axis c); [|lra|unfold dot, vsub, vadd, vopp, vzero, vx, vy, vz; cbn [fst snd]; lra].
Lemma arm_tree : tree arm.
Proof. intros [|[|[|[|i]]]] H; cbn; lia. Qed.
Lemma arm_hold : bounds_hold arm arm_bounds arm_nv arm_motion.
Proof.
  intros i Hi. unfold arm_bounds, arm_nv, arm_motion. cbn [lin ang dpar org lv av].
  destruct i as [|[|[|[|i]]]]; [contradiction| | | |]; cbn [arm].
  - norm_is 0. norm_is 0. lra.
  - norm_is 0. norm_is 1. norm_is 0. lra.
  - norm_is 0. norm_is 10. lra.
  - norm_is 0. norm_is 0. lra.
Qed.
Example C50_ex_obstacle : exists r, max_velocity arm arm_bounds 1 arm_nv 3 None = Ok r /\ r = 11.
Proof. eexists. split; [reflexivity|]. unfold weighted, arm_bounds, arm_nv. cbn [fold_left fst snd lin ang dpar arm]. lra. Qed.

(* Two bodies of the same arm (b ancestor of a): a point of body a, also within
   the radius of body b, moves relative to b eleven times faster than the bound.
   The reverse sum starts from the radius of body a and not of body b. *)
Theorem C50_ancestor_refuted : exists parent jb nv m ra rb a b x v r, tree parent /\ bounds_hold parent jb nv m /\
  anc parent a b /\ norm (vsub x (org m a)) <= ra /\ norm (vsub x (org m b)) <= rb /\
  relative_velocity parent m a b x v /\ max_velocity parent jb ra nv a (Some b) = Ok r /\ r < norm v.
Proof.
  exists arm, arm_bounds, arm_nv, arm_motion, 1, 11, 3%nat, 1%nat, (11, 0, 0).
  eexists _, _. split; [exact arm_tree|split; [exact arm_hold|]].
  split; [apply anc_step; [discriminate|]; apply anc_step; [discriminate|]; constructor|].
  split; [cbn [arm_motion org]; norm_is 1; lra|]. split; [cbn [arm_motion org]; norm_is 11; lra|].
  split.
  - eexists _, _. split; [apply world_joint; [discriminate|]; apply world_joint; [discriminate|]; apply world_joint; [discriminate|]; constructor|].
    split; [apply world_joint; [discriminate|]; constructor|]. reflexivity.
  - split; [reflexivity|]. set (w := vsub _ _).
    assert (EW : norm w = 11).
    { apply norm_axis; [lra|]. unfold w, joint_velocity, arm_motion, dot, vsub, vadd, vopp, cross, vzero, vx, vy, vz. cbn [org lv av fst snd arm]. lra. }
    rewrite EW. unfold weighted, arm_bounds, arm_nv. cbn [fold_left fst snd lin ang dpar arm].
    destruct (Rlt_dec _ _) as [H|H]; lra.
Qed.

(* Two branches: joints 1 and 2 are both attached to the world; joint 1 turns.
   The sum from a to b does not count the distance of joint 1 to the common
   ancestor. *)
Definition fork (i : nat) : nat := 0%nat.
Definition fork_bounds (i : nat) : jbound := {| lin := 0; ang := 1; dpar := match i with 1%nat => 10 | 2%nat => 1 | _ => 0 end |}.
Definition fork_nv (i : nat) : R := match i with 1%nat => 1 | _ => 0 end.
Definition fork_motion : motion :=
  {| org := fun i => match i with 1%nat => (-10, 0, 0) | 2%nat => (1, 0, 0) | _ => (0, 0, 0) end;
     lv := fun _ => vzero;
     av := fun i => match i with 1%nat => (0, 0, 1) | _ => vzero end |}.
Lemma fork_tree : tree fork.
Proof. intros i H. unfold fork. lia. Qed.
Lemma fork_hold : bounds_hold fork fork_bounds fork_nv fork_motion.
Proof.
  intros i Hi. unfold fork, fork_bounds, fork_nv, fork_motion. cbn [lin ang dpar org lv av].
  destruct i as [|[|[|i]]]; [contradiction| | |].
  - norm_is 0. norm_is 1. norm_is 10. lra.
  - norm_is 0. norm_is 1. lra.
  - norm_is 0. norm_is 0. lra.
Qed.
Theorem C50_branches_refuted : exists parent jb nv m ra rb a b x v r, tree parent /\ bounds_hold parent jb nv m /\
  norm (vsub x (org m a)) <= ra /\ norm (vsub x (org m b)) <= rb /\
  relative_velocity parent m a b x v /\ max_velocity parent jb ra nv a (Some b) = Ok r /\
  (* even the sum from a to b alone is too small *)
  (exists l cs, joint_sequence parent a b = Ok l /\ coefficients parent jb l ra = Ok cs /\ weighted nv cs < norm v) /\ r < norm v.
Proof.
  exists fork, fork_bounds, fork_nv, fork_motion, 1, 12, 2%nat, 1%nat, (2, 0, 0).
  eexists _, _. split; [exact fork_tree|split; [exact fork_hold|]].
  split; [cbn [fork_motion org]; norm_is 1; lra|]. split; [cbn [fork_motion org]; norm_is 12; lra|].
  split.
  - eexists _, _. split; [apply world_joint; [discriminate|]; unfold fork; constructor|].
    split; [apply world_joint; [discriminate|]; unfold fork; constructor|]. reflexivity.
  - split; [reflexivity|]. set (w := vsub _ _).
    assert (EW : norm w = 12).
    { apply norm_axis; [lra|]. unfold w, joint_velocity, fork_motion, dot, vsub, vadd, vopp, cross, vzero, vx, vy, vz. cbn [org lv av fst snd arm]. lra. }
    rewrite EW. split.
    + eexists _, _. split; [reflexivity|split; [reflexivity|]].
      unfold weighted, fork_bounds, fork_nv. cbn [fold_left fst snd lin ang dpar arm]. lra.
    + unfold weighted, fork_bounds, fork_nv. cbn [fold_left fst snd lin ang dpar arm].
      destruct (Rlt_dec _ _) as [H|H]; lra.
Qed.

Print Assumptions C50_sequence.
Print Assumptions C50_total.
Print Assumptions C50_obstacle_bound_partial.
Print Assumptions C50_ancestor_forward_partial.
Print Assumptions C50_ancestor_refuted.
Print Assumptions C50_branches_refuted.
