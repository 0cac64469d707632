(* C103 *)
From Coq Require Import Reals List Lra.
From Verif Require Import Base XReal CollConsModel CollConsSpec CollConsProofs.
Import ListNotations.
Open Scope R_scope.

(* The parameter on the free spline is in its range, and at the same fraction
   of its length as the collision on the other one. *)
Theorem C103_backtrack tColl lfree lcoll :
  0 < lcoll -> 0 <= tColl <= lcoll -> 0 <= lfree ->
  exists t, backtrack tColl lfree lcoll = Some t /\ 0 <= t <= lfree /\ t * lcoll = tColl * lfree.
Proof.
  intros L T F. unfold backtrack, reqb. destruct (Req_EM_T lcoll 0) as [E|_]; [lra|].
  assert (0 <= tColl / lcoll <= 1) as D.
  { split.
    - apply Rmult_le_pos; [lra|]. left. apply Rinv_0_lt_compat. exact L.
    - apply (Rmult_le_reg_r lcoll); [exact L|]. unfold Rdiv. rewrite Rmult_assoc, Rinv_l by lra. lra. }
  replace (tColl * lfree / lcoll) with ((tColl / lcoll) * lfree) by (field; lra).
  assert (tColl / lcoll * lfree <= lfree) as U.
  { rewrite <- (Rmult_1_l lfree) at 2. apply Rmult_le_compat_r; lra. }
  eexists. split; [reflexivity|]. rewrite Rmin_left by exact U. split.
  - split; [apply Rmult_le_pos; lra|exact U].
  - field. lra.
Qed.

Section F.
Context {C : Type}.
Variable place : nat -> C -> trsf.
Variable diff : C -> C -> list R.
Variable jac_pos : nat -> v3 -> v3 -> C -> list v3.
Variable jac_rel : nat -> nat -> v3 -> v3 -> C -> list v3.
Variable collide : object -> object -> C -> option v3.
Notation compute_jacobian := (compute_jacobian C place jac_pos jac_rel).
Notation create := (create C place jac_pos jac_rel).
Notation update := (update C place jac_pos jac_rel collide).

(* What the constructor keeps: the configuration in collision, the free one at
   the same fraction of the other spline, the contact, the two objects, the
   second of which moves.  It throws on any other report. *)
Theorem C103_create free coll lfree lcoll tColl o1 o2 p rest :
  0 < lcoll -> 0 <= tColl <= lcoll -> 0 <= lfree -> moving o1 = true \/ moving o2 = true ->
  exists f, create free coll lfree lcoll tColl (Collision o1 o2 (p :: rest)) = Ok f /\
    f_coll C f = coll tColl /\
    (exists t, t * lcoll = tColl * lfree /\ 0 <= t <= lfree /\ f_free C f = free t) /\
    f_contact C f = p /\ moving (f_obj2 C f) = true /\
    ((f_obj1 C f = o1 /\ f_obj2 C f = o2) \/ (f_obj1 C f = o2 /\ f_obj2 C f = o1)).
Proof.
  intros L T F M. destruct (C103_backtrack tColl lfree lcoll L T F) as (t & E & I & P).
  unfold create. cbn [CollConsModel.create]. rewrite E.
  unfold CollConsModel.compute_jacobian.
  destruct o2 as [[|n2]|], o1 as [[|n1]|]; cbn [moving] in *; try (destruct M; discriminate);
  (eexists; split; [reflexivity|]; cbn [f_coll f_free f_contact f_obj1 f_obj2 moving];
   split; [reflexivity|]; split; [exists t; auto|]; auto).
Qed.
Theorem C103_other_report free coll lfree lcoll tColl :
  create free coll lfree lcoll tColl NotCollision = Throw.
Proof. reflexivity. Qed.

Definition made (f : cf C) : Prop :=
  exists o1 o2, compute_jacobian (f_free C f) (f_coll C f) o1 o2 (f_contact C f) = Ok f.

(* The update moves the configuration in collision, with its contact, when the
   new one collides, and the free one otherwise. *)
Theorem C103_update f q : made f ->
  exists f', update f q = Ok f' /\ made f' /\
    f_obj1 C f' = f_obj1 C f /\ f_obj2 C f' = f_obj2 C f /\
    match collide (f_obj1 C f) (f_obj2 C f) q with
    | Some p => f_coll C f' = q /\ f_contact C f' = p /\ f_free C f' = f_free C f
    | None => f_free C f' = q /\ f_coll C f' = f_coll C f /\ f_contact C f' = f_contact C f
    end.
Proof.
  intros (o1 & o2 & H). unfold update, CollConsModel.update.
  assert (moving (f_obj2 C f) = true) as M.
  { unfold CollConsModel.compute_jacobian in H.
    destruct o2 as [[|n2]|], o1 as [[|n1]|]; cbn [moving] in H; try discriminate; injection H as <-; reflexivity. }
  assert (forall a b p, exists f', compute_jacobian a b (f_obj1 C f) (f_obj2 C f) p = Ok f' /\
    f_free C f' = a /\ f_coll C f' = b /\ f_contact C f' = p /\
    f_obj1 C f' = f_obj1 C f /\ f_obj2 C f' = f_obj2 C f) as K.
  { intros a b p. unfold CollConsModel.compute_jacobian. rewrite M.
    destruct (f_obj2 C f) as [[|n2]|]; cbn [moving] in M; try discriminate.
    destruct (f_obj1 C f) as [[|n1]|]; eexists; split; try reflexivity; cbn; auto. }
  destruct (collide (f_obj1 C f) (f_obj2 C f) q) as [p|].
  - destruct (K (f_free C f) q p) as (f' & E & A & B & D & O1 & O2). exists f'. split; [exact E|].
    split; [exists (f_obj1 C f), (f_obj2 C f); rewrite A, B, D; exact E|]. auto.
  - destruct (K q (f_coll C f) (f_contact C f)) as (f' & E & A & B & D & O1 & O2). exists f'. split; [exact E|].
    split; [exists (f_obj1 C f), (f_obj2 C f); rewrite A, B, D; exact E|]. auto.
Qed.

(* The function vanishes at the free configuration, and is the product of its
   Jacobian with the difference. *)
Theorem C103_zero f : (forall q, Forall (fun x => x = 0) (diff q q)) -> value C diff f (f_free C f) = 0.
Proof. intros H. unfold value. apply prod_zero, H. Qed.

Variable motion : (R -> C) -> C -> list R -> Prop.
Hypothesis motion_start : forall m q v, motion m q v -> m 0 = q.

(* Against a fixed obstacle: the Jacobian is the derivative, at the free
   configuration, of the distance between the two points which touch in the
   configuration in collision - provided that the coordinates of the contact in
   the frame of the joint are those in the world. *)
Theorem C103_obstacle_partial qFree qColl o1 j p f :
  compute_jacobian qFree qColl o1 (Some (S j)) p = Ok f -> moving o1 = false ->
  let x := act_inv (place (S j) qColl) p in
  jacobian_of motion (position place (S j) x p) qFree (jac_pos (S j) x p qFree) ->
  0 < distance (act (place (S j) qFree) x) p ->
  x = p ->
  forall m v, motion m qFree v ->
  derivable_pt_lim (fun s => distance (act (place (S j) (m s)) x) p) 0 (prod (jacobian C f qFree) v).
Proof.
  intros E M x HJ D X m v Hm.
  assert (f_J C f = row (normalized (vsub (act (place (S j) qFree) x) x)) (jac_pos (S j) x p qFree)) as EJ.
  { unfold CollConsModel.compute_jacobian in E. cbn [moving] in E.
    destruct o1 as [[|n]|]; cbn [moving] in M; try discriminate; injection E as <-; reflexivity. }
  unfold jacobian. rewrite EJ, prod_row. rewrite X at 2.
  pose proof (HJ m v Hm) as HD.
  replace (vsub (act (place (S j) qFree) x) p) with (position place (S j) x p (m 0))
    by (unfold position; rewrite (motion_start m qFree v Hm); reflexivity).
  apply (norm_derivative (fun s => position place (S j) x p (m s)) 0 _ HD).
  unfold position. rewrite (motion_start m qFree v Hm).
  rewrite distance_norm in D. unfold norm in D.
  destruct (Rle_lt_or_eq_dec _ _ (dot_nonneg (vsub (act (place (S j) qFree) x) p))) as [L|L]; [exact L|].
  rewrite <- L, sqrt_0 in D. lra.
Qed.

(* Between two bodies with the same orientation in the free configuration: the
   Jacobian is the opposite of the derivative of the distance between the two
   points which touch in the configuration in collision. *)
Theorem C103_bodies_partial qFree qColl j1 j2 p f :
  (forall k q, rigid (place k q)) ->
  compute_jacobian qFree qColl (Some (S j1)) (Some (S j2)) p = Ok f ->
  let x1 := act_inv (place (S j1) qColl) p in
  let x2 := act_inv (place (S j2) qColl) p in
  jacobian_of motion (relative_position place (S j1) (S j2) x1 x2) qFree (jac_rel (S j1) (S j2) x1 x2 qFree) ->
  0 < distance (act (place (S j1) qFree) x1) (act (place (S j2) qFree) x2) ->
  same_orientation (place (S j1) qFree) (place (S j2) qFree) ->
  forall m v, motion m qFree v ->
  derivable_pt_lim (fun s => distance (act (place (S j1) (m s)) x1) (act (place (S j2) (m s)) x2)) 0
    (- prod (jacobian C f qFree) v).
Proof.
  intros RG E x1 x2 HJ D SO m v Hm. injection E as <-. unfold jacobian. cbn [f_J]. fold x1 x2.
  rewrite prod_row.
  set (g := fun s => relative_position place (S j1) (S j2) x1 x2 (m s)).
  pose proof (HJ m v Hm) as HD.
  assert (forall s, dot (g s) (g s) =
     dot (vsub (act (place (S j1) (m s)) x1) (act (place (S j2) (m s)) x2))
         (vsub (act (place (S j1) (m s)) x1) (act (place (S j2) (m s)) x2))) as EN.
  { intros s. unfold g, relative_position. rewrite relative_as_difference by apply RG.
    rewrite rot_inv_norm by apply RG. apply dot_neg. }
  assert (0 < dot (g 0) (g 0)) as P.
  { rewrite EN, (motion_start m qFree v Hm). rewrite distance_norm in D. unfold norm in D.
    match goal with |- 0 < ?a => destruct (Rle_lt_or_eq_dec 0 a (dot_nonneg _)) as [L|L]; [exact L|] end.
    rewrite <- L, sqrt_0 in D. lra. }
  pose proof (norm_derivative g 0 _ HD P) as H.
  assert (vsub (act_inv (place (S j2) qFree) (act (place (S j1) qFree) x1)) x2 = vsub (0, 0, 0) (g 0)) as U.
  { unfold g, relative_position. rewrite (motion_start m qFree v Hm).
    rewrite !relative_as_difference by apply RG.
    rewrite (same_rot _ _ _ SO).
    unfold rot_inv, dot, vsub, px, py, pz; cbn [fst snd]. f_equal; [f_equal|]; ring. }
  rewrite U, normalized_neg, Ropp_involutive.
  replace (vsub (g 0) (0, 0, 0)) with (g 0) by vec.
  intros eps He. destruct (H eps He) as [d Hd]. exists d. intros h Hh Hb.
  specialize (Hd h Hh Hb). rewrite !distance_norm. unfold norm in *. rewrite !EN in Hd. exact Hd.
Qed.
End F.

(* In general the direction against an obstacle is wrong: the difference is
   taken between a point in the world frame and a point in the frame of the
   joint.  A body that translates in the plane: when it moves along the
   obstacle, the distance does not change, but the function does. *)
Definition plane_place (j : nat) (q : R * R) : trsf :=
  mkT (1, 0, 0) (0, 1, 0) (0, 0, 1) (fst q, snd q, 0).
Definition plane_jac (j : nat) (x w : v3) (q : R * R) : list v3 := [(1, 0, 0); (0, 1, 0)].
Definition plane_motion (m : R -> R * R) (q : R * R) (v : list R) : Prop :=
  exists a b, v = [a; b] /\ m 0 = q /\
    derivable_pt_lim (fun s => fst (m s)) 0 a /\ derivable_pt_lim (fun s => snd (m s)) 0 b.

Lemma plane_jacobian j x w q : jacobian_of plane_motion (position plane_place j x w) q (plane_jac j x w q).
Proof.
  intros m v (a & b & -> & M0 & Ha & Hb).
  unfold v3_derivative, position, plane_place, plane_jac, mat_vec, act, rot, vsub, vadd, vscale, px, py, pz.
  cbn [fst snd t_x t_y t_z t_p].
  set (x1 := fst (fst x)). set (x2 := snd (fst x)). set (x3 := snd x).
  set (w1 := fst (fst w)). set (w2 := snd (fst w)). set (w3 := snd w).
  repeat split.
  - replace (a * 1 + (b * 0 + 0)) with (0 + a - 0) by ring.
    apply (derivable_pt_lim_minus (fun s => (x1 * 1 + (x2 * 0 + x3 * 0)) + fst (m s)) (fun _ => w1)).
    + apply (derivable_pt_lim_plus (fun _ => x1 * 1 + (x2 * 0 + x3 * 0)) (fun s => fst (m s)));
        [apply derivable_pt_lim_const|exact Ha].
    + apply derivable_pt_lim_const.
  - replace (a * 0 + (b * 1 + 0)) with (0 + b - 0) by ring.
    apply (derivable_pt_lim_minus (fun s => (x1 * 0 + (x2 * 1 + x3 * 0)) + snd (m s)) (fun _ => w2)).
    + apply (derivable_pt_lim_plus (fun _ => x1 * 0 + (x2 * 1 + x3 * 0)) (fun s => snd (m s)));
        [apply derivable_pt_lim_const|exact Hb].
    + apply derivable_pt_lim_const.
  - replace (a * 0 + (b * 0 + 0)) with 0 by ring.
    apply (derivable_pt_lim_const (x1 * 0 + (x2 * 0 + x3 * 1) + 0 - w3)).
Qed.
Lemma plane_rigid j q : rigid (plane_place j q).
Proof.
  unfold rigid, plane_place, rot, rot_inv, dot, vadd, vscale, px, py, pz. cbn [fst snd t_x t_y t_z t_p].
  split; [intros [[a b] c]; cbn [fst snd]; f_equal; [f_equal|]; ring|].
  repeat split; ring.
Qed.

Theorem C103_obstacle_refuted : exists (qFree qColl : R * R) (p : v3) f v m,
  let x := act_inv (plane_place 1 qColl) p in
  compute_jacobian (R * R) plane_place plane_jac (fun _ _ _ _ _ => []) qFree qColl None (Some 1%nat) p = Ok f /\
  0 < distance (act (plane_place 1 qFree) x) p /\ plane_motion m qFree v /\
  derivable_pt_lim (fun s => distance (act (plane_place 1 (m s)) x) p) 0 0 /\
  prod (jacobian (R * R) f qFree) v <> 0.
Proof.
  exists (- 2, 10), (0, 10), (1, 10, 0),
    (let x := act_inv (plane_place 1 (0, 10)) (1, 10, 0) in
     mkCf (R * R) (- 2, 10) (0, 10) None (Some 1%nat) (1, 10, 0)
       (row (normalized (vsub (act (plane_place 1 (- 2, 10)) x) x)) (plane_jac 1 x (1, 10, 0) (- 2, 10)))).
  exists [0; 1], (fun s => (- 2, 10 + s)). cbv zeta.
  split; [reflexivity|].
  assert (act_inv (plane_place 1 (0, 10)) (1, 10, 0) = (1, 0, 0)) as X.
  { unfold plane_place, act_inv, rot_inv, dot, vsub, px, py, pz. cbn [fst snd t_x t_y t_z t_p].
    f_equal; [f_equal|]; ring. }
  assert (forall s, act (plane_place 1 (- 2, 10 + s)) (1, 0, 0) = (- 1, 10 + s, 0)) as A.
  { intros s. unfold plane_place, act, rot, vadd, vscale, px, py, pz. cbn [fst snd t_x t_y t_z t_p].
    f_equal; [f_equal|]; ring. }
  rewrite X.
  assert (plane_motion (fun s => (- 2, 10 + s)) (- 2, 10) [0; 1]) as PM.
  { exists 0, 1. split; [reflexivity|]. split; [f_equal; ring|]. cbn [fst snd]. split.
    - apply derivable_pt_lim_const.
    - replace 1 with (0 + 1) by ring. apply (derivable_pt_lim_plus (fun _ => 10) (fun s => s));
        [apply derivable_pt_lim_const|apply derivable_pt_lim_id]. }
  split.
  { replace (- 2, 10) with (- 2, 10 + 0) by (f_equal; ring). rewrite A.
    unfold distance, px, py, pz. cbn [fst snd]. apply sqrt_lt_R0. lra. }
  split; [exact PM|]. split.
  { pose proof (plane_jacobian 1 (1, 0, 0) (1, 10, 0) (- 2, 10) _ _ PM) as H.
    apply norm_derivative in H.
    - unfold position in H.
      replace 0 with (dot (normalized (vsub (act (plane_place 1 (- 2, 10 + 0)) (1, 0, 0)) (1, 10, 0)))
         (mat_vec (plane_jac 1 (1, 0, 0) (1, 10, 0) (- 2, 10)) [0; 1])) at 2; [exact H|].
      rewrite A. rewrite normalized_pos.
      + rewrite dot_vscale. unfold dot, vsub, plane_jac, mat_vec, vadd, vscale, px, py, pz. cbn [fst snd]. ring.
      + unfold dot, vsub, px, py, pz. cbn [fst snd]. lra.
    - unfold position. rewrite A. unfold dot, vsub, px, py, pz. cbn [fst snd]. lra. }
  unfold jacobian. cbn [f_J].
  replace (- 2, 10) with (- 2, 10 + 0) by (f_equal; ring). rewrite A.
  rewrite prod_row, normalized_pos.
  - rewrite dot_vscale.
    assert (0 < norm (vsub (- 1, 10 + 0, 0) (1, 0, 0))) as N.
    { unfold norm. apply sqrt_lt_R0. unfold dot, vsub, px, py, pz. cbn [fst snd]. lra. }
    apply Rinv_0_lt_compat in N.
    assert (dot (vsub (- 1, 10 + 0, 0) (1, 0, 0)) (mat_vec (plane_jac 1 (1, 0, 0) (1, 10, 0) (- 2, 10 + 0)) [0; 1]) = 10) as ->.
    { unfold dot, vsub, plane_jac, mat_vec, vadd, vscale, px, py, pz. cbn [fst snd]. ring. }
    lra.
  - unfold dot, vsub, px, py, pz. cbn [fst snd]. lra.
Qed.

(* The hypotheses of C103_obstacle_partial: the same robot, with the joint at
   the origin of the world in the configuration in collision. *)
Example C103_example_obstacle :
  let p : v3 := (1, 0, 0) in
  act_inv (plane_place 1 (0, 0)) p = p /\
  0 < distance (act (plane_place 1 (- 2, 0)) p) p /\
  (forall x w, jacobian_of plane_motion (position plane_place 1 x w) (- 2, 0) (plane_jac 1 x w (- 2, 0))) /\
  plane_motion (fun s => (- 2 + s, 0)) (- 2, 0) [1; 0].
Proof.
  cbv zeta. split; [|split; [|split]].
  - unfold plane_place, act_inv, rot_inv, dot, vsub, px, py, pz. cbn [fst snd t_x t_y t_z t_p].
    f_equal; [f_equal|]; ring.
  - unfold plane_place, distance, act, rot, vadd, vscale, px, py, pz. cbn [fst snd t_x t_y t_z t_p].
    apply sqrt_lt_R0. lra.
  - intros. apply plane_jacobian.
  - exists 1, 0. split; [reflexivity|]. split; [f_equal; ring|]. cbn [fst snd]. split.
    + replace 1 with (0 + 1) by ring. apply (derivable_pt_lim_plus (fun _ => - 2) (fun s => s));
        [apply derivable_pt_lim_const|apply derivable_pt_lim_id].
    + apply derivable_pt_lim_const.
Qed.
(* The hypotheses of C103_bodies_partial: body 1 translates in the plane, body
   2 does not move. *)
Lemma plane_act j q a b c : act (plane_place j q) (a, b, c) = (a + fst q, b + snd q, c).
Proof.
  unfold act, rot, vadd, vscale, plane_place, px, py, pz. cbn [fst snd t_x t_y t_z t_p]. f_equal; [f_equal|]; ring.
Qed.
Lemma plane_act_inv j q a b c : act_inv (plane_place j q) (a, b, c) = (a - fst q, b - snd q, c).
Proof.
  unfold act_inv, rot_inv, vsub, dot, plane_place, px, py, pz. cbn [fst snd t_x t_y t_z t_p]. f_equal; [f_equal|]; ring.
Qed.
Definition two_place (k : nat) (q : R * R) : trsf :=
  match k with 1%nat => plane_place 1 q | _ => plane_place 1 (0, 0) end.
Example C103_example_bodies :
  let p : v3 := (1, 0, 0) in
  let x1 := act_inv (two_place 1 (0, 0)) p in
  let x2 := act_inv (two_place 2 (0, 0)) p in
  (forall k q, rigid (two_place k q)) /\
  same_orientation (two_place 1 (- 2, 0)) (two_place 2 (- 2, 0)) /\
  0 < distance (act (two_place 1 (- 2, 0)) x1) (act (two_place 2 (- 2, 0)) x2) /\
  jacobian_of plane_motion (relative_position two_place 1 2 x1 x2) (- 2, 0) [(- 1, 0, 0); (0, - 1, 0)].
Proof.
  cbv zeta. split; [|split; [|split]].
  - intros [|[|k]] q; apply plane_rigid.
  - repeat split.
  - unfold two_place. rewrite !plane_act_inv, !plane_act. unfold distance, px, py, pz. cbn [fst snd].
    apply sqrt_lt_R0. lra.
  - intros m v (a & b & -> & M0 & Ha & Hb).
    assert (forall s, relative_position two_place 1 2 (act_inv (two_place 1 (0, 0)) (1, 0, 0))
              (act_inv (two_place 2 (0, 0)) (1, 0, 0)) (m s) = (- fst (m s), - snd (m s), 0)) as E.
    { intros s. unfold relative_position, two_place. rewrite !plane_act_inv, !plane_act, !plane_act_inv.
      unfold vsub, px, py, pz. cbn [fst snd]. f_equal; [f_equal|]; ring. }
    assert (forall k g l l', (forall s, k s = g s) -> l = l' -> derivable_pt_lim g 0 l' -> derivable_pt_lim k 0 l) as X.
    { intros k g l l' EQ -> D eps He. destruct (D eps He) as [d Hd]. exists d. intros h H1 H2. rewrite (EQ (0 + h)), (EQ 0). auto. }
    unfold v3_derivative, mat_vec, vadd, vscale, px, py, pz. cbn [fst snd].
    split; [|split].
    + apply (X _ (fun s => - fst (m s)) _ (- a)); [intros s; rewrite E; reflexivity|ring|].
      exact (derivable_pt_lim_opp (fun s => fst (m s)) 0 a Ha).
    + apply (X _ (fun s => - snd (m s)) _ (- b)); [intros s; rewrite E; reflexivity|ring|].
      exact (derivable_pt_lim_opp (fun s => snd (m s)) 0 b Hb).
    + apply (X _ (fun _ => 0) _ 0); [intros s; rewrite E; reflexivity|ring|apply derivable_pt_lim_const].
Qed.
(* A collision at half of a spline of length 4 is looked for at 3 on a spline
   of length 6. *)
Example C103_example_backtrack : backtrack 2 6 4 = Some 3.
Proof.
  unfold backtrack, reqb. destruct (Req_EM_T 4 0); [lra|]. f_equal. rewrite Rmin_left; lra.
Qed.

Print Assumptions C103_backtrack.
Print Assumptions C103_create.
Print Assumptions C103_other_report.
Print Assumptions C103_update.
Print Assumptions C103_zero.
Print Assumptions C103_obstacle_partial.
Print Assumptions C103_bodies_partial.
Print Assumptions C103_obstacle_refuted.
