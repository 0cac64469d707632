(* Property theorems for C22: velocity bounds of paths. *)
From Coq Require Import Sorting.Sorted.
From Verif Require Import Base QcTac PathModel PathSpec PathProofs PathProofs3 PathProofs4 PathProofs5 PathProps
  PathVelModel PathVelSpec PathVelProofs PathVelProofs2 PathVelProofs3.
Open Scope Qc_scope.

(* velocityBound (t0, t1) returns a value, and between t0 and t1 the path never
   moves faster than this value, provided that t0 is not strictly inside a
   segment of an interpolated path.
   Missing: this last case, where the property is false
   (C22_interpolated_inside_segment_refuted); path classes whose bound is not
   piecewise linear (splines: see C42). *)
Theorem C22_velocity_bound_partial :
  forall tpb tpd (p : path1) t0 t1, movable tpb tpd p ->
    start p <= t0 -> t0 <= t1 -> t1 <= stop p -> at_waypoint p t0 t1 ->
    exists B, vbound tpb p t0 t1 = Ok B /\ speed_at_most p t0 t1 B.
Proof.
  intros tpb tpd p t0 t1 Hm H0 H01 H1 Hw.
  destruct (vbound_lip tpb tpd p Hm t0 t1 H0 H01 H1 Hw) as (B & EB & _ & _ & L).
  exists B. split; [exact EB|]. exact L.
Qed.

(* every sub-interval of a path without interpolated parts *)
Theorem C22_velocity_bound_without_interpolated :
  forall tpb tpd (p : path1) t0 t1, movable tpb tpd p -> interp_free p ->
    start p <= t0 -> t0 <= t1 -> t1 <= stop p ->
    exists B, vbound tpb p t0 t1 = Ok B /\ speed_at_most p t0 t1 B.
Proof.
  intros. apply (C22_velocity_bound_partial tpb tpd); try assumption.
  apply interp_free_waypoint; assumption.
Qed.

(* the same against the function derivative () of the API *)
Theorem C22_derivative_within_bound :
  forall tpb tpd (p : path1) t0 t1 t, movable tpb tpd p -> interp_free p ->
    start p <= t0 -> t0 <= t -> t <= t1 -> t1 <= stop p ->
    exists B d, vbound tpb p t0 t1 = Ok B /\ deriv tpd p t = Ok d /\ qabs d <= B.
Proof.
  intros tpb tpd p t0 t1 t Hm Hf H0 Ht0 Ht1 H1.
  destruct (C22_velocity_bound_without_interpolated tpb tpd p t0 t1 Hm Hf H0 ltac:(qc) H1) as (B & EB & _).
  destruct (deriv_bound tpb tpd p Hm Hf t0 t1 t B H0 Ht0 Ht1 H1 EB) as (d & Ed & W).
  exists B, d. split; [exact EB|]. split; [exact Ed|]. exact (proj1 (within_qabs d B) W).
Qed.

(* interpolated paths, from a waypoint: the derivative is bounded at every
   time before t1, and at t1 also when t1 is the end of the path *)
Theorem C22_interpolated_derivative_partial :
  forall tpb tpd (h : hdr Qc) ks t0 t1 t, movable tpb tpd (Interp h ks) -> tp h = None ->
    fst (tr h) <= t0 -> t0 < t1 -> t1 <= snd (tr h) ->
    (exists k, In k ks /\ fst k = t0) ->
    t0 <= t -> t < t1 \/ (t = t1 /\ t1 = snd (tr h)) ->
    exists B d, vbound tpb (Interp h ks) t0 t1 = Ok B /\ deriv tpd (Interp h ks) t = Ok d /\ qabs d <= B.
Proof.
  intros tpb tpd h ks t0 t1 t Hm Htp H0 H01 H1 Hk Ht0 Hc.
  assert (Hw : at_waypoint (Interp h ks) t0 t1) by (cbn [at_waypoint hd_of]; unfold param_at; rewrite Htp; exact Hk).
  destruct (C22_velocity_bound_partial tpb tpd _ t0 t1 Hm H0 ltac:(qc) H1 Hw) as (B & EB & _).
  assert (Hpr : pr h = tr h) by (destruct Hm as (_ & _ & Hl & _); cbn [hd_of] in Hl; unfold law_ok in Hl; rewrite Htp in Hl; exact Hl).
  destruct (interp_deriv_bound tpb tpd h ks t0 t1 t B Hm H0 Ht0) as (d & Ed & W); try assumption.
  - destruct Hc as [Hc|[-> _]]; [qc|apply Qcle_refl].
  - unfold param_at. rewrite Htp, Hpr. destruct Hc as [Hc|[-> Hc]]; [left; exact Hc|right; split; [exact Hc|exact H01]].
  - exists B, d. split; [exact EB|]. split; [exact Ed|]. exact (proj1 (within_qabs d B) W).
Qed.

(* ---- refutations ---- *)
Definition no_tpb : (Qc -> Qc) -> Qc -> Qc -> Qc := fun _ _ _ => 0.
Definition no_tpd : (Qc -> Qc) -> Qc -> Qc := fun _ _ => 0.

(* Between two waypoints the bound of an interpolated path is 0 although the
   path moves: lower_bound skips the segment that contains t0. *)
Theorem C22_interpolated_inside_segment_refuted :
  ~ (forall tpb tpd (p : path1) t0 t1 B, movable tpb tpd p ->
       start p <= t0 -> t0 <= t1 -> t1 <= stop p ->
       vbound tpb p t0 t1 = Ok B -> speed_at_most p t0 t1 B).
Proof.
  intros H.
  set (p := Interp (mk_hdr (qn 0, qn 4) None) [(qn 0, qn 0); (qn 4, qn 8)] : path1).
  assert (Hm : movable no_tpb no_tpd p).
  { split; [qdec|]. split; [reflexivity|]. split; [reflexivity|]. split; [repeat constructor|].
    eexists _, _. repeat split; reflexivity. }
  assert (EB : vbound no_tpb p (qn 1) (qn 2) = Ok 0) by (vm_compute; reflexivity).
  assert (E1 : eval1 p (qn 1) = Ok (Some (qn 2))) by by_show.
  assert (E2 : eval1 p (qn 2) = Ok (Some (qn 4))) by by_show.
  specialize (H no_tpb no_tpd p (qn 1) (qn 2) 0 Hm ltac:(qdec) ltac:(qdec) ltac:(qdec) EB
                (qn 1) (qn 2) (qn 2) (qn 4) ltac:(qdec) ltac:(qdec) ltac:(qdec) E1 E2).
  destruct H as [H _]. revert H. vm_compute. intros H. apply H. reflexivity.
Qed.

(* At an interior waypoint derivative () looks at the next segment, which the
   bound of an interval ending there does not include. *)
Theorem C22_derivative_at_upper_bound_refuted :
  ~ (forall tpb tpd (p : path1) t0 t1 B d, movable tpb tpd p ->
       start p <= t0 -> t0 <= t1 -> t1 <= stop p -> at_waypoint p t0 t1 ->
       vbound tpb p t0 t1 = Ok B -> deriv tpd p t1 = Ok d -> qabs d <= B).
Proof.
  intros H.
  set (p := Interp (mk_hdr (qn 0, qn 2) None) [(qn 0, qn 0); (qn 1, qn 1); (qn 2, qn 8)] : path1).
  assert (Hm : movable no_tpb no_tpd p).
  { split; [qdec|]. split; [reflexivity|]. split; [reflexivity|]. split; [repeat constructor|].
    eexists _, _. repeat split; reflexivity. }
  assert (Hw : at_waypoint p (qn 0) (qn 1)) by (exists (qn 0, qn 0); split; [left; reflexivity|reflexivity]).
  assert (EB : exists B, vbound no_tpb p (qn 0) (qn 1) = Ok B /\ B = 1).
  { eexists. split; [vm_compute; reflexivity|]. apply Qc_is_canon; reflexivity. }
  assert (ED : exists d, deriv no_tpd p (qn 1) = Ok d /\ d = qn 7).
  { eexists. split; [vm_compute; reflexivity|]. apply Qc_is_canon; reflexivity. }
  destruct EB as (B & EB & ->), ED as (d & ED & ->).
  specialize (H no_tpb no_tpd p (qn 0) (qn 1) _ _ Hm ltac:(qdec) ltac:(qdec) ltac:(qdec) Hw EB ED).
  revert H. vm_compute. intros H. apply H. reflexivity.
Qed.

(* ---- the hypotheses are met ---- *)
Lemma S_movable I a b : fst I <= snd I -> movable no_tpb no_tpd (line I a b).
Proof. intros H. split; [exact H|]. split; [reflexivity|]. split; [reflexivity|exact Logic.I]. Qed.

(* three pieces, the last one interpolated; total length 8 *)
Example C22_vector_movable : movable no_tpb no_tpd V.
Proof.
  rewrite V_shape. split; [qdec|]. split; [reflexivity|]. split; [reflexivity|]. split; [reflexivity|].
  split; [discriminate|]. split; [reflexivity|]. split; [exact V_continuous|].
  apply fold_and_Forall. constructor; [apply S_movable; qdec|]. constructor; [apply S_movable; qdec|].
  constructor; [|constructor]. split; [qdec|]. split; [reflexivity|]. split; [reflexivity|]. exact I1_knots.
Qed.
Definition q1_2 : Qc := Q2Qc (1 # 2).
Example C22_vector_waypoint : at_waypoint V q1_2 (qn 7).
Proof.
  rewrite V_shape. cbn [at_waypoint hd_of]. split; [intros; exact I|]. split; [intros; exact I|].
  split; [|exact I]. intros _ _. cbn [I1 at_waypoint hd_of].
  exists (qn 0, qn 10). split; [left; reflexivity|]. apply Qc_is_canon. reflexivity.
Qed.
(* the pieces met have slopes 2, 2, -4 (and 1): the bound is 4 *)
Example C22_vector_value : exists B, vbound no_tpb V q1_2 (qn 7) = Ok B /\ B = qn 4.
Proof. eexists. split; [vm_compute; reflexivity|]. apply Qc_is_canon; reflexivity. Qed.

(* a straight path of parameter range [0,4] followed at twice its speed *)
Definition double : Qc -> Qc := fun t => t + t.
Definition dbl_b : (Qc -> Qc) -> Qc -> Qc -> Qc := fun _ _ _ => qn 2.
Definition dbl_d : (Qc -> Qc) -> Qc -> Qc := fun _ _ => qn 2.
Definition Sd : path1 := Straight (mkH (qn 0, qn 2) (double (qn 0), double (qn 2)) None (Some double)) (qn 0) (qn 4).
Example C22_time_law_movable : movable dbl_b dbl_d Sd /\ interp_free Sd.
Proof.
  split; [|exact I]. split; [qdec|]. split; [reflexivity|]. split; [|exact I].
  cbn [hd_of Sd]. unfold law_ok. cbn [tp pr tr fst snd]. split; [reflexivity|].
  assert (E2 : qn 2 = 1 + 1) by (apply Qc_is_canon; reflexivity).
  split; [intros u v _ H _; unfold double; qc|]. split.
  - intros t0 t1 _ _ _. split; [qdec|]. intros u v _ _ _. unfold dbl_b, double. rewrite E2.
    replace (v + v - (u + u)) with ((1 + 1) * (v - u)) by ring. apply Qcle_refl.
  - intros. split; [qdec|apply Qcle_refl].
Qed.
Example C22_time_law_value : exists B, vbound dbl_b Sd q1_2 (qn 1) = Ok B /\ B = qn 2.
Proof. eexists. split; [vm_compute; reflexivity|]. apply Qc_is_canon; reflexivity. Qed.

Print Assumptions C22_velocity_bound_partial.
Print Assumptions C22_velocity_bound_without_interpolated.
Print Assumptions C22_derivative_within_bound.
Print Assumptions C22_interpolated_derivative_partial.
Print Assumptions C22_interpolated_inside_segment_refuted.
Print Assumptions C22_derivative_at_upper_bound_refuted.
