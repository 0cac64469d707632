(* C107 *)
From Verif Require Import Base DistObjModel DistObjSpec.
Open Scope nat_scope.

Section S.
Context {O D E : Type} (distance : E -> O -> O -> D).
Notation run := (run O D E distance).

Lemma add_body_eq (object : O) inner ps : add_body O object inner ps = ps ++ map (fun i => (i, object)) inner.
Proof.
  revert ps. induction inner as [|i r IH]; intros ps; cbn [add_body map]; [rewrite app_nil_r; reflexivity|].
  rewrite IH, <- app_assoc. reflexivity.
Qed.
Lemma add_joints_eq (object : O) rb ps :
  add_joints O object rb ps = ps ++ map (fun i => (i, object)) (inner_objects rb).
Proof.
  revert ps. induction rb as [|[b|] r IH]; intros ps; cbn [add_joints inner_objects flat_map map app].
  - rewrite app_nil_r. reflexivity.
  - rewrite IH, add_body_eq, <- app_assoc, map_app. reflexivity.
  - rewrite IH. reflexivity.
Qed.
Lemma obstacles_eq rb l (s : dbo O D) : obstacles O D rb l s = mkDbo (pairs s ++ all_pairs rb l) (results s).
Proof.
  revert s. induction l as [|o l IH]; intros s; cbn [obstacles fold_left all_pairs flat_map].
  - rewrite app_nil_r. destruct s. reflexivity.
  - fold (obstacles O D rb l (add_obstacle O D rb o s)). rewrite IH. unfold add_obstacle. cbn [pairs results].
    rewrite add_joints_eq, <- app_assoc. reflexivity.
Qed.
Lemma compute_loop_eq e ps done rest : length rest = length ps ->
  compute_loop O D E distance e ps (length done) (done ++ rest)
  = Ok (done ++ map (fun p => Some (distance e (fst p) (snd p))) ps).
Proof.
  revert done rest. induction ps as [|[o1 o2] ps IH]; intros done rest L.
  - destruct rest; [|discriminate]. reflexivity.
  - destruct rest as [|x rest]; [discriminate|]. cbn [compute_loop].
    rewrite (proj2 (Nat.ltb_lt _ _)) by (rewrite app_length; cbn; lia).
    unfold set_nth. rewrite firstn_app, firstn_all, Nat.sub_diag. cbn [firstn]. rewrite app_nil_r.
    rewrite skipn_app, skipn_all2 by lia. replace (S (length done) - length done) with 1 by lia. cbn [app skipn].
    replace (S (length done)) with (length (done ++ [Some (distance e o1 o2)])) by (rewrite app_length; cbn; lia).
    change (done ++ Some (distance e o1 o2) :: rest) with (done ++ [Some (distance e o1 o2)] ++ rest).
    rewrite app_assoc, IH by (cbn in L; lia). rewrite <- app_assoc. reflexivity.
Qed.
Lemma compute_eq e (s : dbo O D) : compute_distances O D E distance e s
  = Ok (mkDbo (pairs s) (map (fun p => Some (distance e (fst p) (snd p))) (pairs s))).
Proof.
  unfold compute_distances.
  pose proof (compute_loop_eq e (pairs s) [] (resize (length (pairs s)) (results s))) as H. cbn [app length] in H.
  rewrite H; [reflexivity|]. unfold resize. rewrite app_length, firstn_length, repeat_length. lia.
Qed.

Lemma run_app s l m rb : run rb s (l ++ m) = bind (run rb s l) (fun s' => run rb s' m).
Proof. revert s. induction l as [|x l IH]; intros s; [reflexivity|]. cbn [app DistObjModel.run]. destruct (step O D E distance rb s x); cbn [bind]; auto. Qed.
Lemma run_pairs rb l : forall s, exists r, run rb s l = Ok (mkDbo (pairs s ++ all_pairs rb (given l)) r).
Proof.
  induction l as [|x l IH]; intros s.
  - exists (results s). cbn. rewrite app_nil_r. destruct s. reflexivity.
  - cbn [DistObjModel.run].
    assert (exists r, step O D E distance rb s x = Ok (mkDbo (pairs s ++ all_pairs rb (given [x])) r)) as [r ->].
    { destruct x as [o|ol|e]; cbn [step given flat_map app].
      - exists (results s). unfold add_obstacle. rewrite add_joints_eq. cbn [all_pairs flat_map]. rewrite app_nil_r. reflexivity.
      - exists (results s). rewrite obstacles_eq, app_nil_r. reflexivity.
      - rewrite compute_eq. eexists. cbn. rewrite app_nil_r. reflexivity. }
    cbn [bind]. destruct (IH (mkDbo (pairs s ++ all_pairs rb (given [x])) r)) as [r' ->]. exists r'. cbn [pairs].
    rewrite <- app_assoc. unfold all_pairs at 1 2. rewrite <- flat_map_app.
    assert (given [x] ++ given l = given (x :: l)) as -> by (cbn [given flat_map]; rewrite app_nil_r; reflexivity).
    reflexivity.
Qed.

(* At any time the pairs are all those of an inner object of the robot and of an
   obstacle given so far, obstacle after obstacle, and nothing goes wrong. *)
Theorem C107_pairs rb l : exists s, run rb (dbo0 O D) l = Ok s /\ pairs s = all_pairs rb (given l).
Proof. destruct (run_pairs rb l (dbo0 O D)) as [r E1]. eexists. split; [exact E1|]. reflexivity. Qed.

(* After a computation the results are the distances of the pairs, in the same
   order, for the present placements. *)
Theorem C107_results rb l e s : run rb (dbo0 O D) (l ++ [OpCompute e]) = Ok s ->
  pairs s = all_pairs rb (given l) /\ length (results s) = length (pairs s) /\
  forall k i o, nth_error (pairs s) k = Some (i, o) -> nth_error (results s) k = Some (Some (distance e i o)).
Proof.
  rewrite run_app. destruct (run_pairs rb l (dbo0 O D)) as [r ->]. cbn [bind DistObjModel.run step dbo0 pairs app].
  rewrite compute_eq. cbn [bind pairs]. intros [= <-]. cbn [pairs results].
  split; [reflexivity|]. split; [apply map_length|]. intros k i o H.
  rewrite (map_nth_error _ _ _ H). reflexivity.
Qed.
(* So the distance of every inner object to every obstacle is there, and
   nothing else. *)
Theorem C107_complete rb l e s : run rb (dbo0 O D) (l ++ [OpCompute e]) = Ok s -> forall d,
  In (Some d) (results s) <-> exists b i o, In (Some b) rb /\ In i b /\ In o (given l) /\ d = distance e i o.
Proof.
  intros R d. destruct (C107_results rb l e s R) as (P & L & N). split.
  - intros I. apply In_nth_error in I. destruct I as [k I].
    destruct (nth_error (pairs s) k) as [[i o]|] eqn:K.
    + rewrite (N k i o K) in I. injection I as <-.
      apply nth_error_In in K. rewrite P in K. unfold all_pairs in K. apply in_flat_map in K. destruct K as (o' & Io & K).
      apply in_map_iff in K. destruct K as (i' & [= <- <-] & Ii). unfold inner_objects in Ii. apply in_flat_map in Ii.
      destruct Ii as ([b|] & Ib & Ii); [|destruct Ii]. exists b, i', o'. auto.
    + exfalso. apply nth_error_None in K. assert (k < length (results s)) by (apply nth_error_Some; congruence). lia.
  - intros (b & i & o & Ib & Ii & Io & ->).
    assert (In (i, o) (pairs s)) as I.
    { rewrite P. unfold all_pairs. apply in_flat_map. exists o. split; [exact Io|]. apply in_map_iff. exists i. split; [reflexivity|].
      unfold inner_objects. apply in_flat_map. exists (Some b). auto. }
    apply In_nth_error in I. destruct I as [k K]. eapply nth_error_In. apply (N k i o K).
Qed.
(* Adding obstacles leaves the results alone until the next computation. *)
Theorem C107_add rb s l : (forall e, ~ In (OpCompute e) l) ->
  exists s', run rb s l = Ok s' /\ results s' = results s.
Proof.
  revert s. induction l as [|x l IH]; intros s N; [exists s; auto|]. cbn [DistObjModel.run].
  destruct x as [o|ol|e]; cbn [step bind].
  - destruct (IH (add_obstacle O D rb o s)) as (s' & R & E1); [intros e I; apply (N e); right; exact I|].
    exists s'. split; [exact R|exact E1].
  - destruct (IH (obstacles O D rb ol s)) as (s' & R & E1); [intros e I; apply (N e); right; exact I|].
    exists s'. split; [exact R|]. rewrite E1, obstacles_eq. reflexivity.
  - exfalso. apply (N e). left. reflexivity.
Qed.
End S.

Example C107_example :
  let dist e i o := e + (o - i) in
  run nat nat nat dist [Some [1; 2]; None; Some [3]] (dbo0 nat nat)
    [OpAdd 10; OpCompute 0; OpObstacles [20; 30]; OpCompute 5] =
  Ok (mkDbo [(1, 10); (2, 10); (3, 10); (1, 20); (2, 20); (3, 20); (1, 30); (2, 30); (3, 30)]
            [Some 14; Some 13; Some 12; Some 24; Some 23; Some 22; Some 34; Some 33; Some 32]).
Proof. reflexivity. Qed.

Print Assumptions C107_pairs.
Print Assumptions C107_results.
Print Assumptions C107_complete.
Print Assumptions C107_add.
