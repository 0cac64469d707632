(* C46, C47: path vectors and edition of the pairs in continuous validation *)
From Verif Require Import Base ContEditModel ContEditProofs.
From Coq Require Import Lqa.

(* ---- C47 ---- *)
(* Forward validation of any path (path vectors nested at any depth): accepted
   exactly when every elementary sub-path is; otherwise the valid part is made of
   the sub-paths before the first rejected one followed by its valid part, and
   the reported parameter is the length of those sub-paths plus the parameter
   reported for the rejected one. *)
Theorem C47_forward : forall leaf len check (p : ptree leaf),
  exists part o, tvalidate leaf len check false p = Ok (part, o) /\
  (o = None <-> forall l, In l (leaves leaf p) -> check false l = None) /\
  (o = None -> part = p) /\
  (forall t, o = Some t -> exists pre l post lp tl,
     leaves leaf p = pre ++ l :: post /\ (forall x, In x pre -> check false x = None) /\
     check false l = Some (lp, tl) /\ leaves leaf part = pre ++ [lp] /\
     (t == fold_right (fun l a => (len l + a)%Q) 0%Q pre + tl)%Q).
Proof.
  intros leaf len check p. destruct (tvalidate_forward leaf len check p) as [[part o] [H1 H2]].
  exists part, o. split; [exact H1|]. destruct o as [t|]; cbn [tspec] in H2.
  - destruct H2 as [pre [l [post [lp [tl [E1 [E2 [E3 [E4 E5]]]]]]]]]. split; [|split].
    + split; [discriminate|]. intros HA. rewrite (HA l) in E3; [discriminate|]. rewrite E1, in_app_iff. right; left; reflexivity.
    + discriminate.
    + intros t' E. injection E as <-. exists pre, l, post, lp, tl. rewrite Forall_forall in E2. auto.
  - destruct H2 as [-> H2]. rewrite Forall_forall in H2. split; [tauto|]. split; [reflexivity|discriminate].
Qed.
(* leaves: identifiers; a vector of a path and of a vector of two paths *)
Example C47_ex : tvalidate nat (fun _ => 2%Q) (fun _ l => if l =? 7 then Some (70, 1%Q) else None) false
    (Vec [Leaf 1; Vec [Leaf 2; Leaf 7]; Leaf 3]) = Ok (Vec [Leaf 1; Vec [Leaf 2; Leaf 70]], Some 5%Q).
Proof. reflexivity. Qed.
(* In reverse every path vector is read out of range. *)
Theorem C47_reverse_refuted : forall leaf len check (ps : list (ptree leaf)),
  tvalidate leaf len check true (Vec ps) = UB.
Proof. intros. exact (tvalidate_reverse leaf len check ps). Qed.
(* The reported parameter is not a parameter of the vector when the rejected
   sub-path has a parameter range that does not start at 0.  A path is given by
   its range; it is rejected in its middle. *)
Theorem C47_parameter_refuted : exists (p : ptree (Q * Q)) part t,
  let len := fun r : Q * Q => (snd r - fst r)%Q in
  tvalidate (Q * Q) len (fun _ r => if Qle_bool 2 (fst r) then Some (fst r, (5#2)%Q, (5#2)%Q) else None) false p = Ok (part, Some t) /\
  (tlen (Q * Q) len p < t)%Q.
Proof.
  exists (Vec [Leaf (0, 1); Leaf (2, 3)]%Q). eexists _, _. cbn zeta. split; [vm_compute; reflexivity|]. reflexivity.
Qed.

(* ---- C46 ---- *)
(* [paired vs x y p m]: a validator between joints x and y checks pair p with margin m *)
Definition paired (vs : list vld) (x y : nat) (p : cpair) (m : Q) : Prop :=
  exists b, In (Solid b) vs /\ ja b = x /\ jb b = y /\ In (p, m) (combine (prs b) (rqs b)).
(* vectors of pairs and requests have the same length *)
Definition parallel (vs : list vld) : Prop := forall v, In v vs -> wfv v.

(* one validator: exactly the pairs whose second object is the obstacle go *)
Theorem C46_remove_object : forall o b, length (rqs b) = length (prs b) ->
  exists b' removed, remove_object o b = Ok (b', removed) /\ ja b' = ja b /\ jb b' = jb b /\
    length (rqs b') = length (prs b') /\
    combine (prs b') (rqs b') = filter (fun e => negb (c_right (fst e) =? o)) (combine (prs b) (rqs b)) /\
    (removed = true <-> exists p, In p (prs b) /\ c_right p = o).
Proof.
  intros o b Hw. rewrite (remove_object_spec o b Hw). eexists _, _. split; [reflexivity|].
  split; [reflexivity|split; [reflexivity|split; [|split]]].
  - cbn [of_entries prs rqs]. rewrite !map_length. reflexivity.
  - cbn [of_entries prs rqs]. unfold entries. fold (keepb o). change (fun e : cpair * Q => negb (c_right (fst e) =? o)) with (keepb o).
    generalize (filter (keepb o) (combine (prs b) (rqs b))). induction l as [|[p m] l IH]; cbn [map combine fst snd]; [reflexivity|].
    rewrite IH. reflexivity.
  - rewrite negb_true_iff, <- not_true_iff_false, forallb_forall. unfold entries. split.
    + intros H. destruct (existsb (fun p => c_right p =? o) (prs b)) eqn:E.
      * apply existsb_exists in E as [p [H1 H2]]. apply Nat.eqb_eq in H2. exists p; auto.
      * exfalso. apply H. intros [p m] Hp. unfold keepb. cbn [fst]. apply in_combine_l in Hp.
        destruct (c_right p =? o) eqn:EO; [|reflexivity]. rewrite <- not_true_iff_false, existsb_exists in E. exfalso; apply E; exists p; auto.
    + intros [p [H1 H2]] H. rewrite <- (map_fst_combine (prs b) (rqs b) Hw) in H1.
      apply in_map_iff in H1 as [[p' m] [E H1]]. cbn [fst] in E. subst p'. specialize (H _ H1). unfold keepb in H. cbn [fst] in H.
      rewrite H2, Nat.eqb_refl in H. discriminate.
Qed.

Lemma touched_iff j o b : wf b -> (touched j o (Solid b) = true <-> ja b = j /\ jb b = 0 /\ exists p m, In (p, m) (entries b) /\ c_right p = o).
Proof.
  intros Hw. unfold touched, on_joint. rewrite !andb_true_iff, !Nat.eqb_eq, negb_true_iff, <- not_true_iff_false, forallb_forall.
  split.
  - intros [[H1 H2] H3]. split; [exact H1|split; [exact H2|]].
    destruct (existsb (fun e => c_right (fst e) =? o) (entries b)) eqn:E.
    + apply existsb_exists in E as [[p m] [E1 E2]]. apply Nat.eqb_eq in E2. exists p, m; auto.
    + exfalso. apply H3. intros e He. unfold keepb. destruct (c_right (fst e) =? o) eqn:EO; [|reflexivity].
      rewrite <- not_true_iff_false, existsb_exists in E. exfalso; apply E; exists e; auto.
  - intros [H1 [H2 [p [m [H3 H4]]]]]. split; [auto|]. intros H. specialize (H _ H3). unfold keepb in H. cbn [fst] in H.
    rewrite H4, Nat.eqb_refl in H. discriminate.
Qed.
Lemma entries_of b es : entries (of_entries b es) = es.
Proof. unfold entries, of_entries. cbn [prs rqs]. induction es as [|[p m] es IH]; cbn [map combine fst snd]; congruence. Qed.
Lemma stripped_entries j o b x y p m : wf b ->
  ((exists b', In (Solid b') (stripped j o (Solid b)) /\ ja b' = x /\ jb b' = y /\ In (p, m) (entries b')) <->
   ja b = x /\ jb b = y /\ In (p, m) (entries b) /\ ~ (x = j /\ y = 0 /\ c_right p = o)).
Proof.
  intros Hw. destruct (touched j o (Solid b)) eqn:ET.
  - assert (ES : stripped j o (Solid b) = match filter (keepb o) (entries b) with [] => [] | es => [Solid (of_entries b es)] end)
      by (unfold stripped; rewrite ET; reflexivity).
    apply (touched_iff j o b Hw) in ET as [T1 [T2 _]].
    assert (HF : In (p, m) (filter (keepb o) (entries b)) <-> In (p, m) (entries b) /\ c_right p <> o).
    { rewrite filter_In. unfold keepb. cbn [fst]. rewrite negb_true_iff, Nat.eqb_neq. tauto. }
    rewrite ES. destruct (filter (keepb o) (entries b)) as [|e es] eqn:EF.
    + split; [intros [b' [[] _]]|]. intros [H1 [H2 [H3 H4]]]. exfalso.
      assert (X : In (p, m) []) by (apply HF; split; [exact H3|intros HC; apply H4; subst; auto]). exact X.
    + split.
      * intros [b' [[Eb|[]] [H1 [H2 H3]]]]. injection Eb as <-. rewrite entries_of in H3. cbn [of_entries ja jb] in *.
        apply HF in H3 as [H3 H4]. repeat split; auto. tauto.
      * intros [H1 [H2 [H3 H4]]]. exists (of_entries b (e :: es)). split; [left; reflexivity|]. rewrite entries_of. cbn [of_entries ja jb].
        repeat split; auto. apply HF. split; [exact H3|]. intros HC. apply H4; subst; auto.
  - rewrite (stripped_untouched j o _ ET). rewrite <- not_true_iff_false, (touched_iff j o b Hw) in ET. split.
    + intros [b' [[Eb|[]] [H1 [H2 H3]]]]. injection Eb as <-. split; [exact H1|split; [exact H2|split; [exact H3|]]].
      intros [-> [-> HC]]. apply ET. split; [exact H1|split; [exact H2|]]. exists p, m; auto.
    + intros [H1 [H2 [H3 _]]]. exists b. split; [left; reflexivity|auto].
Qed.
Lemma stripped_in j o v b : In (Solid b) (stripped j o v) -> exists b0, v = Solid b0 /\ (b = b0 \/ prs b <> []).
Proof.
  destruct v as [b0|ps rs|i]; cbn [stripped]; [|intros [H|[]]; discriminate|intros [H|[]]; discriminate].
  destruct (touched j o (Solid b0)).
  - destruct (filter (keepb o) (entries b0)) as [|e es] eqn:E; [intros []|]. intros [H|[]]. injection H as <-.
    exists b0. split; [reflexivity|]. right. cbn. discriminate.
  - intros [H|[]]. injection H as <-. exists b0; auto.
Qed.
Lemma existsb_touched j o vs : parallel vs ->
  (existsb (touched j o) vs = true <-> exists p m, paired vs j 0 p m /\ c_right p = o).
Proof.
  intros HP. rewrite existsb_exists. split.
  - intros [[b|ps rs|i] [Hv Ht]]; [|discriminate|discriminate]. apply (touched_iff j o b (HP _ Hv)) in Ht as [H1 [H2 [p [m [H3 H4]]]]].
    exists p, m. split; [exists b; auto|exact H4].
  - intros [p [m [[b [H1 [H2 [H3 H4]]]] H5]]]. exists (Solid b). split; [exact H1|]. apply (touched_iff j o b (HP _ H1)). split; [exact H2|split; [exact H3|]].
    exists p, m; auto.
Qed.
(* Removing an obstacle from a joint, when each validator left without pair is
   followed by a validator that does not concern this joint and obstacle
   ([no_skip]): all and only the matching pairs are removed, validators left
   without pairs are dropped, the others remain in order, and the call reports
   exactly when nothing matched.
   Missing for the full property: the other cases, see the refutations. *)
Theorem C46_remove_partial : forall j o vs, parallel vs -> no_skip j o vs = true ->
  (remove_obstacle j o vs = Throw /\ (forall p m, paired vs j 0 p m -> c_right p <> o)) \/
  exists vs', remove_obstacle j o vs = Ok vs' /\
    (exists p m, paired vs j 0 p m /\ c_right p = o) /\
    (forall x y p m, paired vs' x y p m <-> paired vs x y p m /\ ~ (x = j /\ y = 0 /\ c_right p = o)) /\
    (forall b, In (Solid b) vs' -> prs b = [] -> In (Solid b) vs) /\
    filter (fun v => match v with Solid _ => false | _ => true end) vs' =
    filter (fun v => match v with Solid _ => false | _ => true end) vs.
Proof.
  intros j o vs HP HS. rewrite remove_obstacle_spec; [|apply Forall_forall; exact HP|exact HS].
  destruct (existsb (touched j o) vs) eqn:E.
  - right. eexists; split; [reflexivity|]. split; [apply (existsb_touched j o vs HP); exact E|]. split; [|split].
    + intros x y p m. split.
      * intros [b [H1 [H2 [H3 H4]]]]. apply in_flat_map in H1 as [v [Hv Hb]]. destruct (stripped_in j o v b Hb) as [b0 [-> _]].
        destruct (proj1 (stripped_entries j o b0 x y p m (HP _ Hv))) as [K1 [K2 [K3 K4]]]; [exists b; auto|].
        split; [exists b0; auto|exact K4].
      * intros [[b [H1 [H2 [H3 H4]]]] H5].
        destruct (proj2 (stripped_entries j o b x y p m (HP _ H1))) as [b' [K1 [K2 [K3 K4]]]]; [auto|].
        exists b'. split; [|auto]. apply in_flat_map. exists (Solid b); auto.
    + intros b Hb Hn. apply in_flat_map in Hb as [v [Hv Hb]]. destruct (stripped_in j o v b Hb) as [b0 [-> [->|Hx]]]; [exact Hv|contradiction].
    + clear E HS HP. induction vs as [|v vs IH]; [reflexivity|]. cbn [flat_map]. rewrite filter_app. cbn [filter]. rewrite IH.
      destruct v as [b|ps rs|i]; [|reflexivity|reflexivity]. cbn [stripped]. destruct (touched j o (Solid b)); [|reflexivity].
      destruct (filter (keepb o) (entries b)); reflexivity.
  - left. split; [reflexivity|]. intros p m Hp Hc. rewrite <- not_true_iff_false, (existsb_touched j o vs HP) in E. apply E. exists p, m; auto.
Qed.
(* Adding an obstacle to the robot and then removing it from the last joint is
   undefined, whatever the other validators (that do not involve it). *)
Theorem C46_remove_last_refuted : forall vs joints j x objs o, parallel vs ->
  (forall a b p m, paired vs a b p m -> c_right p <> o) -> ~ In j (map fst joints) ->
  remove_obstacle j o (add_obstacle (joints ++ [(j, x :: objs)]) o vs) = UB.
Proof.
  intros vs joints j x objs o HP HN HJ. unfold remove_obstacle, add_obstacle. rewrite map_app, app_assoc. cbn [map].
  rewrite remove_loop_last; [reflexivity| | | |].
  - apply Forall_forall. intros v Hv. apply in_app_iff in Hv as [Hv|Hv]; [exact (HP v Hv)|].
    apply in_map_iff in Hv as [[j' os] [<- _]]. cbn. unfold wf. cbn. rewrite !map_length. reflexivity.
  - unfold wf. cbn [prs rqs fst snd]. rewrite !map_length. reflexivity.
  - set (b := {| ja := _; jb := _; prs := _; rqs := _ |}).
    assert (HA : filter (keepb o) (entries b) = []).
    { assert (X : forall e, In e (entries b) -> keepb o e = false).
      { intros [p m] He. unfold entries in He. apply in_combine_l in He. unfold b in He. cbn [prs snd] in He. apply in_map_iff in He as [y [<- _]].
        unfold keepb. cbn [fst c_right]. rewrite Nat.eqb_refl. reflexivity. }
      induction (entries b) as [|e es IH]; [reflexivity|]. cbn [filter]. rewrite (X e (or_introl eq_refl)). apply IH. intros e' He'; apply X; right; exact He'. }
    assert (ET : touched j o (Solid b) = true).
    { unfold touched, on_joint, b. cbn [ja jb fst snd map combine entries prs rqs forallb]. unfold keepb at 1. cbn [fst c_right]. rewrite !Nat.eqb_refl. reflexivity. }
    unfold emptied, stripped. rewrite ET, HA. reflexivity.
  - rewrite existsb_app. apply orb_false_iff. split.
    + rewrite <- not_true_iff_false, (existsb_touched j o vs HP). intros [p [m [H1 H2]]]. exact (HN _ _ _ _ H1 H2).
    + rewrite <- not_true_iff_false, existsb_exists. intros [v [Hv Ht]]. apply in_map_iff in Hv as [[j' os] [<- Hv]].
      unfold touched, on_joint in Ht. cbn [ja fst] in Ht. apply andb_true_iff in Ht as [Ht _]. apply andb_true_iff in Ht as [Ht _].
      apply Nat.eqb_eq in Ht. apply HJ. apply in_map_iff. exists (j', os). auto.
Qed.
(* two consecutive validators of the same joint and obstacle (the obstacle was
   added twice to a robot with one body): the second one survives *)
Theorem C46_remove_skips_refuted : exists vs j o vs' p m, parallel vs /\
  vs = add_obstacle [(1, [10])] 9 (add_obstacle [(1, [10])] 9 []) ++ [Other 0] /\
  remove_obstacle j o vs = Ok vs' /\ paired vs' j 0 p m /\ c_right p = o.
Proof.
  set (v := Solid {| ja := 1; jb := 0; prs := [{| c_left := 10; c_right := 9 |}]; rqs := [0%Q] |}).
  exists [v; v; Other 0], 1, 9, [v; Other 0], {| c_left := 10; c_right := 9 |}, 0%Q.
  split; [|split; [reflexivity|split; [reflexivity|split; [|reflexivity]]]].
  - intros w [<-|[<-|[<-|[]]]]; cbn; auto; reflexivity.
  - eexists. split; [left; reflexivity|]. cbn. auto.
Qed.
Example C46_ex_remove : let b := {| ja := 1; jb := 0; prs := [{| c_left := 10; c_right := 9 |}; {| c_left := 10; c_right := 8 |}; {| c_left := 11; c_right := 9 |}]; rqs := [1; 2; 3]%Q |} in
  no_skip 1 9 [Solid b; Other 0] = true /\
  remove_obstacle 1 9 [Solid b; Other 0] = Ok [Solid {| ja := 1; jb := 0; prs := [{| c_left := 10; c_right := 8 |}]; rqs := [2%Q] |}; Other 0].
Proof. split; reflexivity. Qed.
Example C46_ex_remove_drop : let vs := add_obstacle [(1, [10; 11]); (2, [12])] 9 [] in
  no_skip 1 9 vs = true /\ remove_obstacle 1 9 vs = Ok (add_obstacle [(2, [12])] 9 []).
Proof. split; reflexivity. Qed.

(* Filtering with a relative motion matrix of dimension n, when every validator
   is a pair of bodies: terminates, keeps exactly the pairs of joints without
   constrained relative motion, the others go to the list of disabled pairs.
   Missing for the full property: lists with other validators. *)
Theorem C46_filter_partial : forall n rel vs disabled fuel, length vs < fuel ->
  (forall v, In v vs -> match v with Solid b => ja b < n /\ jb b < n | NoJoint _ _ => True | Other _ => False end) ->
  exists kept dis, filter_pairs n rel fuel vs disabled = Ok (kept, disabled ++ dis) /\
    kept = filter (fun v => match v with Solid b => match rel (ja b) (jb b) with Unconstrained => true | _ => false end | _ => true end) vs /\
    dis = filter (fun v => match v with Solid b => match rel (ja b) (jb b) with Unconstrained => false | _ => true end | _ => false end) vs.
Proof.
  intros n rel vs disabled fuel Hf Hv. eexists _, _. split; [apply filter_loop_spec; [exact Hf|apply Forall_forall; intros v H; exact (Hv v H)]|].
  split; [reflexivity|]. apply filter_ext. intros [b|ps rs|i]; try reflexivity. cbn. destruct (rel (ja b) (jb b)); reflexivity.
Qed.
Example C46_ex_filter : let v := fun x y => Solid {| ja := x; jb := y; prs := []; rqs := [] |} in
  filter_pairs 3 (fun x y => if x =? y + 1 then Constrained else Unconstrained) 5 [v 1 0; v 2 0; v 2 1] [] = Ok ([v 2 0], [v 1 0; v 2 1]).
Proof. reflexivity. Qed.
(* an interval validation of another kind makes the loop run forever *)
Theorem C46_filter_forever_refuted : forall n rel pre i post disabled,
  (forall v, In v pre -> match v with Solid b => ja b < n /\ jb b < n | NoJoint _ _ => True | Other _ => False end) ->
  forall fuel, filter_pairs n rel fuel (pre ++ Other i :: post) disabled = Fuel.
Proof. intros n rel pre i post disabled H fuel. apply filter_loop_forever. apply Forall_forall. exact H. Qed.

(* A margin matrix of the wrong size is refused; otherwise every pair between
   joints x and y gets the margin (x,y), the pairs being unchanged. *)
Theorem C46_margins : forall njoints rows cols mat vs, parallel vs ->
  (forall v, In v vs -> match v with Solid b => ja b <= njoints /\ jb b <= njoints | NoJoint _ _ => False | Other _ => True end) ->
  ((rows <> njoints + 1 \/ cols <> njoints + 1) -> set_margins njoints rows cols mat vs = Throw) /\
  (rows = njoints + 1 -> cols = njoints + 1 ->
   exists vs', set_margins njoints rows cols mat vs = Ok vs' /\ length vs' = length vs /\
     forall x y p m, paired vs' x y p m <-> m = mat x y /\ exists m', paired vs x y p m').
Proof.
  intros njoints rows cols mat vs HP Hv. unfold set_margins. split.
  - intros [H|H]; apply Nat.eqb_neq in H; rewrite H; cbn [negb orb]; [reflexivity|rewrite orb_true_r; reflexivity].
  - intros -> ->. rewrite Nat.eqb_refl. cbn [negb orb]. eexists. split; [apply margins_loop_spec; intros v H; specialize (Hv v H); destruct v; auto; lia|].
    split; [apply map_length|]. assert (HC : forall (ps : list cpair) (rs : list Q) (c : Q) (p : cpair) (m : Q), In (p, m) (combine ps (map (fun _ => c) rs)) <-> m = c /\ exists m', In (p, m') (combine ps rs)).
    { induction ps as [|q ps IH]; intros [|r rs] c p m; cbn [map combine In]; try solve [split; [intros []|intros [_ [m' []]]]].
      rewrite IH. split.
      - intros [E|[-> [m' H]]]; [injection E as -> ->; split; [reflexivity|exists r; auto]|split; [reflexivity|exists m'; auto]].
      - intros [-> [m' [E|H]]]; [injection E as -> ->; auto|right; split; [reflexivity|exists m'; exact H]]. }
    intros x y p m. split.
    + intros [b [H1 [H2 [H3 H4]]]]. apply in_map_iff in H1 as [[b0|ps rs|i] [E Hb]]; cbn in E; try discriminate.
      injection E as <-. cbn [ja jb prs rqs] in *. apply HC in H4 as [-> [m' H4]]. subst. split; [reflexivity|]. exists m', b0; auto.
    + intros [-> [m' [b [H1 [H2 [H3 H4]]]]]]. eexists. split; [apply in_map_iff; exists (Solid b); split; [reflexivity|exact H1]|].
      cbn [ja jb prs rqs]. subst. split; [reflexivity|split; [reflexivity|]]. apply HC. split; [reflexivity|exists m'; exact H4].
Qed.

(* Setting the margin between two bodies changes exactly the pairs of these
   bodies, in either order. *)
Theorem C46_margin_between_partial : forall a b margin vs, parallel vs ->
  exists vs', set_margin_between a b margin vs = Ok vs' /\ length vs' = length vs /\
    forall x y p m, paired vs' x y p m <->
      exists m', paired vs x y p m' /\
        m = if ((c_left p =? a) && (c_right p =? b)) || ((c_left p =? b) && (c_right p =? a)) then margin else m'.
Proof.
  intros a b margin vs HP. destruct (between_loop_spec a b margin vs true) as [f E]; [apply Forall_forall; exact HP|].
  unfold set_margin_between. rewrite E. cbn [bind orb]. eexists; split; [reflexivity|]. split; [apply map_length|].
  intros x y p m. split.
  - intros [c [H1 [H2 [H3 H4]]]]. apply in_map_iff in H1 as [[c0|ps rs|i] [Ec Hc]]; cbn [upd_vld] in Ec; try discriminate.
    injection Ec as <-. change (In (p, m) (entries (of_entries c0 (map (upd_entry a b margin) (entries c0))))) in H4.
    rewrite entries_of in H4. apply in_map_iff in H4 as [[p' m'] [Eu Hm]]. exists m'. unfold upd_entry in Eu. cbn [fst] in Eu.
    destruct (matches a b p') eqn:EM; injection Eu as -> ->; (split; [exists c0; auto|]); unfold matches in EM; rewrite EM; reflexivity.
  - intros [m' [[c [H1 [H2 [H3 H4]]]] Hm]]. exists (of_entries c (map (upd_entry a b margin) (entries c))).
    split; [apply in_map_iff; exists (Solid c); auto|]. cbn [of_entries ja jb]. split; [exact H2|split; [exact H3|]].
    change (In (p, m) (entries (of_entries c (map (upd_entry a b margin) (entries c))))). rewrite entries_of. apply in_map_iff.
    exists (p, m'). split; [|exact H4]. unfold upd_entry. cbn [fst]. destruct (matches a b p) eqn:EM; unfold matches in EM; rewrite EM in Hm; congruence.
Qed.
(* ... but it never reports that no pair of these bodies exists *)
Theorem C46_margin_silent_refuted : forall a b margin vs, parallel vs -> set_margin_between a b margin vs <> Throw.
Proof. intros a b margin vs HP E. destruct (C46_margin_between_partial a b margin vs HP) as [vs' [H _]]. congruence. Qed.
Example C46_ex_between : let b := {| ja := 1; jb := 0; prs := [{| c_left := 10; c_right := 9 |}; {| c_left := 10; c_right := 8 |}]; rqs := [1; 2]%Q |} in
  set_margin_between 8 10 7 [Solid b] = Ok [Solid {| ja := 1; jb := 0; prs := prs b; rqs := [1; 7]%Q |}].
Proof. reflexivity. Qed.

(* Initial validators: exactly the active pairs of objects on different joints,
   one validator per ordered pair of joints, none empty. *)
Theorem C46_initialize : forall gs,
  parallel (initialize gs) /\
  (forall p, (exists x y m, paired (initialize gs) x y p m) <->
     exists g, In g gs /\ g_active g = true /\ j_left g <> j_right g /\ p = {| c_left := g_left g; c_right := g_right g |}) /\
  (forall g, In g gs -> g_active g = true -> j_left g <> j_right g ->
     exists m, paired (initialize gs) (j_left g) (j_right g) {| c_left := g_left g; c_right := g_right g |} m \/
               paired (initialize gs) (j_right g) (j_left g) {| c_left := g_left g; c_right := g_right g |} m) /\
  (forall v, In v (initialize gs) -> exists b, v = Solid b /\ ja b <> jb b /\ prs b <> []).
Proof.
  intros gs. destruct (init_loop_spec gs [] (NoDup_nil _) (Forall_nil _)) as [H1 [H2 H3]]. unfold initialize.
  rewrite Forall_forall in H2.
  assert (HX : forall p b, wf b -> (In p (prs b) <-> exists m, In (p, m) (combine (prs b) (rqs b)))).
  { intros p b Hb. rewrite <- (map_fst_combine (prs b) (rqs b) Hb) at 1. rewrite in_map_iff. split.
    - intros [[p' m] [<- H]]. exists m; exact H.
    - intros [m H]. exists (p, m). auto. }
  assert (HE : forall k p, holds (init_loop gs []) k p -> exists m, paired (map (fun kb => Solid (snd kb)) (init_loop gs [])) (fst k) (snd k) p m \/
                 paired (map (fun kb => Solid (snd kb)) (init_loop gs [])) (snd k) (fst k) p m).
  { intros k p [b [Hb Hp]]. destruct (H2 _ Hb) as [K1 [K2 [K3 K4]]]. cbn [fst snd] in *. apply (HX p b K1) in Hp as [m Hp]. exists m.
    destruct K4 as [[A B]|[A B]]; [left|right]; exists b; (split; [apply in_map_iff; exists (k, b); auto|auto]). }
  split; [|split; [|split]].
  - intros v Hv. apply in_map_iff in Hv as [kb [<- Hkb]]. apply (H2 kb Hkb).
  - intros p. split.
    + intros [x [y [m [b [Hb [_ [_ Hm]]]]]]]. apply in_map_iff in Hb as [[k b'] [E Hb]]. cbn [snd] in E. injection E as ->.
      destruct (proj1 (H3 k p)) as [[b0 [[] _]]|[g [G1 [G2 [G3 [G4 G5]]]]]].
      * exists b. split; [exact Hb|]. apply in_combine_l in Hm. exact Hm.
      * exists g; auto.
    + intros [g [G1 [G2 [G3 ->]]]]. destruct (HE (j_left g, j_right g) {| c_left := g_left g; c_right := g_right g |}) as [m [H|H]].
      * apply H3. right. exists g; auto.
      * eexists _, _, m; exact H.
      * eexists _, _, m; exact H.
  - intros g G1 G2 G3. apply (HE (j_left g, j_right g)). apply H3. right. exists g; auto.
  - intros v Hv. apply in_map_iff in Hv as [kb [<- Hkb]]. exists (snd kb). split; [reflexivity|].
    destruct (H2 kb Hkb) as [K1 [K2 [K3 K4]]]. split; [|exact K2]. destruct K4 as [[-> ->]|[-> ->]]; auto.
Qed.
Example C46_ex_init : map (fun v => match v with Solid b => (ja b, jb b, length (prs b)) | _ => (0, 0, 0) end)
  (initialize [{| g_left := 10; g_right := 20; j_left := 1; j_right := 2; g_active := true |};
               {| g_left := 11; g_right := 20; j_left := 1; j_right := 2; g_active := true |};
               {| g_left := 10; g_right := 30; j_left := 1; j_right := 0; g_active := true |};
               {| g_left := 12; g_right := 20; j_left := 1; j_right := 2; g_active := false |}]) = [(2, 1, 2); (1, 0, 1)].
Proof. reflexivity. Qed.

Print Assumptions C47_forward.
Print Assumptions C47_reverse_refuted.
Print Assumptions C47_parameter_refuted.
Print Assumptions C46_remove_object.
Print Assumptions C46_remove_partial.
Print Assumptions C46_remove_last_refuted.
Print Assumptions C46_remove_skips_refuted.
Print Assumptions C46_filter_partial.
Print Assumptions C46_filter_forever_refuted.
Print Assumptions C46_margins.
Print Assumptions C46_margin_between_partial.
Print Assumptions C46_margin_silent_refuted.
Print Assumptions C46_initialize.
