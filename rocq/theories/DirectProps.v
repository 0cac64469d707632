(* C98: direct paths, edges and step by step solving. *)
From Coq Require Import List Bool Lia Arith ZArith.
From Verif Require Import Base Ext LoopModel DirectModel.
Import ListNotations.

Section Direct.
Variables config path : Type.
Variable sm : config -> config -> option path.
Variable proj : option (path -> bool * option path).
Variable val : path -> bool * option path * bool.
Notation direct_path := (direct_path config path sm proj val).
(* what is expected of the components *)
Variables first last : path -> config.
Variable valid : path -> Prop.
Definition steers : Prop := forall a b p, sm a b = Some p -> first p = a /\ last p = b.
Definition projects : Prop := forall f p b p', proj = Some f -> f p = (b, Some p') -> first p' = first p /\ (b = true -> last p' = last p).
Definition validates : Prop := forall p b p' r, val p = (b, Some p', r) -> valid p' /\ first p' = first p /\ (b = true -> last p' = last p).

(* An answer true comes with one more path, at the announced index: from the
   start to the end, and valid if it was asked for. *)
Theorem C98_true paths a b v r : steers -> projects -> validates -> direct_path paths a b v = Ok r -> d_ret _ r = true ->
  exists p, d_paths _ r = paths ++ [p] /\ d_id _ r = Some (length paths) /\ nth_error (d_paths _ r) (length paths) = Some p /\
    first p = a /\ last p = b /\ (v = true -> valid p) /\ d_report _ r = Empty.
Proof.
  intros S P V E R. unfold DirectModel.direct_path in E. destruct (sm a b) as [dp|] eqn:Es; [|injection E as <-; discriminate R]. destruct (S _ _ _ Es) as [S1 S2].
  assert (N : forall p, nth_error (paths ++ [p]) (length paths) = Some p) by (intros p; rewrite nth_error_app2, Nat.sub_diag by lia; reflexivity).
  destruct v.
  - destruct (match proj with Some f => f dp | None => (true, Some dp) end) as [pr dp1] eqn:Ep. destruct dp1 as [p1|]; [|discriminate].
    destruct (val p1) as [[pv dp2] rp] eqn:Ev. destruct dp2 as [p2|]; [|discriminate]. injection E as <-. cbn in *. apply andb_true_iff in R. destruct R as [-> ->].
    destruct (V _ _ _ _ Ev) as [V1 [V2 V3]]. specialize (V3 eq_refl).
    assert (Q : first p1 = a /\ last p1 = b).
    { destruct proj as [f|] eqn:Epr; [destruct (P f dp true p1 Epr Ep) as [P1 P2]; specialize (P2 eq_refl); split; congruence | injection Ep as <-; auto]. }
    exists p2. destruct Q. repeat split; auto; congruence.
  - injection E as <-. cbn. exists dp. repeat split; auto. discriminate.
Qed.
(* An answer false: nothing is stored if there is no path, with an explanation;
   otherwise a valid path from the start is. *)
Theorem C98_false paths a b v r : steers -> projects -> validates -> direct_path paths a b v = Ok r -> d_ret _ r = false ->
  (sm a b = None /\ d_paths _ r = paths /\ d_id _ r = None /\ d_report _ r = SteeringFailed) \/
  (v = true /\ exists p, d_paths _ r = paths ++ [p] /\ d_id _ r = Some (length paths) /\ first p = a /\ valid p).
Proof.
  intros S P V E R. unfold DirectModel.direct_path in E. destruct (sm a b) as [dp|] eqn:Es; [|injection E as <-; auto]. destruct (S _ _ _ Es) as [S1 S2]. right. destruct v; [|injection E as <-; discriminate R].
  split; [reflexivity|]. destruct (match proj with Some f => f dp | None => (true, Some dp) end) as [pr dp1] eqn:Ep. destruct dp1 as [p1|]; [|discriminate].
  destruct (val p1) as [[pv dp2] rp] eqn:Ev. destruct dp2 as [p2|]; [|discriminate]. injection E as <-. cbn. destruct (V _ _ _ _ Ev) as [V1 [V2 _]].
  exists p2. repeat split; auto. rewrite V2. destruct proj as [f|] eqn:Epr; [destruct (P f dp pr p1 Epr Ep) as [P1 _]; congruence | injection Ep as _ <-; exact S1].
Qed.
(* False is explained, if the projection succeeded ... *)
Theorem C98_explained_partial paths a b v r : direct_path paths a b v = Ok r -> d_ret _ r = false ->
  (forall f dp, proj = Some f -> sm a b = Some dp -> fst (f dp) = true) -> d_report _ r <> Empty.
Proof.
  intros E R Pr. unfold DirectModel.direct_path in E. destruct (sm a b) as [dp|] eqn:Es; [|injection E as <-; discriminate]. destruct v; [|injection E as <-; discriminate R].
  destruct (match proj with Some f => f dp | None => (true, Some dp) end) as [pr dp1] eqn:Ep. destruct dp1 as [p1|]; [|discriminate].
  assert (pr = true) by (destruct proj as [f|] eqn:Epr; [specialize (Pr f dp eq_refl eq_refl); rewrite Ep in Pr; exact Pr | injection Ep as <- _; reflexivity]). subst pr.
  destruct (val p1) as [[pv dp2] rp] eqn:Ev. destruct dp2 as [p2|]; [|discriminate]. injection E as <-. cbn in *. rewrite andb_true_r in R. subst pv. destruct rp; discriminate.
Qed.
(* ... but not when it is the projection that failed, ... *)
Theorem C98_explained_refuted paths a b dp f p1 p2 r : sm a b = Some dp -> proj = Some f -> f dp = (false, Some p1) -> val p1 = (true, Some p2, r) ->
  direct_path paths a b true = Ok {| d_ret := false; d_id := Some (length paths); d_report := Empty; d_paths := paths ++ [p2] |}.
Proof. intros Es Ep Ef Ev. unfold DirectModel.direct_path. rewrite Es, Ep, Ef, Ev. reflexivity. Qed.
(* ... and a projection that writes nothing is undefined behaviour. *)
Theorem C98_null_refuted paths a b dp f : sm a b = Some dp -> proj = Some f -> f dp = (false, None) -> direct_path paths a b true = UB.
Proof. intros Es Ep Ef. unfold DirectModel.direct_path. rewrite Es, Ep, Ef. reflexivity. Qed.

(* --------------------------------------------------------------------- edges *)
Variables node dist : Type.
Variable far : dist -> bool.
Variable nearest : config -> option (node * dist).
Notation add_edge := (add_edge config path node dist far nearest).
Definition close (q : config) (n : node) : Prop := exists d, nearest q = Some (n, d) /\ far d = false.
(* An edge is added between the nodes close to the configurations, and only
   then. *)
Theorem C98_edge edges q1 q2 p :
  (forall n1 n2, close q1 n1 -> close q2 n2 -> add_edge edges q1 q2 p = Ok (edges ++ [(n1, n2, p)])) /\
  ((forall n, ~ close q1 n) \/ (forall n, ~ close q2 n) -> add_edge edges q1 q2 p = Throw).
Proof.
  unfold DirectModel.add_edge, close. split.
  - intros n1 n2 [d1 [E1 F1]] [d2 [E2 F2]]. rewrite E1, F1, E2, F2. reflexivity.
  - intros H. destruct (nearest q1) as [[n1 d1]|] eqn:E1; [|reflexivity]. destruct (far d1) eqn:F1; [reflexivity|].
    destruct (nearest q2) as [[n2 d2]|] eqn:E2; [|reflexivity]. destruct (far d2) eqn:F2; [reflexivity|].
    exfalso. destruct H as [H|H]; [apply (H n1); exists d1; auto | apply (H n2); exists d2; auto].
Qed.
(* The path is not looked at: it may lead anywhere. *)
Theorem C98_edge_refuted edges q1 q2 p n1 n2 : close q1 n1 -> close q2 n2 -> first p <> q1 \/ last p <> q2 ->
  add_edge edges q1 q2 p = Ok (edges ++ [(n1, n2, p)]).
Proof. intros C1 C2 _. apply (proj1 (C98_edge edges q1 q2 p)); assumption. Qed.
End Direct.

(* ------------------------------------------------------------- step by step *)
Section Steps.
Variables St A : Type.
Variable start : res St.
Variable oneStep : St -> res St.
Variables reached exists_path : St -> bool.
Variable computePath : St -> res A.
Variable clock : nat -> Z.
Variable intr : nat -> bool.
Notation solve := (solve St A start oneStep reached computePath clock intr).
Notation by_steps := (by_steps St A start oneStep exists_path computePath).

Lemma loop_steps c : stopS c = true -> (forall s, reached s = exists_path s) ->
  forall fuel n s k a, loop St A oneStep reached computePath clock intr fuel c n (reached s) s = Solved k (Ok a) ->
  exists s', steps St oneStep exists_path fuel n (s, exists_path s) = Ok (k, s') /\ exists_path s' = true /\ computePath s' = Ok a.
Proof.
  intros C R. induction fuel as [|f IH]; intros n s k a H; [discriminate|]. cbn [loop] in H. cbn [steps snd fst]. rewrite <- R. destruct (reached s) eqn:Rs.
  - injection H as <- H. exists s. rewrite <- R. auto.
  - remember (if over_time (clock n) (tmo c) then 2%nat else if negb (Nat.eqb (maxI c) uint_infty) && (maxI c <=? n)%nat then 2%nat else 0%nat) as st eqn:Est.
    destruct st as [|[|[|st]]].
    + destruct (oneStep s) as [s1| | |] eqn:E1; try discriminate. destruct (intr (S n)); [discriminate|]. rewrite C in H. cbn [andb] in H.
      destruct (IH _ _ _ _ H) as [s' [E [X Y]]]. exists s'. unfold execute. rewrite E1. auto.
    + destruct (over_time (clock n) (tmo c)); [discriminate|]. destruct (negb (Nat.eqb (maxI c) uint_infty) && (maxI c <=? n)%nat); discriminate.
    + discriminate.
    + destruct (over_time (clock n) (tmo c)); [discriminate|]. destruct (negb (Nat.eqb (maxI c) uint_infty) && (maxI c <=? n)%nat); discriminate.
Qed.
(* If the target is reached exactly when the roadmap has a path, solving step by
   step takes the steps of solve () and gives its path. *)
Theorem C98_steps fuel c n a : stopS c = true -> (forall s, reached s = exists_path s) -> solve fuel c = Solved n (Ok a) -> by_steps fuel = Ok (n, a).
Proof.
  intros C R H. unfold LoopModel.solve in H. unfold DirectModel.by_steps, prepare. destruct start as [s| | |]; try discriminate. destruct (intr 0); [discriminate|].
  destruct (loop_steps c C R _ _ _ _ _ H) as [s' [E [X Y]]]. rewrite E. unfold finish. rewrite X, Y. reflexivity.
Qed.
(* For a target that is not a set of goal nodes the roadmap has no goal: the
   loop of the user does not end and finishing throws, although the target is
   reached. *)
Theorem C98_steps_refuted fuel s : (forall s, exists_path s = false) -> reached s = true ->
  (forall r, by_steps fuel <> Ok r) /\ finish St A exists_path computePath s = Throw.
Proof.
  intros N _. split.
  - intros r E. unfold DirectModel.by_steps, prepare in E. destruct start as [s0| | |]; try discriminate.
    destruct (steps St oneStep exists_path fuel 0 (s0, exists_path s0)) as [[n s1]| | |]; try discriminate. unfold finish in E. rewrite N in E. discriminate.
  - unfold finish. rewrite N. reflexivity.
Qed.
End Steps.

(* paths of the line as (first, last), projected up to 10, valid up to 5 *)
Definition demo_sm (a b : nat) : option (nat * nat) := if Nat.eqb b 99 then None else Some (a, b).
Definition demo_proj (p : nat * nat) : bool * option (nat * nat) := if snd p <=? 10 then (true, Some p) else (false, Some (fst p, 10)).
Definition demo_val (p : nat * nat) : bool * option (nat * nat) * bool := if snd p <=? 5 then (true, Some p, false) else (false, Some (fst p, 5), true).
Example components : steers nat (nat * nat) demo_sm fst snd /\ projects nat (nat * nat) (Some demo_proj) fst snd /\
  validates nat (nat * nat) demo_val fst snd (fun p => snd p <= 5).
Proof.
  split; [|split].
  - intros a b p. unfold demo_sm. destruct (Nat.eqb b 99); [discriminate|]. intros [= <-]. auto.
  - intros f p b p' [= <-]. unfold demo_proj. destruct (snd p <=? 10); intros [= <- <-]; split; try reflexivity. intros H. discriminate H.
  - intros p b p' r. unfold demo_val. destruct (Nat.leb_spec (snd p) 5); intros [= <- <- _]; cbn; repeat split; auto. intros X. discriminate X.
Qed.
Example direct_demo : direct_path nat (nat * nat) demo_sm (Some demo_proj) demo_val [(0, 0)] 1 4 true = Ok {| d_ret := true; d_id := Some 1; d_report := Empty; d_paths := [(0, 0); (1, 4)] |} /\
  direct_path nat (nat * nat) demo_sm (Some demo_proj) demo_val [(0, 0)] 1 8 true = Ok {| d_ret := false; d_id := Some 1; d_report := Explained; d_paths := [(0, 0); (1, 5)] |} /\
  direct_path nat (nat * nat) demo_sm (Some demo_proj) demo_val [(0, 0)] 1 99 true = Ok {| d_ret := false; d_id := None; d_report := SteeringFailed; d_paths := [(0, 0)] |}.
Proof. repeat split. Qed.
Example steps_demo : LoopModel.solve nat nat (Ok 0) (fun s => Ok (S s)) (fun s => 3 <=? s) (fun s => Ok (10 * s)) (fun _ => 0%Z) (fun _ => false) 9 settings0 = Solved 3 (Ok 30) /\
  by_steps nat nat (Ok 0) (fun s => Ok (S s)) (fun s => 3 <=? s) (fun s => Ok (10 * s)) 9 = Ok (3, 30).
Proof. split; reflexivity. Qed.

Print Assumptions C98_true.
Print Assumptions C98_false.
Print Assumptions C98_explained_partial.
Print Assumptions C98_explained_refuted.
Print Assumptions C98_null_refuted.
Print Assumptions C98_edge.
Print Assumptions C98_edge_refuted.
Print Assumptions C98_steps.
Print Assumptions C98_steps_refuted.
