(* Whole steps of bidirectional RRT*. *)
From Verif Require Import Base Reach RoadmapModel RoadmapSpec RoadmapProofs RoadmapProofs2 RoadmapProofs3 RoadmapProofs4.
From Verif Require Import NearestModel NearestProofs PlannerModel PlannerSpec PlannerProofs PlannerProofs2 PlannerProofs3.
From Verif Require Import StarModel StarSpec StarProofs StarProofs2 StarProofs3.
From Coq Require Import Lqa.

Section S.
Context {C P : Type}.
Notation rmS := (rm C P).
Implicit Types s t : rmS.
Variable ceqb : C -> C -> bool.
Variable dist : C -> C -> Q.
Variable plen : P -> Q.
Variable prev : P -> P.
Variable V : env C P.
Variable aproj : option (C -> C * bool).
Variable mid : C -> C -> C.
Variables maxLen minLen tiny : Q.
Variable radius : nat -> Q.
Variable pop : list (label P) -> option (label P * list (label P)).
Hypothesis HH : honest ceqb prev V.
Hypothesis HW : answers V.
Hypothesis HL : forall p, (0 <= plen p)%Q.
Hypothesis HLR : forall p, (plen (prev p) == plen p)%Q.
Hypothesis HPOP : queue_ok pop.
Variable OK : P -> Prop.
Hypothesis HOKP : forall p, OKP prev V p -> OK p.
Hypothesis HREV : forall p, OK p -> OK (prev p).

Notation certified := (certified prev V).
Notation projected := (projected prev V).
Notation cost_to := (cost_to plen).
Notation tree := (@tree C P plen).
Notation lowered := (lowered plen).
Notation pm := (pmap P).
Notation sound_rm := (sound_rm ceqb dist plen prev V OK).
Notation outcome := (outcome V).
Notation buildPath := (buildPath C P plen V).
Notation extend := (extend C P ceqb dist plen prev V aproj mid maxLen minLen tiny radius).
Notation connect := (connect C P ceqb dist plen prev V aproj mid maxLen minLen tiny radius).
Notation improve := (improve C P ceqb dist plen prev V maxLen minLen tiny radius).
Notation star_step := (star_step C P ceqb dist plen prev V aproj mid maxLen minLen tiny radius pop).
Notation bst := (bst C P).
Implicit Types m : pm.

Lemma near_cc s q c : sound_rm s -> In c (live s) -> exists n d, nn_search C P dist s false q c = Some (n, d) /\ comp_of s n c.
Proof.
  intros [HB _] Hc. destruct (nearest_cc_l ceqb dist plen prev s false q c (built_weaken _ _ _ _ _ _ HB) Hc) as [n [d [H1 [H2 _]]]]. eauto.
Qed.
Lemma ball_comp s q c r n : inv s -> In c (live s) -> In n (ball_cc dist s q c r) -> comp_of s n c.
Proof.
  intros HI Hc Hn. apply (proj1 (within_ball_In _ _ _ _)) in Hn as [Hn _].
  destruct (n_of _ (w_N _ (i_wf _ HI)) c n Hc Hn) as [nd [H1 H2]]. exists nd; auto.
Qed.
Lemma comp_in s n c : inv s -> comp_of s n c -> In n (nodes s).
Proof. intros HI H. apply (cof_live s n c (w_N _ (i_wf _ HI)) H). Qed.
Lemma edges_mut s t a b : edges t = edges s -> mut t a b -> mut s a b.
Proof. intros E. apply mut_incl. rewrite E. apply incl_refl. Qed.

Definition extended s root m (x : rmS * pm * C * bool) : Prop := let '(t, m', q', b) := x in
  sound_rm t /\ sup s t /\ tree t root m' /\ lowered m m' /\ (forall n, m' n <> None -> mut t n root) /\
  (forall n, In n (nodes t) -> In n (nodes s) \/ m' n <> None) /\ (b = false -> m' = m) /\
  (b = true -> exists near nnew c, m nnew = None /\ config_of t nnew q' /\ well_placed dist plen V s root m m' q' (radius (length (nodes s))) near nnew c).
Lemma extend_ok s root m q : sound_rm s -> In root (nodes s) -> tree s root m -> exact_keys s root m ->
  outcome False (extend s root m q) (extended s root m).
Proof.
  intros HG HR HT HK. pose proof (g2_inv _ _ _ _ _ _ _ HG) as HI.
  assert (HD : forall n, m n <> None -> mut s n root).
  { intros n Hn. apply HK; [eapply tree_nodes; eassumption|exact Hn]. }
  assert (STAY : forall q', outcome False (Ok (s, m, q', false)) (extended s root m)).
  { intro q'. split; [exact HG|]. split; [apply sup_refl|]. split; [exact HT|]. split; [apply lowered_refl|]. split; [exact HD|]. split; auto. split; [reflexivity|discriminate]. }
  unfold StarModel.extend. destruct (cc_of s root HI HR) as [cc [-> [Hc1 Hc2]]]. cbn [bind].
  destruct (near_cc s q cc HG Hc2) as [near [d [-> Hn]]].
  destruct (Qlt_le_dec d tiny); [apply STAY|].
  assert (KEY : forall n, comp_of s n cc -> m n <> None).
  { intros n Hx. apply HK; [eapply comp_in; eassumption|]. apply (comp_mut ceqb dist plen prev V OK s n root cc cc HG Hx Hc1). reflexivity. }
  destruct (in_cfg s near HI (comp_in _ _ _ HI Hn)) as [qn Hqn]. rewrite (cfg_ok _ _ _ Hqn); cbn [bind].
  set (q1 := project_rand C aproj mid qn q).
  eapply sf_bind; [apply (buildPath_ok ceqb plen prev V HH HW)|].
  intros [ok op] [HP _]. cbn [fst snd] in HP |- *.
  destruct op as [path|]; [|apply STAY]. destruct (HP path eq_refl) as [P1 [P2 [P3 _]]]. specialize (P3 eq_refl).
  destruct (Qlt_le_dec (plen path) minLen); [apply STAY|].
  set (qe := e_end V path).
  destruct (t_cost _ _ _ _ HT near (KEY near Hn)) as [c0 Hc0].
  rewrite (cost_of_ok plen s root m near c0 HI HR HT Hc0); cbn [bind].
  assert (J : joins prev V s qe near path) by (split; [rewrite P1; exact Hqn|split; [reflexivity|exact P2]]).
  eapply sf_bind.
  { apply (choose_ok ceqb plen prev V HH HW s root m qe near path None HI HR HT); [left; reflexivity|exact J|exact P3| | |].
    - intros n Hx. apply KEY. eapply ball_comp; eassumption.
    - split; [exists c0; auto|split; assumption].
    - left; reflexivity. }
  intros [paths c] [A1 [_ [A3 [A4 A5]]]].
  destruct (s_addNode ceqb dist plen prev V HH OK s qe HG) as [nnew [s1 [-> [B1 [B2 [B3 [B4 B5]]]]]]]. cbn [bind].
  eapply sf_bind.
  { apply (insert_ok ceqb dist plen prev V HH HL HLR OK HOKP HREV s1 root m qe); [exact B1|eapply sup_in; eassumption|eapply sup_tree; eassumption|exact B3| |].
    - destruct c as [[cost best] p]. destruct A1 as [X1 [X2 X3]]. split; [exact X1|]. split; [eapply joins_sup; eassumption|exact X3].
    - intros n x Hx. destruct (A3 n x Hx) as [X1 X2]. split; [exact X1|]. intros p Hp. destruct (X2 p Hp) as [Y1 Y2].
      split; [eapply joins_sup; eassumption|exact Y2]. }
  intros [[t m'] b] [D1 [D2 [D3 [D4 [D5 [D6 [[k [D7 D8]] [D10 [D9 D11]]]]]]]]]. cbn [StarSpec.outcome].
  assert (ST : sup s t) by (eapply sup_trans; eassumption).
  split; [exact D1|]. split; [exact ST|]. split; [exact D4|]. split; [exact D5|]. split; [|split; [|split; [exact D9|]]].
  - intros n Hx. apply D6 in Hx as [Hx| ->]; [eapply sup_mut; [exact ST|auto]|].
    eapply mut_trans; [apply mut_sym; exact D8|]. eapply sup_mut; [exact ST|auto].
  - intros n Hx. rewrite D3 in Hx. apply B5 in Hx as [Hx| ->]; [auto|]. right. apply D6. auto.
  - intro Eb. destruct (D11 Eb) as [E1 E2]. exists near, nnew, (costof c). split; [apply D10; exact Eb|].
    split; [exact (sup_cfg _ _ _ _ D2 B3)|]. split; [exact E1|]. intros n qx cn p Nn Hq Hm Hd Hcn Ht0. pose proof (trial_of plen V _ _ _ Ht0) as Ht.
    assert (Hin : In n (ball_cc dist s qe cc (radius (length (nodes s))))).
    { apply within_ball_In. split.
      2: { destruct Hq as [nd [N1 N2]]. unfold node_dist. rewrite N1, N2. exact Hd. }
      assert (X : In n (nodes s)) by (eapply cfg_in; eassumption).
      destruct (cc_of s n HI X) as [c' [_ [Y1 Y2]]].
      apply (proj2 (comp_mut ceqb dist plen prev V OK s n root c' cc HG Y1 Hc1)) in Hm. subst c'.
      destruct Y1 as [nd [N1 N2]]. rewrite <- N2. apply (n_cc _ (w_N _ (i_wf _ HI)) n nd N1). }
    split; [exact (A4 n qx cn p Hin Nn Hq Hcn Ht)|]. destruct (A5 n qx p Hin Nn Hq Ht) as [ran Hr]. eapply E2; [exact Hr|apply Ht].
Qed.

(* ----------------------------------------------------------------- invariant *)
Notation two_trees := (two_trees ceqb dist plen prev V OK).

Definition covered s r0 r1 : Prop := forall n, In n (nodes s) -> mut s n r0 \/ mut s n r1.
Lemma live_two s r0 r1 : sound_rm s -> In r0 (nodes s) -> In r1 (nodes s) -> covered s r0 r1 ->
  if length (live s) =? 2 then ~ mut s r0 r1 else mut s r0 r1.
Proof.
  intros HG H0 H1 HC. pose proof (g2_inv _ _ _ _ _ _ _ HG) as HI. pose proof (w_N _ (i_wf _ HI)) as HN.
  destruct (cof_ex s r0 HN H0) as [c0 [E0 L0]]. destruct (cof_ex s r1 HN H1) as [c1 [E1 L1]].
  pose proof (built_weaken _ _ _ _ _ _ (proj1 HG)) as HB.
  assert (ND : NoDup (live s)) by apply (w_G _ (i_wf _ HI)).
  assert (INC : incl (live s) [c0; c1]).
  { intros c Hc. pose proof (n_ne _ HN c Hc) as Hne. destruct (cnodes (cinfo s c)) as [|a l] eqn:Ea; [congruence|].
    destruct (n_of _ HN c a Hc) as [nd [X1 X2]]; [rewrite Ea; left; reflexivity|].
    assert (Ha : comp_of s a c) by (exists nd; auto).
    destruct (HC a (comp_in _ _ _ HI Ha)) as [M|M].
    - left. symmetry. apply (comp_mut ceqb dist plen prev V OK s a r0 c c0 HG Ha E0); exact M.
    - right; left. symmetry. apply (comp_mut ceqb dist plen prev V OK s a r1 c c1 HG Ha E1); exact M. }
  pose proof (comp_mut ceqb dist plen prev V OK s r0 r1 c0 c1 HG E0 E1) as HM.
  destruct (Nat.eqb_spec (length (live s)) 2) as [El|El].
  - intro M. apply HM in M. subst c1.
    assert (length (live s) <= length [c0]); [|cbn [length] in *; lia].
    apply NoDup_incl_length; [exact ND|]. intros c Hc. destruct (INC c Hc) as [X|[X|[]]]; left; exact X.
  - apply HM. destruct (Nat.eqb_spec c0 c1) as [E|N]; [exact E|exfalso].
    assert (length (live s) <= length [c0; c1]) by (apply NoDup_incl_length; assumption).
    assert (length [c0; c1] <= length (live s)).
    { apply NoDup_incl_length; [constructor; [intros [X|[]]; congruence|constructor; [intros []|constructor]]|].
      intros c [<-|[<-|[]]]; assumption. }
    cbn [length] in *; lia.
Qed.

(* one of the trees grows *)
Lemma grow_keys s t r r' m m' m2 : sound_rm s -> In r (nodes s) -> In r' (nodes s) -> covered s r r' ->
  tree s r m -> exact_keys s r m -> exact_keys s r' m2 ->
  sup s t -> lowered m m' -> (forall n, m' n <> None -> mut t n r) ->
  (forall n, In n (nodes t) -> In n (nodes s) \/ m' n <> None) -> tree t r m' ->
  tree s r' m2 ->
  covered t r r' /\ (~ mut t r r' -> exact_keys t r m' /\ exact_keys t r' m2).
Proof.
  intros HG HR HR' HC HT HK HK2 HS HLo HD HN HT' HT2. pose proof (g2_inv _ _ _ _ _ _ _ HG) as HI. split.
  - intros n Hn. destruct (HN n Hn) as [X|X]; [|left; auto].
    destruct (HC n X) as [M|M]; [left|right]; eapply sup_mut; eassumption.
  - intro NM. split; intros n Hn.
    + split; [apply HD|]. intro M. destruct (HN n Hn) as [X|X]; [|exact X].
      destruct (HC n X) as [M1|M1].
      * eapply lowered_key; [exact HT|exact HLo|]. apply HK; assumption.
      * exfalso. apply NM. eapply mut_trans; [apply mut_sym; exact M|]. eapply sup_mut; eassumption.
    + split.
      * intro X. eapply sup_mut; [exact HS|]. apply HK2; [eapply (tree_nodes plen s r' m2); eassumption|exact X].
      * intro M. destruct (HN n Hn) as [X|X].
        -- destruct (HC n X) as [M1|M1]; [|apply HK2; assumption]. exfalso. apply NM.
           eapply mut_trans; [|exact M]. apply mut_sym. eapply sup_mut; eassumption.
        -- exfalso. apply NM. eapply mut_trans; [|exact M]. apply mut_sym. auto.
Qed.

(* connect: the tree of r1 grows until it meets the other one *)
Lemma connect_ok r0 r1 m0 q fuel : forall s m1, sound_rm s -> In r0 (nodes s) -> In r1 (nodes s) -> covered s r0 r1 ->
  tree s r0 m0 -> tree s r1 m1 -> (~ mut s r0 r1 -> exact_keys s r0 m0 /\ exact_keys s r1 m1) ->
  outcome True (connect fuel s r1 m1 q) (fun '(t, m1') =>
    sound_rm t /\ sup s t /\ covered t r0 r1 /\ tree t r1 m1' /\ lowered m1 m1' /\
    (~ mut t r0 r1 -> exact_keys t r0 m0 /\ exact_keys t r1 m1')).
Proof.
  induction fuel as [|f IH]; intros s m1 HG H0 H1 HC T0 T1 HK; cbn [StarModel.connect];
    pose proof (live_two s r0 r1 HG H0 H1 HC) as HL2; destruct (length (live s) =? 2);
    try (cbn [StarSpec.outcome]; split; [exact HG|]; split; [apply sup_refl|]; split; [exact HC|]; split; [exact T1|]; split; [apply lowered_refl|exact HK]).
  - exact I.
  - destruct (HK HL2) as [K0 K1].
    eapply sf_bind; [eapply sf_weak; [|apply (extend_ok s r1 m1 q HG H1 T1 K1)]; tauto|].
    intros [[[t m1'] q'] b] [A1 [A2 [A3 [A4 [A5 [A6 A7]]]]]].
    assert (HC' : covered s r1 r0) by (intros n Hn; destruct (HC n Hn); auto).
    destruct (grow_keys s t r1 r0 m1 m1' m0 HG H1 H0 HC' T1 K1 K0 A2 A4 A5 A6 A3 T0) as [G1 G2].
    assert (G1' : covered t r0 r1) by (intros n Hn; destruct (G1 n Hn); auto).
    assert (G2' : ~ mut t r0 r1 -> exact_keys t r0 m0 /\ exact_keys t r1 m1').
    { intro N. destruct G2 as [X Y]; [intro M; apply N, mut_sym; exact M|auto]. }
    destruct b.
    + eapply sf_mono; [apply IH|].
      * exact A1.
      * eapply sup_in; eassumption.
      * eapply sup_in; eassumption.
      * exact G1'.
      * eapply sup_tree; eassumption.
      * exact A3.
      * exact G2'.
      * intros [u m2] [B1 [B2 [B3 [B4 [B5 B6]]]]]. split; [exact B1|]. split; [eapply sup_trans; eassumption|].
        split; [exact B3|]. split; [exact B4|]. split; [eapply lowered_trans; eassumption|exact B6].
    + cbn [StarSpec.outcome]. split; [exact A1|]. split; [exact A2|]. split; [exact G1'|]. split; [exact A3|]. split; [exact A4|exact G2'].
Qed.

(* ------------------------------------------------------------------- improve *)
Definition placed s m q nearQ nnew nears m' : Prop := exists c, cost_to m' nnew c /\
  forall n qn cn p, In n nears -> n <> nearQ -> config_of s n qn -> cost_to m n cn -> StarSpec.trial V q qn p ->
    (c <= cn + plen p)%Q /\ exists c', cost_to m' n c' /\ (c' <= c + plen p)%Q.
Definition improved s root m q nearQ nnew nears (x : rmS * pm) : Prop := let '(t, m') := x in
  (m nnew <> None -> m' = m) /\ (m nnew = None -> placed s m q nearQ nnew nears m') /\
  sound_rm t /\ sup s t /\ nodes t = nodes s /\ tree t root m' /\ lowered m m' /\
  (forall x, m' x <> None <-> m x <> None \/ x = nnew) /\ (exists k, m k <> None /\ mut t k nnew).
Lemma improve_map_ok s root m q nnew nearQ path nears : sound_rm s -> In root (nodes s) -> tree s root m -> config_of s nnew q ->
  m nearQ <> None -> joins prev V s q nearQ path -> certified path -> (forall n, In n nears -> m n <> None) ->
  outcome False (improve_map C P plen prev V s m nnew q nearQ path nears) (improved s root m q nearQ nnew nears).
Proof.
  intros HG HR HT Hq Kn HJ HC HN. pose proof (g2_inv _ _ _ _ _ _ _ HG) as HI. unfold improve_map.
  destruct (t_cost _ _ _ _ HT nearQ Kn) as [c0 Hc0]. rewrite (cost_of_ok plen s root m nearQ c0 HI HR HT Hc0); cbn [bind].
  eapply sf_bind.
  { apply (choose_ok ceqb plen prev V HH HW s root m q nearQ path (Some (nearQ, path)) HI HR HT); [right; reflexivity|exact HJ|exact HC|exact HN| |left; reflexivity].
    split; [exists c0; auto|split; assumption]. }
  intros [paths c] [A1 [_ [A3 [A4 A5]]]].
  eapply sf_bind; [apply (insert_ok ceqb dist plen prev V HH HL HLR OK HOKP HREV s root m q); eassumption|].
  intros [[t m'] b] [D1 [D2 [D3 [D4 [D5 [D6 [D7 [D8 [D9 D10]]]]]]]]]. cbn [StarSpec.outcome improved].
  split; [|split].
  - intro N. apply D9. destruct b; [|reflexivity]. exfalso. apply N, D8. reflexivity.
  - intro N. destruct (D10 (proj2 D8 N)) as [E1 E2]. exists (costof c). split; [exact E1|].
    intros n qx cn p Hin Nn Hqx Hcn Ht0. pose proof (trial_of plen V _ _ _ Ht0) as Ht.
    split; [exact (A4 n qx cn p Hin Nn Hqx Hcn Ht)|]. destruct (A5 n qx p Hin Nn Hqx Ht) as [ran Hr]. eapply E2; [exact Hr|apply Ht].
  - auto 10.
Qed.

(* st after [improve], [x] *)
Definition bettered (st x : bst) : Prop :=
  two_trees x /\ sup (br _ _ st) (br _ _ x) /\ root0 _ _ x = root0 _ _ st /\ root1 _ _ x = root1 _ _ st /\
  full (br _ _ x) (map0 _ _ x) /\ full (br _ _ x) (map1 _ _ x) /\
  lowered (map0 _ _ st) (map0 _ _ x) /\ lowered (map1 _ _ st) (map1 _ _ x) /\
  ((map0 _ _ x = map0 _ _ st /\ map1 _ _ x = map1 _ _ st) \/
   exists q near nnew c0 c1, config_of (br _ _ x) nnew q /\ ~ In nnew (nodes (br _ _ st)) /\
     well_placed dist plen V (br _ _ st) (root0 _ _ st) (map0 _ _ st) (map0 _ _ x) q (radius (length (nodes (br _ _ st)))) near nnew c0 /\
     well_placed dist plen V (br _ _ st) (root1 _ _ st) (map1 _ _ st) (map1 _ _ x) q (radius (length (nodes (br _ _ st)))) near nnew c1).
Lemma improve_ok st q : two_trees st -> mut (br _ _ st) (root0 _ _ st) (root1 _ _ st) ->
  full (br _ _ st) (map0 _ _ st) -> full (br _ _ st) (map1 _ _ st) ->
  outcome False (improve st q) (bettered st).
Proof.
  destruct st as [s r0 r1 m0 m1]. intros HV. destruct HV as [HG H0 H1 HC T0 T1 HK2 HK1]. cbn [br root0 root1 map0 map1] in *.
  intros HM F0 F1. pose proof (g2_inv _ _ _ _ _ _ _ HG) as HI.
  assert (HV : two_trees (mkB _ _ s r0 r1 m0 m1)) by (split; assumption).
  assert (STAY : outcome False (Ok (mkB _ _ s r0 r1 m0 m1)) (bettered (mkB _ _ s r0 r1 m0 m1))).
  { split; [exact HV|]. cbn [br root0 root1 map0 map1]. split; [apply sup_refl|]. repeat (split; [first [reflexivity|assumption]|]). split; [apply lowered_refl|]. split; [apply lowered_refl|]. left; auto. }
  unfold StarModel.improve. cbn [br root0 root1 map0 map1].
  pose proof (nearestNode_best dist s false q (w_N _ (i_wf _ HI))) as HB.
  destruct (nearestNode C P dist s false q) as [[nearQ d]|]; [|rewrite HB in H0; destruct H0].
  destruct HB as [HN _]. destruct (Qlt_le_dec d tiny); [apply STAY|].
  destruct (in_cfg s nearQ HI HN) as [qn Hqn]. rewrite (cfg_ok _ _ _ Hqn); cbn [bind].
  eapply sf_bind; [apply (buildPath_ok ceqb plen prev V HH HW)|].
  intros [ok op] [HP _]. cbn [fst snd] in HP |- *.
  destruct op as [path|]; [|apply STAY]. destruct (HP path eq_refl) as [P1 [P2 [P3 _]]]. specialize (P3 eq_refl).
  destruct (Qlt_le_dec (plen path) minLen); [apply STAY|].
  set (qe := e_end V path).
  destruct (cc_of s r0 HI H0) as [cc [-> [Hc1 Hc2]]]. cbn [bind].
  set (nears := ball_cc dist s qe cc (radius (length (nodes s)))).
  assert (HNE : forall n, In n nears -> In n (nodes s)).
  { intros n Hn. eapply comp_in; [exact HI|]. eapply ball_comp; eassumption. }
  assert (J : joins prev V s qe nearQ path) by (split; [rewrite P1; exact Hqn|split; [reflexivity|exact P2]]).
  destruct (s_addNode ceqb dist plen prev V HH OK s qe HG) as [nnew [s1 [-> [B1 [B2 [B3 [B4 B5]]]]]]]. cbn [bind].
  eapply sf_bind.
  { apply (improve_map_ok s1 r0 m0); [exact B1|eapply sup_in; eassumption|eapply sup_tree; eassumption|exact B3|auto|eapply joins_sup; eassumption|exact P3|auto]. }
  intros [s2 m0'] [U0 [W0 [D1 [D2 [D3 [D4 [D5 [D6 [k0 [D7 D8]]]]]]]]]].
  assert (S12 : sup s s2) by (eapply sup_trans; eassumption).
  eapply sf_bind.
  { apply (improve_map_ok s2 r1 m1); [exact D1|eapply sup_in; eassumption|eapply sup_tree; eassumption|exact (sup_cfg _ _ _ _ D2 B3)|auto|eapply joins_sup; eassumption|exact P3|auto]. }
  intros [t m1'] [U1 [W1 [G1 [G2 [G3 [G4 [G5 [G6 _]]]]]]]]. cbn [StarSpec.outcome].
  assert (ST : sup s t) by exact (sup_trans _ _ _ S12 G2).
  assert (HN2 : forall n, In n (nodes t) -> In n (nodes s) \/ n = nnew) by (intros n Hn; apply B5; congruence).
  assert (FF0 : full t m0') by (intros n Hn; apply D6; destruct (HN2 n Hn); [left; auto|right; assumption]).
  assert (FF1 : full t m1') by (intros n Hn; apply G6; destruct (HN2 n Hn); [left; auto|right; assumption]).
  assert (HMt : mut t r0 r1) by (eapply sup_mut; eassumption).
  assert (CT : covered t r0 r1).
  { intros n Hn. destruct (HN2 n Hn) as [X| ->].
    - destruct (HC n X) as [M|M]; [left|right]; eapply sup_mut; eassumption.
    - assert (X : In k0 (nodes s)) by exact (tree_nodes plen s r0 m0 k0 HI H0 T0 D7).
      assert (M0 : mut t k0 nnew) by exact (sup_mut _ _ _ _ G2 D8).
      destruct (HC k0 X) as [M|M]; [left|right]; (eapply mut_trans; [apply mut_sym; exact M0|eapply sup_mut; eassumption]). }
  split; [|cbn [br root0 root1 map0 map1]; split; [exact ST|]; split; [reflexivity|]; split; [reflexivity|]; split; [exact FF0|]; split; [exact FF1|]; split; [exact D5|]; split; [exact G5|]].
  2: { destruct (in_dec Nat.eq_dec nnew (nodes s)) as [Hi|Hi]; [left; split; auto|right].
       assert (X0 : m0 nnew = None) by (destruct (m0 nnew) eqn:E; [|reflexivity]; exfalso; apply Hi, (tree_nodes plen s r0 m0 nnew HI H0 T0); congruence).
       assert (X1 : m1 nnew = None) by (destruct (m1 nnew) eqn:E; [|reflexivity]; exfalso; apply Hi, (tree_nodes plen s r1 m1 nnew HI H1 T1); congruence).
       destruct (W0 X0) as [c0 [Y0 Z0]], (W1 X1) as [c1 [Y1 Z1]]. exists qe, nearQ, nnew, c0, c1.
       split; [exact (sup_cfg _ _ _ _ G2 (sup_cfg _ _ _ _ D2 B3))|]. split; [exact Hi|].
       assert (NR : forall n qx, config_of s n qx -> mut s n r0 -> (dist qx qe < radius (length (nodes s)))%Q -> In n nears).
       { intros n qx Hq Hm Hd. apply within_ball_In. split.
         2: { destruct Hq as [nd [N1 N2]]. unfold node_dist. rewrite N1, N2. exact Hd. }
         assert (X : In n (nodes s)) by (eapply cfg_in; eassumption).
         destruct (cc_of s n HI X) as [c' [_ [V1 V2]]].
         apply (proj2 (comp_mut ceqb dist plen prev V OK s n r0 c' cc HG V1 Hc1)) in Hm. subst c'.
         destruct V1 as [nd [N1 N2]]. rewrite <- N2. apply (n_cc _ (w_N _ (i_wf _ HI)) n nd N1). }
       split; (split; [assumption|]); intros n qx cn p Nn Hq Hm Hd Hcn Ht.
       - apply (Z0 n qx cn p); auto; [eapply NR; eassumption|exact (sup_cfg _ _ _ _ B2 Hq)].
       - apply (Z1 n qx cn p); auto; [eapply NR; [exact Hq|eapply mut_trans; [exact Hm|apply mut_sym; exact HM]|exact Hd]|exact (sup_cfg _ _ _ _ S12 Hq)]. }
  split; cbn [br root0 root1 map0 map1].
  - exact G1.
  - eapply sup_in; eassumption.
  - eapply sup_in; eassumption.
  - exact CT.
  - exact (sup_tree plen _ _ _ _ G2 D4).
  - exact G4.
  - intro N; contradiction.
  - intros _. right. intros n Hn. split; auto.
Qed.

(* ---------------------------------------------------------------------- step *)
Notation cheaper := (cheaper plen).
Definition stepped (st x : bst) : Prop :=
  two_trees x /\ sup (br _ _ st) (br _ _ x) /\
  ((root0 _ _ x = root0 _ _ st /\ root1 _ _ x = root1 _ _ st) \/ (root0 _ _ x = root1 _ _ st /\ root1 _ _ x = root0 _ _ st)) /\
  (length (live (br _ _ st)) = 2 \/ map1 _ _ st (root0 _ _ st) <> None -> cheaper st x) /\
  (length (live (br _ _ st)) <> 2 -> full (br _ _ x) (map0 _ _ x) /\ full (br _ _ x) (map1 _ _ x)).
Lemma step_good fuel st q : two_trees st -> outcome True (star_step fuel st q) (stepped st).
Proof.
  intros HV. pose proof (live_two _ _ _ (v_good _ HV) (v_r0 _ HV) (v_r1 _ HV) (v_cov _ HV)) as HL2.
  pose proof HV as [HG H0 H1 HC T0 T1 HK2 HK1]. pose proof (g2_inv _ _ _ _ _ _ _ HG) as HI.
  unfold StarModel.star_step. destruct (Nat.eqb_spec (length (live (br C P st))) 2) as [El|El].
  - destruct (HK2 HL2) as [K0 K1].
    destruct st as [s r0 r1 m0 m1]; cbn [br root0 root1 map0 map1] in *.
    eapply sf_bind; [eapply sf_weak; [|apply (extend_ok s r0 m0 q HG H0 T0 K0)]; tauto|].
    intros [[[t m0'] q'] b] [A1 [A2 [A3 [A4 [A5 [A6 A7]]]]]].
    destruct (grow_keys s t r0 r1 m0 m0' m1 HG H0 H1 HC T0 K0 K1 A2 A4 A5 A6 A3 T1) as [G1 G2].
    assert (H0t : In r0 (nodes t)) by (eapply sup_in; eassumption).
    assert (H1t : In r1 (nodes t)) by (eapply sup_in; eassumption).
    assert (T1t : tree t r1 m1) by (eapply sup_tree; eassumption).
    assert (St : outcome True (Ok (mkB _ _ t r0 r1 m0' m1)) (stepped (mkB _ _ s r0 r1 m0 m1))).
    { split; [|split; [exact A2|]].
      - split; cbn [br root0 root1 map0 map1]; auto.
        intros _. left. destruct (m1 r0) as [x|] eqn:Ex; [|reflexivity]. exfalso. apply HL2.
        apply K1; [exact H0|congruence].
      - cbn [br root0 root1 map0 map1]. split; [left; split; reflexivity|]. split; [|contradiction].
        intros _. left. cbn [root0 root1 map0 map1]. split; [reflexivity|]. split; [reflexivity|]. split; [exact A4|apply lowered_refl]. }
    destruct b.
    + pose proof (g2_inv _ _ _ _ _ _ _ A1) as HIt.
      destruct (cc_of t r0 HIt H0t) as [c0 [-> [X0 Y0]]]. cbn [bind].
      destruct (cc_of t r1 HIt H1t) as [c1 [-> [X1 Y1]]]. cbn [bind].
      pose proof (comp_mut ceqb dist plen prev V OK t r0 r1 c0 c1 A1 X0 X1) as HM.
      destruct (Nat.eqb_spec c0 c1) as [Ec|Nc]; [exact St|].
      assert (NM : ~ mut t r0 r1) by (intro M; apply Nc, HM; exact M).
      eapply sf_bind; [apply (connect_ok r0 r1 m0' q' fuel t m1); auto|].
      intros [u m1'] [B1 [B2 [B3 [B4 [B5 B6]]]]]. cbn [StarSpec.outcome].
      split; [|split; [cbn [br]; eapply sup_trans; eassumption|]].
      * split; cbn [br root0 root1 map0 map1].
        -- exact B1.
        -- eapply sup_in; eassumption.
        -- eapply sup_in; eassumption.
        -- intros n Hn. destruct (B3 n Hn); auto.
        -- exact B4.
        -- eapply sup_tree; eassumption.
        -- intro N. destruct B6 as [Z1 Z2]; [intro M; apply N, mut_sym; exact M|auto].
        -- intros _. left. destruct (m0' r1) as [x|] eqn:Ex; [|reflexivity]. exfalso. apply NM, mut_sym.
           apply A5. congruence.
      * cbn [br root0 root1 map0 map1]. split; [right; split; reflexivity|]. split; [|contradiction].
        intros _. right. cbn [root0 root1 map0 map1]. split; [reflexivity|]. split; [reflexivity|]. split; [exact A4|exact B5].
    + cbn [StarSpec.outcome]. split; [|split; [exact A2|]].
      * split; cbn [br root0 root1 map0 map1]; auto.
        -- intros n Hn. destruct (G1 n Hn); auto.
        -- intro N. destruct G2 as [Z1 Z2]; [intro M; apply N, mut_sym; exact M|auto].
        -- intros M. (* the trees cannot meet without a new node in the map *)
           left. destruct (m0' r1) as [x|] eqn:Ex; [|reflexivity]. exfalso. rewrite (proj1 A7 eq_refl) in Ex.
           apply HL2, mut_sym, K0; [exact H1|congruence].
      * cbn [br root0 root1 map0 map1]. split; [right; split; reflexivity|]. split; [|contradiction].
        intros _. right. cbn [root0 root1 map0 map1]. split; [reflexivity|]. split; [reflexivity|]. split; [exact A4|apply lowered_refl].
  - assert (KEEP : outcome True (bind (match map1 C P st (root0 C P st) with
          | Some _ => Ok (map0 C P st, map1 C P st)
          | None => bind (computeParentMap C P plen pop fuel (br C P st) (root0 C P st)) (fun m0 =>
                    bind (computeParentMap C P plen pop fuel (br C P st) (root1 C P st)) (fun m1 => Ok (m0, m1)))
          end) Ok) (fun '(m0, m1) => tree (br C P st) (root0 C P st) m0 /\ tree (br C P st) (root1 C P st) m1 /\
             full (br C P st) m0 /\ full (br C P st) m1 /\
             (map1 C P st (root0 C P st) <> None -> m0 = map0 C P st /\ m1 = map1 C P st))).
    { destruct (map1 C P st (root0 C P st)) as [e|] eqn:Ek.
      - cbn [bind StarSpec.outcome]. destruct (HK1 HL2) as [X|X]; [congruence|]. split; [exact T0|]. split; [exact T1|].
        split; [intros n Hn; apply X; exact Hn|]. split; [intros n Hn; apply X; exact Hn|auto].
      - assert (REACH : forall n, In n (nodes (br C P st)) -> mut (br C P st) n (root0 C P st) /\ mut (br C P st) n (root1 C P st)).
        { intros n Hn. destruct (HC n Hn) as [M|M]; split; auto; eapply mut_trans; try exact M; [exact HL2|apply mut_sym; exact HL2]. }
        pose proof (cpm_outcome plen HL pop HPOP (br C P st) HI (root0 C P st) H0 fuel) as [O1 O2].
        destruct (computeParentMap C P plen pop fuel (br C P st) (root0 C P st)) as [m0| | |] eqn:Em0; cbn [bind StarSpec.outcome]; try congruence; [|exact I].
        pose proof (cpm_outcome plen HL pop HPOP (br C P st) HI (root1 C P st) H1 fuel) as [O3 O4].
        destruct (computeParentMap C P plen pop fuel (br C P st) (root1 C P st)) as [m1| | |] eqn:Em1; cbn [bind StarSpec.outcome]; try congruence; [|exact I].
        destruct (cpm_correct plen HL pop HPOP (br C P st) HI (root0 C P st) H0 fuel m0 Em0) as [Z1 [Z2 _]].
        destruct (cpm_correct plen HL pop HPOP (br C P st) HI (root1 C P st) H1 fuel m1 Em1) as [Z3 [Z4 _]].
        split; [exact Z1|]. split; [exact Z3|]. split; [|split; [|congruence]].
        + intros n Hn. apply Z2. apply (proj1 (REACH n Hn)).
        + intros n Hn. apply Z4. apply (proj2 (REACH n Hn)). }
    assert (KEEP2 : outcome True (match map1 C P st (root0 C P st) with
          | Some _ => Ok (map0 C P st, map1 C P st)
          | None => bind (computeParentMap C P plen pop fuel (br C P st) (root0 C P st)) (fun m0 =>
                    bind (computeParentMap C P plen pop fuel (br C P st) (root1 C P st)) (fun m1 => Ok (m0, m1)))
          end) (fun '(m0, m1) => tree (br C P st) (root0 C P st) m0 /\ tree (br C P st) (root1 C P st) m1 /\
             full (br C P st) m0 /\ full (br C P st) m1 /\
             (map1 C P st (root0 C P st) <> None -> m0 = map0 C P st /\ m1 = map1 C P st))).
    { match goal with |- outcome True ?r _ => destruct r end; exact KEEP. }
    clear KEEP. eapply sf_bind; [exact KEEP2|]. clear KEEP2.
    intros [m0 m1] [Z1 [Z2 [Z3 [Z4 Z5]]]].
    eapply sf_mono; [eapply sf_weak; [|apply improve_ok]; [tauto|..]; cbn [br root0 root1 map0 map1]; auto|].
    + split; cbn [br root0 root1 map0 map1]; auto. intro N; contradiction.
    + intros x [Y1 [Y2 [Y3 [Y4 [Y5 [Y6 [Y7 [Y8 _]]]]]]]]. cbn [br root0 root1 map0 map1] in *.
      split; [exact Y1|]. split; [exact Y2|]. split; [left; auto|]. split; [|auto].
      intros [X|X]; [contradiction|]. destruct (Z5 X) as [-> ->]. left; auto.
Qed.

(* -------------------------------------------------------------------- sample *)
Lemma chain_count m n c : cost_to m n c -> forall l, chain m n l -> forall f, length l <= f -> count_edges P f m n = Ok (length l - 1).
Proof.
  induction 1 as [n H|n e c H Hc IH]; intros l Hl f Hf; inversion Hl as [? X|? e' l2 X Y]; subst; try congruence; cbn [length] in Hf.
  - destruct f as [|f]; [lia|]. cbn [count_edges]. rewrite H; reflexivity.
  - destruct f as [|f]; [lia|]. cbn [count_edges]. rewrite H. rewrite H in X; injection X as <-.
    rewrite (IH _ Y f) by lia. cbn [bind length]. f_equal. inversion Y; subst; cbn [length]; lia.
Qed.
Lemma chain_climb m n l : chain m n l -> forall i, S i < length l -> exists e l', climb P i m n = Ok e /\ chain m (efrom e) l' /\ length l' = length l - S i /\ exists k, m k = Some (Some e).
Proof.
  induction 1 as [n H|n e l H Hc IH]; intros i Hi; cbn [length] in *; [lia|].
  destruct i as [|i]; cbn [climb]; rewrite H.
  - exists e, l. split; [reflexivity|]. split; [exact Hc|]. split; [lia|eauto].
  - destruct (IH i) as [e' [l' [A [B D]]]]; [lia|]. exists e', l'. split; [exact A|]. split; [exact B|]. split; [lia|apply D].
Qed.
Lemma sample_ok st draw k mk shot : two_trees st -> (draw = true -> length (live (br _ _ st)) = 1 -> map0 _ _ st (root1 _ _ st) <> None) ->
  exists q, sample C P st draw k mk shot = Ok q.
Proof.
  intros HV HS. pose proof (g2_inv _ _ _ _ _ _ _ (v_good _ HV)) as HI. unfold sample.
  destruct (Nat.eqb_spec (length (live (br C P st))) 1) as [El|]; [|cbn [andb]; eauto]. destruct draw; [|cbn [andb]; eauto].
  cbn [andb]. specialize (HS eq_refl El). pose proof (v_t0 _ HV) as T0.
  destruct (t_cost _ _ _ _ T0 _ HS) as [c Hc]. destruct (cost_chain _ _ _ _ Hc) as [l Hl].
  assert (HLn : length l <= length (nodes (br C P st))).
  { apply NoDup_incl_length; [eapply chain_nodup; exact Hl|]. intros x Hx.
    eapply (tree_nodes plen (br C P st)); [exact HI|apply (v_r0 _ HV)|exact T0|]. eapply chain_keys; eassumption. }
  rewrite (chain_count _ _ _ Hc l Hl) by lia. cbn [bind].
  destruct (Nat.leb_spec 2 (length l - 1)) as [H2|]; [|eauto].
  destruct (chain_climb _ _ _ Hl (k mod (length l - 1 - 1))) as [e1 [l1 [A1 [A2 [A3 [k1 A4]]]]]].
  { assert (k mod (length l - 1 - 1) < length l - 1 - 1) by (apply Nat.mod_upper_bound; lia). lia. }
  rewrite A1; cbn [bind].
  assert (k mod (length l - 1 - 1) < length l - 1 - 1) by (apply Nat.mod_upper_bound; lia).
  inversion A2 as [? X|? e0 l2 X Y]; [subst; cbn [length] in A3; lia|]. subst.
  cbn [climb]. rewrite X. cbn [bind].
  destruct (t_edge _ _ _ _ T0 _ _ X) as [E0 F0]. destruct (t_edge _ _ _ _ T0 _ _ A4) as [E1 F1].
  rewrite F0, Nat.eqb_refl.
  destruct (RoadmapProofs2.e_end _ (i_E _ HI) _ E0) as [N1 N2]. destruct (RoadmapProofs2.e_end _ (i_E _ HI) _ E1) as [N3 N4].
  destruct (in_cfg _ _ HI N1) as [q0 Q0]. rewrite (cfg_ok _ _ _ Q0); cbn [bind].
  destruct (in_cfg _ _ HI N3) as [q1 Q1]. rewrite (cfg_ok _ _ _ Q1); cbn [bind].
  destruct (in_cfg _ _ HI N4) as [qe Qe]. rewrite (cfg_ok _ _ _ Qe); cbn [bind]. eauto.
Qed.

(* --------------------------------------------------------------------- start *)
Lemma s_init s q : sound_rm s -> exists t i, initNode C P ceqb dist s q = Ok t /\ sound_rm t /\ initN t = Some i /\ config_of t i q /\
  goals t = goals s /\ edges t = edges s /\ (forall x, In x (nodes t) -> In x (nodes s) \/ x = i).
Proof.
  intro HG. destruct (s_addNode ceqb dist plen prev V HH OK s q HG) as [n [t [H1 [[H2 H2'] [H3 [H4 [H5 H6]]]]]]].
  assert (E : initNode C P ceqb dist s q = Ok (set_init t (Some n))) by (unfold initNode; rewrite H1; reflexivity).
  exists (set_init t (Some n)), n. split; [exact E|]. split.
  - split; [|exact H2']. eapply builtw_step with (o := OInit q); [apply HG|reflexivity|discriminate|exact E].
  - split; [reflexivity|]. split; [exact H4|]. split; [apply (g_goals _ _ (proj1 H3))|]. split; [exact H5|exact H6].
Qed.
Lemma s_goal s q : sound_rm s -> exists t g, addGoalNode C P ceqb dist s q = Ok t /\ sound_rm t /\ initN t = initN s /\ goals t = goals s ++ [g] /\
  config_of t g q /\ edges t = edges s /\ (forall n x, config_of s n x -> config_of t n x) /\ (forall x, In x (nodes t) -> In x (nodes s) \/ x = g).
Proof.
  intro HG. destruct (s_addNode ceqb dist plen prev V HH OK s q HG) as [n [t [H1 [[H2 H2'] [H3 [H4 [H5 H6]]]]]]].
  assert (E : addGoalNode C P ceqb dist s q = Ok (set_goals t (goals t ++ [n]))) by (unfold addGoalNode; rewrite H1; reflexivity).
  exists (set_goals t (goals t ++ [n])), n. split; [exact E|]. split.
  - split; [|exact H2']. eapply builtw_step with (o := OGoal q); [apply HG|reflexivity|discriminate|exact E].
  - split; [apply (g_init _ _ (proj1 H3))|]. split; [cbn [goals set_goals]; rewrite (g_goals _ _ (proj1 H3)); reflexivity|]. split; [exact H4|].
    split; [exact H5|]. split; [|exact H6]. intros m x Hm. exact (sup_cfg _ _ _ _ H3 Hm).
Qed.
Lemma sound_empty : sound_rm empty.
Proof. split; [constructor|intros e []]. Qed.
Lemma s_start qi qg : exists t i g, start_solve C P ceqb dist empty qi [qg] = Ok t /\ sound_rm t /\ initN t = Some i /\ goals t = [g] /\
  config_of t i qi /\ config_of t g qg /\ edges t = [] /\ (forall x, In x (nodes t) -> x = i \/ x = g).
Proof.
  unfold start_solve. assert (HG : sound_rm (resetGoalNodes empty)).
  { split; [|intros e []]. eapply builtw_step with (o := OResetGoals); [constructor|reflexivity|discriminate|reflexivity]. }
  destruct (s_init _ qi HG) as [s1 [i [-> [A1 [A2 [A3 [A4 [A5 A6]]]]]]]]. cbn [bind add_goals].
  destruct (s_goal _ qg A1) as [t [g [-> [B1 [B2 [B3 [B4 [B5 [B6 B7]]]]]]]]]. cbn [bind].
  exists t, i, g. split; [reflexivity|]. split; [exact B1|]. split; [congruence|]. rewrite A4 in B3. split; [exact B3|].
  split; [apply B6; exact A3|]. split; [exact B4|]. split; [rewrite B5, A5; reflexivity|].
  intros x Hx. destruct (B7 x Hx) as [X| ->]; [|auto]. destruct (A6 x X) as [[]| ->]; auto.
Qed.
Lemma s_add_edges l : forall s, sound_rm s -> fut_ok V OK s l -> exists t, add_edges C P s l = Ok t /\ sound_rm t /\ sup s t /\ nodes t = nodes s.
Proof.
  induction l as [|[[a b] p] l IH]; intros s HG HF; cbn [add_edges].
  - exists s. split; [reflexivity|]. split; [exact HG|]. split; [apply sup_refl|reflexivity].
  - destruct (HF a b p) as [H1 [H2 H3]]; [left; reflexivity|].
    destruct (s_addEdge ceqb dist plen prev V OK s a b p HG H1 H2 H3) as [t [-> [A1 [A2 [A3 _]]]]]. cbn [bind].
    destruct (IH t A1) as [u [-> [B1 [B2 B3]]]].
    { intros x y z Hz. destruct (HF x y z) as [X1 [X2 X3]]; [right; exact Hz|]. split; [exact X1|].
      split; eapply sup_cfg; eassumption. }
    exists u. split; [reflexivity|]. split; [exact B1|]. split; [eapply sup_trans; eassumption|congruence].
Qed.
(* tryConnectInitAndGoals throws nothing *)
Definition calm {A} (r : res A) : Prop := r <> Throw.
Lemma calm_bind {A B} (r : res A) (f : A -> res B) : calm r -> (forall a, calm (f a)) -> calm (bind r f).
Proof. unfold calm. destruct r; cbn [bind]; auto; discriminate. Qed.
Lemma calm_cfg s n : calm (cfgN C P s n). Proof. unfold cfgN, calm. destruct (ninfo s n); discriminate. Qed.
Lemma calm_cc s n : calm (ccN C P s n). Proof. unfold ccN, calm. destruct (ninfo s n); discriminate. Qed.
Lemma calm_try a b : calm (try_path C P plen V a b).
Proof.
  unfold try_path, calm. destruct (e_sm V a b); [|discriminate]. cbv zeta.
  destruct (match e_proj V with None => _ | Some f => _ end); [|discriminate].
  destruct (e_val V p0 false) as [[|] [v|]]; try discriminate. destruct (Qlt_le_dec 0 (plen v)); discriminate.
Qed.
Lemma calm_future s n qn c0 fwd l : calm (future C P dist plen V s n qn c0 fwd l).
Proof.
  induction l as [|c l IH]; cbn [future]; [discriminate|]. destruct (c =? c0); [exact IH|].
  apply calm_bind; [unfold near_node, calm; destruct (nn_search C P dist s fwd qn c) as [[? ?]|]; discriminate|]. intro m.
  apply calm_bind; [apply calm_cfg|]. intro qm. apply calm_bind; [destruct fwd; apply calm_try|]. intro r.
  apply calm_bind; [exact IH|]. intro x. discriminate.
Qed.
Lemma calm_goals s gs : calm (future_goals C P dist plen V s gs).
Proof.
  induction gs as [|g gs IH]; cbn [future_goals]; [discriminate|]. apply calm_bind; [apply calm_cfg|]. intro.
  apply calm_bind; [apply calm_cc|]. intro. apply calm_bind; [apply calm_future|]. intro. apply calm_bind; [exact IH|]. intro; discriminate.
Qed.
Lemma s_try s i : sound_rm s -> initN s = Some i -> exists t, try_connect C P dist plen V s = Ok t /\ sound_rm t /\ sup s t /\ nodes t = nodes s.
Proof.
  intros HG Hi. pose proof (g2_inv _ _ _ _ _ _ _ HG) as HI. unfold try_connect. rewrite Hi.
  destruct (nodes_isn s i HI) as [qi Hq]; [apply (proj1 (i_R _ HI)); exact Hi|].
  rewrite (cfg_ok _ _ _ Hq); cbn [bind].
  destruct (cc_ok s i HI) as [c [-> Hc]]; [exists qi; exact Hq|]. cbn [bind].
  pose proof (future_ok ceqb dist plen prev V HH HW OK HOKP s i qi c true (live s) Hq) as H1.
  pose proof (calm_future s i qi c true (live s)) as C1.
  destruct (future C P dist plen V s i qi c true (live s)) as [l1| | |]; cbn [bind]; unfold calm in C1;
    try (exfalso; first [apply C1; reflexivity|apply H1; intros; apply live_inhab; assumption]).
  assert (F1 : fut_ok V OK s l1) by (apply H1; intros; apply live_inhab; assumption).
  pose proof (future_goals_ok ceqb dist plen prev V HH HW OK HOKP s (goals s) HI) as H2.
  pose proof (calm_goals s (goals s)) as C2.
  assert (GN : forall g, In g (goals s) -> isn s g). { intros g Hg. apply nodes_isn; [exact HI|]. apply (i_R _ HI); exact Hg. }
  destruct (future_goals C P dist plen V s (goals s)) as [l2| | |]; cbn [bind]; unfold calm in C2;
    try (exfalso; first [apply C2; reflexivity|apply H2; exact GN]).
  specialize (H2 GN). cbn [fine] in H2. apply s_add_edges; [exact HG|].
  intros a b p Hin. apply in_app_iff in Hin as [Hin|Hin]; [apply F1|apply H2]; exact Hin.
Qed.

(* ------------------------------------------------------------------- running *)
Notation star_one := (star_one C P ceqb dist plen prev V aproj mid maxLen minLen tiny radius pop).
Notation star_run := (star_run C P ceqb dist plen prev V aproj mid maxLen minLen tiny radius pop).
Notation star_solve := (star_solve C P ceqb dist plen prev V aproj mid maxLen minLen tiny radius pop).
Lemma one_good fuel st d : two_trees st -> (d_draw C d = true -> length (live (br _ _ st)) = 1 -> map0 _ _ st (root1 _ _ st) <> None) ->
  outcome True (star_one fuel st d) (stepped st).
Proof.
  intros HV HS. unfold StarModel.star_one. destruct (sample_ok st (d_draw C d) (d_k C d) (d_mk C d) (d_shot C d) HV HS) as [q ->].
  cbn [bind]. apply step_good; exact HV.
Qed.
Lemma sup_posed s t qi gs : sup s t -> posed s qi gs -> posed t qi gs.
Proof. intros [H _]. apply posed_grows; exact H. Qed.
Lemma run_good fuel qi gs ds : forall st, two_trees st -> posed (br _ _ st) qi gs -> (forall d, In d ds -> d_draw C d = false) ->
  outcome True (star_run fuel st ds) (fun x => two_trees x /\ posed (br _ _ x) qi gs).
Proof.
  induction ds as [|d ds IH]; intros st HV HP HD; cbn [StarModel.star_run]; [split; assumption|].
  eapply sf_bind; [apply one_good; [exact HV|]|].
  - rewrite (HD d) by (left; reflexivity). discriminate.
  - intros x [X1 [X2 _]]. apply IH; [exact X1|eapply sup_posed; eassumption|intros; apply HD; right; assumption].
Qed.
(* once the maps are full they stay so, and sampling is safe *)
Lemma run_full fuel qi gs ds : forall st, two_trees st -> posed (br _ _ st) qi gs -> length (live (br _ _ st)) <> 2 ->
  full (br _ _ st) (map0 _ _ st) -> full (br _ _ st) (map1 _ _ st) ->
  outcome True (star_run fuel st ds) (fun x => two_trees x /\ posed (br _ _ x) qi gs).
Proof.
  induction ds as [|d ds IH]; intros st HV HP HN F0 F1; cbn [StarModel.star_run]; [split; assumption|].
  eapply sf_bind; [apply one_good; [exact HV|intros; apply F0, (v_r1 _ HV)]|].
  intros x [X1 [X2 [X3 [_ X5]]]]. destruct (X5 HN) as [G0 G1].
  apply IH; auto; [eapply sup_posed; eassumption|].
  pose proof (live_two _ _ _ (v_good _ HV) (v_r0 _ HV) (v_r1 _ HV) (v_cov _ HV)) as L1.
  pose proof (live_two _ _ _ (v_good _ X1) (v_r0 _ X1) (v_r1 _ X1) (v_cov _ X1)) as L2.
  destruct (Nat.eqb_spec (length (live (br C P st))) 2); [contradiction|].
  destruct (Nat.eqb_spec (length (live (br C P x))) 2); [|assumption].
  exfalso. apply L2. destruct X3 as [[-> ->]|[-> ->]]; [|apply mut_sym]; eapply sup_mut; eassumption.
Qed.
Lemma start_good qi qg : exists s1 st s2, start_solve C P ceqb dist empty qi [qg] = Ok s1 /\ star_start C P s1 = Ok st /\
  try_connect C P dist plen V s1 = Ok s2 /\
  two_trees (mkB _ _ s2 (root0 _ _ st) (root1 _ _ st) (map0 _ _ st) (map1 _ _ st)) /\ posed s2 qi [qg] /\
  initN s2 = Some (root0 _ _ st) /\ goals s2 = [root1 _ _ st].
Proof.
  destruct (s_start qi qg) as [s1 [i [g [A1 [A2 [A3 [A4 [A5 [A6 [A7 A8]]]]]]]]]].
  pose proof (g2_inv _ _ _ _ _ _ _ A2) as HI1.
  destruct (s_try s1 i A2 A3) as [s2 [B1 [B2 [B3 B4]]]].
  exists s1, (mkB _ _ s1 i g (upd (fun _ => None) i (Some None)) (upd (fun _ => None) g (Some None))), s2.
  split; [exact A1|]. split; [unfold star_start; rewrite A3, A4; reflexivity|]. split; [exact B1|]. cbn [root0 root1 map0 map1].
  assert (TR : forall r s, tree s r (upd (fun _ => None) r (Some None))).
  { intros r s. split.
    - apply upd_eq.
    - intros n. unfold upd. destruct (Nat.eqb_spec n r); [auto|discriminate].
    - intros n e. unfold upd. destruct (Nat.eqb_spec n r); discriminate.
    - intros n. unfold upd at 1. destruct (Nat.eqb_spec n r) as [->|]; [|congruence]. intros _. exists 0%Q. constructor. apply upd_eq. }
  assert (UPD : forall r n, upd (fun _ => None) r (Some None) n <> (None : option (option (edge P))) <-> n = r).
  { intros r n. unfold upd. destruct (Nat.eqb_spec n r); split; auto; try discriminate; congruence. }
  split; [|split; [|split; [rewrite (g_init _ _ (proj1 B3)); exact A3|rewrite (g_goals _ _ (proj1 B3)); exact A4]]].
  - assert (ALL : forall n, In n (nodes s2) -> n = i \/ n = g) by (intros n Hn; apply A8; congruence).
    split; cbn [br root0 root1 map0 map1].
    + exact B2.
    + rewrite B4. eapply cfg_in; eassumption.
    + rewrite B4. eapply cfg_in; eassumption.
    + intros n Hn. destruct (ALL n Hn) as [-> | ->]; [left|right]; apply mut_refl.
    + apply TR.
    + apply TR.
    + intro N. split; intros n Hn; rewrite UPD; (split; [intros ->; apply mut_refl|]); intro M; destruct (ALL n Hn) as [-> | ->]; auto; exfalso; apply N; first [exact M|apply mut_sym; exact M].
    + intros _. destruct (Nat.eqb_spec i g) as [->|N].
      * right. intros n Hn. rewrite UPD. destruct (ALL n Hn); auto.
      * left. unfold upd. destruct (Nat.eqb_spec i g); [contradiction|reflexivity].
  - exists i. rewrite (g_init _ _ (proj1 B3)), (g_goals _ _ (proj1 B3)), A3, A4. split; [reflexivity|].
    split; [eapply sup_cfg; eassumption|]. constructor; [eapply sup_cfg; eassumption|constructor].
Qed.
Lemma solve_good fuel qi qg ds : (forall d, In d ds -> d_draw C d = false) ->
  outcome True (star_solve fuel empty qi [qg] ds) (fun x => two_trees x /\ posed (br _ _ x) qi [qg]).
Proof.
  intro HD. unfold StarModel.star_solve. destruct (start_good qi qg) as [s1 [st [s2 [-> [E [Et [HV [HP _]]]]]]]].
  cbn [bind]. rewrite E; cbn [bind]. rewrite Et; cbn [bind]. apply run_good; assumption.
Qed.
End S.
