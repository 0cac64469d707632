(* C27: kPRM*; C26 and C57 for kPRM*. *)
From Verif Require Import Base Reach RoadmapModel RoadmapSpec RoadmapProofs2 NearestModel PlannerModel PlannerSpec PlannerProofs PlannerProofs2 PlannerProofs3.
From Verif Require Import NearestProofs NearestProps PlannerProps.
From Verif Require Import KprmModel KprmSpec KprmProofs.
From Coq Require Import Reals Lra.

Section Statements.
Context {C P : Type}.
Variable ceqb : C -> C -> bool.
Variable dist : C -> C -> Q.
Variable plen : P -> Q.
Variable prev : P -> P.
Variable V : env C P.
Variable sel : list dn -> option (dn * list dn).
Variable valid : C -> option C.
Variables N K maxTry : nat.
Notation rmS := (rm C P).
Notation built := (@RoadmapSpec.built C P ceqb dist plen prev).
Notation certified := (certified prev V).
Notation projected := (projected prev V).
Notation exec := (exec dist V ceqb prev sel valid N K maxTry).
Notation kstep := (kprm_step C P ceqb dist prev V sel valid N K maxTry).

(* s1, k: roadmap and planner after startSolve on roadmap s *)
Definition started (s : rmS) (qi : C) (gs : list C) (s1 : rmS) (k : kst C P) : Prop :=
  start_solve C P ceqb dist s qi gs = Ok s1 /\ kprm_start C P N s1 = Ok k.

Lemma started_ok (OK : P -> Prop) s qi gs s1 k : honest ceqb prev V -> good ceqb dist plen prev V OK s -> started s qi gs s1 k ->
  posed s1 qi gs /\ state_ok ceqb dist plen prev V N K OK (length (nodes s1) <? N) k /\ kr k = s1 /\
  weight N K k <= (N - length (nodes s1)) + N * (K + 1) + 3 /\ (N <= length (nodes s1) -> ph k = Connect).
Proof.
  intros HH HG [H1 H2]. destruct (start_ok ceqb dist plen prev V HH OK s qi gs HG) as [t [H3 [H4 H5]]].
  rewrite H1 in H3; injection H3 as <-. split; [exact H5|]. unfold kprm_start in H2.
  destruct (N =? 0); [discriminate|]. injection H2 as <-. cbn [kr].
  split; [|split; [reflexivity|]].
  - split; [exact H4|]. split; [eapply posed_init; exact H5|]. cbn [ph kr].
    destruct (Nat.leb_spec N (length (nodes s1))); destruct (Nat.ltb_spec (length (nodes s1)) N); try lia.
  - unfold weight. cbn [ph kr]. destruct (Nat.leb_spec N (length (nodes s1))); split; try reflexivity; lia.
Qed.

Section Run.
Hypothesis HH : honest ceqb prev V.
Hypothesis HW : answers V.
Hypothesis HS : is_heap sel.
Hypothesis HK : 0 < K.

(* C27: whatever is sampled, a step that does not succeed is either the explicit
   failure when all samples are invalid, or the final failure *)
Theorem C27_step_outcome : forall s qi gs s1 k n i t x, built s -> edges_ok V certified s ->
  started s qi gs s1 k -> exec k n i t ->
  match kstep t x with
  | Ok _ => ph t <> Failure
  | Throw => ph t = Failure \/ (ph t = Build /\ forall j, j < maxTry -> valid (x j) = None)
  | UB => False
  | Fuel => False
  end.
Proof.
  intros s qi gs s1 k n i t x HB HE HST HX.
  destruct (started_ok certified s qi gs s1 k HH (conj HB HE) HST) as [_ [H1 _]].
  destruct (exec_ok ceqb dist plen prev V HH HW sel HS valid N K maxTry HK certified (fun p H => proj1 H) (cert_rev prev V) _ _ _ _ _ H1 HX) as [H2 _].
  pose proof (step_ok' ceqb dist plen prev V HH HW sel HS valid N K maxTry HK certified (fun p H => proj1 H) (cert_rev prev V) _ _ x H2) as H.
  destruct (kstep t x) as [u| | |] eqn:E; try exact H. intro X. unfold kprm_step in E. rewrite X in E. discriminate.
Qed.

(* C27: the number of steps is bounded, not counting those which sample a
   configuration that is already a node *)
Theorem C27_bounded_partial : forall s qi gs s1 k n i t, built s -> edges_ok V certified s ->
  started s qi gs s1 k -> exec k n i t -> n <= (N - length (nodes s1)) + N * (K + 1) + 3 + i.
Proof.
  intros s qi gs s1 k n i t HB HE HST HX.
  destruct (started_ok certified s qi gs s1 k HH (conj HB HE) HST) as [_ [H1 [_ [H3 _]]]].
  destruct (exec_ok ceqb dist plen prev V HH HW sel HS valid N K maxTry HK certified (fun p H => proj1 H) (cert_rev prev V) _ _ _ _ _ H1 HX) as [_ [_ [_ H5]]].
  lia.
Qed.

(* C27: the phases come in order, the roadmap never gets more than the
   configured number of nodes, and only the first phase adds nodes *)
Theorem C27_phases : forall s qi gs s1 k n i t x u, built s -> edges_ok V certified s ->
  started s qi gs s1 k -> exec k n i t -> kstep t x = Ok u ->
  rank (ph t) <= rank (ph u) /\ length (nodes (kr u)) <= Nat.max N (length (nodes s1)) /\
  (ph t <> Build -> nodes (kr u) = nodes (kr t)).
Proof.
  intros s qi gs s1 k n i t x u HB HE HST HX HU.
  destruct (started_ok certified s qi gs s1 k HH (conj HB HE) HST) as [_ [H1 [H2 [_ H5]]]].
  pose proof (exec_S dist V ceqb prev sel valid N K maxTry _ _ _ _ _ _ HX HU) as HX'.
  destruct (exec_ok ceqb dist plen prev V HH HW sel HS valid N K maxTry HK certified (fun p H => proj1 H) (cert_rev prev V) _ _ _ _ _ H1 HX) as [H3 _].
  pose proof (step_ok' ceqb dist plen prev V HH HW sel HS valid N K maxTry HK certified (fun p H => proj1 H) (cert_rev prev V) _ _ x H3) as H.
  rewrite HU in H. destruct H as [A1 [A2 [A3 [A4 A5]]]]. split; [exact A2|]. split; [|exact A5].
  destruct (Nat.le_gt_cases N (length (nodes s1))) as [L|L].
  - (* the nodes never change *)
    assert (X : forall m j v, exec k m j v -> ph v <> Build /\ nodes (kr v) = nodes s1).
    { intros m j v Hv. induction Hv as [|m j v y w Hv IH Hw].
      - rewrite (H5 L), H2. split; [discriminate|reflexivity].
      - destruct IH as [I1 I2].
        destruct (exec_ok ceqb dist plen prev V HH HW sel HS valid N K maxTry HK certified (fun p H => proj1 H) (cert_rev prev V) _ _ _ _ _ H1 Hv) as [H6 _].
        pose proof (step_ok' ceqb dist plen prev V HH HW sel HS valid N K maxTry HK certified (fun p H => proj1 H) (cert_rev prev V) _ _ y H6) as H.
        rewrite Hw in H. destruct H as [_ [B2 [_ [_ B5]]]]. rewrite (B5 I1). split; [|exact I2].
        intro Hb. rewrite Hb in B2. destruct (ph v); cbn in B2; [congruence|lia..]. }
    destruct (X _ _ _ HX') as [_ ->]. lia.
  - destruct A1 as [_ [_ A1]]. apply Nat.ltb_lt in L. rewrite L in A1.
    destruct (ph u); [lia|destruct A1 as [_ [A1 _]]; lia|destruct (A1 eq_refl); lia|destruct A1 as [A1 _]; destruct (A1 eq_refl); lia].
Qed.

(* C27: once the linking phase is over, the roadmap has the configured number
   of nodes and each of them was handled with its nearest neighbours *)
Theorem C27_linked : forall s qi gs s1 k n i t, built s -> edges_ok V certified s ->
  started s qi gs s1 k -> length (nodes s1) < N -> exec k n i t -> ph t = Connect \/ ph t = Failure ->
  length (nodes (kr t)) = N /\ forall m, In m (nodes (kr t)) -> handled dist V (kr t) K m.
Proof.
  intros s qi gs s1 k n i t HB HE HST L HX HP.
  destruct (started_ok certified s qi gs s1 k HH (conj HB HE) HST) as [_ [H1 _]].
  destruct (exec_ok ceqb dist plen prev V HH HW sel HS valid N K maxTry HK certified (fun p H => proj1 H) (cert_rev prev V) _ _ _ _ _ H1 HX) as [[_ [_ H3]] _].
  apply Nat.ltb_lt in L. rewrite L in H3. destruct HP as [HP|HP]; rewrite HP in H3; [auto|apply H3; reflexivity].
Qed.
(* C27: before it gives up, the planner has tried to link the initial and goal
   nodes which had no edge *)
Theorem C27_ends_connected : forall s qi gs s1 k n i t, built s -> edges_ok V certified s ->
  started s qi gs s1 k -> exec k n i t -> ph t = Failure ->
  (forall m, initN (kr t) = Some m -> (exists a, arc (kr t) m a) \/ handled dist V (kr t) K m) /\
  (forall g, In g (goals (kr t)) -> (exists a, arc (kr t) a g) \/ handled dist V (kr t) K g).
Proof.
  intros s qi gs s1 k n i t HB HE HST HX HP.
  destruct (started_ok certified s qi gs s1 k HH (conj HB HE) HST) as [_ [H1 _]].
  destruct (exec_ok ceqb dist plen prev V HH HW sel HS valid N K maxTry HK certified (fun p H => proj1 H) (cert_rev prev V) _ _ _ _ _ H1 HX) as [[_ [_ H3]] _].
  rewrite HP in H3. apply H3.
Qed.
(* C26, C57 *)
Theorem C26_kprm : forall s qi gs s1 k n i t, built s -> edges_ok V certified s ->
  started s qi gs s1 k -> exec k n i t -> built (kr t) /\ edges_ok V certified (kr t) /\ posed (kr t) qi gs.
Proof.
  intros s qi gs s1 k n i t HB HE HST HX.
  destruct (started_ok certified s qi gs s1 k HH (conj HB HE) HST) as [H0 [H1 [H2 _]]].
  destruct (exec_ok ceqb dist plen prev V HH HW sel HS valid N K maxTry HK certified (fun p H => proj1 H) (cert_rev prev V) _ _ _ _ _ H1 HX) as [[H3 _] [_ [H4 _]]].
  split; [apply H3|]. split; [apply H3|]. eapply posed_grows; [exact H4|]. rewrite H2. exact H0.
Qed.
Theorem C57_kprm : forall s qi gs s1 k n i t, e_proj V <> None -> built s -> edges_ok V projected s ->
  started s qi gs s1 k -> exec k n i t -> edges_ok V projected (kr t).
Proof.
  intros s qi gs s1 k n i t HP HB HE HST HX.
  destruct (started_ok projected s qi gs s1 k HH (conj HB HE) HST) as [_ [H1 _]].
  destruct (exec_ok ceqb dist plen prev V HH HW sel HS valid N K maxTry HK projected (fun p H => proj2 H HP) (proj_rev prev V) _ _ _ _ _ H1 HX) as [[[_ H3] _] _].
  exact H3.
Qed.
End Run.
End Statements.

(* the number of neighbours is positive from two nodes on, and 0 for one *)
Lemma number_neighbors_one : number_neighbors 1 = 0.
Proof.
  unfold number_neighbors. change (INR 1) with 1%R. rewrite ln_1. replace (2 * exp 1 * 0 + / 2)%R with (/ 2)%R by lra.
  assert (E : Int_part (/ 2) = 0%Z); [|rewrite E; reflexivity].
  destruct (base_Int_part (/ 2)) as [H1 H2].
  assert (A : (IZR (Int_part (/ 2)) < 1)%R) by lra. assert (B : (IZR (Int_part (/ 2)) > -1)%R) by lra.
  apply lt_IZR in A. apply Rgt_lt, lt_IZR in B. lia.
Qed.
Lemma number_neighbors_pos N : 2 <= N -> 0 < number_neighbors N.
Proof.
  intro HN. unfold number_neighbors. set (x := (2 * exp 1 * ln (INR N) + / 2)%R).
  assert (Hx : (1 < x)%R).
  { unfold x. assert (H2 : (2 <= INR N)%R) by (apply le_INR in HN; exact HN).
    assert (He : (2 < exp 1)%R) by (apply (exp_ineq1 1); lra).
    assert (Hl : (/ 2 < ln (INR N))%R).
    { apply Rlt_le_trans with (ln 2).
      - rewrite <- (ln_exp (/ 2)). apply ln_increasing; [apply exp_pos|].
        assert (X : (exp (/ 2) * exp (/ 2) <= 3)%R) by (rewrite <- exp_plus; replace (/2 + /2)%R with 1%R by lra; apply exp_le_3).
        pose proof (exp_pos (/ 2)). nra.
      - destruct (Rle_lt_or_eq_dec _ _ H2) as [L|<-]; [|lra]. left. apply ln_increasing; lra. }
    nra. }
  destruct (base_Int_part x) as [H1 H2]. assert (A : (0 < IZR (Int_part x))%R) by lra. apply lt_IZR in A. lia.
Qed.

(* One configured node: no neighbour is looked for, and the search for 0
   neighbours reads the top of an empty queue *)
Theorem C27_single_node_refuted : forall (C P : Type) ceqb dist plen prev (V : env C P) sel valid maxTry s qi gs s1 k x,
  honest ceqb prev V -> is_heap sel -> built ceqb dist plen prev s -> edges_ok V (certified prev V) s ->
  started ceqb dist 1 s qi gs s1 k ->
  (forall i a, initN s1 = Some i -> ~ arc s1 i a) ->
  kprm_step C P ceqb dist prev V sel valid 1 (number_neighbors 1) maxTry k x = UB.
Proof.
  intros C P ceqb dist plen prev V sel valid maxTry s qi gs s1 k x HH HS HB HE HST HN. rewrite number_neighbors_one.
  destruct (started_ok (P := P) ceqb dist plen prev V 1 0 (certified prev V) s qi gs s1 k HH (conj HB HE) HST) as [H0 [[H1 [H2 _]] [H3 [_ H5]]]].
  rewrite H3 in *. destruct (initN s1) as [i|] eqn:Ei; [|congruence].
  destruct H0 as [j [Hj [Hcj _]]]. rewrite Ei in Hj; injection Hj as <-.
  pose proof (good_inv ceqb dist plen prev V (certified prev V) s1 H1) as HI.
  assert (Hin : In i (nodes s1)) by (apply (cfg_in s1 i qi HI Hcj)).
  assert (L : 1 <= length (nodes s1)) by (destruct (nodes s1); [destruct Hin|cbn; lia]).
  unfold kprm_step. rewrite (H5 L). cbv beta iota. rewrite H3. unfold connect_ends. rewrite Ei.
  destruct Hcj as [nd [Hnd Hq]]. rewrite Hnd.
  destruct (nout nd) as [|e es] eqn:En.
  - unfold nearest, cfgN. rewrite Hnd. cbn [bind]. unfold knn_roadmap.
    rewrite (knn_zero sel HS); [reflexivity|]. intro X; rewrite X in Hin; destruct Hin.
  - exfalso. destruct (RoadmapProofs2.e_out _ (i_E _ HI) i nd e Hnd) as [X1 X2]; [rewrite En; left; reflexivity|].
    apply (HN i (eto e) eq_refl). exists e; auto.
Qed.

Lemma run_exec (C P : Type) ceqb dist prev (V : env C P) sel valid N K maxTry k0 :
  forall sh n i k t, exec dist V ceqb prev sel valid N K maxTry k0 n i k ->
    kprm_run C P ceqb dist prev V sel valid N K maxTry k sh = Ok t ->
    exists j, exec dist V ceqb prev sel valid N K maxTry k0 (n + length sh) j t.
Proof.
  induction sh as [|x sh IH]; intros n i k t HX HR; cbn [kprm_run length] in *.
  - injection HR as <-. rewrite Nat.add_0_r. eauto.
  - destruct (kprm_step C P ceqb dist prev V sel valid N K maxTry k x) as [k'| | |] eqn:E; try discriminate. cbn [bind] in HR.
    rewrite Nat.add_succ_r. change (S (n + length sh)) with (S n + length sh).
    eapply IH; [eapply exec_S; eassumption|exact HR].
Qed.

Lemma solve_inv (C P : Type) ceqb dist prev (V : env C P) sel valid N K maxTry s qi gs sh t :
  kprm_solve C P ceqb dist prev V sel valid N K maxTry s qi gs sh = Ok t ->
  exists s1 k, start_solve C P ceqb dist s qi gs = Ok s1 /\ kprm_start C P N s1 = Ok k /\
    kprm_run C P ceqb dist prev V sel valid N K maxTry k sh = Ok t.
Proof.
  unfold kprm_solve. intro H. destruct (start_solve C P ceqb dist s qi gs) as [s1| | |]; try discriminate. cbn [bind] in H.
  destruct (kprm_start C P N s1) as [k| | |] eqn:E; try discriminate. eauto.
Qed.

(* ---------------------------------------------------------------- examples *)
Definition kfree (q : Z) : option Z := if (q <=? 12)%Z then Some q else None.
Definition kobs (r : res (kst Z path)) := match r with Ok k => Some (ph k, obs (Ok (kr k))) | _ => None end.
Definition shots (l : list Z) (i : nat) : Z := nth i l 20%Z.
Notation ksolve N := (kprm_solve Z path Z.eqb dst rev_ (V None (Some keep)) xsel kfree N 3 2).
(* one shot is refused, one is a configuration already in the roadmap; then the
   four nodes are linked and the planner is about to fail *)
Definition ksteps : list (nat -> Z) := [shots [14; 5]%Z; shots [5]%Z; shots [7]%Z] ++ repeat (shots []) 19.
Example ex_kprm : kobs (ksolve 4 empty 0%Z [10%Z] ksteps) =
  Some (Failure, Some (Some 0, [1], [Some 0%Z; Some 10%Z; Some 5%Z; Some 7%Z],
    [(0, 2, (0%Z, 5%Z, true)); (2, 0, (5%Z, 0%Z, true)); (0, 3, (0%Z, 7%Z, true)); (3, 0, (7%Z, 0%Z, true));
     (1, 3, (10%Z, 7%Z, true)); (3, 1, (7%Z, 10%Z, true)); (1, 2, (10%Z, 5%Z, true)); (2, 1, (5%Z, 10%Z, true));
     (2, 3, (5%Z, 7%Z, true)); (3, 2, (7%Z, 5%Z, true))])).
Proof. vm_compute; reflexivity. Qed.
Lemma ex_start s1 : start_solve Z path Z.eqb dst empty 0%Z [10%Z] = Ok s1 -> length (nodes s1) < 4.
Proof.
  assert (L : match start_solve Z path Z.eqb dst empty 0%Z [10%Z] with Ok s => length (nodes s) <? 4 | _ => false end = true) by (vm_compute; reflexivity).
  revert L. generalize (start_solve Z path Z.eqb dst empty 0%Z [10%Z]). intros r L H. subst r. apply Nat.ltb_lt. exact L.
Qed.
(* the hypotheses of the theorems above hold of it *)
Example ex_kprm_hyps : exists s1 k i t, honest Z.eqb rev_ (V None (Some keep)) /\ answers (V None (Some keep)) /\ is_heap xsel /\
  built Z.eqb dst len rev_ (@empty Z path) /\ edges_ok (V None (Some keep)) (projected rev_ (V None (Some keep))) empty /\
  started Z.eqb dst 4 (@empty Z path) 0%Z [10%Z] s1 k /\ length (nodes s1) < 4 /\
  exec dst (V None (Some keep)) Z.eqb rev_ xsel kfree 4 3 2 k 22 i t /\ ph t = Failure.
Proof.
  assert (X : exists t, ksolve 4 empty 0%Z [10%Z] ksteps = Ok t /\ ph t = Failure).
  { pose proof ex_kprm as X. revert X. generalize (ksolve 4 empty 0%Z [10%Z] ksteps). intros r X.
    destruct r as [t| | |]; try discriminate X. exists t. split; [reflexivity|]. exact (f_equal (fun o => match o with Some y => fst y | None => ph t end) X). }
  destruct X as [t [X X1]]. apply solve_inv in X as [s1 [k [E1 [E2 E3]]]].
  destruct (run_exec Z path Z.eqb dst rev_ (V None (Some keep)) xsel kfree 4 3 2 k ksteps 0 0 k t) as [j Hj]; [constructor|exact E3|].
  exists s1, k, j, t. split; [apply V_honest; auto|]. split; [apply V_answers; auto|]. split; [apply xsel_heap|].
  split; [constructor|]. split; [intros e []|]. split; [split; assumption|].
  split; [|split; [exact Hj|exact X1]].
  apply ex_start in E1. exact E1.
Qed.
(* sampling fails twice: the planner fails explicitly *)
Example ex_kprm_fails : ksolve 4 empty 0%Z [10%Z] [shots [14; 15]%Z] = Throw.
Proof. vm_compute; reflexivity. Qed.

(* the building phase does not end when the shooter (or the projection on the
   constraints) always returns a configuration of the roadmap *)
Theorem C27_bounded_refuted : exists (V : env Z path) s1 k, honest Z.eqb rev_ V /\ answers V /\
  started Z.eqb dst 4 (@empty Z path) 0%Z [10%Z] s1 k /\
  forall maxTry n, 0 < maxTry -> exists i t, exec dst V Z.eqb rev_ xsel kfree 4 3 maxTry k n i t /\ ph t = Build.
Proof.
  exists (V None None).
  assert (X : match start_solve Z path Z.eqb dst empty 0%Z [10%Z] with
              | Ok s1 => length (nodes s1) = 2 /\ match addNode Z path Z.eqb dst s1 0%Z with Ok (_, s2) => s2 = s1 | _ => False end
              | _ => False end) by (vm_compute; auto).
  destruct (start_solve Z path Z.eqb dst empty 0%Z [10%Z]) as [s1| | |] eqn:E1; [|destruct X..]. destruct X as [X1 X2].
  exists s1, (mkK Build s1 [] []). split; [apply V_honest; auto|]. split; [apply V_answers; auto|].
  split; [split; [exact E1|unfold kprm_start; rewrite X1; reflexivity]|].
  intros maxTry n HM. exists n, (mkK Build s1 [] []). split; [|reflexivity].
  induction n as [|n IH]; [constructor|].
  assert (H : exec dst (V None None) Z.eqb rev_ xsel kfree 4 3 maxTry (mkK Build s1 [] []) (S n)
     (if idle (mkK Build s1 [] []) (mkK Build s1 [] []) then S n else n) (mkK Build s1 [] [])).
  { apply (exec_S _ _ _ _ _ _ _ _ _ _ _ _ _ (fun _ => 0%Z)); [exact IH|]. unfold kprm_step, gen. cbn [ph kr left_nodes left_neigh].
    rewrite X1. change (2 <? 4) with true. cbv beta iota.
    replace (first_valid Z kfree maxTry (fun _ => 0%Z)) with (Some 0%Z).
    - destruct (addNode Z path Z.eqb dst s1 0%Z) as [[m s2]| | |]; [|destruct X2..]. cbn [bind]. rewrite X2. reflexivity.
    - destruct maxTry as [|m]; [lia|reflexivity]. }
  unfold idle in H. cbn [ph kr] in H. rewrite Nat.eqb_refl in H. exact H.
Qed.
(* an empty roadmap and one node *)
Example ex_single : exists s1 k, started Z.eqb dst 1 (@empty Z path) 0%Z [10%Z] s1 k /\ forall i a, initN s1 = Some i -> ~ arc s1 i a.
Proof.
  assert (X : match start_solve Z path Z.eqb dst empty 0%Z [10%Z] with
              | Ok s1 => edges s1 = [] | _ => False end) by (vm_compute; reflexivity).
  destruct (start_solve Z path Z.eqb dst empty 0%Z [10%Z]) as [s1| | |] eqn:E1; [|destruct X..].
  eexists s1, _. split; [split; [exact E1|reflexivity]|]. intros i a _ [e [He _]]. rewrite X in He. destruct He.
Qed.
Print Assumptions C27_step_outcome.
Print Assumptions C27_bounded_partial.
Print Assumptions C27_phases.
Print Assumptions C27_linked.
Print Assumptions C27_ends_connected.
Print Assumptions C26_kprm.
Print Assumptions C57_kprm.
Print Assumptions C27_single_node_refuted.
Print Assumptions C27_bounded_refuted.
Print Assumptions number_neighbors_pos.
