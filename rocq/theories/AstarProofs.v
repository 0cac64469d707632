(* Proofs about the A* model. *)
From Coq Require Import Lqa.
From Verif Require Import Base Reach RoadmapModel AstarModel.

(* ------------------------------------------------------------------ *)
(* The sort                                                            *)
Lemma insert_by_In f x l y : In y (insert_by f x l) <-> y = x \/ In y l.
Proof.
  induction l as [|z l IH]; simpl; [intuition|].
  destruct (Qlt_le_dec (f z) (f x)); simpl; [rewrite IH|]; intuition.
Qed.
Lemma sort_by_In f l y : In y (sort_by f l) <-> In y l.
Proof. induction l as [|x l IH]; simpl; [tauto|]. rewrite insert_by_In, IH; intuition. Qed.
Lemma insert_by_NoDup f x l : NoDup l -> ~ In x l -> NoDup (insert_by f x l).
Proof.
  induction l as [|z l IH]; simpl; intros Hn Hx; [repeat constructor; simpl; tauto|].
  inversion Hn as [|? ? Hz Hl]; subst.
  destruct (Qlt_le_dec (f z) (f x)); constructor; auto.
  rewrite insert_by_In; intros [->|H]; auto.
Qed.
Lemma sort_by_NoDup f l : NoDup l -> NoDup (sort_by f l).
Proof.
  induction 1 as [|x l Hx Hl IH]; simpl; [constructor|].
  apply insert_by_NoDup; [exact IH|rewrite sort_by_In; exact Hx].
Qed.
Definition sorted_by (f : nat -> Q) (l : list nat) : Prop :=
  forall x r, l = x :: r -> forall y, In y r -> (f x <= f y)%Q.
Lemma insert_by_head f x l :
  match l with [] => True | z :: r => forall y, In y r -> (f z <= f y)%Q end ->
  match insert_by f x l with [] => True | z :: r => forall y, In y r -> (f z <= f y)%Q end.
Proof.
  destruct l as [|z l]; simpl; [intros _ y []|].
  intros Hl. destruct (Qlt_le_dec (f z) (f x)) as [H|H].
  - intros y; rewrite insert_by_In; intros [->|Hy]; [apply Qlt_le_weak; exact H|auto].
  - intros y [<-|Hy]; [exact H|]. apply Qle_trans with (f z); auto.
Qed.
Lemma sort_by_head f l :
  match sort_by f l with [] => True | z :: r => forall y, In y r -> (f z <= f y)%Q end.
Proof. induction l as [|x l IH]; simpl; [exact I|]. apply insert_by_head; exact IH. Qed.

Section Astar.
Variable P : Type.
Variable plen : P -> Q.
Variable outs : nat -> list (edge P).
Variable goals : list nat.
Variable h : nat -> Q.
Variable init : nat.
Variable N : list nat.       (* all nodes *)
Hypothesis N_init : In init N.
Hypothesis N_out : forall n e, In n N -> In e (outs n) -> efrom e = n /\ In (eto e) N.

Notation ast := (ast P).
Notation relax := (relax P plen h).
Notation find_loop := (find_loop P plen outs goals h).
Notation isGoal := (isGoal goals).

(* A chain of out-edges from a to b, and its cost *)
Fixpoint chain (a : nat) (l : list (edge P)) (b : nat) : Prop :=
  match l with
  | [] => a = b
  | e :: l' => In e (outs a) /\ efrom e = a /\ chain (eto e) l' b
  end.
Fixpoint pcost (l : list (edge P)) : Q :=
  match l with [] => 0 | e :: l' => (plen (epath e) + pcost l')%Q end.
Lemma chain_app a l1 b l2 c : chain a l1 b -> chain b l2 c -> chain a (l1 ++ l2) c.
Proof.
  revert a; induction l1 as [|e l1 IH]; simpl; intros a.
  - intros ->; auto.
  - intros [H1 [H2 H3]] H4; auto.
Qed.
Lemma pcost_app l1 l2 : (pcost (l1 ++ l2) == pcost l1 + pcost l2)%Q.
Proof. induction l1 as [|e l1 IH]; simpl; [ring|]. rewrite IH; ring. Qed.
Lemma chain_in_N a l b : chain a l b -> In a N -> In b N.
Proof.
  revert a; induction l as [|e l IH]; simpl; intros a; [intros <-; auto|].
  intros [H1 [H2 H3]] Ha. apply (IH (eto e) H3). apply (N_out a e Ha H1).
Qed.

(* Invariant.  [ord]: order in which nodes were first given a parent, used
   to show that parent chains end at [init]. *)
Record ainv (a : ast) : Prop := {
  v_nd : NoDup (op_ _ a ++ cl_ _ a);
  v_N : forall n, In n (op_ _ a ++ cl_ _ a) -> In n N;
  v_init : In init (op_ _ a ++ cl_ _ a);
  v_pinit : par _ a init = None;
  v_par : forall n, In n (op_ _ a ++ cl_ _ a) -> n <> init ->
            exists e, par _ a n = Some e /\ eto e = n /\ In e (outs (efrom e)) /\ In (efrom e) (cl_ _ a) ;
  v_none : forall n, ~ In n (op_ _ a ++ cl_ _ a) -> par _ a n = None;
  v_goal : forall n, In n (cl_ _ a) -> isGoal n = false
}.
(* closed nodes are expanded *)
Definition expanded (a : ast) : Prop :=
  forall u e, In u (cl_ _ a) -> In e (outs u) -> In (eto e) (op_ _ a ++ cl_ _ a).

(* rank: parents of closed nodes were closed before them *)
Fixpoint before (x y : nat) (l : list nat) : Prop :=
  match l with
  | [] => False
  | z :: l' => (z = x /\ z <> y) \/ (z <> y /\ before x y l')
  end.
(* the parent of a closed node stands before it in cl_ *)
Definition ordered (a : ast) : Prop :=
  forall n e l1 l2, cl_ _ a = l1 ++ n :: l2 -> n <> init -> par _ a n = Some e -> In (efrom e) l1.

Definition start : ast := mkAst P [init] [] (fun _ => 0%Q) (fun _ => 0%Q) (fun _ => None).

Lemma ainv_start : ainv start /\ expanded start /\ ordered start.
Proof.
  split; [|split].
  - constructor; simpl; auto.
    + repeat constructor; simpl; tauto.
    + intros n [<-|[]]; exact N_init.
    + intros n [<-|[]] H; congruence.
    + intros n [].
  - intros u e [].
  - intros n e [|x l1] l2 H; discriminate.
Qed.

Lemma relax_cases current a e :
  relax current a e = a /\ In (eto e) (op_ _ a ++ cl_ _ a) /\
    (In (eto e) (cl_ _ a) \/ (cost _ a (eto e) <= cost _ a current + plen (epath e))%Q) \/
  (~ In (eto e) (cl_ _ a) /\
   (let tmp := (cost _ a current + plen (epath e))%Q in
    (In (eto e) (op_ _ a) -> (tmp < cost _ a (eto e))%Q) /\
    relax current a e =
      mkAst P (if mem (eto e) (op_ _ a) then op_ _ a else op_ _ a ++ [eto e]) (cl_ _ a)
        (upd (cost _ a) (eto e) tmp) (upd (est _ a) (eto e) (tmp + h (eto e))%Q)
        (upd (par _ a) (eto e) (Some e)))).
Proof.
  unfold AstarModel.relax. destruct (mem (eto e) (cl_ P a)) eqn:E1.
  - left; split; [reflexivity|]. apply mem_In in E1; rewrite in_app_iff; auto.
  - apply mem_nIn in E1. destruct (mem (eto e) (op_ P a)) eqn:E2; simpl.
    + apply mem_In in E2.
      destruct (Qlt_le_dec (cost P a current + plen (epath e)) (cost P a (eto e))) as [Hl|Hl].
      * right; split; [exact E1|]. split; [auto|reflexivity].
      * left; split; [reflexivity|rewrite in_app_iff; auto].
    + right; split; [exact E1|]. split; [|reflexivity].
      intros H; apply mem_In in H; congruence.
Qed.

Lemma relax_inv current a e :
  ainv a -> ordered a -> In current (cl_ _ a) -> In e (outs current) ->
  let a' := relax current a e in
  ainv a' /\ ordered a' /\ cl_ _ a' = cl_ _ a /\ In (eto e) (op_ _ a' ++ cl_ _ a') /\
  (forall n, In n (op_ _ a ++ cl_ _ a) -> In n (op_ _ a' ++ cl_ _ a')).
Proof.
  intros HI HO Hc He a'. pose proof HI as [V1 V2 V3 V4 V5 V6 V7].
  assert (HcN : In current N) by (apply V2; rewrite in_app_iff; auto).
  destruct (N_out current e HcN He) as [Hef Het].
  destruct (relax_cases current a e) as [[Ha [Hin _]]|[Hncl [Hlt Ha]]]; subst a'; rewrite Ha.
  - repeat (split; [assumption || reflexivity|]). auto.
  - set (child := eto e) in *.
    assert (Hopen : forall n, In n (if mem child (op_ P a) then op_ P a else op_ P a ++ [child]) <->
                     In n (op_ P a) \/ n = child).
    { intros n. destruct (mem child (op_ P a)) eqn:E2.
      - apply mem_In in E2; split; [auto|intros [H| ->]; auto].
      - rewrite in_app_iff; simpl; intuition. }
    assert (Hci : child <> init).
    { intros Heq. rewrite Heq in *. rewrite in_app_iff in V3. destruct V3 as [V3|V3]; [|contradiction].
      (* init open: then current closed and init still open is impossible: init
         has no parent and is closed first *)
      assert (Hcl : forall l, cl_ P a = l -> l = [] \/ exists x l', l = x :: l') by (intros [|x l]; eauto).
      destruct (cl_ P a) as [|x l] eqn:El; [destruct Hc|].
      assert (Hx : x <> init).
      { intros ->. apply NoDup_remove_2 in V1. apply V1. rewrite in_app_iff; auto. }
      destruct (V5 x) as [ex [Hpx [_ _]]]; [rewrite in_app_iff; simpl; auto|exact Hx|].
      pose proof (HO x ex [] l) as Hox. rewrite El in Hox. specialize (Hox eq_refl Hx Hpx). destruct Hox. }
    split; [|split; [|split; [|split]]]; simpl.
    + constructor; simpl.
      * destruct (mem child (op_ P a)) eqn:E2; [exact V1|].
        apply mem_nIn in E2. rewrite <- app_assoc; simpl.
        apply NoDup_Add with (a := child) (l := op_ P a ++ cl_ P a); [apply Add_app|].
        split; [exact V1|]. rewrite in_app_iff; tauto.
      * intros n; rewrite in_app_iff, Hopen. intros [[H| ->]|H]; auto; apply V2; rewrite in_app_iff; auto.
      * rewrite in_app_iff, Hopen. rewrite in_app_iff in V3; tauto.
      * rewrite upd_neq by congruence; exact V4.
      * intros n; rewrite in_app_iff, Hopen; intros Hn Hni.
        destruct (Nat.eq_dec n child) as [->|Hnc].
        -- rewrite upd_eq. exists e; rewrite Hef; auto.
        -- rewrite upd_neq by assumption. apply V5; [rewrite in_app_iff; tauto|exact Hni].
      * intros n; rewrite in_app_iff, Hopen; intros Hn.
        rewrite upd_neq; [apply V6; rewrite in_app_iff; tauto|tauto].
      * exact V7.
    + intros n e' l1 l2 Hl Hni. simpl in Hl. simpl. rewrite upd_neq.
      * eapply HO; eauto.
      * intros ->; apply Hncl; rewrite Hl, in_app_iff; simpl; auto.
    + reflexivity.
    + rewrite in_app_iff, Hopen; auto.
    + intros n; rewrite !in_app_iff, Hopen; tauto.
Qed.

Lemma relax_fold current l : forall a,
  ainv a -> ordered a -> In current (cl_ _ a) -> (forall e, In e l -> In e (outs current)) ->
  let a' := fold_left (relax current) l a in
  ainv a' /\ ordered a' /\ cl_ _ a' = cl_ _ a /\
  (forall n, In n (op_ _ a ++ cl_ _ a) -> In n (op_ _ a' ++ cl_ _ a')) /\
  (forall e, In e l -> In (eto e) (op_ _ a' ++ cl_ _ a')).
Proof.
  induction l as [|e l IH]; intros a HI HO Hc Hl; simpl.
  - split; [exact HI|split; [exact HO|split; [reflexivity|split; [auto|intros e []]]]].
  - destruct (relax_inv current a e HI HO Hc (Hl e (or_introl eq_refl))) as [R1 [R2 [R3 [R4 R5]]]].
    destruct (IH (relax current a e) R1 R2) as [I1 [I2 [I3 [I4 I5]]]].
    + rewrite R3; exact Hc.
    + intros e' He'; apply Hl; right; exact He'.
    + split; [exact I1|split; [exact I2|split; [congruence|split; [auto|]]]].
      intros e' [<-|He']; auto.
Qed.

(* one iteration *)
Definition pop (a : ast) (current : nat) (rest : list nat) : ast :=
  mkAst P rest (cl_ _ a ++ [current]) (cost _ a) (est _ a) (par _ a).

Lemma pop_ok a current rest : ainv a -> ordered a ->
  sort_by (est _ a) (op_ _ a) = current :: rest -> isGoal current = false ->
  ainv (pop a current rest) /\ ordered (pop a current rest).
Proof.
  intros HI HO Hs Hg. pose proof HI as [V1 V2 V3 V4 V5 V6 V7].
  assert (Hin : forall x, In x (op_ P a) <-> x = current \/ In x rest).
  { intros x; rewrite <- (sort_by_In (est P a)), Hs; simpl; intuition. }
  assert (Hset : forall x, In x (rest ++ cl_ P a ++ [current]) <-> In x (op_ P a ++ cl_ P a)).
  { intros x; rewrite !in_app_iff, Hin; simpl; intuition. }
  assert (Hnd : NoDup (current :: rest)).
  { rewrite <- Hs; apply sort_by_NoDup. eapply NoDup_app_l; eauto. }
  assert (HP : ainv (pop a current rest)).
  { constructor; simpl.
    - inversion Hnd as [|? ? H1 H2]; subst. apply NoDup_app_intro.
      + exact H2.
      + apply NoDup_snoc; [eapply NoDup_app_r; eauto|].
        intros Hcl. assert (In current (op_ P a)) by (apply Hin; auto).
        exact (NoDup_app_disj _ _ _ V1 H Hcl).
      + intros x Hx. rewrite in_app_iff; simpl; intros [Hcl|[<-|[]]]; [|contradiction].
        assert (H : In x (op_ P a)) by (apply Hin; auto).
        exact (NoDup_app_disj _ _ _ V1 H Hcl).
    - intros n Hn; apply V2, Hset; exact Hn.
    - apply Hset; exact V3.
    - exact V4.
    - intros n Hn Hni; apply Hset in Hn. destruct (V5 n Hn Hni) as [e [E1 [E2 [E3 E4]]]].
      exists e; rewrite in_app_iff; auto.
    - intros n Hn; apply V6; intros H; apply Hn, Hset; exact H.
    - intros n; rewrite in_app_iff; simpl; intros [H|[<-|[]]]; auto. }
  assert (HPO : ordered (pop a current rest)).
  { intros n e l1 l2 Hl Hni Hp. simpl in Hl, Hp.
    assert (Hn : In n (op_ P a ++ cl_ P a)).
    { apply Hset. rewrite Hl, !in_app_iff; simpl; auto. }
    destruct l2 as [|z l2] using rev_ind.
    - apply app_inj_tail in Hl as [Hl ->]. destruct (V5 n Hn Hni) as [e' [E1 [E2 [E3 E4]]]].
      rewrite Hp in E1; injection E1 as <-. rewrite <- Hl; exact E4.
    - replace (l1 ++ n :: l2 ++ [z]) with ((l1 ++ n :: l2) ++ [z]) in Hl by (rewrite <- app_assoc; reflexivity).
      apply app_inj_tail in Hl as [Hl _]. eapply HO; eauto. }
  split; assumption.
Qed.

Lemma pop_inv a current rest : ainv a -> expanded a -> ordered a ->
  sort_by (est _ a) (op_ _ a) = current :: rest -> isGoal current = false ->
  let a' := fold_left (relax current) (outs current) (pop a current rest) in
  ainv a' /\ expanded a' /\ ordered a' /\ cl_ _ a' = cl_ _ a ++ [current] /\ In current (op_ _ a).
Proof.
  intros HI HE HO Hs Hg.
  assert (Hin : forall x, In x (op_ P a) <-> x = current \/ In x rest).
  { intros x; rewrite <- (sort_by_In (est P a)), Hs; simpl; intuition. }
  assert (Hset : forall x, In x (rest ++ cl_ P a ++ [current]) <-> In x (op_ P a ++ cl_ P a)).
  { intros x; rewrite !in_app_iff, Hin; simpl; intuition. }
  destruct (pop_ok a current rest HI HO Hs Hg) as [HP HPO].
  destruct (relax_fold current (outs current) (pop a current rest) HP HPO) as [R1 [R2 [R3 [R4 R5]]]].
  { simpl; rewrite in_app_iff; simpl; auto. } { auto. }
  split; [exact R1|split; [|split; [exact R2|split; [exact R3|apply Hin; auto]]]].
  intros u e Hu He. rewrite R3 in Hu; simpl in Hu; rewrite in_app_iff in Hu; simpl in Hu.
  destruct Hu as [Hu|[<-|[]]]; [|apply R5; exact He].
  apply R4; simpl; apply Hset; eapply HE; eauto.
Qed.

(* result of the search *)
Lemma find_loop_spec : forall fuel a, ainv a -> expanded a -> ordered a ->
  length N < fuel + length (cl_ _ a) ->
  (exists g a', find_loop fuel a = Ok (g, a') /\ isGoal g = true /\ In g (op_ _ a') /\ ainv a' /\ ordered a') \/
  (find_loop fuel a = Throw /\ forall g l, chain init l g -> isGoal g = false).
Proof.
  induction fuel as [|k IH]; intros a HI HE HO Hlen.
  - exfalso. pose proof (v_nd _ HI) as V1. pose proof (v_N _ HI) as V2.
    assert (length (cl_ P a) <= length N).
    { apply NoDup_incl_length; [eapply NoDup_app_r; eauto|].
      intros x Hx; apply V2; rewrite in_app_iff; auto. }
    lia.
  - cbn [AstarModel.find_loop].
    destruct (sort_by (est P a) (op_ P a)) as [|current rest] eqn:Es.
    + right; split; [reflexivity|].
      assert (Hop : op_ P a = []).
      { destruct (op_ P a) as [|x l] eqn:E1; [reflexivity|].
        assert (H : In x (sort_by (est P a) (x :: l))) by (apply sort_by_In; left; reflexivity).
        rewrite Es in H; destruct H. }
      assert (Hcl : forall l x y, In x (cl_ P a) -> chain x l y -> In y (cl_ P a)).
      { induction l as [|e l IHl]; simpl; intros x y Hx Hxy; [subst; exact Hx|].
        destruct Hxy as [H1 [H2 H3]]. apply (IHl (eto e) y); [|exact H3].
        pose proof (HE x e Hx H1) as H. rewrite Hop in H; exact H. }
      intros g l Hg. apply (v_goal _ HI). eapply Hcl; [|exact Hg].
      pose proof (v_init _ HI) as V3. rewrite Hop in V3; exact V3.
    + destruct (isGoal current) eqn:Eg.
      * left; exists current, a; split; [reflexivity|split; [exact Eg|split; [|auto]]].
        apply (sort_by_In (est P a)); rewrite Es; left; reflexivity.
      * destruct (pop_inv a current rest HI HE HO Es Eg) as [P1 [P2 [P3 [P4 P5]]]].
        apply IH; auto. unfold pop in P4. rewrite P4, app_length; simpl; lia.
Qed.

Lemma chain_In a l b : chain a l b -> forall e, In e l -> In e (outs (efrom e)).
Proof.
  revert a; induction l as [|e l IH]; simpl; intros a H e' He'; [destruct He'|].
  destruct H as [H1 [H2 H3]]. destruct He' as [<-|He']; [rewrite H2; exact H1|eapply IH; eauto].
Qed.

(* reading back the parents *)
Definition costs (a : ast) : Prop :=
  (cost _ a init == 0)%Q /\
  forall n e, par _ a n = Some e -> (cost _ a n == cost _ a (efrom e) + plen (epath e))%Q.
Lemma back_closed a : ainv a -> ordered a ->
  forall m l1 l2 n acc fuel, length l1 <= m -> cl_ _ a = l1 ++ n :: l2 -> m <= fuel ->
  exists l, back P fuel (par _ a) n acc = Ok (l ++ acc) /\ chain init l n /\ (costs a -> (pcost l == cost _ a n)%Q).
Proof.
  intros HI HO m; induction m as [|m IH]; intros l1 l2 n acc fuel Hm Hl Hf.
  - assert (l1 = []) as -> by (destruct l1; [reflexivity|simpl in Hm; lia]).
    destruct (Nat.eq_dec n init) as [->|Hni].
    + exists []. split; [destruct fuel; simpl; rewrite (v_pinit _ HI); reflexivity|split; [reflexivity|intros [K _]; simpl; rewrite K; reflexivity]].
    + destruct (v_par _ HI n) as [e [E1 [E2 [E3 E4]]]]; [rewrite in_app_iff, Hl; simpl; auto|exact Hni|].
      destruct (HO n e [] l2 Hl Hni E1).
  - destruct (Nat.eq_dec n init) as [->|Hni].
    + exists []. split; [destruct fuel; simpl; rewrite (v_pinit _ HI); reflexivity|split; [reflexivity|intros [K _]; simpl; rewrite K; reflexivity]].
    + destruct (v_par _ HI n) as [e [E1 [E2 [E3 E4]]]]; [rewrite !in_app_iff, Hl, in_app_iff; simpl; auto|exact Hni|].
      pose proof (HO n e l1 l2 Hl Hni E1) as Hin.
      apply in_split in Hin as [k1 [k2 Hk]].
      destruct fuel as [|f]; [lia|].
      destruct (IH k1 (k2 ++ n :: l2) (efrom e) (e :: acc) f) as [l [H1 [H2 H3]]].
      * rewrite Hk, app_length in Hm; simpl in Hm; lia.
      * rewrite Hl, Hk, <- app_assoc; reflexivity.
      * lia.
      * exists (l ++ [e]); split; [|split].
        -- cbn [back]. rewrite E1, H1. rewrite <- app_assoc; reflexivity.
        -- eapply chain_app; [exact H2|]. simpl; auto.
        -- intros K. rewrite pcost_app, (H3 K), (proj2 K n e E1). simpl; ring.
Qed.
Lemma back_open a n fuel : ainv a -> ordered a -> In n (op_ _ a ++ cl_ _ a) -> length N < fuel ->
  exists l, back P fuel (par _ a) n [] = Ok l /\ chain init l n /\ (costs a -> (pcost l == cost _ a n)%Q).
Proof.
  intros HI HO Hn Hf.
  assert (HC : length (cl_ P a) <= length N).
  { apply NoDup_incl_length; [eapply NoDup_app_r, (v_nd _ HI)|].
    intros x Hx; apply (v_N _ HI); rewrite in_app_iff; auto. }
  destruct (Nat.eq_dec n init) as [->|Hni].
  - exists []. split; [destruct fuel; simpl; rewrite (v_pinit _ HI); reflexivity|split; [reflexivity|intros [K _]; simpl; rewrite K; reflexivity]].
  - destruct (v_par _ HI n Hn Hni) as [e [E1 [E2 [E3 E4]]]].
    apply in_split in E4 as [k1 [k2 Hk]].
    destruct fuel as [|f]; [lia|].
    destruct (back_closed a HI HO (length k1) k1 k2 (efrom e) [e] f) as [l [H1 [H2 H3]]]; [lia|exact Hk| |].
    + rewrite Hk, app_length in HC; simpl in HC; lia.
    + exists (l ++ [e]); split; [cbn [back]; rewrite E1; exact H1|split].
      * eapply chain_app; [exact H2|simpl; auto].
      * intros K. rewrite pcost_app, (H3 K), (proj2 K n e E1). simpl; ring.
Qed.

Theorem solution_spec fuel : length N < fuel ->
  (exists l g, solution P plen outs goals h fuel init = Ok l /\ chain init l g /\ In g goals) \/
  (solution P plen outs goals h fuel init = Throw /\ forall g l, chain init l g -> ~ In g goals).
Proof.
  intros Hf. destruct ainv_start as [S1 [S2 S3]]. unfold solution, findPath.
  fold start. destruct (find_loop_spec fuel start S1 S2 S3) as [[g [a' [H1 [H2 [H3 [H4 H5]]]]]]|[H1 H2]].
  - simpl; lia.
  - left. rewrite H1; cbn [bind].
    destruct (back_open a' g fuel H4 H5) as [l [L1 [L2 _]]]; [rewrite in_app_iff; auto|exact Hf|].
    exists l, g; split; [exact L1|split; [exact L2|]]. apply mem_In; exact H2.
  - right. rewrite H1; split; [reflexivity|]. intros g l Hg Hin. apply mem_In in Hin.
    unfold AstarModel.isGoal in H2. specialize (H2 g l Hg). unfold mem in Hin. congruence.
Qed.

(* ------------------------------------------------------------------ *)
(* Optimality with a consistent heuristic                              *)
Section Consistent.
Hypothesis h_cons : forall u e, In u N -> In e (outs u) -> (h u <= plen (epath e) + h (eto e))%Q.

(* cost of the parent chain, closed nodes optimal *)
Record cinv (a : ast) : Prop := {
  c_cost : costs a;
  c_est : forall n, In n (op_ _ a) -> n <> init -> (est _ a n == cost _ a n + h n)%Q;
  c_opt : forall u l, In u (cl_ _ a) -> chain init l u -> (cost _ a u <= pcost l)%Q;
  c_first : In init (op_ _ a) -> op_ _ a = [init] /\ cl_ _ a = []
}.
(* an edge out of a closed node has been relaxed *)
Definition rlx (a : ast) (u : nat) (e : edge P) : Prop :=
  In (eto e) (op_ _ a ++ cl_ _ a) /\ (cost _ a (eto e) <= cost _ a u + plen (epath e))%Q.

Lemma chain_h u l v : In u N -> chain u l v -> (h u <= pcost l + h v)%Q.
Proof.
  revert u; induction l as [|e l IH]; simpl; intros u Hu; [intros ->; lra|].
  intros [H1 [H2 H3]]. pose proof (h_cons u e Hu H1). destruct (N_out u e Hu H1) as [_ Ht].
  pose proof (IH _ Ht H3). lra.
Qed.

Lemma relax_cinv current a e :
  ainv a -> ordered a -> cinv a -> In current (cl_ _ a) -> In e (outs current) ->
  let a' := relax current a e in
  cinv a' /\ (forall u e', In u (cl_ _ a) -> rlx a u e' -> rlx a' u e') /\ rlx a' current e.
Proof.
  intros HI HO HC Hc He a'. pose proof HI as [V1 V2 V3 V4 V5 V6 V7].
  pose proof HC as [[C1 C2] C3 C4 C5].
  assert (HcN : In current N) by (apply V2; rewrite in_app_iff; auto).
  destruct (N_out current e HcN He) as [Hef Het].
  destruct (relax_inv current a e HI HO Hc He) as [I1 [I2 [I3 [I4 I5]]]].
  assert (Hcur : exists l, chain init l current /\ (pcost l == cost _ a current)%Q).
  { destruct (back_open a current (S (length N)) HI HO) as [l [_ [L2 L3]]];
      [rewrite in_app_iff; auto|lia|]. exists l; split; [exact L2|apply L3; split; assumption]. }
  destruct (relax_cases current a e) as [[Ha [Hin Hor]]|[Hncl [Hlt Ha]]]; subst a'.
  - rewrite Ha. split; [exact HC|split; [auto|]]. split; [exact Hin|].
    destruct Hor as [Hcl|Hle]; [|exact Hle].
    destruct Hcur as [l [L1 L2]]. rewrite <- L2.
    apply Qle_trans with (pcost (l ++ [e])).
    + apply C4; [exact Hcl|]. eapply chain_app; [exact L1|simpl; auto].
    + rewrite pcost_app; simpl; lra.
  - set (child := eto e) in *.
    assert (Hci : child <> init).
    { intros Heq. rewrite Heq in *. rewrite in_app_iff in V3. destruct V3 as [V3|V3]; [|contradiction].
      destruct (C5 V3) as [_ H]. rewrite H in Hc; destruct Hc. }
    assert (Hcc : forall u, In u (cl_ P a) -> child <> u) by (intros u Hu ->; auto).
    rewrite Ha in I4, I5 |- *; cbn [op_ cl_ cost est par] in *.
    split; [|split].
    + constructor; cbn [op_ cl_ cost est par].
      * split; cbn [cost par].
        -- rewrite upd_neq by congruence; exact C1.
        -- intros n e' Hp. destruct (Nat.eq_dec n child) as [->|Hn].
           ++ rewrite upd_eq in Hp; injection Hp as <-. rewrite upd_eq, Hef.
              rewrite upd_neq by (apply not_eq_sym, Hcc, Hc). reflexivity.
           ++ rewrite upd_neq in Hp by assumption. rewrite upd_neq by assumption.
              rewrite upd_neq; [apply C2; exact Hp|].
              assert (Hn' : In n (op_ P a ++ cl_ P a)).
              { destruct (in_dec Nat.eq_dec n (op_ P a ++ cl_ P a)) as [Hi|Hi]; [exact Hi|].
                rewrite (V6 n Hi) in Hp; discriminate. }
              assert (Hni : n <> init) by (intros ->; congruence).
              destruct (V5 n Hn' Hni) as [e2 [E1 [E2 [E3 E4]]]].
              rewrite Hp in E1; injection E1 as <-. intros Hx; apply (Hcc _ E4); congruence.
      * intros n Hn Hni. destruct (Nat.eq_dec n child) as [->|Hnc]; [rewrite !upd_eq; reflexivity|].
        rewrite !upd_neq by assumption. apply C3; [|exact Hni].
        destruct (mem child (op_ P a)); [exact Hn|]. rewrite in_app_iff in Hn; simpl in Hn.
        destruct Hn as [Hn|[Hn|[]]]; congruence || exact Hn.
      * intros u l Hu Hl. rewrite upd_neq by (apply not_eq_sym, Hcc, Hu). apply C4; assumption.
      * intros Hi. exfalso.
        assert (Hi' : In init (op_ P a)).
        { destruct (mem child (op_ P a)); [exact Hi|]. rewrite in_app_iff in Hi; simpl in Hi.
          destruct Hi as [Hi|[Hi|[]]]; [exact Hi|congruence]. }
        destruct (C5 Hi') as [_ H]. rewrite H in Hc; destruct Hc.
    + intros u e' Hu [R1 R2]; split; cbn [op_ cl_ cost]; [apply I5; exact R1|].
      rewrite (upd_neq _ _ _ u) by (apply not_eq_sym, Hcc, Hu).
      destruct (Nat.eq_dec (eto e') child) as [Heq|Hn]; [|rewrite upd_neq by assumption; exact R2].
      rewrite Heq, upd_eq. rewrite Heq in R1, R2. rewrite in_app_iff in R1; destruct R1 as [R1|R1]; [|contradiction].
      apply Qlt_le_weak in Hlt; [|exact R1]. lra.
    + split; cbn [op_ cl_ cost]; [exact I4|]. fold child. rewrite upd_eq.
      rewrite upd_neq by (apply not_eq_sym, Hcc, Hc). lra.
Qed.

Lemma relax_fold_cinv current l : forall a,
  ainv a -> ordered a -> cinv a -> In current (cl_ _ a) -> (forall e, In e l -> In e (outs current)) ->
  let a' := fold_left (relax current) l a in
  cinv a' /\ (forall u e', In u (cl_ _ a) -> rlx a u e' -> rlx a' u e') /\ (forall e, In e l -> rlx a' current e).
Proof.
  induction l as [|e l IH]; intros a HI HO HC Hc Hl; simpl.
  - split; [exact HC|split; [auto|intros e []]].
  - destruct (relax_inv current a e HI HO Hc (Hl e (or_introl eq_refl))) as [R1 [R2 [R3 [R4 R5]]]].
    destruct (relax_cinv current a e HI HO HC Hc (Hl e (or_introl eq_refl))) as [Q1 [Q2 Q3]].
    destruct (IH (relax current a e) R1 R2 Q1) as [I1 [I2 I3]].
    + rewrite R3; exact Hc.
    + intros e' He'; apply Hl; right; exact He'.
    + rewrite R3 in I2. split; [exact I1|split; [auto|]]. intros e' [<-|He']; auto.
Qed.

Lemma chain_exit (cl : list nat) l : forall x n, In x cl -> ~ In n cl -> chain x l n ->
  exists l1 u e l2, chain x l1 u /\ In u cl /\ In e (outs u) /\ ~ In (eto e) cl /\ chain (eto e) l2 n /\
    (pcost l == pcost l1 + (plen (epath e) + pcost l2))%Q.
Proof.
  induction l as [|e l IH]; simpl; intros x n Hx Hn Hl; [congruence|].
  destruct Hl as [H1 [H2 H3]]. destruct (in_dec Nat.eq_dec (eto e) cl) as [Hi|Hi].
  - destruct (IH (eto e) n Hi Hn H3) as [l1 [u [e' [l2 [K1 [K2 [K3 [K4 [K5 K6]]]]]]]]].
    exists (e :: l1), u, e', l2. simpl. repeat (split; [assumption || auto|]). rewrite K6; ring.
  - exists [], x, e, l. simpl. repeat (split; [assumption || reflexivity|]). ring.
Qed.

Lemma min_opt a current rest n l : ainv a -> cinv a ->
  (forall u e, In u (cl_ _ a) -> In e (outs u) -> rlx a u e) ->
  sort_by (est _ a) (op_ _ a) = current :: rest ->
  ~ In n (cl_ _ a) -> chain init l n -> (cost _ a current + h current <= pcost l + h n)%Q.
Proof.
  intros HI HC HR Hs Hn Hl. pose proof HC as [[C1 C2] C3 C4 C5].
  assert (Hcur : In current (op_ P a)) by (apply (sort_by_In (est P a)); rewrite Hs; left; reflexivity).
  destruct (Nat.eq_dec current init) as [->|Hci].
  - rewrite C1. pose proof (chain_h init l n N_init Hl). lra.
  - assert (Hicl : In init (cl_ P a)).
    { pose proof (v_init _ HI) as H; rewrite in_app_iff in H; destruct H as [H|H]; [|exact H].
      destruct (C5 H) as [K _]. rewrite K in Hcur; destruct Hcur as [Hx|[]]; congruence. }
    destruct (chain_exit (cl_ P a) l init n Hicl Hn Hl) as [l1 [u [e [l2 [K1 [K2 [K3 [K4 [K5 K6]]]]]]]]].
    destruct (HR u e K2 K3) as [R1 R2]. rewrite in_app_iff in R1; destruct R1 as [R1|R1]; [|contradiction].
    assert (HuN : In u N) by (apply (v_N _ HI); rewrite in_app_iff; auto).
    destruct (N_out u e HuN K3) as [_ HtN].
    pose proof (C4 u l1 K2 K1) as Hu. pose proof (chain_h _ _ _ HtN K5) as Hh.
    assert (Hne : eto e <> init) by (intros Hx; rewrite Hx in K4; contradiction).
    pose proof (C3 current Hcur Hci) as E1. pose proof (C3 (eto e) R1 Hne) as E2.
    assert (Hle : (est _ a current <= est _ a (eto e))%Q).
    { pose proof (sort_by_head (est P a) (op_ P a)) as Hh'. rewrite Hs in Hh'.
      apply (sort_by_In (est P a)) in R1. rewrite Hs in R1. destruct R1 as [R1|R1].
      - rewrite <- R1. apply Qle_refl.
      - apply Hh'; exact R1. }
    rewrite E1, E2 in Hle. rewrite K6. lra.
Qed.

Lemma pop_cinv a current rest : ainv a -> expanded a -> ordered a -> cinv a ->
  (forall u e, In u (cl_ _ a) -> In e (outs u) -> rlx a u e) ->
  sort_by (est _ a) (op_ _ a) = current :: rest -> isGoal current = false ->
  let a' := fold_left (relax current) (outs current) (pop a current rest) in
  cinv a' /\ (forall u e, In u (cl_ _ a') -> In e (outs u) -> rlx a' u e).
Proof.
  intros HI HE HO HC HR Hs Hg. pose proof HI as [V1 V2 V3 V4 V5 V6 V7].
  pose proof HC as [[C1 C2] C3 C4 C5].
  assert (Hin : forall x, In x (op_ P a) <-> x = current \/ In x rest).
  { intros x; rewrite <- (sort_by_In (est P a)), Hs; simpl; intuition. }
  assert (Hset : forall x, In x (rest ++ cl_ P a ++ [current]) <-> In x (op_ P a ++ cl_ P a)).
  { intros x; rewrite !in_app_iff, Hin; simpl; intuition. }
  assert (Hnd : NoDup (current :: rest)).
  { rewrite <- Hs; apply sort_by_NoDup. eapply NoDup_app_l; eauto. }
  destruct (pop_ok a current rest HI HO Hs Hg) as [HP HPO].
  assert (HPC : cinv (pop a current rest)).
  { constructor; cbn [pop op_ cl_ cost est par].
    - split; assumption.
    - intros n Hn; apply C3, Hin; auto.
    - intros u l Hu Hl. rewrite in_app_iff in Hu; simpl in Hu. destruct Hu as [Hu|[<-|[]]]; [auto|].
      assert (Hnc : ~ In current (cl_ P a)).
      { intros Hcl. apply (NoDup_app_disj _ _ current V1); [apply Hin; auto|exact Hcl]. }
      pose proof (min_opt a current rest current l HI HC HR Hs Hnc Hl). lra.
    - intros Hi. exfalso. assert (Hi' : In init (op_ P a)) by (apply Hin; auto).
      destruct (C5 Hi') as [K _]. rewrite K in Hs; simpl in Hs. injection Hs as <- <-. destruct Hi. }
  assert (HPR : forall u e, In u (cl_ _ a) -> rlx a u e -> rlx (pop a current rest) u e).
  { intros u e Hu [R1 R2]; split; cbn [pop op_ cl_ cost]; [apply Hset; exact R1|exact R2]. }
  assert (Hcc : In current (cl_ _ (pop a current rest))) by (simpl; rewrite in_app_iff; simpl; auto).
  destruct (relax_fold current (outs current) (pop a current rest) HP HPO Hcc ltac:(auto)) as [R1 [R2 [R3 [R4 R5]]]].
  destruct (relax_fold_cinv current (outs current) (pop a current rest) HP HPO HPC Hcc ltac:(auto)) as [Q1 [Q2 Q3]].
  split; [exact Q1|]. intros u e Hu He. rewrite R3 in Hu. simpl in Hu; rewrite in_app_iff in Hu; simpl in Hu.
  destruct Hu as [Hu|[<-|[]]]; [|apply Q3; exact He].
  apply Q2; [simpl; rewrite in_app_iff; auto|]. apply HPR; [exact Hu|apply HR; assumption].
Qed.

Hypothesis h_goal : forall g, In g goals -> (h g == 0)%Q.

Lemma isGoal_In g : isGoal g = true <-> In g goals.
Proof. unfold AstarModel.isGoal; apply mem_In. Qed.

Lemma find_loop_opt : forall fuel a g a', ainv a -> expanded a -> ordered a -> cinv a ->
  (forall u e, In u (cl_ _ a) -> In e (outs u) -> rlx a u e) ->
  find_loop fuel a = Ok (g, a') ->
  costs a' /\ ainv a' /\ ordered a' /\ In g (op_ _ a') /\ In g goals /\
  forall g' l, In g' goals -> chain init l g' -> (cost _ a' g <= pcost l)%Q.
Proof.
  induction fuel as [|k IH]; intros a g a' HI HE HO HC HR Hf; [discriminate|].
  cbn [AstarModel.find_loop] in Hf.
  destruct (sort_by (est P a) (op_ P a)) as [|current rest] eqn:Es; [discriminate|].
  destruct (isGoal current) eqn:Eg.
  - injection Hf as <- <-. split; [apply HC|]. split; [exact HI|split; [exact HO|split; [|split]]].
    + apply (sort_by_In (est P a)); rewrite Es; left; reflexivity.
    + apply isGoal_In; exact Eg.
    + intros g' l Hg' Hl.
      assert (Hn : ~ In g' (cl_ P a)).
      { intros H. apply (v_goal _ HI) in H. apply isGoal_In in Hg'. congruence. }
      pose proof (min_opt a current rest g' l HI HC HR Es Hn Hl) as Hm.
      apply isGoal_In in Eg. rewrite (h_goal _ Eg), (h_goal _ Hg') in Hm. lra.
  - destruct (pop_inv a current rest HI HE HO Es Eg) as [P1 [P2 [P3 [P4 P5]]]].
    destruct (pop_cinv a current rest HI HE HO HC HR Es Eg) as [P6 P7].
    eapply IH; eauto.
Qed.

Theorem solution_optimal fuel l : length N < fuel ->
  solution P plen outs goals h fuel init = Ok l ->
  forall g' l', In g' goals -> chain init l' g' -> (pcost l <= pcost l')%Q.
Proof.
  intros Hf Hs g' l' Hg' Hl'. destruct ainv_start as [S1 [S2 S3]].
  unfold solution, findPath in Hs. fold start in Hs.
  destruct (find_loop fuel start) as [[g a']| | |] eqn:El; try discriminate. cbn [bind] in Hs.
  assert (SC : cinv start).
  { constructor; simpl.
    - split; [reflexivity|discriminate].
    - intros n [<-|[]] H; congruence.
    - intros u l0 [].
    - auto. }
  assert (SR : forall u e, In u (cl_ _ start) -> In e (outs u) -> rlx start u e) by (intros u e []).
  destruct (find_loop_opt fuel start g a' S1 S2 S3 SC SR El) as [K1 [K2 [K3 [K4 [K5 K6]]]]].
  destruct (back_open a' g fuel K2 K3) as [l0 [L1 [L2 L3]]]; [rewrite in_app_iff; auto|exact Hf|].
  rewrite L1 in Hs; injection Hs as <-. rewrite (L3 K1). exact (K6 g' l' Hg' Hl').
Qed.
End Consistent.
End Astar.

(* ------------------------------------------------------------------ *)
(* Instantiation on roadmaps                                           *)
From Verif Require Import RoadmapSpec RoadmapProofs RoadmapProofs2 RoadmapProofs3 RoadmapProofs4 AstarSpec.

Section OnRoadmap.
Context {C P : Type}.
Variable ceqb : C -> C -> bool.
Variable dist : C -> C -> Q.
Variable plen : P -> Q.
Variable prev : P -> P.
Notation built := (@built C P ceqb dist plen prev).
Implicit Types s t : rm C P.

Lemma outs_ok s : built s -> forall n e, In n (nodes s) -> In e (roadmap_outs s n) -> efrom e = n /\ In (eto e) (nodes s).
Proof.
  intros HB n e Hn He. pose proof (built_inv _ _ _ _ _ HB) as HI. pose proof (i_E _ HI) as HE.
  unfold roadmap_outs in He. destruct (ninfo s n) as [nd|] eqn:En; [|destruct He].
  destruct (e_out _ HE n nd e En He) as [H1 H2]. split; [exact H2|]. apply (e_end _ HE e H1).
Qed.

Lemma chain_edges s l : built s -> forall a b, chain P (roadmap_outs s) a l b -> edge_path s a l b.
Proof.
  intros HB. induction l as [|e l IH]; simpl; intros a b; [auto|].
  intros [H1 [H2 H3]]. split; [|split; [exact H2|apply IH; exact H3]].
  unfold roadmap_outs in H1. destruct (ninfo s a) as [nd|] eqn:En; [|destruct H1].
  apply (e_out _ (i_E _ (built_inv _ _ _ _ _ HB)) a nd e En H1).
Qed.

Lemma edges_chain s l : built s -> forall a b, In a (nodes s) -> edge_path s a l b ->
  exists l', chain P (roadmap_outs s) a l' b /\ (single_edges s -> l' = l).
Proof.
  intros HB. pose proof (i_E _ (built_inv _ _ _ _ _ HB)) as HE.
  pose proof (w_N _ (i_wf _ (built_inv _ _ _ _ _ HB))) as HN.
  induction l as [|e l IH]; simpl; intros a b Ha; [intros ->; exists []; simpl; auto|].
  intros [H1 [H2 H3]]. destruct (e_end _ HE e H1) as [_ Ht].
  destruct (IH (eto e) b Ht H3) as [l' [L1 L2]].
  apply (n_def _ HN) in Ha. destruct (ninfo s a) as [nd|] eqn:En; [|congruence].
  rewrite <- H2 in En. destruct (e_outc _ HE e nd H1 En) as [e' [E1 E2]].
  exists (e' :: l'). simpl. rewrite E2. unfold roadmap_outs. rewrite H2 in En. rewrite En.
  destruct (e_out _ HE a nd e' En E1) as [E3 E4].
  split; [auto|]. intros HS. rewrite (L2 HS). rewrite (HS e' e E3 H1); [reflexivity|congruence|exact E2].
Qed.

Lemma pcost_path l : pcost P plen l = path_cost plen l.
Proof. induction l as [|e l IH]; simpl; [|rewrite IH]; reflexivity. Qed.

Lemma edge_path_reach s l : forall a b, edge_path s a l b -> connected_to s a b.
Proof.
  induction l as [|e l IH]; simpl; intros a b; [intros ->; apply reach_refl|].
  intros [H1 [H2 H3]]. eapply reach_step; [|apply IH; exact H3]. exists e; auto.
Qed.
Lemma reach_edge_path s a b : connected_to s a b -> exists l, edge_path s a l b.
Proof.
  induction 1 as [a|a b c [e [H1 [H2 H3]]] _ [l IH]]; [exists []; reflexivity|].
  exists (e :: l); simpl. rewrite H3; auto.
Qed.

Lemma astar_l s i : built s -> initN s = Some i ->
  (exists l g, roadmap_astar dist plen s = Ok l /\ In g (goals s) /\ edge_path s i l g) \/
  (roadmap_astar dist plen s = Throw /\ forall g, In g (goals s) -> ~ connected_to s i g).
Proof.
  intros HB Hi. pose proof (built_inv _ _ _ _ _ HB) as HI.
  assert (Hin : In i (nodes s)) by (apply (proj1 (i_R _ HI)); exact Hi).
  unfold roadmap_astar; rewrite Hi.
  destruct (solution_spec P plen (roadmap_outs s) (goals s) (heuristic dist s) i (nodes s) Hin (outs_ok s HB)
              (S (length (nodes s)))) as [[l [g [H1 [H2 H3]]]]|[H1 H2]]; [lia| |].
  - left. exists l, g. split; [exact H1|split; [exact H3|]]. apply chain_edges; assumption.
  - right. split; [exact H1|]. intros g Hg Hr. apply reach_edge_path in Hr as [l Hl].
    destruct (edges_chain s l HB i g Hin Hl) as [l' [L1 _]]. exact (H2 g l' L1 Hg).
Qed.

(* the heuristic is the distance to the nearest goal *)
Definition hstep s (q : C) (acc : option Q) (g : nat) : option Q :=
  match ninfo s g with
  | None => acc
  | Some ng => let d := dist q (ncfg ng) in
               match acc with
               | None => Some d
               | Some r => if Qlt_le_dec d r then Some d else Some r
               end
  end.
Lemma hfold s q gs : forall acc, (forall g, In g gs -> ninfo s g <> None) ->
  match fold_left (hstep s q) gs acc with
  | None => acc = None /\ gs = []
  | Some r => (acc = Some r \/ exists g ng, In g gs /\ ninfo s g = Some ng /\ r = dist q (ncfg ng)) /\
              (forall r0, acc = Some r0 -> (r <= r0)%Q) /\
              (forall g ng, In g gs -> ninfo s g = Some ng -> (r <= dist q (ncfg ng))%Q)
  end.
Proof.
  induction gs as [|g gs IH]; intros acc Hd; simpl.
  - destruct acc as [r|]; [|auto]. split; [auto|split].
    + intros r0 H; injection H as ->; apply Qle_refl.
    + intros g ng [].
  - assert (Hd' : forall g', In g' gs -> ninfo s g' <> None) by (intros g' H; apply Hd; right; exact H).
    specialize (IH (hstep s q acc g) Hd').
    assert (Hg : exists ng, ninfo s g = Some ng).
    { destruct (ninfo s g) as [ng|] eqn:E; [eauto|]. exfalso; apply (Hd g); [left; reflexivity|exact E]. }
    destruct Hg as [ng Hg].
    assert (Hstep : exists r1, hstep s q acc g = Some r1 /\ (r1 <= dist q (ncfg ng))%Q /\
              (forall r0, acc = Some r0 -> (r1 <= r0)%Q) /\ (acc = Some r1 \/ r1 = dist q (ncfg ng))).
    { unfold hstep; rewrite Hg. destruct acc as [r0|].
      - destruct (Qlt_le_dec (dist q (ncfg ng)) r0) as [H|H]; eexists; (split; [reflexivity|]).
        + split; [apply Qle_refl|split; [intros r1 K; injection K as <-; apply Qlt_le_weak; exact H|auto]].
        + split; [exact H|split; [intros r1 K; injection K as <-; apply Qle_refl|auto]].
      - eexists; split; [reflexivity|split; [apply Qle_refl|split; [discriminate|auto]]]. }
    destruct Hstep as [r1 [E1 [E2 [E3 E4]]]]. rewrite E1 in *.
    destruct (fold_left (hstep s q) gs (Some r1)) as [r|]; [|destruct IH; discriminate].
    destruct IH as [I1 [I2 I3]]. specialize (I2 r1 eq_refl). split; [|split].
    + destruct I1 as [I1|[g' [ng' [K1 [K2 K3]]]]].
      * injection I1 as <-. destruct E4 as [E4|E4]; [auto|]. right; exists g, ng; auto.
      * right; exists g', ng'; auto.
    + intros r0 Hr0. apply Qle_trans with r1; auto.
    + intros g' ng' [<-|Hg'] Hng'.
      * rewrite Hg in Hng'; injection Hng' as <-. apply Qle_trans with r1; auto.
      * eapply I3; eauto.
Qed.
Lemma heuristic_unfold s n nd : ninfo s n = Some nd ->
  heuristic dist s n = match fold_left (hstep s (ncfg nd)) (goals s) None with None => 0%Q | Some r => r end.
Proof. intros H; unfold heuristic; rewrite H; reflexivity. Qed.

(* no chain of registered out-edges to a goal is shorter *)
Lemma astar_optimal_outs s i l : built s -> initN s = Some i ->
  heuristic_consistent dist plen s ->
  roadmap_astar dist plen s = Ok l ->
  forall g' l2, In g' (goals s) -> chain P (roadmap_outs s) i l2 g' ->
    (path_cost plen l <= path_cost plen l2)%Q.
Proof.
  intros HB Hi [T1 [T2 [T3 T4]]] Hs g' l2 Hg' L1. pose proof (built_inv _ _ _ _ _ HB) as HI.
  pose proof (w_N _ (i_wf _ HI)) as HN. pose proof (i_E _ HI) as HE.
  assert (Hin : In i (nodes s)) by (apply (proj1 (i_R _ HI)); exact Hi).
  assert (Hgd : forall g, In g (goals s) -> ninfo s g <> None).
  { intros g Hg. apply (n_def _ HN). apply (proj2 (i_R _ HI)); exact Hg. }
  unfold roadmap_astar in Hs; rewrite Hi in Hs.
  rewrite <- !pcost_path.
  assert (Hcons : forall u e, In u (nodes s) -> In e (roadmap_outs s u) ->
            (heuristic dist s u <= plen (epath e) + heuristic dist s (eto e))%Q).
  { intros u e Hu He. destruct (outs_ok s HB u e Hu He) as [Hf Ht].
    apply (n_def _ HN) in Hu, Ht.
    unfold roadmap_outs in He.
    destruct (ninfo s u) as [nu|] eqn:Eu; [|congruence].
    destruct (ninfo s (eto e)) as [nv|] eqn:Ev; [|congruence].
    rewrite (heuristic_unfold s u nu Eu), (heuristic_unfold s _ nv Ev).
    pose proof (hfold s (ncfg nu) (goals s) None Hgd) as Fu.
    pose proof (hfold s (ncfg nv) (goals s) None Hgd) as Fv.
    destruct (e_out _ HE u nu e Eu He) as [HeE _].
    assert (Hlen : (dist (ncfg nu) (ncfg nv) <= plen (epath e))%Q).
    { apply (T4 e HeE); [exists nu; rewrite Hf; auto|exists nv; auto]. }
    destruct (fold_left (hstep s (ncfg nv)) (goals s) None) as [rv|].
    - destruct Fv as [[Fv|[g [ng [G1 [G2 ->]]]]] _]; [discriminate|].
      destruct (fold_left (hstep s (ncfg nu)) (goals s) None) as [ru|].
      + destruct Fu as [_ [_ Fu]]. specialize (Fu g ng G1 G2). pose proof (T3 (ncfg nu) (ncfg nv) (ncfg ng)). lra.
      + destruct Fu as [_ Fu]. rewrite Fu in G1; destruct G1.
    - destruct Fv as [_ Fv]. rewrite Fv in Hg'; destruct Hg'. }
  assert (Hgoal : forall g, In g (goals s) -> (heuristic dist s g == 0)%Q).
  { intros g Hg. pose proof (Hgd g Hg) as Hgn. destruct (ninfo s g) as [ng|] eqn:Eg; [|congruence].
    rewrite (heuristic_unfold s g ng Eg).
    pose proof (hfold s (ncfg ng) (goals s) None Hgd) as F.
    destruct (fold_left (hstep s (ncfg ng)) (goals s) None) as [r|]; [|reflexivity].
    destruct F as [F1 [_ F3]]. specialize (F3 g ng Hg Eg). rewrite (T2 (ncfg ng)) in F3.
    destruct F1 as [F1|[g2 [n2 [_ [_ ->]]]]]; [discriminate|].
    apply Qle_antisym; [exact F3|apply T1]. }
  exact (solution_optimal P plen (roadmap_outs s) (goals s) (heuristic dist s) i (nodes s) Hin (outs_ok s HB)
    Hcons Hgoal (S (length (nodes s))) l ltac:(lia) Hs g' l2 Hg' L1).
Qed.

Lemma astar_optimal_l s i l : built s -> initN s = Some i ->
  heuristic_consistent dist plen s ->
  roadmap_astar dist plen s = Ok l ->
  forall g' l', In g' (goals s) -> edge_path s i l' g' -> single_edges s ->
    (path_cost plen l <= path_cost plen l')%Q.
Proof.
  intros HB Hi HC Hs g' l' Hg' Hl' HS. pose proof (built_inv _ _ _ _ _ HB) as HI.
  assert (Hin : In i (nodes s)) by (apply (proj1 (i_R _ HI)); exact Hi).
  destruct (edges_chain s l' HB i g' Hin Hl') as [l2 [L1 L2]]. rewrite <- (L2 HS).
  exact (astar_optimal_outs s i l HB Hi HC Hs g' l2 Hg' L1).
Qed.
End OnRoadmap.
