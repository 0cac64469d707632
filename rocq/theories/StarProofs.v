(* Parent maps of bidirectional RRT*. *)
From Verif Require Import Base Reach RoadmapModel RoadmapSpec RoadmapProofs2 StarModel StarSpec.
From Coq Require Import Lqa.

Section S.
Context {C P : Type}.
Variable plen : P -> Q.
Hypothesis HL : forall p, (0 <= plen p)%Q.
Notation pm := (pmap P).
Notation cost_to := (cost_to plen).
Notation computeCost := (computeCost P plen).
Notation lowered := (lowered plen).
Notation tree := (@tree C P plen).
Implicit Types m : pm.

Lemma cost_fun m n c : cost_to m n c -> forall c', cost_to m n c' -> c = c'.
Proof.
  induction 1 as [n H|n e c H _ IH]; intros c' H'; inversion H' as [? X|? e' c2 X Y]; subst; try congruence.
  rewrite H in X; injection X as <-. rewrite (IH _ Y). reflexivity.
Qed.
Lemma cost_nonneg m n c : cost_to m n c -> (0 <= c)%Q.
Proof. induction 1 as [|n e c H _ IH]; [lra|]. pose proof (HL (epath e)); lra. Qed.
Lemma cost_key m n c : cost_to m n c -> m n <> None.
Proof. destruct 1; congruence. Qed.
Lemma lowered_refl m : lowered m m.
Proof. intros n c H; exists c; split; [exact H|lra]. Qed.
Lemma lowered_trans m1 m2 m3 : lowered m1 m2 -> lowered m2 m3 -> lowered m1 m3.
Proof.
  intros H1 H2 n c H. apply H1 in H as [c1 [A1 B1]]. apply H2 in A1 as [c2 [A2 B2]]. exists c2; split; [exact A2|lra].
Qed.
Lemma lowered_key s root m m' n : tree s root m -> lowered m m' -> m n <> None -> m' n <> None.
Proof. intros HT HL' Hn. apply (t_cost _ _ _ _ HT) in Hn as [c Hc]. apply HL' in Hc as [c' [H _]]. eapply cost_key; exact H. Qed.

(* --------------------------------------------------------------- computing *)
Inductive chain m : nat -> list nat -> Prop :=
| ch_root n : m n = Some None -> chain m n [n]
| ch_step n e l : m n = Some (Some e) -> chain m (efrom e) l -> chain m n (n :: l).
Lemma cost_chain m n c : cost_to m n c -> exists l, chain m n l.
Proof. induction 1 as [n H|n e c H _ [l IH]]; [exists [n]; constructor; exact H|exists (n :: l); econstructor; eassumption]. Qed.
Lemma chain_fun m n l : chain m n l -> forall l', chain m n l' -> l = l'.
Proof.
  induction 1 as [n H|n e l H _ IH]; intros l' H'; inversion H' as [? X|? e' l2 X Y]; subst; try congruence.
  rewrite H in X; injection X as <-. rewrite (IH _ Y). reflexivity.
Qed.
Lemma chain_suffix m n l : chain m n l -> forall x, In x l -> exists l1 l2, l = l1 ++ l2 /\ chain m x l2.
Proof.
  induction 1 as [n H|n e l H HC IH]; intros x Hx.
  - destruct Hx as [<-|[]]. exists [], [n]; split; [reflexivity|constructor; exact H].
  - destruct Hx as [<-|Hx]; [exists [], (n :: l); split; [reflexivity|econstructor; eassumption]|].
    destruct (IH x Hx) as [l1 [l2 [-> H2]]]. exists (n :: l1), l2; auto.
Qed.
Lemma chain_nodup m n l : chain m n l -> NoDup l.
Proof.
  induction 1 as [n H|n e l H HC IH]; [constructor; [intros []|constructor]|]. constructor; [|exact IH].
  intro Hi. destruct (chain_suffix _ _ _ HC _ Hi) as [l1 [l2 [E H2]]].
  pose proof (chain_fun _ _ _ H2 _ (ch_step _ _ _ _ H HC)) as X. subst l2.
  apply (f_equal (@length nat)) in E. rewrite app_length in E. cbn [length] in E. lia.
Qed.
Lemma chain_keys m n l : chain m n l -> forall x, In x l -> m x <> None.
Proof. induction 1; intros x [<-|Hx]; try congruence; [destruct Hx|auto]. Qed.
Lemma compute_chain m n c : cost_to m n c -> forall l, chain m n l -> forall f, length l <= f -> computeCost f m n = Ok c.
Proof.
  induction 1 as [n H|n e c H _ IH]; intros l Hl f Hf; inversion Hl as [? X|? e' l2 X Y]; subst; try congruence; cbn [length] in Hf.
  - destruct f as [|f]; [lia|]. cbn [StarModel.computeCost]. rewrite H; reflexivity.
  - destruct f as [|f]; [lia|]. cbn [StarModel.computeCost]. rewrite H. rewrite H in X; injection X as <-.
    rewrite (IH _ Y f) by lia. reflexivity.
Qed.

Lemma tree_nodes (s : rm C P) root m n : inv s -> In root (nodes s) -> tree s root m -> m n <> None -> In n (nodes s).
Proof.
  intros HI HR HT Hn. destruct (m n) as [[e|]|] eqn:E; [|apply (t_only _ _ _ _ HT) in E; subst; exact HR|congruence].
  apply (t_edge _ _ _ _ HT) in E as [He <-]. apply (RoadmapProofs2.e_end _ (i_E _ HI) e He).
Qed.
Lemma cost_of_ok (s : rm C P) root m n c : inv s -> In root (nodes s) -> tree s root m -> cost_to m n c ->
  cost_of C P plen s m n = Ok c.
Proof.
  intros HI HR HT Hc. unfold cost_of. destruct (cost_chain _ _ _ Hc) as [l Hl]. apply (compute_chain _ _ _ Hc l Hl).
  apply le_S. apply NoDup_incl_length; [eapply chain_nodup; exact Hl|].
  intros x Hx. eapply tree_nodes; try eassumption. eapply chain_keys; eassumption.
Qed.

(* ------------------------------------------------------------- modifications *)
Lemma cost_upd_other m n v x c : m n = None -> cost_to m x c -> cost_to (upd m n v) x c.
Proof.
  intros Hn. induction 1 as [x H|x e c H _ IH].
  - constructor. rewrite upd_neq; [exact H|congruence].
  - eapply cost_step; [|exact IH]. rewrite upd_neq; [exact H|congruence].
Qed.
Lemma tree_new (s : rm C P) root m n e c : tree s root m -> m n = None -> In e (edges s) -> eto e = n ->
  cost_to m (efrom e) c ->
  tree s root (upd m n (Some (Some e))) /\ lowered m (upd m n (Some (Some e))) /\
  cost_to (upd m n (Some (Some e))) n (c + plen (epath e))%Q.
Proof.
  intros HT Hn He1 He2 Hc. set (m' := upd m n (Some (Some e))).
  assert (HN : cost_to m' n (c + plen (epath e))%Q).
  { eapply cost_step; [apply upd_eq|]. apply cost_upd_other; assumption. }
  assert (HLO : lowered m m').
  { intros x cx Hx. exists cx; split; [apply cost_upd_other; assumption|lra]. }
  split; [|split; [exact HLO|exact HN]]. split.
  - unfold m'. rewrite upd_neq; [apply HT|]. intro X; subst. pose proof (t_root _ _ _ _ HT). congruence.
  - intros x Hx. unfold m', upd in Hx. destruct (Nat.eqb_spec x n); [discriminate|]. eapply t_only; eassumption.
  - intros x e' Hx. unfold m', upd in Hx. destruct (Nat.eqb_spec x n) as [->|]; [|eapply t_edge; eassumption].
    injection Hx as <-. auto.
  - intros x Hx. destruct (Nat.eqb_spec x n) as [->|N]; [eauto|].
    assert (X : m x <> None) by (unfold m', upd in Hx; destruct (Nat.eqb_spec x n); [contradiction|exact Hx]).
    apply (t_cost _ _ _ _ HT) in X as [cx Hx']. apply HLO in Hx' as [c' [H' _]]. eauto.
Qed.

(* the parents of a node cheaper than n do not go through n *)
Lemma cost_upd_cheap m n v cn x c : cost_to m n cn -> cost_to m x c -> (c < cn)%Q -> cost_to (upd m n v) x c.
Proof.
  intros Hn. induction 1 as [x H|x e c H Hc IH]; intro L.
  - constructor. rewrite upd_neq; [exact H|]. intro; subst. pose proof (cost_fun _ _ _ Hn _ (cost_root _ _ _ H)). subst; lra.
  - pose proof (HL (epath e)). eapply cost_step; [|apply IH; lra]. rewrite upd_neq; [exact H|]. intro; subst.
    pose proof (cost_fun _ _ _ Hn _ (cost_step _ _ _ _ _ H Hc)). subst; lra.
Qed.
Lemma tree_rewire (s : rm C P) root m n e c cn : tree s root m -> cost_to m n cn -> In e (edges s) -> eto e = n ->
  cost_to m (efrom e) c -> (c + plen (epath e) < cn)%Q ->
  let m' := upd m n (Some (Some e)) in
  tree s root m' /\ lowered m m' /\ cost_to m' (efrom e) c.
Proof.
  intros HT Hn He1 He2 Hc L m'. pose proof (HL (epath e)) as HP. pose proof (cost_nonneg _ _ _ Hc) as H0.
  assert (HE : cost_to m' (efrom e) c) by (eapply cost_upd_cheap; [exact Hn|exact Hc|lra]).
  assert (HN : cost_to m' n (c + plen (epath e))%Q) by (eapply cost_step; [apply upd_eq|exact HE]).
  assert (HLO : lowered m m').
  { intros x cx Hx. induction Hx as [x Hx|x e' cx Hx Hc' [c' [IH1 IH2]]].
    - exists 0%Q; split; [|lra]. constructor. unfold m'. rewrite upd_neq; [exact Hx|]. intro; subst x.
      pose proof (cost_fun _ _ _ Hn _ (cost_root _ _ _ Hx)). subst; lra.
    - destruct (Nat.eqb_spec x n) as [->|N].
      + pose proof (cost_fun _ _ _ Hn _ (cost_step _ _ _ _ _ Hx Hc')). exists (c + plen (epath e))%Q. split; [exact HN|subst; lra].
      + exists (c' + plen (epath e'))%Q. split; [|lra]. eapply cost_step; [|exact IH1]. unfold m'. rewrite upd_neq; assumption. }
  split; [|split; assumption]. split.
  - unfold m'. rewrite upd_neq; [apply HT|]. intro X; subst root.
    pose proof (cost_fun _ _ _ Hn _ (cost_root _ _ _ (t_root _ _ _ _ HT))). subst; lra.
  - intros x Hx. unfold m', upd in Hx. destruct (Nat.eqb_spec x n); [discriminate|]. eapply t_only; eassumption.
  - intros x e' Hx. unfold m', upd in Hx. destruct (Nat.eqb_spec x n) as [->|]; [|eapply t_edge; eassumption].
    injection Hx as <-. auto.
  - intros x Hx. destruct (Nat.eqb_spec x n) as [->|N]; [eauto|].
    assert (X : m x <> None) by (unfold m', upd in Hx; destruct (Nat.eqb_spec x n); [contradiction|exact Hx]).
    apply (t_cost _ _ _ _ HT) in X as [cx Hx']. apply HLO in Hx' as [c' [H' _]]. eauto.
Qed.
Lemma tree_edges (s t : rm C P) root m : incl (edges s) (edges t) -> tree s root m -> tree t root m.
Proof. intros HI [H1 H2 H3 H4]; split; auto. intros n e H; apply H3 in H as [A B]; auto. Qed.
End S.
