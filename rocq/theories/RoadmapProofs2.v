(* Proofs about the roadmap model, part 2: connect and the public calls. *)
From Verif Require Import Base Reach RoadmapModel RoadmapSpec RoadmapProofs.

Lemma expand_ex_nd cs : forall fl ex q fl' ex' q',
  expand cs fl ex q = (fl', ex', q') -> NoDup ex -> NoDup ex'.
Proof.
  induction cs as [|c cs IH]; intros fl ex q fl' ex' q' H Hn; simpl in H.
  - injection H as <- <- <-; exact Hn.
  - destruct (mem c fl); [eapply IH; eauto|]. eapply IH; [exact H|].
    unfold ins; destruct (mem c ex) eqn:E1; [exact Hn|].
    apply NoDup_snoc; [exact Hn|apply mem_nIn; exact E1].
Qed.
Lemma bfs2_ex_nd succ stop : forall fuel r fl ex q r' fl' ex',
  bfs2 fuel succ stop r fl ex q = Ok (r', fl', ex') -> NoDup ex -> NoDup ex'.
Proof.
  induction fuel as [|k IH]; intros r fl ex q r' fl' ex' H Hn; destruct q as [|c q]; simpl in H;
    try discriminate; try (injection H as <- <- <-; exact Hn).
  destruct (c =? stop).
  - eapply IH; [exact H|]. unfold ins; destruct (mem c ex) eqn:E1; [exact Hn|].
    apply NoDup_snoc; [exact Hn|apply mem_nIn; exact E1].
  - destruct (expand (succ c) fl ex q) as [[fl1 ex1] q1] eqn:He.
    eapply IH; [exact H|]. eapply expand_ex_nd; eauto.
Qed.

Section S.
Context {C P : Type}.
Notation rmS := (rm C P).
Implicit Types s t other : rmS.

Lemma canReachSet_nd (s : rmS) a b r S s' : canReachSet s a b = Ok (r, S, s') -> NoDup S.
Proof.
  unfold canReachSet.
  destruct (bfs2 _ _ b _ _ _ _) as [[[r1 fl] exF]| | |] eqn:E1; try discriminate.
  apply bfs2_ex_nd in E1; [|repeat constructor; simpl; tauto].
  destruct r1.
  - destruct (bfs2 _ _ a _ _ _ _) as [[[r2 fl2] exB]| | |] eqn:E2; try discriminate.
    intros H; injection H as <- <- <-. apply NoDup_filter; exact E1.
  - intros H; injection H as <- <- <-; constructor.
Qed.

Lemma frame_trans (s s1 s2 : rmS) r r1 r2 :
  frame s s1 r1 -> frame s1 s2 r2 -> (forall c, r c = r2 (r1 c)) -> frame s s2 r.
Proof.
  intros [] [] Hr; constructor; try congruence.
  intros n; rewrite f_ninfo0, f_ninfo. destruct (ninfo s n) as [nd|]; simpl; [|reflexivity].
  rewrite Hr; reflexivity.
Qed.

Lemma rep_in this X x : In x X -> rep this X x = this.
Proof. intros H; unfold rep; apply mem_In in H; rewrite H; reflexivity. Qed.
Lemma rep_out this X x : ~ In x X -> rep this X x = x.
Proof. intros H; unfold rep; apply mem_nIn in H; rewrite H; reflexivity. Qed.
Lemma rep_this this X : rep this X this = this.
Proof. unfold rep; destruct (mem this X); reflexivity. Qed.

Lemma merge_set_spec this X : forall (s : rmS),
  wfG (live s) (cinfo s) -> wfN s -> In this (live s) -> NoDup X -> (forall x, In x X -> In x (live s)) ->
  let s' := merge_set s this X in
  wfG (live s') (cinfo s') /\ wfN s' /\ frame s s' (rep this X) /\
  (forall x, In x (live s') <-> In x (live s) /\ (x = this \/ ~ In x X)) /\
  (forall a b, In a (live s) -> In b (live s) ->
     (reach (E (cinfo s')) (rep this X a) (rep this X b) <->
      reach (orR (E (cinfo s)) (bi this X)) a b)).
Proof.
  induction X as [|c X IH]; intros s HG HN Ht Hnd HX s'.
  - simpl in s'; subst s'. split; [exact HG|split; [exact HN|split; [|split]]].
    + apply frame_refl; [exact HN|]. intros; apply rep_out; simpl; tauto.
    + intros x; simpl; tauto.
    + intros a b _ _. rewrite !rep_out by (simpl; tauto). apply reach_ext.
      intros x y; unfold orR, bi; simpl; tauto.
  - inversion Hnd as [|? ? Hc Hnd']; subst.
    unfold merge_set in s'; simpl in s'.
    destruct (Nat.eqb_spec c this) as [->|Hct].
    + destruct (IH s HG HN Ht Hnd' (fun x Hx => HX x (or_intror Hx))) as [I1 [I2 [I3 [I4 I5]]]].
      change (merge_set s this X) with s' in *.
      split; [exact I1|split; [exact I2|split; [|split]]].
      * destruct I3; constructor; try assumption.
        intros n; rewrite f_ninfo. destruct (ninfo s n) as [nd|]; simpl; [|reflexivity].
        destruct (Nat.eq_dec (ncc nd) this) as [He|He].
        -- rewrite He, !rep_this; reflexivity.
        -- unfold rep; simpl. destruct (Nat.eqb_spec (ncc nd) this); [contradiction|reflexivity].
      * intros x; rewrite I4; simpl. split.
        -- intros [Hx [->|Hn]]; auto. destruct (Nat.eq_dec x this) as [->|Hxt]; [auto|].
           split; [exact Hx|right; intros [H|H]; [congruence|auto]].
        -- intros [Hx [->|Hn]]; [auto|tauto].
      * intros a b Ha Hb.
        assert (Hre : forall x, rep this (this :: X) x = rep this X x).
        { intros x; unfold rep; simpl. destruct (Nat.eqb_spec x this) as [->|]; simpl; [|reflexivity].
          destruct (mem this X); reflexivity. }
        rewrite !Hre, (I5 a b Ha Hb). split; apply reach_incl.
        -- intros x y [H|H]; apply reach_one; [left; exact H|right]. unfold bi in *; simpl; tauto.
        -- intros x y [H|[[-> [<-|H]]|[-> [<-|H]]]]; try apply reach_refl; apply reach_one;
             [left; exact H|right; left; auto|right; right; auto].
    + assert (Hcl : In c (live s)) by (apply HX; left; reflexivity).
      assert (Hne : this <> c) by congruence.
      destruct (merge1_spec s this c HG HN Ht Hcl Hne) as [M1 [M2 [M3 [M4 M5]]]].
      set (s1 := merge1 s this c) in *.
      change (set_live (cc_merge s this c) (ers c (live s))) with s1 in s'.
      assert (Ht1 : In this (live s1)) by (rewrite M4, In_ers; auto).
      destruct (IH s1 M1 M2 Ht1 Hnd') as [I1 [I2 [I3 [I4 I5]]]].
      { intros x Hx; rewrite M4, In_ers; split; [apply HX; right; exact Hx|].
        intros ->; contradiction. }
      change (merge_set s1 this X) with s' in *. clearbody s'. clearbody s1.
      assert (Hcomp : forall x, rep this (c :: X) x = rep this X (rep this [c] x)).
      { intros x. destruct (Nat.eq_dec x c) as [->|Hxc].
        - rewrite (rep_in this [c]), (rep_in this (c::X)) by (simpl; auto). rewrite rep_this; reflexivity.
        - rewrite (rep_out this [c]) by (simpl; intuition).
          unfold rep; simpl. destruct (Nat.eqb_spec x c); [contradiction|reflexivity]. }
      split; [exact I1|split; [exact I2|split; [|split]]].
      * eapply frame_trans; eauto.
      * intros x; rewrite I4, M4, In_ers; simpl. split.
        -- intros [[H1 H2] H3]. split; [exact H1|]. destruct H3 as [H3|H3]; [auto|].
           right; intros [H|H]; [congruence|auto].
        -- intros [H1 [->|H2]]; [auto|]. split; [split; [exact H1|intros ->; tauto]|tauto].
      * intros a b Ha Hb. set (r := rep this [c]) in *.
        assert (Hr : forall x, In x (live s) -> In (r x) (live s1)).
        { intros x Hx; rewrite M4, In_ers; unfold r. destruct (Nat.eq_dec x c) as [->|Hxc].
          - rewrite rep_in by (simpl; auto); auto.
          - rewrite rep_out by (simpl; intuition); auto. }
        rewrite !Hcomp, (I5 (r a) (r b) (Hr a Ha) (Hr b Hb)).
        set (BIG := orR (E (cinfo s)) (bi this (c :: X))).
        assert (Hmon : forall x y, reach (orR (E (cinfo s)) (bi this [c])) x y -> reach BIG x y).
        { intros x y; apply reach_mono; intros p q [H|[[-> [<-|[]]]|[-> [<-|[]]]]];
            [left; exact H|right; left; simpl; auto|right; right; simpl; auto]. }
        assert (Hrid : forall x, In x (live s1) -> r x = x).
        { intros x; rewrite M4, In_ers; intros [_ H]; apply rep_out; simpl; intuition. }
        assert (Hl1 : forall x, In x (live s1) -> In x (live s)).
        { intros x; rewrite M4, In_ers; tauto. }
        assert (Hxr : forall x, reach BIG x (r x) /\ reach BIG (r x) x).
        { intros x; unfold r. destruct (Nat.eq_dec x c) as [->|Hxc].
          - rewrite rep_in by (simpl; auto). split; apply reach_one; right; [right|left]; simpl; auto.
          - rewrite rep_out by (simpl; intuition). split; apply reach_refl. }
        split.
        -- intros H.
           assert (Hgen : forall x y, reach (orR (E (cinfo s1)) (bi this X)) x y -> In x (live s1) -> reach BIG x y).
           { induction 1 as [x|x y z H1 H2 IH2]; [intros; apply reach_refl|]. intros Hx.
             assert (Hy : In y (live s1)).
             { destruct H1 as [H1|[[-> H1]|[-> H1]]]; [eapply (g_to _ _ M1); eauto| |exact Ht1].
               rewrite M4, In_ers; split; [apply HX; right; exact H1|intros ->; contradiction]. }
             eapply reach_trans; [|apply IH2; exact Hy].
             destruct H1 as [H1|H1].
             - apply Hmon. apply (M5 x y (Hl1 x Hx) (Hl1 y Hy)).
               rewrite (Hrid x Hx), (Hrid y Hy). apply reach_one; exact H1.
             - apply reach_one; right; unfold bi in *; simpl; tauto. }
           eapply reach_trans; [apply (Hxr a)|]. eapply reach_trans; [apply Hgen; [exact H|apply Hr, Ha]|apply (Hxr b)].
        -- intros H. clear Hb. induction H as [x|x y z H1 H2 IH2]; [apply reach_refl|].
           assert (Hy : In y (live s)).
           { destruct H1 as [H1|[[-> H1]|[-> H1]]]; [eapply (g_to _ _ HG); eauto|apply HX; exact H1|exact Ht]. }
           eapply reach_trans; [|apply IH2; exact Hy].
           destruct H1 as [H1|H1].
           ++ eapply reach_mono; [|apply (M5 x y Ha Hy); apply reach_one; left; exact H1].
              intros; left; assumption.
           ++ assert (Hrt : r this = this) by apply rep_this.
              assert (Hrc : r c = this) by (apply rep_in; simpl; auto).
              assert (HrX : forall w, In w X -> r w = w).
              { intros w Hw; apply rep_out; simpl; intros [<-|[]]; contradiction. }
              destruct H1 as [[-> [<-|H1]]|[-> [<-|H1]]]; rewrite Hrt.
              ** rewrite Hrc; apply reach_refl.
              ** rewrite (HrX _ H1). apply reach_one; right; left; auto.
              ** rewrite Hrc; apply reach_refl.
              ** rewrite (HrX _ H1). apply reach_one; right; right; auto.
Qed.

(* ------------------------------------------------------------------ *)
(* connect                                                             *)
Record wf (s : rmS) : Prop := {
  w_G : wfG (live s) (cinfo s);
  w_N : wfN s;
  w_A : acyc (live s) (cinfo s);
  w_F : flags s = []
}.

Lemma connect_spec (s : rmS) c1 c2 :
  wf s -> In c1 (live s) -> In c2 (live s) ->
  exists s' r, connect s c1 c2 = Ok s' /\ wf s' /\ frame s s' r /\
    (forall x, In x (live s) -> In (r x) (live s')) /\
    (forall a b, In a (live s) -> In b (live s) ->
      (reach (E (cinfo s')) (r a) (r b) <-> reach (plus (E (cinfo s)) c1 c2) a b)) /\
    (c1 = c2 -> s' = s) /\
    (forall x, In x (live s') -> In x (live s)).
Proof.
  intros [HG HN HA HF] H1 H2. unfold connect.
  destruct (canReach_spec s c1 c2 HG HF H1) as [b [-> Hb]]. simpl.
  destruct b.
  { assert (H12 : reach (E (cinfo s)) c1 c2) by (apply Hb; reflexivity).
    exists s, (fun x => x). split; [reflexivity|]. split; [constructor; assumption|].
    split; [apply frame_refl; auto|]. split; [auto|split; [|auto]].
    intros x y _ _. rewrite reach_plus. split; [auto|]. intros [H|[Ha Hc]]; [exact H|].
    eapply reach_trans; [exact Ha|eapply reach_trans; eauto]. }
  assert (H12 : ~ reach (E (cinfo s)) c1 c2) by (rewrite <- Hb; congruence).
  assert (Hne : c1 <> c2) by (intros ->; apply H12, reach_refl).
  destruct (canReachSet_spec s c2 c1 HG HA HF H2 H1) as [b2 [X [He [Hb2 HX]]]].
  pose proof (canReachSet_nd _ _ _ _ _ _ He) as HXnd. rewrite He. simpl.
  destruct b2.
  - specialize (HX eq_refl).
    assert (H21 : reach (E (cinfo s)) c2 c1) by (apply Hb2; reflexivity).
    destruct (merge_set_spec c1 X s HG HN H1 HXnd) as [M1 [M2 [M3 [M4 M5]]]].
    { intros x Hx; apply HX in Hx as [Hx _]. eapply wfG_reach_L; eauto. }
    set (s' := merge_set s c1 X) in *. clearbody s'.
    assert (HR : forall a b, In a (live s) -> In b (live s) ->
      (reach (E (cinfo s')) (rep c1 X a) (rep c1 X b) <-> reach (plus (E (cinfo s)) c1 c2) a b)).
    { intros a b0 Ha Hb0. rewrite (M5 a b0 Ha Hb0). split; apply reach_incl.
      - intros x y [H|[[-> H]|[-> H]]].
        + apply reach_one; left; exact H.
        + apply HX in H as [H _]. apply reach_plus; right; split; [apply reach_refl|exact H].
        + apply HX in H as [_ H]. apply reach_plus; left; exact H.
      - intros x y [H|[-> ->]].
        + apply reach_one; left; exact H.
        + apply reach_one; right; left; split; [reflexivity|]. apply HX; split; [apply reach_refl|exact H21]. }
    assert (Hc1X : In c1 X) by (apply HX; split; [exact H21|apply reach_refl]).
    assert (Hmut : forall a b, In a (live s) -> In b (live s) ->
       reach (plus (E (cinfo s)) c1 c2) a b -> reach (plus (E (cinfo s)) c1 c2) b a ->
       a = b \/ (In a X /\ In b X)).
    { intros a b0 Ha Hb0. rewrite !reach_plus, !HX.
      intros [A1|[A1 A2]] [B1|[B1 B2]].
      - left; apply HA; auto.
      - right; split; split; auto; eapply reach_trans; eauto.
      - right; split; split; auto; eapply reach_trans; eauto.
      - right; split; split; auto. }
    exists s', (rep c1 X). split; [reflexivity|].
    assert (HLsub : forall x, In x (live s') -> In x (live s) /\ rep c1 X x = x).
    { intros x Hx; apply M4 in Hx as [Hx [->|Hn]]; split; auto; [apply rep_this|apply rep_out; exact Hn]. }
    split; [|split; [exact M3|split; [|split; [exact HR|split]]]].
    + constructor; auto.
      * intros a b0 Ha Hb0 Hab Hba.
        destruct (HLsub a Ha) as [Ha' Ea]. destruct (HLsub b0 Hb0) as [Hb' Eb].
        rewrite <- Ea, <- Eb in Hab, Hba. apply HR in Hab; auto. apply HR in Hba; auto.
        destruct (Hmut a b0 Ha' Hb' Hab Hba) as [H|[Hi1 Hi2]]; [exact H|].
        rewrite <- Ea, <- Eb, !rep_in by assumption; reflexivity.
      * rewrite (f_flags _ _ _ M3); exact HF.
    + intros x Hx; apply M4. destruct (in_dec Nat.eq_dec x X) as [Hi|Hn].
      * rewrite rep_in by assumption; auto.
      * rewrite rep_out by assumption; auto.
    + congruence.
    + intros x Hx; apply HLsub; exact Hx.
  - assert (H21 : ~ reach (E (cinfo s)) c2 c1) by (rewrite <- Hb2; congruence).
    set (k1 := upd (cinfo s) c1 (set_rto (cinfo s c1) (ins c2 (rto (cinfo s c1))))).
    set (k2 := upd k1 c2 (set_rfrom (k1 c2) (ins c1 (rfrom (k1 c2))))).
    assert (Kto : forall a b, In b (rto (k2 a)) <-> In b (rto (cinfo s a)) \/ (a = c1 /\ b = c2)).
    { intros a b0. unfold k2. destruct (Nat.eq_dec a c2) as [->|Ha].
      - rewrite upd_eq; simpl. unfold k1; rewrite upd_neq by congruence.
        split; [auto|intros [H|[? ?]]; [auto|congruence]].
      - rewrite upd_neq by assumption. unfold k1. destruct (Nat.eq_dec a c1) as [->|Ha1].
        + rewrite upd_eq; simpl. rewrite In_ins. tauto.
        + rewrite upd_neq by assumption. split; [auto|intros [H|[? ?]]; [auto|congruence]]. }
    assert (Kfrom : forall a b, In b (rfrom (k2 a)) <-> In b (rfrom (cinfo s a)) \/ (a = c2 /\ b = c1)).
    { intros a b0. unfold k2. destruct (Nat.eq_dec a c2) as [->|Ha].
      - rewrite upd_eq; simpl. unfold k1; rewrite upd_neq by congruence. rewrite In_ins; tauto.
      - rewrite upd_neq by assumption. unfold k1. destruct (Nat.eq_dec a c1) as [->|Ha1].
        + rewrite upd_eq; simpl. split; [auto|intros [H|[? ?]]; [auto|congruence]].
        + rewrite upd_neq by assumption. split; [auto|intros [H|[? ?]]; [auto|congruence]]. }
    assert (Kn : forall a, cnodes (k2 a) = cnodes (cinfo s a)).
    { intros a. unfold k2, k1, upd.
      destruct (Nat.eqb_spec a c2) as [->|]; simpl.
      - destruct (Nat.eqb_spec c2 c1) as [->|]; reflexivity.
      - destruct (Nat.eqb_spec a c1) as [->|]; reflexivity. }
    assert (HR : forall a b, reach (E k2) a b <-> reach (plus (E (cinfo s)) c1 c2) a b).
    { intros a b0; apply reach_ext. intros x y; unfold E, plus; apply Kto. }
    clearbody k2. clear k1.
    exists (set_cinfo s k2), (fun x => x).
    split; [reflexivity|]. split; [|split; [|split; [auto|split; [intros a b0 _ _; apply HR|split; [congruence|auto]]]]].
    + constructor; simpl; auto.
      * constructor; [apply (g_nd _ _ HG)|..].
        -- intros a b0 Ha; rewrite Kto; intros [H|[-> ->]]; [eapply (g_to _ _ HG); eauto|exact H2].
        -- intros a b0 Ha; rewrite Kfrom; intros [H|[-> ->]]; [eapply (g_from _ _ HG); eauto|exact H1].
        -- intros a b0 Ha Hb0; rewrite Kto, Kfrom, (g_sym _ _ HG a b0 Ha Hb0); tauto.
        -- intros a Ha; rewrite Kto; intros [H|[-> H]]; [eapply (g_irr _ _ HG); eauto|congruence].
      * destruct HN; constructor; simpl; auto.
        -- intros n nd Hn; rewrite Kn; auto.
        -- intros c n Hc; rewrite Kn; auto.
        -- intros c Hc; rewrite Kn; auto.
        -- intros c Hc; rewrite Kn; auto.
      * intros a b0 Ha Hb0; rewrite !HR, !reach_plus.
        intros [A1|[A1 A2]] [B1|[B1 B2]].
        -- apply HA; auto.
        -- exfalso; apply H21. eapply reach_trans; [exact B2|eapply reach_trans; eauto].
        -- exfalso; apply H21. eapply reach_trans; [exact A2|eapply reach_trans; eauto].
        -- exfalso; apply H21. eapply reach_trans; eauto.
    + constructor; try reflexivity. intros n; simpl. destruct (ninfo s n) as [nd|]; simpl; [|reflexivity].
      rewrite set_ncc_id; reflexivity.
Qed.

(* ------------------------------------------------------------------ *)
(* Adjacency lists                                                     *)
Record wfE (s : rmS) : Prop := {
  e_end : forall e, In e (edges s) -> In (efrom e) (nodes s) /\ In (eto e) (nodes s);
  e_out : forall n nd e, ninfo s n = Some nd -> In e (nout nd) -> In e (edges s) /\ efrom e = n;
  e_in : forall n nd e, ninfo s n = Some nd -> In e (nin nd) -> In e (edges s) /\ eto e = n;
  e_outc : forall e nd, In e (edges s) -> ninfo s (efrom e) = Some nd ->
             exists e', In e' (nout nd) /\ eto e' = eto e;
  e_inc : forall e nd, In e (edges s) -> ninfo s (eto e) = Some nd ->
             exists e', In e' (nin nd) /\ efrom e' = efrom e;
  e_outnd : forall n nd, ninfo s n = Some nd -> NoDup (map eto (nout nd));
  e_innd : forall n nd, ninfo s n = Some nd -> NoDup (map efrom (nin nd))
}.

(* reachability of components contains reachability of nodes *)
Definition complete (s : rmS) : Prop :=
  forall m n cm cn, comp_of s m cm -> comp_of s n cn -> reach (arc s) m n -> reach (E (cinfo s)) cm cn.
Definition sound (s : rmS) : Prop :=
  forall m n cm cn, comp_of s m cm -> comp_of s n cn -> reach (E (cinfo s)) cm cn -> reach (arc s) m n.
(* init and goal nodes are nodes *)
Definition wfR (s : rmS) : Prop :=
  (forall i, initN s = Some i -> In i (nodes s)) /\ (forall g, In g (goals s) -> In g (nodes s)).

Record inv (s : rmS) : Prop := {
  i_wf : wf s;
  i_E : wfE s;
  i_C : complete s;
  i_R : wfR s
}.

Lemma cof_fun s n c c' : comp_of s n c -> comp_of s n c' -> c = c'.
Proof. intros [nd [H1 H2]] [nd' [H3 H4]]; congruence. Qed.
Lemma cof_ex s n : wfN s -> In n (nodes s) -> exists c, comp_of s n c /\ In c (live s).
Proof.
  intros HN Hn. apply (n_def _ HN) in Hn. destruct (ninfo s n) as [nd|] eqn:En; [|congruence].
  exists (ncc nd); split; [exists nd; auto|]. apply (n_cc _ HN n nd En).
Qed.
Lemma cof_live s n c : wfN s -> comp_of s n c -> In c (live s) /\ In n (nodes s).
Proof.
  intros HN [nd [H1 <-]]. split; [apply (n_cc _ HN n nd H1)|apply (n_def _ HN); congruence].
Qed.
Lemma cof_frame s s' r n c : frame s s' r -> (comp_of s' n c <-> exists c0, comp_of s n c0 /\ c = r c0).
Proof.
  intros HF; unfold comp_of; split.
  - intros [nd [H1 <-]]. rewrite (f_ninfo _ _ _ HF) in H1.
    destruct (ninfo s n) as [nd0|] eqn:En; simpl in H1; [|discriminate]. injection H1 as <-.
    exists (ncc nd0); split; [exists nd0; auto|reflexivity].
  - intros [c0 [[nd [H1 H2]] ->]]. exists (set_ncc nd (r (ncc nd))).
    rewrite (f_ninfo _ _ _ HF), H1, <- H2; simpl; auto.
Qed.

(* State just before connect: edge pushed and registered *)
Definition reg (s : rmS) (e : edge P) : rmS :=
  set_edges (registerIn (registerOut s e) e) (edges s ++ [e]).
Definition reg' (s : rmS) (e : edge P) : rmS :=
  set_edges (registerOut (registerIn s e) e) (edges s ++ [e]).

Lemma upd_node_at f n g x : @upd_node C P f n g x = if x =? n then option_map g (f x) else f x.
Proof. reflexivity. Qed.

Definition putOut (e : edge P) (nd : node C P) :=
  if isOutNeighbor nd (eto e) then nd else set_nout nd (nout nd ++ [e]).
Definition putIn (e : edge P) (nd : node C P) :=
  if isInNeighbor nd (efrom e) then nd else set_nin nd (nin nd ++ [e]).
Definition reg_node (e : edge P) (n : nat) (nd : node C P) : node C P :=
  let nd1 := if n =? efrom e then putOut e nd else nd in
  if n =? eto e then putIn e nd1 else nd1.

Lemma reg_ninfo s e n : ninfo (reg s e) n = option_map (reg_node e n) (ninfo s n).
Proof.
  unfold reg, registerIn, registerOut, reg_node; simpl. rewrite !upd_node_at.
  destruct (n =? eto e), (n =? efrom e); destruct (ninfo s n); reflexivity.
Qed.
Lemma reg'_ninfo s e n : ninfo (reg' s e) n = option_map (reg_node e n) (ninfo s n).
Proof.
  unfold reg', registerIn, registerOut, reg_node; simpl. rewrite !upd_node_at.
  destruct (n =? eto e), (n =? efrom e); destruct (ninfo s n) as [nd|]; try reflexivity.
  simpl. f_equal. unfold putIn, putOut, isInNeighbor, isOutNeighbor.
  destruct nd as [q c o i]; simpl.
  destruct (existsb (fun e0 => efrom e0 =? efrom e) i) eqn:E1; simpl;
  destruct (existsb (fun e0 => eto e0 =? eto e) o) eqn:E2; simpl; rewrite ?E1; reflexivity.
Qed.
Lemma reg_node_ncc e n nd : ncc (reg_node e n nd) = ncc nd /\ ncfg (reg_node e n nd) = ncfg nd.
Proof.
  unfold reg_node, putIn, putOut. destruct (n =? efrom e), (n =? eto e);
  repeat match goal with |- context [if ?b then _ else _] => destruct b end; simpl; auto.
Qed.

Lemma isOut_spec nd m : @isOutNeighbor C P nd m = true <-> In m (map eto (nout nd)).
Proof.
  unfold isOutNeighbor; rewrite existsb_exists, in_map_iff; split.
  - intros [e [H1 H2]]; apply Nat.eqb_eq in H2; eauto.
  - intros [e [<- H]]; exists e; split; [exact H|apply Nat.eqb_refl].
Qed.
Lemma isIn_spec nd m : @isInNeighbor C P nd m = true <-> In m (map efrom (nin nd)).
Proof.
  unfold isInNeighbor; rewrite existsb_exists, in_map_iff; split.
  - intros [e [H1 H2]]; apply Nat.eqb_eq in H2; eauto.
  - intros [e [<- H]]; exists e; split; [exact H|apply Nat.eqb_refl].
Qed.

Lemma reg_nout e n nd :
  nout (reg_node e n nd) = if (n =? efrom e) && negb (isOutNeighbor nd (eto e)) then nout nd ++ [e] else nout nd.
Proof.
  unfold reg_node, putIn, putOut. destruct (n =? efrom e), (n =? eto e); simpl;
  destruct (isOutNeighbor nd (eto e)); simpl;
  repeat match goal with |- context [if ?b then _ else _] => destruct b end; reflexivity.
Qed.
Lemma reg_nin e n nd :
  nin (reg_node e n nd) = if (n =? eto e) && negb (isInNeighbor nd (efrom e)) then nin nd ++ [e] else nin nd.
Proof.
  unfold reg_node, putIn, putOut, isInNeighbor, isOutNeighbor.
  destruct nd as [q cc o i]. simpl.
  destruct (n =? efrom e), (n =? eto e); simpl;
  destruct (existsb (fun e0 => eto e0 =? eto e) o); simpl;
  destruct (existsb (fun e0 => efrom e0 =? efrom e) i); reflexivity.
Qed.

(* generic: t is s with edge e registered and pushed *)
Record pushed (s t : rmS) (e : edge P) : Prop := {
  p_nnext : nnext t = nnext s; p_cnext : cnext t = cnext s; p_nodes : nodes t = nodes s;
  p_live : live t = live s; p_cinfo : cinfo t = cinfo s; p_flags : flags t = flags s;
  p_init : initN t = initN s; p_goals : goals t = goals s;
  p_edges : edges t = edges s ++ [e];
  p_ninfo : forall n, ninfo t n = option_map (reg_node e n) (ninfo s n)
}.
Lemma pushed_reg s e : pushed s (reg s e) e.
Proof. constructor; try reflexivity. apply reg_ninfo. Qed.
Lemma pushed_reg' s e : pushed s (reg' s e) e.
Proof. constructor; try reflexivity. apply reg'_ninfo. Qed.

Lemma pushed_cof s t e n c : pushed s t e -> (comp_of t n c <-> comp_of s n c).
Proof.
  intros HP; unfold comp_of; rewrite (p_ninfo _ _ _ HP). split.
  - intros [nd [H1 <-]]. destruct (ninfo s n) as [nd0|]; simpl in H1; [|discriminate].
    injection H1 as <-. exists nd0; split; [reflexivity|symmetry; apply reg_node_ncc].
  - intros [nd [-> <-]]. exists (reg_node e n nd); split; [reflexivity|apply reg_node_ncc].
Qed.

Lemma pushed_wf s t e : pushed s t e -> wf s -> wf t.
Proof.
  intros HP [HG HN HA HF]. pose proof HP as [P1 P2 P3 P4 P5 P6 P7 P8 P9 P10].
  constructor; rewrite ?P4, ?P5, ?P6; auto.
  constructor; rewrite ?P1, ?P2, ?P3, ?P4, ?P5.
  - apply (n_nd _ HN).
  - apply (n_lt _ HN).
  - intros n; rewrite P10, <- (n_def _ HN n). destruct (ninfo s n); simpl; split; congruence.
  - intros n nd; rewrite P10. destruct (ninfo s n) as [nd0|] eqn:En; simpl; [|discriminate].
    intros H; injection H as <-. rewrite (proj1 (reg_node_ncc e n nd0)). apply (n_cc _ HN n nd0 En).
  - intros c n Hc Hn. destruct (n_of _ HN c n Hc Hn) as [nd [H1 H2]].
    exists (reg_node e n nd); rewrite P10, H1; split; [reflexivity|].
    rewrite (proj1 (reg_node_ncc e n nd)); exact H2.
  - apply (n_cnd _ HN).
  - apply (n_ne _ HN).
  - apply (n_clt _ HN).
Qed.

Lemma NoDup_app_single {A} (l : list A) x : NoDup l -> ~ In x l -> NoDup (l ++ [x]).
Proof. apply NoDup_snoc. Qed.

Lemma pushed_wfE s t e : pushed s t e -> wfE s -> In (efrom e) (nodes s) -> In (eto e) (nodes s) -> wfE t.
Proof.
  intros HP HE Hf Ht. pose proof HP as [P1 P2 P3 P4 P5 P6 P7 P8 P9 P10].
  destruct HE as [E1 E2 E3 E4 E5 E6 E7].
  assert (HN : forall n nd, ninfo t n = Some nd -> exists nd0, ninfo s n = Some nd0 /\ nd = reg_node e n nd0).
  { intros n nd; rewrite P10. destruct (ninfo s n) as [nd0|]; simpl; [|discriminate].
    intros H; injection H as <-; eauto. }
  constructor; rewrite ?P3, ?P9.
  - intros e0; rewrite in_app_iff; simpl; intros [H|[<-|[]]]; auto.
  - intros n nd e0 Hn. apply HN in Hn as [nd0 [Hn ->]]. rewrite reg_nout.
    destruct (Nat.eqb_spec n (efrom e)) as [->|Hne]; simpl.
    + destruct (isOutNeighbor nd0 (eto e)); simpl; rewrite ?in_app_iff; simpl.
      * intros H; destruct (E2 _ _ _ Hn H); rewrite ?in_app_iff; auto.
      * intros [H|[<-|[]]]; [destruct (E2 _ _ _ Hn H); rewrite ?in_app_iff; auto|rewrite ?in_app_iff; simpl; auto].
    + intros H; destruct (E2 _ _ _ Hn H); rewrite ?in_app_iff; auto.
  - intros n nd e0 Hn. apply HN in Hn as [nd0 [Hn ->]]. rewrite reg_nin.
    destruct (Nat.eqb_spec n (eto e)) as [->|Hne]; simpl.
    + destruct (isInNeighbor nd0 (efrom e)); simpl; rewrite ?in_app_iff; simpl.
      * intros H; destruct (E3 _ _ _ Hn H); rewrite ?in_app_iff; auto.
      * intros [H|[<-|[]]]; [destruct (E3 _ _ _ Hn H); rewrite ?in_app_iff; auto|rewrite ?in_app_iff; simpl; auto].
    + intros H; destruct (E3 _ _ _ Hn H); rewrite ?in_app_iff; auto.
  - intros e0 nd; rewrite in_app_iff; simpl; intros H Hn. apply HN in Hn as [nd0 [Hn ->]]. rewrite reg_nout.
    destruct H as [H|[<-|[]]].
    + destruct (E4 _ _ H Hn) as [e' [H1 H2]]. exists e'; split; [|exact H2].
      destruct (_ && _); [rewrite in_app_iff; auto|exact H1].
    + rewrite Nat.eqb_refl; simpl. destruct (isOutNeighbor nd0 (eto e)) eqn:Ei; simpl.
      * apply isOut_spec, in_map_iff in Ei as [e' [H1 H2]]; eauto.
      * exists e; split; [rewrite in_app_iff; simpl; auto|reflexivity].
  - intros e0 nd; rewrite in_app_iff; simpl; intros H Hn. apply HN in Hn as [nd0 [Hn ->]]. rewrite reg_nin.
    destruct H as [H|[<-|[]]].
    + destruct (E5 _ _ H Hn) as [e' [H1 H2]]. exists e'; split; [|exact H2].
      destruct (_ && _); [rewrite in_app_iff; auto|exact H1].
    + rewrite Nat.eqb_refl; simpl. destruct (isInNeighbor nd0 (efrom e)) eqn:Ei; simpl.
      * apply isIn_spec, in_map_iff in Ei as [e' [H1 H2]]; eauto.
      * exists e; split; [rewrite in_app_iff; simpl; auto|reflexivity].
  - intros n nd Hn. apply HN in Hn as [nd0 [Hn ->]]. rewrite reg_nout.
    destruct (_ =? _); simpl; [|eauto]. destruct (isOutNeighbor nd0 (eto e)) eqn:Ei; simpl; [eauto|].
    rewrite map_app; simpl. apply NoDup_snoc; [eauto|].
    intros H; apply isOut_spec in H; congruence.
  - intros n nd Hn. apply HN in Hn as [nd0 [Hn ->]]. rewrite reg_nin.
    destruct (_ =? _); simpl; [|eauto]. destruct (isInNeighbor nd0 (efrom e)) eqn:Ei; simpl; [eauto|].
    rewrite map_app; simpl. apply NoDup_snoc; [eauto|].
    intros H; apply isIn_spec in H; congruence.
Qed.

Lemma frame_wfE s s' r : frame s s' r -> wfE s -> wfE s'.
Proof.
  intros HF [E1 E2 E3 E4 E5 E6 E7].
  assert (HN : forall n nd, ninfo s' n = Some nd -> exists nd0, ninfo s n = Some nd0 /\ nd = set_ncc nd0 (r (ncc nd0))).
  { intros n nd; rewrite (f_ninfo _ _ _ HF). destruct (ninfo s n) as [nd0|]; simpl; [|discriminate].
    intros H; injection H as <-; eauto. }
  constructor; rewrite ?(f_edges _ _ _ HF), ?(f_nodes _ _ _ HF); auto.
  - intros n nd e Hn; apply HN in Hn as [nd0 [Hn ->]]; simpl; eauto.
  - intros n nd e Hn; apply HN in Hn as [nd0 [Hn ->]]; simpl; eauto.
  - intros e nd He Hn; apply HN in Hn as [nd0 [Hn ->]]; simpl; eauto.
  - intros e nd He Hn; apply HN in Hn as [nd0 [Hn ->]]; simpl; eauto.
  - intros n nd Hn; apply HN in Hn as [nd0 [Hn ->]]; simpl; eauto.
  - intros n nd Hn; apply HN in Hn as [nd0 [Hn ->]]; simpl; eauto.
Qed.

Lemma arc_end s a b : wfE s -> arc s a b -> In a (nodes s) /\ In b (nodes s).
Proof. intros HE [e [H1 [<- <-]]]; apply (e_end _ HE); exact H1. Qed.
Lemma arc_snoc s t e a b : edges t = edges s ++ [e] -> (arc t a b <-> plus (arc s) (efrom e) (eto e) a b).
Proof.
  intros He; unfold arc, plus; rewrite He; split.
  - intros [e0 [H [<- <-]]]. rewrite in_app_iff in H; simpl in H. destruct H as [H|[<-|[]]]; [left; eauto|auto].
  - intros [[e0 [H [<- <-]]]|[-> ->]]; [exists e0|exists e]; rewrite in_app_iff; simpl; auto.
Qed.

(* What an edge insertion gives *)
Record grown (s t : rmS) (r : nat -> nat) (u v : nat) : Prop := {
  gr_nnext : nnext t = nnext s; gr_cnext : cnext t = cnext s; gr_nodes : nodes t = nodes s;
  gr_init : initN t = initN s; gr_goals : goals t = goals s;
  gr_arc : forall a b, arc t a b <-> plus (arc s) u v a b;
  gr_cof : forall n c, comp_of t n c <-> exists c0, comp_of s n c0 /\ c = r c0;
  gr_cfg : forall n, option_map ncfg (ninfo t n) = option_map ncfg (ninfo s n);
  gr_r : forall x, In x (live s) -> In (r x) (live t);
  gr_reach : forall cu cv, comp_of s u cu -> comp_of s v cv -> forall a b, In a (live s) -> In b (live s) ->
      (reach (E (cinfo t)) (r a) (r b) <-> reach (plus (E (cinfo s)) cu cv) a b);
  gr_live : forall x, In x (live t) -> In x (live s)
}.

Lemma push_connect_spec s t e :
  inv s -> In (efrom e) (nodes s) -> In (eto e) (nodes s) -> pushed s t e ->
  exists s' r, (match ninfo t (efrom e), ninfo t (eto e) with
               | Some n1, Some n2 => connect t (ncc n1) (ncc n2) | _, _ => UB end) = Ok s' /\
    inv s' /\ grown s s' r (efrom e) (eto e) /\ edges s' = edges s ++ [e] /\
    (forall c, comp_of s (efrom e) c -> comp_of s (eto e) c -> s' = t /\ forall x, r x = x).
Proof.
  intros [HW HE HC HR] Hf Ht HP.
  pose proof (w_N _ HW) as HN.
  destruct (cof_ex s _ HN Hf) as [cu [Hcu Hcul]]. destruct (cof_ex s _ HN Ht) as [cv [Hcv Hcvl]].
  pose proof (proj2 (pushed_cof s t e _ _ HP) Hcu) as [n1 [En1 Ec1]].
  pose proof (proj2 (pushed_cof s t e _ _ HP) Hcv) as [n2 [En2 Ec2]].
  rewrite En1, En2, Ec1, Ec2.
  pose proof (pushed_wf _ _ _ HP HW) as HWt. pose proof (pushed_wfE _ _ _ HP HE Hf Ht) as HEt.
  destruct (connect_spec t cu cv HWt) as [s' [r [Hs' [HW' [HF' [Hr' [HR' [Hid Hsub]]]]]]]];
    try (rewrite (p_live _ _ _ HP); assumption).
  rewrite (p_cinfo _ _ _ HP), (p_live _ _ _ HP) in HR'. rewrite (p_live _ _ _ HP) in Hr', Hsub.
  assert (HG0 : forall rr, frame t s' rr -> (forall x, In x (live s) -> In (rr x) (live s')) ->
     (forall a b, In a (live s) -> In b (live s) ->
      (reach (E (cinfo s')) (rr a) (rr b) <-> reach (plus (E (cinfo s)) cu cv) a b)) ->
     grown s s' rr (efrom e) (eto e)).
  { intros rr HF0 Hr0 HR0. constructor.
    - rewrite (f_nnext _ _ _ HF0); apply (p_nnext _ _ _ HP).
    - rewrite (f_cnext _ _ _ HF0); apply (p_cnext _ _ _ HP).
    - rewrite (f_nodes _ _ _ HF0); apply (p_nodes _ _ _ HP).
    - rewrite (f_init _ _ _ HF0); apply (p_init _ _ _ HP).
    - rewrite (f_goals _ _ _ HF0); apply (p_goals _ _ _ HP).
    - intros a b; apply arc_snoc. rewrite (f_edges _ _ _ HF0); apply (p_edges _ _ _ HP).
    - intros n c; rewrite (cof_frame _ _ _ _ _ HF0). split; intros [c0 [H ->]]; exists c0; split; auto;
        apply (pushed_cof _ _ _ _ _ HP); exact H.
    - intros n; rewrite (f_ninfo _ _ _ HF0), (p_ninfo _ _ _ HP).
      destruct (ninfo s n) as [nd|]; simpl; [|reflexivity]. rewrite (proj2 (reg_node_ncc e n nd)); reflexivity.
    - exact Hr0.
    - intros cu' cv' Hcu' Hcv'. rewrite (cof_fun _ _ _ _ Hcu' Hcu), (cof_fun _ _ _ _ Hcv' Hcv). exact HR0.
    - exact Hsub. }
  pose proof (HG0 r HF' Hr' HR') as HG.
  assert (Hinv : inv s').
  { constructor; [exact HW'|apply (frame_wfE _ _ _ HF' HEt)| |].
    - intros m n cm cn Hm Hn Hmn.
      apply (gr_cof _ _ _ _ _ HG) in Hm as [cm0 [Hm ->]]. apply (gr_cof _ _ _ _ _ HG) in Hn as [cn0 [Hn ->]].
      apply HR'; [apply (cof_live s m); auto|apply (cof_live s n); auto|].
      apply (reach_ext _ _ _ _ (gr_arc _ _ _ _ _ HG)) in Hmn.
      apply reach_plus in Hmn. apply reach_plus.
      destruct Hmn as [H|[H1 H2]]; [left; eapply HC; eauto|right; split; eapply HC; eauto].
    - destruct HR as [HR1 HR2]. split.
      + rewrite (gr_init _ _ _ _ _ HG), (gr_nodes _ _ _ _ _ HG); exact HR1.
      + rewrite (gr_goals _ _ _ _ _ HG), (gr_nodes _ _ _ _ _ HG); exact HR2. }
  destruct (Nat.eq_dec cu cv) as [Heq|Hneq].
  - assert (Hst : s' = t) by (apply Hid; exact Heq). subst s'.
    exists t, (fun x => x). split; [exact Hs'|split; [exact Hinv|split; [|split]]].
    + apply HG0; [apply frame_refl; [apply (w_N _ HWt)|auto]|intros x; rewrite (p_live _ _ _ HP); auto|].
      intros a b Ha Hb. rewrite (p_cinfo _ _ _ HP). rewrite Heq. rewrite reach_plus. split; [auto|].
      intros [H|[H1 H2]]; [exact H|eapply reach_trans; eauto].
    + apply (p_edges _ _ _ HP).
    + intros; split; auto.
  - exists s', r. split; [exact Hs'|split; [exact Hinv|split; [exact HG|split]]].
    + rewrite (f_edges _ _ _ HF'); apply (p_edges _ _ _ HP).
    + intros c H1 H2. exfalso; apply Hneq.
      rewrite (cof_fun _ _ _ _ Hcu H1), (cof_fun _ _ _ _ Hcv H2); reflexivity.
Qed.

Lemma grown_sound s t r u v : wfN s -> wfE s -> In u (nodes s) -> In v (nodes s) ->
  grown s t r u v -> sound s -> sound t.
Proof.
  intros HN HE Hu Hv HG HS m n cm cn Hm Hn Hmn.
  destruct (cof_ex s _ HN Hu) as [cu [Hcu _]]. destruct (cof_ex s _ HN Hv) as [cv [Hcv _]].
  apply (gr_cof _ _ _ _ _ HG) in Hm as [cm0 [Hm ->]]. apply (gr_cof _ _ _ _ _ HG) in Hn as [cn0 [Hn ->]].
  apply (gr_reach _ _ _ _ _ HG cu cv Hcu Hcv) in Hmn; [|apply (cof_live s m); auto|apply (cof_live s n); auto].
  apply (reach_ext _ _ _ _ (gr_arc _ _ _ _ _ HG)).
  apply reach_plus in Hmn. apply reach_plus.
  destruct Hmn as [H|[H1 H2]]; [left; eapply HS; eauto|right; split; eapply HS; eauto].
Qed.

Lemma impl_addEdge_unfold s e :
  impl_addEdge (registerIn (registerOut s e) e) e =
  match ninfo (reg s e) (efrom e), ninfo (reg s e) (eto e) with
  | Some n1, Some n2 => connect (reg s e) (ncc n1) (ncc n2) | _, _ => UB end.
Proof. reflexivity. Qed.
Lemma impl_addEdge_unfold' s e :
  impl_addEdge (registerOut (registerIn s e) e) e =
  match ninfo (reg' s e) (efrom e), ninfo (reg' s e) (eto e) with
  | Some n1, Some n2 => connect (reg' s e) (ncc n1) (ncc n2) | _, _ => UB end.
Proof. reflexivity. Qed.

Lemma addEdge_spec (s : rmS) n1 n2 p :
  inv s -> In n1 (nodes s) -> In n2 (nodes s) ->
  exists s' r, addEdge s n1 n2 p = Ok s' /\ inv s' /\ grown s s' r n1 n2 /\
    edges s' = edges s ++ [mkEdge n1 n2 p] /\
    (forall c, comp_of s n1 c -> comp_of s n2 c -> s' = reg s (mkEdge n1 n2 p) /\ forall x, r x = x).
Proof.
  intros HI H1 H2. unfold addEdge.
  assert (HN := w_N _ (i_wf _ HI)).
  destruct (ninfo s n1) eqn:E1; [|apply (n_def _ HN) in H1; congruence].
  destruct (ninfo s n2) eqn:E2; [|apply (n_def _ HN) in H2; congruence].
  rewrite impl_addEdge_unfold.
  apply (push_connect_spec s _ (mkEdge n1 n2 p) HI H1 H2 (pushed_reg s _)).
Qed.
Lemma addEdge_UB (s : rmS) n1 n2 p : wfN s -> ~ (In n1 (nodes s) /\ In n2 (nodes s)) -> addEdge s n1 n2 p = UB.
Proof.
  intros HN H. unfold addEdge.
  destruct (ninfo s n1) eqn:E1; [|reflexivity]. destruct (ninfo s n2) eqn:E2; [|reflexivity].
  exfalso; apply H; split; apply (n_def _ HN); congruence.
Qed.

End S.
