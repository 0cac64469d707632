(* Proofs about the simple shortcut optimizer. *)
From Coq Require Import Lia Lqa.
From Verif Require Import Base Reach RoadmapModel RoadmapSpec RoadmapProofs RoadmapProofs2 RoadmapProofs3 RoadmapProofs4.
From Verif Require Import PlannerModel PlannerSpec PlannerProofs TargetModel.
From Verif Require Import AstarModel AstarSpec AstarProofs.
From Verif Require Import VecSpec SimpleCutModel SimpleCutSpec.

Section S.
Context {C P : Type}.
Variable ceqb : C -> C -> bool.
Variable dist : C -> C -> Q.
Variable plen : P -> Q.
Variable pinit pend : P -> C.
Variable steer sm : C -> C -> option P.
Variable valid : P -> bool.
Variable OK : P -> Prop.
Hypothesis SEP : separating ceqb dist.
Notation rmS := (rm C P).
Implicit Types s t u : rmS.

Definition prv (p : P) : P := p.
Definition V : env C P :=
  mkEnv sm None None (fun p _ => (valid p, Some p)) (fun p _ => Ok p) pinit pend (fun _ => 0%Q) (fun _ => 0%Q).
Notation built := (built ceqb dist plen prv).
Notation good := (good ceqb dist plen prv V OK).
Notation outs := roadmap_outs.
Notation chain := (chain P).

Lemma HEQ a b : ceqb a b = true -> a = b.
Proof. apply SEP. Qed.

Record stI s : Prop := {
  st_inv : inv s;
  st_ok : edges_ok V OK s;
  st_live : exists c, live s = [c];
  st_uniq : cfg_inj s }.
Record mono s t : Prop := {
  m_grows : grows s t;
  m_outs : forall n e, In e (outs s n) -> In e (outs t n);
  m_edges : forall e, In e (edges s) -> In e (edges t) }.
Lemma mono_refl s : mono s s.
Proof. split; auto. apply grows_refl. Qed.
Lemma mono_trans s t u : mono s t -> mono t u -> mono s u.
Proof. intros [] []; split; auto. eapply grows_trans; eassumption. Qed.
Lemma mono_cfg s t n q : mono s t -> config_of s n q -> config_of t n q.
Proof. intros H. apply grows_cfg. apply H. Qed.

Lemma one_comp s n q : stI s -> config_of s n q -> forall c, live s = [c] -> comp_of s n c.
Proof.
  intros HS HC c Hl. pose proof (st_inv _ HS) as HI.
  destruct (cof_ex s n (w_N _ (i_wf _ HI)) (cfg_in _ _ _ HI HC)) as (c' & H1 & H2).
  rewrite Hl in H2. destruct H2 as [<-|[]]. exact H1.
Qed.

Lemma st_addEdge s a b p : stI s -> OK p -> config_of s a (pinit p) -> config_of s b (pend p) ->
  exists t, addEdge s a b p = Ok t /\ stI t /\ mono s t /\ edges t = edges s ++ [mkEdge a b p] /\
    exists e, In e (outs t a) /\ eto e = b /\ (e = mkEdge a b p \/ In e (edges s)).
Proof.
  intros HS HO Ha Hb. pose proof (st_inv _ HS) as HI. destruct (st_live _ HS) as (c & Hc).
  assert (HS' := HS). destruct HS' as [_ HE HL HU].
  destruct (addEdge_spec s a b p HI (cfg_in _ _ _ HI Ha) (cfg_in _ _ _ HI Hb)) as (t & r & H1 & H2 & H3 & H4 & H5).
  destruct (H5 c (one_comp s a _ HS Ha c Hc) (one_comp s b _ HS Hb c Hc)) as (Ht & Hr).
  assert (HX := grown_extends _ _ _ _ _ H3).
  assert (HP : pushed s t (mkEdge a b p)) by (rewrite Ht; apply pushed_reg).
  exists t. split; [exact H1|]. split; [|split; [|split; [exact H4|]]].
  - split; [exact H2| | |].
    + eapply edges_ok_snoc with (e := mkEdge a b p); eassumption.
    + exists c. rewrite (p_live _ _ _ HP). exact Hc.
    + intros m n q (nd & K1 & K2) (nd' & K3 & K4). apply (HU m n q).
      * pose proof (gr_cfg _ _ _ _ _ H3 m) as G. rewrite K1 in G. cbn in G.
        destruct (ninfo s m) as [x|] eqn:E; [|discriminate]. exists x. split; [exact E|]. cbn in G. congruence.
      * pose proof (gr_cfg _ _ _ _ _ H3 n) as G. rewrite K3 in G. cbn in G.
        destruct (ninfo s n) as [x|] eqn:E; [|discriminate]. exists x. split; [exact E|]. cbn in G. congruence.
  - split.
    + split; try apply H3; auto.
      * rewrite (gr_cnext _ _ _ _ _ H3); lia.
      * intros x _. apply (addEdge_kept _ _ _ _ _ H1).
    + intros n e. unfold roadmap_outs. rewrite (p_ninfo _ _ _ HP).
      destruct (ninfo s n) as [nd|]; cbn [option_map]; [|intros []].
      rewrite reg_nout. destruct (_ && _); [|auto]. intro; apply in_or_app; auto.
    + intros e He. rewrite H4. apply in_or_app; auto.
  - assert (Ia : config_of t a (pinit p)) by (apply (x_cfg _ _ HX); exact Ha).
    destruct Ia as (nd & N1 & N2).
    assert (Inew : In (mkEdge a b p) (edges t)) by (rewrite H4; apply in_or_app; right; left; reflexivity).
    destruct (e_outc _ (i_E _ H2) (mkEdge a b p) nd Inew N1) as (e' & E1 & E2). cbn [eto] in E2.
    exists e'. unfold roadmap_outs. rewrite N1. split; [exact E1|]. split; [exact E2|].
    destruct (e_out _ (i_E _ H2) a nd e' N1 E1) as (E3 & _). rewrite H4 in E3.
    apply in_app_or in E3 as [E3|[<-|[]]]; auto.
Qed.

Lemma st_addNodeIn s q c : stI s -> live s = [c] ->
  exists m t, addNodeIn C P ceqb dist s q c = Ok (m, t) /\ stI t /\ mono s t /\ edges t = edges s /\ config_of t m q.
Proof.
  intros HS Hc. pose proof (st_inv _ HS) as HI.
  assert (Hin : In c (live s)) by (rewrite Hc; left; reflexivity).
  destruct (good_addNodeIn ceqb dist V OK HEQ s q c HI (st_ok _ HS) Hin) as (m & t & H1 & H2 & H3 & H4 & H5).
  destruct (addNodeIn_spec ceqb dist s q c HI Hin) as (m' & t' & J1 & _ & _ & _ & _ & J2).
  rewrite H1 in J1. injection J1 as <- <-.
  exists m, t. split; [exact H1|].
  destruct J2 as [->|(Ht & Hm)].
  - split; [exact HS|]. split; [apply mono_refl|]. split; [reflexivity|exact H5].
  - split; [|split; [|split]].
    + split; [exact H2|exact H3| |].
      * exists c. rewrite Ht. exact Hc.
      * assert (Hno : forall k, ~ config_of s k q).
        { intros k Hk. pose proof (one_comp s k q HS Hk c Hc) as Hkc.
          unfold addNodeIn in H1.
          destruct (nodes s) as [|x l] eqn:En.
          { pose proof (cfg_in _ _ _ HI Hk) as I. rewrite En in I. destruct I. }
          pose proof (nn_search_best dist s false q c (w_N _ (i_wf _ HI)) Hin) as HB.
          destruct (nn_search C P dist s false q c) as [[k' d]|] eqn:Es; [|discriminate].
          cbn in HB. destruct HB as (B1 & (qk & B2 & B3) & B4).
          destruct B2 as (nd & N1 & N2). rewrite N1 in H1.
          assert (D0 : (d <= dist q q)%Q).
          { assert (Ik : In k (cnodes (cinfo s c))).
            { destruct Hkc as (ndk & M1 & M2). rewrite <- M2. apply (n_cc _ (w_N _ (i_wf _ HI)) k ndk M1). }
            apply (B4 k q Ik Hk). }
          destruct SEP as (S1 & S2 & S3).
          assert (D1 : (dist q q == 0)%Q) by (apply S3; reflexivity).
          assert (D2 : (dist qk q == 0)%Q).
          { apply Qle_antisym; [|apply S2]. rewrite <- D1. rewrite <- B3. exact D0. }
          apply S3 in D2. rewrite D2 in N2. rewrite N2 in H1.
          assert (Ce : ceqb q q = true) by (apply S1; reflexivity). rewrite Ce in H1.
          injection H1 as E1 E2. rewrite <- E2 in Ht.
          apply (f_equal (fun z => length (nodes z))) in Ht. cbn [nodes newNodeIn snd] in Ht.
          rewrite app_length in Ht. cbn [length] in Ht. lia. }
        assert (Old : forall k qk, config_of t k qk -> config_of s k qk \/ (k = nnext s /\ qk = q)).
        { intros k qk (nd & K1 & K2). rewrite Ht in K1. cbn [ninfo newNodeIn snd] in K1. unfold upd in K1.
          destruct (Nat.eqb_spec k (nnext s)) as [->|Hne].
          - right. injection K1 as <-. auto.
          - left. exists nd. auto. }
        intros a b qq Ha Hb. destruct (Old _ _ Ha) as [A|(-> & Eq)]; destruct (Old _ _ Hb) as [B|(-> & Eq')].
        -- apply (st_uniq _ HS a b qq A B).
        -- subst qq. exfalso. apply (Hno a A).
        -- subst qq. exfalso. apply (Hno b B).
        -- reflexivity.
    + split; [exact H4| |].
      * intros n e. unfold roadmap_outs. rewrite Ht. cbn [ninfo newNodeIn snd]. unfold upd.
        destruct (Nat.eqb_spec n (nnext s)) as [->|Hne]; [|auto].
        destruct (ninfo s (nnext s)) as [nd|] eqn:E; [|intros []].
        exfalso. assert (In (nnext s) (nodes s)) by (apply (n_def _ (w_N _ (i_wf _ HI))); congruence).
        apply (n_lt _ (w_N _ (i_wf _ HI))) in H. lia.
      * rewrite Ht. auto.
    + rewrite Ht. reflexivity.
    + exact H5.
Qed.

Lemma st_addNodeAndEdge s a p : stI s -> built s -> OK p -> config_of s a (pinit p) ->
  exists m t, addNodeAndEdge C P ceqb dist s a (pend p) p = Ok (m, t) /\ stI t /\ built t /\ mono s t /\
    config_of t m (pend p) /\ edges t = edges s ++ [mkEdge a m p] /\
    exists e, In e (outs t a) /\ eto e = m /\ (e = mkEdge a m p \/ In e (edges s)).
Proof.
  intros HS HB HO Ha. destruct (st_live _ HS) as (c & Hc).
  pose proof (one_comp s a _ HS Ha c Hc) as (nd & N1 & N2).
  destruct (st_addNodeIn s (pend p) c HS Hc) as (m & u & U1 & U2 & U3 & U4 & U5).
  destruct (st_addEdge u a m p U2 HO (mono_cfg _ _ _ _ U3 Ha) U5) as (t & T1 & T2 & T3 & T4 & T5).
  rewrite U4 in T4, T5.
  assert (EQ : addNodeAndEdge C P ceqb dist s a (pend p) p = Ok (m, t)).
  { unfold addNodeAndEdge. rewrite N1, N2, U1. cbn [bind]. rewrite T1. reflexivity. }
  exists m, t. split; [exact EQ|]. split; [exact T2|]. split.
  - eapply built_step with (o := OAddNodeAndEdge a (pend p) p); [exact HB|discriminate|]. cbn [step]. rewrite EQ; reflexivity.
  - split; [eapply mono_trans; eassumption|]. split; [eapply mono_cfg; eassumption|]. auto.
Qed.

(* ------------------------------------------------------------ costs *)
Definition near s i n (B : Q) : Prop := exists l, chain (outs s) i l n /\ (path_cost plen l <= B)%Q.
Definition costs s i n B : Prop := near s i n B /\ forall e, In e (edges s) -> near s i (eto e) B.

Lemma chain_mono s t : (forall n e, In e (outs s n) -> In e (outs t n)) ->
  forall l a b, chain (outs s) a l b -> chain (outs t) a l b.
Proof. intros H. induction l as [|e l IH]; cbn; intros a b; [auto|]. intros (A & B & D). auto. Qed.
Lemma near_mono s t i n B B' : mono s t -> (B <= B')%Q -> near s i n B -> near t i n B'.
Proof.
  intros H L (l & A & D). exists l. split; [|lra]. eapply chain_mono; [apply H|exact A].
Qed.
Lemma pcost_app l1 l2 : (path_cost plen (l1 ++ l2) == path_cost plen l1 + path_cost plen l2)%Q.
Proof. induction l1 as [|e l IH]; cbn; [lra|]. rewrite IH. lra. Qed.

Lemma costs_step s t i n m p B : mono s t -> edges t = edges s ++ [mkEdge n m p] -> inv t ->
  (exists e, In e (outs t n) /\ eto e = m /\ (e = mkEdge n m p \/ In e (edges s))) ->
  (0 <= plen p)%Q -> costs s i n B -> costs t i m (B + plen p).
Proof.
  intros HM HE HI (e & E1 & E2 & E3) HP (K1 & K2).
  assert (Hm : near t i m (B + plen p)).
  { destruct E3 as [->|E3].
    - destruct K1 as (l & L1 & L2). exists (l ++ [mkEdge n m p]). split.
      + eapply chain_app; [eapply chain_mono; [apply HM|exact L1]|]. cbn. auto.
      + rewrite pcost_app. cbn. lra.
    - subst m. eapply near_mono; [exact HM| |apply K2; exact E3]. lra. }
  split; [exact Hm|]. intros e' He'. rewrite HE in He'. apply in_app_or in He' as [He'|[<-|[]]].
  - eapply near_mono; [exact HM| |apply K2; exact He']. lra.
  - exact Hm.
Qed.

Lemma in_arc s e : In e (edges s) -> arc s (efrom e) (eto e).
Proof. intros H; exists e; auto. Qed.

Lemma waypoints_spec path : forall s n q q', stI s -> built s -> config_of s n q ->
  chained pinit pend q path q' -> Forall OK path ->
  exists t m ns, waypoints C P ceqb dist pend s n path = Ok (t, m, ns) /\ stI t /\ built t /\ mono s t /\
    config_of t m q' /\ Forall2 (config_of t) ns (map pend path) /\ connected_to t n m /\
    (forall p, In p path -> exists e, In e (edges t) /\ epath e = p) /\
    (forall i B, Forall (fun p => 0 <= plen p)%Q path -> costs s i n B -> costs t i m (B + total plen path)).
Proof.
  induction path as [|p path IH]; intros s n q q' HS HB Hn HC HO; cbn [waypoints].
  - cbn in HC. subst q'. exists s, n, []. split; [reflexivity|]. split; [exact HS|]. split; [exact HB|].
    split; [apply mono_refl|]. split; [exact Hn|]. split; [constructor|]. split; [apply reach_refl|].
    split; [intros p []|]. intros i B _ (K1 & K2). cbn [total].
    split; [|intros e He; specialize (K2 e He); revert K2];
      [revert K1|]; apply near_mono; try apply mono_refl; lra.
  - cbn in HC. destruct HC as (<- & HC). inversion HO as [|? ? HO1 HO2]; subst.
    destruct (st_addNodeAndEdge s n p HS HB HO1 Hn) as (m & t & T1 & T2 & T3 & T4 & T5 & T6 & T7).
    rewrite T1. cbn [bind].
    destruct (IH t m (pend p) q' T2 T3 T5 HC HO2) as (u & k & ns & U1 & U2 & U3 & U4 & U5 & U6 & U7 & U8 & U9).
    rewrite U1. cbn [bind]. exists u, k, (m :: ns). split; [reflexivity|]. split; [exact U2|]. split; [exact U3|].
    split; [eapply mono_trans; eassumption|]. split; [exact U5|]. split; [|split; [|split]].
    + cbn [map]. constructor; [eapply mono_cfg; eassumption|exact U6].
    + eapply reach_step; [|exact U7]. apply (x_arc _ _ (g_x _ _ (m_grows _ _ U4))).
      exists (mkEdge n m p). rewrite T6. split; [apply in_or_app; right; left; reflexivity|auto].
    + intros p' [<-|Hp]; [|apply U8; exact Hp]. exists (mkEdge n m p). split; [|reflexivity].
      apply (m_edges _ _ U4). rewrite T6. apply in_or_app; right; left; reflexivity.
    + intros i B HF K. inversion HF as [|? ? F1 F2]; subst.
      pose proof (costs_step s t i n m p B T4 T6 (st_inv _ T2) T7 F1 K) as K'.
      destruct (U9 i _ F2 K') as (K1 & K2). cbn [total].
      split; [|intros e He; specialize (K2 e He); revert K2];
        [revert K1|]; apply near_mono; try apply mono_refl; lra.
Qed.

(* -------------------------------------------------------- shortcuts *)
Lemma cfgN_ok s n q : config_of s n q -> cfgN C P s n = Ok q.
Proof. intros (nd & A & B). unfold cfgN. rewrite A, B. reflexivity. Qed.

Hypothesis HST : forall a b p, steer a b = Some p -> pinit p = a /\ pend p = b.

Lemma try_spec s a b qa qb : stI s -> built s -> config_of s a qa -> config_of s b qb ->
  (forall p, steer qa qb = Some p -> valid p = true -> OK p) ->
  exists t, try_shortcut C P steer valid s a b = Ok t /\ stI t /\ built t /\ mono s t /\
    forall p, steer qa qb = Some p -> valid p = true -> exists e, In e (edges t) /\ epath e = p.
Proof.
  intros HS HB Ha Hb HO. unfold try_shortcut. rewrite (cfgN_ok _ _ _ Ha), (cfgN_ok _ _ _ Hb). cbn [bind].
  destruct (steer qa qb) as [p|] eqn:E.
  - destruct (valid p) eqn:Ev.
    + destruct (HST _ _ _ E) as (I1 & I2). rewrite <- I1 in Ha. rewrite <- I2 in Hb.
      destruct (st_addEdge s a b p HS (HO p eq_refl Ev) Ha Hb) as (t & T1 & T2 & T3 & T4 & T5).
      exists t. split; [exact T1|]. split; [exact T2|]. split.
      * eapply built_step with (o := OAddEdge a b p); [exact HB|discriminate|exact T1].
      * split; [exact T3|]. intros p' Hp _. injection Hp as <-. exists (mkEdge a b p). rewrite T4.
        split; [apply in_or_app; right; left; reflexivity|reflexivity].
    + exists s. repeat (split; [assumption || reflexivity || apply mono_refl|]). intros p' Hp Hv. congruence.
  - exists s. repeat (split; [assumption || reflexivity || apply mono_refl|]). intros p' Hp; discriminate.
Qed.

Lemma F2_mono s t l ql : mono s t -> Forall2 (config_of s) l ql -> Forall2 (config_of t) l ql.
Proof. intros H. induction 1; constructor; auto. eapply mono_cfg; eassumption. Qed.

Lemma from_node_spec a qa l : forall s ql, stI s -> built s -> config_of s a qa -> Forall2 (config_of s) l ql ->
  (forall b p, In b ql -> steer qa b = Some p -> valid p = true -> OK p) ->
  exists t, from_node C P steer valid s a l = Ok t /\ stI t /\ built t /\ mono s t /\
    forall b p, In b ql -> steer qa b = Some p -> valid p = true -> exists e, In e (edges t) /\ epath e = p.
Proof.
  induction l as [|b l IH]; intros s ql HS HB Ha HF HO; inversion HF as [|? qb ? ql' F1 F2]; subst; cbn [from_node].
  - exists s. repeat (split; [assumption || reflexivity || apply mono_refl|]). intros b p [].
  - destruct (try_spec s a b qa qb HS HB Ha F1) as (t & T1 & T2 & T3 & T4 & T5).
    { intros p. apply HO. left; reflexivity. }
    rewrite T1. cbn [bind].
    destruct (IH t ql' T2 T3 (mono_cfg _ _ _ _ T4 Ha) (F2_mono _ _ _ _ T4 F2)) as (u & U1 & U2 & U3 & U4 & U5).
    { intros b' p Hb. apply HO. right; exact Hb. }
    exists u. split; [exact U1|]. split; [exact U2|]. split; [exact U3|]. split; [eapply mono_trans; eassumption|].
    intros b' p [<-|Hb] E Ev; [|eapply U5; eassumption].
    destruct (T5 p E Ev) as (e & E1 & E2). exists e. split; [apply (m_edges _ _ U4); exact E1|exact E2].
Qed.

Lemma shortcuts_spec l : forall s ql, stI s -> built s -> Forall2 (config_of s) l ql ->
  (forall i j a b p, i + 2 <= j -> nth_error ql i = Some a -> nth_error ql j = Some b ->
     steer a b = Some p -> valid p = true -> OK p) ->
  exists t, shortcuts C P steer valid s l = Ok t /\ stI t /\ built t /\ mono s t /\
    forall i j a b p, i + 2 <= j -> nth_error ql i = Some a -> nth_error ql j = Some b ->
     steer a b = Some p -> valid p = true -> exists e, In e (edges t) /\ epath e = p.
Proof.
  induction l as [|a l IH]; intros s ql HS HB HF HO; inversion HF as [|? qa ? ql' F1 F2]; subst; cbn [shortcuts].
  - exists s. repeat (split; [assumption || reflexivity || apply mono_refl|]).
    intros i j x y p _ Hx. destruct i; discriminate.
  - assert (F3 : Forall2 (config_of s) (tl l) (tl ql')) by (destruct F2; [constructor|assumption]).
    assert (Htl : forall b, In b (tl ql') <-> exists j, nth_error (qa :: ql') (S (S j)) = Some b).
    { intros b. destruct ql' as [|x ql']; cbn [tl].
      - split; [intros []|]. intros (j & Hj). destruct j; discriminate.
      - split; [intros Hb; apply In_nth_error in Hb as (j & Hj); exists j; exact Hj|].
        intros (j & Hj). eapply nth_error_In. exact Hj. }
    destruct (from_node_spec a qa (tl l) s (tl ql') HS HB F1 F3) as (t & T1 & T2 & T3 & T4 & T5).
    { intros b p Hb. apply Htl in Hb as (j & Hj). apply (HO 0 (S (S j)) qa b p); [lia|reflexivity|exact Hj]. }
    rewrite T1. cbn [bind].
    destruct (IH t ql' T2 T3 (F2_mono _ _ _ _ T4 F2)) as (u & U1 & U2 & U3 & U4 & U5).
    { intros i j x y p L Hx Hy. apply (HO (S i) (S j) x y p); [lia|exact Hx|exact Hy]. }
    exists u. split; [exact U1|]. split; [exact U2|]. split; [exact U3|]. split; [eapply mono_trans; eassumption|].
    intros i j x y p L Hx Hy E Ev. destruct i as [|i].
    + injection Hx as <-. destruct j as [|[|j]]; try lia.
      assert (Hb : In y (tl ql')) by (apply Htl; exists j; exact Hy).
      destruct (T5 y p Hb E Ev) as (e & E1 & E2). exists e. split; [apply (m_edges _ _ U4); exact E1|exact E2].
    + destruct j as [|j]; [lia|]. apply (U5 i j x y p); [lia|exact Hx|exact Hy|exact E|exact Ev].
Qed.
End S.
