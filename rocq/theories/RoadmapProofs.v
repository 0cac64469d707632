(* Proofs about the roadmap model. *)
From Verif Require Import Base Reach RoadmapModel.

(* ------------------------------------------------------------------ *)
(* Breadth-first searches                                              *)
Lemma expand_spec cs : forall fl ex q fl' ex' q',
  expand cs fl ex q = (fl', ex', q') ->
  (forall x, In x fl' <-> In x fl \/ In x cs) /\
  (forall x, In x ex' <-> In x ex \/ (In x cs /\ ~ In x fl)) /\
  (exists new, q' = q ++ new /\ NoDup new /\ forall x, In x new <-> In x cs /\ ~ In x fl).
Proof.
  induction cs as [|c cs IH]; intros fl ex q fl' ex' q' H; simpl in H.
  - injection H as <- <- <-; split; [|split].
    + intros x; simpl; tauto.
    + intros x; simpl; tauto.
    + exists []; rewrite app_nil_r; split; [reflexivity|split; [constructor|intros x; simpl; tauto]].
  - destruct (mem c fl) eqn:E.
    + apply mem_In in E. specialize (IH _ _ _ _ _ _ H) as [I1 [I2 [new [I3 [I4 I5]]]]].
      split; [|split].
      * intros x; rewrite I1; simpl; split; [tauto|intros [Hx|[<-|Hx]]; auto].
      * intros x; rewrite I2; simpl; split; [tauto|intros [Hx|[[<-|Hx] Hn]]; auto; contradiction].
      * exists new; split; [exact I3|split; [exact I4|]].
        intros x; rewrite I5; simpl; split; [tauto|intros [[<-|Hx] Hn]; auto; contradiction].
    + apply mem_nIn in E. specialize (IH _ _ _ _ _ _ H) as [I1 [I2 [new [I3 [I4 I5]]]]].
      split; [|split].
      * intros x; rewrite I1; simpl; tauto.
      * intros x; rewrite I2, In_ins; simpl. split.
        -- intros [[->|Hx]|[Hx Hn]]; auto. right; split; auto.
        -- intros [Hx|[[<-|Hx] Hn]]; auto.
           destruct (Nat.eq_dec x c) as [->|Hc]; [auto|].
           right; split; [auto|intros [Hcx|Hfx]; [congruence|contradiction]].
      * exists (c :: new); split; [rewrite I3, <- app_assoc; reflexivity|split].
        -- constructor; [|exact I4]. rewrite I5; simpl; tauto.
        -- intros x; simpl; rewrite I5; simpl; split.
           ++ intros [<-|[Hx Hn]]; auto.
           ++ intros [[<-|Hx] Hn]; auto.
              destruct (Nat.eq_dec c x) as [->|Hc]; [auto|right; split; auto; intros [Hcx|Hfx]; contradiction].
Qed.

Section BFS.
Variable U : list nat.
Variable succ : nat -> list nat.
Hypothesis U_closed : forall a b, In a U -> In b (succ a) -> In b U.
Variable start stop : nat.
Hypothesis U_start : In start U.

Let R := noexp (fun a b => In b (succ a)) stop.

Record binv (dn fl ex q : list nat) : Prop := {
  b_nd : NoDup (dn ++ q);
  b_fl : forall x, In x fl <-> In x (dn ++ q);
  b_ex : forall x, In x ex <-> In x (dn ++ q);
  b_U : forall x, In x (dn ++ q) -> In x U;
  b_start : In start (dn ++ q);
  b_reach : forall x, In x (dn ++ q) -> reach R start x;
  b_done : forall x y, In x dn -> R x y -> In y (dn ++ q)
}.

Lemma binv_init : binv [] [start] [start] [start].
Proof.
  constructor; simpl; try tauto.
  - repeat constructor; simpl; tauto.
  - intros x [<-|[]]; exact U_start.
  - intros x [<-|[]]; apply reach_refl.
Qed.

Lemma binv_len dn fl ex q : binv dn fl ex q -> length dn + length q <= length U.
Proof.
  intros [Hnd _ _ HU _ _ _]. rewrite <- app_length.
  apply NoDup_incl_length; [exact Hnd|exact HU].
Qed.

Lemma binv_expand dn fl ex cur q fl' ex' q' :
  binv dn fl ex (cur :: q) -> cur <> stop ->
  expand (succ cur) fl ex q = (fl', ex', q') -> binv (dn ++ [cur]) fl' ex' q'.
Proof.
  intros [Hnd Hfl Hex HU Hst Hre Hdn] Hc He.
  apply expand_spec in He as [I1 [I2 [new [-> [I4 I5]]]]].
  assert (Heq : (dn ++ [cur]) ++ q ++ new = (dn ++ cur :: q) ++ new)
    by (rewrite <- !app_assoc; reflexivity).
  constructor; rewrite ?Heq.
  - apply NoDup_app_intro; [exact Hnd|exact I4|].
    intros x Hx Hn; apply I5 in Hn as [_ Hn]; apply Hn, Hfl; exact Hx.
  - intros x; rewrite I1, in_app_iff, I5, Hfl.
    destruct (in_dec Nat.eq_dec x (dn ++ cur :: q)) as [i|n]; [tauto|].
    split; [tauto|]. intros [H|[H _]]; tauto.
  - intros x; rewrite I2, in_app_iff, I5, Hex; tauto.
  - intros x; rewrite in_app_iff, I5; intros [H|[H _]]; [auto|].
    apply (U_closed cur); [apply HU; rewrite in_app_iff; simpl; auto|exact H].
  - rewrite in_app_iff; auto.
  - intros x; rewrite in_app_iff, I5; intros [H|[H _]]; [auto|].
    eapply reach_snoc; [apply Hre; rewrite in_app_iff; simpl; right; left; reflexivity|].
    split; [exact Hc|exact H].
  - intros x y Hx Hxy; rewrite in_app_iff in Hx; simpl in Hx.
    destruct Hx as [Hx|[<-|[]]].
    + rewrite in_app_iff; left; eapply Hdn; eauto.
    + destruct Hxy as [_ Hxy]. rewrite in_app_iff, I5.
      destruct (in_dec Nat.eq_dec y (dn ++ cur :: q)) as [i|n]; [tauto|right; split; [exact Hxy|]].
      rewrite Hfl; exact n.
Qed.

Lemma binv_stop dn fl ex q :
  binv dn fl ex (stop :: q) -> binv (dn ++ [stop]) fl (ins stop ex) q.
Proof.
  intros [Hnd Hfl Hex HU Hst Hre Hdn].
  assert (Heq : (dn ++ [stop]) ++ q = dn ++ stop :: q) by (rewrite <- app_assoc; reflexivity).
  constructor; rewrite ?Heq; auto.
  - intros x; rewrite In_ins, Hex; split; [|tauto].
    intros [->|H]; [rewrite in_app_iff; simpl; auto|exact H].
  - intros x y Hx Hxy; rewrite in_app_iff in Hx; simpl in Hx.
    destruct Hx as [Hx|[<-|[]]]; [eapply Hdn; eauto|destruct Hxy as [Hxy _]; congruence].
Qed.

Lemma binv_end dn fl ex : binv dn fl ex [] -> forall x, In x ex <-> reach R start x.
Proof.
  intros [Hnd Hfl Hex HU Hst Hre Hdn] x; rewrite app_nil_r in *; rewrite Hex; split; [auto|].
  assert (H : forall a b, reach R a b -> In a dn -> In b dn)
    by (induction 1; auto; intros; apply IHreach; eauto).
  intros Hr; eapply H; eauto.
Qed.

Lemma bfs2_spec : forall fuel dn r fl ex q,
  binv dn fl ex q -> length U < length dn + fuel -> (r = true <-> In stop dn) ->
  exists r' fl' ex', bfs2 fuel succ stop r fl ex q = Ok (r', fl', ex') /\
    (forall x, In x fl' <-> In x ex') /\
    (forall x, In x ex' <-> reach R start x) /\
    (r' = true <-> In stop ex').
Proof.
  induction fuel as [|k IH]; intros dn r fl ex q HI Hlen Hr.
  - destruct q as [|cur q].
    + exists r, fl, ex; split; [reflexivity|].
      split; [intros x; rewrite (b_fl _ _ _ _ HI), (b_ex _ _ _ _ HI); tauto|].
      split; [apply (binv_end _ _ _ HI)|].
      rewrite Hr, (b_ex _ _ _ _ HI), app_nil_r; tauto.
    + pose proof (binv_len _ _ _ _ HI); simpl in *; lia.
  - destruct q as [|cur q].
    + exists r, fl, ex; split; [reflexivity|].
      split; [intros x; rewrite (b_fl _ _ _ _ HI), (b_ex _ _ _ _ HI); tauto|].
      split; [apply (binv_end _ _ _ HI)|].
      rewrite Hr, (b_ex _ _ _ _ HI), app_nil_r; tauto.
    + cbn [bfs2]. destruct (Nat.eqb_spec cur stop) as [->|Hc].
      * apply (IH (dn ++ [stop])); [apply binv_stop; exact HI|rewrite app_length; simpl; lia|].
        rewrite in_app_iff; simpl; tauto.
      * destruct (expand (succ cur) fl ex q) as [[fl' ex'] q'] eqn:He.
        apply (IH (dn ++ [cur])); [eapply binv_expand; eauto|rewrite app_length; simpl; lia|].
        rewrite in_app_iff; simpl; rewrite Hr; split; [tauto|intros [H|[H|[]]]; [auto|congruence]].
Qed.

Lemma bfs1_spec ci : (forall x, succ x = rto (ci x)) -> forall fuel dn fl ex q,
  binv dn fl ex q -> length U < length dn + fuel -> ~ In stop dn ->
  exists r' fl' ex', bfs1 fuel ci stop fl ex q = Ok (r', fl', ex') /\
    (forall x, In x fl' <-> In x ex') /\
    (r' = true <-> reach R start stop).
Proof.
  intros Hs; induction fuel as [|k IH]; intros dn fl ex q HI Hlen Hr.
  - destruct q as [|cur q]; [|pose proof (binv_len _ _ _ _ HI); simpl in *; lia].
    exists false, fl, ex; split; [reflexivity|].
    split; [intros x; rewrite (b_fl _ _ _ _ HI), (b_ex _ _ _ _ HI); tauto|].
    rewrite <- (binv_end _ _ _ HI), (b_ex _ _ _ _ HI), app_nil_r; split; [congruence|contradiction].
  - destruct q as [|cur q].
    + exists false, fl, ex; split; [reflexivity|].
      split; [intros x; rewrite (b_fl _ _ _ _ HI), (b_ex _ _ _ _ HI); tauto|].
      rewrite <- (binv_end _ _ _ HI), (b_ex _ _ _ _ HI), app_nil_r; split; [congruence|contradiction].
    + cbn [bfs1]. destruct (Nat.eqb_spec cur stop) as [->|Hc].
      * exists true, fl, ex; split; [reflexivity|].
        split; [intros x; rewrite (b_fl _ _ _ _ HI), (b_ex _ _ _ _ HI); tauto|].
        split; [intros _|auto]. apply (b_reach _ _ _ _ HI); rewrite in_app_iff; simpl; auto.
      * rewrite <- Hs. destruct (expand (succ cur) fl ex q) as [[fl' ex'] q'] eqn:He.
        apply (IH (dn ++ [cur])); [eapply binv_expand; eauto|rewrite app_length; simpl; lia|].
        rewrite in_app_iff; simpl; intros [H|[H|[]]]; [auto|congruence].
Qed.
End BFS.

Lemma minus_same fl ex : (forall x : nat, In x fl <-> In x ex) -> minus fl ex = [].
Proof.
  intros H; destruct (minus fl ex) as [|a l] eqn:E; [reflexivity|].
  assert (Ha : In a (minus fl ex)) by (rewrite E; left; reflexivity).
  apply In_minus in Ha as [H1 H2]; apply H in H1; contradiction.
Qed.

(* ------------------------------------------------------------------ *)
(* The graph of components                                             *)
Definition E (ci : nat -> comp) (a b : nat) : Prop := In b (rto (ci a)).

Record wfG (L : list nat) (ci : nat -> comp) : Prop := {
  g_nd : NoDup L;
  g_to : forall a b, In a L -> In b (rto (ci a)) -> In b L;
  g_from : forall a b, In a L -> In b (rfrom (ci a)) -> In b L;
  g_sym : forall a b, In a L -> In b L -> (In b (rto (ci a)) <-> In a (rfrom (ci b)));
  g_irr : forall a, In a L -> ~ In a (rto (ci a))
}.

Definition acyc (L : list nat) (ci : nat -> comp) : Prop :=
  forall a b, In a L -> In b L -> reach (E ci) a b -> reach (E ci) b a -> a = b.

Lemma wfG_reach_L L ci a b : wfG L ci -> In a L -> reach (E ci) a b -> In b L.
Proof.
  intros HG Ha H; induction H as [|x y z H1 H2 IH]; [exact Ha|].
  apply IH, (g_to _ _ HG x); auto.
Qed.

Section S.
Context {C P : Type}.
Notation rmS := (rm C P).

Lemma set_flags_id (s : rmS) : flags s = [] -> set_flags s [] = s.
Proof. destruct s; simpl; intros ->; reflexivity. Qed.

Lemma canReach_spec (s : rmS) a b :
  wfG (live s) (cinfo s) -> flags s = [] -> In a (live s) ->
  exists r, canReach s a b = Ok (r, s) /\ (r = true <-> reach (E (cinfo s)) a b).
Proof.
  intros HG Hf Ha; unfold canReach; rewrite Hf; simpl ins.
  destruct (bfs1_spec (live s) (fun c => rto (cinfo s c)) (g_to _ _ HG) a b
             (cinfo s) (fun x => eq_refl) (S (length (live s))) [] [a] [a] [a]
             (binv_init _ _ _ _ Ha)) as [r [fl [ex [He [Hfe Hr]]]]].
  - simpl; lia.
  - simpl; tauto.
  - change (ins a []) with [a]. rewrite He. exists r.
    rewrite (minus_same _ _ Hfe), (set_flags_id _ Hf).
    split; [reflexivity|]. rewrite Hr; symmetry; apply reach_noexp_stop, nat_dec_or.
Qed.

Lemma canReachSet_spec (s : rmS) a b :
  wfG (live s) (cinfo s) -> acyc (live s) (cinfo s) -> flags s = [] -> In a (live s) -> In b (live s) ->
  exists r S, canReachSet s a b = Ok (r, S, s) /\ (r = true <-> reach (E (cinfo s)) a b) /\
    (r = true -> forall x, In x S <-> reach (E (cinfo s)) a x /\ reach (E (cinfo s)) x b).
Proof.
  intros HG HA Hf Ha Hb; unfold canReachSet; rewrite Hf; change (ins a []) with [a].
  destruct (bfs2_spec (live s) (fun c => rto (cinfo s c)) (g_to _ _ HG) a b
             (S (length (live s))) [] false [a] [a] [a]
             (binv_init _ _ _ _ Ha)) as [r [fl [exF [He [Hfe [Hex Hr]]]]]].
  { simpl; lia. } { simpl; split; [congruence|tauto]. }
  rewrite He, (minus_same _ _ Hfe).
  assert (Hr' : r = true <-> reach (E (cinfo s)) a b).
  { rewrite Hr, Hex; symmetry; apply (reach_noexp_stop (E (cinfo s))), nat_dec_or. }
  destruct r.
  - change (ins b []) with [b].
    destruct (bfs2_spec (live s) (fun c => rfrom (cinfo s c)) (g_from _ _ HG) b a
               (S (length (live s))) [] false [b] [b] [b]
               (binv_init _ _ _ _ Hb)) as [r2 [fl2 [exB [He2 [Hfe2 [Hex2 Hr2]]]]]].
    { simpl; lia. } { simpl; split; [congruence|tauto]. }
    rewrite He2, (minus_same _ _ Hfe2), (set_flags_id _ Hf).
    exists true, (inter exF exB); split; [reflexivity|split; [exact Hr'|]].
    intros _ x; rewrite In_inter, Hex, Hex2.
    assert (Hab : reach (E (cinfo s)) a b) by (apply Hr'; reflexivity).
    assert (HB : forall y, In y (live s) ->
       (reach (noexp (fun p q => In q (rfrom (cinfo s p))) a) b y <->
        reach (noexp (fun p q => E (cinfo s) q p) a) b y)).
    { intros y Hy. split.
      - assert (forall p q, reach (noexp (fun p q => In q (rfrom (cinfo s p))) a) p q -> In p (live s) ->
                  reach (noexp (fun p q => E (cinfo s) q p) a) p q) as Hgen.
        { induction 1 as [|p q w [Hpa H1] H2 IH]; [intros; apply reach_refl|].
          intros Hp. pose proof (g_from _ _ HG p q Hp H1) as Hq.
          eapply reach_step; [split; [exact Hpa|]|apply IH; exact Hq].
          unfold E; apply (g_sym _ _ HG q p Hq Hp); exact H1. }
        intros H; apply Hgen; auto.
      - intros H. assert (forall p q, reach (noexp (fun p q => E (cinfo s) q p) a) p q -> In q (live s) ->
                  In p (live s) /\ reach (noexp (fun p q => In q (rfrom (cinfo s p))) a) p q) as Hgen.
        { induction 1 as [|p q w [Hpa H1] H2 IH]; [intros Hx; split; [exact Hx|apply reach_refl]|].
          intros Hp. destruct (IH Hp) as [Hq Hqw].
          pose proof (g_to _ _ HG q p Hq H1) as Hpl. split; [exact Hpl|].
          eapply reach_step; [split; [exact Hpa|]|exact Hqw].
          apply (g_sym _ _ HG q p Hq Hpl); exact H1. }
        apply Hgen; auto. }
    split.
    + intros [H1 H2]; apply reach_noexp_sub in H1. split; [exact H1|].
      pose proof (wfG_reach_L _ _ _ _ HG Ha H1) as Hx.
      apply HB in H2; [|exact Hx]. apply reach_noexp_sub in H2.
      apply reach_flip; exact H2.
    + intros [H1 H2]. pose proof (wfG_reach_L _ _ _ _ HG Ha H1) as Hx. split.
      * destruct (reach_noexp_split _ b _ _ (nat_dec_or b) H1) as [H|[H H3]]; [exact H|].
        assert (x = b) as -> by (apply HA; auto). exact H.
      * apply HB; [exact Hx|]. apply reach_flip in H2.
        destruct (reach_noexp_split _ a _ _ (nat_dec_or a) H2) as [H|[H H3]]; [exact H|].
        apply reach_flip in H3.
        assert (x = a) as -> by (apply HA; auto). exact H.
  - rewrite (set_flags_id _ Hf). exists false, []; split; [reflexivity|split; [exact Hr'|congruence]].
Qed.

(* ------------------------------------------------------------------ *)
(* One merge                                                           *)
Lemma fold_rfrom l : forall ci this other x,
  let ci' := fold_left (fun ci c => upd ci c (set_rfrom (ci c) (ins this (ers other (rfrom (ci c)))))) l ci in
  cnodes (ci' x) = cnodes (ci x) /\ rto (ci' x) = rto (ci x) /\
  (In x l -> this <> other -> forall y, In y (rfrom (ci' x)) <-> y = this \/ (In y (rfrom (ci x)) /\ y <> other)) /\
  (~ In x l -> rfrom (ci' x) = rfrom (ci x)).
Proof.
  induction l as [|c l IH]; intros ci this other x; simpl.
  - split; [|split; [|split]]; auto. intros [].
  - destruct (IH (upd ci c (set_rfrom (ci c) (ins this (ers other (rfrom (ci c)))))) this other x)
      as [I1 [I2 [I3 I4]]].
    destruct (Nat.eq_dec x c) as [->|Hx].
    + rewrite !upd_eq in *; simpl in *. split; [exact I1|split; [exact I2|split]].
      * intros _ Hto y. destruct (in_dec Nat.eq_dec c l) as [Hi|Hn].
        -- rewrite (I3 Hi Hto), In_ins, In_ers; split; [|tauto].
           intros [H|[[H|H] Hy]]; tauto.
        -- rewrite (I4 Hn), In_ins, In_ers; tauto.
      * intros Hn; exfalso; apply Hn; left; reflexivity.
    + rewrite !upd_neq in * by assumption. split; [exact I1|split; [exact I2|split]].
      * intros [H|H]; [congruence|auto].
      * intros Hn; apply I4; tauto.
Qed.
Lemma fold_rto l : forall ci this other x,
  let ci' := fold_left (fun ci c => upd ci c (set_rto (ci c) (ins this (ers other (rto (ci c)))))) l ci in
  cnodes (ci' x) = cnodes (ci x) /\ rfrom (ci' x) = rfrom (ci x) /\
  (In x l -> this <> other -> forall y, In y (rto (ci' x)) <-> y = this \/ (In y (rto (ci x)) /\ y <> other)) /\
  (~ In x l -> rto (ci' x) = rto (ci x)).
Proof.
  induction l as [|c l IH]; intros ci this other x; simpl.
  - split; [|split; [|split]]; auto. intros [].
  - destruct (IH (upd ci c (set_rto (ci c) (ins this (ers other (rto (ci c)))))) this other x)
      as [I1 [I2 [I3 I4]]].
    destruct (Nat.eq_dec x c) as [->|Hx].
    + rewrite !upd_eq in *; simpl in *. split; [exact I1|split; [exact I2|split]].
      * intros _ Hto y. destruct (in_dec Nat.eq_dec c l) as [Hi|Hn].
        -- rewrite (I3 Hi Hto), In_ins, In_ers; split; [|tauto].
           intros [H|[[H|H] Hy]]; tauto.
        -- rewrite (I4 Hn), In_ins, In_ers; tauto.
      * intros Hn; exfalso; apply Hn; left; reflexivity.
    + rewrite !upd_neq in * by assumption. split; [exact I1|split; [exact I2|split]].
      * intros [H|H]; [congruence|auto].
      * intros Hn; apply I4; tauto.
Qed.
Lemma fold_ncc (l : list nat) (this : nat) : forall (f : nat -> option (node C P)) x,
  fold_left (fun f n => upd_node f n (fun x => set_ncc x this)) l f x =
  if mem x l then option_map (fun nd => set_ncc nd this) (f x) else f x.
Proof.
  induction l as [|c l IH]; intros f x; simpl; [reflexivity|].
  rewrite IH; unfold upd_node.
  destruct (Nat.eqb_spec x c) as [->|Hx]; simpl.
  - destruct (mem c l); [|reflexivity].
    destruct (f c) as [[]|]; reflexivity.
  - reflexivity.
Qed.

(* contraction of [other] into [this] *)
Definition h (this other x : nat) : nat := if x =? other then this else x.

Lemma cc_merge_spec (s : rmS) this other :
  wfG (live s) (cinfo s) -> In this (live s) -> In other (live s) -> this <> other ->
  let s' := cc_merge s this other in
  (forall x, ninfo s' x = if mem x (cnodes (cinfo s other))
                          then option_map (fun nd => set_ncc nd this) (ninfo s x) else ninfo s x) /\
  (forall x, x <> this -> cnodes (cinfo s' x) = cnodes (cinfo s x)) /\
  cnodes (cinfo s' this) = cnodes (cinfo s this) ++ cnodes (cinfo s other) /\
  (forall a, a <> this -> a <> other -> In a (live s) -> forall b,
     (In b (rto (cinfo s' a)) <->
       (b <> other /\ In b (rto (cinfo s a))) \/ (b = this /\ In other (rto (cinfo s a)))) /\
     (In b (rfrom (cinfo s' a)) <->
       (b <> other /\ In b (rfrom (cinfo s a))) \/ (b = this /\ In other (rfrom (cinfo s a))))) /\
  (forall b, (In b (rto (cinfo s' this)) <->
      b <> this /\ b <> other /\ (In b (rto (cinfo s this)) \/ In b (rto (cinfo s other)))) /\
     (In b (rfrom (cinfo s' this)) <->
      b <> this /\ b <> other /\ (In b (rfrom (cinfo s this)) \/ In b (rfrom (cinfo s other))))).
Proof.
  intros HG Ht Ho Hne s'. unfold cc_merge in s'.
  set (c0 := upd (cinfo s) this _) in s'.
  set (c1 := fold_left _ (rto (c0 other)) c0) in s'.
  set (c2 := fold_left _ (rfrom (c1 other)) c1) in s'.
  set (c3 := upd c2 this _) in s'.
  set (c4 := upd c3 this _) in s'.
  assert (Hno : other <> this) by congruence.
  assert (Hc0o : c0 other = cinfo s other) by (unfold c0; apply upd_neq; exact Hno).
  assert (Hirr : ~ In other (rto (cinfo s other))) by (apply (g_irr _ _ HG); exact Ho).
  assert (Hirr' : ~ In other (rfrom (cinfo s other))).
  { intros H; apply Hirr, (g_sym _ _ HG); assumption. }
  assert (R0 : forall x, rto (c0 x) = rto (cinfo s x) /\ rfrom (c0 x) = rfrom (cinfo s x)).
  { intros x; unfold c0; destruct (Nat.eq_dec x this) as [->|Hx];
      [rewrite upd_eq; simpl; auto|rewrite upd_neq by assumption; auto]. }
  assert (N0 : forall x, x <> this -> cnodes (c0 x) = cnodes (cinfo s x)).
  { intros x Hx; unfold c0; rewrite upd_neq by assumption; reflexivity. }
  assert (N0t : cnodes (c0 this) = cnodes (cinfo s this) ++ cnodes (cinfo s other)).
  { unfold c0; rewrite upd_eq; reflexivity. }
  pose proof (fun x => fold_rfrom (rto (c0 other)) c0 this other x) as F1. fold c1 in F1. cbv zeta in F1.
  pose proof (fun x => fold_rto (rfrom (c1 other)) c1 this other x) as F2. fold c2 in F2. cbv zeta in F2.
  assert (Hr1o : rfrom (c1 other) = rfrom (cinfo s other)).
  { destruct (F1 other) as [_ [_ [_ H]]]. rewrite H; [apply R0|rewrite Hc0o; exact Hirr]. }
  assert (Ht1 : forall x, rto (c1 x) = rto (cinfo s x)).
  { intros x; destruct (F1 x) as [_ [H _]]; rewrite H; apply R0. }
  assert (Hr2 : forall x, rfrom (c2 x) = rfrom (c1 x)) by (intros x; apply F2).
  assert (Ht2o : rto (c2 other) = rto (cinfo s other)).
  { destruct (F2 other) as [_ [_ [_ H]]]. rewrite H; [apply Ht1|rewrite Hr1o; exact Hirr']. }
  assert (Hn2 : forall x, cnodes (c2 x) = cnodes (c0 x)).
  { intros x; destruct (F2 x) as [H _]; rewrite H; apply F1. }
  assert (Hc4o : forall x, x <> this -> c4 x = c2 x).
  { intros x Hx; unfold c4, c3; rewrite !upd_neq by assumption; reflexivity. }
  assert (Hto2 : forall a b, In a (live s) -> a <> other ->
     (In b (rto (c2 a)) <-> (b <> other /\ In b (rto (cinfo s a))) \/ (b = this /\ In other (rto (cinfo s a))))).
  { intros a b Ha Hao. destruct (F2 a) as [_ [_ [G1 G2]]]. rewrite Hr1o in G1, G2.
    destruct (in_dec Nat.eq_dec a (rfrom (cinfo s other))) as [Hi|Hn].
    - rewrite (G1 Hi Hne b), Ht1. apply (g_sym _ _ HG a other Ha Ho) in Hi. tauto.
    - rewrite (G2 Hn), Ht1. assert (~ In other (rto (cinfo s a))).
      { intros H; apply Hn, (g_sym _ _ HG a other Ha Ho); exact H. }
      destruct (Nat.eq_dec b other) as [->|Hb]; tauto. }
  assert (Hfr1 : forall a b, In a (live s) -> a <> other ->
     (In b (rfrom (c1 a)) <-> (b <> other /\ In b (rfrom (cinfo s a))) \/ (b = this /\ In other (rfrom (cinfo s a))))).
  { intros a b Ha Hao. destruct (F1 a) as [_ [_ [G1 G2]]]. rewrite Hc0o in G1, G2.
    pose proof (proj2 (R0 a)) as Hr0. rewrite Hr0 in G1, G2.
    destruct (in_dec Nat.eq_dec a (rto (cinfo s other))) as [Hi|Hn].
    - rewrite (G1 Hi Hne b). apply (g_sym _ _ HG other a Ho Ha) in Hi. tauto.
    - rewrite (G2 Hn). assert (~ In other (rfrom (cinfo s a))).
      { intros H; apply Hn, (g_sym _ _ HG other a Ho Ha); exact H. }
      destruct (Nat.eq_dec b other) as [->|Hb]; tauto. }
  assert (HC : cinfo s' = c4) by reflexivity.
  split; [|split; [|split; [|split]]].
  - intros x. change (ninfo s') with
      (fold_left (fun f n => upd_node f n (fun x => set_ncc x this)) (cnodes (cinfo s other)) (ninfo s)).
    apply fold_ncc.
  - intros x Hx; rewrite HC, (Hc4o x Hx), Hn2; apply N0; exact Hx.
  - rewrite HC; unfold c4; rewrite upd_eq; simpl; unfold c3; rewrite upd_eq; simpl; rewrite Hn2; exact N0t.
  - intros a Hat Hao Ha b. rewrite HC, (Hc4o a Hat), Hr2. split; [apply Hto2|apply Hfr1]; assumption.
  - intros b; rewrite HC; unfold c4; rewrite upd_eq; simpl; unfold c3 at 1; rewrite upd_eq; simpl.
    rewrite !In_ers, !In_uni. split.
    + rewrite Ht2o, (Hto2 this b Ht Hne). tauto.
    + unfold c3; rewrite upd_eq, (upd_neq _ _ _ other Hno); simpl.
      rewrite !Hr2, Hr1o, (Hfr1 this b Ht Hne). tauto.
Qed.

(* arcs between [this] and every element of X, in both directions *)
Definition bi (this : nat) (X : list nat) (a b : nat) : Prop :=
  (a = this /\ In b X) \/ (b = this /\ In a X).
Definition rep (this : nat) (X : list nat) (x : nat) : nat := if mem x X then this else x.
Definition orR (R S : nat -> nat -> Prop) a b := R a b \/ S a b.

(* node part of the state *)
Record wfN (s : rmS) : Prop := {
  n_nd : NoDup (nodes s);
  n_lt : forall n, In n (nodes s) -> n < nnext s;
  n_def : forall n, ninfo s n <> None <-> In n (nodes s);
  n_cc : forall n nd, ninfo s n = Some nd -> In (ncc nd) (live s) /\ In n (cnodes (cinfo s (ncc nd)));
  n_of : forall c n, In c (live s) -> In n (cnodes (cinfo s c)) ->
           exists nd, ninfo s n = Some nd /\ ncc nd = c;
  n_cnd : forall c, In c (live s) -> NoDup (cnodes (cinfo s c));
  n_ne : forall c, In c (live s) -> cnodes (cinfo s c) <> [];
  n_clt : forall c, In c (live s) -> c < cnext s
}.

(* what a sequence of merges leaves alone, and the node renaming *)
Record frame (s s' : rmS) (r : nat -> nat) : Prop := {
  f_nnext : nnext s' = nnext s;
  f_cnext : cnext s' = cnext s;
  f_nodes : nodes s' = nodes s;
  f_flags : flags s' = flags s;
  f_edges : edges s' = edges s;
  f_init : initN s' = initN s;
  f_goals : goals s' = goals s;
  f_ninfo : forall n, ninfo s' n = option_map (fun nd => set_ncc nd (r (ncc nd))) (ninfo s n)
}.

Lemma set_ncc_id (nd : node C P) : set_ncc nd (ncc nd) = nd.
Proof. destruct nd; reflexivity. Qed.
Lemma frame_refl s r : wfN s -> (forall c, In c (live s) -> r c = c) -> frame s s r.
Proof.
  intros HN Hr; constructor; try reflexivity.
  intros n; destruct (ninfo s n) as [nd|] eqn:En; simpl; [|reflexivity].
  destruct (n_cc _ HN n nd En) as [Hc _].
  rewrite (Hr _ Hc), set_ncc_id; reflexivity.
Qed.

Definition merge1 (s : rmS) this c : rmS :=
  let s' := cc_merge s this c in set_live s' (ers c (live s')).

Lemma merge1_spec (s : rmS) this other :
  wfG (live s) (cinfo s) -> wfN s -> In this (live s) -> In other (live s) -> this <> other ->
  let s' := merge1 s this other in
  wfG (live s') (cinfo s') /\ wfN s' /\ frame s s' (rep this [other]) /\
  live s' = ers other (live s) /\
  (forall a b, In a (live s) -> In b (live s) ->
     (reach (E (cinfo s')) (rep this [other] a) (rep this [other] b) <->
      reach (orR (E (cinfo s)) (bi this [other])) a b)).
Proof.
  intros HG HN Ht Ho Hne s'.
  destruct (cc_merge_spec s this other HG Ht Ho Hne) as [A1 [A2 [A3 [A4 A5]]]].
  assert (HL : live s' = ers other (live s)) by reflexivity.
  assert (Hci : cinfo s' = cinfo (cc_merge s this other)) by reflexivity.
  assert (Hni : ninfo s' = ninfo (cc_merge s this other)) by reflexivity.
  rewrite <- Hci in A2, A3, A4, A5; rewrite <- Hni in A1.
  assert (K : nnext s' = nnext s /\ cnext s' = cnext s /\ nodes s' = nodes s /\ flags s' = flags s /\
              edges s' = edges s /\ initN s' = initN s /\ goals s' = goals s)
    by (repeat split; reflexivity).
  clearbody s'. destruct K as [K1 [K2 [K3 [K4 [K5 [K6 K7]]]]]].
  assert (Hrep : forall x, rep this [other] x = if x =? other then this else x).
  { intros x; unfold rep, mem; simpl; rewrite orb_false_r; reflexivity. }
  split; [|split; [|split; [|split]]].
  - (* wfG *)
    constructor; rewrite HL.
    + apply NoDup_ers, (g_nd _ _ HG).
    + intros a b; rewrite !In_ers; intros [Ha Hao] Hb.
      destruct (Nat.eq_dec a this) as [->|Hat].
      * apply A5 in Hb as [H1 [H2 [H3|H3]]]; split; auto; [apply (g_to _ _ HG this)|apply (g_to _ _ HG other)]; auto.
      * apply (A4 a Hat Hao Ha) in Hb as [[H1 H2]|[-> H2]]; split; auto. apply (g_to _ _ HG a); auto.
    + intros a b; rewrite !In_ers; intros [Ha Hao] Hb.
      destruct (Nat.eq_dec a this) as [->|Hat].
      * apply A5 in Hb as [H1 [H2 [H3|H3]]]; split; auto; [apply (g_from _ _ HG this)|apply (g_from _ _ HG other)]; auto.
      * apply (A4 a Hat Hao Ha) in Hb as [[H1 H2]|[-> H2]]; split; auto. apply (g_from _ _ HG a); auto.
    + intros a b; rewrite !In_ers; intros [Ha Hao] [Hb Hbo].
      pose proof (g_sym _ _ HG) as HS. pose proof (g_irr _ _ HG) as HI.
      assert (Hno : forall x, In x (live s) -> ~ In x (rfrom (cinfo s x)))
        by (intros x Hx Hxx; apply (HI x Hx), HS; assumption).
      destruct (Nat.eq_dec a this) as [->|Hat]; destruct (Nat.eq_dec b this) as [->|Hbt].
      * rewrite (proj1 (A5 this)), (proj2 (A5 this)); tauto.
      * rewrite (proj1 (A5 b)), (proj2 (A4 b Hbt Hbo Hb this)).
        rewrite (HS this b Ht Hb), (HS other b Ho Hb). tauto.
      * rewrite (proj2 (A5 a)), (proj1 (A4 a Hat Hao Ha this)).
        rewrite <- (HS a this Ha Ht), <- (HS a other Ha Ho). tauto.
      * rewrite (proj1 (A4 a Hat Hao Ha b)), (proj2 (A4 b Hbt Hbo Hb a)).
        rewrite (HS a b Ha Hb). tauto.
    + intros a; rewrite In_ers; intros [Ha Hao] Haa.
      destruct (Nat.eq_dec a this) as [->|Hat].
      * apply A5 in Haa; tauto.
      * apply (A4 a Hat Hao Ha) in Haa as [[_ H]|[H _]]; [apply (g_irr _ _ HG a Ha H)|contradiction].
  - (* wfN *)
    assert (HM : forall n nd, ninfo s n = Some nd -> mem n (cnodes (cinfo s other)) = (ncc nd =? other)).
    { intros n nd Hn. destruct (mem n (cnodes (cinfo s other))) eqn:E1.
      - apply mem_In in E1. destruct (n_of _ HN other n Ho E1) as [nd' [H1 H2]].
        rewrite Hn in H1; injection H1 as ->. rewrite H2, Nat.eqb_refl; reflexivity.
      - destruct (Nat.eqb_spec (ncc nd) other) as [Heq|]; [|reflexivity].
        apply mem_nIn in E1. exfalso; apply E1. rewrite <- Heq. apply (n_cc _ HN n nd Hn). }
    constructor.
    + rewrite K3; apply (n_nd _ HN).
    + rewrite K1, K3; apply (n_lt _ HN).
    + intros n. rewrite A1, K3. rewrite <- (n_def _ HN n).
      destruct (ninfo s n); destruct (mem n _); simpl; split; congruence.
    + intros n nd'. rewrite A1, HL. destruct (ninfo s n) as [nd|] eqn:En.
      2:{ destruct (mem n _); simpl; congruence. }
      rewrite (HM n nd En). destruct (n_cc _ HN n nd En) as [Hc1 Hc2].
      destruct (Nat.eqb_spec (ncc nd) other) as [Heq|Hn].
      * simpl; intros H; injection H as <-; simpl. split; [apply In_ers; auto|].
        rewrite A3, in_app_iff; right; rewrite <- Heq; exact Hc2.
      * intros H; injection H as <-. split; [apply In_ers; auto|].
        destruct (Nat.eq_dec (ncc nd) this) as [Heq|Hnt].
        -- rewrite Heq, A3, in_app_iff; left; rewrite <- Heq; exact Hc2.
        -- rewrite A2 by exact Hnt; exact Hc2.
    + intros c n; rewrite HL, In_ers; intros [Hc Hco] Hn. rewrite A1.
      destruct (Nat.eq_dec c this) as [->|Hct].
      * rewrite A3, in_app_iff in Hn. destruct Hn as [Hn|Hn].
        -- destruct (n_of _ HN this n Ht Hn) as [nd [E1 E2]]. exists nd.
           rewrite (HM n nd E1), E2. destruct (Nat.eqb_spec this other); [contradiction|auto].
        -- destruct (n_of _ HN other n Ho Hn) as [nd [E1 E2]]. exists (set_ncc nd this).
           rewrite (HM n nd E1), E2, Nat.eqb_refl, E1; simpl; auto.
      * rewrite A2 in Hn by exact Hct. destruct (n_of _ HN c n Hc Hn) as [nd [E1 E2]]. exists nd.
        rewrite (HM n nd E1), E2. destruct (Nat.eqb_spec c other); [contradiction|auto].
    + intros c; rewrite HL, In_ers; intros [Hc Hco].
      destruct (Nat.eq_dec c this) as [->|Hct].
      * rewrite A3. apply NoDup_app_intro; [apply (n_cnd _ HN); auto|apply (n_cnd _ HN); auto|].
        intros n Hn1 Hn2. destruct (n_of _ HN this n Ht Hn1) as [nd [E1 E2]].
        destruct (n_of _ HN other n Ho Hn2) as [nd' [E3 E4]]. congruence.
      * rewrite A2 by exact Hct. apply (n_cnd _ HN); auto.
    + intros c; rewrite HL, In_ers; intros [Hc Hco].
      destruct (Nat.eq_dec c this) as [->|Hct].
      * rewrite A3. pose proof (n_ne _ HN this Ht). destruct (cnodes (cinfo s this)); simpl; congruence.
      * rewrite A2 by exact Hct. apply (n_ne _ HN); auto.
    + intros c; rewrite HL, In_ers; intros [Hc Hco]. rewrite K2. apply (n_clt _ HN); auto.
  - constructor; try assumption.
    intros n; rewrite A1. destruct (ninfo s n) as [nd|] eqn:En.
    2:{ destruct (mem n _); reflexivity. }
    destruct (mem n (cnodes (cinfo s other))) eqn:E1.
    + apply mem_In in E1. destruct (n_of _ HN other n Ho E1) as [nd' [H1 H2]].
      rewrite En in H1; injection H1 as ->. simpl. rewrite Hrep, H2, Nat.eqb_refl. reflexivity.
    + simpl. rewrite Hrep. destruct (Nat.eqb_spec (ncc nd) other) as [Heq|]; [|rewrite set_ncc_id; reflexivity].
      apply mem_nIn in E1. exfalso; apply E1. rewrite <- Heq. apply (n_cc _ HN n nd En).
  - exact HL.
  - (* reachability *)
    set (r := rep this [other]).
    assert (Hr : forall x, (x = other /\ r x = this) \/ (x <> other /\ r x = x)).
    { intros x; unfold r; rewrite Hrep; destruct (Nat.eqb_spec x other); auto. }
    assert (Hbi : forall x, reach (orR (E (cinfo s)) (bi this [other])) x (r x) /\
                            reach (orR (E (cinfo s)) (bi this [other])) (r x) x).
    { intros x; destruct (Hr x) as [[-> ->]|[_ ->]]; [|split; apply reach_refl].
      split; apply reach_one; right; [right|left]; simpl; auto. }
    assert (HE1 : forall a b, In a (live s') -> E (cinfo s') a b ->
               reach (orR (E (cinfo s)) (bi this [other])) a b).
    { intros a b; rewrite HL, In_ers; intros [Ha Hao] Hab. unfold E in Hab.
      destruct (Nat.eq_dec a this) as [->|Hat].
      - apply A5 in Hab as [_ [_ [H|H]]].
        + apply reach_one; left; exact H.
        + eapply reach_step; [right; left; simpl; auto|apply reach_one; left; exact H].
      - apply (A4 a Hat Hao Ha) in Hab as [[_ H]|[-> H]].
        + apply reach_one; left; exact H.
        + eapply reach_step; [left; exact H|apply reach_one; right; right; simpl; auto]. }
    assert (HE2 : forall a b, In a (live s) -> orR (E (cinfo s)) (bi this [other]) a b ->
               reach (E (cinfo s')) (r a) (r b)).
    { intros a b Ha [H|[[-> [<-|[]]]|[-> [<-|[]]]]].
      - destruct (Nat.eq_dec (r a) (r b)) as [->|Hab]; [apply reach_refl|].
        apply reach_one. unfold E in *.
        destruct (Hr a) as [[-> Ea]|[Hao Ea]]; destruct (Hr b) as [[-> Eb]|[Hbo Eb]];
          try congruence; rewrite Ea, Eb in Hab; rewrite Ea, Eb.
        + apply A5; auto.
        + destruct (Nat.eq_dec a this) as [->|Hat]; [congruence|]. apply (A4 a Hat Hao Ha); auto.
        + destruct (Nat.eq_dec a this) as [->|Hat].
          * apply A5; auto.
          * apply (A4 a Hat Hao Ha); auto.
      - destruct (Hr this) as [[? ?]|[_ ->]]; [congruence|].
        destruct (Hr other) as [[_ ->]|[? ?]]; [apply reach_refl|congruence].
      - destruct (Hr this) as [[? ?]|[_ ->]]; [congruence|].
        destruct (Hr other) as [[_ ->]|[? ?]]; [apply reach_refl|congruence]. }
    assert (HrL : forall x, In x (live s) -> In (r x) (live s')).
    { intros x Hx; rewrite HL, In_ers. destruct (Hr x) as [[-> ->]|[? ->]]; auto. }
    assert (HGl : forall a b, In a (live s) -> orR (E (cinfo s)) (bi this [other]) a b -> In b (live s)).
    { intros a b Ha [H|[[-> [<-|[]]]|[-> [<-|[]]]]]; auto. apply (g_to _ _ HG a); auto. }
    intros a b Ha Hb; split.
    + intros H.
      assert (Hgen : forall x y, reach (E (cinfo s')) x y -> In x (live s') ->
                 reach (orR (E (cinfo s)) (bi this [other])) x y).
      { induction 1 as [x|x y z H1 H2 IH]; [intros; apply reach_refl|].
        intros Hx. eapply reach_trans; [apply HE1; eauto|apply IH].
        revert Hx H1. rewrite HL, !In_ers. intros [Hx Hxo] H1. unfold E in H1.
        destruct (Nat.eq_dec x this) as [->|Hxt].
        - apply A5 in H1 as [B1 [B2 [B3|B3]]]; split; auto; [apply (g_to _ _ HG this)|apply (g_to _ _ HG other)]; auto.
        - apply (A4 x Hxt Hxo Hx) in H1 as [[B1 B2]|[-> B2]]; split; auto. apply (g_to _ _ HG x); auto. }
      eapply reach_trans; [apply Hbi|]. eapply reach_trans; [apply Hgen; [exact H|auto]|apply Hbi].
    + intros H. clear Hb. induction H as [x|x y z H1 H2 IH]; [apply reach_refl|].
      eapply reach_trans; [apply HE2; eauto|apply IH; eauto].
Qed.

End S.
