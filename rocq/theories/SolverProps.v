(* C55: the obstacle registry of the solver. *)
From Coq Require Import Permutation.
From Verif Require Import Base SolverModel SolverSpec.

Definition papp (l : list obj) (u : ousers) : ousers := match u with None => None | Some x => Some (x ++ l) end.
Lemma papp_nil u : papp [] u = u.
Proof. destruct u; cbn [papp]; [rewrite app_nil_r|]; reflexivity. Qed.
Lemma papp_cons o l u : papp l (sknow o u) = papp (o :: l) u.
Proof. destruct u; cbn [papp sknow]; [rewrite <- app_assoc|]; reflexivity. Qed.
Lemma sp_adds l : forall p, fold_left sp_add l p = mkSP (spObs p ++ l) (papp l (spPV p)) (map (papp l) (spCV p)).
Proof.
  induction l as [|o l IH]; intro p; cbn [fold_left].
  - rewrite app_nil_r, papp_nil. erewrite map_ext; [rewrite map_id; destruct p; reflexivity|]. apply papp_nil.
  - rewrite IH. cbn [sp_add spObs spPV spCV]. rewrite <- app_assoc, papp_cons, map_map. cbn [app].
    f_equal. apply map_ext. intro; apply papp_cons.
Qed.
Lemma sp_set_eq p l : sp_set p l = mkSP l (papp l (spPV p)) (map (papp l) (spCV p)).
Proof. unfold sp_set. rewrite sp_adds. reflexivity. Qed.
Lemma fold_know l : forall u, fold_left (fun u o => sknow o u) l u = papp l u.
Proof.
  induction l as [|o l IH]; intro u; cbn [fold_left]; [rewrite papp_nil; reflexivity|].
  rewrite IH, papp_cons; reflexivity.
Qed.

Definition puser (p : sproblem) (u : list obj) : Prop := spPV p = Some u \/ In (Some u) (spCV p).
Lemma user_set p l u : puser (sp_set p l) u -> exists u0, puser p u0 /\ u = u0 ++ l.
Proof.
  rewrite sp_set_eq. intros [H|H]; cbn [spPV spCV] in H.
  - destruct (spPV p) as [x|] eqn:E; [|discriminate]. inversion H. exists x; split; [left; exact E|reflexivity].
  - apply in_map_iff in H as [y [H1 H2]]. destruct y as [x|]; [|discriminate]. inversion H1.
    exists x; split; [right; exact H2|reflexivity].
Qed.
Lemma user_add p o u : puser (sp_add p o) u -> exists u0, puser p u0 /\ u = u0 ++ [o].
Proof.
  intros [H|H]; cbn [sp_add spPV spCV] in H.
  - destruct (spPV p) as [x|] eqn:E; [|discriminate]. inversion H. exists x; split; [left; exact E|reflexivity].
  - apply in_map_iff in H as [y [H1 H2]]. destruct y as [x|]; [|discriminate]. inversion H1.
    exists x; split; [right; exact H2|reflexivity].
Qed.
Lemma user_cv s p u : puser (init_cv s p) u -> spPV p = Some u \/ u = [].
Proof.
  intros [H|H]; cbn [init_cv spPV spCV] in H; [left; exact H|].
  apply in_map_iff in H as [b [H1 H2]]. unfold fresh in H1. destruct b; [|discriminate]. inversion H1; auto.
Qed.
Lemma pv_init s p u : spPV (init_pv s p) = Some u -> u = spObs p.
Proof.
  cbn [init_pv spPV]. rewrite fold_know. unfold fresh. destruct (pvT s); cbn [papp]; [|discriminate].
  intro H; inversion H; reflexivity.
Qed.

(* lists of objects of the current model *)
Definition here (g m : nat) (u : list obj) : Prop := forall o, In o u -> fst o = g /\ snd o < m.
Definition marks (g : nat) (names : list nat) (u : list obj) (P : nat -> Prop) : Prop :=
  here g (length names) u /\ NoDup u /\
  forall i n, nth_error names i = Some n -> (In (g, i) u <-> P n).

Lemma here_app g m u v : here g m u -> here g m v -> here g m (u ++ v).
Proof. intros H1 H2 o Ho; apply in_app_iff in Ho as [Ho|Ho]; auto. Qed.
Lemma here_mono g m m' u : m <= m' -> here g m u -> here g m' u.
Proof. intros L H o Ho; destruct (H o Ho); lia. Qed.

Lemma index_of_spec n l : match index_of n l with
  | Some i => nth_error l i = Some n
  | None => ~ In n l
  end.
Proof.
  induction l as [|m l IH]; cbn [index_of]; [tauto|].
  destruct (Nat.eqb_spec m n) as [->|N]; [reflexivity|].
  destruct (index_of n l) as [i|]; cbn [option_map]; [exact IH|].
  intros [H|H]; [contradiction|apply IH; exact H].
Qed.
Lemma nth_remove l : forall i j, nth_error (remove_nth i l) j =
  if Nat.ltb j i then nth_error l j else nth_error l (S j).
Proof.
  induction l as [|x l IH]; intros i j.
  - destruct i, j; cbn [remove_nth nth_error]; try reflexivity; match goal with |- context [Nat.ltb ?a ?b] => destruct (Nat.ltb a b) end; reflexivity.
  - destruct i as [|i]; cbn [remove_nth].
    + cbn [nth_error]. reflexivity.
    + destruct j as [|j]; [reflexivity|]. cbn [nth_error]. rewrite IH.
      destruct (Nat.ltb_spec j i), (Nat.ltb_spec (S j) (S i)); try lia; reflexivity.
Qed.
Lemma length_remove l : forall i, i < length l -> length (remove_nth i l) = length l - 1.
Proof.
  induction l as [|x l IH]; intros i Hi; cbn [length] in Hi; [lia|].
  destruct i as [|i]; cbn [remove_nth length]; [lia|]. rewrite IH by lia. lia.
Qed.
Lemma In_remove l i n : NoDup l -> nth_error l i = Some n -> forall m, In m (remove_nth i l) <-> In m l /\ m <> n.
Proof.
  intros ND Hi m. assert (Li : i < length l) by (apply nth_error_Some; congruence). split.
  - intro H. apply In_nth_error in H as [j Hj]. rewrite nth_remove in Hj.
    destruct (Nat.ltb_spec j i) as [L|L].
    + split; [eapply nth_error_In; exact Hj|]. intros ->.
      assert (j = i); [|lia]. apply (proj1 (NoDup_nth_error l) ND); [apply nth_error_Some; congruence|congruence].
    + split; [eapply nth_error_In; exact Hj|]. intros ->.
      assert (S j = i); [|lia]. apply (proj1 (NoDup_nth_error l) ND); [apply nth_error_Some; congruence|congruence].
  - intros [H N]. apply In_nth_error in H as [j Hj].
    destruct (Nat.lt_trichotomy j i) as [L|[->|L]].
    + apply nth_error_In with j. rewrite nth_remove. destruct (Nat.ltb_spec j i); [exact Hj|lia].
    + congruence.
    + apply nth_error_In with (j - 1). rewrite nth_remove. destruct (Nat.ltb_spec (j-1) i); [lia|].
      replace (S (j - 1)) with j by lia. exact Hj.
Qed.
Lemma NoDup_remove_nth l i : NoDup l -> NoDup (remove_nth i l).
Proof.
  revert i; induction l as [|x l IH]; intros i H; [destruct i; constructor|].
  inversion H; subst. destruct i as [|i]; cbn [remove_nth]; [assumption|].
  constructor; [|apply IH; assumption]. intro Hx. apply H2.
  clear - Hx. revert i Hx; induction l as [|y l IH]; intros i Hx; [destruct i; exact Hx|].
  destruct i as [|i]; cbn [remove_nth] in Hx; [right; exact Hx|].
  destruct Hx as [->|Hx]; [left; reflexivity|right; eapply IH; exact Hx].
Qed.

Lemma In_erase g m i u : here g m u -> NoDup u -> forall o, In o (erase_index i u) <-> In o u /\ snd o <> i.
Proof.
  intros H ND. induction u as [|x u IH]; intro o; cbn [erase_index]; [cbn [In]; tauto|].
  inversion ND; subst. assert (H' : here g m u) by (intros y Hy; apply H; right; exact Hy).
  specialize (IH H' H3). destruct (Nat.eqb_spec (snd x) i) as [E|N].
  - split.
    + intro Ho. split; [right; exact Ho|]. intro E'. apply H2.
      destruct (H x (or_introl eq_refl)), (H' o Ho). destruct x as [xa xb], o as [oa ob]; cbn [fst snd] in *; subst.
      exact Ho.
    + intros [[->|Ho] N]; [contradiction|exact Ho].
  - cbn [In]. rewrite IH. split.
    + intros [->|[Ho N']]; auto.
    + intros [[->|Ho] N']; auto.
Qed.
Lemma NoDup_erase i u : NoDup u -> NoDup (erase_index i u).
Proof.
  induction u as [|x u IH]; intro H; cbn [erase_index]; [constructor|]. inversion H; subst.
  destruct (Nat.eqb (snd x) i); [assumption|]. constructor; [|apply IH; assumption].
  intro Hx; apply H2. clear - Hx. induction u as [|y u IH]; cbn [erase_index] in Hx; [exact Hx|].
  destruct (Nat.eqb (snd y) i); [right; exact Hx|]. destruct Hx as [->|Hx]; [left; reflexivity|right; apply IH; exact Hx].
Qed.
Lemma In_renumber g i u : (forall o, In o u -> fst o = g /\ snd o <> i) ->
  forall j, In (g, j) (renumber g i u) <-> if Nat.ltb j i then In (g, j) u else In (g, S j) u.
Proof.
  intros H j. unfold renumber. rewrite in_map_iff. split.
  - intros [[a b] [E Ho]]. destruct (H _ Ho) as [H1 H2]; cbn [fst snd] in *. subst a.
    destruct (Nat.ltb_spec i b) as [L|L]; inversion E; subst.
    + destruct (Nat.ltb_spec (b - 1) i); [lia|]. replace (S (b - 1)) with b by lia. exact Ho.
    + destruct (Nat.ltb_spec j i); [exact Ho|lia].
  - destruct (Nat.ltb_spec j i) as [L|L]; intro Ho.
    + exists (g, j). split; [|exact Ho]. cbn [snd]. destruct (Nat.ltb_spec i j); [lia|reflexivity].
    + exists (g, S j). split; [|exact Ho]. cbn [snd]. destruct (Nat.ltb_spec i (S j)); [|lia].
      f_equal; lia.
Qed.
Lemma NoDup_renumber g i u : (forall o, In o u -> fst o = g /\ snd o <> i) -> NoDup u -> NoDup (renumber g i u).
Proof.
  unfold renumber. induction u as [|x u IH]; intros H ND; [constructor|]. inversion ND; subst. cbn [map].
  constructor; [|apply IH; [intros o Ho; apply H; right; exact Ho|assumption]].
  intro Hx. apply in_map_iff in Hx as [y [E Hy]]. apply H2. replace x with y; [exact Hy|].
  destruct (H x (or_introl eq_refl)) as [X1 X2], (H y (or_intror Hy)) as [Y1 Y2].
  destruct x as [xa xb], y as [ya yb]; cbn [fst snd] in *; subst.
  destruct (Nat.ltb_spec i xb), (Nat.ltb_spec i yb); inversion E; f_equal; lia.
Qed.
Lemma here_renumber g m i u : (forall o, In o u -> fst o = g /\ snd o <> i) -> here g m u -> i < m ->
  here g (m - 1) (renumber g i u).
Proof.
  intros H H' Hi o Ho. unfold renumber in Ho. apply in_map_iff in Ho as [y [E Hy]].
  destruct (H y Hy), (H' y Hy). destruct (Nat.ltb_spec i (snd y)); subst o; cbn [fst snd]; split; auto; lia.
Qed.

Lemma marks_remove g names u P i n : marks g names u P -> NoDup names -> nth_error names i = Some n ->
  forall P', (forall m, m <> n -> (P' m <-> P m)) ->
  marks g (remove_nth i names) (renumber g i (erase_index i u)) P'.
Proof.
  intros [H1 [H2 H3]] ND Hi P' HP.
  assert (Li : i < length names) by (apply nth_error_Some; congruence).
  assert (HE := In_erase g (length names) i u H1 H2).
  assert (HX : forall o, In o (erase_index i u) -> fst o = g /\ snd o <> i).
  { intros o Ho. apply HE in Ho as [Ho N]. split; [apply H1; exact Ho|exact N]. }
  split; [|split].
  - rewrite length_remove by exact Li. apply here_renumber; [exact HX| |exact Li].
    intros o Ho. apply HE in Ho as [Ho _]. apply H1; exact Ho.
  - apply NoDup_renumber; [exact HX|]. apply NoDup_erase; exact H2.
  - intros j m Hj. rewrite In_renumber by exact HX. rewrite nth_remove in Hj.
    assert (NE : m <> n).
    { intros ->. destruct (Nat.ltb_spec j i) as [L|L].
      - assert (j = i); [|lia]. apply (proj1 (NoDup_nth_error names) ND); [apply nth_error_Some; congruence|congruence].
      - assert (S j = i); [|lia]. apply (proj1 (NoDup_nth_error names) ND); [apply nth_error_Some; congruence|congruence]. }
    rewrite HP by exact NE. destruct (Nat.ltb_spec j i) as [L|L].
    + rewrite HE; cbn [snd]. rewrite <- (H3 j m Hj). split; [tauto|]. intro; split; [assumption|lia].
    + rewrite HE; cbn [snd]. rewrite <- (H3 (S j) m Hj). split; [tauto|]. intro; split; [assumption|lia].
Qed.

Definition rcol (r : registry) (n : nat) : Prop := exists d, r n = Some (true, d).
Definition rdis (r : registry) (n : nat) : Prop := exists c, r n = Some (c, true).

Record sinv (ac : Prop) (s : solver) (r : registry) : Prop := {
  si_robot : robot s = true;
  si_nodup : NoDup (geoms s (cur s));
  si_names : forall n, In n (geoms s (cur s)) <-> r n <> None;
  si_col : marks (cur s) (geoms s (cur s)) (colO s) (rcol r);
  si_dis : marks (cur s) (geoms s (cur s)) (disO s) (rdis r);
  si_prob : exists p, prob s = Some p /\
    forall u, u = spObs p \/ puser p u ->
      incl (colO s) u /\ here (cur s) (length (geoms s (cur s))) u /\ (ac -> incl u (colO s)) }.

Lemma incl_nil2 {A} (l : list A) : incl [] l. Proof. intros x []. Qed.

Lemma reset_inv ac s r : robot s = true -> NoDup (geoms s (cur s)) ->
  (forall n, In n (geoms s (cur s)) <-> r n <> None) ->
  marks (cur s) (geoms s (cur s)) (colO s) (rcol r) ->
  marks (cur s) (geoms s (cur s)) (disO s) (rdis r) -> sinv ac (reset_problem s) r.
Proof.
  intros H1 H2 H3 H4 H5. split; try (assumption || reflexivity).
  eexists; split; [reflexivity|]. cbn [reset_problem colO cur geoms]. intros u Hu.
  assert (E : u = colO s).
  { destruct Hu as [->|Hu]; [rewrite sp_set_eq; reflexivity|].
    apply user_set in Hu as [u0 [Hu ->]]. apply user_cv in Hu as [Hu| ->]; [|reflexivity].
    apply pv_init in Hu. subst u0. reflexivity. }
  subst u. split; [apply incl_refl|]. split; [apply H4|]. intros _; apply incl_refl.
Qed.

Lemma marks_add g names u (P P' : nat -> Prop) n b :
  marks g names u P -> ~ In n names -> (forall m, m <> n -> (P' m <-> P m)) -> (P' n <-> b = true) ->
  marks g (names ++ [n]) (if b then u ++ [(g, length names)] else u) P'.
Proof.
  intros [H1 [H2 H3]] Hn HP Hb.
  assert (NI : ~ In (g, length names) u).
  { intro H. destruct (H1 _ H) as [_ H']; cbn [snd] in H'; lia. }
  assert (HM : here g (length (names ++ [n])) u).
  { eapply here_mono; [|exact H1]. rewrite app_length; cbn [length]; lia. }
  split; [|split].
  - destruct b; [|exact HM]. apply here_app; [exact HM|]. intros o [<-|[]]; cbn [fst snd].
    rewrite app_length; cbn [length]; lia.
  - destruct b; [|exact H2]. 
    assert (X : NoDup ((g, length names) :: u)) by (constructor; assumption).
    eapply Permutation_NoDup; [|exact X]. apply Permutation_cons_append.
  - intros i m Hi. destruct (Nat.lt_ge_cases i (length names)) as [L|L].
    + rewrite nth_error_app1 in Hi by exact L.
      assert (NE : m <> n) by (intros ->; apply Hn; eapply nth_error_In; exact Hi).
      rewrite (HP m NE), <- (H3 i m Hi). destruct b; [|tauto]. rewrite in_app_iff. cbn [In].
      split; [intros [H|[H|[]]]; [exact H|inversion H; lia]|auto].
    + assert (i = length names).
      { assert (i < length (names ++ [n])) by (apply nth_error_Some; congruence).
        rewrite app_length in H; cbn [length] in H; lia. }
      subst i. rewrite nth_error_app2, Nat.sub_diag in Hi by lia. inversion Hi; subst m.
      rewrite Hb. destruct b.
      * rewrite in_app_iff; cbn [In]; split; auto.
      * split; [intro; contradiction|discriminate].
Qed.

Lemma step_inv (ac : Prop) s r o : sinv ac s r -> o <> SRobot ->
  (ac -> match o with SAdd _ c _ => c = true | _ => True end) ->
  exists s' b, s_step s o = Ok (s', b) /\ sinv ac s' (r_step r o).
Proof.
  intros H NR HA. destruct H as [H1 H2 H3 H4 H5 [p [P1 P2]]].
  destruct o as [|n c d|n|b|b| | |]; cbn [s_step r_step]; [congruence| | | | | | |].
  - (* add *)
    exists (fst (add_obstacle s n c d)), (snd (add_obstacle s n c d)). split; [f_equal; apply surjective_pairing|]. unfold add_obstacle.
    destruct (mem n (geoms s (cur s))) eqn:M.
    + apply mem_In in M. apply H3 in M. destruct (r n); [|congruence]. cbn [fst].
      split; try (assumption || reflexivity). exists p; auto.
    + apply mem_nIn in M. assert (RN : r n = None).
      { destruct (r n) eqn:E; [|reflexivity]. exfalso; apply M, H3; congruence. }
      rewrite RN, P1.
      set (names := geoms s (cur s)) in *. set (o := (cur s, length names)).
      replace (fst _) with
        (mkS (cur s) (upd (geoms s) (cur s) (names ++ [n])) (if c then colO s ++ [o] else colO s)
             (if d then disO s ++ [o] else disO s) (robot s) (Some (sp_add p o)) (sknow o (dbo s)) (pvT s) (cvT s))
        by (destruct c; reflexivity).
      assert (RO : forall m, m <> n -> upd r n (Some (c, d)) m = r m) by (intros; apply upd_neq; assumption).
      split; cbn [robot cur geoms colO disO prob]; rewrite ?upd_eq.
      * exact H1.
      * eapply Permutation_NoDup; [apply Permutation_cons_append|]. constructor; assumption.
      * intro m. rewrite in_app_iff, (H3 m). cbn [In]. destruct (Nat.eq_dec m n) as [->|N].
        -- rewrite upd_eq. split; [intros _; discriminate|auto].
        -- rewrite RO by exact N. split; [intros [?|[?|[]]]; [assumption|congruence]|auto].
      * apply marks_add with (P := rcol r); auto.
        -- intros m N; unfold rcol; rewrite RO by exact N; tauto.
        -- unfold rcol; rewrite upd_eq. split; [intros [d' E']; inversion E'; reflexivity|intros ->; eauto].
      * apply marks_add with (P := rdis r); auto.
        -- intros m N; unfold rdis; rewrite RO by exact N; tauto.
        -- unfold rdis; rewrite upd_eq. split; [intros [d' E']; inversion E'; reflexivity|intros ->; eauto].
      * eexists; split; [reflexivity|]. intros u Hu.
        assert (EX : exists u0, (u0 = spObs p \/ puser p u0) /\ u = u0 ++ [o]).
        { destruct Hu as [->|Hu]; [exists (spObs p); auto|].
          apply user_add in Hu as [u0 [Hu ->]]. exists u0; auto. }
        destruct EX as [u0 [Hu0 ->]]. destruct (P2 u0 Hu0) as [Q1 [Q2 Q3]]. split; [|split].
        -- destruct c; [apply incl_app_app; [exact Q1|apply incl_refl]|apply incl_appl; exact Q1].
        -- rewrite app_length; cbn [length]. apply here_app.
           ++ eapply here_mono; [|exact Q2]. lia.
           ++ intros x [<-|[]]; cbn [fst snd o]. split; [reflexivity|lia].
        -- intro A. rewrite (HA A). apply incl_app_app; [apply Q3; exact A|apply incl_refl].
  - (* remove *)
    unfold remove_obstacle. assert (IO := index_of_spec n (geoms s (cur s))).
    destruct (index_of n (geoms s (cur s))) as [i|].
    + rewrite H1. eexists; eexists; split; [reflexivity|].
      assert (RO : forall m, m <> n -> upd r n None m = r m) by (intros; apply upd_neq; assumption).
      apply reset_inv; cbn [robot cur geoms colO disO]; rewrite ?upd_eq.
      * exact H1 || reflexivity.
      * apply NoDup_remove_nth; exact H2.
      * intro m. rewrite (In_remove _ _ _ H2 IO), (H3 m). destruct (Nat.eq_dec m n) as [->|N].
        -- rewrite upd_eq; tauto.
        -- rewrite RO by exact N; tauto.
      * apply marks_remove with (P := rcol r) (n := n); auto.
        intros m N; unfold rcol; rewrite RO by exact N; tauto.
      * apply marks_remove with (P := rdis r) (n := n); auto.
        intros m N; unfold rdis; rewrite RO by exact N; tauto.
    + eexists; eexists; split; [reflexivity|].
      assert (RN : r n = None).
      { destruct (r n) eqn:E; [|reflexivity]. exfalso; apply IO, H3; congruence. }
      assert (RO : forall m, upd r n None m = r m).
      { intro m; unfold upd; destruct (Nat.eqb_spec m n) as [->|]; [symmetry; exact RN|reflexivity]. }
      split; try (assumption || reflexivity).
      * intro m; rewrite RO; apply H3.
      * destruct H4 as [X1 [X2 X3]]. split; [exact X1|]. split; [exact X2|].
        intros i m Hi. unfold rcol; rewrite RO. apply (X3 i m Hi).
      * destruct H5 as [X1 [X2 X3]]. split; [exact X1|]. split; [exact X2|].
        intros i m Hi. unfold rdis; rewrite RO. apply (X3 i m Hi).
      * exists p; auto.
  - (* pathValidationType *)
    cbn [prob robot]. rewrite P1, H1. eexists; eexists; split; [reflexivity|].
    split; try (assumption || reflexivity). eexists; split; [reflexivity|]. cbn [with_prob colO cur geoms]. intros u Hu.
    apply P2. destruct Hu as [Hu|[Hu|Hu]].
    + left; exact Hu.
    + apply pv_init in Hu. left; exact Hu.
    + right; right; exact Hu.
  - (* addConfigValidation *)
    cbn [prob robot]. rewrite P1, H1. eexists; eexists; split; [reflexivity|].
    split; try (assumption || reflexivity). eexists; split; [reflexivity|]. cbn [with_prob colO cur geoms]. intros u Hu.
    assert (EX : u = colO s \/ exists u0, puser p u0 /\ u = u0 ++ colO s).
    { destruct Hu as [->|Hu]; [rewrite sp_set_eq; left; reflexivity|].
      apply user_set in Hu as [u0 [Hu ->]]. apply user_cv in Hu as [Hu| ->]; [|left; reflexivity].
      right. exists u0; split; [left; exact Hu|reflexivity]. }
    destruct EX as [->|[u0 [Hu0 ->]]].
    + split; [apply incl_refl|]. split; [apply H4|]. intros _; apply incl_refl.
    + destruct (P2 u0 (or_intror Hu0)) as [Q1 [Q2 Q3]]. split; [apply incl_appr, incl_refl|]. split.
      * apply here_app; [exact Q2|apply H4].
      * intro A. apply incl_app; [apply Q3; exact A|apply incl_refl].
  - (* clearConfigValidations *)
    rewrite P1. eexists; eexists; split; [reflexivity|]. split; try (assumption || reflexivity).
    eexists; split; [reflexivity|]. cbn [colO cur geoms]. intros u Hu. apply P2.
    destruct Hu as [Hu|[Hu|Hu]]; [left; exact Hu|right; left; exact Hu|destruct Hu].
  - (* initValidations *)
    rewrite P1, H1. eexists; eexists; split; [reflexivity|].
    split; try (assumption || reflexivity). eexists; split; [reflexivity|]. cbn [with_prob colO cur geoms]. intros u Hu.
    assert (EX : u = colO s \/ u = spObs p ++ colO s).
    { destruct Hu as [->|Hu]; [rewrite sp_set_eq; left; reflexivity|].
      apply user_set in Hu as [u0 [Hu ->]]. apply user_cv in Hu as [Hu| ->]; [|left; reflexivity].
      apply pv_init in Hu. subst u0; right; reflexivity. }
    destruct EX as [->| ->].
    + split; [apply incl_refl|]. split; [apply H4|]. intros _; apply incl_refl.
    + destruct (P2 (spObs p) (or_introl eq_refl)) as [Q1 [Q2 Q3]]. split; [apply incl_appr, incl_refl|]. split.
      * apply here_app; [exact Q2|apply H4].
      * intro A. apply incl_app; [apply Q3; exact A|apply incl_refl].
  - (* resetProblem *)
    rewrite H1. eexists; eexists; split; [reflexivity|]. apply reset_inv; assumption.
Qed.

Lemma run_inv (ac : Prop) l : forall s r, sinv ac s r -> no_robot l -> (ac -> all_collision l) ->
  exists s', s_run s l = Ok s' /\ sinv ac s' (fold_left r_step l r).
Proof.
  induction l as [|o l IH]; intros s r H NR HA; [exists s; auto|].
  destruct (step_inv ac s r o H) as [s1 [b [E1 H1]]].
  { intros ->; apply NR; left; reflexivity. }
  { intro A; destruct o; auto. eapply (HA A). left; reflexivity. }
  destruct (IH s1 (r_step r o) H1) as [s2 [E2 H2]].
  { intro X; apply NR; right; exact X. }
  { intros A n c d X. eapply (HA A). right; exact X. }
  exists s2. cbn [s_run fold_left]. rewrite E1; cbn [bind fst]. auto.
Qed.
Lemma start_inv ac : sinv ac (set_robot solver0) (fun _ => None).
Proof.
  apply reset_inv; cbn [set_robot solver0 cur geoms colO disO robot]; rewrite ?upd_eq.
  - reflexivity.
  - constructor.
  - intro n; cbn [In]; split; [tauto|congruence].
  - split; [intros o []|]. split; [constructor|]. intros i n Hi; destruct i; discriminate.
  - split; [intros o []|]. split; [constructor|]. intros i n Hi; destruct i; discriminate.
Qed.
Lemma run_start (ac : Prop) l : no_robot l -> (ac -> all_collision l) ->
  exists s, s_run solver0 (SRobot :: l) = Ok s /\ sinv ac s (r_run l).
Proof.
  intros NR HA. destruct (run_inv ac l _ _ (start_inv ac) NR HA) as [s [E H]].
  exists s. cbn [s_run s_step bind fst]. auto.
Qed.
Lemma marks_name g s u P : marks g (geoms s g) u P -> (forall n, P n -> In n (geoms s g)) ->
  forall n, has_name s u n <-> P n.
Proof.
  intros [H1 [H2 H3]] HP n. unfold has_name, oname. split.
  - intros [o [Ho E]]. destruct (H1 o Ho) as [E1 E2]. rewrite E1 in E. apply (H3 _ _ E).
    destruct o; cbn [fst snd] in *; subst; exact Ho.
  - intro Hn. destruct (In_nth_error _ _ (HP n Hn)) as [i Hi]. exists (g, i).
    split; [apply (H3 _ _ Hi); exact Hn|exact Hi].
Qed.
Lemma inv_names ac s r : sinv ac s r ->
  (forall n, has_name s (colO s) n <-> rcol r n) /\ (forall n, has_name s (disO s) n <-> rdis r n).
Proof.
  intro H. split; eapply marks_name; try apply H.
  - intros n [d E]. apply (si_names _ _ _ H). congruence.
  - intros n [d E]. apply (si_names _ _ _ H). congruence.
Qed.

(* ------------------------------------------------------------- statements *)
(* The robot being set once: no call fails badly, and the collision (distance)
   obstacles are the registered ones with the collision (distance) flag, each
   once. Missing: histories with several robots, see C55_robot_refuted. *)
Theorem C55_registry_partial : forall l, no_robot l -> exists s, s_run solver0 (SRobot :: l) = Ok s /\
  (forall n, In (Some n) (collision_names s) <-> exists d, r_run l n = Some (true, d)) /\
  (forall n, In (Some n) (distance_names s) <-> exists c, r_run l n = Some (c, true)) /\
  NoDup (collision_names s) /\ NoDup (distance_names s).
Proof.
  intros l NR. destruct (run_start False l NR) as [s [E H]]; [intros []|]. exists s; split; [exact E|].
  destruct (inv_names _ _ _ H) as [N1 N2].
  assert (X : forall u n, In (Some n) (map (oname s) u) <-> has_name s u n).
  { intros u n. rewrite in_map_iff. split; intros [o [A B]]; exists o; auto. }
  assert (Y : forall u P, marks (cur s) (geoms s (cur s)) u P -> NoDup (map (oname s) u)).
  { intros u P [M1 [M2 _]]. clear - M1 M2 H. induction u as [|o u IH]; cbn [map]; [constructor|].
    inversion M2; subst. constructor; [|apply IH; [intros x Hx; apply M1; right; exact Hx|assumption]].
    intro Hx. apply in_map_iff in Hx as [y [E Hy]]. apply H2.
    destruct (M1 o (or_introl eq_refl)) as [A1 A2], (M1 y (or_intror Hy)) as [B1 B2].
    replace o with y; [exact Hy|]. destruct o as [oa ob], y as [ya yb]; cbn [fst snd] in *; subst.
    unfold oname in E; cbn [fst snd] in E. f_equal.
    apply (proj1 (NoDup_nth_error _) (si_nodup _ _ _ H)); assumption. }
  split; [|split; [|split]].
  - intro n. unfold collision_names. rewrite X. apply N1.
  - intro n. unfold distance_names. rewrite X. apply N2.
  - eapply Y, (si_col _ _ _ H).
  - eapply Y, (si_dis _ _ _ H).
Qed.
(* Every registered collision obstacle is known by every validation of the
   problem which uses obstacles. *)
Theorem C55_all_checked : forall l s, no_robot l -> s_run solver0 (SRobot :: l) = Ok s ->
  forall u, user s u -> forall n d, r_run l n = Some (true, d) -> has_name s u n.
Proof.
  intros l s NR E u [p [Hp Hu]] n d Hn. destruct (run_start False l NR) as [s' [E' H]]; [intros []|].
  rewrite E in E'; inversion E'; subst s'. destruct (inv_names _ _ _ H) as [N1 _].
  destruct (proj2 (N1 n) (ex_intro _ d Hn)) as [o [O1 O2]].
  destruct (si_prob _ _ _ H) as [p' [Hp' HP]]. rewrite Hp in Hp'; inversion Hp'; subst p'.
  exists o. split; [|exact O2]. apply (HP u (or_intror Hu)); exact O1.
Qed.
(* When no obstacle is for distances only, they know nothing else. *)
Theorem C55_exact_partial : forall l s, no_robot l -> all_collision l -> s_run solver0 (SRobot :: l) = Ok s ->
  forall u, user s u -> forall o, In o u -> exists n d, oname s o = Some n /\ r_run l n = Some (true, d).
Proof.
  intros l s NR AC E u [p [Hp Hu]] o Ho. destruct (run_start True l NR) as [s' [E' H]]; [auto|].
  rewrite E in E'; inversion E'; subst s'. destruct (inv_names _ _ _ H) as [N1 _].
  destruct (si_prob _ _ _ H) as [p' [Hp' HP]]. rewrite Hp in Hp'; inversion Hp'; subst p'.
  destruct (HP u (or_intror Hu)) as [_ [B1 B2]].
  destruct (B1 o Ho) as [C1 C2].
  destruct (oname s o) as [n|] eqn:On.
  - exists n. destruct (proj1 (N1 n)) as [d Hd]; [exists o; split; [apply (B2 I); exact Ho|exact On]|].
    exists d; auto.
  - unfold oname in On. rewrite C1 in On. apply nth_error_None in On. lia.
Qed.

Definition ex_sops : list sop :=
  [SAdd 10 true true; SAdd 11 true false; SAdd 12 true true; SAddConfigValidation true; SRemove 11;
   SPathValidation true; SAdd 13 true false; SAdd 10 true true; SRemove 99; SInitValidations].
Example ex_sops_ok : no_robot ex_sops /\ all_collision ex_sops.
Proof.
  split; [intro H; cbn [ex_sops In] in H; repeat (destruct H as [H|H]; [discriminate|]); exact H|].
  intros n c d H; cbn [ex_sops In] in H.
  repeat (destruct H as [H|H]; [inversion H; reflexivity|]); destruct H.
Qed.
Example ex_sops_run :
  match s_run solver0 (SRobot :: ex_sops) with
  | Ok s => collision_names s = [Some 10; Some 12; Some 13] /\ distance_names s = [Some 10; Some 12] /\
            exists u, user s u /\ map (oname s) u = [Some 10; Some 12; Some 13]
  | _ => False
  end.
Proof.
  vm_compute. repeat split. eexists; split; [eexists; split; [reflexivity|right; left; reflexivity]|reflexivity].
Qed.

(* An obstacle added for distances only is given to the collision checking,
   and an obstacle added for collisions only to the distance computations. *)
Theorem C55_flags_refuted :
  (exists l s u n, no_robot l /\ s_run solver0 (SRobot :: l) = Ok s /\ user s u /\
     r_run l n = Some (false, true) /\ has_name s u n) /\
  (exists l s u n, no_robot l /\ s_run solver0 (SRobot :: l) = Ok s /\ dbo s = Some u /\
     r_run l n = Some (true, false) /\ has_name s u n).
Proof.
  split.
  - exists [SAdd 7 false true]. eexists. exists [(1, 0)], 7. split; [intros [H|[]]; discriminate|].
    split; [vm_compute; reflexivity|]. split; [eexists; split; [reflexivity|left; reflexivity]|].
    split; [reflexivity|]. exists (1, 0); split; [left; reflexivity|reflexivity].
  - exists [SAdd 7 true false]. eexists. exists [(1, 0)], 7. split; [intros [H|[]]; discriminate|].
    split; [vm_compute; reflexivity|]. split; [reflexivity|].
    split; [reflexivity|]. exists (1, 0); split; [left; reflexivity|reflexivity].
Qed.
(* Setting another robot forgets the names of the obstacles but keeps the
   obstacles: one can no more be removed by its name, and removing an obstacle
   of the new registry removes the old one instead. *)
Theorem C55_robot_refuted :
  (exists s, s_run solver0 [SRobot; SAdd 7 true false; SRobot] = Ok s /\
     collision_names s = [Some 7] /\ s_step s (SRemove 7) = Ok (s, true)) /\
  (exists s s', s_run solver0 [SRobot; SAdd 7 true false; SRobot; SAdd 8 true false] = Ok s /\
     collision_names s = [Some 7; Some 8] /\ s_step s (SRemove 8) = Ok (s', false) /\
     colO s' = [(2, 0)] /\ collision_names s' = [None]).
Proof.
  split.
  - eexists; split; [vm_compute; reflexivity|]. split; reflexivity.
  - eexists; eexists; split; [vm_compute; reflexivity|]. split; [reflexivity|].
    split; [vm_compute; reflexivity|]. split; reflexivity.
Qed.
(* Without a robot, adding a collision obstacle throws but registers it. *)
Theorem C55_throw_refuted : exists s,
  s_step solver0 (SAdd 7 true false) = Ok (s, true) /\ collision_names s = [Some 7].
Proof. eexists; split; reflexivity. Qed.

Print Assumptions C55_registry_partial.
Print Assumptions C55_all_checked.
Print Assumptions C55_exact_partial.
Print Assumptions C55_flags_refuted.
Print Assumptions C55_robot_refuted.
Print Assumptions C55_throw_refuted.
