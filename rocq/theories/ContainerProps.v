(* C32: containers behave as finite maps. *)
From Verif Require Import Base ContainerModel ContainerSpec.
From Coq Require Import Sorted.

Section Proofs.
Context {K V : Type}.
Variable ltb : K -> K -> bool.
Hypothesis HO : total_order ltb.
Notation inc := (increasing ltb).
Notation find := (mfind (V := V) ltb).

Lemma irr a : ltb a a = false. Proof. apply HO. Qed.
Lemma tr a b c : ltb a b = true -> ltb b c = true -> ltb a c = true. Proof. apply HO. Qed.
Lemma tot a b : ltb a b = false -> ltb b a = false -> a = b. Proof. apply HO. Qed.
Lemma asym a b : ltb a b = true -> ltb b a = false.
Proof. intro H; destruct (ltb b a) eqn:E; [|reflexivity]. rewrite <- (irr a); symmetry; eapply tr; eauto. Qed.
Lemma lt_ne a b : ltb a b = true -> a <> b.
Proof. intros H ->; rewrite irr in H; discriminate. Qed.

Lemma find_above k (m : cmap (K:=K) (V:=V)) : Forall (fun b => ltb k b = true) (map fst m) -> find k m = None.
Proof.
  destruct m as [|[k' v] m]; intro H; cbn [mfind]; [reflexivity|].
  inversion H; subst. rewrite H2; reflexivity.
Qed.

Lemma find_in (m : cmap (K:=K) (V:=V)) : inc (map fst m) -> forall k v, find k m = Some v <-> In (k, v) m.
Proof.
  induction m as [|[k' v'] m IH]; intros HS k v; cbn [mfind map fst In] in *.
  - split; [discriminate|tauto].
  - inversion HS as [|? ? HS' HF]; subst. specialize (IH HS' k v).
    destruct (ltb k k') eqn:E1.
    + split; [discriminate|]. intros [H|H].
      * inversion H; subst; rewrite irr in E1; discriminate.
      * exfalso. rewrite Forall_forall in HF.
        assert (X := HF k (in_map fst _ _ H)). rewrite (asym _ _ X) in E1; discriminate.
    + destruct (ltb k' k) eqn:E2.
      * rewrite IH; split; [auto|]. intros [H|H]; [|exact H].
        inversion H; subst; rewrite irr in E2; discriminate.
      * rewrite (tot _ _ E1 E2) in *. split.
        -- intro H; inversion H; auto.
        -- intros [H|H]; [inversion H; reflexivity|]. exfalso.
           rewrite Forall_forall in HF. apply (lt_ne _ _ (HF _ (in_map fst _ _ H))); reflexivity.
Qed.
Lemma find_none (m : cmap (K:=K) (V:=V)) : inc (map fst m) -> forall k, find k m = None <-> ~ In k (map fst m).
Proof.
  intros HS k. destruct (find k m) as [v|] eqn:E.
  - split; [discriminate|]. intro H; exfalso; apply H.
    apply (find_in m HS) in E. apply (in_map fst) in E; exact E.
  - split; [|auto]. intros _ H. apply in_map_iff in H as [[k' v] [H1 H2]]; cbn [fst] in H1; subst k'.
    apply (find_in m HS) in H2. rewrite H2 in E; discriminate.
Qed.

Lemma add_keys (m : cmap (K:=K) (V:=V)) k v : forall x, In x (map fst (c_add ltb m k v)) -> x = k \/ In x (map fst m).
Proof.
  unfold c_add; induction m as [|[k' v'] m IH]; intro x; cbn [minsert].
  - cbn [map fst In]; intuition.
  - destruct (ltb k k') eqn:E1; [cbn [map fst In]; intuition|].
    destruct (ltb k' k) eqn:E2.
    + destruct (minsert ltb k v m) as [m' b]. destruct b; cbn [massign].
      * cbn [map fst In]; intros [H|H]; [auto|]. destruct (IH x H); auto.
      * rewrite E1, E2; cbn [map fst In]; intros [H|H]; [auto|]. destruct (IH x H); auto.
    + cbn [massign]; rewrite E1, E2; cbn [map fst In]; auto.
Qed.
Lemma add_inc (m : cmap (K:=K) (V:=V)) k v : inc (map fst m) -> inc (map fst (c_add ltb m k v)).
Proof.
  unfold increasing; induction m as [|[k' v'] m IH]; intro HS.
  - cbn; constructor; constructor.
  - inversion HS as [|? ? HS' HF]; subst. specialize (IH HS').
    assert (HK := add_keys m k v). unfold c_add in *; cbn [minsert].
    destruct (ltb k k') eqn:E1.
    + cbn [map fst]; constructor; [exact HS|]. constructor; [exact E1|].
      rewrite Forall_forall in *; intros x Hx; eapply tr; [exact E1|apply HF; exact Hx].
    + destruct (ltb k' k) eqn:E2.
      * destruct (minsert ltb k v m) as [m' b]. destruct b; cbn [massign]; rewrite ?E1, ?E2;
        cbn [map fst]; constructor; try exact IH; rewrite Forall_forall in *; intros x Hx;
        destruct (HK x Hx) as [->|H]; auto.
      * cbn [massign]; rewrite E1, E2; exact HS.
Qed.
Lemma find_add m : forall k v k', inc (map fst m) ->
  find k' (c_add ltb m k v) = if ltb k k' then find k' m else if ltb k' k then find k' m else Some v.
Proof.
  induction m as [|[k0 v0] m IH]; intros k v k' HS.
  - cbn. destruct (ltb k' k) eqn:E1; [rewrite (asym _ _ E1); reflexivity|].
    destruct (ltb k k'); reflexivity.
  - inversion HS as [|? ? HS' HF]; subst. specialize (IH k v k' HS').
    unfold c_add in *; cbn [minsert].
    destruct (ltb k k0) eqn:E1.
    + cbn [mfind]. destruct (ltb k' k) eqn:E3; [|reflexivity].
      rewrite (asym _ _ E3), (tr _ _ _ E3 E1). reflexivity.
    + destruct (ltb k0 k) eqn:E2.
      * destruct (minsert ltb k v m) as [m' b]; destruct b; cbn [massign]; rewrite ?E1, ?E2; cbn [mfind].
        all: rewrite IH; destruct (ltb k' k0) eqn:E3;
          [ rewrite (asym _ _ (tr _ _ _ E3 E2)), (tr _ _ _ E3 E2); reflexivity
          | destruct (ltb k0 k') eqn:E4; [reflexivity|] ].
        all: rewrite (tot _ _ E3 E4) in *; rewrite E1, E2; reflexivity.
      * cbn [massign]; rewrite E1, E2; cbn [mfind]. rewrite (tot _ _ E1 E2) in *.
        destruct (ltb k' k0) eqn:E3; [rewrite (asym _ _ E3); reflexivity|].
        destruct (ltb k0 k'); reflexivity.
Qed.

Lemma erase_keys m k : forall x, In x (map fst (merase ltb (V:=V) k m)) -> In x (map fst m).
Proof.
  induction m as [|[k' v'] m IH]; intro x; cbn [merase]; [auto|].
  destruct (ltb k k'); [auto|]. destruct (ltb k' k); cbn [map fst In]; [|auto].
  intros [H|H]; auto.
Qed.
Lemma erase_inc m k : inc (map fst m) -> inc (map fst (merase ltb (V:=V) k m)).
Proof.
  unfold increasing; induction m as [|[k' v'] m IH]; intro HS; [exact HS|].
  inversion HS as [|? ? HS' HF]; subst. cbn [merase].
  destruct (ltb k k'); [exact HS|]. destruct (ltb k' k); [|exact HS'].
  cbn [map fst]; constructor; [apply IH; exact HS'|].
  rewrite Forall_forall in *; intros x Hx; apply HF. eapply erase_keys; exact Hx.
Qed.
Lemma find_erase m : forall k k', inc (map fst m) ->
  find k' (merase ltb k m) = if ltb k k' then find k' m else if ltb k' k then find k' m else None.
Proof.
  induction m as [|[k0 v0] m IH]; intros k k' HS.
  - cbn. destruct (ltb k k'), (ltb k' k); reflexivity.
  - inversion HS as [|? ? HS' HF]; subst. specialize (IH k k' HS').
    cbn [merase]. destruct (ltb k k0) eqn:E1.
    + cbn [mfind]. destruct (ltb k k') eqn:E2; [reflexivity|].
      destruct (ltb k' k) eqn:E3; [reflexivity|].
      rewrite (tot _ _ E2 E3) in *. rewrite E1; reflexivity.
    + destruct (ltb k0 k) eqn:E2; cbn [mfind].
      * rewrite IH. destruct (ltb k' k0) eqn:E3.
        { rewrite (tr _ _ _ E3 E2), (asym _ _ (tr _ _ _ E3 E2)). reflexivity. }
        destruct (ltb k0 k') eqn:E4; [reflexivity|].
        rewrite (tot _ _ E3 E4) in *. rewrite E1, E2; reflexivity.
      * rewrite (tot _ _ E1 E2) in *.
        destruct (ltb k0 k') eqn:E3.
        { rewrite (asym _ _ E3); reflexivity. }
        assert (Hn : find k' m = None).
        { destruct (ltb k' k0) eqn:E4.
          - apply find_above. rewrite Forall_forall in *; intros x Hx; eapply tr; eauto.
          - rewrite (tot _ _ E3 E4) in *. apply find_above; exact HF. }
        rewrite Hn. destruct (ltb k' k0); reflexivity.
Qed.

Lemma step_inc m o : inc (map fst m) -> inc (map fst (c_step (V:=V) ltb m o)).
Proof.
  destruct o; cbn [c_step]; intro H; [apply add_inc; exact H|apply erase_inc; exact H|constructor].
Qed.
Lemma run_rev h : forall m, fold_left (c_step ltb) (rev h) m = fold_right (fun o m => c_step (V:=V) ltb m o) m h.
Proof.
  induction h as [|o h IH]; intro m; [reflexivity|].
  cbn [rev fold_right]. rewrite fold_left_app, IH. reflexivity.
Qed.
Lemma run_inc l : inc (map fst (c_run (V:=V) ltb l)).
Proof.
  unfold c_run. rewrite <- (rev_involutive l), run_rev.
  induction (rev l) as [|o h IH]; [constructor|]. cbn [fold_right]. apply step_inc; exact IH.
Qed.
Lemma run_gives h : forall k r, gives k h r <-> find k (fold_right (fun o m => c_step ltb m o) [] h) = r.
Proof.
  assert (HS : forall h, inc (map fst (fold_right (fun o m => c_step (V:=V) ltb m o) [] h))).
  { intro h'. induction h' as [|o h' IH]; [constructor|]. cbn [fold_right]. apply step_inc; exact IH. }
  induction h as [|o h IH]; intros k r.
  - cbn. split; intro H; [inversion H; reflexivity|subst; constructor].
  - cbn [fold_right]. specialize (HS h). destruct o as [k' v|k'|]; cbn [c_step].
    + rewrite find_add by exact HS. split.
      * intro H; inversion H; subst.
        -- rewrite irr; reflexivity.
        -- match goal with G : gives k h r |- _ => apply IH in G; rewrite G end.
           destruct (ltb k' k) eqn:E1; [reflexivity|].
           destruct (ltb k k') eqn:E2; [reflexivity|].
           exfalso; match goal with G : k' <> k |- _ => apply G, tot; assumption end.
      * intro H. destruct (ltb k' k) eqn:E1.
        { constructor; [apply lt_ne; exact E1|apply IH; exact H]. }
        destruct (ltb k k') eqn:E2.
        { constructor; [apply not_eq_sym, lt_ne; exact E2|apply IH; exact H]. }
        rewrite (tot _ _ E1 E2). subst r. constructor.
    + unfold c_erase. rewrite find_erase by exact HS. split.
      * intro H; inversion H; subst.
        -- rewrite irr; reflexivity.
        -- match goal with G : gives k h r |- _ => apply IH in G; rewrite G end.
           destruct (ltb k' k) eqn:E1; [reflexivity|].
           destruct (ltb k k') eqn:E2; [reflexivity|].
           exfalso; match goal with G : k' <> k |- _ => apply G, tot; assumption end.
      * intro H. destruct (ltb k' k) eqn:E1.
        { constructor; [apply lt_ne; exact E1|apply IH; exact H]. }
        destruct (ltb k k') eqn:E2.
        { constructor; [apply not_eq_sym, lt_ne; exact E2|apply IH; exact H]. }
        rewrite (tot _ _ E1 E2). subst r. constructor.
    + cbn. split; intro H; [inversion H; reflexivity|subst; constructor].
Qed.
Lemma run_gives' l k r : gives k (rev l) r <-> find k (c_run ltb l) = r.
Proof. rewrite run_gives. unfold c_run. rewrite <- run_rev, rev_involutive. reflexivity. Qed.
End Proofs.

Section Statements.
Context {K V : Type}.
Variable ltb : K -> K -> bool.
Hypothesis HO : total_order ltb.

(* After any history l, has, get and get-with-default agree with the last
   call of the history which concerns the key. *)
Theorem C32_lookup : forall (l : list (cop K V)) k r, gives k (rev l) r ->
  match r with
  | Some v => c_has ltb (c_run ltb l) k = true /\ c_get ltb (c_run ltb l) k = Ok v /\
              forall d, c_get_default ltb (c_run ltb l) k d = v
  | None => c_has ltb (c_run ltb l) k = false /\ c_get ltb (c_run ltb l) k = Throw /\
            forall d, c_get_default ltb (c_run ltb l) k d = d
  end.
Proof.
  intros l k r H. apply (run_gives' ltb HO) in H. unfold c_has, c_get, c_get_default.
  rewrite H; destruct r; auto.
Qed.

(* every history gives exactly one outcome to every key *)
Theorem C32_lookup_defined : forall (l : list (cop K V)) k, exists! r, gives k (rev l) r.
Proof.
  intros l k. exists (mfind ltb k (c_run ltb l)). split.
  - apply (run_gives' ltb HO); reflexivity.
  - intros r H. apply (run_gives' ltb HO); exact H.
Qed.

(* getKeys lists the present keys, in increasing order and once each, and
   getAllAs lists their values in the same order. *)
Theorem C32_listing : forall (l : list (cop K V)),
  increasing ltb (c_keys (c_run ltb l)) /\
  (forall k v, gives k (rev l) (Some v) <-> In (k, v) (combine (c_keys (c_run ltb l)) (c_all (c_run ltb l)))) /\
  length (c_all (c_run ltb l)) = length (c_keys (c_run ltb l)).
Proof.
  intros l. assert (HI := run_inc ltb HO l). split; [exact HI|]. split.
  - intros k v. rewrite (run_gives' ltb HO), (find_in ltb HO _ HI).
    unfold c_keys, c_all. generalize (c_run ltb l). intro m.
    replace (combine (map fst m) (map snd m)) with m; [reflexivity|].
    induction m as [|[a b] m IH]; [reflexivity|]. cbn [map fst snd combine]. rewrite <- IH; reflexivity.
  - unfold c_all, c_keys. rewrite !map_length; reflexivity.
Qed.
End Statements.

Example nat_total : total_order Nat.ltb.
Proof.
  repeat split; intros.
  - apply Nat.ltb_irrefl.
  - rewrite Nat.ltb_lt in *; lia.
  - rewrite Nat.ltb_ge in *; lia.
Qed.
Definition ex_hist : list (cop nat nat) :=
  [CAdd 5 50; CAdd 2 20; CClear; CAdd 7 70; CAdd 3 30; CAdd 7 71; CAdd 1 10; CErase 3; CErase 9].
Example ex_hist_gives : gives 7 (rev ex_hist) (Some 71) /\ gives 5 (rev ex_hist) None /\ gives 3 (rev ex_hist) None.
Proof. cbn [rev ex_hist app]. repeat split; repeat (constructor; try discriminate). Qed.
Example ex_hist_content : c_keys (c_run Nat.ltb ex_hist) = [1; 7] /\ c_all (c_run Nat.ltb ex_hist) = [10; 71].
Proof. vm_compute; auto. Qed.

Print Assumptions C32_lookup.
Print Assumptions C32_lookup_defined.
Print Assumptions C32_listing.
