(* The relative motion matrix is the closure of the constraints. *)
From Verif Require Import Base Reach RelMotionModel RelMotionSpec RelMotionProofs.

Definition chainw (l : list num_constraint) (w : nat) : nat -> nat -> Prop := chain (w =? 0) l.

Lemma links_sym f nc a b : links f nc a b -> links f nc b a.
Proof. unfold links. tauto. Qed.
Lemma chain_sym f l a b : chain f l a b -> chain f l b a.
Proof.
  intros H. unfold chain in *. apply reach_flip. eapply reach_mono; [|exact H].
  intros x y (nc & Hin & Hl). exists nc. split; [exact Hin|apply links_sym; exact Hl].
Qed.
Lemma chain_trans f l a b c : chain f l a b -> chain f l b c -> chain f l a c.
Proof. apply reach_trans. Qed.
Lemma chain_refl f l a : chain f l a a.
Proof. apply reach_refl. Qed.
Lemma chain_fixed f l a b : chain true l a b -> chain f l a b.
Proof.
  apply reach_mono. intros x y (nc & Hin & H1 & H2). exists nc. split; [exact Hin|]. split; [intros _; apply H1; reflexivity|exact H2].
Qed.
Lemma chainw_mono l w w' a b : w <= w' -> chainw l w a b -> chainw l w' a b.
Proof.
  unfold chainw. intros H. destruct (Nat.eqb_spec w 0), (Nat.eqb_spec w' 0); auto; try lia.
  apply chain_fixed.
Qed.

Definition nc_type (nc : num_constraint) : rmt := if nc_parameterSize nc =? 0 then Constrained else Parameterized.

Lemma links_level f nc a b : links f nc a b <->
  (rank (nc_type nc) <= (if f then 0 else 1)) /\ (nc_joints nc = (a, b) \/ nc_joints nc = (b, a)).
Proof.
  unfold links, nc_type. destruct f, (Nat.eqb_spec (nc_parameterSize nc) 0) as [E|E]; cbn; split; intros [H1 H2]; split; auto; try lia.
Qed.

(* adding one constraint *)
Lemma chain_add f l nc i1 i2 a b : nc_joints nc = (i1, i2) ->
  chain f (l ++ [nc]) a b ->
  chain f l a b \/
  (rank (nc_type nc) <= (if f then 0 else 1) /\
   ((chain f l a i1 /\ chain f l i2 b) \/ (chain f l a i2 /\ chain f l i1 b))).
Proof.
  intros Ej H.
  destruct (le_dec (rank (nc_type nc)) (if f then 0 else 1)) as [Hle|Hgt].
  - set (R := fun a b => exists nc, In nc l /\ links f nc a b).
    assert (H' : reach (plus (plus R i1 i2) i2 i1) a b).
    { eapply reach_mono; [|exact H]. intros x y (c & Hin & Hl). apply in_app_or in Hin.
      destruct Hin as [Hin|[<-|[]]]; [left; left; exists c; auto|].
      apply links_level in Hl. rewrite Ej in Hl. destruct Hl as [_ [E|E]]; injection E as -> ->.
      - left; right; auto.
      - right; auto. }
    apply reach_plus in H'. 
    assert (T : forall x y z, reach R x y -> reach R y z -> reach R x z) by (intros; eapply reach_trans; eauto).
    destruct H' as [H'|[H1 H2]].
    + apply reach_plus in H'. destruct H' as [H'|[H1 H2]]; [left; exact H'|right; split; [exact Hle|left; auto]].
    + apply reach_plus in H1. apply reach_plus in H2.
      destruct H1 as [H1|[H1 _]], H2 as [H2|[_ H2]].
      * right. split; [exact Hle|right; auto].
      * left. unfold chain. fold R. eapply T; [exact H1|exact H2].
      * left. unfold chain. fold R. eapply T; [exact H1|exact H2].
      * right. split; [exact Hle|left; auto].
  - left. eapply reach_mono; [|exact H]. intros x y (c & Hin & Hl). apply in_app_or in Hin.
    destruct Hin as [Hin|[<-|[]]]; [exists c; auto|]. apply links_level in Hl. destruct Hl as [Hl _]. contradiction.
Qed.
Lemma chain_incl f l nc a b : chain f l a b -> chain f (l ++ [nc]) a b.
Proof.
  apply reach_mono. intros x y (c & Hin & Hl). exists c. split; [apply in_or_app; left; exact Hin|exact Hl].
Qed.

(* a matrix that represents exactly the constraints of l *)
Definition exact (n : nat) (l : list num_constraint) (m : matrix) : Prop :=
  sym m /\ (forall a, m a a = Constrained) /\ sound (chainw l) m /\
  forall w a b, w < 2 -> a < n -> b < n -> chainw l w a b -> rank (m a b) <= w.

Lemma exact_initial n : exact n [] initial_matrix.
Proof.
  assert (E : forall f a b, chain f [] a b -> a = b).
  { intros f a b H. inversion H as [|? ? ? (nc & [] & _)]; reflexivity. }
  split; [|split; [|split]].
  - intros a b. unfold initial_matrix. rewrite Nat.eqb_sym. reflexivity.
  - intros a. unfold initial_matrix. rewrite Nat.eqb_refl. reflexivity.
  - intros a b. unfold initial_matrix. destruct (Nat.eqb_spec a b) as [->|N]; cbn; [intros; apply chain_refl|lia].
  - intros w a b _ _ _ H. apply E in H. subst b. unfold initial_matrix. rewrite Nat.eqb_refl. cbn. lia.
Qed.

Lemma sound_incl l nc m : sound (chainw l) m -> sound (chainw (l ++ [nc])) m.
Proof. intros H a b Hr. apply chain_incl. apply H. exact Hr. Qed.

Lemma level_of w : w < 2 -> (if w =? 0 then 0 else 1) = w.
Proof. intros. destruct (Nat.eqb_spec w 0); lia. Qed.

Lemma exact_step n l m nc : exact n l m -> on_robot n nc -> exact n (l ++ [nc]) (step_constraint n m nc).
Proof.
  intros (Hs & Hd & Hso & Hc) [J1 J2]. unfold step_constraint. destruct (nc_joints nc) as [i1 i2] eqn:Ej.
  cbn [fst snd] in J1, J2. fold (nc_type nc).
  assert (Hcc : forall w a b, w < 2 -> chainw (l ++ [nc]) w a b -> chainw l w a b \/
     (rank (nc_type nc) <= w /\ ((chainw l w a i1 /\ chainw l w i2 b) \/ (chainw l w a i2 /\ chainw l w i1 b)))).
  { intros w a b Hw H. destruct (chain_add _ l nc i1 i2 a b Ej H) as [H'|[H1 H2]]; [left; exact H'|].
    rewrite (level_of w Hw) in H1. right. split; assumption. }
  destruct (Nat.eqb_spec i1 i2) as [<-|N].
  - split; [exact Hs|]. split; [exact Hd|]. split; [apply sound_incl; exact Hso|].
    intros w a b Hw Ha Hb H. apply Hc; try assumption.
    destruct (Hcc w a b Hw H) as [H'|[_ [[H1 H2]|[H1 H2]]]]; [exact H'| |]; eapply chain_trans; eassumption.
  - assert (Htype : rank (nc_type nc) < 2) by (unfold nc_type; destruct (_ =? _); cbn; lia).
    destruct (le_lt_dec (rank (m i1 i2)) (rank (nc_type nc))) as [Hle|Hlt].
    + unfold recurseSet. destruct (Nat.leb_spec (rank (m i1 i2)) (rank (nc_type nc))) as [_|X]; [|lia].
      split; [exact Hs|]. split; [exact Hd|]. split; [apply sound_incl; exact Hso|].
      intros w a b Hw Ha Hb H. apply Hc; try assumption.
      assert (H12 : rank (nc_type nc) <= w -> chainw l w i1 i2).
      { intros Q. apply (chainw_mono l (rank (m i1 i2))); [lia|]. apply Hso. lia. }
      destruct (Hcc w a b Hw H) as [H'|[Q [[H1 H2]|[H1 H2]]]]; [exact H'| |].
      * eapply chain_trans; [exact H1|]. eapply chain_trans; [apply H12; exact Q|exact H2].
      * eapply chain_trans; [exact H1|]. eapply chain_trans; [apply chain_sym, H12; exact Q|exact H2].
    + assert (Lnew : chainw (l ++ [nc]) (rank (nc_type nc)) i1 i2).
      { apply reach_one. exists nc. split; [apply in_or_app; right; left; reflexivity|].
        apply links_level. split; [|left; exact Ej]. rewrite (level_of _ Htype). lia. }
      destruct (recurse_good (chainw (l ++ [nc])) (fun w a b => chain_sym _ _ a b) (fun w a b c => chain_trans _ _ a b c)
                  (chainw_mono (l ++ [nc])) (nc_type nc) i1 i2 Htype Lnew n m Hs (sound_incl l nc m Hso) Hlt)
        as (S' & B' & So' & E12 & E13 & E02 & E03).
      set (m' := recurseSet n m i1 i2 (nc_type nc)) in *.
      split; [exact S'|]. split.
      { intros a. specialize (B' a a). rewrite Hd in B'. destruct (m' a a); cbn in B'; try lia. reflexivity. }
      split; [exact So'|].
      (* completeness: first the oriented case *)
      assert (K : forall w a b, w < 2 -> a < n -> b < n -> rank (nc_type nc) <= w ->
                chainw l w a i1 -> chainw l w i2 b -> rank (m' a b) <= w).
      { intros w a b Hw Ha Hb Hr H1 H2.
        pose proof (Hc w a i1 Hw Ha J1 H1) as R1. pose proof (Hc w i2 b Hw J2 Hb H2) as R2.
        assert (Via : forall x y, x < n -> y < n -> rank (m x y) <= w -> rank (m' x y) <= w)
          by (intros x y _ _ Q; specialize (B' x y); lia).
        destruct (Nat.eq_dec a b) as [->|Nab]; [apply Via; try assumption; rewrite Hd; cbn; lia|].
        destruct (Nat.eq_dec a i2) as [->|Na2]; [apply Via; assumption|].
        destruct (Nat.eq_dec b i1) as [->|Nb1]; [apply Via; assumption|].
        destruct (Nat.eq_dec a i1) as [->|Na1].
        - destruct (Nat.eq_dec b i2) as [->|Nb2]; [lia|].
          specialize (E13 b Hb Nb1 Nb2 ltac:(lia)). lia.
        - destruct (Nat.eq_dec b i2) as [->|Nb2].
          + specialize (E02 a Ha Na1 Na2 ltac:(lia)). lia.
          + specialize (E03 a b Ha Na1 Na2 Hb ltac:(congruence) Nb1 Nb2 ltac:(lia) ltac:(lia)). lia. }
      intros w a b Hw Ha Hb H. destruct (Hcc w a b Hw H) as [H'|[Q [[H1 H2]|[H1 H2]]]].
      * pose proof (Hc w a b Hw Ha Hb H') as R. specialize (B' a b). lia.
      * apply K; assumption.
      * rewrite S'. apply K; try assumption; apply chain_sym; assumption.
Qed.

Lemma exact_fold n l : forall l0 m, exact n l0 m -> Forall (on_robot n) l ->
  exact n (l0 ++ l) (fold_left (step_constraint n) l m).
Proof.
  induction l as [|nc l IH]; intros l0 m H Hr; cbn [fold_left]; [rewrite app_nil_r; exact H|].
  inversion Hr; subst. replace (l0 ++ nc :: l) with ((l0 ++ [nc]) ++ l) by (rewrite <- app_assoc; reflexivity).
  apply IH; [apply exact_step; assumption|assumption].
Qed.

Lemma exact_values n l m a b : exact n l m -> a < n -> b < n ->
  m a b = m b a /\
  (m a b = Constrained <-> chain true l a b) /\
  (m a b = Parameterized <-> ~ chain true l a b /\ chain false l a b) /\
  (m a b = Unconstrained <-> ~ chain false l a b).
Proof.
  intros (Hs & Hd & Hso & Hc) Ha Hb. split; [apply Hs|].
  pose proof (Hc 0 a b ltac:(lia) Ha Hb) as C0. pose proof (Hc 1 a b ltac:(lia) Ha Hb) as C1.
  pose proof (Hso a b) as S. unfold chainw in *. cbn [Nat.eqb] in C0, C1.
  pose proof (chain_fixed false l a b) as F.
  destruct (m a b); cbn in *.
  - specialize (S ltac:(lia)). split; [tauto|]. split; (split; [discriminate|intros H]); exfalso; tauto.
  - specialize (S ltac:(lia)). split; [split; [discriminate|intros H; specialize (C0 H); lia]|].
    split; [split; [intros _; split; [intros H; specialize (C0 H); lia|exact S]|tauto]|].
    split; [discriminate|intros H; contradiction].
  - split; [split; [discriminate|intros H; specialize (C0 H); lia]|].
    split; [split; [discriminate|intros [_ H]; specialize (C1 H); lia]|].
    split; [intros _ H; specialize (C1 H); lia|reflexivity].
Qed.
