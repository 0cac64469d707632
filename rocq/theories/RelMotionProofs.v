(* Proofs about the relative motion matrix. *)
From Verif Require Import Base Reach RelMotionModel RelMotionSpec.

(* [w] is a level: 0 = constant right hand side only, 1 = any constraint *)
Definition level (t : rmt) (nc : num_constraint) : Prop :=
  rank (if nc_parameterSize nc =? 0 then Constrained else Parameterized) <= rank t.

Definition below (m m' : matrix) : Prop := forall a b, rank (m' a b) <= rank (m a b).
Definition sym (m : matrix) : Prop := forall a b, m a b = m b a.

Lemma below_refl m : below m m. Proof. intros a b; lia. Qed.
Lemma below_trans m1 m2 m3 : below m1 m2 -> below m2 m3 -> below m1 m3.
Proof. intros H1 H2 a b. specialize (H1 a b). specialize (H2 a b). lia. Qed.

Lemma symSet_sym m i j t : sym m -> sym (symSet m i j t).
Proof.
  intros H a b. unfold symSet.
  rewrite (H a b). destruct (Nat.eqb_spec a i), (Nat.eqb_spec b j), (Nat.eqb_spec a j), (Nat.eqb_spec b i); cbn; reflexivity.
Qed.
Lemma symSet_at m i j t : symSet m i j t i j = t.
Proof. unfold symSet. rewrite !Nat.eqb_refl. reflexivity. Qed.
Lemma nodown_sym m i j t : sym m -> sym (symSetNoDowngrade m i j t).
Proof. intros H. unfold symSetNoDowngrade. destruct (_ <? _); [apply symSet_sym; exact H|exact H]. Qed.
Lemma symSet_below m i j t : sym m -> rank t <= rank (m i j) -> below m (symSet m i j t).
Proof.
  intros Hs H a b. unfold symSet.
  destruct (Nat.eqb_spec a i), (Nat.eqb_spec b j), (Nat.eqb_spec a j), (Nat.eqb_spec b i); cbn; subst; try lia;
    try exact H; rewrite Hs; exact H.
Qed.
Lemma nodown_below m i j t : sym m -> below m (symSetNoDowngrade m i j t).
Proof.
  intros Hs. unfold symSetNoDowngrade. destruct (Nat.ltb_spec (rank t) (rank (m i j))); [|apply below_refl].
  apply symSet_below; [exact Hs|lia].
Qed.
Lemma nodown_at m i j t : rank (symSetNoDowngrade m i j t i j) <= rank t.
Proof.
  unfold symSetNoDowngrade. destruct (Nat.ltb_spec (rank t) (rank (m i j))); [rewrite symSet_at; lia|lia].
Qed.

(* what every step preserves: symmetry, descent, and soundness with respect to
   an equivalence relation for each level *)
Section Step.
Variable L : nat -> nat -> nat -> Prop. (* level, joint, joint *)
Hypothesis L_sym : forall w a b, L w a b -> L w b a.
Hypothesis L_trans : forall w a b c, L w a b -> L w b c -> L w a c.
Hypothesis L_mono : forall w w' a b, w <= w' -> L w a b -> L w' a b.

Definition sound (m : matrix) : Prop := forall a b, rank (m a b) < 2 -> L (rank (m a b)) a b.

Lemma symSet_sound m i j t : sound m -> (rank t < 2 -> L (rank t) i j) -> sound (symSet m i j t).
Proof.
  intros Hm Ht a b. unfold symSet.
  destruct (Nat.eqb_spec a i), (Nat.eqb_spec b j), (Nat.eqb_spec a j), (Nat.eqb_spec b i); cbn; subst; try apply Hm;
    intros Hr; auto.
Qed.
Lemma nodown_sound m i j t : sound m -> (rank t < 2 -> L (rank t) i j) -> sound (symSetNoDowngrade m i j t).
Proof. intros Hm Ht. unfold symSetNoDowngrade. destruct (_ <? _); [apply symSet_sound; assumption|exact Hm]. Qed.

Definition good (m0 m : matrix) : Prop := sym m /\ below m0 m /\ sound m.
Lemma good_nodown m0 m i j t : good m0 m -> (rank t < 2 -> L (rank t) i j) -> good m0 (symSetNoDowngrade m i j t).
Proof.
  intros (H1 & H2 & H3) Ht. split; [apply nodown_sym; exact H1|]. split.
  - eapply below_trans; [exact H2|apply nodown_below; exact H1].
  - apply nodown_sound; assumption.
Qed.

Variables (type : rmt) (i1 i2 : nat).
Hypothesis Htype : rank type < 2.
Hypothesis L_new : L (rank type) i1 i2.
Let param := rmt_eqb type Parameterized.

Lemma sound_le m a b w : sound m -> rank (m a b) <= w -> w < 2 -> L w a b.
Proof. intros Hm H Hw. eapply L_mono; [exact H|]. apply Hm. lia. Qed.

Lemma rmt_eqb_spec a b : Bool.reflect (a = b) (rmt_eqb a b).
Proof. destruct a, b; cbn; constructor; try reflexivity; discriminate. Qed.

(* the types computed by the code are the maximum of the types met *)
Lemma type_one x : x <> Unconstrained ->
  rank (if negb param && rmt_eqb x Constrained then Constrained else Parameterized) = Nat.max (rank type) (rank x).
Proof. unfold param. destruct x, type; cbn in *; intros; try reflexivity; try contradiction; lia. Qed.
Lemma type_two x y : x <> Unconstrained -> y <> Unconstrained ->
  rank (if negb param && rmt_eqb x Constrained && rmt_eqb y Constrained then Constrained else Parameterized)
  = Nat.max (rank type) (Nat.max (rank x) (rank y)).
Proof. unfold param. destruct x, y, type; cbn in *; intros; try reflexivity; try contradiction; lia. Qed.
Lemma neq_Unc x : x <> Unconstrained <-> rank x < 2.
Proof. destruct x; cbn; split; intros; try lia; try discriminate; contradiction. Qed.

Lemma step_i3_good m0 m i3 : good m0 m -> good m0 (step_i3 param i1 i2 m i3).
Proof.
  intros Hg. unfold step_i3. destruct (i3 =? i1); [exact Hg|]. destruct (i3 =? i2); [exact Hg|].
  destruct (rmt_eqb_spec (m i2 i3) Unconstrained) as [E|E]; cbn [negb]; [exact Hg|].
  apply good_nodown; [exact Hg|]. rewrite (type_one _ E). intros Hlt. destruct Hg as (_ & _ & Hs).
  apply (L_trans _ _ i2).
  - eapply L_mono; [|exact L_new]. lia.
  - apply (sound_le m); [exact Hs|lia|exact Hlt].
Qed.
Lemma step_i0i3_good m0 m i0 i3 : rank (m i0 i1) < 2 -> good m0 m ->
  good m0 (step_i0i3 param i1 i2 i0 m i3) /\ rank (step_i0i3 param i1 i2 i0 m i3 i0 i1) < 2.
Proof.
  intros H01 Hg. assert (G : good m0 (step_i0i3 param i1 i2 i0 m i3)).
  { unfold step_i0i3. destruct (i3 =? i2); [exact Hg|]. destruct (i3 =? i1); [exact Hg|].
    destruct (i3 =? i0); [exact Hg|]. destruct (rmt_eqb_spec (m i2 i3) Unconstrained) as [E|E]; [exact Hg|].
    apply good_nodown; [exact Hg|]. apply neq_Unc in H01. rewrite (type_two _ _ H01 E). intros Hlt.
    destruct Hg as (_ & _ & Hs).
    apply (L_trans _ _ i1); [apply (sound_le m); [exact Hs|lia|exact Hlt]|].
    apply (L_trans _ _ i2); [eapply L_mono; [|exact L_new]; lia|].
    apply (sound_le m); [exact Hs|lia|exact Hlt]. }
  split; [exact G|].
  assert (B : below m (step_i0i3 param i1 i2 i0 m i3)).
  { destruct Hg as (Hs & _ & _). unfold step_i0i3.
    destruct (i3 =? i2); [apply below_refl|]. destruct (i3 =? i1); [apply below_refl|].
    destruct (i3 =? i0); [apply below_refl|]. destruct (rmt_eqb (m i2 i3) Unconstrained); [apply below_refl|].
    apply nodown_below. exact Hs. }
  specialize (B i0 i1). lia.
Qed.
Lemma inner_good m0 i0 l : forall m, rank (m i0 i1) < 2 -> good m0 m ->
  good m0 (fold_left (step_i0i3 param i1 i2 i0) l m).
Proof.
  induction l as [|i3 l IH]; intros m H01 Hg; cbn [fold_left]; [exact Hg|].
  destruct (step_i0i3_good m0 m i0 i3 H01 Hg) as [G H]. apply IH; assumption.
Qed.
Lemma step_i0_good n m0 m i0 : good m0 m -> good m0 (step_i0 n param i1 i2 m i0).
Proof.
  intros Hg. unfold step_i0. destruct (i0 =? i2); [exact Hg|]. destruct (i0 =? i1); [exact Hg|].
  match goal with |- context [if rmt_eqb (?m1 i0 i1) Unconstrained then _ else _] => set (m1' := m1) end.
  assert (G1 : good m0 m1').
  { subst m1'. destruct (rmt_eqb_spec (m i0 i1) Unconstrained) as [E|E]; cbn [negb]; [exact Hg|].
    apply good_nodown; [exact Hg|]. rewrite (type_one _ E). intros Hlt. destruct Hg as (_ & _ & Hs).
    apply (L_trans _ _ i1); [apply (sound_le m); [exact Hs|lia|exact Hlt]|].
    eapply L_mono; [|exact L_new]. lia. }
  cbv zeta. fold m1'. destruct (rmt_eqb_spec (m1' i0 i1) Unconstrained) as [E|E]; [exact G1|].
  apply inner_good; [apply neq_Unc; exact E|exact G1].
Qed.

Lemma fold_good {A} (f : matrix -> A -> matrix) m0 l : (forall m a, good m0 m -> good m0 (f m a)) ->
  forall m, good m0 m -> good m0 (fold_left f l m).
Proof. intros H. induction l as [|a l IH]; intros m Hg; cbn [fold_left]; [exact Hg|]. apply IH, H, Hg. Qed.

Lemma fold_below {A} (f : matrix -> A -> matrix) m0 l : (forall m a, good m0 m -> good m0 (f m a)) ->
  (forall m a, good m0 m -> below m (f m a)) -> forall m, good m0 m -> below m (fold_left f l m).
Proof.
  intros Hf Hb. induction l as [|a l IH]; intros m Hg; cbn [fold_left]; [apply below_refl|].
  eapply below_trans; [apply Hb; exact Hg|]. apply IH, Hf, Hg.
Qed.

(* the values written: the entry visited is at most the bound computed from the
   initial matrix, and stays so afterwards *)
Lemma fold_good_at {A} (f : matrix -> A -> matrix) m0 l x (P : matrix -> Prop) :
  (forall m a, good m0 m -> good m0 (f m a)) ->
  (forall m m', P m -> below m m' -> P m') ->
  (forall m a, good m0 m -> below m (f m a)) ->
  (forall m, good m0 m -> P (f m x)) ->
  In x l -> forall m, good m0 m -> P (fold_left f l m).
Proof.
  intros Hf HP Hb Hx. induction l as [|a l IH]; intros Hin m Hg; [destruct Hin|]. cbn [fold_left].
  destruct Hin as [->|Hin]; [|apply IH; [exact Hin|apply Hf; exact Hg]].
  assert (G1 : good m0 (f m x)) by (apply Hf; exact Hg).
  apply (HP (f m x)); [apply Hx; exact Hg|].
  clear IH. revert G1. generalize (f m x). induction l as [|b l IH]; intros m1 G1; cbn [fold_left]; [apply below_refl|].
  eapply below_trans; [apply Hb; exact G1|]. apply IH, Hf, G1.
Qed.

Lemma step_i3_below m0 m i3 : good m0 m -> below m (step_i3 param i1 i2 m i3).
Proof.
  intros (Hs & _). unfold step_i3. destruct (i3 =? i1); [apply below_refl|]. destruct (i3 =? i2); [apply below_refl|].
  destruct (negb (rmt_eqb (m i2 i3) Unconstrained)); [apply nodown_below; exact Hs|apply below_refl].
Qed.
Lemma step_i0i3_below m0 m i0 i3 : good m0 m -> below m (step_i0i3 param i1 i2 i0 m i3).
Proof.
  intros (Hs & _ & _). unfold step_i0i3.
  destruct (i3 =? i2); [apply below_refl|]. destruct (i3 =? i1); [apply below_refl|].
  destruct (i3 =? i0); [apply below_refl|]. destruct (rmt_eqb (m i2 i3) Unconstrained); [apply below_refl|].
  apply nodown_below. exact Hs.
Qed.
Lemma inner_below m0 i0 l : forall m, rank (m i0 i1) < 2 -> good m0 m ->
  below m (fold_left (step_i0i3 param i1 i2 i0) l m).
Proof.
  induction l as [|i3 l IH]; intros m H01 Hg; cbn [fold_left]; [apply below_refl|].
  destruct (step_i0i3_good m0 m i0 i3 H01 Hg) as [G H].
  eapply below_trans; [apply (step_i0i3_below m0); exact Hg|]. apply IH; assumption.
Qed.
Definition row_i0 (m : matrix) (i0 : nat) : matrix :=
  if negb (rmt_eqb (m i0 i1) Unconstrained) then
    symSetNoDowngrade m i0 i2
      (if negb param && rmt_eqb (m i0 i1) Constrained then Constrained else Parameterized)
  else m.
Lemma row_below m0 m i0 : good m0 m -> below m (row_i0 m i0).
Proof. intros (Hs & _). unfold row_i0. destruct (negb _); [apply nodown_below; exact Hs|apply below_refl]. Qed.
Lemma row_good m0 m i0 : good m0 m -> good m0 (row_i0 m i0).
Proof.
  intros Hg. unfold row_i0. destruct (rmt_eqb_spec (m i0 i1) Unconstrained) as [E|E]; cbn [negb]; [exact Hg|].
  apply good_nodown; [exact Hg|]. rewrite (type_one _ E). intros Hlt. destruct Hg as (_ & _ & Hs).
  apply (L_trans _ _ i1); [apply (sound_le m); [exact Hs|lia|exact Hlt]|].
  eapply L_mono; [|exact L_new]. lia.
Qed.
Lemma step_i0_eq n m i0 : i0 <> i1 -> i0 <> i2 ->
  step_i0 n param i1 i2 m i0 =
  if rmt_eqb (row_i0 m i0 i0 i1) Unconstrained then row_i0 m i0
  else fold_left (step_i0i3 param i1 i2 i0) (seq 0 n) (row_i0 m i0).
Proof.
  intros H1 H2. unfold step_i0. destruct (Nat.eqb_spec i0 i2); [contradiction|].
  destruct (Nat.eqb_spec i0 i1); [contradiction|]. reflexivity.
Qed.
Lemma step_i0_below n m0 m i0 : good m0 m -> below m (step_i0 n param i1 i2 m i0).
Proof.
  intros Hg. destruct (Nat.eq_dec i0 i1) as [->|N1].
  { unfold step_i0. rewrite Nat.eqb_refl. destruct (i1 =? i2); apply below_refl. }
  destruct (Nat.eq_dec i0 i2) as [->|N2].
  { unfold step_i0. rewrite Nat.eqb_refl. apply below_refl. }
  rewrite (step_i0_eq n m i0 N1 N2). pose proof (row_below m0 m i0 Hg) as B.
  destruct (rmt_eqb_spec (row_i0 m i0 i0 i1) Unconstrained) as [E|E]; [exact B|].
  eapply below_trans; [exact B|]. apply (inner_below m0); [apply neq_Unc; exact E|apply row_good; exact Hg].
Qed.

(* second loop: entries (i0, i2) and (i0, i3) *)
Lemma step_i0_at n m0 m i0 : good m0 m -> i0 <> i1 -> i0 <> i2 -> rank (m0 i0 i1) < 2 ->
  rank (step_i0 n param i1 i2 m i0 i0 i2) <= Nat.max (rank type) (rank (m0 i0 i1)) /\
  forall i3, i3 < n -> i3 <> i0 -> i3 <> i1 -> i3 <> i2 -> rank (m0 i2 i3) < 2 ->
  rank (step_i0 n param i1 i2 m i0 i0 i3) <= Nat.max (rank type) (Nat.max (rank (m0 i0 i1)) (rank (m0 i2 i3))).
Proof.
  intros Hg N1 N2 H01. rewrite (step_i0_eq n m i0 N1 N2).
  pose proof (row_below m0 m i0 Hg) as B. pose proof (row_good m0 m i0 Hg) as Gr.
  assert (Hm01 : rank (m i0 i1) <= rank (m0 i0 i1)) by (destruct Hg as (_ & Hb & _); apply Hb).
  assert (Hr : rank (row_i0 m i0 i0 i2) <= Nat.max (rank type) (rank (m0 i0 i1))).
  { unfold row_i0. assert (E : m i0 i1 <> Unconstrained) by (apply neq_Unc; lia).
    destruct (rmt_eqb_spec (m i0 i1) Unconstrained) as [X|_]; [contradiction|]. cbn [negb].
    pose proof (nodown_at m i0 i2 (if negb param && rmt_eqb (m i0 i1) Constrained then Constrained else Parameterized)) as A.
    rewrite (type_one _ E) in A. lia. }
  assert (E : row_i0 m i0 i0 i1 <> Unconstrained) by (apply neq_Unc; specialize (B i0 i1); lia).
  destruct (rmt_eqb_spec (row_i0 m i0 i0 i1) Unconstrained) as [X|_]; [contradiction|].
  assert (E' : rank (row_i0 m i0 i0 i1) < 2) by (apply neq_Unc; exact E).
  split.
  - pose proof (inner_below m0 i0 (seq 0 n) (row_i0 m i0) E' Gr i0 i2). lia.
  - intros i3 Hn M0 M1 M2 H23.
    (* loop with the extra invariant rank (m i0 i1) < 2 *)
    assert (K : forall l m1, In i3 l -> good m0 m1 -> rank (m1 i0 i1) < 2 ->
      rank (fold_left (step_i0i3 param i1 i2 i0) l m1 i0 i3) <=
      Nat.max (rank type) (Nat.max (rank (m0 i0 i1)) (rank (m0 i2 i3)))).
    { induction l as [|a l IH]; intros m1 Hin Hg1 Hr1; [destruct Hin|]. cbn [fold_left].
      destruct (step_i0i3_good m0 m1 i0 a Hr1 Hg1) as [G2 R2].
      destruct Hin as [->|Hin]; [|apply IH; assumption].
      pose proof (inner_below m0 i0 l _ R2 G2 i0 i3) as Bl.
      enough (rank (step_i0i3 param i1 i2 i0 m1 i3 i0 i3) <=
              Nat.max (rank type) (Nat.max (rank (m0 i0 i1)) (rank (m0 i2 i3)))) by lia.
      unfold step_i0i3. destruct (Nat.eqb_spec i3 i2); [contradiction|]. destruct (Nat.eqb_spec i3 i1); [contradiction|].
      destruct (Nat.eqb_spec i3 i0); [contradiction|].
      destruct Hg1 as (_ & Hb1 & _). pose proof (Hb1 i2 i3) as Q1. pose proof (Hb1 i0 i1) as Q2.
      assert (Ea : m1 i2 i3 <> Unconstrained) by (apply neq_Unc; lia).
      destruct (rmt_eqb_spec (m1 i2 i3) Unconstrained) as [X|_]; [contradiction|].
      match goal with |- rank (symSetNoDowngrade _ _ _ ?t _ _) <= _ => pose proof (nodown_at m1 i0 i3 t) as A end.
      assert (Eb : m1 i0 i1 <> Unconstrained) by (apply neq_Unc; lia).
      rewrite (type_two _ _ Eb Ea) in A. lia. }
    apply K; [apply in_seq; lia|exact Gr|exact E'].
Qed.

Lemma recurse_good n m : sym m -> sound m -> rank type < rank (m i1 i2) ->
  let m' := recurseSet n m i1 i2 type in
  sym m' /\ below m m' /\ sound m' /\
  (rank (m' i1 i2) <= rank type) /\
  (forall i3, i3 < n -> i3 <> i1 -> i3 <> i2 -> rank (m i2 i3) < 2 ->
     rank (m' i1 i3) <= Nat.max (rank type) (rank (m i2 i3))) /\
  (forall i0, i0 < n -> i0 <> i1 -> i0 <> i2 -> rank (m i0 i1) < 2 ->
     rank (m' i0 i2) <= Nat.max (rank type) (rank (m i0 i1))) /\
  (forall i0 i3, i0 < n -> i0 <> i1 -> i0 <> i2 -> i3 < n -> i3 <> i0 -> i3 <> i1 -> i3 <> i2 ->
     rank (m i0 i1) < 2 -> rank (m i2 i3) < 2 ->
     rank (m' i0 i3) <= Nat.max (rank type) (Nat.max (rank (m i0 i1)) (rank (m i2 i3)))).
Proof.
  intros Hs Hso Hlt m'. subst m'. unfold recurseSet. fold param.
  destruct (Nat.leb_spec (rank (m i1 i2)) (rank type)) as [X|_]; [lia|].
  set (ms := symSet m i1 i2 type).
  assert (G0 : good m ms).
  { split; [apply symSet_sym; exact Hs|]. split; [apply symSet_below; [exact Hs|lia]|].
    apply symSet_sound; [exact Hso|intros; exact L_new]. }
  set (m1 := fold_left (step_i3 param i1 i2) (seq 0 n) ms).
  assert (G1 : good m m1) by (apply fold_good; [intros; apply step_i3_good; assumption|exact G0]).
  set (m2 := fold_left (step_i0 n param i1 i2) (seq 0 n) m1).
  assert (G2 : good m m2) by (apply fold_good; [intros; apply step_i0_good; assumption|exact G1]).
  assert (B1 : below ms m1) by (apply (fold_below _ m); [intros; apply step_i3_good; assumption|intros; apply (step_i3_below m); assumption|exact G0]).
  assert (B2 : below m1 m2) by (apply (fold_below _ m); [intros; apply step_i0_good; assumption|intros; apply (step_i0_below n m); assumption|exact G1]).
  split; [apply G2|]. split; [apply G2|]. split; [apply G2|]. split; [|split; [|split]].
  - specialize (B1 i1 i2). specialize (B2 i1 i2). unfold ms in B1. rewrite symSet_at in B1. lia.
  - intros i3 Hn N1 N2 H23.
    assert (P : rank (m1 i1 i3) <= Nat.max (rank type) (rank (m i2 i3))).
    { subst m1. apply (fold_good_at (step_i3 param i1 i2) m (seq 0 n) i3
        (fun x => rank (x i1 i3) <= Nat.max (rank type) (rank (m i2 i3)))).
      - intros; apply step_i3_good; assumption.
      - intros x x' Hx Hb. specialize (Hb i1 i3). lia.
      - intros; apply (step_i3_below m); assumption.
      - intros x (_ & Hb & _). unfold step_i3. destruct (Nat.eqb_spec i3 i1); [contradiction|].
        destruct (Nat.eqb_spec i3 i2); [contradiction|]. specialize (Hb i2 i3).
        assert (E : x i2 i3 <> Unconstrained) by (apply neq_Unc; lia).
        destruct (rmt_eqb_spec (x i2 i3) Unconstrained) as [X|_]; [contradiction|]. cbn [negb].
        match goal with |- rank (symSetNoDowngrade _ _ _ ?t _ _) <= _ => pose proof (nodown_at x i1 i3 t) as A end.
        rewrite (type_one _ E) in A. lia.
      - apply in_seq. lia.
      - exact G0. }
    specialize (B2 i1 i3). lia.
  - intros i0 Hn N1 N2 H01. subst m2.
    apply (fold_good_at (step_i0 n param i1 i2) m (seq 0 n) i0
        (fun x => rank (x i0 i2) <= Nat.max (rank type) (rank (m i0 i1)))).
    + intros; apply step_i0_good; assumption.
    + intros x x' Hx Hb. specialize (Hb i0 i2). lia.
    + intros; apply (step_i0_below n m); assumption.
    + intros x Hx. apply (step_i0_at n m x i0 Hx N1 N2 H01).
    + apply in_seq. lia.
    + exact G1.
  - intros i0 i3 Hn N1 N2 Hn3 M0 M1 M2 H01 H23. subst m2.
    apply (fold_good_at (step_i0 n param i1 i2) m (seq 0 n) i0
        (fun x => rank (x i0 i3) <= Nat.max (rank type) (Nat.max (rank (m i0 i1)) (rank (m i2 i3))))).
    + intros; apply step_i0_good; assumption.
    + intros x x' Hx Hb. specialize (Hb i0 i3). lia.
    + intros; apply (step_i0_below n m); assumption.
    + intros x Hx. apply (step_i0_at n m x i0 Hx N1 N2 H01); assumption.
    + apply in_seq. lia.
    + exact G1.
Qed.
End Step.
