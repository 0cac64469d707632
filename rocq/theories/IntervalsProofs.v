From Verif Require Import Base Ext IntervalsModel.
From Coq Require Import Lqa.

(* sorted, disjoint, non touching, and every interval is non empty *)
Fixpoint sorted_from (lo : option ext) (l : intervals) : Prop :=
  match l with
  | [] => True
  | (a, b) :: r => ele a b /\ match lo with None => True | Some x => elt x a end /\ sorted_from (Some b) r
  end.
Definition isorted (l : intervals) : Prop := sorted_from None l.
(* v belongs to one of the intervals *)
Definition covered (l : intervals) (v : ext) : Prop :=
  exists a b, In (a, b) l /\ ele a v /\ ele v b.

Lemma covered_cons a b l v : covered ((a, b) :: l) v <-> (ele a v /\ ele v b) \/ covered l v.
Proof.
  unfold covered; split.
  - intros [x [y [[H|H] K]]]; [injection H as <- <-; auto|right; eauto].
  - intros [K|[x [y [H K]]]]; [exists a, b; simpl; auto|exists x, y; simpl; auto].
Qed.
Lemma covered_nil v : covered [] v <-> False.
Proof. unfold covered; split; [intros [x [y [[] _]]]|tauto]. Qed.
Lemma sorted_weaken x y l : ele x y -> sorted_from (Some y) l -> sorted_from (Some x) l.
Proof. destruct l as [|[a b] r]; simpl; [auto|]. intros H [H1 [H2 H3]]; split; [auto|split; [ord|exact H3]]. Qed.
Lemma sorted_none x l : sorted_from (Some x) l -> sorted_from None l.
Proof. destruct l as [|[a b] r]; simpl; tauto. Qed.
Lemma sorted_after lo l v : sorted_from (Some lo) l -> covered l v -> elt lo v.
Proof.
  revert lo; induction l as [|[a b] r IH]; intros lo; [rewrite covered_nil; tauto|].
  simpl; rewrite covered_cons. intros [H1 [H2 H3]] [H|H]; [ord|].
  specialize (IH b H3 H). ord.
Qed.

Section Union.
Variables i1 i2 : ext.
Hypothesis Hi : ele i1 i2.
Let iv : interval := (i1, i2).

Lemma cas1_spec : forall l lo,
  sorted_from lo l -> (forall x, lo = Some x -> elt x i1) ->
  (match l with [] => True | (a, _) :: _ => elt i1 a end) ->
  sorted_from lo (cas1 iv l) /\
  forall v, covered (cas1 iv l) v <-> covered l v \/ (ele i1 v /\ ele v i2).
Proof.
  induction l as [|[a b] r IH]; intros lo Hs Hlo Hh; cbn [cas1].
  - split.
    + simpl. split; [exact Hi|split; [destruct lo; auto|exact I]].
    + intros v; unfold iv; rewrite covered_cons, covered_nil; tauto.
  - cbn [fst snd iv] in *. simpl in Hs. destruct Hs as [H1 [H2 H3]].
    destruct (eltb i2 a) eqn:E1; [|destruct (eltb i2 b) eqn:E2].
    + split.
      * simpl. split; [exact Hi|split; [destruct lo; auto|]]. split; [exact H1|split; [ord|exact H3]].
      * intros v; unfold iv; rewrite !covered_cons; tauto.
    + split.
      * simpl. split; [ord|split; [destruct lo; auto|exact H3]].
      * intros v; rewrite !covered_cons. apply eltb_iff in E2.
        split; intros [H|H]; auto.
        -- destruct H as [K1 K2]. destruct (ele_dec v i2); [auto|left; left; split; [|exact K2]]. ord.
        -- destruct H as [[K1 K2]|H]; [left; split; ord|auto].
        -- left; split; ord.
    + destruct (IH lo) as [I1 I2].
      * destruct r as [|[c d] r']; [exact I|]. simpl in H3 |- *. destruct H3 as [K1 [K2 K3]].
        split; [exact K1|split; [|exact K3]]. destruct lo as [x|]; [|exact I]. specialize (Hlo x eq_refl). ord.
      * exact Hlo.
      * destruct r as [|[c d] r']; [exact I|]. simpl in H3. destruct H3 as [K1 [K2 K3]]. ord.
      * split; [exact I1|]. intros v; rewrite I2, covered_cons. split; [tauto|].
        intros [[[K1 K2]|K]|K]; auto. right; split; ord.
Qed.

(* in the loop of cas 2 the current element ends before interval.second *)
Lemma cas2_far : forall l cur, sorted_from (Some i2) l -> cas2 iv cur l = (match l with [] => cur | _ => i2 end, l).
Proof.
  induction l as [|[c d] r IH]; intros cur Hs; [reflexivity|].
  cbn [cas2 iv fst snd]. simpl in Hs; destruct Hs as [H1 [H2 H3]].
  assert (E : eltb i2 c = true) by (apply eltb_iff; exact H2). rewrite E.
  rewrite IH; [destruct r; reflexivity|]. eapply sorted_weaken; [|exact H3]. ord.
Qed.
Lemma cas2_spec a b : ele a i1 -> ele i1 b -> ele b i2 -> forall l cur lo,
  sorted_from (Some lo) l -> l <> [] ->
  let '(b', r') := cas2 iv cur l in
  ele i2 b' /\ sorted_from (Some b') r' /\
  forall v, elt b v -> ((ele v b' \/ covered r' v) <-> (ele v i2 \/ covered l v)).
Proof.
  intros Ha Hb Hbi. induction l as [|[c d] r IH]; intros cur lo Hs Hne; [congruence|].
  cbn [cas2 iv fst snd]. simpl in Hs; destruct Hs as [H1 [H2 H3]].
  destruct (eltb i2 c) eqn:E1; [|destruct (eltb i2 d) eqn:E2].
  - apply eltb_iff in E1. rewrite cas2_far by (eapply sorted_weaken; [|exact H3]; ord).
    assert (Hx : (match r with [] => i2 | _ => i2 end) = i2) by (destruct r; reflexivity). rewrite Hx.
    split; [apply ele_refl|split; [simpl; auto|]]. intros v Hv. reflexivity.
  - apply eltb_iff in E2. split; [ord|split; [exact H3|]]. intros v Hv. rewrite covered_cons.
    split.
    + intros [H|H]; [|auto]. destruct (ele_dec v i2); [auto|]. right; left; split; ord.
    + intros [H|[H|H]]; [left; ord|left; tauto|auto].
  - destruct r as [|p r].
    + split; [apply ele_refl|split; [exact I|]]. intros v Hv. rewrite covered_cons, !covered_nil.
      split; [tauto|]. intros [H|[H|[]]]; [auto|left; ord].
    + specialize (IH cur d H3). destruct (cas2 iv cur (p :: r)) as [b' r'].
      destruct IH as [I1 [I2 I3]]; [discriminate|]. split; [exact I1|split; [exact I2|]].
      intros v Hv. rewrite (I3 v Hv), (covered_cons c d). split; [tauto|]. intros [H|[H|H]]; auto. left; ord.
Qed.

Lemma union_spec : forall l lo,
  sorted_from lo l -> (forall x, lo = Some x -> elt x i1) ->
  sorted_from lo (union_interval iv l) /\
  forall v, covered (union_interval iv l) v <-> covered l v \/ (ele i1 v /\ ele v i2).
Proof.
  induction l as [|[a b] r IH]; intros lo Hs Hlo; cbn [union_interval iv fst snd].
  - split.
    + simpl. split; [exact Hi|split; [destruct lo; auto|exact I]].
    + intros v; unfold iv; rewrite covered_cons, covered_nil; tauto.
  - destruct (eltb i1 a) eqn:E1; [|destruct (eleb i1 b) eqn:E2].
    + apply eltb_iff in E1. apply cas1_spec; auto.
    + assert (Ha : ele a i1) by ord. apply eleb_iff in E2.
      simpl in Hs; destruct Hs as [H1 [H2 H3]]. unfold cas2_first; cbn [iv fst snd].
      assert (E3 : eltb i2 a = false).
      { destruct (eltb i2 a) eqn:E; [|reflexivity]. ord. }
      rewrite E3. destruct (eltb i2 b) eqn:E4.
      * apply eltb_iff in E4. cbv beta iota. split; [simpl; auto|]. intros v; rewrite !covered_cons. split; [tauto|].
        intros [[H|H]|H]; auto. left; split; ord.
      * assert (Hbi : ele b i2) by ord. destruct r as [|p r]; cbv beta iota.
        -- split; [simpl; split; [ord|auto]|]. intros v; rewrite !covered_cons, covered_nil.
           split; [|intros [[H|[]]|H]; left; split; ord].
           intros [[K1 K2]|[]]. destruct (ele_dec v b); [auto|right; split; ord].
        -- pose proof (cas2_spec a b Ha E2 Hbi (p :: r) b b H3) as HC.
           destruct (cas2 iv b (p :: r)) as [b' r']. destruct HC as [C1 [C2 C3]]; [discriminate|].
           split; [simpl; split; [ord|auto]|].
           intros v. rewrite !(covered_cons a). destruct (ele_dec v b) as [Hv|Hv].
           ++ assert (N1 : ~ covered r' v).
              { intros K. pose proof (sorted_after _ _ _ C2 K). ord. }
              assert (N2 : ~ covered (p :: r) v).
              { intros K. pose proof (sorted_after _ _ _ H3 K). ord. }
              split; [intros [H|H]; [left; left; split; ord|contradiction]|].
              intros [[H|H]|H]; [left; split; ord|contradiction|left; split; ord].
           ++ specialize (C3 v Hv). split.
              ** intros H. assert (K : ele v b' \/ covered r' v) by tauto. apply C3 in K.
                 destruct K as [K|K]; [right; split; ord|auto].
              ** intros H. assert (K : ele v i2 \/ covered (p :: r) v).
                 { destruct H as [[H|H]|H]; [exfalso; ord|auto|tauto]. }
                 apply C3 in K. destruct K as [K|K]; [left; split; ord|auto].
    + simpl in Hs; destruct Hs as [H1 [H2 H3]]. assert (Hb : elt b i1) by ord.
      destruct (IH (Some b) H3) as [I1 I2]; [intros x Hx; injection Hx as <-; exact Hb|].
      split; [simpl; auto|]. intros v; rewrite !covered_cons, I2. tauto.
Qed.
(* where the elements of the result come from *)
Lemma cas1_in x y l : In (x, y) (cas1 iv l) -> In (x, y) l \/ (ele x i1 /\ ele i2 y).
Proof.
  induction l as [|[a b] r IH]; cbn [cas1].
  - intros [H|[]]. injection H as <- <-. right; split; apply ele_refl.
  - cbn [fst snd iv]. destruct (eltb i2 a) eqn:E1; [|destruct (eltb i2 b) eqn:E2].
    + intros [H|H]; [injection H as <- <-; right; split; apply ele_refl|auto].
    + intros [H|H]; [injection H as <- <-; right; split; [apply ele_refl|ord]|left; right; exact H].
    + intros H; destruct (IH H); [left; right; assumption|auto].
Qed.
Lemma cas2_in p : forall l cur, In p (snd (cas2 iv cur l)) -> In p l.
Proof.
  induction l as [|[c d] r IH]; intros cur; cbn [cas2]; [auto|]. cbn [fst snd iv].
  destruct (eltb i2 c); [|destruct (eltb i2 d)].
  - specialize (IH i2). destruct (cas2 iv i2 r) as [cur' r']. cbn [snd]. intros [H|H]; [left; exact H|right; auto].
  - cbn [snd]; intros H; right; exact H.
  - destruct r as [|q r']; [intros []|]. intros H; right; exact (IH cur H).
Qed.
Lemma union_in x y : forall l lo, sorted_from lo l -> In (x, y) (union_interval iv l) ->
  In (x, y) l \/ (ele x i1 /\ ele i2 y).
Proof.
  induction l as [|[a b] r IH]; intros lo Hs; cbn [union_interval iv fst snd].
  - intros [H|[]]. injection H as <- <-. right; split; apply ele_refl.
  - destruct (eltb i1 a) eqn:E1; [|destruct (eleb i1 b) eqn:E2].
    + apply cas1_in.
    + assert (Ha : ele a i1) by ord. apply eleb_iff in E2.
      simpl in Hs; destruct Hs as [H1 [H2 H3]]. unfold cas2_first; cbn [iv fst snd].
      assert (E3 : eltb i2 a = false).
      { destruct (eltb i2 a) eqn:E; [|reflexivity]. ord. }
      rewrite E3. destruct (eltb i2 b) eqn:E4; [cbv beta iota; auto|].
      assert (Hbi : ele b i2) by ord. destruct r as [|p r]; cbv beta iota.
      * intros [H|[]]; injection H as <- <-; right; split; [exact Ha|apply ele_refl].
      * pose proof (cas2_spec a b Ha E2 Hbi (p :: r) b b H3) as HC.
        pose proof (cas2_in (x, y) (p :: r) b) as HI.
        destruct (cas2 iv b (p :: r)) as [b' r']. cbn [snd] in HI. destruct HC as [C1 [C2 C3]]; [discriminate|].
        intros [H|H]; [injection H as <- <-; auto|left; right; auto].
    + simpl in Hs; destruct Hs as [H1 [H2 H3]].
      intros [H|H]; [left; left; exact H|]. destruct (IH (Some b) H3 H); [left; right; assumption|auto].
Qed.
End Union.

Lemma union_interval_spec l a b : isorted l -> ele a b ->
  isorted (union_interval (a, b) l) /\
  forall v, covered (union_interval (a, b) l) v <-> covered l v \/ (ele a v /\ ele v b).
Proof. intros Hl Hab. apply union_spec; [exact Hab|exact Hl|discriminate]. Qed.

Lemma union_interval_in l a b x y : isorted l -> ele a b -> In (x, y) (union_interval (a, b) l) ->
  In (x, y) l \/ (ele x a /\ ele b y).
Proof. intros Hl Hab. apply (union_in a b Hab x y l None Hl). Qed.

Lemma contains_value_spec l v reverse : contains_value l v reverse = true <-> covered l v.
Proof.
  unfold contains_value, covered. rewrite existsb_exists. split.
  - intros [[a b] [H1 H2]]. apply andb_prop in H2 as [H2 H3]. exists a, b.
    split; [|split; apply eleb_iff; assumption]. destruct reverse; [exact H1|apply in_rev; exact H1].
  - intros [a [b [H1 [H2 H3]]]]. exists (a, b). split; [destruct reverse; [exact H1|apply in_rev in H1; exact H1]|].
    apply andb_true_intro; split; apply eleb_iff; assumption.
Qed.
Lemma contains_interval_iff l a b : contains_interval l (a, b) = true <->
  exists x y, In (x, y) l /\ ele x a /\ ele b y.
Proof.
  unfold contains_interval. rewrite existsb_exists. split.
  - intros [[x y] [H1 H2]]. apply andb_prop in H2 as [H2 H3]. exists x, y.
    split; [exact H1|split; apply eleb_iff; assumption].
  - intros [x [y [H1 [H2 H3]]]]. exists (x, y). split; [exact H1|].
    apply andb_true_intro; split; apply eleb_iff; assumption.
Qed.

(* between two different extended numbers lies a rational *)
Lemma ext_strict_between a b : elt a b -> exists q, elt a (Fin q) /\ elt (Fin q) b.
Proof.
  Local Transparent ele elt. intros H. unfold elt in *. destruct a as [|p|], b as [|r|]; simpl in *; try tauto.
  - exists (r - 1)%Q; split; [tauto|intros K; lra].
  - exists 0%Q; tauto.
  - exists ((p + r) * (1 # 2))%Q. split; intros K; lra.
  - exists (p + 1)%Q; split; [intros K; lra|tauto].
Qed.
Local Opaque ele elt.

(* for a rational interval, containment is coverage of all its rationals *)
Lemma contains_interval_covered l p q : isorted l -> (p <= q)%Q ->
  (contains_interval l (Fin p, Fin q) = true <->
   forall v, (p <= v)%Q -> (v <= q)%Q -> covered l (Fin v)).
Proof.
  intros Hl Hpq. rewrite contains_interval_iff. split.
  - intros [x [y [H1 [H2 H3]]]] v Hp Hq. exists x, y. apply ele_fin in Hp, Hq. split; [exact H1|split; ord].
  - intros Hall. unfold isorted in Hl. remember None as lo eqn:Elo. clear Elo.
    revert lo Hl Hall. induction l as [|[a b] r IH]; intros lo Hl Hall.
    + destruct (Hall p (Qle_refl p) Hpq) as [x [y [[] _]]].
    + simpl in Hl; destruct Hl as [H1 [H2 H3]].
      destruct (ele_dec (Fin p) b) as [Hpb|Hpb].
      * (* p must be in (a,b), hence so must q *)
        assert (Hap : ele a (Fin p)).
        { specialize (Hall p (Qle_refl p) Hpq). rewrite covered_cons in Hall.
          destruct Hall as [K|K]; [tauto|]. pose proof (sorted_after _ _ _ H3 K). ord. }
        exists a, b. split; [left; reflexivity|split; [exact Hap|]].
        destruct (ele_dec (Fin q) b) as [K|K]; [exact K|exfalso].
        (* a rational after b, before the next interval and before q *)
        assert (Hex : exists v, elt b (Fin v) /\ ele (Fin v) (Fin q) /\ (forall c d r', r = (c, d) :: r' -> elt (Fin v) c)).
        { destruct r as [|[c d] r'].
          - exists q; split; [exact K|split; [apply ele_refl|discriminate]].
          - simpl in H3; destruct H3 as [K1 [K2 K3]].
            destruct (ext_strict_between b (emin c (Fin q))) as [v [V1 V2]].
            { unfold emin; destruct (eleb c (Fin q)); assumption. }
            exists v. split; [exact V1|]. unfold emin in V2. destruct (eleb c (Fin q)) eqn:E.
            + split; [ord|]. intros c' d' r2 Hr; injection Hr as <- <- <-; exact V2.
            + split; [ord|]. intros c' d' r2 Hr; injection Hr as <- <- <-. ord. }
        destruct Hex as [v [V1 [V2 V3]]].
        assert (Hpv : (p <= v)%Q) by (apply ele_fin; ord).
        apply ele_fin in V2. specialize (Hall v Hpv V2). rewrite covered_cons in Hall.
        destruct Hall as [[_ Hx]|Hx]; [ord|].
        destruct r as [|[c d] r']; [apply covered_nil in Hx; exact Hx|].
        specialize (V3 c d r' eq_refl). simpl in H3; destruct H3 as [K1 [K2 K3]].
        rewrite covered_cons in Hx. destruct Hx as [[Hx _]|Hx]; [ord|].
        pose proof (sorted_after _ _ _ K3 Hx). ord.
      * destruct (IH (Some b) H3) as [x [y [X1 X2]]].
        { intros v Hp Hq. specialize (Hall v Hp Hq). rewrite covered_cons in Hall.
          destruct Hall as [[_ Hx]|Hx]; [|exact Hx]. apply ele_fin in Hp. ord. }
        exists x, y; split; [right; exact X1|exact X2].
Qed.
