(* The two validation loops, for any validators. *)
From Verif Require Import Base Ext IntervalsModel IntervalsProofs ContValModel.
From Coq Require Import Lqa ZArith Qround.

(* ------------------------------------------------------------------ *)
(* Packing: at most 1 + L/delta points of [a,b] are pairwise separated  *)
Fixpoint separated (d : Q) (l : list Q) : Prop :=
  match l with
  | [] => True
  | x :: r => (forall y, In y r -> (d < x - y)%Q \/ (d < y - x)%Q) /\ separated d r
  end.
Definition slots (a b d : Q) : nat := Z.to_nat (Qfloor ((b - a) / d)).
Lemma packing a b d l : (0 < d)%Q -> separated d l -> (forall x, In x l -> (a <= x)%Q /\ (x <= b)%Q) ->
  length l <= S (slots a b d).
Proof.
  intros Hd Hs Hin. unfold slots.
  set (k := fun x => Z.to_nat (Qfloor ((x - a) / d))).
  assert (Hk : forall x, (a <= x)%Q -> (0 <= Qfloor ((x - a) / d))%Z).
  { intros x Hx. change 0%Z with (Qfloor 0). apply Qfloor_resp_le.
    apply Qle_shift_div_l; [exact Hd|]. lra. }
  assert (Hnd : NoDup (map k l)).
  { induction l as [|x l IH]; simpl; [constructor|]. destruct Hs as [H1 H2]. constructor.
    - intros Hc. apply in_map_iff in Hc as [y [E Hy]]. unfold k in E.
      assert (Hx : (a <= x)%Q) by (apply Hin; left; reflexivity).
      assert (Hy' : (a <= y)%Q) by (apply Hin; right; exact Hy).
      apply Z2Nat.inj in E; auto.
      pose proof (Qfloor_le ((x - a) / d)) as Fx1. pose proof (Qlt_floor ((x - a) / d)) as Fx2.
      pose proof (Qfloor_le ((y - a) / d)) as Fy1. pose proof (Qlt_floor ((y - a) / d)) as Fy2.
      rewrite E in Fy1, Fy2. rewrite inject_Z_plus in Fx2, Fy2. change (inject_Z 1) with 1%Q in *.
      set (m := inject_Z (Qfloor ((x - a) / d))) in *.
      assert (X : ((x - a) / d * d == x - a)%Q) by (field; lra).
      assert (Y : ((y - a) / d * d == y - a)%Q) by (field; lra).
      set (u := ((x - a) / d)%Q) in *. set (v := ((y - a) / d)%Q) in *.
      destruct (H1 y Hy) as [K|K]; nra.
    - apply IH; [exact H2|intros z Hz; apply Hin; right; exact Hz]. }
  rewrite <- (map_length k l).
  replace (S (Z.to_nat (Qfloor ((b - a) / d)))) with (length (seq 0 (S (Z.to_nat (Qfloor ((b - a) / d)))))) by apply seq_length.
  apply NoDup_incl_length; [exact Hnd|]. intros z Hz. apply in_map_iff in Hz as [x [<- Hx]].
  destruct (Hin x Hx) as [H1 H2]. apply in_seq. split; [lia|]. unfold k.
  apply le_n_S. apply Z2Nat.inj_le.
  - apply Hk; exact H1.
  - apply Hk. lra.
  - apply Qfloor_resp_le. unfold Qdiv. apply Qmult_le_compat_r; [lra|]. apply Qlt_le_weak, Qinv_lt_0_compat; exact Hd.
Qed.

Section Loops.
Variable St : Type.
Variable ev : Q -> bool.
Variable vc : St -> Q -> St * option interval.
Variable reverse : bool.
Variables ta tb : Q.
Hypothesis Htr : (ta <= tb)%Q.
Notation tr := (tr ta tb).
Notation tstart := (tstart reverse ta tb).
Notation check := (check St ev vc).
Definition inr (v : Q) : Prop := (ta <= v)%Q /\ (v <= tb)%Q.

(* contract of the validators: on success the interval contains t and only
   admissible parameters *)
Variable Inv : St -> Prop.
Variable free : Q -> Prop.
Hypothesis vc_some : forall s t s' x y, Inv s -> inr t -> ev t = true -> vc s t = (s', Some (x, y)) ->
  Inv s' /\ ele x (Fin t) /\ ele (Fin t) y /\ forall v, inr v -> ele x (Fin v) -> ele (Fin v) y -> free v.
Hypothesis vc_none : forall s t s', Inv s -> inr t -> ev t = true -> vc s t = (s', None) -> Inv s'.

Lemma start_in : inr tstart.
Proof. unfold inr, ContValModel.tstart. destruct reverse; split; lra. Qed.
Lemma check_some s t s' x y : Inv s -> inr t -> check s t = (s', Some (x, y)) ->
  Inv s' /\ ele x (Fin t) /\ ele (Fin t) y /\ forall v, inr v -> ele x (Fin v) -> ele (Fin v) y -> free v.
Proof. unfold ContValModel.check. destruct (ev t) eqn:E; [intros HI Ht; exact (vc_some s t s' x y HI Ht E)|discriminate]. Qed.

(* every stored interval meets the range *)
Definition meets (l : intervals) : Prop :=
  forall x y, In (x, y) l -> exists v, inr v /\ ele x (Fin v) /\ ele (Fin v) y.
Definition good (l : intervals) : Prop := isorted l /\ meets l /\ covered l (Fin tstart).


Lemma meets_union l x y t : isorted l -> meets l -> ele x y -> inr t -> ele x (Fin t) -> ele (Fin t) y ->
  meets (union_interval (x, y) l).
Proof.
  intros Hs Hm Hxy Ht H1 H2 a b Hab.
  destruct (union_interval_in l x y a b Hs Hxy Hab) as [H|[H3 H4]]; [exact (Hm a b H)|].
  exists t. split; [exact Ht|split; ord].
Qed.

Lemma sorted_app lo l1 a b l2 : sorted_from lo (l1 ++ (a, b) :: l2) ->
  ele a b /\ sorted_from (Some b) l2 /\ (forall x y, In (x, y) l1 -> elt y a) /\
  (forall v, covered l1 v -> elt v a).
Proof.
  revert lo; induction l1 as [|[c d] r IH]; intros lo H; simpl in H.
  - destruct H as [H1 [H2 H3]]. split; [exact H1|split; [exact H3|split; [intros x y []|]]].
    intros v Hv; apply covered_nil in Hv; destruct Hv.
  - destruct H as [H1 [H2 H3]]. destruct (IH _ H3) as [I1 [I2 [I3 I4]]].
    split; [exact I1|split; [exact I2|]].
    assert (Hd : elt d a).
    { apply (sorted_after d (r ++ (a, b) :: l2)); [exact H3|]. exists a, b.
      split; [apply in_or_app; right; left; reflexivity|split; [apply ele_refl|exact I1]]. }
    split.
    + intros x y [H|H]; [injection H as <- <-; exact Hd|exact (I3 x y H)].
    + intros v. rewrite covered_cons. intros [H|H]; [ord|exact (I4 v H)].
Qed.
Lemma covered_app l1 l2 v : covered (l1 ++ l2) v <-> covered l1 v \/ covered l2 v.
Proof.
  induction l1 as [|[a b] r IH]; [rewrite covered_nil; simpl; tauto|].
  simpl. rewrite !covered_cons, IH. tauto.
Qed.
Lemma fin_between p x q : ele (Fin p) x -> ele x (Fin q) -> exists r, x = Fin r /\ (p <= r)%Q /\ (r <= q)%Q.
Proof.
  Local Transparent ele. destruct x as [|r|]; simpl; try tauto. intros; exists r; auto.
Qed.
Local Opaque ele.

(* the first gap, in each direction *)
Lemma gap_forward l : isorted l -> meets l -> covered l (Fin ta) -> contains_interval l tr = false ->
  exists a p r1, l = (a, Fin p) :: r1 /\ ele a (Fin ta) /\ (ta <= p)%Q /\ (p < tb)%Q /\
    exists q, match r1 with [] => q = tb | (c, d) :: _ => c = Fin q end /\ (p < q)%Q /\ (q <= tb)%Q.
Proof.
  intros Hs Hm Hc Hn. destruct l as [|[a b] r]; [apply covered_nil in Hc; destruct Hc|].
  destruct (Hm a b (or_introl eq_refl)) as [v [[V1 V2] [V3 V4]]]. apply ele_fin in V1, V2.
  destruct Hs as [S1 [_ S3]].
  assert (Hta : ele a (Fin ta) /\ ele (Fin ta) b).
  { rewrite covered_cons in Hc. destruct Hc as [Hc|Hc]; [exact Hc|].
    pose proof (sorted_after _ _ _ S3 Hc). ord. }
  destruct Hta as [A1 A2].
  assert (Hb : elt b (Fin tb)).
  { destruct (ele_dec (Fin tb) b) as [K|K]; [|exact K]. exfalso.
    assert (E : contains_interval ((a, b) :: r) tr = true).
    { apply contains_interval_iff. exists a, b. split; [left; reflexivity|auto]. }
    exact (Bool.eq_true_false_abs _ E Hn). }
  destruct (fin_between ta b tb A2 (elt_ele _ _ Hb)) as [p [-> [P1 P2]]]. apply elt_fin in Hb.
  exists a, p, r. split; [reflexivity|split; [exact A1|split; [exact P1|split; [exact Hb|]]]].
  destruct r as [|[c d] r'].
  - exists tb. split; [reflexivity|split; lra].
  - destruct (Hm c d (or_intror (or_introl eq_refl))) as [w [[W1 W2] [W3 W4]]]. apply ele_fin in W1, W2.
    destruct S3 as [T1 [T2 T3]].
    destruct (fin_between p c tb) as [q [-> [Q1 Q2]]]; [ord|ord|]. apply elt_fin in T2.
    exists q; auto.
Qed.
Lemma gap_backward l : isorted l -> meets l -> covered l (Fin tb) -> contains_interval l tr = false ->
  exists p b r1, l = r1 ++ [(Fin p, b)] /\ ele (Fin tb) b /\ (ta < p)%Q /\ (p <= tb)%Q /\
    exists q, (r1 = [] /\ q = ta \/ exists r2 c, r1 = r2 ++ [(c, Fin q)]) /\ (q < p)%Q /\ (ta <= q)%Q.
Proof.
  intros Hs Hm Hc Hn. destruct (rev l) as [|[a b] r] eqn:E.
  { apply (f_equal (@rev _)) in E. rewrite rev_involutive in E. subst l. apply covered_nil in Hc; destruct Hc. }
  apply (f_equal (@rev _)) in E. rewrite rev_involutive in E. simpl in E. 
  unfold isorted in Hs. rewrite E in Hs. destruct (sorted_app _ _ _ _ _ Hs) as [S1 [_ [S2 S3]]].
  destruct (Hm a b) as [v [[V1 V2] [V3 V4]]]; [rewrite E; apply in_or_app; right; left; reflexivity|].
  apply ele_fin in V1, V2.
  assert (Hta : ele a (Fin tb) /\ ele (Fin tb) b).
  { rewrite E, covered_app, covered_cons, covered_nil in Hc. destruct Hc as [Hc|[Hc|[]]]; [|exact Hc].
    specialize (S3 _ Hc). ord. }
  destruct Hta as [A1 A2].
  assert (Ha : elt (Fin ta) a).
  { destruct (ele_dec a (Fin ta)) as [K|K]; [|exact K]. exfalso.
    assert (E' : contains_interval l tr = true).
    { apply contains_interval_iff. exists a, b. split; [rewrite E; apply in_or_app; right; left; reflexivity|auto]. }
    exact (Bool.eq_true_false_abs _ E' Hn). }
  destruct (fin_between ta a tb (elt_ele _ _ Ha) A1) as [p [-> [P1 P2]]]. apply elt_fin in Ha.
  exists p, b, (rev r). split; [exact E|split; [exact A2|split; [exact Ha|split; [exact P2|]]]].
  destruct r as [|[c d] r'].
  - exists ta. split; [left; split; reflexivity|split; lra].
  - simpl in E, S2. destruct (Hm c d) as [w [[W1 W2] [W3 W4]]].
    { rewrite E. apply in_or_app; left; apply in_or_app; right; left; reflexivity. }
    apply ele_fin in W1, W2.
    assert (Hd : elt d (Fin p)) by (apply (S2 c d); apply in_or_app; right; left; reflexivity).
    destruct (fin_between ta d p) as [q [-> [Q1 Q2]]]; [ord|ord|]. apply elt_fin in Hd.
    exists q. split; [right; exists (rev r'), c; reflexivity|auto].
Qed.

Lemma next_gap l : good l -> contains_interval l tr = false ->
  exists t, next_param reverse ta tb l = Some t /\ inr t /\ ~ covered l (Fin t).
Proof.
  intros [Hs [Hm Hc]] Hn. unfold next_param, ContValModel.tstart in *. unfold inr. destruct reverse.
  - destruct (gap_backward l Hs Hm Hc Hn) as [p [b [r1 [-> [B [P1 [P2 [q [Q1 [Q2 Q3]]]]]]]]]].
    rewrite rev_app_distr. cbn [rev app second_ first_ negb fst snd].
    destruct (sorted_app _ _ _ _ _ Hs) as [S1 [_ [S2 S3]]].
    assert (Hmid : exists t, (match match rev r1 with [] => second_ tr true | i1 :: _ => first_ i1 true end with
                              Fin q0 => Some ((1 # 2) * (p + q0))%Q | _ => None end) = Some t
                   /\ (t == (1#2) * (p + q))%Q).
    { destruct Q1 as [[-> ->]|[r2 [c ->]]]; [|rewrite rev_app_distr]; cbn; eexists; split; reflexivity. }
    destruct Hmid as [t [T1 T2]]. exists t. split; [exact T1|split; [split; lra|]].
    intros K. rewrite covered_app, covered_cons, covered_nil in K.
    destruct K as [K|[[K _]|[]]]; [|apply ele_fin in K; lra].
    destruct Q1 as [[-> ->]|[r2 [c ->]]]; [apply covered_nil in K; exact K|].
    rewrite covered_app, covered_cons, covered_nil in K.
    rewrite <- app_assoc in Hs. destruct (sorted_app _ _ _ _ _ Hs) as [L1 [_ [L2 L3]]].
    assert (Hqt : elt (Fin q) (Fin t)) by (apply elt_fin; lra).
    destruct K as [K|[K|[]]]; [|ord]. specialize (L3 _ K). ord.
  - destruct (gap_forward l Hs Hm Hc Hn) as [a [p [r1 [-> [A [P1 [P2 [q [Q1 [Q2 Q3]]]]]]]]]].
    cbn [second_ first_ negb fst snd]. destruct Hs as [S1 [_ S3]].
    assert (Hmid : exists t, (match match r1 with [] => second_ tr false | i1 :: _ => first_ i1 false end with
                              Fin q0 => Some ((1 # 2) * (p + q0))%Q | _ => None end) = Some t
                   /\ (t == (1#2) * (p + q))%Q).
    { destruct r1 as [|[c d] r2]; subst; cbn; eexists; split; reflexivity. }
    destruct Hmid as [t [T1 T2]]. exists t. split; [exact T1|split; [split; lra|]].
    intros K. rewrite covered_cons in K. destruct K as [[_ K]|K]; [apply ele_fin in K; lra|].
    destruct r1 as [|[c d] r2]; [apply covered_nil in K; exact K|]. subst c.
    assert (Hqt : elt (Fin t) (Fin q)) by (apply elt_fin; lra).
    rewrite covered_cons in K. destruct S3 as [L1 [L2 L3]].
    destruct K as [K|K]; [ord|]. pose proof (sorted_after _ _ _ L3 K). ord.
Qed.

(* the valid part reported *)
Definition part_of (lo hi : Q) : Prop :=
  (ta <= lo)%Q /\ (lo <= hi)%Q /\ (hi <= tb)%Q /\ if reverse then hi = tb else lo = ta.
Lemma part_spec l : good l -> contains_interval l tr = false \/ l = [(Fin tstart, Fin tstart)] ->
  exists lo hi, valid_part reverse ta tb l = (Fin lo, Fin hi) /\ part_of lo hi /\
    (l = [(Fin tstart, Fin tstart)] -> lo = tstart /\ hi = tstart) /\
    forall v, (lo <= v)%Q -> (v <= hi)%Q -> covered l (Fin v).
Proof.
  intros [Hs [Hm Hc]] [Hn| ->].
  - unfold valid_part, part_of, ContValModel.tstart in *. destruct reverse.
    + destruct (gap_backward l Hs Hm Hc Hn) as [p [b [r1 [-> [B [P1 [P2 [q [Q1 [Q2 Q3]]]]]]]]]].
      rewrite rev_app_distr. cbn [rev app fst snd]. exists p, tb. split; [reflexivity|].
      split; [split; [lra|split; [lra|split; [lra|reflexivity]]]|]. split.
      * intros E. destruct r1 as [|x [|y r]]; [injection E as -> ->; auto|discriminate|discriminate].
      * intros v H1 H2. rewrite covered_app, covered_cons. apply ele_fin in H1, H2. right; left; split; ord.
    + destruct (gap_forward l Hs Hm Hc Hn) as [a [p [r1 [-> [A [P1 [P2 [q [Q1 [Q2 Q3]]]]]]]]]].
      cbn [fst snd]. exists ta, p. split; [reflexivity|].
      split; [split; [lra|split; [lra|split; [lra|reflexivity]]]|]. split.
      * intros E. injection E as -> -> ->; auto.
      * intros v H1 H2. rewrite covered_cons. apply ele_fin in H1, H2. left; split; ord.
  - exists tstart, tstart. unfold valid_part, part_of, ContValModel.tstart.
    destruct reverse; cbn [rev app fst snd]; (split; [reflexivity|]);
    (split; [split; [lra|split; [lra|split; [lra|reflexivity]]]|split; [auto|]]);
    intros v H1 H2; rewrite covered_cons; left; apply ele_fin in H1, H2; auto.
Qed.

(* what a verdict means *)
Definition verdict (r : vres) : Prop :=
  match r with
  | Valid => forall v, inr v -> free v
  | Invalid lo hi p =>
      inr p /\ (exists s, Inv s /\ snd (check s p) = None) /\
      exists a b, lo = Fin a /\ hi = Fin b /\ part_of a b /\
        ((forall v, (a <= v)%Q -> (v <= b)%Q -> free v) \/ (a = tstart /\ b = tstart /\ p = tstart))
  end.

Definition dich_inv (l : intervals) (t : Q) : Prop :=
  good l /\ inr t /\
  ((l = [(Fin tstart, Fin tstart)] /\ t = tstart) \/
   (contains_interval l tr = false /\ forall v, inr v -> covered l (Fin v) -> free v)).

Lemma dich_init : dich_inv (union_interval (Fin tstart, Fin tstart) []) tstart.
Proof.
  cbn [union_interval]. pose proof start_in as H. split; [|split; [exact H|left; auto]].
  split; [|split].
  - cbn [isorted sorted_from]. split; [apply ele_refl|split; exact I].
  - intros x y [E|[]]. injection E as <- <-. exists tstart. split; [exact H|split; apply ele_refl].
  - rewrite covered_cons. left; split; apply ele_refl.
Qed.
Lemma dich_step s l t s' x y : Inv s -> dich_inv l t -> check s t = (s', Some (x, y)) ->
  Inv s' /\ good (union_interval (x, y) l) /\
  (forall v, inr v -> covered (union_interval (x, y) l) (Fin v) -> free v) /\
  (forall v, covered (union_interval (x, y) l) v <-> covered l v \/ (ele x v /\ ele v y)).
Proof.
  intros HI [[Hs [Hm Hc]] [Ht Hst]] E. destruct (check_some s t s' x y HI Ht E) as [I' [X1 [X2 X3]]].
  assert (Hxy : ele x y) by ord.
  destruct (union_interval_spec l x y Hs Hxy) as [U1 U2].
  split; [exact I'|]. split; [|split; [|exact U2]].
  - split; [exact U1|split]. 
    + apply (meets_union l x y t); auto.
    + apply U2; left; exact Hc.
  - intros v Hv K. apply U2 in K. destruct K as [K|[K1 K2]]; [|apply X3; auto].
    destruct Hst as [[-> ->]|[_ Hst]]; [|apply Hst; auto].
    rewrite covered_cons, covered_nil in K. destruct K as [[K1 K2]|[]]. apply X3; [exact Hv|ord|ord].
Qed.
Lemma dich_sound : forall fuel s l t s' r, Inv s -> dich_inv l t ->
  dich St ev vc reverse ta tb fuel s l t = (s', r) ->
  r = Fuel \/ (Inv s' /\ exists v, r = Ok v /\ verdict v).
Proof.
  induction fuel as [|k IH]; intros s l t s' r HI HD E.
  { injection E as <- <-; left; reflexivity. }
  cbn [dich] in E. destruct (check s t) as [s1 [[x y]|]] eqn:EC.
  - destruct (dich_step s l t s1 x y HI HD EC) as [I1 [G1 [F1 U1]]].
    destruct (contains_interval (union_interval (x, y) l) tr) eqn:EK.
    + injection E as <- <-. right; split; [exact I1|]. exists Valid; split; [reflexivity|].
      intros v Hv. apply F1; [exact Hv|]. unfold ContValModel.tr in EK. destruct G1 as [G1 _].
      destruct Hv as [V1 V2]. revert v V1 V2. apply (contains_interval_covered _ ta tb G1 Htr). exact EK.
    + destruct (next_gap _ G1 EK) as [t' [T1 [T2 T3]]]. rewrite T1 in E.
      apply (IH s1 (union_interval (x, y) l) t' s' r I1); [|exact E]. split; [exact G1|split; [exact T2|right; split; assumption]].
  - destruct HD as [HG [Ht Hst]]. injection E as <- <-. right. split.
    { unfold ContValModel.check in EC. destruct (ev t) eqn:Ev.
      - apply (vc_none s t); assumption.
      - injection EC as <-; exact HI. }
    eexists; split; [reflexivity|].
    cbn [verdict]. split; [exact Ht|]. split; [exists s; rewrite EC; auto|].
    assert (Hd : contains_interval l tr = false \/ l = [(Fin tstart, Fin tstart)]) by tauto.
    destruct (part_spec l HG Hd) as [lo [hi [P1 [P2 [P3 P4]]]]]. rewrite P1. cbn [fst snd].
    exists lo, hi. split; [reflexivity|split; [reflexivity|split; [exact P2|]]].
    destruct Hst as [[E1 E2]|[_ Hf]].
    + right. destruct (P3 E1); auto.
    + left. intros v V1 V2. apply Hf; [|apply P4; assumption].
      destruct P2 as [Q1 [Q2 [Q3 _]]]. split; lra.
Qed.
Theorem dichotomy_sound fuel s s' r : Inv s -> dichotomy St ev vc reverse ta tb fuel s = (s', r) ->
  r = Fuel \/ (Inv s' /\ exists v, r = Ok v /\ verdict v).
Proof. intros HI. apply dich_sound; [exact HI|exact dich_init]. Qed.

(* ---- Progressive ---- *)
(* parameters between the start and t *)
Definition upto (t v : Q) : Prop := if reverse then (t <= v)%Q /\ (v <= tb)%Q else (ta <= v)%Q /\ (v <= t)%Q.
Definition prog_inv (last t : Q) (finished : nat) : Prop :=
  inr last /\ inr t /\
  ((last = tstart /\ t = tstart /\ finished <= 1 /\ (finished = 1 -> (ta == tb)%Q)) \/
   (upto t last /\ (forall v, upto t v -> free v) /\ (0 < finished -> (t == tend reverse ta tb)%Q))).
Lemma check_inv s t s' o : Inv s -> inr t -> check s t = (s', o) -> Inv s'.
Proof.
  intros HI Ht. unfold ContValModel.check. destruct (ev t) eqn:Ev; [|intros E; injection E as <- <-; exact HI].
  intros E. destruct o as [[x y]|]; [destruct (vc_some s t s' x y HI Ht Ev E); assumption|].
  exact (vc_none s t s' HI Ht Ev E).
Qed.
Lemma upto_part t : inr t -> part_of (if reverse then t else ta) (if reverse then tb else t).
Proof. intros [H1 H2]. unfold part_of. destruct reverse; repeat split; lra. Qed.
Lemma prog_step s last t fin s' x y : Inv s -> prog_inv last t fin -> check s t = (s', Some (x, y)) ->
  Inv s' /\ (forall v, inr v -> upto t v \/ (ele x (Fin v) /\ ele (Fin v) y) -> free v) /\
  ele x (Fin t) /\ ele (Fin t) y.
Proof.
  intros HI [Hl [Ht Hst]] E. destruct (check_some s t s' x y HI Ht E) as [I' [X1 [X2 X3]]].
  split; [exact I'|split; [|auto]]. intros v Hv [K|[K1 K2]]; [|apply X3; auto].
  destruct Hst as [[_ [-> _]]|[_ [Hst _]]]; [|apply Hst; exact K].
  apply X3; [exact Hv| |].
  - unfold upto, ContValModel.tstart in *. destruct reverse.
    + assert (L : ele (Fin tb) (Fin v)) by (apply ele_fin; lra). ord.
    + assert (L : ele (Fin ta) (Fin v)) by (apply ele_fin; lra). ord.
  - unfold upto, ContValModel.tstart in *. destruct reverse.
    + assert (L : ele (Fin v) (Fin tb)) by (apply ele_fin; lra). ord.
    + assert (L : ele (Fin v) (Fin ta)) by (apply ele_fin; lra). ord.
Qed.
Lemma tend_in : inr (tend reverse ta tb).
Proof. unfold inr, tend; destruct reverse; split; lra. Qed.
Lemma prog_next_end s last t fin s' x y : Inv s -> prog_inv last t fin -> check s t = (s', Some (x, y)) ->
  past_end reverse ta tb (second_ (x, y) reverse) = true ->
  prog_inv t (tend reverse ta tb) (fin + 1).
Proof.
  intros HI HP E HE. destruct (prog_step s last t fin s' x y HI HP E) as [I1 [F1 [X1 X2]]].
  destruct HP as [_ [[T1 T2] _]]. split; [split; assumption|split; [exact tend_in|]]. right.
  unfold past_end, second_, first_, upto, tend in *. destruct reverse; cbn [negb fst snd] in HE.
  - apply eleb_iff in HE. split; [split; lra|]. split; [|intros _; reflexivity].
    intros v [V1 V2]. apply F1; [split; lra|]. destruct (Qlt_le_dec v t) as [K|K]; [right|left; split; lra].
    assert (L1 : ele (Fin ta) (Fin v)) by (apply ele_fin; lra).
    assert (L2 : ele (Fin v) (Fin t)) by (apply ele_fin; lra). split; ord.
  - apply eleb_iff in HE. split; [split; lra|]. split; [|intros _; reflexivity].
    intros v [V1 V2]. apply F1; [split; lra|]. destruct (Qlt_le_dec t v) as [K|K]; [right|left; split; lra].
    assert (L1 : ele (Fin v) (Fin tb)) by (apply ele_fin; lra).
    assert (L2 : ele (Fin t) (Fin v)) by (apply ele_fin; lra). split; ord.
Qed.
Lemma prog_next s last t fin s' x y : Inv s -> prog_inv last t fin -> check s t = (s', Some (x, y)) ->
  past_end reverse ta tb (second_ (x, y) reverse) = false ->
  fin = 0 /\ exists q, second_ (x, y) reverse = Fin q /\ prog_inv t q 0.
Proof.
  intros HI HP E HE. destruct (prog_step s last t fin s' x y HI HP E) as [I1 [F1 [X1 X2]]].
  destruct HP as [_ [[T1 T2] Hst]].
  assert (Hfin : fin = 0).
  { destruct fin as [|k]; [reflexivity|exfalso].
    assert (Ht : (t == tend reverse ta tb)%Q).
    { destruct Hst as [[_ [-> [H1 H2]]]|[_ [_ H]]]; [|apply H; lia].
      assert (k = 0) by lia; subst. specialize (H2 eq_refl).
      unfold ContValModel.tstart, tend. destruct reverse; lra. }
    unfold past_end, second_, first_, tend in *. destruct reverse; cbn [negb fst snd] in HE.
    - assert (L : ele (Fin t) (Fin ta)) by (apply ele_fin; lra). ord.
    - assert (L : ele (Fin tb) (Fin t)) by (apply ele_fin; lra). ord. }
  split; [exact Hfin|]. unfold prog_inv, past_end, second_, first_, upto in *.
  apply ele_fin in T1 as T1', T2 as T2'.
  destruct reverse; cbn [negb fst snd] in *.
  - destruct (fin_between ta x t) as [q [-> [Q1 Q2]]]; [ord|ord|].
    exists q. split; [reflexivity|]. split; [split; assumption|]. split; [split; lra|]. right.
    split; [split; lra|]. split; [|lia]. intros v [V1 V2]. apply F1; [split; lra|].
    destruct (Qlt_le_dec v t) as [K|K]; [right|left; split; lra].
    assert (L1 : ele (Fin q) (Fin v)) by (apply ele_fin; lra).
    assert (L2 : ele (Fin v) (Fin t)) by (apply ele_fin; lra). split; ord.
  - destruct (fin_between t y tb) as [q [-> [Q1 Q2]]]; [ord|ord|].
    exists q. split; [reflexivity|]. split; [split; assumption|]. split; [split; lra|]. right.
    split; [split; lra|]. split; [|lia]. intros v [V1 V2]. apply F1; [split; lra|].
    destruct (Qlt_le_dec t v) as [K|K]; [right|left; split; lra].
    assert (L1 : ele (Fin v) (Fin q)) by (apply ele_fin; lra).
    assert (L2 : ele (Fin t) (Fin v)) by (apply ele_fin; lra). split; ord.
Qed.
Lemma prog_sound : forall fuel s last t fin s' r, Inv s -> prog_inv last t fin ->
  prog St ev vc reverse ta tb fuel s last t fin = (s', r) ->
  r = Fuel \/ (Inv s' /\ exists v, r = Ok v /\ verdict v).
Proof.
  assert (Hdone : forall s last t fin s' r, Inv s -> prog_inv last t fin -> 2 <= fin ->
            (s, Ok Valid) = (s', r) -> r = Fuel \/ (Inv s' /\ exists v, r = Ok v /\ verdict v)).
  { intros s last t fin s' r HI HP Hf E. injection E as <- <-. right; split; [exact HI|].
    exists Valid; split; [reflexivity|]. destruct HP as [_ [_ [[_ [_ [H _]]]|[_ [Hv He]]]]]; [lia|].
    specialize (He ltac:(lia)). intros v [V1 V2]. apply Hv. unfold upto, tend in *.
    destruct reverse; split; lra. }
  induction fuel as [|k IH]; intros s last t fin s' r HI HP E; cbn [prog] in E.
  - destruct (Nat.leb_spec 2 fin) as [Hf|Hf]; [eapply Hdone; eauto|].
    injection E as <- <-; left; reflexivity.
  - destruct (Nat.leb_spec 2 fin) as [Hf|Hf]; [eapply Hdone; eauto|].
    destruct (check s t) as [s1 [[x y]|]] eqn:EC.
    + destruct (prog_step s last t fin s1 x y HI HP EC) as [I1 _].
      destruct (past_end reverse ta tb (second_ (x, y) reverse)) eqn:EP.
      * apply (IH s1 t (tend reverse ta tb) (fin + 1) s' r I1); [|exact E]. exact (prog_next_end s last t fin s1 x y HI HP EC EP).
      * destruct (prog_next s last t fin s1 x y HI HP EC EP) as [-> [q [Eq HQ]]]. rewrite Eq in E.
        exact (IH s1 t q 0 s' r I1 HQ E).
    + right. pose proof HP as [Hl [Ht Hst]]. pose proof (check_inv _ _ _ _ HI Ht EC) as I1.
      assert (Hver : exists a b, a = (if reverse then last else ta) /\ b = (if reverse then tb else last) /\
                (forall v, (a <= v)%Q -> (v <= b)%Q -> free v) \/ (last = tstart /\ t = tstart)).
      { destruct Hst as [[H1 [H2 _]]|[H1 [H2 _]]]; [exists 0%Q, 0%Q; right; auto|].
        eexists _, _; left; split; [reflexivity|split; [reflexivity|]].
        intros v V1 V2. apply H2. unfold upto in *. destruct reverse; split; lra. }
      destruct Hver as [a [b Hver]]. pose proof (upto_part last Hl) as HPart.
      injection E as <- <-. split; [exact I1|]. eexists; split; [reflexivity|].
      assert (Hex : exists s0, Inv s0 /\ snd (check s0 t) = None) by (exists s; rewrite EC; auto).
      unfold ContValModel.tstart in *. destruct reverse eqn:ER; cbn [verdict];
      (split; [exact Ht|split; [exact Hex|]]); eexists _, _; (split; [reflexivity|split; [reflexivity|split; [exact HPart|]]]);
      unfold ContValModel.tstart.
      * rewrite ER. destruct Hver as [[-> [-> Hv]]|[H1 H2]]; [left; exact Hv|right; auto].
      * rewrite ER. destruct Hver as [[-> [-> Hv]]|[H1 H2]]; [left; exact Hv|right; auto].
Qed.
Lemma past_end_start : past_end reverse ta tb (Fin tstart) = true -> (ta == tb)%Q.
Proof.
  unfold past_end, ContValModel.tstart. destruct reverse; intros H; apply eleb_iff, ele_fin in H; lra.
Qed.
Lemma prog_init : prog_inv tstart tstart (if past_end reverse ta tb (Fin tstart) then 1 else 0).
Proof.
  pose proof start_in as H. split; [exact H|split; [exact H|left]]. split; [reflexivity|split; [reflexivity|]].
  destruct (past_end reverse ta tb (Fin tstart)) eqn:E; split; [lia| |lia|discriminate].
  intros _; exact (past_end_start E).
Qed.
Theorem progressive_sound fuel s s' r : Inv s -> progressive St ev vc reverse ta tb fuel s = (s', r) ->
  r = Fuel \/ (Inv s' /\ exists v, r = Ok v /\ verdict v).
Proof. intros HI. apply prog_sound; [exact HI|exact prog_init]. Qed.

(* the path end was tested, and a rejected path's valid part ends at a tested parameter *)
Definition tested (t : Q) : Prop := exists s, Inv s /\ snd (check s t) <> None.
Lemma prog_ends : forall fuel s last t fin s' r, Inv s -> prog_inv last t fin ->
  (2 <= fin -> exists e, (e == tend reverse ta tb)%Q /\ tested e) ->
  (tested last \/ (last = tstart /\ t = tstart)) ->
  prog St ev vc reverse ta tb fuel s last t fin = (s', Ok r) ->
  match r with
  | Valid => exists e, (e == tend reverse ta tb)%Q /\ tested e
  | Invalid lo hi p => exists la, (if reverse then lo else hi) = Fin la /\ (tested la \/ (la = tstart /\ p = tstart))
  end.
Proof.
  induction fuel as [|k IH]; intros s last t fin s' r HI HP H2 HL E; cbn [prog] in E.
  - destruct (Nat.leb_spec 2 fin) as [Hf|Hf]; [injection E as <- <-; exact (H2 Hf)|discriminate].
  - destruct (Nat.leb_spec 2 fin) as [Hf|Hf]; [injection E as <- <-; exact (H2 Hf)|].
    destruct (check s t) as [s1 [[x y]|]] eqn:EC.
    + destruct (prog_step s last t fin s1 x y HI HP EC) as [I1 _].
      assert (HT : tested t) by (exists s; rewrite EC; split; [exact HI|discriminate]).
      destruct (past_end reverse ta tb (second_ (x, y) reverse)) eqn:EP.
      * apply (IH s1 t (tend reverse ta tb) (fin + 1) s' r I1); [|intros Hf2|left; exact HT|exact E].
        -- exact (prog_next_end s last t fin s1 x y HI HP EC EP).
        -- exists t. split; [|exact HT]. destruct HP as [_ [_ [[_ [-> [H1 H3]]]|[_ [_ H]]]]]; [|apply H; lia].
           assert (fin = 1) by lia. specialize (H3 H). unfold ContValModel.tstart, tend. destruct reverse; lra.
      * destruct (prog_next s last t fin s1 x y HI HP EC EP) as [-> [q [Eq HQ]]]. rewrite Eq in E.
        apply (IH s1 t q 0 s' r I1 HQ); [lia|left; exact HT|exact E].
    + assert (E' : Ok r = Ok (if reverse then Invalid (Fin last) (Fin tb) t else Invalid (Fin ta) (Fin last) t))
        by (injection E as _ <-; reflexivity).
      injection E' as ->. clear E. destruct reverse eqn:ER; exists last;
      (split; [reflexivity|]); unfold ContValModel.tstart in *; rewrite ?ER in *; exact HL.
Qed.
Theorem progressive_ends fuel s s' r : Inv s -> progressive St ev vc reverse ta tb fuel s = (s', Ok r) ->
  match r with
  | Valid => exists e, (e == tend reverse ta tb)%Q /\ tested e
  | Invalid lo hi p => exists la, (if reverse then lo else hi) = Fin la /\ (tested la \/ (la = tstart /\ p = tstart))
  end.
Proof.
  intros HI. apply prog_ends; [exact HI|exact prog_init| |right; auto].
  destruct (past_end reverse ta tb (Fin tstart)); lia.
Qed.

(* ---- termination ---- *)
Variable delta : Q.
Hypothesis Hdelta : (0 < delta)%Q.
(* each validated interval extends delta on both sides, or to the range *)
Hypothesis wide : forall s t s' x y, Inv s -> inr t -> vc s t = (s', Some (x, y)) -> ev t = true ->
  (ele x (Fin (t - delta)) \/ ele x (Fin ta)) /\ (ele (Fin (t + delta)) y \/ ele (Fin tb) y).
Lemma check_wide s t s' x y : Inv s -> inr t -> check s t = (s', Some (x, y)) ->
  forall v, inr v -> (t - delta <= v)%Q -> (v <= t + delta)%Q -> ele x (Fin v) /\ ele (Fin v) y.
Proof.
  unfold ContValModel.check. destruct (ev t) eqn:Ev; [|discriminate]. intros HI Ht E v [V1 V2] V3 V4.
  destruct (wide s t s' x y HI Ht E Ev) as [W1 W2]. apply ele_fin in V1, V2, V3, V4. split.
  - destruct W1; ord.
  - destruct W2; ord.
Qed.
Lemma dich_terminates : forall fuel s l t pts, Inv s -> dich_inv l t ->
  separated delta (t :: pts) -> (forall p, In p pts -> inr p) ->
  (forall p, In p pts -> forall v, inr v -> (p - delta <= v)%Q -> (v <= p + delta)%Q -> covered l (Fin v)) ->
  slots ta tb delta < fuel + length pts ->
  snd (dich St ev vc reverse ta tb fuel s l t) <> Fuel.
Proof.
  induction fuel as [|k IH]; intros s l t pts HI HD Hsep Hin Hcov Hfuel.
  - exfalso. pose proof (packing ta tb delta (t :: pts) Hdelta Hsep) as HP. simpl length in HP.
    assert (H : S (length pts) <= S (slots ta tb delta)); [|lia]. apply HP.
    intros x [<-|Hx]; [apply HD|apply Hin; exact Hx].
  - cbn [dich]. destruct (check s t) as [s1 [[x y]|]] eqn:EC; [|discriminate].
    destruct (dich_step s l t s1 x y HI HD EC) as [I1 [G1 [F1 U1]]].
    destruct (contains_interval (union_interval (x, y) l) tr) eqn:EK; [discriminate|].
    destruct (next_gap _ G1 EK) as [t' [T1 [T2 T3]]]. rewrite T1.
    assert (Ht : inr t) by apply HD.
    assert (Hcov' : forall p, In p (t :: pts) -> forall v, inr v -> (p - delta <= v)%Q -> (v <= p + delta)%Q ->
              covered (union_interval (x, y) l) (Fin v)).
    { intros p [<-|Hp] v Hv V1 V2; apply U1.
      - right. exact (check_wide s t s1 x y HI Ht EC v Hv V1 V2).
      - left. exact (Hcov p Hp v Hv V1 V2). }
    apply (IH s1 (union_interval (x, y) l) t' (t :: pts) I1).
    + split; [exact G1|split; [exact T2|right; split; assumption]].
    + split; [|exact Hsep]. intros p Hp. specialize (Hcov' p Hp t' T2).
      destruct (Qlt_le_dec delta (t' - p)) as [K|K]; [left; exact K|].
      destruct (Qlt_le_dec delta (p - t')) as [K'|K']; [right; exact K'|].
      exfalso. apply T3, Hcov'; lra.
    + intros p [<-|Hp]; auto.
    + exact Hcov'.
    + simpl length; lia.
Qed.
Theorem dichotomy_terminates s : Inv s ->
  snd (dichotomy St ev vc reverse ta tb (S (slots ta tb delta)) s) <> Fuel.
Proof.
  intros HI. apply (dich_terminates _ _ _ _ [] HI dich_init); simpl; try tauto. lia.
Qed.

Lemma slots_step a b b' : (a + delta <= b)%Q -> (b <= b')%Q -> slots b b' delta < slots a b' delta.
Proof.
  intros H1 H2. unfold slots.
  assert (L : (Qfloor ((b' - b) / delta) + 1 <= Qfloor ((b' - a) / delta))%Z).
  { assert (X : (inject_Z (Qfloor ((b' - b) / delta) + 1) <= (b' - a) / delta)%Q).
    { rewrite inject_Z_plus. change (inject_Z 1) with 1%Q.
      pose proof (Qfloor_le ((b' - b) / delta)).
      assert (E : ((b' - a) / delta == (b' - b) / delta + (b - a) / delta)%Q) by (field; lra).
      assert (1 <= (b - a) / delta)%Q by (apply Qle_shift_div_l; [exact Hdelta|lra]). lra. }
    rewrite <- (Qfloor_Z (Qfloor ((b' - b) / delta) + 1)). apply Qfloor_resp_le; exact X. }
  assert (L0 : (0 <= Qfloor ((b' - b) / delta))%Z).
  { change 0%Z with (Qfloor 0). apply Qfloor_resp_le. apply Qle_shift_div_l; [exact Hdelta|lra]. }
  lia.
Qed.
Definition remaining (t : Q) : nat := if reverse then slots ta t delta else slots t tb delta.
Lemma slots_step' a b b' : (b <= b' - delta)%Q -> (a <= b)%Q -> slots a b delta < slots a b' delta.
Proof.
  intros H1 H2. pose proof (slots_step (- b') (- b) (- a)) as H.
  assert (E : forall u v, slots (- v) (- u) delta = slots u v delta).
  { intros u v. unfold slots. f_equal. apply Qfloor_comp. field. lra. }
  rewrite !E in H. apply H; lra.
Qed.
Lemma prog_terminates : forall fuel s last t fin, Inv s -> prog_inv last t fin ->
  (2 - fin) + (if fin =? 0 then remaining t else 0) <= fuel ->
  snd (prog St ev vc reverse ta tb fuel s last t fin) <> Fuel.
Proof.
  induction fuel as [|k IH]; intros s last t fin HI HP Hfuel; cbn [prog].
  - destruct (Nat.leb_spec 2 fin) as [Hf|Hf]; [discriminate|lia].
  - destruct (Nat.leb_spec 2 fin) as [Hf|Hf]; [discriminate|].
    destruct (check s t) as [s1 [[x y]|]] eqn:EC; [|discriminate].
    destruct (prog_step s last t fin s1 x y HI HP EC) as [I1 _].
    destruct (past_end reverse ta tb (second_ (x, y) reverse)) eqn:EP.
    + apply (IH s1 t (tend reverse ta tb) (fin + 1) I1); [exact (prog_next_end s last t fin s1 x y HI HP EC EP)|].
      destruct (Nat.eqb_spec (fin + 1) 0); lia.
    + destruct (prog_next s last t fin s1 x y HI HP EC EP) as [-> [q [Eq HQ]]]. rewrite Eq.
      apply (IH s1 t q 0 I1 HQ). cbn [Nat.eqb Nat.sub] in *.
      assert (Ht : inr t) by apply HP. assert (Hq : inr q) by apply HQ.
      assert (L : remaining q < remaining t); [|lia].
      unfold remaining. destruct Ht as [T1 T2], Hq as [Q1 Q2].
      unfold ContValModel.check in EC. destruct (ev t) eqn:Ev; [|discriminate].
      destruct (wide s t s1 x y HI (conj T1 T2) EC Ev) as [W1 W2].
      unfold past_end, second_, first_ in *. destruct reverse; cbn [negb fst snd] in *; subst.
      * apply slots_step'; [|exact Q1]. destruct W1 as [W|W]; apply ele_fin in W; [exact W|].
        exfalso. assert (eleb (Fin q) (Fin ta) = true) by (apply eleb_iff, ele_fin; exact W). congruence.
      * apply slots_step; [|exact Q2]. destruct W2 as [W|W]; apply ele_fin in W; [exact W|].
        exfalso. assert (eleb (Fin tb) (Fin q) = true) by (apply eleb_iff, ele_fin; exact W). congruence.
Qed.
Theorem progressive_terminates s : Inv s ->
  snd (progressive St ev vc reverse ta tb (2 + slots ta tb delta) s) <> Fuel.
Proof.
  intros HI. apply prog_terminates; [exact HI|exact prog_init|].
  unfold remaining, ContValModel.tstart. destruct reverse;
  destruct (past_end _ ta tb _); cbn [Nat.eqb]; lia.
Qed.
End Loops.
