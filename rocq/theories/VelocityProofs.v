From Verif Require Import Base VelocityModel VelocitySpec.
From Coq Require Import Reals Lra Psatz.
Open Scope R_scope.

Lemma dot_nonneg v : 0 <= dot v v.
Proof. unfold dot. nra. Qed.
Lemma norm_nonneg v : 0 <= norm v.
Proof. apply sqrt_pos. Qed.
Lemma norm_sq v : norm v * norm v = dot v v.
Proof. apply sqrt_sqrt, dot_nonneg. Qed.
Lemma norm_le v c : 0 <= c -> dot v v <= c * c -> norm v <= c.
Proof. intros Hc H. unfold norm. rewrite <- (sqrt_square c Hc). apply sqrt_le_1_alt. exact H. Qed.
Lemma cauchy u v : dot u v <= norm u * norm v.
Proof.
  assert (H : dot u v * dot u v <= (norm u * norm v) * (norm u * norm v)).
  { replace ((norm u * norm v) * (norm u * norm v)) with (dot u u * dot v v) by (rewrite <- !norm_sq; ring).
    unfold dot. destruct u as [[a b] c], v as [[d e] f]. unfold vx, vy, vz. cbn [fst snd].
    pose proof (Rle_0_sqr (a * e - b * d)).
    pose proof (Rle_0_sqr (a * f - c * d)).
    pose proof (Rle_0_sqr (b * f - c * e)). unfold Rsqr in *. lra. }
  pose proof (norm_nonneg u). pose proof (norm_nonneg v).
  assert (0 <= norm u * norm v) by nra. nra.
Qed.
Lemma norm_add u v : norm (vadd u v) <= norm u + norm v.
Proof.
  pose proof (norm_nonneg u). pose proof (norm_nonneg v). pose proof (cauchy u v) as C.
  apply norm_le; [lra|]. replace (dot (vadd u v) (vadd u v)) with (dot u u + 2 * dot u v + dot v v)
    by (unfold dot, vadd, vx, vy, vz; cbn [fst snd]; ring).
  rewrite <- !norm_sq. nra.
Qed.
Lemma norm_opp u : norm (vopp u) = norm u.
Proof. unfold norm, dot, vopp, vx, vy, vz. cbn [fst snd]. f_equal. ring. Qed.
Lemma norm_cross u v : norm (cross u v) <= norm u * norm v.
Proof.
  pose proof (norm_nonneg u). pose proof (norm_nonneg v).
  apply norm_le; [nra|]. replace (norm u * norm v * (norm u * norm v)) with (dot u u * dot v v) by (rewrite <- !norm_sq; ring).
  assert (E : dot (cross u v) (cross u v) = dot u u * dot v v - dot u v * dot u v)
    by (unfold dot, cross, vx, vy, vz; cbn [fst snd]; ring).
  rewrite E. nra.
Qed.
Lemma norm_sub_tri x a b : norm (vsub x b) <= norm (vsub x a) + norm (vsub a b).
Proof.
  replace (vsub x b) with (vadd (vsub x a) (vsub a b)); [apply norm_add|].
  destruct x as [[x1 x2] x3], a as [[a1 a2] a3], b as [[b1 b2] b3].
  unfold vsub, vadd, vopp, vx, vy, vz. cbn [fst snd]. f_equal; [f_equal|]; ring.
Qed.
Lemma vadd_assoc_sub u v w : vsub (vadd u v) w = vadd u (vsub v w).
Proof.
  destruct u as [[x1 x2] x3], v as [[a1 a2] a3], w as [[b1 b2] b3].
  unfold vsub, vadd, vopp, vx, vy, vz. cbn [fst snd]. f_equal; [f_equal|]; ring.
Qed.
Lemma vsub_diag v : vsub v v = vzero.
Proof.
  destruct v as [[a1 a2] a3]. unfold vsub, vadd, vopp, vzero, vx, vy, vz. cbn [fst snd]. f_equal; [f_equal|]; ring.
Qed.
Lemma norm_zero : norm vzero = 0.
Proof. unfold norm, dot, vzero, vx, vy, vz. cbn [fst snd]. replace (0*0+0*0+0*0) with 0 by ring. apply sqrt_0. Qed.

Section Tree.
Local Open Scope nat_scope.
Variable parent : nat -> nat.
Hypothesis HT : tree parent.
Definition adjacent (i j : nat) : Prop := (i <> 0 /\ parent i = j) \/ (j <> 0 /\ parent j = i).
Fixpoint linked (l : list nat) : Prop :=
  match l with i :: ((j :: _) as r) => adjacent i j /\ linked r | _ => True end.
Lemma linked_snoc l i j : linked (l ++ [i]) -> adjacent i j -> linked ((l ++ [i]) ++ [j]).
Proof.
  induction l as [|x l IH]; cbn [app linked]; [tauto|]. destruct l as [|y l]; cbn [app] in *.
  - intros [H1 H2] H3. cbn. tauto.
  - intros [H1 H2] H3. split; [exact H1|apply IH; assumption].
Qed.
Lemma linked_app l i r : linked (l ++ [i]) -> linked (i :: r) -> linked (l ++ i :: r).
Proof.
  induction l as [|x l IH]; cbn [app]; [tauto|]. destruct l as [|y l]; cbn [app] in *.
  - cbn [linked]. tauto.
  - intros [H1 H2] H3. split; [exact H1|apply IH; assumption].
Qed.
(* state of the loop: the two partial sequences *)
Lemma climb_spec a b : forall fuel ia ib fA fB, ia + ib <= fuel ->
  linked (rev (ia :: fA)) -> linked (ib :: fB) -> NoDup (fA ++ fB) ->
  (forall x, In x (fA ++ fB) -> ia < x /\ ib < x) ->
  hd_error (rev (ia :: fA)) = Some a -> last (ib :: fB) b = b ->
  exists l, climb parent fuel ia ib fA fB = Ok l /\ linked l /\ NoDup l /\ hd_error l = Some a /\ last l b = b.
Proof.
  induction fuel as [|f IH]; intros ia ib fA fB Hf LA LB ND HB HA HL; cbn [climb].
  all: destruct (Nat.eqb_spec ia ib) as [->|Hne].
  - exists (rev (ib :: fA) ++ fB). split; [reflexivity|]. cbn [rev] in *. rewrite <- app_assoc. cbn [app].
    split; [apply linked_app; assumption|]. split; [|split].
    + apply NoDup_app_intro.
      * apply NoDup_rev. exact (NoDup_app_l _ _ ND).
      * constructor; [|exact (NoDup_app_r _ _ ND)]. intros HI. destruct (HB ib); [apply in_app_iff; auto|lia].
      * intros x H1 [H2|H2].
        -- subst. destruct (HB x); [apply in_app_iff; left; apply in_rev; exact H1|lia].
        -- apply in_rev in H1. exact (NoDup_app_disj _ _ x ND H1 H2).
    + destruct (rev fA); [exact HA|exact HA].
    + assert (X : forall (l : list nat) y r d, last (l ++ y :: r) d = last (y :: r) d).
      { induction l as [|z l IHl]; intros; [reflexivity|]. cbn [app]. destruct (l ++ y :: r) eqn:E; [destruct l; discriminate|].
        change (last (z :: n :: l0) d) with (last (n :: l0) d). rewrite <- E. apply IHl. }
      rewrite X. exact HL.
  - lia.
  - (* same as the first case *)
    exists (rev (ib :: fA) ++ fB). split; [reflexivity|]. cbn [rev] in *. rewrite <- app_assoc. cbn [app].
    split; [apply linked_app; assumption|]. split; [|split].
    + apply NoDup_app_intro.
      * apply NoDup_rev. exact (NoDup_app_l _ _ ND).
      * constructor; [|exact (NoDup_app_r _ _ ND)]. intros HI. destruct (HB ib); [apply in_app_iff; auto|lia].
      * intros x H1 [H2|H2].
        -- subst. destruct (HB x); [apply in_app_iff; left; apply in_rev; exact H1|lia].
        -- apply in_rev in H1. exact (NoDup_app_disj _ _ x ND H1 H2).
    + destruct (rev fA); [exact HA|exact HA].
    + assert (X : forall (l : list nat) y r d, last (l ++ y :: r) d = last (y :: r) d).
      { induction l as [|z l IHl]; intros; [reflexivity|]. cbn [app]. destruct (l ++ y :: r) eqn:E; [destruct l; discriminate|].
        change (last (z :: n :: l0) d) with (last (n :: l0) d). rewrite <- E. apply IHl. }
      rewrite X. exact HL.
  - destruct (Nat.ltb_spec ib ia) as [Hlt|Hlt].
    + assert (Hia : ia <> 0) by lia. pose proof (HT ia Hia) as Hp. apply IH; [lia| | | | | |].
      * change (rev (parent ia :: ia :: fA)) with ((rev fA ++ [ia]) ++ [parent ia]). apply linked_snoc; [exact LA|left; auto].
      * exact LB.
      * cbn [app]. constructor; [|exact ND]. intros HI. destruct (HB ia HI). lia.
      * cbn [app]. intros x [<-|Hx]; [lia|]. destruct (HB x Hx). lia.
      * change (rev (parent ia :: ia :: fA)) with (rev (ia :: fA) ++ [parent ia]). destruct (rev (ia :: fA)); [discriminate|exact HA].
      * exact HL.
    + assert (Hib : ib <> 0) by lia. pose proof (HT ib Hib) as Hp. apply IH; [lia| | | | | |].
      * exact LA.
      * cbn [linked]. split; [right; auto|exact LB].
      * apply NoDup_app_intro; [exact (NoDup_app_l _ _ ND)| |].
        -- constructor; [|exact (NoDup_app_r _ _ ND)]. intros HI. destruct (HB ib); [apply in_app_iff; auto|lia].
        -- intros x H1 [H2|H2]; [|exact (NoDup_app_disj _ _ x ND H1 H2)]. subst. destruct (HB x); [apply in_app_iff; auto|lia].
      * intros x Hx. apply in_app_iff in Hx as [Hx|[<-|Hx]].
        -- destruct (HB x); [apply in_app_iff; auto|lia].
        -- lia.
        -- destruct (HB x); [apply in_app_iff; auto|lia].
      * exact HA.
      * exact HL.
Qed.
Lemma joint_sequence_spec a b : exists l, joint_sequence parent a b = Ok l /\ linked l /\ NoDup l /\ hd_error l = Some a /\ last l b = b.
Proof.
  apply climb_spec; cbn; auto; [constructor|intros x []].
Qed.

(* ancestors: upward chains *)
Inductive up : list nat -> nat -> Prop :=
| up_one i : up [i] i
| up_cons i l b : i <> 0 -> up (parent i :: l) b -> up (i :: parent i :: l) b.
(* [anc a b]: b is a or an ancestor of a *)
Inductive anc : nat -> nat -> Prop :=
| anc_refl a : anc a a
| anc_step a b : a <> 0 -> anc (parent a) b -> anc a b.
Lemma anc_le a b : anc a b -> b <= a.
Proof. induction 1; [lia|]. pose proof (HT a H). lia. Qed.
Lemma anc_root a : anc a 0.
Proof.
  induction a as [a IH] using lt_wf_ind. destruct (Nat.eq_dec a 0) as [->|H]; [constructor|].
  apply anc_step; [exact H|]. apply IH, HT, H.
Qed.
Lemma up_snoc l i b : up (l ++ [i]) i -> i <> 0 -> parent i = b -> up ((l ++ [i]) ++ [b]) b.
Proof.
  revert i b. induction l as [|x l IH]; intros i b H Hi Hp; cbn [app] in *.
  - subst b. apply up_cons; [exact Hi|constructor].
  - destruct l as [|y l]; cbn [app] in *.
    + inversion H; subst. apply up_cons; [assumption|]. apply up_cons; [assumption|constructor].
    + inversion H; subst. apply up_cons; [assumption|]. apply IH; auto.
Qed.
Lemma climb_anc b : forall fuel ia fA, anc ia b -> ia + b <= fuel -> up (rev fA ++ [ia]) ia ->
  exists l, climb parent fuel ia b fA [] = Ok l /\ up l b /\ exists s, l = rev fA ++ ia :: s.
Proof.
  induction fuel as [|f IH]; intros ia fA HA Hf HU; cbn [climb]; destruct (Nat.eqb_spec ia b) as [->|Hne].
  - exists (rev (b :: fA) ++ []). rewrite app_nil_r. cbn [rev]. split; [reflexivity|split; [exact HU|exists []; reflexivity]].
  - lia.
  - exists (rev (b :: fA) ++ []). rewrite app_nil_r. cbn [rev]. split; [reflexivity|split; [exact HU|exists []; reflexivity]].
  - pose proof (anc_le ia b HA). destruct (Nat.ltb_spec b ia) as [Hlt|Hlt]; [|lia].
    inversion HA as [|? ? H0 HA']; subst; [contradiction|]. pose proof (HT ia H0).
    destruct (IH (parent ia) (ia :: fA) HA') as [l [J1 [J2 [s J3]]]]; [lia| |].
    + cbn [rev]. apply up_snoc; auto.
    + exists l. split; [exact J1|split; [exact J2|]]. exists (parent ia :: s). rewrite J3. cbn [rev]. rewrite <- app_assoc. reflexivity.
Qed.
Lemma sequence_anc a b : anc a b -> exists l, joint_sequence parent a b = Ok l /\ up l b /\ exists s, l = a :: s.
Proof. intros H. apply (climb_anc b (a + b) a [] H); [lia|constructor]. Qed.

Local Open Scope R_scope.
Variable jb : nat -> jbound.
Variable nv : nat -> R.
Variable m : motion.
(* the bounds hold in the state of motion *)
Definition bounds_hold : Prop := forall i, i <> 0%nat ->
  norm (lv m i) <= lin (jb i) * nv i /\ norm (av m i) <= ang (jb i) * nv i /\
  norm (vsub (org m i) (org m (parent i))) <= dpar (jb i).
Lemma coefficients_up i j r c : parent i = j -> coefficients parent jb (i :: j :: r) c =
  bind (coefficients parent jb (j :: r) (c + dpar (jb i))) (fun l => Ok ((i, lin (jb i) + c * ang (jb i))%R :: l)).
Proof. intros H. apply Nat.eqb_eq in H. unfold coefficients at 1. fold coefficients. rewrite H. reflexivity. Qed.
Lemma weighted_acc l : forall s, fold_left (fun s c => (s + snd c * nv (fst c))%R) l s = s + weighted nv l.
Proof.
  unfold weighted. induction l as [|c l IH]; intros s; cbn [fold_left]; [lra|]. rewrite IH, (IH (0 + _)). lra.
Qed.
Lemma weighted_cons c l : weighted nv (c :: l) = snd c * nv (fst c) + weighted nv l.
Proof. unfold weighted at 1. cbn [fold_left]. rewrite weighted_acc. lra. Qed.
Lemma world_fun x i v : world_velocity parent m x i v -> forall w, world_velocity parent m x i w -> v = w.
Proof.
  induction 1 as [|i v Hi Hv IH]; intros w Hw; inversion Hw; subst; try contradiction; [reflexivity|]. f_equal. apply IH; assumption.
Qed.
Lemma joint_speed i x c : bounds_hold -> i <> 0%nat -> norm (vsub x (org m i)) <= c ->
  norm (joint_velocity m i x) <= (lin (jb i) + c * ang (jb i)) * nv i.
Proof.
  intros HB Hi Hc. destruct (HB i Hi) as [B1 [B2 _]]. unfold joint_velocity.
  eapply Rle_trans; [apply norm_add|]. pose proof (norm_cross (av m i) (vsub x (org m i))) as H.
  pose proof (norm_nonneg (vsub x (org m i))). pose proof (norm_nonneg (av m i)).
  assert (norm (av m i) * norm (vsub x (org m i)) <= (ang (jb i) * nv i) * c) by (apply Rmult_le_compat; assumption).
  lra.
Qed.
Lemma up_speed l b : up l b -> forall a s c x va vb, bounds_hold -> l = a :: s ->
  norm (vsub x (org m a)) <= c -> world_velocity parent m x a va -> world_velocity parent m x b vb ->
  exists cs, coefficients parent jb l c = Ok cs /\ norm (vsub va vb) <= weighted nv cs.
Proof.
  induction 1 as [i|i l b Hi HU IH]; intros a s c x va vb HB E Hc Ha Hb.
  - injection E as -> <-. exists []. split; [reflexivity|].
    rewrite (world_fun x a va Ha vb Hb), vsub_diag, norm_zero. unfold weighted. cbn. lra.
  - injection E as <- <-. inversion Ha as [|? v Hi' Hv]; subst; [contradiction|].
    assert (Hc' : norm (vsub x (org m (parent i))) <= c + dpar (jb i)).
    { pose proof (norm_sub_tri x (org m i) (org m (parent i))). destruct (HB i Hi) as [_ [_ B]]. lra. }
    destruct (IH (parent i) l (c + dpar (jb i)) x v vb HB eq_refl Hc' Hv Hb) as [cs [H1 H2]].
    rewrite coefficients_up by reflexivity.
    rewrite H1. cbn [bind]. eexists. split; [reflexivity|]. rewrite weighted_cons. cbn [fst snd].
    rewrite vadd_assoc_sub. eapply Rle_trans; [apply norm_add|]. pose proof (joint_speed i x c HB Hi Hc). lra.
Qed.
End Tree.
