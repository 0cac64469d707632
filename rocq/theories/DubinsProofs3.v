(* Dubins paths: motions of the robot and displacements along a word. *)
From Coq Require Import Reals ZArith List Bool Lia Lra.
From Verif Require Import Base XReal PolyProofs CurvModel CurvSpec CurvProofs CurvProofs3 AngleProofs
  DubinsModel DubinsSpec DubinsProofs DubinsProofs2.
Import ListNotations.
Open Scope R_scope.

(* ---- a robot that rolls with a given curvature follows the arc ---- *)
Lemma null_const f : (forall t, derivable_pt_lim f t 0) -> forall a b, f a = f b.
Proof.
  intros H a b.
  assert (pr : derivable f) by (intros t; exists 0; apply H).
  apply (null_derivative_1 f pr). intros t. apply derive_pt_eq_0. apply H.
Qed.
Lemma d_sub f g x a b : derivable_pt_lim f x a -> derivable_pt_lim g x b ->
  derivable_pt_lim (fun t => f t - g t) x (a - b).
Proof. intros. apply (derivable_pt_lim_minus f g); assumption. Qed.
Lemma d_sq f x a : derivable_pt_lim f x a -> derivable_pt_lim (fun t => f t * f t) x (2 * f x * a).
Proof. intros H. apply (dpl_eq _ _ (a * f x + f x * a)); [ring|]. apply (derivable_pt_lim_mult f f); assumption. Qed.
Lemma d_add f g x a b : derivable_pt_lim f x a -> derivable_pt_lim g x b ->
  derivable_pt_lim (fun t => f t + g t) x (a + b).
Proof. intros. apply (derivable_pt_lim_plus f g); assumption. Qed.

Lemma rolls_unique k m n : rolls 1 k m -> rolls 1 k n -> same_place (m 0) (n 0) -> forall t, same_place (m t) (n t).
Proof.
  intros Hm Hn [X0 [Y0 [C0 S0]]].
  set (E := fun t => (cc (m t) - cc (n t)) * (cc (m t) - cc (n t)) + (cs (m t) - cs (n t)) * (cs (m t) - cs (n t))).
  assert (Ez : forall t, E t = 0).
  { intros t. transitivity (E 0); [|unfold E; rewrite C0, S0; ring]. apply null_const. clear t. intros t.
    destruct (Hm t) as [v [[_ [_ [Dc [Ds _]]]] [_ [_ Vt]]]].
    destruct (Hn t) as [w [[_ [_ [Ec [Es _]]]] [_ [_ Wt]]]].
    pose proof (d_add _ _ _ _ _ (d_sq _ _ _ (d_sub _ _ _ _ _ Dc Ec)) (d_sq _ _ _ (d_sub _ _ _ _ _ Ds Es))) as D.
    refine (dpl_eq _ _ _ _ _ D). rewrite Vt, Wt. ring. }
  assert (Hc : forall t, cc (m t) = cc (n t) /\ cs (m t) = cs (n t)).
  { intros t. specialize (Ez t). unfold E in Ez.
    change ((cc (m t) - cc (n t))² + (cs (m t) - cs (n t))² = 0) in Ez.
    apply Rplus_sqr_eq_0 in Ez. split; lra. }
  intros t. destruct (Hc t) as [Ct St]. repeat split; try assumption.
  - assert (D : cx (m t) - cx (n t) = cx (m 0) - cx (n 0)).
    { apply (null_const (fun t => cx (m t) - cx (n t))). clear t Ct St. intros t.
      destruct (Hm t) as [v [[Dx _] [V1 [V2 _]]]]. destruct (Hn t) as [w [[Ex _] [W1 [W2 _]]]].
      refine (dpl_eq _ _ _ _ _ (d_sub _ _ _ _ _ Dx Ex)). destruct (Hc t) as [Ct St].
      rewrite V1, V2, W1, W2, Ct, St. ring. }
    lra.
  - assert (D : cy (m t) - cy (n t) = cy (m 0) - cy (n 0)).
    { apply (null_const (fun t => cy (m t) - cy (n t))). clear t Ct St. intros t.
      destruct (Hm t) as [v [[_ [Dx _]] [V1 [V2 _]]]]. destruct (Hn t) as [w [[_ [Ex _]] [W1 [W2 _]]]].
      refine (dpl_eq _ _ _ _ _ (d_sub _ _ _ _ _ Dx Ex)). destruct (Hc t) as [Ct St].
      rewrite V1, V2, W1, W2, Ct, St. ring. }
    lra.
Qed.
Definition unit_path (k : R) (q : cfg) : cpath := cc_create q q 1 1 k [].
Lemma unit_path_rolls k q : rolls 1 k (cc_compute (unit_path k q)).
Proof.
  assert (T1 : p_t1 (unit_path k q) = 1) by (cbn; apply Rabs_R1).
  pose proof (path_rolls (unit_path k q) ltac:(rewrite T1; cbn; lra)) as R.
  unfold param_length in R. rewrite T1 in R. cbn [p_cl unit_path cc_create set_end p_t0 p_kappa] in R.
  replace (1 / (1 - 0)) with 1 in R by field. exact R.
Qed.
Lemma unit_path_arc k q t : arc k t q (cc_compute (unit_path k q) t).
Proof.
  pose proof (compute_arc (unit_path k q) t) as A.
  assert (T1 : p_t1 (unit_path k q) = 1) by (cbn; apply Rabs_R1).
  rewrite (abs_lin (unit_path k q) ltac:(rewrite T1; cbn; lra)) in A.
  unfold param_length in A. rewrite T1 in A. cbn [p_cl unit_path cc_create set_end p_t0 p_kappa p_init] in A.
  replace ((t - 0) / (1 - 0) * 1) with t in A by field. exact A.
Qed.
Lemma place_refl q : same_place q q. Proof. repeat split. Qed.
Lemma place_sym q q' : same_place q q' -> same_place q' q.
Proof. intros [A [B [C D]]]. repeat split; symmetry; assumption. Qed.
Lemma place_trans q1 q2 q3 : same_place q1 q2 -> same_place q2 q3 -> same_place q1 q3.
Proof. intros [A [B [C D]]] [A' [B' [C' D']]]. repeat split; etransitivity; eassumption. Qed.
Lemma unit_path_0 k q : same_place (cc_compute (unit_path k q) 0) q.
Proof.
  destruct (arc_same k 0 q _ (unit_path_arc k q 0) q q eq_refl eq_refl eq_refl eq_refl (arc_0 k q)) as [A [B [C D]]].
  repeat split; assumption.
Qed.
Lemma drives_arc k l q q' : drives k l q q' <-> arc k l q q'.
Proof.
  split.
  - intros [m [R [H0 H1]]].
    pose proof (rolls_unique k m _ R (unit_path_rolls k q) (place_trans _ _ _ H0 (place_sym _ _ (unit_path_0 k q))) l) as E.
    apply (arc_place k l q (cc_compute (unit_path k q) l) q q' (place_refl q)); [|apply (unit_path_arc k q l)].
    exact (place_trans _ _ _ (place_sym _ _ E) H1).
  - intros A. exists (cc_compute (unit_path k q)). split; [apply unit_path_rolls|]. split; [apply unit_path_0|].
    destruct (arc_same k l q _ (unit_path_arc k q l) q q' eq_refl eq_refl eq_refl eq_refl A) as [X [Y [C S]]].
    repeat split; assumption.
Qed.

(* ---- arcs and displacements ---- *)
Section Rho.
Variable rho : R.
Hypothesis Hrho : 0 < rho.
Definition curv (s : seg) : R := match s with L_SEG => 1 / rho | S_SEG => 0 | R_SEG => - (1 / rho) end.
Definition at_angle (q : cfg) (a : R) : Prop := cc q = cos a /\ cs q = sin a.

Lemma arc_seg s l q a q' : at_angle q a ->
  (arc (curv s) (rho * l) q q' <->
   cx q' = cx q + rho * dispx s a l /\ cy q' = cy q + rho * dispy s a l /\ at_angle q' (turn s a l)).
Proof.
  intros [Hc Hs]. unfold arc, arc_x, arc_y, arc_c, arc_s, at_angle. rewrite Hc, Hs.
  assert (I : / rho <> 0) by (apply Rinv_neq_0_compat; lra).
  destruct s; cbn [curv turn dispx dispy].
  - destruct (reqb_spec (1 / rho) 0) as [Z|_]; [exfalso; apply I; lra|].
    replace (1 / rho * (rho * l)) with l by (field; lra).
    replace (1 / (1 / rho)) with rho by (field; lra).
    rewrite cos_plus, sin_plus. split; intros [-> [-> [-> ->]]]; repeat split; ring.
  - destruct (reqb_spec 0 0) as [_|N]; [|lra]. rewrite Rmult_0_l, cos_0, sin_0.
    split; intros [-> [-> [-> ->]]]; repeat split; ring.
  - destruct (reqb_spec (- (1 / rho)) 0) as [Z|_]; [exfalso; apply I; lra|].
    replace (- (1 / rho) * (rho * l)) with (- l) by (field; lra).
    replace (1 / - (1 / rho)) with (- rho) by (field; lra).
    rewrite cos_neg, sin_neg, !cos_minus, !sin_minus.
    split; intros [-> [-> [-> ->]]]; repeat split; ring.
Qed.

Definition place_at (x y a : R) : cfg := {| cx := x; cy := y; cc := cos a; cs := sin a; cj := fun _ => 0 |}.
Lemma word_place ss : forall ls q a q', length ls = length ss -> at_angle q a ->
  (drives_word rho ss (map (Rmult rho) ls) q q' <->
   cx q' = cx q + rho * wx ss ls a /\ cy q' = cy q + rho * wy ss ls a /\ at_angle q' (wa ss ls a)).
Proof.
  induction ss as [|s ss IH]; intros [|l ls] q a q' Hl Ha; try discriminate; cbn [drives_word map wx wy wa].
  - unfold same_place, at_angle in *. destruct Ha as [<- <-]. split.
    + intros [-> [-> [-> ->]]]. repeat split; ring.
    + intros [-> [-> [-> ->]]]. repeat split; ring.
  - change (match s with L_SEG => 1 / rho | S_SEG => 0 | R_SEG => - (1 / rho) end) with (curv s).
    injection Hl as Hl. split.
    + intros [m [D W]]. apply drives_arc in D. apply (arc_seg s l q a m Ha) in D. destruct D as [X [Y A]].
      apply (IH ls m _ q' Hl A) in W. destruct W as [X' [Y' A']]. rewrite X', Y', X, Y.
      split; [ring|]. split; [ring|exact A'].
    + intros [X [Y A]].
      set (m := place_at (cx q + rho * dispx s a l) (cy q + rho * dispy s a l) (turn s a l)).
      assert (Am : at_angle m (turn s a l)) by (split; reflexivity).
      exists m. split; [apply drives_arc, (arc_seg s l q a m Ha); repeat split|].
      apply (IH ls m _ q' Hl Am). cbn [m place_at cx cy]. rewrite X, Y. split; [ring|]. split; [ring|exact A].
Qed.
End Rho.

(* ---- rotation of the whole word ---- *)
Lemma disp_rot s a l th :
  dispx s (a + th) l = cos th * dispx s a l - sin th * dispy s a l /\
  dispy s (a + th) l = sin th * dispx s a l + cos th * dispy s a l.
Proof.
  destruct s; cbn [dispx dispy].
  - replace (a + th + l) with (a + l + th) by ring. rewrite !(sin_plus _ th), !(cos_plus _ th). split; ring.
  - rewrite (sin_plus _ th), (cos_plus _ th). split; ring.
  - replace (a + th - l) with (a - l + th) by ring. rewrite !(sin_plus _ th), !(cos_plus _ th). split; ring.
Qed.
Lemma turn_rot s a l th : turn s (a + th) l = turn s a l + th.
Proof. destruct s; cbn [turn]; ring. Qed.
Lemma word_rot ss : forall ls a th,
  wx ss ls (a + th) = cos th * wx ss ls a - sin th * wy ss ls a /\
  wy ss ls (a + th) = sin th * wx ss ls a + cos th * wy ss ls a /\
  wa ss ls (a + th) = wa ss ls a + th.
Proof.
  induction ss as [|s ss IH]; intros [|l ls] a th; cbn [wx wy wa]; try (repeat split; ring).
  destruct (disp_rot s a l th) as [-> ->]. rewrite turn_rot.
  destruct (IH ls (turn s a l) th) as [-> [-> ->]]. repeat split; ring.
Qed.

(* ---- the normalised problem ---- *)
Lemma leads_drives rho q0 q1 al be d w t p q :
  0 < rho -> unit_heading q0 -> unit_heading q1 -> dubins_params rho q0 q1 = (al, be, d) ->
  (leads w (t, p, q) al be d <-> drives_word rho (dirdata w) [rho * t; rho * p; rho * q] q0 q1).
Proof.
  intros Hr U0 U1 E. unfold dubins_params in E. injection E as <- <- <-.
  set (dx := cx q1 - cx q0). set (dy := cy q1 - cy q0). set (D := sqrt (dx * dx + dy * dy)).
  set (th := mod2pi (atan2 dy dx)). set (A := atan2 (cs q0) (cc q0)). set (B := atan2 (cs q1) (cc q1)).
  assert (HA : at_angle q0 A) by (destruct (polar_unit (cc q0) (cs q0) U0) as [H1 H2]; split; [symmetry; exact H1 | symmetry; exact H2]).
  assert (HB : at_angle q1 B) by (destruct (polar_unit (cc q1) (cs q1) U1) as [H1 H2]; split; [symmetry; exact H1 | symmetry; exact H2]).
  assert (Hth : D * cos th = dx /\ D * sin th = dy).
  { destruct (polar dx dy) as [H1 H2]. unfold th. rewrite (eqm_cos _ _ (mod2pi_eqm _)), (eqm_sin _ _ (mod2pi_eqm _)).
    split; assumption. }
  destruct Hth as [Hdx Hdy].
  set (al := mod2pi (A - th)). set (be := mod2pi (B - th)).
  assert (Eal : eqm (al + th) A).
  { apply (eqm_trans _ (A - th + th)); [apply eqm_plus; [apply mod2pi_eqm | apply eqm_refl]|].
    replace (A - th + th) with A by ring. apply eqm_refl. }
  assert (Ebe : eqm (be + th) B).
  { apply (eqm_trans _ (B - th + th)); [apply eqm_plus; [apply mod2pi_eqm | apply eqm_refl]|].
    replace (B - th + th) with B by ring. apply eqm_refl. }
  assert (HA' : at_angle q0 (al + th)).
  { destruct HA as [H1 H2]. split; [rewrite H1; symmetry; apply eqm_cos; exact Eal | rewrite H2; symmetry; apply eqm_sin; exact Eal]. }
  assert (Hlen : length [t; p; q] = length (dirdata w)) by (destruct w; reflexivity).
  pose proof (word_place rho Hr (dirdata w) [t; p; q] q0 (al + th) q1 Hlen HA') as W.
  cbn [map] in W. rewrite W. clear W.
  destruct (word_rot (dirdata w) [t; p; q] al th) as [-> [-> ->]]. unfold leads.
  set (X := wx (dirdata w) [t; p; q] al). set (Y := wy (dirdata w) [t; p; q] al). set (Z := wa (dirdata w) [t; p; q] al).
  pose proof (trig1 th) as T. split.
  - intros [HX [HY HZ]]. rewrite HX, HY. split; [|split].
    + transitivity (cx q0 + D * cos th); [rewrite Hdx; unfold dx; ring | field; lra].
    + transitivity (cy q0 + D * sin th); [rewrite Hdy; unfold dy; ring | field; lra].
    + assert (K : eqm (Z + th) B) by (apply (eqm_trans _ (be + th)); [apply eqm_plus; [exact HZ | apply eqm_refl] | exact Ebe]).
      destruct HB as [H1 H2]. split; [rewrite H1; symmetry; apply eqm_cos; exact K | rewrite H2; symmetry; apply eqm_sin; exact K].
  - intros [HX [HY [HC HS]]].
    assert (HX' : rho * (cos th * X - sin th * Y) = D * cos th) by (rewrite Hdx; unfold dx; lra).
    assert (HY' : rho * (sin th * X + cos th * Y) = D * sin th) by (rewrite Hdy; unfold dy; lra).
    assert (G1 : rho * X = D).
    { transitivity (cos th * (rho * (cos th * X - sin th * Y)) + sin th * (rho * (sin th * X + cos th * Y))).
      - transitivity (rho * X * (sin th * sin th + cos th * cos th)); [rewrite T; ring | ring].
      - rewrite HX', HY'. transitivity (D * (sin th * sin th + cos th * cos th)); [ring | rewrite T; ring]. }
    assert (G2 : rho * Y = 0).
    { transitivity (cos th * (rho * (sin th * X + cos th * Y)) - sin th * (rho * (cos th * X - sin th * Y))).
      - transitivity (rho * Y * (sin th * sin th + cos th * cos th)); [rewrite T; ring | ring].
      - rewrite HX', HY'. ring. }
    split; [|split].
    + apply (Rmult_eq_reg_l rho); [|lra]. rewrite G1. field. lra.
    + apply (Rmult_eq_reg_l rho); [|lra]. rewrite G2. ring.
    + assert (K : eqm (Z + th) B).
      { destruct HB as [H1 H2]. apply cos_sin_eqm; [rewrite <- HC; exact H1 | rewrite <- HS; exact H2]. }
      replace Z with (Z + th - th) by ring.
      apply (eqm_trans _ (B - th)); [apply eqm_minus; [exact K | apply eqm_refl] | apply eqm_sym, mod2pi_eqm].
Qed.
Lemma params_bounds rho q0 q1 al be d : 0 < rho -> dubins_params rho q0 q1 = (al, be, d) ->
  0 <= al < 2 * PI /\ 0 <= be < 2 * PI /\ 0 <= d.
Proof.
  intros Hr E. unfold dubins_params in E. injection E as <- <- <-.
  split; [apply mod2pi_bound|]. split; [apply mod2pi_bound|].
  apply Rmult_le_pos; [apply sqrt_pos | left; apply Rinv_0_lt_compat; exact Hr].
Qed.
