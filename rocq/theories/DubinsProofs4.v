(* Dubins paths: the three segments. *)
From Coq Require Import Reals ZArith List Bool Lia Lra.
From Verif Require Import Base XReal PolyProofs CurvModel CurvSpec CurvProofs CurvProofs2 CurvProofs3 AngleProofs CurvProofs4
  DubinsModel DubinsSpec DubinsProofs DubinsProofs2 DubinsProofs3.
Import ListNotations.
Open Scope R_scope.

Lemma seg_curv rho s : seg_curvature rho s = curv rho s.
Proof. destruct s; cbn; try reflexivity. unfold Rdiv. ring. Qed.
Lemma values_ranks kappa ws wv : wheel_values kappa ws = Ok wv -> map fst wv = map w_rank ws.
Proof.
  intros E. apply wheel_values_nth in E. induction E as [|w kv ws' l [H _] _ IH]; [reflexivity|].
  cbn. rewrite H, IH. reflexivity.
Qed.

(* value of a joint after the segments *)
Fixpoint track (k : nat) (ls : list R) (next : list cfg) (v : R) : R :=
  match ls, next with
  | l :: ls', q :: next' => track k ls' next' (if reqb l 0 then v else cj q k)
  | _, _ => v
  end.

Section Segments.
Variables rho extra L : R.
Variable ws : list wheel.
Hypothesis Hrho : 0 < rho.
Hypothesis Hextra : 0 <= extra.
Hypothesis HL : 0 < L.
Definition wheels_ok (ss : list seg) : Prop := forall s, In s ss -> exists wv, wheel_values (seg_curvature rho s) ws = Ok wv.

Lemma seg_len l : 0 <= l -> 0 <= rho * l + l / L * extra /\ (l <> 0 -> 0 < rho * l + l / L * extra).
Proof.
  intros Hl. assert (0 <= l / L * extra).
  { apply Rmult_le_pos; [|exact Hextra]. apply Rmult_le_pos; [exact Hl | left; apply Rinv_0_lt_compat; exact HL]. }
  split; [nra|]. intros N. assert (0 < rho * l) by (apply Rmult_lt_0_compat; lra). lra.
Qed.

Lemma segments_ok ss : forall ls next q, wheels_ok ss -> length ls = length ss -> length next = length ss ->
  (forall l, In l ls -> 0 <= l) -> unit_heading q ->
  exists ps q', dubins_segments rho extra L ws q ss ls next = Ok ps /\ linked q ps q' /\ unit_heading q' /\
    drives_word rho ss (map (Rmult rho) ls) q q' /\
    Forall built ps /\ map p_kappa ps = map (curv rho) ss /\ map p_cl ps = map (Rmult rho) ls /\
    map p_t0 ps = map (fun _ => 0) ls /\ map p_t1 ps = map (fun l => rho * l + l / L * extra) ls /\
    Forall (fun p => wheel_values (p_kappa p) ws = Ok (p_wheels p)) ps /\
    (forall k, ~ In k (map w_rank ws) -> cj q' k = track k ls next (cj q k)).
Proof.
  induction ss as [|s ss IH]; intros [|l ls] [|n next] q Hw H1 H2 Hl U; try discriminate.
  - exists [], q. cbn. repeat split; try constructor; auto.
  - injection H1 as H1. injection H2 as H2. cbn [dubins_segments].
    destruct (Hw s (or_introl eq_refl)) as [wv Ew]. rewrite Ew. cbn [bind].
    set (p := cc_create q n (rho * l) (rho * l + l / L * extra) (seg_curvature rho s) wv).
    assert (B : built p) by (apply built_create; exact U).
    assert (Hl0 : 0 <= l) by (apply Hl; left; reflexivity).
    destruct (seg_len l Hl0) as [G0 G1].
    assert (T1 : p_t1 p = rho * l + l / L * extra) by (cbn; apply Rabs_right; lra).
    destruct (create_closed q n (rho * l) (rho * l + l / L * extra) (seg_curvature rho s) wv) as [C1 [C2 C3]].
    fold p in C1, C2, C3. rewrite (values_ranks _ _ _ Ew) in C2, C3.
    assert (A : arc (curv rho s) (rho * l) q (p_end p)).
    { destruct (Req_dec l 0) as [Z|N].
      - destruct (C3 ltac:(rewrite Z; unfold Rdiv; ring)) as [X [Y [C [S _]]]]. rewrite Z, Rmult_0_r.
        apply (arc_place _ 0 q q q (p_end p)); [apply place_refl | repeat split; symmetry; assumption | apply arc_0].
      - pose proof (compute_arc p (p_t1 p)) as K. rewrite abscissa_1 in K by (rewrite T1; change (p_t0 p) with 0; auto).
        change (p_kappa p) with (seg_curvature rho s) in K. rewrite seg_curv, Rmult_1_l in K.
        destruct C1 as [X [Y [C [S _]]]].
        apply (arc_place _ (rho * l) q (cc_compute p (p_t1 p)) q (p_end p)); [apply place_refl | repeat split; symmetry; assumption | exact K]. }
    assert (U' : unit_heading (p_end p)) by exact (arc_unit _ _ _ _ A U).
    destruct (IH ls next (p_end p) (fun s' Hs' => Hw s' (or_intror Hs')) H1 H2 (fun l' Hl' => Hl l' (or_intror Hl')) U')
      as [ps [q' [E [Lk [Uq [D [Bs [K [Cl [T0 [T1' [W J]]]]]]]]]]]].
    rewrite E. cbn [bind]. exists (p :: ps), q'.
    split; [reflexivity|]. split; [split; [reflexivity | exact Lk]|]. split; [exact Uq|]. split.
    { cbn [drives_word map]. exists (p_end p). split; [apply drives_arc; exact A | exact D]. }
    split; [constructor; assumption|]. cbn [map]. rewrite K, Cl, T0, T1', T1.
    split; [change (p_kappa p) with (seg_curvature rho s); rewrite seg_curv; reflexivity|].
    split; [reflexivity|]. split; [reflexivity|]. split; [reflexivity|]. split; [constructor; [exact Ew | exact W]|].
    intros k Hk. rewrite (J k Hk). cbn [track]. f_equal.
    destruct (reqb_spec l 0) as [Z|N].
    + destruct (C3 ltac:(rewrite Z; unfold Rdiv; ring)) as [_ [_ [_ [_ Cj]]]]. apply Cj. exact Hk.
    + apply C2; [|exact Hk]. pose proof (Rabs_right (rho * l + l / L * extra) ltac:(lra)). pose proof (G1 N). lra.
Qed.
Lemma segments_along g k : ~ In k (map w_rank ws) -> forall ss ls next q s ps,
  dubins_segments rho extra L ws q ss ls next = Ok ps -> (forall l, In l ls -> 0 <= l) -> cj q k = g s ->
  (fix hits s ls next := match ls, next with
     | l :: ls', n :: next' => cj n k = g (s + rho * l) /\ hits (s + rho * l) ls' next'
     | _, _ => True end) s ls next ->
  along p_cl g k s ps.
Proof.
  intros Hk. induction ss as [|sg ss IH]; intros [|l ls] [|n next] q s ps E Hl Hq Hn; cbn [dubins_segments] in E;
    try (injection E as <-; exact I).
  destruct (wheel_values _ _) as [wv| | |] eqn:Ew; cbn [bind] in E; try discriminate.
  set (p := cc_create q n (rho * l) (rho * l + l / L * extra) (seg_curvature rho sg) wv) in *.
  destruct (dubins_segments _ _ _ _ _ _ _ _) as [r| | |] eqn:Er; cbn [bind] in E; try discriminate.
  injection E as <-. destruct Hn as [Hn1 Hn2].
  destruct (create_closed q n (rho * l) (rho * l + l / L * extra) (seg_curvature rho sg) wv) as [_ [C2 C3]].
  fold p in C2, C3. rewrite (values_ranks _ _ _ Ew) in C2, C3.
  assert (Hl0 : 0 <= l) by (apply Hl; left; reflexivity). destruct (seg_len l Hl0) as [G0 G1].
  assert (Ce : cj (p_end p) k = g (s + p_cl p)).
  { change (p_cl p) with (rho * l). destruct (Req_dec l 0) as [Z|N].
    - destruct (C3 ltac:(rewrite Z; unfold Rdiv; ring)) as [_ [_ [_ [_ Cj]]]]. rewrite (Cj k Hk), Hq, Z. f_equal. ring.
    - rewrite <- Hn1. apply C2; [|exact Hk]. rewrite Rabs_right by lra. pose proof (G1 N). lra. }
  split; [exact Ce|]. apply (IH ls next (p_end p) (s + p_cl p) r Er); [intros l' Hl'; apply Hl; right; exact Hl' | exact Ce | exact Hn2].
Qed.
End Segments.

Lemma track_end q0 q1 t p q k : 0 <= t -> 0 <= p -> 0 <= q -> t + p + q <> 0 ->
  let L := t + p + q in
  track k [t; p; q] [interpolate q0 q1 (t / L); interpolate q0 q1 ((t + p) / L); q1] (cj q0 k) = cj q1 k.
Proof.
  intros Ht Hp Hq HL L. cbn [track]. unfold interpolate. cbn [cj].
  destruct (reqb_spec q 0) as [Zq|Nq]; [|reflexivity].
  assert (E1 : p + t = L) by (unfold L; lra).
  destruct (reqb_spec p 0) as [Zp|Np].
  - destruct (reqb_spec t 0) as [Zt|Nt]; [exfalso; apply HL; lra|].
    replace t with L by lra. replace (L / L) with 1 by (field; exact HL). ring.
  - replace (t + p) with L by lra. replace (L / L) with 1 by (field; exact HL). ring.
Qed.

(* ---- length of the selected word ---- *)
Lemma place_zero_word rho q0 q1 : same_place q0 q1 -> 0 < rho -> unit_heading q0 ->
  drives_word rho (dirdata LSR) [rho * 0; rho * 0; rho * 0] q0 q1.
Proof.
  intros P Hr U. rewrite Rmult_0_r. cbn.
  exists q0. split; [apply drives_arc, arc_0|]. exists q0. split; [apply drives_arc, arc_0|].
  exists q0. split; [apply drives_arc, arc_0|]. exact P.
Qed.
Lemma zero_word rho w q0 q1 : drives_word rho (dirdata w) [rho * 0; rho * 0; rho * 0] q0 q1 -> same_place q0 q1.
Proof.
  rewrite Rmult_0_r. intros H.
  assert (Z : forall k a b, drives k 0 a b -> same_place a b).
  { intros k a b D. apply drives_arc in D.
    destruct (arc_same k 0 a b D a a eq_refl eq_refl eq_refl eq_refl (arc_0 k a)) as [X [Y [C S]]].
    repeat split; symmetry; assumption. }
  destruct w; cbn in H; destruct H as [m1 [D1 [m2 [D2 [m3 [D3 D4]]]]]];
    apply Z in D1, D2, D3; eauto 6 using place_trans.
Qed.
Lemma cost_zero rho q0 q1 al be d w o : 0 < rho -> unit_heading q0 -> unit_heading q1 ->
  dubins_params rho q0 q1 = (al, be, d) -> dubins_init_normalised al be d = Ok (w, o) ->
  (cost o = 0 <-> same_place q0 q1) /\ 0 <= cost o.
Proof.
  intros Hr U0 U1 Ep Ei. destruct o as [[t p] q].
  destruct (init_some al be d) as [w1 [o1 [E1 [Ew _]]]]. rewrite Ei in E1. injection E1 as <- <-.
  pose proof (word_nonneg _ _ _ _ _ _ _ Ew) as [B1 [B2 B3]]. cbn [cost].
  destruct (params_bounds rho q0 q1 al be d Hr Ep) as [Ha [Hb Hd]].
  split; [|lra]. split.
  - intros Z. assert (t = 0 /\ p = 0 /\ q = 0) as [-> [-> ->]] by lra.
    apply (zero_word rho w). apply (leads_drives rho q0 q1 al be d w 0 0 0 Hr U0 U1 Ep). apply word_end. exact Ew.
  - intros P. pose proof (place_zero_word rho q0 q1 P Hr U0) as D.
    apply (leads_drives rho q0 q1 al be d LSR 0 0 0 Hr U0 U1 Ep) in D.
    pose proof (init_least al be d w _ LSR 0 0 0 Ha Hb Hd Ei ltac:(lra) ltac:(lra) ltac:(lra) ltac:(intros [H|H]; discriminate) D) as K.
    cbn [cost] in K. lra.
Qed.
