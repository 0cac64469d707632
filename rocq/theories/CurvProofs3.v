(* Constant curvature paths: composition of arcs, ends, extraction, reversal. *)
From Coq Require Import Reals ZArith List Bool Lia Lra.
From Verif Require Import Base XReal PolyProofs CurvModel CurvSpec CurvProofs CurvProofs2.
Import ListNotations.
Open Scope R_scope.

(* ---- moving along an arc ---- *)
Definition arc_x (k a : R) (q : cfg) : R :=
  if reqb k 0 then cx q + a * cc q
  else cx q + 1 / k * (cs q * (cos (k * a) - 1) + cc q * sin (k * a)).
Definition arc_y (k a : R) (q : cfg) : R :=
  if reqb k 0 then cy q + a * cs q
  else cy q + 1 / k * (cc q * (1 - cos (k * a)) + cs q * sin (k * a)).
Definition arc_c (k a : R) (q : cfg) : R := cc q * cos (k * a) - cs q * sin (k * a).
Definition arc_s (k a : R) (q : cfg) : R := cc q * sin (k * a) + cs q * cos (k * a).
(* q' is obtained from q along an arc of curvature k and signed length a *)
Definition arc (k a : R) (q q' : cfg) : Prop :=
  cx q' = arc_x k a q /\ cy q' = arc_y k a q /\ cc q' = arc_c k a q /\ cs q' = arc_s k a q.

Lemma compute_arc p t : arc (p_kappa p) (abscissa p t * p_cl p) (p_init p) (cc_compute p t).
Proof.
  unfold arc, arc_x, arc_y, arc_c, arc_s, cc_compute. cbn [cx cy cc cs].
  destruct (reqb_spec (p_kappa p) 0); repeat split; reflexivity.
Qed.
Lemma arc_0 k q : arc k 0 q q.
Proof.
  unfold arc, arc_x, arc_y, arc_c, arc_s.
  rewrite Rmult_0_r, cos_0, sin_0. destruct (reqb_spec k 0); repeat split; ring.
Qed.
Lemma arc_add k a b q q1 q2 : arc k a q q1 -> arc k b q1 q2 -> arc k (a + b) q q2.
Proof.
  unfold arc, arc_x, arc_y, arc_c, arc_s. intros [X1 [Y1 [C1 S1]]] [X2 [Y2 [C2 S2]]].
  replace (k * (a + b)) with (k * a + k * b) by ring. rewrite cos_plus, sin_plus.
  destruct (reqb_spec k 0) as [->|N].
  - rewrite !Rmult_0_l, cos_0, sin_0 in *.
    rewrite X2, Y2, C2, S2, X1, Y1, C1, S1. repeat split; ring.
  - rewrite X2, Y2, C2, S2, X1, Y1, C1, S1. repeat split; ring.
Qed.
Lemma arc_back k a q q1 : unit_heading q -> arc k a q q1 -> arc k (- a) q1 q.
Proof.
  unfold arc, arc_x, arc_y, arc_c, arc_s, unit_heading. intros U [X1 [Y1 [C1 S1]]].
  replace (k * - a) with (- (k * a)) by ring. rewrite cos_neg, sin_neg.
  pose proof (sin2_cos2 (k * a)) as E. unfold Rsqr in E.
  destruct (reqb_spec k 0) as [->|N].
  - rewrite !Rmult_0_l, cos_0, sin_0 in *.
    rewrite X1, Y1, C1, S1. repeat split; ring.
  - rewrite X1, Y1, C1, S1. set (c := cos (k * a)) in *. set (s := sin (k * a)) in *.
    repeat split.
    + transitivity (cx q + 1 / k * (cs q * (s * s + c * c) - cs q)); [rewrite E; ring | ring].
    + transitivity (cy q + 1 / k * (cc q - cc q * (s * s + c * c))); [rewrite E; ring | ring].
    + transitivity (cc q * (s * s + c * c)); [rewrite E; ring | ring].
    + transitivity (cs q * (s * s + c * c)); [rewrite E; ring | ring].
Qed.

Lemma arc_unit k a q q1 : arc k a q q1 -> unit_heading q -> unit_heading q1.
Proof.
  unfold arc, arc_c, arc_s, unit_heading. intros [_ [_ [-> ->]]] U.
  pose proof (sin2_cos2 (k * a)) as E. unfold Rsqr in E.
  transitivity ((cc q * cc q + cs q * cs q) * (sin (k * a) * sin (k * a) + cos (k * a) * cos (k * a))); [ring|].
  rewrite U, E. ring.
Qed.
Lemma arc_same k a q q' : arc k a q q' -> forall q1 q1', cx q = cx q1 -> cy q = cy q1 -> cc q = cc q1 -> cs q = cs q1 ->
  arc k a q1 q1' -> cx q' = cx q1' /\ cy q' = cy q1' /\ cc q' = cc q1' /\ cs q' = cs q1'.
Proof.
  unfold arc, arc_x, arc_y, arc_c, arc_s. intros [-> [-> [-> ->]]] q1 q1' X Y C S [-> [-> [-> ->]]].
  rewrite X, Y, C, S. repeat split; reflexivity.
Qed.
Lemma arc_place k a q q' q1 q1' : same_place q q1 -> same_place q' q1' -> arc k a q q' -> arc k a q1 q1'.
Proof.
  unfold same_place, arc, arc_x, arc_y, arc_c, arc_s.
  intros [X [Y [C S]]] [X' [Y' [C' S']]] H. rewrite <- X, <- Y, <- C, <- S, <- X', <- Y', <- C', <- S'. exact H.
Qed.

(* ---- other degrees of freedom ---- *)
Lemma compute_cj_out p t k : ~ In k (wheel_ranks p) ->
  cj (cc_compute p t) k = cj (p_init p) k + abscissa p t * (cj (p_end p) k - cj (p_init p) k).
Proof. intros H. unfold cc_compute. cbn [cj]. apply set_all_out, H. Qed.
Lemma compute_cj_in p p' t t' k : p_wheels p = p_wheels p' -> In k (wheel_ranks p) ->
  cj (cc_compute p t) k = cj (cc_compute p' t') k.
Proof.
  intros E H. unfold cc_compute. cbn [cj]. rewrite <- E. destruct (set_all_in _ _ H) as [v Hv].
  rewrite !Hv. reflexivity.
Qed.

Lemma abscissa_0 p : abscissa p (p_t0 p) = 0.
Proof. unfold abscissa. destruct (reqb_spec (param_length p) 0); [reflexivity|]. unfold Rdiv. ring. Qed.
Lemma abscissa_1 p : p_t0 p < p_t1 p -> abscissa p (p_t1 p) = 1.
Proof.
  intros H. unfold abscissa, param_length. destruct (reqb_spec (p_t1 p - p_t0 p) 0); [lra|]. field. lra.
Qed.
Lemma compute_start p : same_but (wheel_ranks p) (cc_compute p (p_t0 p)) (p_init p).
Proof.
  pose proof (compute_arc p (p_t0 p)) as A. rewrite abscissa_0, Rmult_0_l in A.
  pose proof (arc_0 (p_kappa p) (p_init p)) as B.
  destruct (arc_same _ _ _ _ A (p_init p) (p_init p) eq_refl eq_refl eq_refl eq_refl B) as [X [Y [C S]]].
  repeat split; try assumption. intros k Hk. rewrite compute_cj_out by exact Hk. rewrite abscissa_0. ring.
Qed.

(* the stored end is the configuration at the end of the range *)
Definition closed (p : cpath) : Prop := same_but (wheel_ranks p) (p_end p) (cc_compute p (p_t1 p)).

Lemma create_closed init fin cl pl kappa ws :
  let p := cc_create init fin cl pl kappa ws in
  same_cfg (p_end p) (cc_compute p (p_t1 p)) /\
  (Rabs pl <> 0 -> forall k, ~ In k (map fst ws) -> cj (p_end p) k = cj fin k) /\
  (pl = 0 -> same_but (map fst ws) (p_end p) init).
Proof.
  intros p. set (p0 := {| p_init := init; p_end := fin; p_cl := cl; p_kappa := kappa;
              p_t0 := 0; p_t1 := Rabs pl; p_fwd := rltb 0 cl; p_wheels := ws |}).
  assert (Hl : pl = 0 -> abscissa p0 (Rabs pl) = 0).
  { intros ->. unfold abscissa, param_length. cbn. rewrite Rabs_R0.
    destruct (reqb_spec (0 - 0) 0); [reflexivity | lra]. }
  assert (Hn : Rabs pl <> 0 -> abscissa p0 (Rabs pl) = 1).
  { intros H. change (Rabs pl) with (p_t1 p0). apply abscissa_1. cbn. pose proof (Rabs_pos pl). lra. }
  assert (Hab : abscissa p = abscissa p0) by reflexivity.
  assert (Hd : Rabs pl = 0 \/ Rabs pl <> 0) by (destruct (Req_EM_T (Rabs pl) 0); auto).
  assert (Hj : forall k, ~ In k (map fst ws) -> cj (p_end p) k = init.(cj) k + abscissa p0 (Rabs pl) * (cj fin k - cj init k)).
  { intros k Hk. change (p_end p) with (cc_compute p0 (Rabs pl)). apply (compute_cj_out p0). exact Hk. }
  split; [|split].
  - split; [|split; [|split; [|split]]]; try reflexivity.
    intros k _. destruct (in_dec Nat.eq_dec k (map fst ws)) as [Hi|Ho].
    + change (p_end p) with (cc_compute p0 (Rabs pl)). apply (compute_cj_in p0 p); [reflexivity | exact Hi].
    + rewrite (compute_cj_out p) by exact Ho. rewrite Hj by exact Ho. rewrite Hab.
      change (p_t1 p) with (Rabs pl). change (cj (p_init p) k) with (cj init k).
      destruct Hd as [H0|H0].
      * rewrite Hl by (destruct (Req_EM_T pl 0) as [E|E]; [exact E | apply Rabs_no_R0 in E; contradiction]). ring.
      * rewrite Hn by exact H0. ring.
  - intros H0 k Hk. rewrite Hj by exact Hk. rewrite Hn by exact H0. ring.
  - intros H0. change (p_end p) with (cc_compute p0 (Rabs pl)).
    pose proof (compute_start p0) as S. unfold same_but in S. cbn [p_t0 p_init wheel_ranks] in S.
    rewrite H0, Rabs_R0. exact S.
Qed.

(* ---- extraction ---- *)
Section Extract.
Variable p : cpath.
Hypothesis HL : p_t0 p < p_t1 p.
Hypothesis HC : closed p.
Variables a b : R.
Hypothesis Ha : p_t0 p <= a <= p_t1 p.
Hypothesis Hb : p_t0 p <= b <= p_t1 p.
Let p' := cc_extract p a b.
Let at_ t := if reqb t (p_t0 p) then p_init p
             else if reqb t (p_t1 p) then p_end p else cc_compute p t.

Lemma at_same t : same_but (wheel_ranks p) (at_ t) (cc_compute p t).
Proof.
  unfold at_. destruct (reqb_spec t (p_t0 p)) as [->|_].
  - destruct (compute_start p) as [X [Y [C [S J]]]]. repeat split; try congruence.
    intros k Hk. symmetry. apply J, Hk.
  - destruct (reqb_spec t (p_t1 p)) as [->|_]; [exact HC|]. repeat split; reflexivity.
Qed.
Lemma ext_len : p_t1 p' = Rabs (b - a).
Proof.
  unfold p', cc_extract. cbn [p_t1]. rewrite (L_test p HL). pose proof (L_pos p HL) as H. cbn in H. field. lra.
Qed.
Lemma ext_cl : p_cl p' = (b - a) / param_length p * p_cl p.
Proof. unfold p', cc_extract. cbn [p_cl]. rewrite (L_test p HL). reflexivity. Qed.
Definition dir : R := if rleb a b then 1 else -1.
Lemma ext_abscissa u : a <> b -> abscissa p' u = u / Rabs (b - a).
Proof.
  intros N. unfold abscissa. unfold param_length. rewrite ext_len. change (p_t0 p') with 0.
  pose proof (Rabs_pos_lt (b - a) ltac:(lra)).
  destruct (reqb_spec (Rabs (b - a) - 0) 0); [lra|]. rewrite !Rminus_0_r. reflexivity.
Qed.
Lemma ext_abscissa0 u : a = b -> abscissa p' u = 0.
Proof.
  intros E. unfold abscissa. unfold param_length. rewrite ext_len. change (p_t0 p') with 0.
  rewrite E. replace (b - b) with 0 by ring. rewrite Rabs_R0. destruct (reqb_spec (0 - 0) 0); [reflexivity|lra].
Qed.
Lemma dir_abs : dir * Rabs (b - a) = b - a.
Proof.
  unfold dir. destruct (rleb_spec a b).
  - rewrite Rabs_right by lra. ring.
  - rewrite Rabs_left by lra. ring.
Qed.

Lemma extract_eval u : 0 <= u <= Rabs (b - a) ->
  same_cfg (cc_compute p' u) (cc_compute p (a + dir * u)).
Proof.
  intros Hu. pose proof (L_pos p HL) as LP. cbn in LP.
  assert (Hab : abscissa p (a + dir * u) = abscissa p a + abscissa p' u * ((b - a) / param_length p)).
  { rewrite !(abs_lin p HL). destruct (Req_EM_T a b) as [E|N].
    - rewrite ext_abscissa0 by exact E. assert (u = 0) as ->.
      { rewrite E in Hu. replace (b - b) with 0 in Hu by ring. rewrite Rabs_R0 in Hu. lra. }
      field. lra.
    - rewrite ext_abscissa by exact N. pose proof (Rabs_pos_lt (b - a) ltac:(lra)) as P.
      pose proof dir_abs as D. set (A := Rabs (b - a)) in *. rewrite <- D. field. split; lra. }
  assert (A1 : arc (p_kappa p) (abscissa p a * p_cl p) (p_init p) (p_init p')).
  { destruct (at_same a) as [X [Y [C [S _]]]].
    apply (arc_place _ _ (p_init p) (cc_compute p a)); [repeat split | | apply compute_arc].
    repeat split; symmetry; assumption. }
  pose proof (compute_arc p' u) as A2. change (p_kappa p') with (p_kappa p) in A2.
  pose proof (arc_add _ _ _ _ _ _ A1 A2) as A3. rewrite ext_cl in A3.
  replace (abscissa p a * p_cl p + abscissa p' u * ((b - a) / param_length p * p_cl p))
    with (abscissa p (a + dir * u) * p_cl p) in A3 by (rewrite Hab; ring).
  destruct (arc_same _ _ _ _ A3 (p_init p) _ eq_refl eq_refl eq_refl eq_refl (compute_arc p (a + dir * u))) as [X [Y [C S]]].
  repeat split; try assumption.
  intros k _. destruct (in_dec Nat.eq_dec k (wheel_ranks p)) as [Hi|Ho].
  - apply (compute_cj_in p' p); [reflexivity | exact Hi].
  - rewrite (compute_cj_out p') by exact Ho. rewrite (compute_cj_out p) by exact Ho. rewrite Hab.
    assert (J1 : cj (p_init p') k = cj (cc_compute p a) k) by (apply (at_same a); exact Ho).
    assert (J2 : cj (p_end p') k = cj (cc_compute p b) k) by (apply (at_same b); exact Ho).
    rewrite J1, J2. rewrite !(compute_cj_out p) by exact Ho. rewrite !(abs_lin p HL). field. lra.
Qed.
Lemma dir_in u : 0 <= u <= Rabs (b - a) -> p_t0 p <= a + dir * u <= p_t1 p.
Proof.
  unfold dir. destruct (rleb_spec a b); intros H.
  - rewrite Rabs_right in H by lra. lra.
  - rewrite Rabs_left in H by lra. lra.
Qed.
Lemma extract_closed : closed p'.
Proof.
  unfold closed. pose proof (extract_eval (Rabs (b - a))) as H. rewrite ext_len.
  pose proof (Rabs_pos (b - a)) as P. specialize (H ltac:(lra)). rewrite dir_abs in H.
  replace (a + (b - a)) with b in H by ring.
  destruct H as [X [Y [C [S J]]]]. destruct (at_same b) as [X' [Y' [C' [S' J']]]].
  repeat split.
  - rewrite X. exact X'.
  - rewrite Y. exact Y'.
  - rewrite C. exact C'.
  - rewrite S. exact S'.
  - intros k Hk. rewrite J by (intros []). apply J'. exact Hk.
Qed.
End Extract.

(* ---- reversal ---- *)
Lemma reverse_eval p u : p_t0 p < p_t1 p -> closed p ->
  same_cfg (cc_compute (cc_reverse p) u) (cc_compute p (p_t1 p - u)).
Proof.
  intros HL HC. pose proof (L_pos p HL) as LP. cbn in LP. set (p' := cc_reverse p).
  assert (Hu : abscissa p' u = u / param_length p).
  { unfold abscissa. change (param_length p') with (param_length p - 0). change (p_t0 p') with 0.
    destruct (reqb_spec (param_length p - 0) 0); [lra|]. rewrite !Rminus_0_r. reflexivity. }
  pose proof HC as [X1 [Y1 [C1 [S1 J1]]]].
  assert (A1 : arc (p_kappa p) (abscissa p (p_t1 p) * p_cl p) (p_init p) (p_init p')).
  { apply (arc_place _ _ (p_init p) (cc_compute p (p_t1 p))); [repeat split | | apply compute_arc].
    repeat split; symmetry; assumption. }
  pose proof (compute_arc p' u) as A2. change (p_kappa p') with (p_kappa p) in A2.
  pose proof (arc_add _ _ _ _ _ _ A1 A2) as A3. change (p_cl p') with (- p_cl p) in A3.
  replace (abscissa p (p_t1 p) * p_cl p + abscissa p' u * - p_cl p)
    with (abscissa p (p_t1 p - u) * p_cl p) in A3
    by (rewrite Hu, !(abs_lin p HL); field; lra).
  destruct (arc_same _ _ _ _ A3 (p_init p) _ eq_refl eq_refl eq_refl eq_refl (compute_arc p (p_t1 p - u))) as [X [Y [C S]]].
  repeat split; try assumption.
  intros k _. destruct (in_dec Nat.eq_dec k (wheel_ranks p)) as [Hi|Ho].
  - apply (compute_cj_in p' p); [reflexivity | exact Hi].
  - rewrite (compute_cj_out p') by exact Ho. rewrite (compute_cj_out p) by exact Ho.
    change (cj (p_init p') k) with (cj (p_end p) k). change (cj (p_end p') k) with (cj (p_init p) k).
    rewrite Hu, (abs_lin p HL). unfold param_length. field. unfold param_length in LP. lra.
Qed.
Lemma reverse_closed p : p_t0 p < p_t1 p -> closed p -> closed (cc_reverse p).
Proof.
  intros HL HC. unfold closed. set (p' := cc_reverse p).
  destruct (reverse_eval p (p_t1 p') HL HC) as [X [Y [C [S J]]]].
  change (cc_compute (cc_reverse p)) with (cc_compute p') in *.
  replace (p_t1 p - p_t1 p') with (p_t0 p) in * by (unfold p', cc_reverse, param_length; cbn [p_t1]; ring).
  destruct (compute_start p) as [X' [Y' [C' [S' J']]]].
  repeat split.
  - rewrite X. symmetry. exact X'.
  - rewrite Y. symmetry. exact Y'.
  - rewrite C. symmetry. exact C'.
  - rewrite S. symmetry. exact S'.
  - intros k Hk. rewrite J by (intros []). symmetry. apply J'. exact Hk.
Qed.
