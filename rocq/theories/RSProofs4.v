(* Reeds and Shepp: bounds on displacements, construction of the segments. *)
From Coq Require Import Reals ZArith List Bool Lia Lra.
From Verif Require Import Base XReal PolyProofs CurvModel CurvSpec CurvProofs CurvProofs2 CurvProofs3 AngleProofs CurvProofs4
  DubinsModel DubinsSpec DubinsProofs DubinsProofs2 DubinsProofs3 DubinsProofs4 DubinsProps RSModel RSSpec RSProofs RSProofs2 RSProofs3.
Import ListNotations.
Open Scope R_scope.

(* ---- inequalities ---- *)
Lemma sin_abs x : Rabs (sin x) <= Rabs x.
Proof.
  assert (P : forall x, 0 <= x -> Rabs (sin x) <= x).
  { intros z Hz. destruct (Rle_or_lt z 1) as [H1|H1].
    - assert (0 <= sin z) by (apply sin_ge_0; [exact Hz | pose proof PI2_1; lra]).
      rewrite Rabs_right by lra. destruct (Req_dec z 0) as [->|N]; [rewrite sin_0; lra|]. left. apply sin_lt_x. lra.
    - pose proof (SIN_bound z). apply Rabs_le. lra. }
  destruct (Rle_or_lt 0 x) as [H|H].
  - rewrite (Rabs_right x) by lra. apply P, H.
  - rewrite (Rabs_left x) by lra. rewrite <- (Rabs_Ropp (sin x)), <- sin_neg. apply P. lra.
Qed.
Lemma abs_mul2 a b c : Rabs a <= Rabs (c / 2) -> Rabs b <= 1 -> Rabs (2 * a * b) <= Rabs c.
Proof.
  intros H1 H2. rewrite !Rabs_mult, (Rabs_right 2) by lra.
  assert (Rabs c = 2 * Rabs (c / 2)).
  { replace c with (2 * (c / 2)) at 1 by field. rewrite Rabs_mult, (Rabs_right 2) by lra. reflexivity. }
  rewrite H. pose proof (Rabs_pos a). pose proof (Rabs_pos b).
  assert (Rabs a * Rabs b <= Rabs (c / 2) * 1) by (apply Rmult_le_compat; lra). lra.
Qed.
Lemma sin_abs1 a : Rabs (sin a) <= 1. Proof. pose proof (SIN_bound a). apply Rabs_le. lra. Qed.
Lemma cos_abs1 a : Rabs (cos a) <= 1. Proof. pose proof (COS_bound a). apply Rabs_le. lra. Qed.
Lemma sin_lip a b : Rabs (sin a - sin b) <= Rabs (a - b).
Proof.
  destruct (mid b (a - b)) as [M _]. replace (b + (a - b)) with a in M by ring. rewrite M.
  apply abs_mul2; [apply sin_abs | apply cos_abs1].
Qed.
Lemma cos_lip a b : Rabs (cos a - cos b) <= Rabs (a - b).
Proof.
  rewrite <- (Rabs_Ropp (cos a - cos b)). replace (- (cos a - cos b)) with (cos b - cos a) by ring.
  destruct (mid b (a - b)) as [_ M]. replace (b + (a - b)) with a in M by ring. rewrite M.
  apply abs_mul2; [apply sin_abs | apply sin_abs1].
Qed.

(* displacement of a segment: a chord *)
Definition chord (s : seg) (l : R) : R := match s with S_SEG => l | _ => 2 * sin (l / 2) end.
Definition middle (s : seg) (a l : R) : R := match s with L_SEG => a + l / 2 | S_SEG => a | R_SEG => a - l / 2 end.
Lemma disp_chord s a l : dispx s a l = chord s l * cos (middle s a l) /\ dispy s a l = chord s l * sin (middle s a l).
Proof.
  destruct s; cbn [dispx dispy chord middle].
  - destruct (mid a l) as [-> M2]. split; [reflexivity|]. rewrite M2. ring.
  - split; reflexivity.
  - destruct (mid (a - l) l) as [M1 M2]. replace (a - l + l) with a in M1, M2 by ring.
    replace (a - l + l / 2) with (a - l / 2) in M1, M2 by field. split; [exact M1|]. rewrite M2. ring.
Qed.
Lemma chord_abs s l : Rabs (chord s l) <= Rabs l.
Proof.
  destruct s; cbn [chord]; try lra; (replace (2 * sin (l / 2)) with (2 * sin (l / 2) * 1) by ring;
    apply abs_mul2; [apply sin_abs | rewrite Rabs_R1; lra]).
Qed.
Lemma middle_diff s a a' l : middle s a l - middle s a' l = a - a'.
Proof. destruct s; cbn [middle]; ring. Qed.
Lemma disp_abs s a l : Rabs (dispx s a l) <= Rabs l /\ Rabs (dispy s a l) <= Rabs l.
Proof.
  destruct (disp_chord s a l) as [-> ->]. rewrite !Rabs_mult. pose proof (chord_abs s l). pose proof (Rabs_pos (chord s l)).
  pose proof (cos_abs1 (middle s a l)). pose proof (sin_abs1 (middle s a l)).
  split; (rewrite <- (Rmult_1_r (Rabs l)); apply Rmult_le_compat; try lra; apply Rabs_pos).
Qed.
Lemma disp_lip s a a' l : Rabs (dispx s a l - dispx s a' l) <= Rabs l * Rabs (a - a') /\
  Rabs (dispy s a l - dispy s a' l) <= Rabs l * Rabs (a - a').
Proof.
  destruct (disp_chord s a l) as [-> ->], (disp_chord s a' l) as [-> ->].
  rewrite <- !Rmult_minus_distr_l, !Rabs_mult. pose proof (chord_abs s l).
  pose proof (cos_lip (middle s a l) (middle s a' l)) as C. pose proof (sin_lip (middle s a l) (middle s a' l)) as S.
  rewrite middle_diff in C, S. split; apply Rmult_le_compat; try assumption; apply Rabs_pos.
Qed.
Lemma turn_lip s a a' l : turn s a l - turn s a' l = a - a'.
Proof. destruct s; cbn [turn]; ring. Qed.
Lemma turn_abs s a l : Rabs (turn s a l - a) <= Rabs l.
Proof.
  destruct s; cbn [turn].
  - replace (a + l - a) with l by ring. lra.
  - replace (a - a) with 0 by ring. rewrite Rabs_R0. apply Rabs_pos.
  - replace (a - l - a) with (- l) by ring. rewrite Rabs_Ropp. lra.
Qed.

(* ---- a word is at least as long as the distance between its ends ---- *)
Lemma word_dir ss : forall ls a th, wx ss ls a * cos th + wy ss ls a * sin th <= norm1 ls.
Proof.
  induction ss as [|s ss IH]; intros [|l ls] a th; cbn [wx wy]; try (rewrite !Rmult_0_l, Rplus_0_l; apply norm1_nonneg).
  specialize (IH ls (turn s a l) th). destruct (disp_chord s a l) as [-> ->]. cbn [norm1 fold_right]. fold (norm1 ls).
  assert (chord s l * cos (middle s a l) * cos th + chord s l * sin (middle s a l) * sin th <= Rabs l); [|lra].
  replace (_ + _) with (chord s l * cos (middle s a l - th)) by (rewrite cos_minus; ring).
  apply (Rle_trans _ _ _ (Rle_abs _)). rewrite Rabs_mult. pose proof (chord_abs s l). pose proof (cos_abs1 (middle s a l - th)).
  rewrite <- (Rmult_1_r (Rabs l)). apply Rmult_le_compat; try assumption; apply Rabs_pos.
Qed.
Lemma word_euclid ss ls a : sqrt (wx ss ls a * wx ss ls a + wy ss ls a * wy ss ls a) <= norm1 ls.
Proof.
  set (X := wx ss ls a). set (Y := wy ss ls a). destruct (polar X Y) as [P Q]. set (r := sqrt _) in *. set (th := atan2 Y X) in *.
  pose proof (word_dir ss ls a th) as H. fold X Y in H. rewrite <- P, <- Q in H. pose proof (trig1 th).
  replace (r * cos th * cos th + r * sin th * sin th) with (r * (sin th * sin th + cos th * cos th)) in H by ring.
  rewrite H0 in H. lra.
Qed.
Lemma word_turn ss : forall ls a, Rabs (wa ss ls a - a) <= norm1 ls.
Proof.
  induction ss as [|s ss IH]; intros [|l ls] a; cbn [wa]; try (replace (a - a) with 0 by ring; rewrite Rabs_R0; apply norm1_nonneg).
  cbn [norm1 fold_right]. fold (norm1 ls). specialize (IH ls (turn s a l)). pose proof (turn_abs s a l).
  replace (wa ss ls (turn s a l) - a) with ((wa ss ls (turn s a l) - turn s a l) + (turn s a l - a)) by ring.
  apply (Rle_trans _ _ _ (Rabs_triang _ _)). lra.
Qed.

(* ---- the lengths that are kept ---- *)
Definition trim (ls : list R) : list R := map (fun l => if rltb precision (Rabs l) then l else 0) ls.
Lemma prec_pos : 0 < precision. Proof. unfold precision. lra. Qed.
Lemma trim_norm ls : norm1 (trim ls) <= norm1 ls <= norm1 (trim ls) + INR (length ls) * precision.
Proof.
  induction ls as [|l ls IH]; [cbn; lra|]. cbn [trim map norm1 fold_right]. fold (trim ls) (norm1 (trim ls)) (norm1 ls).
  change (length (l :: ls)) with (S (length ls)). rewrite S_INR. pose proof prec_pos.
  destruct (rltb_spec precision (Rabs l)); rewrite ?Rabs_R0; pose proof (Rabs_pos l); lra.
Qed.

Lemma trim_angle ss : forall ls a a',
  Rabs (wa ss ls a - wa ss (trim ls) a') <= Rabs (a - a') + INR (length ls) * precision.
Proof.
  pose proof prec_pos as Hp.
  induction ss as [|s ss IH]; intros [|l ls] a a'; cbn [wa trim map].
  - cbn. lra.
  - pose proof (pos_INR (length (l :: ls))). assert (0 <= INR (length (l :: ls)) * precision) by (apply Rmult_le_pos; lra). lra.
  - cbn. lra.
  - fold (trim ls). change (length (l :: ls)) with (S (length ls)). rewrite S_INR.
    destruct (rltb_spec precision (Rabs l)) as [G|G].
    + pose proof (IH ls (turn s a l) (turn s a' l)) as H. rewrite turn_lip in H. lra.
    + pose proof (IH ls (turn s a l) (turn s a' 0)) as H.
      assert (T : Rabs (turn s a l - turn s a' 0) <= Rabs (a - a') + Rabs l).
      { replace (turn s a l - turn s a' 0) with ((turn s a l - a) + (a - a')) by (destruct s; cbn [turn]; ring).
        apply (Rle_trans _ _ _ (Rabs_triang _ _)). pose proof (turn_abs s a l). lra. }
      lra.
Qed.
Lemma trim_err ss : forall ls a a', let e := Rabs (a - a') in let n := INR (length ls) * precision in
  Rabs (wx ss ls a - wx ss (trim ls) a') <= n + norm1 ls * (e + n) /\
  Rabs (wy ss ls a - wy ss (trim ls) a') <= n + norm1 ls * (e + n).
Proof.
  pose proof prec_pos as Hp.
  assert (Z : forall ls a a', 0 <= INR (length ls) * precision + norm1 ls * (Rabs (a - a') + INR (length ls) * precision)).
  { intros ls a a'. pose proof (pos_INR (length ls)). assert (0 <= INR (length ls) * precision) by (apply Rmult_le_pos; lra).
    pose proof (norm1_nonneg ls). pose proof (Rabs_pos (a - a')).
    assert (0 <= norm1 ls * (Rabs (a - a') + INR (length ls) * precision)) by (apply Rmult_le_pos; lra). lra. }
  induction ss as [|s ss IH]; intros [|l ls] a a'; cbv zeta.
  - cbn [wx wy trim map]. rewrite Rminus_0_r, Rabs_R0. split; apply Z.
  - cbn [wx wy trim map]. rewrite Rminus_0_r, Rabs_R0. split; apply Z.
  - cbn [wx wy trim map]. rewrite Rminus_0_r, Rabs_R0. split; apply Z.
  - cbn [wx wy trim map norm1 fold_right]. fold (trim ls) (norm1 ls). change (length (l :: ls)) with (S (length ls)). rewrite S_INR.
    pose proof (norm1_nonneg ls) as Hn. pose proof (Rabs_pos (a - a')) as He. pose proof (Rabs_pos l) as Hl.
    pose proof (pos_INR (length ls)) as Hi. set (k := INR (length ls)) in *. assert (Hk : 0 <= k * precision) by (apply Rmult_le_pos; lra).
    destruct (rltb_spec precision (Rabs l)) as [G|G].
    + destruct (IH ls (turn s a l) (turn s a' l)) as [H1 H2]. rewrite turn_lip in H1, H2. fold k in H1, H2.
      destruct (disp_lip s a a' l) as [D1 D2]. set (e := Rabs (a - a')) in *.
      assert (M : Rabs l * e + (k * precision + norm1 ls * (e + k * precision)) <=
                  (k + 1) * precision + (Rabs l + norm1 ls) * (e + (k + 1) * precision)).
      { assert (0 <= Rabs l * (k * precision)) by (apply Rmult_le_pos; assumption).
        assert (0 <= Rabs l * precision) by (apply Rmult_le_pos; lra).
        assert (0 <= norm1 ls * precision) by (apply Rmult_le_pos; lra). lra. }
      split.
      * replace (dispx s a l + wx ss ls (turn s a l) - (dispx s a' l + wx ss (trim ls) (turn s a' l))) with
          ((dispx s a l - dispx s a' l) + (wx ss ls (turn s a l) - wx ss (trim ls) (turn s a' l))) by ring.
        apply (Rle_trans _ _ _ (Rabs_triang _ _)). lra.
      * replace (dispy s a l + wy ss ls (turn s a l) - (dispy s a' l + wy ss (trim ls) (turn s a' l))) with
          ((dispy s a l - dispy s a' l) + (wy ss ls (turn s a l) - wy ss (trim ls) (turn s a' l))) by ring.
        apply (Rle_trans _ _ _ (Rabs_triang _ _)). lra.
    + destruct (IH ls (turn s a l) (turn s a' 0)) as [H1 H2]. fold k in H1, H2.
      assert (T : Rabs (turn s a l - turn s a' 0) <= Rabs (a - a') + precision).
      { replace (turn s a l - turn s a' 0) with ((turn s a l - a) + (a - a')) by (destruct s; cbn [turn]; ring).
        apply (Rle_trans _ _ _ (Rabs_triang _ _)). pose proof (turn_abs s a l). lra. }
      assert (D0 : dispx s a' 0 = 0 /\ dispy s a' 0 = 0).
      { destruct s; cbn [dispx dispy]; rewrite ?Rplus_0_r, ?Rminus_0_r; split; ring. }
      destruct D0 as [-> ->]. destruct (disp_abs s a l) as [D1 D2]. set (e := Rabs (a - a')) in *.
      set (e' := Rabs (turn s a l - turn s a' 0)) in *.
      assert (M : Rabs l + (k * precision + norm1 ls * (e' + k * precision)) <=
                  (k + 1) * precision + (Rabs l + norm1 ls) * (e + (k + 1) * precision)).
      { assert (norm1 ls * (e' + k * precision) <= norm1 ls * (e + precision + k * precision)) by (apply Rmult_le_compat_l; lra).
        assert (0 <= Rabs l * (e + (k + 1) * precision)) by (apply Rmult_le_pos; lra). lra. }
      split.
      * replace (dispx s a l + wx ss ls (turn s a l) - (0 + wx ss (trim ls) (turn s a' 0))) with
          (dispx s a l + (wx ss ls (turn s a l) - wx ss (trim ls) (turn s a' 0))) by ring.
        apply (Rle_trans _ _ _ (Rabs_triang _ _)). lra.
      * replace (dispy s a l + wy ss ls (turn s a l) - (0 + wy ss (trim ls) (turn s a' 0))) with
          (dispy s a l + (wy ss ls (turn s a l) - wy ss (trim ls) (turn s a' 0))) by ring.
        apply (Rle_trans _ _ _ (Rabs_triang _ _)). lra.
Qed.

(* ---- the segments ---- *)
Fixpoint tailed (tys : list (option seg)) : Prop :=
  match tys with [] => True | Some _ :: t => tailed t | None :: t => segs t = [] /\ tailed t end.
Lemma types_tailed ty : tailed (rs_types ty).
Proof. do 18 (destruct ty as [|ty]; [cbn; tauto|]). destruct ty; cbn; tauto. Qed.
Lemma wx_nil ls a : wx [] ls a = 0. Proof. destruct ls; reflexivity. Qed.
Lemma wy_nil ls a : wy [] ls a = 0. Proof. destruct ls; reflexivity. Qed.
Lemma wa_nil ls a : wa [] ls a = a. Proof. destruct ls; reflexivity. Qed.

(* a segment of the path *)
Definition rs_seg (rho extra L : R) (ws : list wheel) (p : cpath) : Prop :=
  built p /\ p_t0 p = 0 /\ p_t1 p = Rabs (p_cl p) * (1 + extra / L) /\ rho * precision < Rabs (p_cl p) /\
  (p_kappa p = 1 / rho \/ p_kappa p = 0 \/ p_kappa p = - (1 / rho)) /\ wheel_values (p_kappa p) ws = Ok (p_wheels p).


Section Segments.
Variables rho extra L : R.
Variable ws : list wheel.
Variables q0 q1 : cfg.
Hypothesis Hrho : 0 < rho.
Hypothesis Hextra : 0 <= extra.
Hypothesis HL : 0 < L.
Hypothesis Hws : can_steer rho ws.

Lemma rs_segments_ok tys : forall ls q sm a, tailed tys -> Forall2 (fun o l => o = None -> l = 0) tys ls ->
  at_angle q a -> (forall k, ~ In k (map w_rank ws) -> cj q k = cj q0 k + sm / L * (cj q1 k - cj q0 k)) ->
  exists ps q', rs_segments rho extra L ws q0 q1 q sm tys ls = Ok ps /\ linked q ps q' /\
    cx q' = cx q + rho * wx (segs tys) (trim ls) a /\ cy q' = cy q + rho * wy (segs tys) (trim ls) a /\
    at_angle q' (wa (segs tys) (trim ls) a) /\
    Forall (rs_seg rho extra L ws) ps /\ travel ps = rho * norm1 (trim ls) /\
    (forall k, ~ In k (map w_rank ws) ->
       cj q' k = cj q0 k + (sm + travel ps) / L * (cj q1 k - cj q0 k)).
Proof.
  pose proof prec_pos as Hp.
  induction tys as [|o tys IH]; intros ls q sm a Ht Hf Ha Hq; inversion Hf as [|? l ? ls' H0 Hf']; subst; clear Hf.
  - exists [], q. cbn [rs_segments segs trim map norm1 fold_right]. rewrite wx_nil, wy_nil, wa_nil.
    split; [reflexivity|]. split; [reflexivity|]. split; [ring|]. split; [ring|]. split; [exact Ha|]. split; [constructor|].
    split; [cbn; ring|]. intros k Hk. rewrite (Hq k Hk). unfold travel. cbn. rewrite Rplus_0_r. reflexivity.
  - cbn [rs_segments trim map]. fold (trim ls'). destruct (rltb_spec precision (Rabs l)) as [G|G].
    + destruct o as [s|]; [|exfalso; rewrite (H0 eq_refl), Rabs_R0 in G; lra]. cbn [tailed] in Ht.
      destruct (Hws (curv rho s)) as [wv Ew]; [destruct s; cbn; auto|].
      rewrite seg_curv, Ew. cbn [bind].
      set (sm' := sm + rho * Rabs l).
      set (len := rho * Rabs l * (1 + extra / L)).
      set (p := cc_create q (interpolate q0 q1 (sm' / L)) (rho * l) len (curv rho s) wv).
      assert (Hl : 0 < rho * Rabs l) by (apply Rmult_lt_0_compat; lra).
      assert (Hx : 0 <= extra / L) by (apply Rmult_le_pos; [exact Hextra | left; apply Rinv_0_lt_compat, HL]).
      assert (Hlen : 0 < len) by (apply Rmult_lt_0_compat; lra).
      assert (U : unit_heading q) by (destruct Ha as [Hc Hs]; unfold unit_heading; rewrite Hc, Hs, Rplus_comm; apply trig1).
      assert (B : built p) by (apply built_create; exact U).
      assert (Acl : Rabs (p_cl p) = rho * Rabs l) by (cbn; rewrite Rabs_mult, (Rabs_right rho) by lra; reflexivity).
      assert (T1 : p_t1 p = len) by (cbn; apply Rabs_right; lra).
      destruct (create_closed q (interpolate q0 q1 (sm' / L)) (rho * l) len (curv rho s) wv) as [C1 [C2 _]].
      fold p in C1, C2. rewrite (values_ranks _ _ _ Ew) in C2.
      assert (A : arc (curv rho s) (rho * l) q (p_end p)).
      { pose proof (compute_arc p (p_t1 p)) as K. rewrite abscissa_1 in K by (rewrite T1; exact Hlen).
        change (p_kappa p) with (curv rho s) in K. rewrite Rmult_1_l in K.
        destruct C1 as [X [Y [C [S _]]]].
        apply (arc_place _ (rho * l) q (cc_compute p (p_t1 p)) q (p_end p)); [apply place_refl | repeat split; symmetry; assumption | exact K]. }
      apply (arc_seg rho Hrho s l q a (p_end p) Ha) in A. destruct A as [X [Y A]].
      destruct (IH ls' (p_end p) sm' (turn s a l) Ht Hf' A) as [ps [q' [E [Lk [X' [Y' [A' [F [N J]]]]]]]]].
      { intros k Hk. rewrite (C2 ltac:(rewrite Rabs_right; lra) k Hk). reflexivity. }
      rewrite E. cbn [bind]. exists (p :: ps), q'. split; [reflexivity|]. split; [split; [reflexivity | exact Lk]|].
      cbn [segs wx wy wa norm1 fold_right]. split; [rewrite X', X; ring|]. split; [rewrite Y', Y; ring|]. split; [exact A'|].
      split.
      { constructor; [|exact F]. split; [exact B|]. split; [reflexivity|]. split; [rewrite Acl, T1; reflexivity|].
        split; [rewrite Acl; apply Rmult_lt_compat_l; assumption|].
        split; [change (p_kappa p) with (curv rho s); destruct s; cbn; auto | exact Ew]. }
      assert (Tr : travel (p :: ps) = rho * Rabs l + travel ps) by (unfold travel, total; cbn [fold_right]; rewrite Acl; reflexivity).
      split; [rewrite Tr, N; unfold norm1; ring|].
      intros k Hk. rewrite (J k Hk), Tr. unfold sm'. f_equal. f_equal. f_equal. ring.
    + destruct o as [s|].
      * cbn [tailed] in Ht.
        destruct (IH ls' q sm a Ht Hf' Ha Hq) as [ps [q' [E [Lk [X' [Y' [A' [F [N J]]]]]]]]].
        exists ps, q'. split; [exact E|]. split; [exact Lk|]. cbn [segs wx wy wa norm1 fold_right].
        assert (D0 : dispx s a 0 = 0 /\ dispy s a 0 = 0 /\ turn s a 0 = a).
        { destruct s; cbn [dispx dispy turn]; rewrite ?Rplus_0_r, ?Rminus_0_r; repeat split; ring. }
        destruct D0 as [-> [-> ->]]. rewrite Rabs_R0, !Rplus_0_l. fold (norm1 (trim ls')).
        split; [exact X'|]. split; [exact Y'|]. split; [exact A'|]. split; [exact F|]. split; [exact N | exact J].
      * cbn [tailed] in Ht. destruct Ht as [Hs Ht].
        destruct (IH ls' q sm a Ht Hf' Ha Hq) as [ps [q' [E [Lk [X' [Y' [A' [F [N J]]]]]]]]].
        rewrite Hs, wx_nil in X'. rewrite Hs, wy_nil in Y'. rewrite Hs, wa_nil in A'.
        exists ps, q'. split; [exact E|]. split; [exact Lk|]. cbn [segs wx wy wa norm1 fold_right].
        rewrite Rabs_R0, Rplus_0_l. fold (norm1 (trim ls')).
        split; [exact X'|]. split; [exact Y'|]. split; [exact A'|]. split; [exact F|]. split; [exact N | exact J].
Qed.
Lemma rs_segments_along k : ~ In k (map w_rank ws) -> forall tys ls q sm ps,
  rs_segments rho extra L ws q0 q1 q sm tys ls = Ok ps -> cj q k = cj q0 k + sm / L * (cj q1 k - cj q0 k) ->
  along (fun p => Rabs (p_cl p)) (fun s => cj q0 k + s / L * (cj q1 k - cj q0 k)) k sm ps.
Proof.
  intros Hk. pose proof prec_pos as Hp.
  induction tys as [|o tys IH]; intros [|l ls] q sm ps E Hq; cbn [rs_segments] in E; try (injection E as <-; exact I).
  destruct (rltb_spec precision (Rabs l)) as [G|G]; [|apply (IH ls q sm ps E Hq)].
  destruct o as [s|]; [|injection E as <-; exact I].
  destruct (wheel_values _ _) as [wv| | |] eqn:Ew; cbn [bind] in E; try discriminate.
  set (sm' := sm + rho * Rabs l) in *. set (len := rho * Rabs l * (1 + extra / L)) in *.
  set (p := cc_create q (interpolate q0 q1 (sm' / L)) (rho * l) len (seg_curvature rho s) wv) in *.
  destruct (rs_segments _ _ _ _ _ _ _ _ _ _) as [r| | |] eqn:Er; cbn [bind] in E; try discriminate. injection E as <-.
  assert (Hl : 0 < rho * Rabs l) by (apply Rmult_lt_0_compat; lra).
  assert (Hx : 0 <= extra / L) by (apply Rmult_le_pos; [exact Hextra | left; apply Rinv_0_lt_compat, HL]).
  assert (Hlen : 0 < len) by (apply Rmult_lt_0_compat; lra).
  destruct (create_closed q (interpolate q0 q1 (sm' / L)) (rho * l) len (seg_curvature rho s) wv) as [_ [C2 _]].
  fold p in C2. rewrite (values_ranks _ _ _ Ew) in C2. specialize (C2 ltac:(rewrite Rabs_right; lra) k Hk).
  assert (Acl : Rabs (p_cl p) = rho * Rabs l) by (cbn; rewrite Rabs_mult, (Rabs_right rho) by lra; reflexivity).
  cbn [along]. rewrite Acl. fold sm'. split; [exact C2 | exact (IH ls (p_end p) sm' r Er C2)].
Qed.
End Segments.
