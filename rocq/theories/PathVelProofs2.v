(* Velocity bounds: path vectors, extracted paths and time laws. *)
From Coq Require Import Sorting.Sorted.
From Verif Require Import Base QcTac PathModel PathSpec PathProofs PathProofs2 PathProofs3 PathProofs4
  PathProofs5 PathVelModel PathVelSpec PathVelProofs.
Open Scope Qc_scope.

Section V.
Variable tpb : (Qc -> Qc) -> Qc -> Qc -> Qc.
Variable tpd : (Qc -> Qc) -> Qc -> Qc.
Notation movable := (movable tpb tpd).
Notation law_ok := (law_ok tpb tpd).
Notation vbound := (vbound tpb).

Definition scaled (h : hdr Qc) (t0 t1 b : Qc) : Qc :=
  match tp h with Some f => b * tpb f t0 t1 | None => b end.

Lemma eval_param (p : path1) t : cs (hd_of p) = None -> eval1 p t = compute Qc lerp p (param_at (hd_of p) t).
Proof.
  intros H. unfold eval, config_at, apply_cs. rewrite H.
  destruct (compute Qc lerp p (param_at (hd_of p) t)) as [[?|]| | |]; reflexivity.
Qed.

Lemma wrap_lip (p : path1) t0 t1 b : cs (hd_of p) = None -> law_ok (hd_of p) ->
  start p <= t0 -> t0 <= t1 -> t1 <= stop p -> 0 <= b ->
  lip (compute Qc lerp p) (param_at (hd_of p) t0) (param_at (hd_of p) t1) b ->
  0 <= scaled (hd_of p) t0 t1 b /\ lip (eval1 p) t0 t1 (scaled (hd_of p) t0 t1 b).
Proof.
  intros Hc Hl H0 H01 H1 Hb H. unfold scaled, param_at, PathVelSpec.law_ok in *.
  unfold start, stop, timeRange in *.
  destruct (tp (hd_of p)) as [f|] eqn:Etp.
  - destruct Hl as (Epr & Hm & Hd & _). destruct (Hd t0 t1 H0 H01 H1) as [Hd0 Hd1].
    split; [apply qmul_nonneg; assumption|].
    apply (lip_ext (fun t => compute Qc lerp p (f t))).
    + intros t _ _. rewrite (eval_param p t Hc). unfold param_at. rewrite Etp. reflexivity.
    + apply lip_law; [exact Hb| | |exact H].
      * intros u v U1 U2 U3. apply Hm; qc.
      * intros u v U1 U2 U3. apply Hd1; assumption.
  - split; [exact Hb|]. apply (lip_ext (compute Qc lerp p)); [|exact H].
    intros t _ _. rewrite (eval_param p t Hc). unfold param_at. rewrite Etp. reflexivity.
Qed.

(* parameters of a time range are in the parameter range *)
Lemma law_range (h : hdr Qc) t : law_ok h -> fst (tr h) <= t -> t <= snd (tr h) ->
  fst (pr h) <= param_at h t /\ param_at h t <= snd (pr h).
Proof.
  intros Hl H0 H1. unfold PathVelSpec.law_ok, param_at in *. destruct (tp h) as [f|].
  - destruct Hl as (-> & Hm & _). cbn [fst snd]. split; apply Hm; try assumption; try apply Qcle_refl; qc.
  - rewrite Hl. split; assumption.
Qed.
Lemma law_mono (h : hdr Qc) t0 t1 : law_ok h -> fst (tr h) <= t0 -> t0 <= t1 -> t1 <= snd (tr h) ->
  param_at h t0 <= param_at h t1.
Proof.
  intros Hl H0 H01 H1. unfold PathVelSpec.law_ok, param_at in *. destruct (tp h) as [f|]; [|exact H01].
  destruct Hl as (_ & Hm & _). apply Hm; assumption.
Qed.

Lemma vbound_eq p t0 t1 :
  vbound p t0 t1 =
  if qltb t1 t0 then UB
  else
    let h := hd_of p in
    let s0 := param_at h (qmax t0 (fst (tr h))) in
    let s1 := param_at h (qmin t1 (snd (tr h))) in
    bind (match p with
      | Straight h q0 q1 => Ok (straight_vb h q0 q1)
      | Interp h ks => interp_vb ks s0 s1
      | Gen _ _ => Throw
      | Extr h o rv =>
          let a := s_in_original h rv s0 in
          let b := s_in_original h rv s1 in
          if qltb b a then vbound o b a else vbound o a b
      | PV h subs => pv_vb subs (map vbound subs) s0 s1
      end) (fun b => Ok (scaled h t0 t1 b)).
Proof. destruct p; reflexivity. Qed.

Lemma vbound_in p t0 t1 : start p <= t0 -> t0 <= t1 -> t1 <= stop p ->
  vbound p t0 t1 =
    let h := hd_of p in
    let s0 := param_at h t0 in
    let s1 := param_at h t1 in
    bind (match p with
      | Straight h q0 q1 => Ok (straight_vb h q0 q1)
      | Interp h ks => interp_vb ks s0 s1
      | Gen _ _ => Throw
      | Extr h o rv =>
          let a := s_in_original h rv s0 in
          let b := s_in_original h rv s1 in
          if qltb b a then vbound o b a else vbound o a b
      | PV h subs => pv_vb subs (map vbound subs) s0 s1
      end) (fun b => Ok (scaled h t0 t1 b)).
Proof.
  intros H0 H01 H1. rewrite vbound_eq. destruct (qltb_spec t1 t0) as [L|L]; [qc|].
  cbv zeta. unfold start, stop, timeRange in *. rewrite qmax_id, qmin_id by assumption. reflexivity.
Qed.

Definition go_waypoint (t0 t1 : Qc) : list path1 -> Qc -> Prop :=
  fix go (l : list path1) (off : Qc) {struct l} : Prop :=
    match l with
    | [] => True
    | y :: r =>
        (t0 <= off + plength y -> off <= t1 ->
         at_waypoint y (start y + qmax 0 (t0 - off)) (start y + qmin (plength y) (t1 - off)))
        /\ go r (off + plength y)
    end.
Lemma go_waypoint_iff t0 t1 l : forall off, go_waypoint t0 t1 l off -> forall pre x post, l = pre ++ x :: post ->
  t0 <= off + total pre + plength x -> off + total pre <= t1 ->
  at_waypoint x (start x + qmax 0 (t0 - (off + total pre))) (start x + qmin (plength x) (t1 - (off + total pre))).
Proof.
  induction l as [|y l IH]; intros off H pre x post E A B; [destruct pre; discriminate|].
  cbn [go_waypoint] in H. destruct H as [H1 H2]. destruct pre as [|z pre]; cbn [app] in E.
  - injection E as <- <-. cbn [total] in *. replace (off + 0) with off in * by ring. apply H1; assumption.
  - injection E as <- E. specialize (IH _ H2 pre x post E). cbn [total] in *.
    replace (off + (plength y + total pre)) with (off + plength y + total pre) in * by ring.
    apply IH; assumption.
Qed.
Lemma at_waypoint_PV h subs t0 t1 : tp h = None -> at_waypoint (PV h subs) t0 t1 -> forall pre x post,
  subs = pre ++ x :: post -> t0 <= total pre + plength x -> total pre <= t1 ->
  at_waypoint x (start x + qmax 0 (t0 - total pre)) (start x + qmin (plength x) (t1 - total pre)).
Proof.
  intros _ H pre x post E A B. 
  pose proof (go_waypoint_iff t0 t1 subs 0 H pre x post E) as G.
  replace (0 + total pre) with (total pre) in G by ring. apply G; assumption.
Qed.


Lemma fold_max l : forall a, a <= fold_left qmax l a /\ Forall (fun b => b <= fold_left qmax l a) l.
Proof.
  induction l as [|b l IH]; intros a; cbn [fold_left]; [split; [apply Qcle_refl|constructor]|].
  destruct (IH (qmax a b)) as [H1 H2]. split.
  - eapply Qcle_trans; [apply qmax_l|exact H1].
  - constructor; [eapply Qcle_trans; [apply qmax_r|exact H1]|exact H2].
Qed.

Lemma call_mid (subs pre mid post : list path1) : subs = pre ++ mid ++ post ->
  map (fun i => match nth_error (map vbound subs) i with
                | Some f => f (fst match nth_error subs i with Some x => timeRange x | None => (0, 0) end)
                              (snd match nth_error subs i with Some x => timeRange x | None => (0, 0) end)
                | None => UB end) (seq (length pre) (length mid))
  = map (fun x => vbound x (start x) (stop x)) mid.
Proof.
  revert pre. induction mid as [|m mid IH]; intros pre E; [reflexivity|]. cbn [length seq map]. f_equal.
  - rewrite nth_error_map, E. cbn [app]. rewrite nth_error_mid. reflexivity.
  - specialize (IH (pre ++ [m])). rewrite app_length in IH. cbn [length] in IH.
    replace (length pre + 1)%nat with (S (length pre)) in IH by lia. apply IH.
    rewrite <- app_assoc. exact E.
Qed.

Lemma pv_lip_piece h subs pre x post c d B : bare h -> Forall ranged subs ->
  continuous_list Qc lerp subs -> subs = pre ++ x :: post ->
  0 <= c -> d <= plength x -> lip (eval1 x) (start x + c) (start x + d) B ->
  lip (eval1 (PV h subs)) (total pre + c) (total pre + d) B.
Proof.
  intros Hb Hr Hcont E Hc Hd H.
  apply (lip_ext (fun t => eval1 x (t + (start x - total pre)))).
  - intros t T1 T2. replace t with (total pre + (t - total pre)) at 2 by ring.
    rewrite (eval_at Qc lerp h subs Hb Hr Hcont pre x post) by (try exact E; qc). f_equal. ring.
  - pose proof (lip_shift _ _ _ (start x - total pre) _ H) as G.
    replace (start x + c - (start x - total pre)) with (total pre + c) in G by ring.
    replace (start x + d - (start x - total pre)) with (total pre + d) in G by ring. exact G.
Qed.

Lemma pv_lip_mid h subs : bare h -> Forall ranged subs -> continuous_list Qc lerp subs ->
  forall mid ms pre post a M, subs = pre ++ mid ++ post ->
  Forall2 (fun x b => lip (eval1 x) (start x) (stop x) b) mid ms -> Forall (fun b => b <= M) ms ->
  a <= total pre -> lip (eval1 (PV h subs)) a (total pre) M ->
  lip (eval1 (PV h subs)) a (total pre + total mid) M.
Proof.
  intros Hb Hr Hcont. induction mid as [|x mid IH]; intros ms pre post a M E HF HM Ha H.
  - cbn [total]. replace (total pre + 0) with (total pre) by ring. exact H.
  - inversion HF as [|? b ? ms' Hx HF']; subst. inversion HM as [|? ? Hb' HM']; subst.
    assert (Hx0 : 0 <= plength x).
    { apply ranged_len. apply Forall_app in Hr. destruct Hr as [_ Hr]. inversion Hr; assumption. }
    specialize (IH ms' (pre ++ [x]) post a M). rewrite <- app_assoc in IH. specialize (IH eq_refl HF' HM').
    rewrite total_app in IH. cbn [total] in IH |- *.
    replace (total pre + (plength x + total mid)) with (total pre + (plength x + 0) + total mid) by ring.
    apply IH; [qc|]. apply (lip_join _ _ (total pre)); [exact Ha|qc|exact H|].
    replace (total pre) with (total pre + 0) at 1 by ring.
    replace (total pre + (plength x + 0)) with (total pre + plength x) by ring.
    apply (pv_lip_piece h _ pre x (mid ++ post) 0 (plength x) M Hb Hr Hcont eq_refl);
      [apply Qcle_refl|apply Qcle_refl|].
    apply (lip_le _ _ _ b); [|exact Hb']. rewrite <- stop_start.
    replace (start x + 0) with (start x) by ring. exact Hx.
Qed.

Lemma movable_ranged p : movable p -> ranged p.
Proof. destruct p; intros H; apply H. Qed.

Lemma klast_start (I : itv) (ks : list (Qc * Qc)) : knots_ok I ks -> exists k, In k ks /\ fst k = fst I.
Proof.
  intros (_ & k0 & kl & E0 & _ & F0 & _). exists k0. split; [|exact F0].
  destruct ks; [discriminate|]. cbn in E0. injection E0 as ->. left; reflexivity.
Qed.

Lemma vbound_lip (p : path1) : movable p -> forall t0 t1, start p <= t0 -> t0 <= t1 -> t1 <= stop p ->
  at_waypoint p t0 t1 ->
  exists B, vbound p t0 t1 = Ok B /\ 0 <= B /\ lip (eval1 p) t0 t1 B.
Proof.
  induction p as [h q0 q1|h ks|h f|h o rv IHo|h subs IH] using path_ind'; intros Hm t0 t1 H0 H01 H1 Hw.
  - destruct Hm as (Hr & Hc & Hl & _). rewrite vbound_in by assumption. cbn [bind hd_of] in *. cbv zeta.
    eexists. split; [reflexivity|]. pose proof (law_range h (fst (tr h)) Hl) as R0.
    pose proof (law_range h t0 Hl H0 ltac:(eapply Qcle_trans; [exact H01|exact H1])) as [R1 R2].
    destruct (straight_lip h q0 q1 (param_at h t0) (param_at h t1)) as [P L]; [qc|].
    apply (wrap_lip (Straight h q0 q1) t0 t1 _ Hc Hl H0 H01 H1 P L).
  - destruct Hm as (Hr & Hc & Hl & Hk). rewrite vbound_in by assumption. cbn [hd_of] in *. cbv zeta.
    cbn [at_waypoint hd_of] in Hw. destruct Hw as (k & Hin & Ek).
    pose proof (law_mono h t0 t1 Hl H0 H01 H1) as Hm01.
    pose proof (law_range h t1 Hl ltac:(eapply Qcle_trans; [exact H0|exact H01]) H1) as [R1 R2].
    destruct (interp_lip h ks k (param_at h t1) Hk Hin ltac:(rewrite Ek; exact Hm01) R2) as (B & EB & PB & LB).
    rewrite Ek in EB, LB. rewrite EB. cbn [bind]. eexists. split; [reflexivity|].
    apply (wrap_lip (Interp h ks) t0 t1 _ Hc Hl H0 H01 H1 PB LB).
  - destruct Hm as (_ & _ & _ & []).
  - destruct Hm as (Hr & Hc & Hl & Hbo & Hmo & Ra & Rb & Rc & Rd). rewrite vbound_in by assumption. cbn [hd_of] in *. cbv zeta in *.
    pose proof (law_mono h t0 t1 Hl H0 H01 H1) as Hm01.
    pose proof (law_range h t0 Hl H0 ltac:(eapply Qcle_trans; [exact H01|exact H1])) as [R1 R2].
    pose proof (law_range h t1 Hl ltac:(eapply Qcle_trans; [exact H0|exact H01]) H1) as [R3 R4].
    cbn [at_waypoint hd_of] in Hw.
    assert (G : exists b, (if qltb (s_in_original h rv (param_at h t1)) (s_in_original h rv (param_at h t0))
        then vbound o (s_in_original h rv (param_at h t1)) (s_in_original h rv (param_at h t0))
        else vbound o (s_in_original h rv (param_at h t0)) (s_in_original h rv (param_at h t1))) = Ok b /\ 0 <= b /\
        lip (compute Qc lerp (Extr h o rv)) (param_at h t0) (param_at h t1) b).
    { set (s0 := param_at h t0) in *. set (s1 := param_at h t1) in *.
      unfold s_in_original in *. destruct rv.
      - destruct (qltb_spec (snd (pr h) - s1) (snd (pr h) - s0)) as [L|L].
        + destruct (IHo Hmo (snd (pr h) - s1) (snd (pr h) - s0)) as (b & Eb & Pb & Lb); try qc; [exact Hw|].
          exists b. split; [exact Eb|]. split; [exact Pb|].
          pose proof (lip_flip _ _ _ (snd (pr h)) _ Lb) as G.
          replace (snd (pr h) - (snd (pr h) - s0)) with s0 in G by ring.
          replace (snd (pr h) - (snd (pr h) - s1)) with s1 in G by ring.
          apply (lip_ext _ _ _ _ _ (fun t _ _ => eq_refl)) in G.
          eapply lip_ext; [|exact G]. intros t _ _. cbn [compute s_in_original].
          apply (bare_eval Qc lerp). exact Hbo.
        + assert (Es : s0 = s1) by (apply Qcle_antisym; [exact Hm01|qc]). rewrite <- Es in *.
          destruct (IHo Hmo (snd (pr h) - s0) (snd (pr h) - s0)) as (b & Eb & Pb & Lb); try qc; [exact Hw|].
          exists b. split; [exact Eb|]. split; [exact Pb|].
          pose proof (lip_flip _ _ _ (snd (pr h)) _ Lb) as G.
          replace (snd (pr h) - (snd (pr h) - s0)) with s0 in G by ring.
          eapply lip_ext; [|exact G]. intros t _ _. cbn [compute s_in_original].
          apply (bare_eval Qc lerp). exact Hbo.
      - destruct (qltb_spec s1 s0) as [L|L]; [qc|].
        destruct (IHo Hmo s0 s1) as (b & Eb & Pb & Lb); try qc; [exact Hw|].
        exists b. split; [exact Eb|]. split; [exact Pb|].
        eapply lip_ext; [|exact Lb]. intros t _ _. cbn [compute s_in_original].
        apply (bare_eval Qc lerp). exact Hbo. }
    destruct G as (b & Eb & Pb & Lb). rewrite Eb. cbn [bind]. eexists. split; [reflexivity|].
    apply (wrap_lip (Extr h o rv) t0 t1 _ Hc Hl H0 H01 H1 Pb Lb).
  - destruct Hm as (Hr & Hc & Hl & Htp & Hne & Htr & Hcont & Hms). apply fold_and_Forall in Hms.
    cbn [hd_of] in *.
    assert (Hb : bare h) by (split; [exact Htp|split; [exact Hc|]]; unfold PathVelSpec.law_ok in Hl; rewrite Htp in Hl; exact Hl).
    assert (Hrs : Forall ranged subs) by (eapply Forall_impl; [|exact Hms]; apply movable_ranged).
    rewrite vbound_in by assumption. cbn [hd_of]. cbv zeta. unfold param_at, scaled. rewrite Htp.
    unfold start, stop, timeRange in H0, H1. cbn [hd_of] in H0, H1. rewrite Htr in H0, H1. cbn [fst snd] in H0, H1.
    assert (H1' : 0 <= t1) by qc. assert (H0' : t0 <= total subs) by qc.
    destruct (locate_exists Qc subs t0 Hne H0 H0') as (p1 & x1 & r1 & L1).
    destruct (locate_exists Qc subs t1 Hne H1' H1) as (p2 & x2 & r2 & L2).
    pose proof (locate_order Qc _ _ _ _ _ _ _ _ _ Hrs H0 H01 L1 L2) as Ho.
    pose proof (locate_le Qc _ _ _ _ _ L1 Hrs H0) as A1. pose proof (locate_le Qc _ _ _ _ _ L2 Hrs H1') as A2.
    unfold pv_vb. rewrite (rank_at_locate Qc _ _ _ _ _ Hrs L1), (rank_at_locate Qc _ _ _ _ _ Hrs L2).
    cbn [bind]. destruct L1 as (E1 & B1 & C1), L2 as (E2 & B2 & C2).
    assert (I1 : In x1 subs) by (rewrite E1; apply in_or_app; right; left; reflexivity).
    assert (I2 : In x2 subs) by (rewrite E2; apply in_or_app; right; left; reflexivity).
    rewrite Forall_forall in IH, Hms.
    pose proof (ranged_len Qc _ (movable_ranged _ (Hms _ I1))) as N1.
    pose proof (ranged_len Qc _ (movable_ranged _ (Hms _ I2))) as N2.
    pose proof (at_waypoint_PV h subs t0 t1 Htp Hw) as W.
    pose proof (stop_start Qc x1) as S1. pose proof (stop_start Qc x2) as S2.
    rewrite E1 in E2. destruct (app_eq_split _ _ _ _ _ _ E2 Ho) as [(<- & <- & <-)|(mid & -> & ->)].
    + rewrite Nat.eqb_refl. rewrite nth_error_map, E1, nth_error_mid. cbn [option_map].
      pose proof (W p1 x1 r1 E1 C1 A2) as W1.
      replace (qmax 0 (t0 - total p1)) with (t0 - total p1) in W1
        by (unfold qmax; destruct (qleb_spec 0 (t0 - total p1)); [reflexivity|qc]).
      replace (qmin (plength x1) (t1 - total p1)) with (t1 - total p1) in W1
        by (unfold qmin; destruct (qleb_spec (plength x1) (t1 - total p1)); [qc|reflexivity]).
      destruct (IH x1 I1 (Hms _ I1) (start x1 + (t0 - total p1)) (start x1 + (t1 - total p1))) as (b & Eb & Pb & Lb);
        try qc; [exact W1|].
      rewrite Eb. cbn [bind]. exists b. split; [reflexivity|]. split; [exact Pb|].
      replace t0 with (total p1 + (t0 - total p1)) by ring. replace t1 with (total p1 + (t1 - total p1)) by ring.
      rewrite <- E1.
      apply (pv_lip_piece h subs p1 x1 r1); try assumption; qc.
    + destruct (Nat.eqb_spec (length p1) (length (p1 ++ x1 :: mid))) as [Q|_].
      { rewrite app_length in Q. cbn [length] in Q. lia. }
      rewrite total_app in *. cbn [total] in *.
      assert (T1 : total p1 + (plength x1 + total mid) <= t1) by exact A2.
      assert (Nmid : 0 <= total mid).
      { apply (total_nonneg Qc). rewrite E1 in Hrs. apply Forall_app in Hrs. destruct Hrs as [_ Hrs].
        inversion Hrs as [|? ? _ Hrs']; subst. apply Forall_app in Hrs'. apply Hrs'. }
      (* first *)
      pose proof (W p1 x1 (mid ++ x2 :: r2) E1 C1 ltac:(qc)) as W1.
      replace (qmax 0 (t0 - total p1)) with (t0 - total p1) in W1
        by (unfold qmax; destruct (qleb_spec 0 (t0 - total p1)); [reflexivity|qc]).
      replace (qmin (plength x1) (t1 - total p1)) with (plength x1) in W1
        by (unfold qmin; destruct (qleb_spec (plength x1) (t1 - total p1)); [reflexivity|qc]).
      rewrite <- S1 in W1.
      destruct (IH x1 I1 (Hms _ I1) (start x1 + (t0 - total p1)) (stop x1)) as (b1 & Eb1 & Pb1 & Lb1);
        try qc; [exact W1|].
      (* last *)
      assert (E2' : subs = (p1 ++ x1 :: mid) ++ x2 :: r2) by (rewrite <- app_assoc; exact E1).
      pose proof (W _ x2 r2 E2') as W2. rewrite total_app in W2. cbn [total] in W2.
      specialize (W2 ltac:(qc) T1).
      replace (qmax 0 (t0 - (total p1 + (plength x1 + total mid)))) with 0 in W2
        by (unfold qmax; destruct (qleb_spec 0 (t0 - (total p1 + (plength x1 + total mid)))); [qc|reflexivity]).
      replace (qmin (plength x2) (t1 - (total p1 + (plength x1 + total mid)))) with
        (t1 - (total p1 + (plength x1 + total mid))) in W2
        by (unfold qmin; destruct (qleb_spec (plength x2) (t1 - (total p1 + (plength x1 + total mid)))); [qc|reflexivity]).
      replace (start x2 + 0) with (start x2) in W2 by ring.
      destruct (IH x2 I2 (Hms _ I2) (start x2) (start x2 + (t1 - (total p1 + (plength x1 + total mid))))) as (b2 & Eb2 & Pb2 & Lb2);
        try qc; [exact W2|].
      (* middle *)
      assert (HF : exists ms, sequence (map (fun x => vbound x (start x) (stop x)) mid) = Ok ms /\
                  Forall2 (fun x b => 0 <= b /\ lip (eval1 x) (start x) (stop x) b) mid ms).
      { apply sequence_Forall2. apply Forall_forall. intros x Hx.
        destruct (in_split _ _ Hx) as (m1 & m2 & Em).
        assert (Ix : In x subs) by (rewrite E1; apply in_or_app; right; right; apply in_or_app; left; exact Hx).
        assert (Ex : subs = (p1 ++ x1 :: m1) ++ x :: (m2 ++ x2 :: r2)).
        { rewrite E1, Em. rewrite <- !app_assoc. reflexivity. }
        pose proof (ranged_len Qc _ (movable_ranged _ (Hms _ Ix))) as Nx.
        pose proof (stop_start Qc x) as Sx.
        assert (Htm : total mid = total m1 + (plength x + total m2)) by (rewrite Em, total_app; reflexivity).
        assert (Nm : 0 <= total m1 /\ 0 <= total m2).
        { rewrite Ex in Hrs. apply Forall_app in Hrs. destruct Hrs as [HrA HrB].
          apply Forall_app in HrA. destruct HrA as [_ HrA]. inversion HrA; subst.
          inversion HrB as [|? ? _ HrC]; subst. apply Forall_app in HrC. destruct HrC as [HrC _].
          split; apply (total_nonneg Qc); assumption. }
        destruct Nm as [Nm1 Nm2].
        pose proof (W _ x _ Ex) as Wx. rewrite total_app in Wx. cbn [total] in Wx.
        specialize (Wx ltac:(qc) ltac:(qc)).
        replace (qmax 0 (t0 - (total p1 + (plength x1 + total m1)))) with 0 in Wx
          by (unfold qmax; destruct (qleb_spec 0 (t0 - (total p1 + (plength x1 + total m1)))); [qc|reflexivity]).
        replace (qmin (plength x) (t1 - (total p1 + (plength x1 + total m1)))) with (plength x) in Wx
          by (unfold qmin; destruct (qleb_spec (plength x) (t1 - (total p1 + (plength x1 + total m1)))); [reflexivity|qc]).
        replace (start x + 0) with (start x) in Wx by ring. rewrite <- Sx in Wx.
        destruct (IH x Ix (Hms _ Ix) (start x) (stop x)) as (b & Eb & Pb & Lb); try qc; [exact Wx|].
        exists b. split; [exact Eb|]. split; assumption. }
      destruct HF as (ms & Ems & HF).
      assert (Ec1 : nth_error (map vbound subs) (length p1) = Some (vbound x1))
        by (rewrite nth_error_map, E1, nth_error_mid; reflexivity).
      assert (Ec2 : nth_error (map vbound subs) (length (p1 ++ x1 :: mid)) = Some (vbound x2))
        by (rewrite nth_error_map, E2', nth_error_mid; reflexivity).
      assert (Er1 : nth_error subs (length p1) = Some x1) by (rewrite E1; apply nth_error_mid).
      assert (Er2 : nth_error subs (length (p1 ++ x1 :: mid)) = Some x2) by (rewrite E2'; apply nth_error_mid).
      assert (Hseq : seq (length p1 + 1) (length (p1 ++ x1 :: mid) - length p1 - 1) = seq (length (p1 ++ [x1])) (length mid)).
      { rewrite !app_length. cbn [length]. f_equal; lia. }
      assert (Hcm := call_mid subs (p1 ++ [x1]) mid (x2 :: r2) ltac:(rewrite E1, <- app_assoc; reflexivity)).
      rewrite Hseq. rewrite Ec1, Ec2, Er1, Er2. fold (stop x1). change (fst (timeRange x2)) with (start x2).
      change (snd (timeRange x1)) with (stop x1).
      rewrite Eb1. cbn [bind].
      match goal with |- context [sequence ?m] =>
        replace m with (map (fun x => vbound x (start x) (stop x)) mid) by (symmetry; exact Hcm) end.
      rewrite Ems. cbn [bind]. rewrite Eb2. cbn [bind].
      eexists. split; [reflexivity|].
      destruct (fold_max (ms ++ [b2]) b1) as [M1 M2]. apply Forall_app in M2. destruct M2 as [M2 M3].
      inversion M3 as [|? ? M3' _]; subst. set (M := fold_left qmax (ms ++ [b2]) b1) in *.
      split; [eapply Qcle_trans; [exact Pb1|exact M1]|].
      assert (Lf : lip (eval1 (PV h (p1 ++ x1 :: mid ++ x2 :: r2))) t0 (total p1 + plength x1) M).
      { replace t0 with (total p1 + (t0 - total p1)) by ring.
        apply (pv_lip_piece h _ p1 x1 (mid ++ x2 :: r2) _ _ _ Hb Hrs Hcont eq_refl); try qc.
        apply (lip_le _ _ _ b1); [|exact M1]. rewrite <- S1. exact Lb1. }
      assert (Lm : lip (eval1 (PV h (p1 ++ x1 :: mid ++ x2 :: r2))) t0 (total (p1 ++ [x1]) + total mid) M).
      { apply (pv_lip_mid h _ Hb Hrs Hcont mid ms (p1 ++ [x1]) (x2 :: r2)).
        - rewrite <- app_assoc. reflexivity.
        - clear - HF. induction HF as [|x b l l' [_ X] _ IHF]; constructor; assumption.
        - exact M2.
        - rewrite total_app. cbn [total]. qc.
        - rewrite total_app. cbn [total]. replace (total p1 + (plength x1 + 0)) with (total p1 + plength x1) by ring. exact Lf. }
      apply (lip_join _ _ (total (p1 ++ [x1]) + total mid)).
      * rewrite total_app. cbn [total]. qc.
      * rewrite total_app. cbn [total]. qc.
      * exact Lm.
      * assert (Lx : lip (eval1 x2) (start x2 + 0) (start x2 + (t1 - (total p1 + (plength x1 + total mid)))) M).
        { replace (start x2 + 0) with (start x2) by ring. apply (lip_le _ _ _ b2); [exact Lb2|exact M3']. }
        assert (Z : (0 : Qc) <= 0) by apply Qcle_refl.
        pose proof (pv_lip_piece h _ (p1 ++ x1 :: mid) x2 r2 0 (t1 - (total p1 + (plength x1 + total mid))) M Hb Hrs Hcont E2' Z ltac:(qc) Lx) as G.
        rewrite total_app in G. cbn [total] in G. rewrite total_app. cbn [total].
        replace (total p1 + (plength x1 + 0) + total mid) with (total p1 + (plength x1 + total mid) + 0) by ring.
        replace t1 with (total p1 + (plength x1 + total mid) + (t1 - (total p1 + (plength x1 + total mid)))) by ring.
        exact G.
Qed.
End V.
