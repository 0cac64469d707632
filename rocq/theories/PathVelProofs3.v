(* Velocity bounds against derivatives. *)
From Coq Require Import Sorting.Sorted.
From Verif Require Import Base QcTac PathModel PathSpec PathProofs PathProofs2 PathProofs3 PathProofs4
  PathProofs5 PathVelModel PathVelSpec PathVelProofs PathVelProofs2.
Open Scope Qc_scope.

Section V.
Variable tpb : (Qc -> Qc) -> Qc -> Qc -> Qc.
Variable tpd : (Qc -> Qc) -> Qc -> Qc.
Notation movable := (movable tpb tpd).
Notation law_ok := (law_ok tpb tpd).
Notation vbound := (vbound tpb).
Notation deriv := (deriv tpd).
Notation impl_d := (impl_d tpd).

(* without interpolated paths, every interval will do *)
Lemma interp_free_waypoint (p : path1) : interp_free p -> forall t0 t1, at_waypoint p t0 t1.
Proof.
  induction p as [h q0 q1|h ks|h f|h o rv IHo|h subs IH] using path_ind'; intros H t0 t1; cbn [at_waypoint]; auto.
  - destruct H.
  - destruct rv; apply IHo; exact H.
  - cbn [interp_free] in H. apply fold_and_Forall in H.
    change (go_waypoint t0 t1 subs 0). generalize (0 : Qc) as off.
    induction subs as [|x l IHl]; intros off; cbn [go_waypoint]; [exact I|].
    inversion IH; subst. inversion H; subst. split; [intros; auto|apply IHl; assumption].
Qed.

Definition within (d B : Qc) : Prop := d <= B /\ - d <= B.
Lemma within_qabs d B : within d B <-> qabs d <= B.
Proof. unfold within, qabs. destruct (qleb_spec 0 d) as [H|H]; split; [tauto|intros; split; [assumption|qc]|tauto|intros; split; [qc|assumption]]. Qed.
Lemma qabs_div a b : 0 < b -> qabs (a / b) = qabs a / b.
Proof.
  intros Hb. assert (Hz : b <> 0) by (apply not_eq_sym, qlt_neq; exact Hb). unfold qabs.
  destruct (qleb_spec 0 a) as [H|H].
  - pose proof (qdiv_nonneg a b H Hb). destruct (qleb_spec 0 (a / b)) as [X|X]; [reflexivity|qc].
  - pose proof (qdiv_nonneg (- a) b ltac:(qc) Hb) as G.
    replace (- a / b) with (- (a / b)) in * by (field; exact Hz).
    destruct (qleb_spec 0 (a / b)) as [X|X]; [qc|reflexivity].
Qed.
Lemma within_mul d B c C : 0 <= c -> c <= C -> 0 <= B -> within d B -> within (d * c) (B * C).
Proof.
  intros H0 H1 HB [A1 A2]. pose proof (qmul_le_r _ _ c A1 H0) as M1. pose proof (qmul_le_r _ _ c A2 H0) as M2.
  pose proof (qmul_le_r _ _ B H1 HB) as M3.
  replace (c * B) with (B * c) in M3 by ring. replace (C * B) with (B * C) in M3 by ring.
  replace (- d * c) with (- (d * c)) in M2 by ring. unfold within. 
  split; eapply Qcle_trans; [exact M1|exact M3|exact M2|exact M3].
Qed.
Lemma within_le d B C : within d B -> B <= C -> within d C.
Proof. unfold within. intros [? ?] ?. split; qc. Qed.

Lemma straight_within (h : hdr Qc) q0 q1 : fst (pr h) <= snd (pr h) ->
  within (straight_d h q0 q1) (straight_vb h q0 q1).
Proof.
  intros Hr. unfold straight_d, straight_vb. destruct (qeqb_spec (fst (pr h)) (snd (pr h))) as [Hc|Hc].
  - split; vm_compute; discriminate.
  - apply within_qabs. rewrite qabs_div; [apply Qcle_refl|]. unfold ilen. pose proof (qneq_lt _ _ Hr Hc). qc.
Qed.

Lemma pv_vb_ge subs s0 s1 s p1 x1 r1 p2 x2 r2 p x r B : Forall ranged subs ->
  0 <= s0 -> s0 <= s -> s <= s1 ->
  locate Qc subs s0 p1 x1 r1 -> locate Qc subs s1 p2 x2 r2 -> locate Qc subs s p x r ->
  pv_vb subs (map vbound subs) s0 s1 = Ok B ->
  exists u v b, vbound x u v = Ok b /\ b <= B /\
    start x <= u /\ u <= start x + (s - total p) /\ start x + (s - total p) <= v /\ v <= stop x.
Proof.
  intros Hrs H0 Hs0 Hs1 L1 L2 L H.
  assert (Hs : 0 <= s) by qc. assert (Hs1' : 0 <= s1) by qc.
  pose proof (locate_order Qc _ _ _ _ _ _ _ _ _ Hrs H0 Hs0 L1 L) as O1.
  pose proof (locate_order Qc _ _ _ _ _ _ _ _ _ Hrs Hs Hs1 L L2) as O2.
  pose proof (locate_le Qc _ _ _ _ _ L1 Hrs H0) as A1. pose proof (locate_le Qc _ _ _ _ _ L2 Hrs Hs1') as A2.
  pose proof (locate_le Qc _ _ _ _ _ L Hrs Hs) as A.
  unfold pv_vb in H. rewrite (rank_at_locate Qc _ _ _ _ _ Hrs L1), (rank_at_locate Qc _ _ _ _ _ Hrs L2) in H.
  cbn [bind] in H. destruct L1 as (E1 & B1 & C1), L2 as (E2 & B2 & C2), L as (E & Bx & Cx).
  pose proof (stop_start Qc x) as S. 
  assert (Rx : 0 <= plength x).
  { apply (ranged_len Qc). rewrite E in Hrs. apply Forall_app in Hrs. destruct Hrs as [_ Hrs]. inversion Hrs; assumption. }
  assert (Ex : nth_error (map vbound subs) (length p) = Some (vbound x)) by (rewrite nth_error_map, E, nth_error_mid; reflexivity).
  assert (Er : nth_error subs (length p) = Some x) by (rewrite E, nth_error_mid; reflexivity).
  assert (Same : forall p' x' r', subs = p' ++ x' :: r' -> length p = length p' -> p = p' /\ x = x').
  { intros p' x' r' E' EL. rewrite E in E'. destruct (app_eq_split _ _ _ _ _ _ E' ltac:(lia)) as [(-> & -> & _)|(m & -> & _)]; [auto|].
    rewrite app_length in EL. cbn [length] in EL. lia. }
  destruct (Nat.eqb_spec (length p1) (length p2)) as [Q|Q].
  - destruct (Same _ _ _ E1 ltac:(lia)) as [-> ->]. destruct (Same _ _ _ E2 ltac:(lia)) as [-> ->].
    rewrite Ex in H. exists (start x2 + (s0 - total p2)), (start x2 + (s1 - total p2)), B.
    split; [exact H|]. repeat split; try apply Qcle_refl; try qc.
  - destruct (nth_error (map vbound subs) (length p1)) as [f1|] eqn:Ef1; [|discriminate].
    match type of H with bind ?r _ = _ => destruct r as [b1| | |] eqn:Eb1; try discriminate end.
    cbn [bind] in H.
    match type of H with bind ?r _ = _ => destruct r as [ms| | |] eqn:Ems; try discriminate end.
    cbn [bind] in H.
    match type of H with bind ?r _ = _ => destruct r as [b2| | |] eqn:Eb2; try discriminate end.
    cbn [bind] in H. apply ok_inj in H. destruct (fold_max (ms ++ [b2]) b1) as [M1 M2]. rewrite H in M1, M2.
    apply Forall_app in M2. destruct M2 as [M2 M3]. pose proof (Forall_inv M3) as M3'. cbn beta in M3'.
    destruct (Nat.eq_dec (length p) (length p1)) as [Q1|Q1].
    + destruct (Same _ _ _ E1 Q1) as [-> ->]. rewrite Ex in Ef1. injection Ef1 as <-. rewrite Er in Eb1.
      exists (start x1 + (s0 - total p1)), (stop x1), b1. split; [exact Eb1|].
      repeat split; try assumption; try apply Qcle_refl; qc.
    + destruct (Nat.eq_dec (length p) (length p2)) as [Q2|Q2].
      * destruct (Same _ _ _ E2 Q2) as [-> ->]. rewrite Ex, Er in Eb2.
        exists (start x2), (start x2 + (s1 - total p2)), b2. split; [exact Eb2|].
        repeat split; try assumption; try apply Qcle_refl; qc.
      * assert (G : forall idx ms, sequence (map (fun i => match nth_error (map vbound subs) i with
                | Some f => f (fst match nth_error subs i with Some x => timeRange x | None => (Q2Qc 0, Q2Qc 0) end)
                              (snd match nth_error subs i with Some x => timeRange x | None => (Q2Qc 0, Q2Qc 0) end)
                | None => UB end) idx) = Ok ms -> In (length p) idx ->
              exists b, In b ms /\ vbound x (start x) (stop x) = Ok b).
        { clear - Ex Er. induction idx as [|i idx IH]; intros ms H Hi; [destruct Hi|].
          cbn [map sequence] in H.
          match type of H with bind ?r _ = _ => destruct r as [b| | |] eqn:Eb; try discriminate end. cbn [bind] in H.
          match type of H with bind ?r _ = _ => destruct r as [bs| | |] eqn:Ebs; try discriminate end. cbn [bind] in H.
          apply ok_inj in H. subst ms. destruct Hi as [->|Hi].
          - rewrite Ex, Er in Eb. exists b. split; [left; reflexivity|exact Eb].
          - destruct (IH bs eq_refl Hi) as (c & I1 & I2). exists c. split; [right; exact I1|exact I2]. }
        destruct (G _ _ Ems) as (b & Ib & Eb).
        { apply in_seq. lia. }
        rewrite Forall_forall in M2. exists (start x), (stop x), b. split; [exact Eb|].
        repeat split; try apply Qcle_refl; try (apply M2; exact Ib); qc.
Qed.

Lemma impl_d_PV h subs s : impl_d (PV h subs) s =
  bind (rank_at_param (map timeRange subs) s) (fun il =>
    match nth_error (map deriv subs) (fst il) with Some d => d (snd il) | None => UB end).
Proof. reflexivity. Qed.

(* the derivative exists and is bounded, at the level of parameters *)
Lemma wrap_within (p : path1) t0 t1 t b d : law_ok (hd_of p) ->
  start p <= t0 -> t0 <= t -> t <= t1 -> t1 <= stop p -> 0 <= b ->
  impl_d p (param_at (hd_of p) t) = Ok d -> within d b ->
  exists d', deriv p t = Ok d' /\ within d' (scaled tpb (hd_of p) t0 t1 b).
Proof.
  intros Hl H0 Ht0 Ht1 H1 Hb Ed Hw. unfold PathVelModel.deriv, scaled, param_at, PathVelSpec.law_ok in *.
  destruct (tp (hd_of p)) as [f|].
  - rewrite Ed. cbn [bind]. eexists. split; [reflexivity|].
    destruct Hl as (_ & _ & _ & Hd). destruct (Hd t0 t1 t H0 Ht0 Ht1 H1) as [D0 D1].
    apply within_mul; assumption.
  - exists d. split; assumption.
Qed.

Lemma deriv_bound (p : path1) : movable p -> interp_free p ->
  forall t0 t1 t B, start p <= t0 -> t0 <= t -> t <= t1 -> t1 <= stop p ->
  vbound p t0 t1 = Ok B -> exists d, deriv p t = Ok d /\ within d B.
Proof.
  induction p as [h q0 q1|h ks|h f|h o rv IHo|h subs IH] using path_ind';
    intros Hm Hf t0 t1 t B H0 Ht0 Ht1 H1 HB; assert (H01 : t0 <= t1) by qc;
    pose proof HB as HB'; rewrite vbound_in in HB by assumption.
  - destruct Hm as (Hr & Hc & Hl & _). cbn [bind hd_of] in *. cbv zeta in HB. apply ok_inj in HB. subst B.
    pose proof (law_range tpb tpd h t0 Hl H0 ltac:(eapply Qcle_trans; [exact H01|exact H1])) as [R1 R2].
    destruct (straight_lip h q0 q1 0 0) as [P _]; [qc|].
    apply (wrap_within (Straight h q0 q1) t0 t1 t _ (straight_d h q0 q1) Hl H0 Ht0 Ht1 H1 P eq_refl).
    apply straight_within. qc.
  - destruct Hf.
  - discriminate.
  - destruct Hm as (Hr & Hc & Hl & Hbo & Hmo & Ra & Rb & Rc & Rd). cbn [hd_of interp_free] in *. cbv zeta in *.
    assert (T0 : fst (tr h) <= t) by (unfold start, timeRange in H0; cbn [hd_of] in H0; qc).
    assert (T1 : t <= snd (tr h)) by (unfold stop, timeRange in H1; cbn [hd_of] in H1; qc).
    pose proof (law_mono tpb tpd h t0 t Hl H0 Ht0 T1) as M0.
    pose proof (law_mono tpb tpd h t t1 Hl T0 Ht1 H1) as M1.
    pose proof (law_range tpb tpd h t0 Hl H0 ltac:(eapply Qcle_trans; [exact H01|exact H1])) as [R1 R2].
    pose proof (law_range tpb tpd h t1 Hl ltac:(eapply Qcle_trans; [exact H0|exact H01]) H1) as [R3 R4].
    match type of HB with bind ?r _ = _ => destruct r as [b| | |] eqn:Eb; try discriminate end.
    cbn [bind] in HB. apply ok_inj in HB. subst B.
    assert (Ed : forall s, impl_d o s = deriv o s)
      by (intros s; unfold PathVelModel.deriv; destruct Hbo as (-> & _); reflexivity).
    assert (G : 0 <= b /\ exists d, impl_d (Extr h o rv) (param_at h t) = Ok d /\ within d b).
    { set (s0 := param_at h t0) in *. set (s1 := param_at h t1) in *. set (s := param_at h t) in *.
      cbn [PathVelModel.impl_d]. unfold s_in_original in *.
      assert (Wo := interp_free_waypoint o Hf). destruct rv.
      - destruct (qltb_spec (snd (pr h) - s1) (snd (pr h) - s0)) as [L|L].
        + split.
          * destruct (vbound_lip tpb tpd o Hmo (snd (pr h) - s1) (snd (pr h) - s0)) as (b' & Eb' & Pb & _); try qc; [apply Wo|].
            rewrite Eb' in Eb. injection Eb as <-. exact Pb.
          * destruct (IHo Hmo Hf (snd (pr h) - s1) (snd (pr h) - s0) (snd (pr h) - s) b ltac:(qc) ltac:(qc) ltac:(qc) ltac:(qc) Eb) as (d & Ed' & [W1 W2]).
            rewrite Ed, Ed'. cbn [bind]. exists (- d). split; [reflexivity|]. split; qc.
        + assert (Es : s0 = s1) by qc. assert (Es' : s = s0) by (apply Qcle_antisym; [rewrite Es; exact M1|exact M0]). rewrite Es', <- Es in *.
          split.
          * destruct (vbound_lip tpb tpd o Hmo (snd (pr h) - s0) (snd (pr h) - s0)) as (b' & Eb' & Pb & _); try qc; [apply Wo|].
            rewrite Eb' in Eb. injection Eb as <-. exact Pb.
          * destruct (IHo Hmo Hf (snd (pr h) - s0) (snd (pr h) - s0) (snd (pr h) - s0) b ltac:(qc) ltac:(qc) ltac:(qc) ltac:(qc) Eb) as (d & Ed' & [W1 W2]).
            rewrite Ed, Ed'. cbn [bind]. exists (- d). split; [reflexivity|]. split; qc.
      - destruct (qltb_spec s1 s0) as [L|L]; [qc|]. split.
        + destruct (vbound_lip tpb tpd o Hmo s0 s1) as (b' & Eb' & Pb & _); try qc; [apply Wo|].
          rewrite Eb' in Eb. injection Eb as <-. exact Pb.
        + destruct (IHo Hmo Hf s0 s1 s b ltac:(qc) ltac:(qc) ltac:(qc) ltac:(qc) Eb) as (d & Ed' & W).
          rewrite Ed, Ed'. exists d. split; [reflexivity|exact W]. }
    destruct G as (Pb & d & Ed' & W).
    apply (wrap_within (Extr h o rv) t0 t1 t b d Hl H0 Ht0 Ht1 H1 Pb Ed' W).
  - destruct Hm as (Hr & Hc & Hl & Htp & Hne & Htr & Hcont & Hms). apply fold_and_Forall in Hms.
    cbn [interp_free] in Hf. apply fold_and_Forall in Hf.
    cbn [hd_of] in *. cbv zeta in HB.
    assert (Hrs : Forall ranged subs) by (eapply Forall_impl; [|exact Hms]; apply movable_ranged).
    unfold param_at, scaled in HB. rewrite Htp in HB.
    unfold start, stop, timeRange in H0, H1. cbn [hd_of] in H0, H1. rewrite Htr in H0, H1. cbn [fst snd] in H0, H1.
    match type of HB with bind ?r _ = _ => destruct r as [b| | |] eqn:Eb; try discriminate end.
    cbn [bind] in HB. apply ok_inj in HB. subst b.
    assert (Q0 : t0 <= total subs) by qc. assert (Q1 : 0 <= t1) by qc. assert (Q2 : 0 <= t) by qc. assert (Q3 : t <= total subs) by qc.
    destruct (locate_exists Qc subs t0 Hne H0 Q0) as (p1 & x1 & r1 & L1).
    destruct (locate_exists Qc subs t1 Hne Q1 H1) as (p2 & x2 & r2 & L2).
    destruct (locate_exists Qc subs t Hne Q2 Q3) as (p & x & r & L).
    destruct (pv_vb_ge subs t0 t1 t _ _ _ _ _ _ _ _ _ B Hrs H0 Ht0 Ht1 L1 L2 L Eb) as (u & v & b & Exb & HbB & U1 & U2 & U3 & U4).
    assert (Ix : In x subs) by (destruct L as (-> & _); apply in_or_app; right; left; reflexivity).
    rewrite Forall_forall in IH, Hms, Hf.
    destruct (IH x Ix (Hms x Ix) (Hf x Ix) u v (start x + (t - total p)) b U1 U2 U3 U4 Exb) as (d & Ed & W).
    exists d. split; [|apply (within_le _ b); assumption].
    unfold PathVelModel.deriv. cbn [hd_of]. rewrite Htp. rewrite impl_d_PV.
    rewrite (rank_at_locate Qc _ _ _ _ _ Hrs L). cbn [bind fst snd].
    destruct L as (-> & _). rewrite nth_error_map, nth_error_mid. cbn [option_map]. exact Ed.
Qed.

(* interpolated paths, from a waypoint; the derivative at the upper bound is
   the one of the next segment, unless this is the end of the path *)
Lemma around_within (r : list (Qc * Qc)) : forall a s1 acc B s b c, kok (a :: r) ->
  interp_vb_loop (a :: r) s1 acc = Ok B -> fst a <= s -> s < s1 ->
  around (a :: r) s = Some (b, c) ->
  within ((snd c - snd b) / (fst c - fst b)) B.
Proof.
  induction r as [|n r IH]; intros a s1 acc B s b c Hk H Ha Hs Har.
  - discriminate.
  - pose proof (kok_cons _ _ _ Hk) as [Hk' Hf]. inversion Hf as [|? ? Han _]; subst.
    rewrite loop_cons in H. destruct (qltb_spec (fst a) s1) as [L|L]; [|qc].
    change (around (a :: n :: r) s) with (if qltb s (fst n) then Some (a, n) else around (n :: r) s) in Har.
    destruct (qltb_spec s (fst n)) as [X|X].
    + injection Har as <- <-. apply within_qabs. rewrite qabs_div by qc.
      eapply Qcle_trans; [apply qmax_r|]. apply loop_acc in H. exact H.
    + apply (IH n s1 _ B s b c Hk' H X Hs Har).
Qed.
Lemma around_suffix pre k post s : kok (pre ++ k :: post) -> fst k <= s -> around (pre ++ k :: post) s = around (k :: post) s.
Proof.
  induction pre as [|a pre IH]; intros H Hs; [reflexivity|]. cbn [app] in *.
  pose proof (kok_cons _ _ _ H) as [H1 H2]. rewrite <- (IH H1 Hs).
  assert (E : exists y ys, pre ++ k :: post = y :: ys /\ fst y <= s).
  { destruct pre as [|y pre]; cbn [app]; [exists k, post; auto|]. exists y, (pre ++ k :: post). split; [reflexivity|].
    pose proof (kok_app_lt Qc (y :: pre) (k :: post) y k H1 (or_introl eq_refl) (or_introl eq_refl)). qc. }
  destruct E as (y & ys & E & Hy). rewrite E.
  change (around (a :: y :: ys) s) with (if qltb s (fst y) then Some (a, y) else around (y :: ys) s).
  destruct (qltb_spec s (fst y)); [qc|reflexivity].
Qed.
Lemma around_total r : forall a s, kok (a :: r) -> (exists kl, klast (a :: r) = Some kl /\ s < fst kl) -> fst a <= s ->
  exists b c, around (a :: r) s = Some (b, c).
Proof.
  induction r as [|n r IH]; intros a s Hk (kl & El & Hl) Ha.
  - cbn in El. injection El as <-. qc.
  - change (around (a :: n :: r) s) with (if qltb s (fst n) then Some (a, n) else around (n :: r) s).
    destruct (qltb_spec s (fst n)) as [X|X]; [eauto|]. apply kok_cons in Hk. destruct Hk as [Hk _].
    apply IH; [exact Hk| |exact X]. exists kl. rewrite klast_cons in El. auto.
Qed.
(* the last segment is visited when the interval reaches the end *)
Lemma loop_last_seg l : forall a s1 acc B b c, kok (l ++ [b; c]) -> hd_error (l ++ [b; c]) = Some a ->
  interp_vb_loop (l ++ [b; c]) s1 acc = Ok B -> fst b < s1 -> within ((snd c - snd b) / (fst c - fst b)) B.
Proof.
  induction l as [|y l IH]; intros a s1 acc B b c Hk Ha H Hs; cbn [app] in *.
  - rewrite loop_cons in H. destruct (qltb_spec (fst b) s1) as [L|L]; [|qc].
    apply within_qabs. pose proof (kok_cons _ _ _ Hk) as [_ Hf]. inversion Hf as [|? ? Hbc _]; subst. rewrite qabs_div by qc.
    eapply Qcle_trans; [apply qmax_r|]. apply loop_acc in H. exact H.
  - pose proof (kok_cons _ _ _ Hk) as [Hk' Hf].
    assert (E : exists z zs, l ++ [b; c] = z :: zs) by (destruct l; cbn [app]; eauto). destruct E as (z & zs & E).
    assert (Hys : fst y < fst b). { rewrite Forall_forall in Hf. apply Hf. apply in_or_app. right; left; reflexivity. }
    rewrite E in H. rewrite loop_cons in H. destruct (qltb_spec (fst y) s1) as [L|L]; [|qc]. rewrite <- E in H.
    eapply (IH z s1); [exact Hk'|rewrite E; reflexivity|exact H|exact Hs].
Qed.

Lemma interp_deriv_bound h ks t0 t1 t B : movable (Interp h ks) ->
  fst (tr h) <= t0 -> t0 <= t -> t <= t1 -> t1 <= snd (tr h) -> at_waypoint (Interp h ks) t0 t1 ->
  t0 < t1 -> (param_at h t < param_at h t1 \/ (param_at h t1 = snd (pr h) /\ param_at h t0 < param_at h t1)) ->
  vbound (Interp h ks) t0 t1 = Ok B ->
  exists d, deriv (Interp h ks) t = Ok d /\ within d B.
Proof.
  intros Hm H0 Ht0 Ht1 H1 (k & Hin & Ek) Hlt Hcase HB. cbn [hd_of] in Ek.
  destruct Hm as (Hr & Hc & Hl & Hok). cbn [hd_of] in *.
  rewrite vbound_in in HB by (try assumption; qc). cbn [hd_of] in HB. cbv zeta in HB.
  assert (T0 : fst (tr h) <= t) by qc. assert (T1 : t <= snd (tr h)) by qc.
  pose proof (law_mono tpb tpd h t0 t Hl H0 Ht0 T1) as M0.
  pose proof (law_mono tpb tpd h t t1 Hl T0 Ht1 H1) as M1.
  pose proof (law_range tpb tpd h t1 Hl ltac:(qc) H1) as [R3 R4].
  pose proof (law_range tpb tpd h t0 Hl H0 ltac:(qc)) as [R1 R2].
  pose proof Hok as (Hk & k0 & kl & E0 & El & F0 & Fl). change (kok ks) in Hk.
  match type of HB with bind ?r _ = _ => destruct r as [b| | |] eqn:Eb; try discriminate end.
  cbn [bind] in HB. apply ok_inj in HB. subst B.
  unfold interp_vb in Eb. destruct (lower_at ks k Hk Hin) as (pre & post & E & Lo).
  rewrite <- Ek, Lo in Eb.
  assert (Pb : 0 <= b) by (apply loop_acc in Eb; exact Eb).
  assert (Hks : kok (k :: post)) by (rewrite E in Hk; apply kok_suffix in Hk; exact Hk).
  assert (G : exists d, impl_d (Interp h ks) (param_at h t) = Ok d /\ within d b).
  { cbn [PathVelModel.impl_d]. unfold interp_d.
    set (s0 := param_at h t0) in *. set (s1 := param_at h t1) in *. set (s := param_at h t) in *.
    destruct (qeqb_spec (fst (pr h)) (snd (pr h))) as [Z|Z]; [exfalso; destruct Hcase as [C|[C1 C2]]; qc|].
    unfold klast in El. destruct (rev ks) as [|a rr] eqn:Erev; [discriminate|]. injection El as ->.
    destruct (qleb_spec (fst kl) s) as [X|X].
    - (* at the end *)
      destruct Hcase as [C|[C1 C2]]; [qc|].
      assert (Ekk : k <> kl) by (intros ->; qc).
      destruct rr as [|bb rr].
      { exfalso. apply (f_equal (@rev _)) in Erev. rewrite rev_involutive in Erev. cbn in Erev.
        rewrite Erev in Hin. destruct Hin as [->|[]]; contradiction. }
      eexists. split; [reflexivity|].
      assert (Eks : ks = rev rr ++ [bb; kl]).
      { apply (f_equal (@rev _)) in Erev. rewrite rev_involutive in Erev. cbn [rev] in Erev. rewrite <- app_assoc in Erev. exact Erev. }
      (* the suffix from k ends with bb, kl *)
      assert (Esuf : exists l, k :: post = l ++ [bb; kl]).
      { rewrite E in Eks.
        destruct post as [|z zs].
        - exfalso. change [bb; kl] with ([bb] ++ [kl]) in Eks. rewrite app_assoc in Eks.
          apply app_inj_tail in Eks. destruct Eks as [_ ->]. contradiction.
        - destruct (@exists_last _ (z :: zs)) as (m & y & Em); [discriminate|]. rewrite Em in Eks |- *.
          destruct m as [|m0 m'].
          + cbn [app] in *. change [k; y] with ([k] ++ [y]) in Eks. change [bb; kl] with ([bb] ++ [kl]) in Eks.
            rewrite !app_assoc in Eks. apply app_inj_tail in Eks. destruct Eks as [Eks ->].
            apply app_inj_tail in Eks. destruct Eks as [_ ->]. exists []. reflexivity.
          + destruct (@exists_last _ (m0 :: m')) as (m2 & y2 & Em2); [discriminate|]. rewrite Em2 in Eks |- *.
            exists (k :: m2). change (k :: (m2 ++ [y2]) ++ [y]) with ((k :: m2 ++ [y2]) ++ [y]) in Eks |- *.
            change [bb; kl] with ([bb] ++ [kl]) in Eks |- *. rewrite !app_assoc in Eks. apply app_inj_tail in Eks. destruct Eks as [Eks ->].
            change (k :: m2 ++ [y2]) with ((k :: m2) ++ [y2]) in Eks. rewrite app_assoc in Eks. apply app_inj_tail in Eks. destruct Eks as [_ ->].
            cbn [app]. rewrite <- app_assoc. reflexivity. }
      destruct Esuf as (l & El'). rewrite El' in Eb, Hks.
      eapply (loop_last_seg l); [exact Hks|rewrite <- El'; reflexivity|exact Eb|].
      assert (Hbk : fst bb < fst kl).
      { rewrite Eks in Hk. apply kok_suffix in Hk. apply kok_cons in Hk. destruct Hk as [_ Hf]. inversion Hf; assumption. }
      qc.
    - (* before the end *)
      rewrite E. rewrite around_suffix by (try (rewrite <- E; exact Hk); qc).
      destruct (around_total post k s Hks) as (bb & c & Ear).
      { exists kl. split; [|exact X]. rewrite <- (klast_suffix pre k post), <- E. unfold klast. rewrite Erev. reflexivity. }
      { qc. }
      rewrite Ear. eexists. split; [reflexivity|].
      destruct Hcase as [C|[C1 C2]].
      + eapply (around_within post k s1); [exact Hks|exact Eb| |exact C|exact Ear]. qc.
      + eapply (around_within post k s1); [exact Hks|exact Eb| | |exact Ear]; qc. }
  destruct G as (d & Ed & W).
  apply (wrap_within (Interp h ks) t0 t1 t b d Hl H0 Ht0 Ht1 H1 Pb Ed W).
Qed.
End V.
