(* Label l2a and the whole run in exact arithmetic. *)
From Coq Require Import Reals Lra Lia Arith List Bool.
From Verif Require Import Base XReal SplineModel SplineProofs LinConsModel LinConsSpec LinConsProofs LinConsProofs2 GiModel GiSpec GiProofs GiProofs2 GiProofs3.
Open Scope R_scope.

Section Dual.
Variables (n p m : nat) (c1 : R) (G H0 : mat) (g : vec) (ceJ ciJ : mat) (ceb cib : vec).
Hypothesis GH : forall i l, (i < n)%nat -> (l < n)%nat -> rsum (fun k => G i k * H0 k l) n = mid i l.
Hypothesis Gsym : symmetric n G.
Hypothesis Gpsd : psd n G.
Notation nrm := (nrm p ceJ ciJ).
Notation rh := (rh p ceb cib).
Notation slack := (slack n ciJ cib).
Notation core := (core n p m G H0 g ceJ ciJ ceb cib).
Notation inv := (inv n p m G H0 g ceJ ciJ ceb cib).
Notation inv3 := (inv3 n p m G H0 g ceJ ciJ ceb cib).
Notation goes := (goes n p m G H0 g ceJ ciJ ceb cib).

Lemma min_some (t1 : option R) b : let t := match t1 with Some a => if rltb b a then b else a | None => b end in
  t <= b /\ (forall a, t1 = Some a -> t <= a) /\ (t = b \/ (t1 = Some t /\ t < b)).
Proof.
  destruct t1 as [a|]; cbv zeta.
  - destruct (rltb b a) eqn:E; [apply rltb_t in E|apply rltb_f in E].
    + split; [lra|]. split; [intros a' [= <-]; lra|left; reflexivity].
    + split; [lra|]. split; [intros a' [= <-]; lra|]. destruct (Req_dec a b); [left; assumption|right; split; [reflexivity|lra]].
  - split; [lra|]. split; [discriminate|left; reflexivity].
Qed.

Lemma l2a_goes f : inv3 f -> goes (at_l2a n p m 0 ciJ cib f).
Proof.
  intros (HC & HK & Aip & Him & Hs & Hneg). unfold at_l2a. cbv zeta.
  set (st := fst_ f) in *. set (iq := giq st) in *. set (ip := fip f) in *.
  set (np := ciJ ip). set (d := compute_d n (gJ st) np). set (z := update_z n (gJ st) d iq). set (r := update_r (gR st) d iq).
  set (moved := fun t k => if (k <? iq)%nat then gu st k - t * r k else if (k =? iq)%nat then gu st k + t else gu st k).
  pose proof (k_fact _ _ _ _ _ _ _ _ _ _ _ _ HC) as F. pose proof (k_p _ _ _ _ _ _ _ _ _ _ _ _ HC) as Fp.
  pose proof (k_A _ _ _ _ _ _ _ _ _ _ _ _ HC) as FA. pose proof (k_inj _ _ _ _ _ _ _ _ _ _ _ _ HC) as Fi.
  pose proof (k_act _ _ _ _ _ _ _ _ _ _ _ _ HC) as Fa. pose proof (k_dual _ _ _ _ _ _ _ _ _ _ _ _ HC) as Fd.
  fold iq in F, Fp, FA, Fi, Fa, Fd.
  pose proof (move_Gz n p m G H0 g ceJ ciJ ceb cib GH st HC ip) as Gz. fold iq np d z r in Gz.
  pose proof (move_stat n p m G H0 g ceJ ciJ ceb cib GH st HC ip Aip) as Mst. fold iq np d z r in Mst. fold moved in Mst.
  pose proof (move_cost n p m G H0 g ceJ ciJ ceb cib GH Gsym st HC ip Aip) as Mc. fold iq np d z r in Mc.
  pose proof (move_act n p m G H0 g ceJ ciJ ceb cib st HC ip) as Ma. fold iq np d z r in Ma.
  pose proof (move_slack n ciJ cib st ip) as Ms. fold iq np d z r in Ms.
  pose proof (move_dual n p m G H0 g ceJ ciJ ceb cib st HC ip Aip) as Md. fold iq np d z r in Md. fold moved in Md.
  pose proof (fun x u f' l s => drop n p m G H0 g ceJ ciJ ceb cib st HC ip Aip x u f' l s (fss f) (fiai f) (fex f) (fxo f) (fuo f) (fAo f)) as Dr.
  fold iq in Dr.
  destruct (partial_step (gA st) (gu st) r p (iq - p) None 0) as [t1 l] eqn:Et. apply partial_step_spec in Et. destruct Et as [Et1 Et2].
  assert (T1 : forall t, t1 = Some t -> 0 <= t /\ (forall j, (p <= j < iq)%nat -> 0 < r j -> t <= gu st j / r j) /\
     exists j, (p <= j < iq)%nat /\ gA st j = l /\ moved t j = 0).
  { intros t Ht. destruct (Et2 t Ht) as (X1 & _ & X3). destruct X1 as [[X1 _]|(j & J1 & J2 & J3 & J4)]; [discriminate|].
    split; [rewrite J3; apply Rmult_le_pos; [apply Fd; lia|left; apply Rinv_0_lt_compat, J2]|].
    split; [intros q Hq; apply X3; lia|]. exists j. split; [lia|]. split; [congruence|].
    unfold moved. assert (Y : (j <? iq)%nat = true) by (apply Nat.ltb_lt; lia). rewrite Y, J3. field. lra. }
  destruct (rltb 0 (Rabs (dot n z z))) eqn:Ez.
  - (* the primal direction is not zero *)
    pose proof (zz_pos n (gJ st) iq np) as Zp. fold d z in Zp. specialize (Zp Ez).
    pose proof (iq_lt n (gJ st) iq np) as Lq. fold d z in Lq. specialize (Lq Zp).
    set (b := - fs f ip / dot n z np).
    assert (Hb : b * dot n z np = - fs f ip) by (unfold b; field; lra).
    assert (Bp : 0 < b) by (unfold b; apply Rdiv_lt_0_compat; lra).
    pose proof (min_some t1 b) as Hm. cbv zeta in Hm.
    set (t := match t1 with Some a => if rltb b a then b else a | None => b end) in *.
    enough (E : goes
       (if reqb t b then
          match add_constraint n 0 (gR st) (gJ st) d iq (gRn st) with
          | Ok (true, R', J', Rn') =>
            Ok (Next L1 (mkFull (mkGi (fun k => gx st k + t * z k) (moved t) (gA st) (S iq) R' J' Rn' (gf st + t * dot n z np * (1 / 2 * t + gu st iq))) (fs f) (fss f) ip
              (updv (fiai f) ip false) (fex f) (fxo f) (fuo f) (fAo f)))
          | Ok (false, R', J', Rn') =>
            if (p + m <=? S iq)%nat then UB
            else match delete_constraint p R' J' (gA st) (moved t) (S iq) ip with
            | Ok (R'', J'', _, _) =>
              if ((0 <? p) && (0 <? iq))%nat%bool then UB
              else Ok (Next L2 (mkFull (mkGi (fxo f) (fuo f) (fAo f) iq R'' J'' Rn' (gf st + t * dot n z np * (1 / 2 * t + gu st iq))) (fs f) (fss f) ip
                (fun i => negb (existsb (fun k => (fAo f k =? i)%nat) (seq 0 iq))) (updv (fex f) ip false)
                (fxo f) (fuo f) (fAo f)))
            | Throw => Throw | UB => UB | Fuel => Fuel
            end
          | Throw => Throw | UB => UB | Fuel => Fuel
          end
        else
          match delete_constraint p (gR st) (gJ st) (gA st) (moved t) iq l with
          | Ok (R', J', A', u') =>
            Ok (Next L2a (mkFull (mkGi (fun k => gx st k + t * z k) u' A' (iq - 1) R' J' (gRn st) (gf st + t * dot n z np * (1 / 2 * t + gu st iq)))
              (updv (fs f) ip (dot n (ciJ ip) (fun k => gx st k + t * z k) + - cib ip)) (fss f) ip
              (updv (fiai f) l true) (fex f) (fxo f) (fuo f) (fAo f)))
          | Throw => Throw | UB => UB | Fuel => Fuel
          end)) by (clear - E; clearbody d z r; destruct t1; exact E).
    assert (Tp : 0 <= t).
    { destruct Hm as (_ & _ & [->|[X _]]); [lra|]. apply (T1 t X). }
    assert (Tr : forall j, (p <= j < iq)%nat -> 0 < r j -> t <= gu st j / r j).
    { intros j Hj Hr. destruct t1 as [a|]; [|destruct (Et1 eq_refl) as [_ X]; specialize (X j ltac:(lia)); lra].
      destruct (T1 a eq_refl) as (_ & X & _). specialize (X j Hj Hr). destruct Hm as (_ & Y & _). specialize (Y a eq_refl). lra. }
    destruct (reqb t b) eqn:Eb; [apply reqb_t in Eb|apply reqb_f in Eb].
    + (* full step *)
      destruct (add_fact n H0 (gJ st) (gR st) iq (nrm (gA st)) np (gRn st) F Lq) as [_ B2]. fold d in B2.
      pose proof (z_np n (gJ st) iq np) as Ew. fold d z in Ew. rewrite <- Ew in B2.
      destruct (B2 ltac:(lra)) as (R' & J' & Rn' & Ea & Fact). rewrite Ea. cbn [GiProofs3.goes GiProofs3.inv]. split.
      * split; cbn [fst_ giq gx gu gA gR gJ gf].
        -- eapply fact_ext; [|exact Fact]. intros k i Hk _. unfold updv. destruct (Nat.eqb_spec k iq) as [->|]; [|reflexivity].
           unfold iq. rewrite (nrm_last n p m G H0 g ceJ ciJ ceb cib st HC ip Aip). reflexivity.
        -- lia.
        -- intros k Hk. destruct (Nat.eq_dec k iq) as [->|]; [rewrite Aip; exact Him|apply FA; lia].
        -- assert (Fresh : forall k, (p <= k < iq)%nat -> gA st k <> ip).
           { intros k Hk Ek. pose proof (act_in n p m G H0 g ceJ ciJ ceb cib _ _ k HC Hk) as X. rewrite Ek in X. lra. }
           intros k k' Hk Hk' Ekk. destruct (Nat.eq_dec k iq) as [->|N1], (Nat.eq_dec k' iq) as [->|N2]; try reflexivity.
           ++ exfalso. apply (Fresh k'); [lia|]. rewrite Aip in Ekk. congruence.
           ++ exfalso. apply (Fresh k); [lia|]. rewrite Aip in Ekk. exact Ekk.
           ++ apply Fi; lia || exact Ekk.
        -- intros k Hk. destruct (Nat.eq_dec k iq) as [->|].
           ++ pose proof (Ms t) as X. rewrite Eb in X. rewrite Hb in X. rewrite <- Eb in X. rewrite <- Hs in X.
              unfold iq at 1. rewrite (nrm_last n p m G H0 g ceJ ciJ ceb cib st HC ip Aip).
              unfold GiProofs3.rh. assert (Y : (iq <? p)%nat = false) by (apply Nat.ltb_ge; exact Fp). rewrite Y.
              rewrite Aip. unfold GiProofs3.slack in X. lra.
           ++ apply Ma. lia.
        -- intros k Hk. apply (Md t Tp Tr k Hk).
        -- intros i Hi. apply Mst, Hi.
        -- symmetry. apply Mc.
      * intros i Hi X. cbn [fiai fst_ giq gA] in *. destruct (Nat.eq_dec i ip) as [->|Hne].
        -- exists iq. split; [lia|exact Aip].
        -- rewrite updv_ne in X by exact Hne. destruct (HK i Hi X) as (k & K1 & K2). fold st in K1, K2. fold iq in K1. exists k. split; [lia|exact K2].
    + (* partial step *)
      destruct Hm as (_ & _ & [X|[X Lt]]); [contradiction|]. destruct (T1 t X) as (_ & _ & j & J1 & J2 & J3).
      destruct (Dr (fun k => gx st k + t * z k) (moved t) (gf st + t * dot n z np * (1 / 2 * t + gu st iq)) l
        (updv (fs f) ip (dot n (ciJ ip) (fun k => gx st k + t * z k) + - cib ip)) j J1 J2 J3 (Md t Tp Tr) (Mst t) (Ma t)) as (R' & J' & A' & u' & Ed & Inv).
      * symmetry. apply Mc.
      * exact Him.
      * rewrite updv_eq. reflexivity.
      * rewrite updv_eq. change (slack (fun k => gx st k + t * z k) ip < 0). rewrite Ms, <- Hs.
        assert (t * dot n z np < b * dot n z np) by (apply Rmult_lt_compat_r; assumption). lra.
      * exact HK.
      * rewrite Ed. exact Inv.
  - (* the primal direction is zero *)
    pose proof (zz_nil n (gJ st) iq np) as Zn. fold d z in Zn. specialize (Zn Ez).
    pose proof (zz_zero n (gJ st) iq np) as Z0. fold d z in Z0. specialize (Z0 Zn).
    destruct t1 as [t|].
    + destruct (T1 t eq_refl) as (Tp & Tr & j & J1 & J2 & J3).
      destruct (Dr (gx st) (moved t) (gf st) l (fs f) j J1 J2 J3 (Md t Tp Tr)) as (R' & J' & A' & u' & Ed & Inv).
      * intros i Hi. rewrite <- Mst by exact Hi. f_equal. apply mv_ext. intros k Hk. rewrite (Z0 k Hk). ring.
      * exact Fa.
      * apply (k_cost _ _ _ _ _ _ _ _ _ _ _ _ HC).
      * exact Him.
      * exact Hs.
      * exact Hneg.
      * exact HK.
      * unfold moved in Ed. rewrite Ed. exact Inv.
    + cbn [GiProofs3.goes good]. split; [|reflexivity]. intros y [Y1 Y2].
      destruct (Et1 eq_refl) as [_ Rn].
      assert (En : forall v, dot n np v = rsum (fun a => r a * dot n (nrm (gA st) a) v) iq).
      { intros v. rewrite <- dot_rsum. apply dot_ext; [|intros k _; reflexivity]. intros i Hi. specialize (Gz i Hi).
        unfold mv in Gz. rewrite rsum_zero in Gz; [lra|]. intros k Hk. rewrite (Z0 k Hk). ring. }
      pose proof (Y2 ip Him) as K. unfold GiProofs3.slack in Hs. fold np in K, Hs.
      enough (dot n np y <= dot n np (gx st)) by lra.
      rewrite !En. apply rsum_le. intros a Ha. rewrite (Fa a Ha). unfold GiProofs3.nrm, GiProofs3.rh.
      destruct (Nat.ltb_spec a p) as [L|L]; [rewrite Y1 by exact L; lra|].
      pose proof (Y2 _ (FA a ltac:(lia))). pose proof (Rn a ltac:(lia)). nra.
Qed.

Lemma run_good fuel c2 : forall l f, inv l f ->
  run n p m 0 c1 ciJ cib fuel c2 l f = Fuel \/
  exists s c st, run n p m 0 c1 ciJ cib fuel c2 l f = Ok (s, c, st) /\ good n p m G g ceJ ciJ ceb cib s c st.
Proof.
  induction fuel as [|fuel IH]; intros l f Hi; [left; reflexivity|]. cbn [run].
  assert (X : goes (jump n p m 0 c1 ciJ cib c2 l f)).
  { destruct l; cbn [jump].
    - apply (l1_goes n p m c1 c2 G H0 g ceJ ciJ ceb cib Gsym Gpsd f Hi).
    - apply (l2_goes n p m G H0 g ceJ ciJ ceb cib Gsym Gpsd f Hi).
    - apply l2a_goes, Hi. }
  destruct (jump n p m 0 c1 ciJ cib c2 l f) as [[s c st|l' f']| | |]; try contradiction.
  - right. exists s, c, st. split; [reflexivity|exact X].
  - apply IH. exact X.
Qed.
End Dual.

Notation start_ st := (mkFull st (fun _ => 0) 0 0 (fun _ => true) (fun _ => true) (gx st) (gu st) (gA st)) (only parsing).
Lemma quadprog_start n p m G g ceJ ciJ ceb cib J0 xu :
  symmetric n G -> cholesky n G g J0 xu -> (p <= n)%nat ->
  let st0 := mkGi (fun k => - xu k) (fun _ => 0) (fun _ => 0%nat) 0 (fun _ _ => 0) J0 1 (1 / 2 * dot n g (fun k => - xu k)) in
  (exists st, eq_phase n 0 ceJ ceb 0 p st0 = Ok (inl st) /\ inv1 n p m G (gram n J0) g ceJ ciJ ceb cib (start_ st)) \/
  (exists st, eq_phase n 0 ceJ ceb 0 p st0 = Ok (inr st) /\ dependent n p ceJ).
Proof.
  intros Gs [C1 C2] Hp st0.
  assert (GH : forall i l, (i < n)%nat -> (l < n)%nat -> rsum (fun k => G i k * gram n J0 k l) n = mid i l) by (intros i l Hi Hl; exact (C1 i l Hi Hl)).
  assert (E0 : ecore n G (gram n J0) g ceJ ceb st0).
  { assert (EG : forall i, (i < n)%nat -> mv n G (fun k => - xu k) i = - g i).
    { intros i Hi. rewrite <- (C2 i Hi). rewrite (mv_ext n G _ (fun k => -1 * xu k)) by (intros k _; ring). rewrite mv_scal. ring. }
    split; cbn [st0 gx gu giq gR gJ gf].
    - split; try (intros; lia); try reflexivity; lia.
    - intros k Hk. lia.
    - intros i Hi. rewrite EG by exact Hi. cbn. ring.
    - unfold cost. rewrite (dot_ext n (fun k => - xu k) (mv n G (fun k => - xu k)) (fun k => - xu k) (fun k => -1 * g k)) by
        (try (intros k _; reflexivity); intros k Hk; rewrite EG by exact Hk; ring).
      rewrite (dot_scal_r n (-1) g). rewrite (dot_sym n (fun k => - xu k) g). field. }
  destruct (eq_phase_spec n p G (gram n J0) g ceJ ceb GH Gs p 0 st0 E0 eq_refl eq_refl Hp) as [(st & Ee & Ec & Eq)|(st & Ee & Dep)].
  - left. exists st. split; [exact Ee|].
    destruct Ec as [F1 F2 F3 F4]. split; [|intros i Hi X; discriminate]. cbn [fst_]. rewrite Eq in *.
    split; rewrite ?Eq.
    + eapply fact_ext; [|exact F1]. intros k i Hk _. rewrite core_nrm_eq by exact Hk. reflexivity.
    + lia.
    + intros; lia.
    + intros; lia.
    + intros k Hk. rewrite core_nrm_eq by exact Hk. unfold rh. assert (Y : (k <? p)%nat = true) by (apply Nat.ltb_lt; exact Hk). rewrite Y. apply F2, Hk.
    + intros; lia.
    + intros i Hi. rewrite F3 by exact Hi. apply rsum_ext. intros k Hk. rewrite core_nrm_eq by exact Hk. reflexivity.
    + exact F4.
  - right. exists st. split; [exact Ee|exact Dep].
Qed.

Lemma quadprog_good n p m c1 G g ceJ ciJ ceb cib J0 xu fuel :
  symmetric n G -> psd n G -> cholesky n G g J0 xu -> (p <= n)%nat ->
  quadprog n p m 0 c1 ceJ ciJ ceb cib fuel J0 xu g = Fuel \/
  exists s c st, quadprog n p m 0 c1 ceJ ciJ ceb cib fuel J0 xu g = Ok (s, c, st) /\ good n p m G g ceJ ciJ ceb cib s c st.
Proof.
  intros Gs Gp Ch Hp. unfold quadprog. cbv zeta. pose proof (proj1 Ch) as C1.
  destruct (quadprog_start n p m G g ceJ ciJ ceb cib J0 xu Gs Ch Hp) as [(st & -> & Hi)|(st & -> & Dep)].
  - apply (run_good n p m c1 G (gram n J0) g ceJ ciJ ceb cib C1 Gs Gp _ _ L1). exact Hi.
  - right. eexists _, _, _. split; [reflexivity|exact Dep].
Qed.
