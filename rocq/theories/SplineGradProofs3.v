(* Lemmas for the loop of the spline optimiser: it ends. *)
From Coq Require Import Reals List Arith Bool Lia Lra Permutation.
From Verif Require Import Base XReal SplineModel LinConsModel LinConsSpec LinConsProofs LinConsProofs2
  SplineOptModel SplineOptSpec SplineOptProofs SplineOptProofs3 SplineOptProps PolyProofs
  SplineGradModel SplineGradSpec SplineGradProofs SplineGradProofs2.
Import ListNotations.
Open Scope R_scope.

Section P.
Context {Rep Fn : Type}.
Variable w : @sgb Rep Fn.
Let N := w_size w.
Let pc := w_constraint w.
Let bc := bounds_of w.
Let ns := length (g_ss w).
Let cost := w_cost w.
Variables (cs : lincons) (okd : bool) (k : nat) (PK : mat) (xs : vec) (bcr : lincons) (fb : bool) (qpc : qprog) (x0 : vec).
Hypothesis Hqr : exact_qr (g_qr w) pc.
Hypothesis Hin : exists x, sat pc x.
Hypothesis Hdec : lc_decompose (g_qr w) true true pc = Ok (cs, okd).
Hypothesis Hk : lc_dec cs = Some (k, PK, xs).
Hypothesis Hpr : proper (g_n w) (g_nv w) (g_ss w).
Hypothesis Hla : forall j, (j < length (g_ss w))%nat -> 0 <= g_lambda w j.
Hypothesis Hal : 0 < g_alpha0 w < 1.
Hypothesis Hbcr : lc_reduce (g_lu w) cs bc (lc_new 0 0) false = Ok (bcr, fb).
Hypothesis Hqp : qp_reduced (mkQP N (cost_hessian (g_n w) (g_nv w) (g_lambda w) (g_order w) (g_ss w)) (fun _ => 0) true None) cs = Ok qpc.
Hypothesis Hso : exact_solver (g_solver w) qpc bcr.
Hypothesis Hcr : forall a b r, exists f, g_create w a b r = Ok f.
Hypothesis Hlin : g_lin w = false.
Hypothesis Hopt : g_optimum w = false.
Hypothesis Hlu : forall m J, rank_exact (g_lu w) m k J.
Variable eps : R.
Hypothesis Heps : 0 < eps.
Hypothesis Hmin : forall y, sat pc y -> eps <= cost y.
Hypothesis Hthr : 0 < g_thr w.

Lemma Hal' : 0 <= g_alpha0 w <= 1. Proof. lra. Qed.
Lemma qn : qp_n qpc = k.
Proof. exact (qpc_n w cs bcr qpc Hqp Hso k PK xs Hk). Qed.
Lemma cs_N : lc_cols cs = N.
Proof. exact (cs_cols w cs okd Hqr Hdec). Qed.

Lemma reduce_total lc lcp : lc_cols lc = N -> exists lcr f, lc_reduce (g_lu w) cs lc lcp true = Ok (lcr, f).
Proof.
  intros Hc. unfold lc_reduce. rewrite Hk, Hc, cs_N, Nat.eqb_refl. eexists; eexists; reflexivity.
Qed.
Definition red_J (lc : lincons) : mat := mm N (lc_J lc) PK.
Lemma reduce_facts lc lcp lcr f : lc_reduce (g_lu w) cs lc lcp true = Ok (lcr, f) ->
  exists rk, lc_rank lcr = Some rk /\ rk = lc_compute_rank (g_lu w) lcr /\ f = (rk =? Nat.min (lc_rows lc) k)%nat /\
  lc_rows lcr = lc_rows lc /\ lc_cols lcr = k /\ lc_J lcr = red_J lc.
Proof.
  intros E. destruct (reduce_inv _ _ _ _ _ _ _ E) as (k' & PK' & xs' & Ek & Hc & Hr & Hcr' & HJ & _ & Hrk).
  rewrite Hk in Ek. injection Ek as <- <- <-. destruct (Hrk eq_refl) as [Hf Hrk'].
  exists (lc_compute_rank (g_lu w) lcr). rewrite cs_N in HJ. repeat split; assumption.
Qed.

(* the collision constraint and its reduced form *)
Definition lc_inv (lc lcr : lincons) : Prop :=
  lc_cols lc = N /\ (lc_rows lc <= k)%nat /\ independent_rows (lc_rows lc) k (red_J lc) /\
  (lc_rows lcr <= k)%nat /\ lc_cols lcr = k /\
  exists rk, lc_rank lcr = Some rk /\ (lc_rows lc <= rk)%nat.
Lemma indep_ext m n J J' : (forall i, (i < m)%nat -> J i = J' i) -> independent_rows m n J -> independent_rows m n J'.
Proof.
  intros E Hi c Hc. apply Hi. intros j Hj. rewrite <- (Hc j Hj). apply SplineProofs.rsum_ext. intros i Hi'. rewrite (E i Hi'). reflexivity.
Qed.
Lemma red_row lc lc' i : lc_J lc' i = lc_J lc i -> red_J lc' i = red_J lc i.
Proof. intros E. unfold red_J, mm. rewrite E. reflexivity. Qed.

Lemma after_find lc lcr lcS lcp lc' lcr' found x : lc_inv lc lcr -> (lc_rows lc < k)%nat ->
  lc_reduce (g_lu w) cs lcS lcp true = Ok (lcr', found) -> extends lc lcS -> sat lcS x ->
  (if found then lc' = lcS else lc' = drop_row lcS) ->
  lc_inv lc' lcr' /\ lc_rows lc' = (if found then S (lc_rows lc) else lc_rows lc).
Proof.
  intros (I1 & I2 & I3 & _) Hlt Hr (E1 & E2 & E3) Hs Hf.
  destruct (reduce_facts _ _ _ _ Hr) as (rk & R1 & R2 & R3 & R4 & R5 & R6).
  assert (HJ : forall i, (i < lc_rows lc)%nat -> red_J lcS i = red_J lc i) by (intros i Hi; apply red_row, (E3 i Hi)).
  assert (HrS : lc_compute_rank (g_lu w) lcr' = g_lu w (S (lc_rows lc)) k (red_J lcS)).
  { unfold lc_compute_rank. rewrite R4, R5, E2, R6. destruct (Nat.eqb_spec (S (lc_rows lc) * k) 0) as [Hz|Hz]; [lia|reflexivity]. }
  rewrite HrS in R2. destruct (Hlu (S (lc_rows lc)) (red_J lcS)) as [L1 L2].
  destruct found.
  - subst lc'. symmetry in R3. apply Nat.eqb_eq in R3. rewrite E2 in R3. rewrite Nat.min_l in R3 by lia.
    split; [|exact E2]. split; [rewrite E1; exact I1|]. split; [lia|]. split; [|split; [lia|split; [exact R5|exists rk; split; [exact R1|lia]]]].
    rewrite E2. apply L2. lia.
  - subst lc'.
    assert (Hd : lc_rows (drop_row lcS) = lc_rows lc) by (cbn [drop_row lc_rows]; lia).
    assert (HI : independent_rows (lc_rows lc) k (red_J lcS)).
    { apply (indep_ext _ _ (red_J lc)); [intros i Hi; symmetry; apply HJ; exact Hi|exact I3]. }
    split; [|exact Hd]. unfold lc_inv. rewrite Hd.
    split; [cbn [drop_row lc_cols]; rewrite E1; exact I1|]. split; [exact I2|].
    split; [exact HI|]. split; [lia|]. split; [exact R5|]. exists rk. split; [exact R1|]. pose proof (L1 (lc_rows lc) ltac:(lia) HI). lia.
Qed.
Lemma find_loop_total j x fs : (j < ns)%nat -> forall m lc1 lcr c f, lc_cols lc1 = N ->
  exists r, find_loop w cs j x m lc1 lcr fs c f = Ok r.
Proof.
  intros Hj; induction m as [|m IH]; intros lc1 lcr c f Hc; cbn [find_loop]; (destruct f; [eexists; reflexivity|]); [eexists; reflexivity|].
  unfold linearize1 at 1. fold ns. destruct (Nat.ltb_spec j ns); [|lia]. cbn [bind].
  match goal with |- context [lc_reduce (g_lu w) cs ?l lcr true] => destruct (reduce_total l lcr Hc) as (lcr2 & f2 & E); rewrite E end.
  cbn [bind fst snd]. apply IH. exact Hc.
Qed.
Lemma add_reports_total x cur : forall reports lc lcr fs ok,
  (forall r, In r reports -> (snd r < ns)%nat) -> lc_inv lc lcr -> sat lc x -> (lc_rows lc < k)%nat ->
  exists lc' lcr' fs' ok', add_reports w cs (qp_n qpc) x cur reports lc lcr fs ok = Ok (lc', lcr', fs', ok') /\
  lc_inv lc' lcr' /\ (lc_rows lc <= lc_rows lc')%nat /\ (ok' = true -> ok = false -> (lc_rows lc < lc_rows lc')%nat).
Proof.
  induction reports as [|r t IH]; intros lc lcr fs ok Hr HI Hs Hlt; cbn [add_reports].
  - exists lc, lcr, fs, ok. split; [reflexivity|]. split; [exact HI|]. split; [lia|congruence].
  - assert (Hj : (snd r < ns)%nat) by (apply Hr; left; reflexivity).
    destruct HI as (I1 & I2 & I3 & I4).
    assert (exists lc1 c, add_collision w (snd r) x cur (fst r) lc = Ok (lc1, c)) as (lc1 & c & Ea).
    { unfold add_collision. destruct (Hcr (sp_at w x (snd r)) (sp_at w cur (snd r)) (fst (fst r))) as [f Ef]. rewrite Ef. cbn [bind].
      unfold linearize1. fold ns. destruct (Nat.ltb_spec (snd r) ns); [|lia]. cbn [bind]. eexists; eexists; reflexivity. }
    rewrite Ea. cbn [bind fst snd].
    destruct (add_extends w _ _ _ _ _ _ _ I1 Hs Ea) as (He & Hs1 & Hrow).
    assert (Hc1 : lc_cols lc1 = N) by (rewrite (proj1 He); exact I1).
    unfold find_new. destruct (reduce_total lc1 lcr Hc1) as (lcr1 & f1 & E1). rewrite E1. cbn [bind fst snd].
    destruct (find_loop_total (snd r) x fs Hj 5 lc1 lcr1 c f1 Hc1) as [[[[lc2 lcr2] fs2] found] E2].
    rewrite E2. cbn [bind].
    destruct (find_loop_ok w cs _ _ _ _ _ _ _ _ _ _ _ _ _ _ I1 He Hs1 Hrow E1 E2) as (lcS & lcp & HrS & HeS & HsS & Hf).
    destruct (after_find lc lcr lcS lcp lc2 lcr2 found x (conj I1 (conj I2 (conj I3 I4))) Hlt HrS HeS HsS Hf) as [HI2 Hrows].
    assert (Hs2 : sat lc2 x).
    { destruct found; subst lc2; [exact HsS|]. apply (drop_sat w _ _ _ HeS). exact Hs. }
    destruct (ok || found)%bool eqn:Eok; cbn [negb].
    + pose proof HI2 as (J1 & J2 & J3 & _ & _ & rk & J4 & J5). unfold rank_of. rewrite J4. cbn [bind].
      destruct (Nat.leb_spec (qp_n qpc) rk) as [Hle|Hgt].
      * exists lc2, lcr2, fs2, true. split; [reflexivity|]. split; [exact HI2|].
        split; [destruct found; lia|]. intros _ ->. cbn [orb] in Eok. subst found. lia.
      * rewrite qn in Hgt.
        destruct (IH lc2 lcr2 fs2 true) as (lc' & lcr' & fs' & ok' & E & HI' & Hle' & _);
          [intros r' Hr'; apply Hr; right; exact Hr'|exact HI2|exact Hs2|lia|].
        exists lc', lcr', fs', ok'. split; [exact E|]. split; [exact HI'|]. split; [destruct found; lia|].
        intros _ ->. cbn [orb] in Eok. subst found. lia.
    + exists lc2, lcr2, fs2, false. split; [reflexivity|]. split; [exact HI2|]. split; [destruct found; lia|discriminate].
Qed.

(* ------------------------------------------------------------ the measure *)
Let delta := g_alpha0 w / 8 * (g_thr w * eps).
Lemma delta_pos : 0 < delta.
Proof. unfold delta. apply Rmult_lt_0_compat; [lra|]. apply Rmult_lt_0_compat; assumption. Qed.
Definition phase (p : nat) (s : @state Fn) : Prop :=
  (p = 5%nat /\ st_alpha s = 1 /\ st_copt s = true /\ st_cint s = false) \/
  ((1 <= p <= 4)%nat /\ st_alpha s = g_alpha0 w / 2 ^ (4 - p) /\ st_cint s = true).
Record tinv (p a : nat) (s : @state Fn) : Prop := {
  t_inv : inv w cs qpc x0 s;
  t_lc : lc_inv (st_lc s) (st_lcr s);
  t_ord : Permutation (st_ord s) (seq 0 ns);
  t_phase : phase p s;
  t_cost : cost (st_x s) <= INR a * delta;
  t_low : st_copt s = false -> st_low s = cost (st_coll s) }.
Definition measure (p a : nat) (s : @state Fn) : nat := (6 * (k - lc_rows (st_lc s)) + p + a)%nat.

Lemma phase_alpha p s : phase p s -> g_alpha0 w / 8 <= st_alpha s /\ (st_alpha s = 1 <-> p = 5%nat).
Proof.
  intros [(-> & E & _)|(Hp & E & _)]; rewrite E.
  - split; [lra|]. split; [reflexivity|lra].
  - assert (Hc : (p = 1 \/ p = 2 \/ p = 3 \/ p = 4)%nat) by lia.
    destruct Hc as [->|[->|[->| ->]]]; cbn [Nat.sub pow]; split; try (split; [intros Hx|discriminate]); lra.
Qed.

Lemma choose_total p a s : tinv p a s -> exists s1, choose_splines w cs s = Ok s1 /\ mid_inv w cs qpc x0 s1 /\
  st_x s1 = st_x s /\ st_lc s1 = st_lc s /\ st_lcr s1 = st_lcr s /\ st_ord s1 = st_ord s /\ st_alpha s1 = st_alpha s /\
  st_fs s1 = st_fs s /\ st_qp s1 = st_qp s /\ st_cint s1 = false /\ st_low s1 = cost (st_coll s1) /\
  ((p = 5%nat /\ st_min s1 = true) \/
   ((1 <= p <= 4)%nat /\ st_min s1 = false /\ st_cur s1 = interpolate (st_x s1) (st_coll s1) (st_alpha s))).
Proof.
  intros T. pose proof (t_inv _ _ _ T) as I.
  destruct (i_good _ _ _ _ _ I) as (v & Ev & (sv & Esv & _) & _).
  assert (Hor : (st_copt s || st_cint s)%bool = true).
  { destruct (t_phase _ _ _ T) as [(_ & _ & -> & _)|(_ & _ & ->)]; [reflexivity|apply orb_true_r]. }
  assert (exists s1, choose_splines w cs s = Ok s1) as [s1 E1].
  { unfold choose_splines. rewrite Ev. rewrite Esv. destruct (st_copt s); cbn [bind].
    - cbn [st_cint]. destruct (st_cint s); eexists; reflexivity.
    - destruct (st_cint s); eexists; reflexivity. }
  exists s1. split; [exact E1|]. split; [exact (choose_inv w cs qpc x0 _ _ I Hor E1)|].
  unfold choose_splines in E1. rewrite Ev, Esv in E1.
  destruct (t_phase _ _ _ T) as [(Hp & Ha & Hc & Hci)|(Hp & Ha & Hci)].
  - rewrite Hc in E1. cbn [bind st_cint] in E1. rewrite Hci in E1. injection E1 as <-. cbn. repeat split. left; split; [exact Hp|reflexivity].
  - destruct (st_copt s) eqn:Hc; cbn [bind st_cint] in E1; rewrite Hci in E1; injection E1 as <-; cbn [st_x st_lc st_lcr st_ord st_alpha st_fs st_qp st_cint st_low st_coll st_min st_cur];
      (repeat split); try (right; split; [exact Hp|split; reflexivity]).
    exact (t_low _ _ _ T Hc).
Qed.

Lemma iterate_total p a s : tinv p a s -> exists s' b, iterate w cs bcr s = Ok (s', b) /\
  (b = true \/ (st_nocoll s' && st_min s')%bool = true \/
   exists p' a', tinv p' a' s' /\ (measure p' a' s' < measure p a s)%nat).
Proof.
  intros T. destruct (choose_total _ _ _ T) as (s1 & E1 & M & X1 & X2 & X3 & X4 & X5 & X6 & X7 & X8 & X9 & X10).
  unfold iterate. rewrite E1. cbn [bind]. rewrite Hopt.
  destruct (validate_path w (st_first s1) (st_cur s1) (st_ord s1)) as [reports ord] eqn:Ev.
  assert (Hperm : Permutation (st_ord s1) (seq 0 ns)) by (rewrite X4; exact (t_ord _ _ _ T)).
  pose proof (validate_perm w _ _ _ _ _ _ Hperm Ev) as Hperm'.
  pose proof (validate_reports w _ _ _ _ _ Ev) as Hreps.
  assert (Hrep : forall r, In r reports -> (snd r < ns)%nat).
  { intros r Hr. rewrite Hreps in Hr. destruct (val_in w _ _ _ _ Hr) as [Ho _].
    apply (Permutation_in _ Hperm) in Ho. apply in_seq in Ho. lia. }
  destruct reports as [|r0 t].
  - (* valid *)
    set (s2 := mkSt (st_x s1) (st_coll s1) (st_cur s1) (st_qp s1) (st_lc s1) (st_lcr s1) (st_fs s1) ord
              true (st_min s1) (st_copt s1) (st_cint s1) (st_first s1) (st_alpha s1) (st_opt s1) (st_low s1)).
    assert (M2 : mid_inv w cs qpc x0 s2) by (apply (mid_inv_ext w cs qpc x0 s1 _ M); reflexivity).
    unfold accept. rewrite Hlin. cbn [bind].
    eexists. exists false. split; [reflexivity|].
    destruct X10 as [[Hp5 Hmin5]|[Hp [Hmin4 Hcur]]].
    { right; left. cbn [st_nocoll st_min s2]. rewrite Hmin5. reflexivity. }
    destruct (rltb (Rabs (g_cost w (st_cur s2) - st_low s2)) (g_thr w * st_low s2)) eqn:Et.
    { right; left. cbn [st_nocoll st_min s2]. rewrite orb_true_r. reflexivity. }
    right; right.
    (* decrease of the cost *)
    pose proof Et as Et0.
    destruct (i_good _ _ _ _ _ (m_inv _ _ _ _ _ M2)) as (v & Evv & (sv & Esv & Gb & Gl & Gm) & Hcoll).
    specialize (Hcoll (m_copt _ _ _ _ _ M2)). rewrite Esv in Hcoll. injection Hcoll as Hcoll. cbn [st_coll s2] in Hcoll.
    cbn [st_cur st_low s2] in Et. rewrite X9 in Et.
    change (g_cost w (st_cur s1)) with (cost (st_cur s1)) in Et.
    rewrite <- Hcoll in Et, Hcur.
    assert (Hlo : eps <= cost sv) by (apply Hmin; exact (sol_sat w cs okd Hqr Hin Hdec _ _ Esv)).
    destruct (phase_alpha _ _ (t_phase _ _ _ T)) as [Ha1 Ha2].
    assert (Ha3 : 0 <= st_alpha s <= 1) by exact (i_alpha _ _ _ _ _ (t_inv _ _ _ T)).
    assert (C1 : cost (st_cur s1) <= (1 - st_alpha s) * cost (st_x s1) + st_alpha s * cost sv).
    { rewrite Hcur. exact (cost_convex w Hpr Hla _ _ _ Ha3). }
    assert (C2 : cost sv <= cost (st_cur s1)) by (rewrite Hcur; apply (Gm _ Ha3)).
    assert (C3 : cost sv <= cost (st_x s1)).
    { pose proof (Gm 0 ltac:(lra)) as G0. cbn [st_x s2] in G0.
      rewrite (cost_ext w Hpr (interpolate (st_x s1) sv 0) (st_x s1)) in G0; [exact G0|]. intros i _; unfold interpolate; ring. }
    assert (C4 : g_thr w * eps <= cost (st_cur s1) - cost sv).
    { destruct (rltb_spec (Rabs (cost (st_cur s1) - cost sv)) (g_thr w * cost sv)) as [|Hn]; [discriminate|].
      rewrite Rabs_right in Hn by lra. assert (g_thr w * eps <= g_thr w * cost sv) by (apply Rmult_le_compat_l; lra). lra. }
    assert (C5 : cost (st_cur s1) <= cost (st_x s1) - delta).
    { assert (cost (st_cur s1) <= cost (st_x s1)).
      { assert (0 <= st_alpha s * (cost (st_x s1) - cost sv)) by (apply Rmult_le_pos; lra). lra. }
      assert (st_alpha s * (g_thr w * eps) <= st_alpha s * (cost (st_x s1) - cost sv)) by (apply Rmult_le_compat_l; lra).
      assert (delta <= st_alpha s * (g_thr w * eps)).
      { unfold delta. apply Rmult_le_compat_r; [|exact Ha1]. apply Rlt_le, Rmult_lt_0_compat; assumption. }
      lra. }
    pose proof (t_cost _ _ _ T) as C6. rewrite <- X1 in C6.
    destruct a as [|a].
    { exfalso. cbn [INR] in C6. pose proof delta_pos. assert (eps <= cost (st_x s1)) by lra. lra. }
    exists p, a. split.
    + assert (AI : accept w cs bcr s2 = Ok (mkSt (st_cur s2) (st_coll s2) (st_cur s2) (st_qp s2) (st_lc s2) (st_lcr s2) (st_fs s2) (st_ord s2)
        (st_nocoll s2) (st_min s2 || rltb (Rabs (g_cost w (st_cur s2) - st_low s2)) (g_thr w * st_low s2))%bool (st_copt s2) true (st_first s2) (st_alpha s2) (g_cost w (st_cur s2)) (st_low s2))).
      { unfold accept. rewrite Hlin. reflexivity. }
      destruct (accept_inv w cs okd Hqr Hin Hdec bcr fb qpc Hpr Hla Hbcr Hqp Hso x0 _ _ M2 AI) as [AI1 _].
      constructor; try (cbn [st_lc st_lcr st_ord st_x st_alpha st_copt st_low st_coll s2]).
      * rewrite Et0 in AI1. exact AI1.
      * rewrite X2, X3. exact (t_lc _ _ _ T).
      * exact Hperm'.
      * right. cbn [st_alpha st_cint]. split; [exact Hp|]. split; [|reflexivity]. unfold s2. cbn [st_alpha]. rewrite X5.
        destruct (t_phase _ _ _ T) as [(Hp5 & _)|(_ & Hal0 & _)]; [lia|exact Hal0].
      * rewrite S_INR in C6. change (cost (st_cur s1) <= INR a * delta). lra.
      * intros _. exact X9.
    + unfold measure. cbn [st_lc s2]. rewrite X2. lia.
  - (* not valid *)
    set (s2 := mkSt (st_x s1) (st_coll s1) (st_cur s1) (st_qp s1) (st_lc s1) (st_lcr s1) (st_fs s1) ord
              false (st_min s1) (st_copt s1) (st_cint s1) (st_first s1) (st_alpha s1) (st_opt s1) (st_low s1)).
    assert (M2 : mid_inv w cs qpc x0 s2) by (apply (mid_inv_ext w cs qpc x0 s1 _ M); reflexivity).
    assert (Hrej : forall s' b, reject w cs bcr (r0 :: t) s2 = Ok (s', b) -> inv w cs qpc x0 s').
    { intros s' b Er. exact (proj1 (reject_inv w cs okd Hqr Hin Hdec bcr fb qpc Hpr Hal' Hbcr Hqp Hso x0 _ _ _ _ M2 Er)). }
    destruct (phase_alpha _ _ (t_phase _ _ _ T)) as [Ha1 Ha2].
    assert (Hcopt : st_copt s1 = false) by exact (m_copt _ _ _ _ _ M).
    unfold reject in *. cbn [st_alpha s2] in *. rewrite X5 in *.
    destruct (reqb_spec (st_alpha s) 1) as [Ea|Ea].
    { (* try the interpolation *)
      eexists; eexists; split; [reflexivity|]. right; right. apply Ha2 in Ea.
      exists 4%nat, a. pose proof (Hrej _ _ eq_refl) as IR. split.
      - constructor; cbn [st_lc st_lcr st_ord st_x st_copt st_low st_coll s2].
        + exact IR.
        + rewrite X2, X3; exact (t_lc _ _ _ T).
        + exact Hperm'.
        + right. split; [lia|]. split; [|reflexivity]. cbn. field.
        + rewrite X1. exact (t_cost _ _ _ T).
        + intros _; exact X9.
      - unfold measure; cbn [st_lc s2]. rewrite X2. lia. }
    assert (Hp4 : (1 <= p <= 4)%nat /\ st_alpha s = g_alpha0 w / 2 ^ (4 - p)).
    { destruct (t_phase _ _ _ T) as [(Hp5 & _)|(Hp & Hq & _)]; [exfalso; apply Ea, Ha2; exact Hp5|split; assumption]. }
    destruct Hp4 as [Hp Hal4].
    pose proof (t_lc _ _ _ T) as LT. pose proof LT as (L1 & L2 & L3 & _ & _ & rk & L4 & L5).
    cbn [st_lcr st_qp st_x st_cur st_lc st_fs s2] in *. rewrite X3 in *. unfold rank_of in *. rewrite L4 in *. cbn [bind] in *.
    destruct (i_qp _ _ _ _ _ (t_inv _ _ _ T)) as (Q1 & _ & _). rewrite X7, Q1, qn in *.
    destruct (Nat.leb_spec k rk) as [Hle|Hgt]; [eexists; exists true; split; [reflexivity|left; reflexivity]|].
    assert (Hs : sat (st_lc s) (st_x s)) by exact (i_lc _ _ _ _ _ (t_inv _ _ _ T)).
    destruct (add_reports_total (st_x s) (st_cur s1) (r0 :: t) (st_lc s) (st_lcr s) (st_fs s) false Hrep LT Hs ltac:(lia)) as (lc & lcr & fs & ok & Er & HI & Hle1 & Hok).
    rewrite qn in Er. rewrite X1, X2, X6 in *. rewrite Er in *. cbn [bind] in *.
    destruct ok.
    + (* a constraint was added *)
      destruct (add_reports_ok w cs _ _ _ _ _ _ _ _ _ _ _ _ L1 Hs (fun H => match Bool.diff_false_true H with end) Er)
        as (A1 & A2 & A3 & _).
      destruct (A3 eq_refl) as (lcS & lcp & f & HrS & HsS & HSl).
      assert (exists q c, qp_solve (g_solver w) (st_qp s) lcr bcr = Ok (q, c)) as (q & c & Eq).
      { destruct (reduce_facts _ _ _ _ HrS) as (rk' & R1 & R2 & R3 & R4 & R5 & R6).
        destruct HI as (H1 & H2 & H3 & H6 & H7 & _).
        destruct (sat_sol w cs okd Hqr Hin Hdec (st_x s) (i_pc _ _ _ _ _ (t_inv _ _ _ T))) as (vx & sx & Esx & Ex).
        assert (HcS : lc_cols lcS = N).
        { destruct (reduce_inv _ _ _ _ _ _ _ HrS) as (k' & PK' & xs' & _ & Hc & _). rewrite Hc; exact cs_N. }
        assert (Hfx : sat lcr vx).
        { apply (proj1 (reduce_sat _ _ _ _ _ _ _ _ _ HrS Esx)). apply (sat_ext lcS (st_x s)); [rewrite HcS; exact Ex|exact HsS]. }
        assert (Hfb : sat_ineq bcr vx).
        { apply (proj2 (reduce_sat _ _ _ _ _ _ _ _ _ Hbcr Esx)).
          apply (sat_ineq_ext bc (st_x s)); [unfold bc; rewrite (bc_cols w); exact Ex|exact (i_bc _ _ _ _ _ (t_inv _ _ _ T))]. }
        assert (Hwb : written bcr) by (intros i Hi; destruct (Hfb i Hi) as (b & Eb & _); congruence).
        destruct (read_b_ok _ (sat_written _ _ Hfx)) as (b1 & B1 & _). destruct (read_b_ok _ Hwb) as (b2 & B2 & _).
        assert (Hsz : (lc_rows lcr <= lc_cols lcr)%nat) by lia.
        unfold qp_solve. destruct (Nat.ltb_spec (lc_cols lcr) (lc_rows lcr)); [lia|]. rewrite B1, B2. cbn [bind].
        destruct (g_solver w (st_qp s) lcr bcr); eexists; eexists; reflexivity. }
      rewrite Eq in *. cbn [bind fst] in *. eexists; eexists; split; [reflexivity|]. right; right.
      exists 5%nat, a. pose proof (Hrej _ _ eq_refl) as IR. split.
      * constructor; cbn [st_lc st_lcr st_ord st_x st_copt st_low st_coll].
        -- exact IR.
        -- exact HI.
        -- exact Hperm'.
        -- left. cbn. repeat split. exact X8.
        -- exact (t_cost _ _ _ T).
        -- discriminate.
      * unfold measure; cbn [st_lc]. pose proof (Hok eq_refl eq_refl). destruct HI as (_ & HI2 & _). lia.
    + destruct (rltb_spec (st_alpha s) (g_alpha0 w / 4)) as [Hlt|Hge].
      { eexists; exists true; split; [reflexivity|left; reflexivity]. }
      eexists; eexists; split; [reflexivity|]. right; right.
      assert (Hp2 : (2 <= p)%nat).
      { destruct (Nat.eq_dec p 1) as [->|]; [|lia]. exfalso. cbn [Nat.sub pow] in Hal4. lra. }
      exists (p - 1)%nat, a. pose proof (Hrej _ _ eq_refl) as IR. split.
      * constructor; cbn [st_lc st_lcr st_ord st_x st_copt st_low st_coll].
        -- exact IR.
        -- exact HI.
        -- exact Hperm'.
        -- right. split; [lia|]. split; [|reflexivity]. cbn [st_alpha]. rewrite Hal4.
           assert (Hc : (p = 2 \/ p = 3 \/ p = 4)%nat) by lia.
           destruct Hc as [->|[->| ->]]; cbn [Nat.sub pow]; field.
        -- exact (t_cost _ _ _ T).
        -- intros _; exact X9.
      * unfold measure; cbn [st_lc]. lia.
Qed.

Lemma loop_total : forall m fuel i p a s, tinv p a s -> (measure p a s < m)%nat -> (m <= fuel)%nat ->
  exists s', opt_loop w fuel i cs bcr s = Ok s'.
Proof.
  induction m as [|m IH]; intros fuel i p a s T Hm Hf; [lia|].
  destruct fuel as [|fuel]; [lia|]. cbn [opt_loop].
  destruct (st_nocoll s && st_min s)%bool; [eexists; reflexivity|].
  destruct (g_stop w i); [eexists; reflexivity|].
  destruct (iterate_total _ _ _ T) as (s' & b & E & Hc). rewrite E. cbn [bind fst snd].
  destruct b; [eexists; reflexivity|].
  destruct Hc as [Hc|[Hc|(p' & a' & T' & Hlt)]]; [discriminate| |].
  - destruct fuel; cbn [opt_loop]; rewrite Hc; eexists; reflexivity.
  - apply (IH fuel (S i) p' a' s' T'); lia.
Qed.
End P.
