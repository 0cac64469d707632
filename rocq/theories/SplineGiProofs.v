(* ReturnOptimum with a solver exact for programs with inequalities only. *)
From Coq Require Import Reals List Arith Bool Lia Lra.
From Verif Require Import Base XReal SplineModel SplineProofs LinConsModel LinConsSpec LinConsProofs LinConsProofs2
  SplineOptModel SplineOptSpec SplineOptProofs SplineOptProofs3 SplineOptProps PolyProofs
  SplineGradModel SplineGradSpec SplineGradProofs SplineGradProofs2 SplineGradProofs3 SplineGradProofs4
  GiModel GiSpec GiProofs GiProofs2 GiProofs3 GiProofs4 GiProofs5 SplineGiModel.
Import ListNotations.
Open Scope R_scope.

Section P.
Context {Rep Fn : Type}.
Variable w : @sgb Rep Fn.
Let N := w_size w.
Let pc := w_constraint w.
Let bc := bounds_of w.
Let cost := w_cost w.
Let QP := mkQP N (cost_hessian (g_n w) (g_nv w) (g_lambda w) (g_order w) (g_ss w)) (fun _ => 0) true None.
Hypothesis Hqr : exact_qr (g_qr w) pc.
Hypothesis Hpr : proper (g_n w) (g_nv w) (g_ss w).
Hypothesis Hin : sat pc (w_input w).
Hypothesis Hb : sat_ineq bc (w_input w).
Hypothesis Hs0 : forall cs lcr f bcr q, lc_decompose (g_qr w) true true pc = Ok (cs, true) ->
  lc_reduce (g_lu w) cs (lc_new N 0) (lc_new N 0) true = Ok (lcr, f) ->
  lc_reduce (g_lu w) cs bc (lc_new 0 0) false = Ok (bcr, true) -> qp_reduced QP cs = Ok q ->
  exists v, g_solver w q lcr bcr = Some v /\ sat_ineq bcr v /\
    forall u, sat_ineq bcr u -> quad (qp_n q) (qp_H q) (qp_b q) v <= quad (qp_n q) (qp_H q) (qp_b q) u.

Lemma first_solve0 cs lcr f bcr q : lc_decompose (g_qr w) true true pc = Ok (cs, true) ->
  lc_reduce (g_lu w) cs (lc_new N 0) (lc_new N 0) true = Ok (lcr, f) ->
  lc_reduce (g_lu w) cs bc (lc_new 0 0) false = Ok (bcr, true) ->
  qp_reduced QP cs = Ok q ->
  exists q' c v s, qp_solve (g_solver w) q lcr bcr = Ok (q', c) /\ qp_x q' = Some v /\ lc_solution cs v = Ok s /\
  sat pc s /\ sat_ineq bc s /\ (forall y, sat pc y -> sat_ineq bc y -> cost s <= cost y).
Proof.
  intros E Er Erb Eq. destruct (Hs0 _ _ _ _ _ E Er Erb Eq) as (v & Ev & S2 & S3).
  destruct (reduce_inv _ _ _ _ _ _ _ Er) as (k & PK & xs & Ek & Hcol & Hrow & Hcolr & HJ & Hbv & _).
  destruct (sat_sol w cs true Hqr (ex_intro _ _ Hin) E _ Hin) as (vx & sx & Esx & Ex).
  assert (Hfx : forall u, sat lcr u) by (intros u i Hi; rewrite Hrow in Hi; cbn in Hi; lia).
  assert (Hfb : forall y v s, sat_ineq bc y -> lc_solution cs v = Ok s -> same N y s -> sat_ineq bcr v).
  { intros y v0 s Hy Es Hys. apply (proj2 (reduce_sat _ _ _ _ _ _ _ _ _ Erb Es)).
    apply (sat_ineq_ext bc y); [|exact Hy]. unfold bc. rewrite (bc_cols w). exact Hys. }
  pose proof (Hfb _ _ _ Hb Esx Ex) as Hvx.
  assert (Hwb : written bcr) by (intros i Hi; destruct (Hvx i Hi) as (b & Eb & _); congruence).
  destruct (read_b_ok _ (sat_written _ _ (Hfx vx))) as (b1 & B1 & _). destruct (read_b_ok _ Hwb) as (b2 & B2 & _).
  unfold qp_solve. destruct (Nat.ltb_spec (lc_cols lcr) (lc_rows lcr)) as [Hlt|_]; [rewrite Hrow in Hlt; cbn in Hlt; lia|].
  rewrite B1, B2. cbn [bind]. rewrite Ev. destruct (sol_ok w cs true Hqr E v) as [s Es].
  eexists; eexists; exists v, s. split; [reflexivity|]. cbn [qp_x]. split; [reflexivity|]. split; [exact Es|].
  split; [exact (sol_sat w cs true Hqr (ex_intro _ _ Hin) E _ _ Es)|].
  split; [apply (proj2 (reduce_sat _ _ _ _ _ _ _ _ _ Erb Es)); exact S2|].
  intros y Hy Hyb. destruct (sat_sol w cs true Hqr (ex_intro _ _ Hin) E _ Hy) as (vy & sy & Esy & Ey).
  unfold cost. rewrite (cost_ext w Hpr y sy Ey).
  apply (cost_reduced w cs q Hpr Eq v vy s sy Es Esy). apply S3. exact (Hfb _ _ _ Hyb Esy Ey).
Qed.

Lemma optimum0 fuel : cost_order_ok (g_n w) (g_order w) = true -> g_optimum w = true -> g_lin w = false -> g_stop w 0 = false ->
  (g_check w = true -> validate_bounds (g_n w) (g_nv w) (length (g_ss w)) bc (w_input w) = []) ->
  (1 <= fuel)%nat -> exists x, optimize w fuel = Ok x /\ sat pc x /\ sat_ineq bc x /\
  forall y, sat pc y -> sat_ineq bc y -> cost x <= cost y.
Proof.
  intros Hco Hopt Hlin Hst Hval Hf.
  destruct (start_ok w Hqr Hin) as (cs & Hd & k & PK & xs & Hdec & Hk & (lcr & f & Hr) & (bcr & Hrb) & q & Hq & Hqn).
  destruct (first_solve0 cs lcr f bcr q Hd Hr Hrb Hq) as (q' & c & v & sv & Es & Ev & Esv & Hp & Hbs & Hm).
  unfold optimize. rewrite Hco. fold (w_constraint w). rewrite Hd. cbn [bind fst].
  fold (w_size w). rewrite Hr. cbn [bind fst]. fold (w_input w). unfold bc in Hval.
  replace (g_check w && _)%bool with false.
  2:{ destruct (g_check w) eqn:Ec; [|reflexivity]. rewrite (Hval eq_refl). reflexivity. }
  rewrite Hrb. cbn [bind fst]. rewrite Hq. cbn [bind].
  destruct (Nat.eqb_spec (qp_n q) 0) as [Hz|Hz].
  { eexists. split; [reflexivity|]. split; [exact Hin|]. split; [exact Hb|]. intros y Hy _.
    right. exact (no_variable w Hqr Hpr Hin cs k PK xs (w_input w) y Hd Hdec ltac:(congruence) Hin Hy). }
  rewrite Es. cbn [bind fst]. destruct fuel as [|fuel]; [lia|]. cbn [opt_loop].
  replace (st_nocoll (start_state w lcr q') && st_min (start_state w lcr q'))%bool with false by reflexivity.
  rewrite Hst. unfold iterate. rewrite Hopt. unfold choose_splines, start_state.
  cbn [st_copt st_qp]. rewrite Ev, Esv. cbn [bind st_cint]. rewrite Hopt. cbn [negb bind]. unfold accept. rewrite Hlin. cbn [bind fst snd].
  exists sv. split; [destruct fuel; cbn [opt_loop st_nocoll st_min andb orb bind st_x]; reflexivity|].
  split; [exact Hp|]. split; [exact Hbs|exact Hm].
Qed.
End P.

(* the bundled solver on a program with inequalities only *)
Lemma gi_exact q ce ci J0 xu : symmetric (qp_n q) (qp_H q) -> psd (qp_n q) (qp_H q) ->
  cholesky (qp_n q) (qp_H q) (qp_b q) J0 xu -> lc_rows ce = 0%nat -> lc_cols ci = qp_n q -> (exists u, sat_ineq ci u) ->
  exists N, forall k, (N <= k)%nat -> exists v, gi_solver 0 J0 xu k q ce ci = Some v /\ sat_ineq ci v /\
    forall u, sat_ineq ci u -> quad (qp_n q) (qp_H q) (qp_b q) v <= quad (qp_n q) (qp_H q) (qp_b q) u.
Proof.
  intros Gs Gp Ch Hce Hci [u0 Hu0].
  set (n := qp_n q) in *. set (m := lc_rows ci).
  assert (Fe : forall y, feasible n 0 m (lc_J ce) (lc_J ci) (rhs ce) (rhs ci) y <-> sat_ineq ci y).
  { intros y. split.
    - intros [_ Y] i Hi. specialize (Y i Hi). destruct (Hu0 i Hi) as (b & Eb & _). exists b. split; [exact Eb|].
      unfold rhs in Y. rewrite Eb in Y. rewrite Hci. exact Y.
    - intros Y. split; [intros; lia|]. intros i Hi. destruct (Y i Hi) as (b & Eb & Lb). unfold rhs. rewrite Eb.
      rewrite Hci in Lb. exact Lb. }
  destruct (quadprog_ends n 0 m (rsum (fun i => qp_H q i i) n) (qp_H q) (qp_b q) (lc_J ce) (lc_J ci) (rhs ce) (rhs ci) J0 xu Gs Gp Ch (Nat.le_0_l _))
    as (N & s & c & st & Y & E).
  exists N. intros k Hk. exists (gx st). unfold gi_solver. rewrite Hce. fold n m. unfold qp_solve_quadprog.
  cbn [Nat.ltb Nat.leb]. rewrite E by exact Hk.
  replace (n <? 0)%nat with false by (symmetry; apply Nat.ltb_ge; lia).
  split; [reflexivity|].
  destruct s; cbn [good] in Y.
  - destruct Y as (Y1 & _ & Y3 & _). split; [apply Fe, Y1|]. intros u Hu. apply Fe in Hu. specialize (Y3 u Hu).
    unfold GiSpec.cost in Y3. unfold quad. lra.
  - destruct Y as (i & r & Hi & _). lia.
  - destruct Y as [Y _]. exfalso. apply (Y u0), Fe, Hu0.
Qed.
