(* Lemmas for the spline optimiser: the whole function. *)
From Coq Require Import Reals List Arith Bool Lia Lra Permutation.
From Verif Require Import Base XReal SplineModel LinConsModel LinConsSpec LinConsProofs LinConsProofs2
  SplineOptModel SplineOptSpec SplineOptProofs SplineOptProofs3 SplineOptProps PolyProofs
  SplineGradModel SplineGradSpec SplineGradProofs SplineGradProofs2 SplineGradProofs3.
Import ListNotations.
Open Scope R_scope.

Section P.
Context {Rep Fn : Type}.
Variable w : @sgb Rep Fn.
Let N := w_size w.
Let pc := w_constraint w.
Let bc := bounds_of w.
Let cost := w_cost w.
Hypothesis Hqr : exact_qr (g_qr w) pc.
Hypothesis Hpr : proper (g_n w) (g_nv w) (g_ss w).
Hypothesis Hin : sat pc (w_input w).

(* what precedes the loop *)
Lemma start_ok : exists cs, lc_decompose (g_qr w) true true pc = Ok (cs, true) /\
  exists k PK xs, lc_dec cs = Some (k, PK, xs) /\ (k <= N)%nat /\
  (exists lcr f, lc_reduce (g_lu w) cs (lc_new N 0) (lc_new N 0) true = Ok (lcr, f)) /\
  (exists bcr, lc_reduce (g_lu w) cs bc (lc_new 0 0) false = Ok (bcr, true)) /\
  exists q, qp_reduced (mkQP N (cost_hessian (g_n w) (g_nv w) (g_lambda w) (g_order w) (g_ss w)) (fun _ => 0) true None) cs = Ok q /\ qp_n q = k.
Proof.
  destruct (decompose_feasible (g_qr w) true true pc _ Hqr Hin) as [cs E]. exists cs. split; [exact E|].
  pose proof (cs_cols w cs true Hqr E) as Hc. fold N in Hc.
  destruct (cs_dec w cs true Hqr E) as (k & PK & xs & Hd). exists k, PK, xs. split; [exact Hd|]. split.
  { unfold lc_decompose in E. destruct (lc_rows pc =? 0)%nat.
    - injection E as <-. cbn [lc_dec] in Hd. injection Hd as <- _ _. apply Nat.le_refl.
    - binv E. destruct (is_zero _ _ _) in E; [|discriminate]. injection E as <-. cbn [lc_dec] in Hd. injection Hd as <- _ _.
      apply Nat.le_sub_l. }
  assert (HN : (lc_cols cs =? N)%nat = true) by (rewrite Hc; apply Nat.eqb_refl).
  split; [|split].
  - unfold lc_reduce. rewrite Hd. cbn [lc_new lc_cols]. rewrite Hc, Nat.eqb_refl. eexists; eexists; reflexivity.
  - unfold lc_reduce. rewrite Hd. unfold bc. rewrite (bc_cols w), Hc. unfold N. rewrite Nat.eqb_refl. eexists; reflexivity.
  - unfold qp_reduced. rewrite Hd. cbn [qp_n]. rewrite HN. eexists; split; reflexivity.
Qed.

Hypothesis Hb : sat_ineq bc (w_input w).
Hypothesis Hso : solver_exact w.

(* the first solution of the program *)
Lemma first_solve cs lcr f bcr q : lc_decompose (g_qr w) true true pc = Ok (cs, true) ->
  lc_reduce (g_lu w) cs (lc_new N 0) (lc_new N 0) true = Ok (lcr, f) ->
  lc_reduce (g_lu w) cs bc (lc_new 0 0) false = Ok (bcr, true) ->
  qp_reduced (mkQP N (cost_hessian (g_n w) (g_nv w) (g_lambda w) (g_order w) (g_ss w)) (fun _ => 0) true None) cs = Ok q ->
  exists q' c v s, qp_solve (g_solver w) q lcr bcr = Ok (q', c) /\ qp_x q' = Some v /\ lc_solution cs v = Ok s /\
  same_qp q q' /\ sat pc s /\ sat_ineq bc s /\
  (forall y, sat pc y -> sat_ineq bc y -> cost s <= cost y).
Proof.
  intros E Er Erb Eq. pose proof (Hso _ _ _ _ _ E Erb Eq) as Hs.
  destruct (reduce_inv _ _ _ _ _ _ _ Er) as (k & PK & xs & Ek & Hcol & Hrow & Hcolr & HJ & Hbv & _).
  destruct (sat_sol w cs true Hqr (ex_intro _ _ Hin) E _ Hin) as (vx & sx & Esx & Ex).
  assert (Hfx : forall u, sat lcr u) by (intros u i Hi; rewrite Hrow in Hi; cbn in Hi; lia).
  assert (Hfb : forall y v s, sat_ineq bc y -> lc_solution cs v = Ok s -> same N y s -> sat_ineq bcr v).
  { intros y v s Hy Es Hys. apply (proj2 (reduce_sat _ _ _ _ _ _ _ _ _ Erb Es)).
    apply (sat_ineq_ext bc y); [|exact Hy]. unfold bc. rewrite (bc_cols w). exact Hys. }
  pose proof (Hfb _ _ _ Hb Esx Ex) as Hvx.
  assert (Hwb : written bcr) by (intros i Hi; destruct (Hvx i Hi) as (b & Eb & _); congruence).
  destruct (read_b_ok _ (sat_written _ _ (Hfx vx))) as (b1 & B1 & _). destruct (read_b_ok _ Hwb) as (b2 & B2 & _).
  assert (Hn : lc_cols lcr = qp_n q) by (rewrite Hcolr; symmetry; exact (qpc_n w cs bcr q Eq Hs k PK xs Ek)).
  pose proof (Hs q lcr eq_refl eq_refl eq_refl Hn ltac:(rewrite Hrow; cbn; lia) (sat_written _ _ (Hfx vx))) as Hsol.
  unfold qp_solve. destruct (Nat.ltb_spec (lc_cols lcr) (lc_rows lcr)) as [Hlt|_]; [rewrite Hrow in Hlt; cbn in Hlt; lia|].
  rewrite B1, B2. cbn [bind].
  destruct (g_solver w q lcr bcr) as [v|]; [|exfalso; exact (Hsol vx (conj (Hfx vx) Hvx))].
  destruct Hsol as (_ & S2 & S3). destruct (sol_ok w cs true Hqr E v) as [s Es].
  eexists; eexists; exists v, s. split; [reflexivity|]. cbn [qp_x]. split; [reflexivity|]. split; [exact Es|].
  split; [repeat split|]. split; [exact (sol_sat w cs true Hqr (ex_intro _ _ Hin) E _ _ Es)|].
  split; [apply (proj2 (reduce_sat _ _ _ _ _ _ _ _ _ Erb Es)); exact S2|].
  intros y Hy Hyb. destruct (sat_sol w cs true Hqr (ex_intro _ _ Hin) E _ Hy) as (vy & sy & Esy & Ey).
  unfold cost. rewrite (cost_ext w Hpr y sy Ey).
  apply (cost_reduced w cs q Hpr Eq v vy s sy Es Esy). apply S3; [apply Hfx|]. exact (Hfb _ _ _ Hyb Esy Ey).
Qed.

(* every feasible path when no variable is left *)
Lemma no_variable cs k PK xs y z : lc_decompose (g_qr w) true true pc = Ok (cs, true) -> lc_dec cs = Some (k, PK, xs) -> k = 0%nat ->
  sat pc y -> sat pc z -> cost y = cost z.
Proof.
  intros E Hd Hk Hy Hz.
  destruct (sat_sol w cs true Hqr (ex_intro _ _ Hin) E _ Hy) as (vy & sy & Esy & Ey).
  destruct (sat_sol w cs true Hqr (ex_intro _ _ Hin) E _ Hz) as (vz & sz & Esz & Ez).
  apply (cost_ext w Hpr). intros i Hi. rewrite (Ey i Hi), (Ez i Hi). unfold lc_solution in *. rewrite Hd in *.
  injection Esy as <-. injection Esz as <-. rewrite Hk. reflexivity.
Qed.

Lemma optimize_optimum fuel x : g_optimum w = true -> g_stop w 0 = false -> optimize w fuel = Ok x ->
  forall y, sat pc y -> sat_ineq bc y -> cost x <= cost y.
Proof.
  intros Ho Hst E y Hy Hyb.
  destruct (optimize_inv _ _ _ E) as (cs & okd & lcr & f1 & bcr & f2 & qpc & _ & Hd & Hr & _ & Hrb & Hq & HH).
  destruct start_ok as (cs' & Hd' & k & PK & xs & Hdec & Hk & _ & (bcr' & Hrb') & q' & Hq' & Hqn).
  pose proof (eq_trans (eq_sym Hd) Hd') as X1. injection X1 as <- ->.
  pose proof (eq_trans (eq_sym Hrb) Hrb') as X2. injection X2 as <- ->.
  pose proof (eq_trans (eq_sym Hq) Hq') as X3. injection X3 as <-.
  destruct HH as [[Hz ->]|(q & c & s & Hs & Hl & ->)].
  { rewrite (no_variable cs k PK xs (params (g_n w) (g_nv w) (g_ss w)) y Hd Hdec ltac:(congruence) Hin Hy). apply Rle_refl. }
  destruct (first_solve cs lcr f1 bcr qpc Hd Hr Hrb Hq) as (q2 & c2 & v & sv & Es2 & Ev & Esv & _ & _ & _ & Hm).
  rewrite Es2 in Hs. injection Hs as <- <-.
  destruct fuel as [|fuel]; cbn [opt_loop] in Hl; cbn [start_state st_nocoll st_min andb] in Hl; rewrite Hst in Hl; [discriminate|].
  binv Hl. destruct a as [s1 b]. unfold iterate in E0. rewrite Ho in E0.
  unfold choose_splines in E0. unfold start_state in E0. cbn [st_copt st_qp] in E0. rewrite Ev, Esv in E0. cbn [bind st_cint] in E0.
  rewrite Ho in E0. cbn [negb bind] in E0. binv E0. injection E0 as <- <-.
  assert (Ha : st_x a = sv /\ (st_nocoll a && st_min a)%bool = true).
  { unfold accept in E1. binv E1. destruct a0 as [[[qp lc] lcr2] co]. injection E1 as <-. split; reflexivity. }
  destruct Ha as [Hax Hab]. cbn [fst snd] in Hl.
  assert (Hl' : opt_loop w fuel 1 cs bcr a = Ok a) by (destruct fuel; cbn [opt_loop]; rewrite Hab; reflexivity).
  rewrite Hl' in Hl. injection Hl as <-. rewrite Hax. apply Hm; assumption.
Qed.

(* returnOptimum: one iteration *)
Lemma optimum_total fuel : cost_order_ok (g_n w) (g_order w) = true -> g_optimum w = true -> g_lin w = false ->
  (g_check w = true -> validate_bounds (g_n w) (g_nv w) (length (g_ss w)) bc (w_input w) = []) ->
  (1 <= fuel)%nat -> exists x, optimize w fuel = Ok x.
Proof.
  intros Hco Hopt Hlin Hval Hf.
  destruct start_ok as (cs & Hd & k & PK & xs & Hdec & Hk & (lcr & f & Hr) & (bcr & Hrb) & q & Hq & Hqn).
  destruct (first_solve cs lcr f bcr q Hd Hr Hrb Hq) as (q' & c & v & sv & Es & Ev & Esv & Hsq & _ & _ & Hm).
  unfold optimize. rewrite Hco. fold (w_constraint w). fold pc. rewrite Hd. cbn [bind fst].
  fold (w_size w). fold N. rewrite Hr. cbn [bind fst]. fold (w_input w). fold bc.
  replace (g_check w && _)%bool with false.
  2:{ destruct (g_check w) eqn:Ec; [|reflexivity]. rewrite (Hval eq_refl). reflexivity. }
  rewrite Hrb. cbn [bind fst]. rewrite Hq. cbn [bind].
  destruct (Nat.eqb_spec (qp_n q) 0) as [Hz|Hz]; [eexists; reflexivity|].
  rewrite Es. cbn [bind fst]. destruct fuel as [|fuel]; [lia|]. cbn [opt_loop].
  replace (st_nocoll (start_state w lcr q') && st_min (start_state w lcr q'))%bool with false by reflexivity.
  destruct (g_stop w 0); [eexists; reflexivity|]. unfold iterate. rewrite Hopt. unfold choose_splines, start_state.
  cbn [st_copt st_qp]. rewrite Ev, Esv. cbn [bind st_cint]. rewrite Hopt. cbn [negb bind]. unfold accept. rewrite Hlin. cbn [bind fst snd].
  destruct fuel; cbn [opt_loop st_nocoll st_min andb orb]; eexists; reflexivity.
Qed.

Lemma params_independent m n J : m = 0%nat -> independent_rows m n J.
Proof. intros -> c _ i Hi; lia. Qed.

Lemma optimize_total fuel a eps : cost_order_ok (g_n w) (g_order w) = true ->
  (forall j, (j < length (g_ss w))%nat -> 0 <= g_lambda w j) -> 0 < g_alpha0 w < 1 -> 0 < g_thr w -> 0 < eps ->
  (forall y, sat pc y -> eps <= cost y) ->
  (forall x y r, exists f, g_create w x y r = Ok f) -> g_lin w = false -> g_optimum w = false ->
  lu_exact w ->
  (g_check w = true -> validate_bounds (g_n w) (g_nv w) (length (g_ss w)) bc (w_input w) = []) ->
  cost (w_input w) <= INR a * (g_alpha0 w / 8 * (g_thr w * eps)) ->
  (6 * N + a + 5 <= fuel)%nat ->
  exists x, optimize w fuel = Ok x.
Proof.
  intros Hco Hla Hal Hthr Heps Hmin Hcr Hlin Hopt Hlu Hval Ha Hf.
  destruct start_ok as (cs & Hd & k & PK & xs & Hdec & Hk & (lcr & f & Hr) & (bcr & Hrb) & q & Hq & Hqn).
  destruct (first_solve cs lcr f bcr q Hd Hr Hrb Hq) as (q' & c & v & sv & Es & Ev & Esv & Hsq & _ & _ & Hm).
  unfold optimize. rewrite Hco. fold (w_constraint w). fold pc. rewrite Hd. cbn [bind fst].
  fold (w_size w). fold N. rewrite Hr. cbn [bind fst]. fold (w_input w). fold bc.
  replace (g_check w && _)%bool with false.
  2:{ destruct (g_check w) eqn:Ec; [|reflexivity]. rewrite (Hval eq_refl). reflexivity. }
  rewrite Hrb. cbn [bind fst]. rewrite Hq. cbn [bind].
  destruct (Nat.eqb_spec (qp_n q) 0) as [Hz|Hz]; [eexists; reflexivity|].
  rewrite Es. cbn [bind fst].
  assert (T : tinv w cs k PK q (w_input w) eps 4 a (start_state w lcr q')).
  { pose proof (Hso _ _ _ _ _ Hd Hrb Hq) as Hex.
    destruct (solve_good w cs true Hqr (ex_intro _ _ Hin) Hd bcr true q Hpr Hrb Hq Hex q lcr _ _ _ (lc_new (w_size w) 0) (w_input w) q' c
                (conj eq_refl (conj eq_refl eq_refl)) Hin Hb Hr (sat_new _ _) (fun y Hy => Hy) Es) as (Q & v' & Ev' & Gv).
    constructor.
    - constructor; cbn [start_state st_x st_alpha st_qp st_lc st_copt st_coll]; try assumption.
      + apply Rle_refl.
      + rewrite Hopt. lra.
      + reflexivity.
      + apply sat_new.
      + exists v'. split; [exact Ev'|]. split; [exact Gv|discriminate].
    - cbn [start_state st_lc st_lcr]. destruct (reduce_inv _ _ _ _ _ _ _ Hr) as (k' & PK' & xs' & Ek & Hcol & Hrow & Hcolr & HJ & Hbv & Hrk).
      rewrite Hdec in Ek. injection Ek as <- <- <-. destruct (Hrk eq_refl) as [_ Hrank].
      split; [reflexivity|]. split; [cbn; lia|]. split; [apply params_independent; reflexivity|].
      split; [rewrite Hrow; cbn; lia|]. split; [exact Hcolr|]. eexists; split; [exact Hrank|cbn; lia].
    - apply Permutation_refl.
    - right. cbn [start_state st_alpha st_cint]. rewrite Hopt. split; [lia|]. split; [cbn; field|reflexivity].
    - exact Ha.
    - discriminate. }
  pose proof (Hso _ _ _ _ _ Hd Hrb Hq) as Hex.
  destruct (loop_total w cs true k PK xs bcr true q (w_input w) Hqr (ex_intro _ _ Hin) Hd Hdec Hpr Hla Hal Hrb Hq Hex Hcr Hlin Hopt
              (Hlu _ _ _ _ _ Hd Hdec) eps Heps Hmin Hthr (S (measure k 4 a (start_state w lcr q'))) fuel 0%nat 4%nat a _ T
              (Nat.lt_succ_diag_r _)) as [s Hs].
  { unfold measure. cbn [start_state st_lc lc_new lc_rows]. lia. }
  rewrite Hs. cbn [bind]. eexists; reflexivity.
Qed.
End P.

(* ------------------------------------------------------ never-ending runs *)
Section Q.
Context {Rep Fn : Type}.
Variable w : @sgb Rep Fn.
Let N := w_size w.
Let pc := w_constraint w.
Let cost := w_cost w.
Hypothesis Hpr : proper (g_n w) (g_nv w) (g_ss w).
Hypothesis Hla : forall j, (j < length (g_ss w))%nat -> 0 <= g_lambda w j.

Lemma cost_quadratic x : cost x = / 2 * dot N x (mv N (cost_hessian (g_n w) (g_nv w) (g_lambda w) (g_order w) (g_ss w)) x).
Proof.
  pose proof (C71_cost (g_n w) (g_nv w) (g_ss w) (g_lambda w) (g_order w) x Hpr) as E. cbv zeta in E. destruct E as [E _].
  symmetry. exact E.
Qed.
Lemma cost_pos x : 0 <= cost x.
Proof.
  rewrite cost_quadratic.
  destruct (C71_cost (g_n w) (g_nv w) (g_ss w) (g_lambda w) (g_order w) x Hpr) as (_ & _ & _ & P). pose proof (P Hla x) as Px.
  fold (w_size w) in Px. fold N in Px. lra.
Qed.
Lemma cost_scal a x : cost (fun i => a * x i) = a * a * cost x.
Proof.
  rewrite !cost_quadratic. rewrite dot_scal_l.
  rewrite (dot_ext N x (mv N _ (fun i => a * x i)) x (fun i => a * mv N (cost_hessian (g_n w) (g_nv w) (g_lambda w) (g_order w) (g_ss w)) x i));
    [|intros i _; reflexivity|intros i _; apply mv_scal].
  rewrite dot_scal_r. ring.
Qed.
Lemma cost_parallelogram x y : cost (fun i => x i + y i) + cost (fun i => x i - y i) = 2 * cost x + 2 * cost y.
Proof.
  assert (E' : exists g : vec, forall y, cost (fun i => x i + y i) = cost x + dot N g y + cost y).
  { eexists. intros z. exact (C71_expansion (g_n w) (g_nv w) (g_ss w) (g_lambda w) (g_order w) x z Hpr). }
  destruct E' as [g Eg]. rewrite (Eg y).
  assert (E3 : cost (fun i => x i - y i) = cost (fun i => x i + -1 * y i)) by (apply (cost_ext w Hpr); intros i _; ring).
  rewrite E3, (Eg (fun i => -1 * y i)), dot_scal_r, cost_scal. ring.
Qed.
(* interpolating towards splines of null cost *)
Lemma cost_toward_zero x s t : t < 1 -> cost s = 0 -> 0 < cost x -> 0 < cost (interpolate x s t).
Proof.
  intros Ht Hs Hx. set (y := interpolate x s t).
  pose proof (cost_parallelogram y (fun i => - t * s i)) as P.
  rewrite (cost_scal (- t) s), Hs in P.
  assert (E : cost (fun i => y i + - t * s i) = (1 - t) * (1 - t) * cost x).
  { rewrite <- cost_scal. apply (cost_ext w Hpr). intros i _. unfold y, interpolate. ring. }
  rewrite E in P. pose proof (cost_pos (fun i => y i - - t * s i)) as P2.
  assert (0 < (1 - t) * (1 - t) * cost x) by (repeat apply Rmult_lt_0_compat; lra). lra.
Qed.

Hypothesis Hns : forall i, g_stop w i = false.
Hypothesis Hopt : g_optimum w = false.
Hypothesis Hlin : g_lin w = false.

(* every path is valid and there is a path of null cost *)
Record zinv (cs : lincons) (s : @state Fn) : Prop := {
  z_sv : exists v sv, qp_x (st_qp s) = Some v /\ lc_solution cs v = Ok sv /\ cost sv = 0 /\
    (st_copt s = false -> st_coll s = sv /\ st_low s = 0);
  z_x : 0 < cost (st_x s); z_cint : st_cint s = true; z_alpha : st_alpha s = g_alpha0 w;
  z_go : (st_nocoll s && st_min s)%bool = false }.
Lemma zinv_step cs bcr s : (forall i s, g_valid w i s = None) -> g_alpha0 w < 1 -> zinv cs s ->
  exists s', iterate w cs bcr s = Ok (s', false) /\ zinv cs s'.
Proof.
  intros Hv Ha [(v & sv & Ev & Esv & Hz & Hcoll) Hx Hci Hal Hgo].
  assert (Hval : forall f x ord, validate_path w f x ord = ([], ord)).
  { intros f x ord. unfold validate_path. replace (val_loop w f x ord) with (@nil (Rep * R * nat)); [reflexivity|].
    induction ord as [|i t IH]; [reflexivity|]. cbn [val_loop]. rewrite Hv. exact IH. }
  assert (exists s1, choose_splines w cs s = Ok s1 /\ st_x s1 = st_x s /\ st_coll s1 = sv /\ st_low s1 = 0 /\
    st_cur s1 = interpolate (st_x s) sv (g_alpha0 w) /\ st_min s1 = false /\ st_copt s1 = false /\ st_alpha s1 = g_alpha0 w /\ st_qp s1 = st_qp s) as
    (s1 & E1 & X1 & X2 & X3 & X4 & X5 & X6 & X7 & X8).
  { unfold choose_splines. rewrite Ev, Esv. destruct (st_copt s) eqn:Ec; cbn [bind st_cint]; rewrite Hci; eexists; (split; [reflexivity|]); cbn; rewrite Hal.
    - repeat split. exact Hz.
    - destruct (Hcoll eq_refl) as [-> ->]. repeat split. exact Ec. }
  unfold iterate. rewrite E1. cbn [bind]. rewrite Hopt, Hval. unfold accept. rewrite Hlin. cbn [bind st_copt st_min st_cur st_low].
  eexists; split; [reflexivity|].
  assert (Hp : 0 < cost (st_cur s1)) by (rewrite X4; apply cost_toward_zero; assumption).
  constructor; cbn [st_qp st_copt st_coll st_low st_x st_cint st_alpha st_nocoll st_min].
  - rewrite X8. exists v, sv. split; [exact Ev|]. split; [exact Esv|]. split; [exact Hz|]. intros _. rewrite X2, X3. split; reflexivity.
  - exact Hp.
  - reflexivity.
  - exact X7.
  - rewrite X5, X3. cbn [andb orb]. change (g_cost w (st_cur s1)) with (cost (st_cur s1)).
    destruct (rltb_spec (Rabs (cost (st_cur s1) - 0)) (g_thr w * 0)) as [Hlt|]; [|reflexivity].
    exfalso. rewrite Rminus_0_r, Rabs_right in Hlt by lra. lra.
Qed.
Lemma zinv_loop cs bcr : (forall i s, g_valid w i s = None) -> g_alpha0 w < 1 ->
  forall fuel i s, zinv cs s -> opt_loop w fuel i cs bcr s = Fuel.
Proof.
  intros Hv Ha; induction fuel as [|f IH]; intros i s Z; cbn [opt_loop]; rewrite (z_go _ _ Z), Hns; [reflexivity|].
  destruct (zinv_step cs bcr s Hv Ha Z) as (s' & E & Z'). rewrite E. cbn [bind fst snd]. apply IH; exact Z'.
Qed.

(* alphaInit is 1 and the optimum is not valid *)
Record oinv (cs : lincons) (sv : vec) (s : @state Fn) : Prop := {
  o_sv : exists v, qp_x (st_qp s) = Some v /\ lc_solution cs v = Ok sv /\ (st_copt s = false -> st_coll s = sv);
  o_cint : st_cint s = true; o_alpha : st_alpha s = 1; o_ord : Permutation (st_ord s) (seq 0 (length (g_ss w)));
  o_go : (st_nocoll s && st_min s)%bool = false }.
Lemma oinv_step cs bcr sv s : g_alpha0 w = 1 ->
  (forall x, (forall c, x c = sv c) -> exists j, (j < length (g_ss w))%nat /\ g_valid w j (sp_at w x j) <> None) ->
  oinv cs sv s -> exists s', iterate w cs bcr s = Ok (s', false) /\ oinv cs sv s'.
Proof.
  intros Ha Hv [(v & Ev & Esv & Hcoll) Hci Hal Ho Hgo].
  assert (exists s1, choose_splines w cs s = Ok s1 /\ st_coll s1 = sv /\ st_ord s1 = st_ord s /\
    (forall c, st_cur s1 c = sv c) /\ st_copt s1 = false /\ st_alpha s1 = 1 /\ st_qp s1 = st_qp s) as
    (s1 & E1 & X1 & X2 & X3 & X4 & X5 & X6).
  { unfold choose_splines. rewrite Ev, Esv. destruct (st_copt s) eqn:Ec; cbn [bind st_cint]; rewrite Hci; eexists; (split; [reflexivity|]); cbn; rewrite Hal.
    - repeat split. intros c. unfold interpolate. ring.
    - rewrite (Hcoll eq_refl). repeat split; try exact Ec. intros c. unfold interpolate. ring. }
  unfold iterate. rewrite E1. cbn [bind]. rewrite Hopt.
  destruct (validate_path w (st_first s1) (st_cur s1) (st_ord s1)) as [reports ord] eqn:Ep.
  assert (Hperm : Permutation (st_ord s1) (seq 0 (length (g_ss w)))) by (rewrite X2; exact Ho).
  pose proof (validate_perm w _ _ _ _ _ _ Hperm Ep) as Hperm'.
  pose proof (validate_reports w _ _ _ _ _ Ep) as Hreps.
  destruct reports as [|r t].
  { exfalso. destruct (Hv _ X3) as (j & Hj & Hbad). apply Hbad. symmetry in Hreps.
    apply (val_nil w _ _ _ Hreps). apply (Permutation_in _ (Permutation_sym Hperm)). apply in_seq. lia. }
  unfold reject. cbn [st_alpha]. rewrite X5. destruct (reqb_spec 1 1) as [_|Hne]; [|exfalso; apply Hne; reflexivity].
  eexists; split; [reflexivity|]. constructor; cbn [st_qp st_copt st_coll st_cint st_alpha st_ord st_nocoll st_min andb].
  - rewrite X6. exists v. split; [exact Ev|]. split; [exact Esv|]. intros _; exact X1.
  - reflexivity.
  - exact Ha.
  - exact Hperm'.
  - reflexivity.
Qed.
Lemma oinv_loop cs bcr sv : g_alpha0 w = 1 ->
  (forall x, (forall c, x c = sv c) -> exists j, (j < length (g_ss w))%nat /\ g_valid w j (sp_at w x j) <> None) ->
  forall fuel i s, oinv cs sv s -> opt_loop w fuel i cs bcr s = Fuel.
Proof.
  intros Ha Hv; induction fuel as [|f IH]; intros i s Z; cbn [opt_loop]; rewrite (o_go _ _ _ Z), Hns; [reflexivity|].
  destruct (oinv_step cs bcr sv s Ha Hv Z) as (s' & E & Z'). rewrite E. cbn [bind fst snd]. apply IH; exact Z'.
Qed.

Hypothesis Hqr : exact_qr (g_qr w) pc.
Hypothesis Hin : sat pc (w_input w).
Hypothesis Hb : sat_ineq (bounds_of w) (w_input w).
Hypothesis Hso : solver_exact w.
Hypothesis Hco : cost_order_ok (g_n w) (g_order w) = true.
Hypothesis Hval : g_check w = true -> validate_bounds (g_n w) (g_nv w) (length (g_ss w)) (bounds_of w) (w_input w) = [].

(* the run up to the loop *)
Lemma optimize_start fuel : exists cs lcr bcr q v s,
  qp_x q = Some v /\ lc_solution cs v = Ok s /\ sat pc s /\ (forall y, sat pc y -> sat_ineq (bounds_of w) y -> cost s <= cost y) /\
  (optimize w fuel = Ok (w_input w) /\ (forall y z, sat pc y -> sat pc z -> cost y = cost z) \/
   optimize w fuel = (do s <- opt_loop w fuel 0 cs bcr (start_state w lcr q) ; Ok (st_x s))).
Proof.
  destruct (start_ok w Hqr Hin) as (cs & Hd & k & PK & xs & Hdec & Hk & (lcr & f & Hr) & (bcr & Hrb) & q & Hq & Hqn).
  destruct (first_solve w Hqr Hpr Hin Hb Hso cs lcr f bcr q Hd Hr Hrb Hq) as (q' & c & v & sv & Es & Ev & Esv & Hsq & Hp & _ & Hm).
  exists cs, lcr, bcr, q', v, sv. split; [exact Ev|]. split; [exact Esv|]. split; [exact Hp|]. split; [exact Hm|].
  unfold optimize. rewrite Hco. fold (w_constraint w). rewrite Hd. cbn [bind fst].
  fold (w_size w). rewrite Hr. cbn [bind fst]. fold (w_input w).
  replace (g_check w && _)%bool with false.
  2:{ destruct (g_check w) eqn:Ec; [|reflexivity]. rewrite (Hval eq_refl). reflexivity. }
  rewrite Hrb. cbn [bind fst]. rewrite Hq. cbn [bind].
  destruct (Nat.eqb_spec (qp_n q) 0) as [Hz|Hz].
  - left. split; [reflexivity|]. intros y z Hy Hz'. apply (no_variable w Hqr Hpr Hin cs k PK xs y z Hd Hdec ltac:(congruence) Hy Hz').
  - right. rewrite Es. cbn [bind fst]. reflexivity.
Qed.
Lemma never_ends_zero fuel y : (forall i s, g_valid w i s = None) -> g_alpha0 w < 1 -> 0 < cost (w_input w) ->
  sat pc y -> sat_ineq (bounds_of w) y -> cost y = 0 -> optimize w fuel = Fuel.
Proof.
  intros Hv Ha Hx Hy Hyb Hy0.
  destruct (optimize_start fuel) as (cs & lcr & bcr & q & v & sv & Ev & Esv & Hp & Hm & [[_ Hc]|E]).
  { exfalso. rewrite (Hc _ _ Hin Hy) in Hx. lra. }
  rewrite E. rewrite (zinv_loop cs bcr Hv Ha); [reflexivity|].
  assert (H0 : cost sv = 0) by (pose proof (Hm y Hy Hyb); pose proof (cost_pos sv); lra).
  constructor; cbn [start_state st_qp st_copt st_coll st_low st_x st_cint st_alpha st_nocoll st_min].
  - exists v, sv. repeat split; try assumption; discriminate.
  - exact Hx.
  - rewrite Hopt; reflexivity.
  - rewrite Hopt; reflexivity.
  - reflexivity.
Qed.
Lemma never_ends_one fuel : g_alpha0 w = 1 ->
  (exists y, sat pc y /\ cost y <> cost (w_input w)) ->
  (forall x, sat pc x -> (forall y, sat pc y -> sat_ineq (bounds_of w) y -> cost x <= cost y) ->
     exists j, (j < length (g_ss w))%nat /\ g_valid w j (sp_at w x j) <> None) ->
  optimize w fuel = Fuel.
Proof.
  intros Ha (y & Hy & Hne) Hv.
  destruct (optimize_start fuel) as (cs & lcr & bcr & q & v & sv & Ev & Esv & Hp & Hm & [[_ Hc]|E]).
  { exfalso. apply Hne. apply Hc; assumption. }
  rewrite E. rewrite (oinv_loop cs bcr sv Ha); [reflexivity| |].
  - intros x Hx. apply Hv.
    + apply (sat_ext pc sv); [intros i _; symmetry; apply Hx|exact Hp].
    + intros z Hz Hzb. unfold cost. rewrite (cost_ext w Hpr x sv); [apply Hm; assumption|]. intros i _; apply Hx.
  - constructor; cbn [start_state st_qp st_copt st_coll st_cint st_alpha st_ord st_nocoll st_min].
    + exists v. repeat split; try assumption; discriminate.
    + rewrite Hopt; reflexivity.
    + rewrite Hopt; exact Ha.
    + apply Permutation_refl.
    + reflexivity.
Qed.
End Q.
