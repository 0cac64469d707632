(* Lemmas for the loop of the spline optimiser: constraint, bounds and cost. *)
From Coq Require Import Reals List Arith Bool Lia Lra.
From Verif Require Import Base XReal SplineModel LinConsModel LinConsSpec LinConsProofs LinConsProofs2
  SplineOptModel SplineOptSpec SplineOptProofs SplineOptProps PolyProofs SplineGradModel SplineGradSpec SplineGradProofs.
Import ListNotations.
Open Scope R_scope.

Lemma mv_interp n A a b t i : mv n A (interpolate a b t) i = (1 - t) * mv n A a i + t * mv n A b i.
Proof. unfold interpolate. rewrite (mv_plus n A (fun c => (1 - t) * a c) (fun c => t * b c)), !mv_scal. reflexivity. Qed.
Lemma sat_ext c x y : same (lc_cols c) x y -> sat c x -> sat c y.
Proof. intros E H i Hi. rewrite (H i Hi). f_equal. apply mv_ext. exact E. Qed.
Lemma sat_ineq_ext c x y : same (lc_cols c) x y -> sat_ineq c x -> sat_ineq c y.
Proof. intros E H i Hi. destruct (H i Hi) as (b & Eb & Hb). exists b; split; [exact Eb|]. rewrite <- (mv_ext _ _ x y i E). exact Hb. Qed.
Lemma sat_interp c a b t : sat c a -> sat c b -> sat c (interpolate a b t).
Proof.
  intros Ha Hb i Hi. rewrite mv_interp. pose proof (Ha i Hi) as E1. pose proof (Hb i Hi) as E2.
  rewrite E1 in E2. injection E2 as E2. rewrite E1. f_equal. rewrite <- E2. ring.
Qed.
Lemma sat_ineq_interp c a b t : 0 <= t <= 1 -> sat_ineq c a -> sat_ineq c b -> sat_ineq c (interpolate a b t).
Proof.
  intros Ht Ha Hb i Hi. destruct (Ha i Hi) as (v & Ev & Hv). destruct (Hb i Hi) as (v' & Ev' & Hv').
  rewrite Ev in Ev'; injection Ev' as <-. exists v; split; [exact Ev|]. rewrite mv_interp.
  assert (0 <= (1 - t) * (mv (lc_cols c) (lc_J c) a i - v)) by (apply Rmult_le_pos; lra).
  assert (0 <= t * (mv (lc_cols c) (lc_J c) b i - v)) by (apply Rmult_le_pos; lra). lra.
Qed.
Lemma sat_new N x : sat (lc_new N 0) x.
Proof. intros i Hi; cbn in Hi; lia. Qed.
Lemma sat_ineq_new N x : sat_ineq (lc_new N 0) x.
Proof. intros i Hi; cbn in Hi; lia. Qed.
Lemma sat_set_row i row c x : sat c x -> sat (lc_set_row i row (dot (lc_cols c) row x) c) x.
Proof.
  intros H k Hk. cbn [lc_set_row lc_b lc_J lc_cols lc_rows] in *. unfold mv. destruct (Nat.eqb_spec k i) as [->|].
  - reflexivity.
  - exact (H k Hk).
Qed.

Section P.
Context {Rep Fn : Type}.
Variable w : @sgb Rep Fn.
Let N := w_size w.
Let pc := w_constraint w.
Let bc := bounds_of w.

(* ------------------------------------------------ the constraint is kept *)
Variables (cs : lincons) (okd : bool).
Hypothesis Hqr : exact_qr (g_qr w) pc.
Hypothesis Hin : exists x, sat pc x.
Hypothesis Hdec : lc_decompose (g_qr w) true true pc = Ok (cs, okd).

Lemma pc_cols : lc_cols pc = N. Proof. reflexivity. Qed.
Lemma cs_cols : lc_cols cs = N.
Proof. destruct (decompose_inv _ _ _ _ _ _ Hqr Hdec) as (_ & H & _). rewrite H. reflexivity. Qed.
Lemma cs_dec : exists k PK xs, lc_dec cs = Some (k, PK, xs).
Proof. destruct (decompose_inv _ _ _ _ _ _ Hqr Hdec) as (_ & _ & _ & _ & k & PK & xs & H & _). exists k, PK, xs; exact H. Qed.
Lemma sol_ok v : exists s, lc_solution cs v = Ok s.
Proof. destruct cs_dec as (k & PK & xs & H). unfold lc_solution; rewrite H. eexists; reflexivity. Qed.
Lemma sol_sat v s : lc_solution cs v = Ok s -> sat pc s.
Proof.
  destruct (decompose_inv _ _ _ _ _ _ Hqr Hdec) as (_ & _ & _ & _ & k & PK & xs & H & _ & H1 & _).
  unfold lc_solution; rewrite H. intros E; injection E as <-. apply (proj1 (H1 Hin)). exists v. intros i _; reflexivity.
Qed.
Lemma sat_sol x : sat pc x -> exists v s, lc_solution cs v = Ok s /\ same N x s.
Proof.
  destruct (decompose_inv _ _ _ _ _ _ Hqr Hdec) as (_ & _ & _ & _ & k & PK & xs & H & _ & H1 & _).
  intros Hx. apply (proj1 (H1 Hin)) in Hx. destruct Hx as [v Hv]. unfold lc_solution; rewrite H.
  exists v. eexists; split; [reflexivity|exact Hv].
Qed.

Definition kept (s : @state Fn) : Prop := sat pc (st_x s) /\ sat pc (st_coll s) /\ sat pc (st_cur s).
Lemma choose_kept s s' : kept s -> choose_splines w cs s = Ok s' -> kept s'.
Proof.
  intros HK H. unfold choose_splines in H. binv H. rename a into s1.
  assert (K1 : kept s1).
  { destruct (st_copt s); [|injection E as <-; exact HK].
    destruct (qp_x (st_qp s)) as [v|]; [|discriminate]. binv E. injection E as <-.
    pose proof (sol_sat _ _ E0) as Hs. split; [exact (proj1 HK)|split; exact Hs]. }
  destruct (st_cint s1); injection H as <-; [|exact K1].
  destruct K1 as (H1 & H2 & H3). split; [exact H1|]. split; [exact H2|]. apply sat_interp; assumption.
Qed.
Lemma accept_same bcr s s' : accept w cs bcr s = Ok s' -> st_x s' = st_cur s /\ st_coll s' = st_coll s /\ st_cur s' = st_cur s.
Proof. unfold accept; intros H. binv H. destruct a as [[[qp lc] lcr] co]. injection H as <-; repeat split. Qed.
Lemma reject_same bcr r s s' b : reject w cs bcr r s = Ok (s', b) -> st_x s' = st_x s /\ st_coll s' = st_coll s /\ st_cur s' = st_cur s.
Proof.
  unfold reject; intros H.
  destruct (reqb (st_alpha s) 1); [injection H as <- _; repeat split|].
  binv H. destruct (qp_n (st_qp s) <=? a)%nat; [injection H as <- _; repeat split|].
  binv H. destruct a0 as [[[lc lcr] fs] ok]. destruct ok.
  - binv H. injection H as <- _; repeat split.
  - destruct (rltb (st_alpha s) (g_alpha0 w / 4)); injection H as <- _; repeat split.
Qed.
Lemma iterate_kept bcr s s' b : kept s -> iterate w cs bcr s = Ok (s', b) -> kept s'.
Proof.
  intros HK H. unfold iterate in H. binv H. rename a into s1. pose proof (choose_kept _ _ HK E) as K1.
  destruct (g_optimum w).
  - binv H. injection H as <- _. destruct (accept_same _ _ _ E0) as (H1 & H2 & H3). cbn [st_cur st_coll] in *.
    unfold kept; rewrite H1, H2, H3. destruct K1 as (_ & K2 & K3). repeat split; assumption.
  - destruct (validate_path w (st_first s1) (st_cur s1) (st_ord s1)) as [reports ord]. destruct reports as [|r t].
    + binv H. injection H as <- _. destruct (accept_same _ _ _ E0) as (H1 & H2 & H3). cbn [st_cur st_coll] in *.
      unfold kept; rewrite H1, H2, H3. destruct K1 as (_ & K2 & K3). repeat split; assumption.
    + destruct (reject_same _ _ _ _ _ H) as (H1 & H2 & H3). cbn [st_x st_cur st_coll] in *.
      unfold kept; rewrite H1, H2, H3. exact K1.
Qed.

(* ------------------------------------------------------- bounds and cost *)
Variables (bcr : lincons) (fb : bool) (qpc : qprog).
Hypothesis Hpr : proper (g_n w) (g_nv w) (g_ss w).
Hypothesis Hla : forall j, (j < length (g_ss w))%nat -> 0 <= g_lambda w j.
Hypothesis Hal : 0 <= g_alpha0 w <= 1.
Hypothesis Hbcr : lc_reduce (g_lu w) cs bc (lc_new 0 0) false = Ok (bcr, fb).
Hypothesis Hqp : qp_reduced (mkQP N (cost_hessian (g_n w) (g_nv w) (g_lambda w) (g_order w) (g_ss w)) (fun _ => 0) true None) cs = Ok qpc.
Hypothesis Hso : exact_solver (g_solver w) qpc bcr.
Let cost := w_cost w.
Let H := cost_hessian (g_n w) (g_nv w) (g_lambda w) (g_order w) (g_ss w).

Lemma cost_quad x : cost x = quad N H (fun _ => 0) x.
Proof.
  pose proof (C71_cost (g_n w) (g_nv w) (g_ss w) (g_lambda w) (g_order w) x Hpr) as E. cbv zeta in E. destruct E as [E _].
  unfold cost, w_cost, w_splines. rewrite <- E. unfold quad. fold H. fold (w_size w). fold N.
  replace (dot N (fun _ => 0) x) with 0; [ring|]. unfold dot. symmetry.
  apply SplineProofs.rsum_zero. intros; ring.
Qed.
Lemma cost_ext x y : same N x y -> cost x = cost y.
Proof.
  intros E. rewrite !cost_quad. unfold quad. f_equal.
  - f_equal. apply dot_ext; [exact E|]. intros i _. apply mv_ext; exact E.
  - apply dot_ext; [intros i _; reflexivity|exact E].
Qed.
Lemma H_sym : symmetric N H.
Proof. exact (proj1 (proj2 (C71_cost (g_n w) (g_nv w) (g_ss w) (g_lambda w) (g_order w) (fun _ => 0) Hpr))). Qed.
Lemma cost_convex a b t : 0 <= t <= 1 -> cost (interpolate a b t) <= (1 - t) * cost a + t * cost b.
Proof. intros Ht. exact (C71_interpolation (g_n w) (g_nv w) (g_ss w) (g_lambda w) (g_order w) a b t Hpr Hla Ht). Qed.
Lemma qpc_n : forall k PK xs, lc_dec cs = Some (k, PK, xs) -> qp_n qpc = k.
Proof.
  intros k PK xs E. pose proof Hqp as Q. unfold qp_reduced in Q. rewrite E in Q. cbn [qp_n qp_H qp_b qp_b0] in Q.
  destruct (lc_cols cs =? N)%nat; [injection Q as <-; reflexivity|discriminate].
Qed.
Lemma cost_reduced u v su sv : lc_solution cs u = Ok su -> lc_solution cs v = Ok sv ->
  quad (qp_n qpc) (qp_H qpc) (qp_b qpc) u <= quad (qp_n qpc) (qp_H qpc) (qp_b qpc) v -> cost su <= cost sv.
Proof.
  intros Hu Hv Hle.
  destruct (reduced_cost (mkQP N H (fun _ => 0) true None) cs qpc _ _ H_sym (fun _ i _ => eq_refl) Hqp Hu) as (x0 & E0 & E1).
  destruct (reduced_cost (mkQP N H (fun _ => 0) true None) cs qpc _ _ H_sym (fun _ i _ => eq_refl) Hqp Hv) as (x0' & E0' & E2).
  rewrite E0 in E0'; injection E0' as <-. cbn [qp_n qp_H qp_b] in E1, E2.
  fold H in E1, E2. rewrite !cost_quad, E1, E2. lra.
Qed.

(* the minimum v of the program, seen from the splines x *)
Definition good (lc : lincons) (x v : vec) : Prop :=
  exists s, lc_solution cs v = Ok s /\ sat_ineq bc s /\ sat lc s /\
  forall t, 0 <= t <= 1 -> cost s <= cost (interpolate x s t).
Definition same_qp (q : qprog) : Prop := qp_n q = qp_n qpc /\ qp_H q = qp_H qpc /\ qp_b q = qp_b qpc.

Lemma bc_cols : lc_cols bc = N.
Proof. unfold bc, bounds_of. destruct (g_check w); reflexivity. Qed.

(* a solution of the program reduced from lcS *)
Lemma solve_good q lcr lcS lcp f lc x q' c : same_qp q -> sat pc x -> sat_ineq bc x ->
  lc_reduce (g_lu w) cs lcS lcp true = Ok (lcr, f) -> sat lcS x -> (forall y, sat lcS y -> sat lc y) ->
  qp_solve (g_solver w) q lcr bcr = Ok (q', c) ->
  same_qp q' /\ exists v, qp_x q' = Some v /\ good lc x v.
Proof.
  intros (Q1 & Q2 & Q3) Hp Hb Hr HS HSlc HQ.
  destruct (reduce_inv _ _ _ _ _ _ _ Hr) as (k & PK & xs & Ek & Hcol & Hrow & Hcolr & HJ & Hbv & _).
  destruct (sat_sol x Hp) as (vx & sx & Esx & Ex).
  assert (HcS : lc_cols lcS = N) by (rewrite Hcol; exact cs_cols).
  assert (Hfx : sat lcr vx).
  { apply (proj1 (reduce_sat _ _ _ _ _ _ _ _ _ Hr Esx)). apply (sat_ext lcS x); [rewrite HcS; exact Ex|exact HS]. }
  assert (Hfb : sat_ineq bcr vx).
  { apply (proj2 (reduce_sat _ _ _ _ _ _ _ _ _ Hbcr Esx)). apply (sat_ineq_ext bc x); [rewrite bc_cols; exact Ex|exact Hb]. }
  unfold qp_solve in HQ. destruct (Nat.ltb_spec (lc_cols lcr) (lc_rows lcr)) as [Hlt|Hge]; [discriminate|].
  binv HQ. binv HQ.
  assert (Hn : lc_cols lcr = qp_n qpc) by (rewrite Hcolr; symmetry; exact (qpc_n _ _ _ Ek)).
  assert (Hge' : (lc_rows lcr <= qp_n qpc)%nat) by (rewrite <- Hn; exact Hge).
  pose proof (Hso q lcr Q1 Q2 Q3 Hn Hge' (sat_written _ _ Hfx)) as Hsol.
  destruct (g_solver w q lcr bcr) as [v|]; [|exfalso; exact (Hsol vx (conj Hfx Hfb))].
  injection HQ as <- <-. cbn [qp_x]. split; [repeat split; assumption|]. exists v; split; [reflexivity|].
  destruct Hsol as (S1 & S2 & S3). destruct (sol_ok v) as [s Es]. exists s. split; [exact Es|].
  assert (Bs : sat_ineq bc s) by (apply (proj2 (reduce_sat _ _ _ _ _ _ _ _ _ Hbcr Es)); exact S2).
  assert (Ss : sat lcS s) by (apply (proj1 (reduce_sat _ _ _ _ _ _ _ _ _ Hr Es)); exact S1).
  split; [exact Bs|]. split; [apply HSlc; exact Ss|].
  intros t Ht. set (y := interpolate x s t).
  assert (Yp : sat pc y) by (apply sat_interp; [exact Hp|exact (sol_sat _ _ Es)]).
  destruct (sat_sol y Yp) as (vy & sy & Esy & Ey). rewrite (cost_ext y sy Ey).
  apply (cost_reduced v vy s sy Es Esy). apply S3.
  - apply (proj1 (reduce_sat _ _ _ _ _ _ _ _ _ Hr Esy)). apply (sat_ext lcS y); [rewrite HcS; exact Ey|].
    apply sat_interp; assumption.
  - apply (proj2 (reduce_sat _ _ _ _ _ _ _ _ _ Hbcr Esy)). apply (sat_ineq_ext bc y); [rewrite bc_cols; exact Ey|].
    apply sat_ineq_interp; assumption.
Qed.

(* ---------------------------------------------- the collision constraints *)
Lemma linearize1_sat sod x c coll coll' : lc_cols coll = N -> sat coll x -> linearize1 w sod x c coll = Ok coll' ->
  lc_cols coll' = N /\ lc_rows coll' = lc_rows coll /\ sat coll' x /\
  (forall i, i <> cf_row c -> lc_J coll' i = lc_J coll i /\ lc_b coll' i = lc_b coll i).
Proof.
  intros Hc Hs E. unfold linearize1 in E. destruct (sod <? _)%nat; [|discriminate]. injection E as <-.
  split; [exact Hc|]. split; [reflexivity|]. split.
  - pose proof (sat_set_row (cf_row c) (lin_row w sod x c) coll x Hs) as HH. rewrite Hc in HH. exact HH.
  - intros i Hi. cbn [lc_set_row lc_J lc_b]. split.
    + destruct (Nat.eqb_spec i (cf_row c)); [contradiction|reflexivity].
    + destruct (Nat.eqb_spec i (cf_row c)); [contradiction|reflexivity].
Qed.
Lemma linearize_from_sat x fs : forall i coll coll', lc_cols coll = N -> sat coll x -> linearize_from w i x fs coll = Ok coll' ->
  lc_cols coll' = N /\ lc_rows coll' = lc_rows coll /\ sat coll' x.
Proof.
  induction fs as [|c t IH]; intros i coll coll' Hc Hs E; cbn [linearize_from] in E.
  - injection E as <-. repeat split; assumption.
  - binv E. destruct (linearize1_sat _ _ _ _ _ Hc Hs E0) as (H1 & H2 & H3 & _).
    destruct (IH _ _ _ H1 H3 E) as (G1 & G2 & G3). split; [exact G1|]. split; [congruence|exact G3].
Qed.
(* lc1 is lc with one more row, satisfied by x *)
Definition extends (lc lc1 : lincons) : Prop :=
  lc_cols lc1 = lc_cols lc /\ lc_rows lc1 = S (lc_rows lc) /\
  forall i, (i < lc_rows lc)%nat -> lc_J lc1 i = lc_J lc i /\ lc_b lc1 i = lc_b lc i.
Lemma extends_sat lc lc1 y : extends lc lc1 -> sat lc1 y -> sat lc y.
Proof.
  intros (E1 & E2 & E3) Hs i Hi. destruct (E3 i Hi) as [EJ Eb]. rewrite <- Eb, (Hs i ltac:(lia)), E1. unfold mv. rewrite EJ. reflexivity.
Qed.
Lemma drop_sat lc lc1 y : extends lc lc1 -> sat (drop_row lc1) y <-> sat lc y.
Proof.
  intros (E1 & E2 & E3). unfold sat, drop_row, mv; cbn [lc_rows lc_cols lc_J lc_b]. rewrite E2.
  replace (S (lc_rows lc) - 1)%nat with (lc_rows lc) by lia.
  split; intros Hs i Hi; destruct (E3 i Hi) as [EJ Eb]; pose proof (Hs i Hi) as G.
  - rewrite <- Eb, G, E1, EJ. reflexivity.
  - rewrite Eb, G, E1, EJ. reflexivity.
Qed.
Lemma add_extends j x cur r lc lc1 c : lc_cols lc = N -> sat lc x -> add_collision w j x cur r lc = Ok (lc1, c) ->
  extends lc lc1 /\ sat lc1 x /\ cf_row c = lc_rows lc.
Proof.
  intros Hc Hs E. unfold add_collision in E. binv E. binv E. injection E as <- <-.
  unfold linearize1 in E1. destruct (j <? _)%nat; [|discriminate]. injection E1 as <-.
  cbn [cf_row lc_add_rows lc_rows].
  replace (lc_rows lc + 1 - 1)%nat with (lc_rows lc) by lia.
  assert (HE : forall row v, extends lc (lc_set_row (lc_rows lc) row v (lc_add_rows 1 lc))).
  { intros row v. split; [reflexivity|]. split; [cbn; lia|]. intros i Hi. cbn [lc_set_row lc_add_rows lc_J lc_b].
    destruct (Nat.eqb_spec i (lc_rows lc)); [lia|]. destruct (Nat.ltb_spec i (lc_rows lc)); [split; reflexivity|lia]. }
  split; [apply HE|]. split; [|reflexivity].
  intros i Hi. cbn [lc_set_row lc_add_rows lc_rows lc_J lc_b lc_cols] in *. rewrite Hc. fold (w_size w). fold N. unfold mv.
  destruct (Nat.eqb_spec i (lc_rows lc)) as [->|Hne]; [reflexivity|].
  assert (Hi' : (i < lc_rows lc)%nat) by lia.
  destruct (Nat.ltb_spec i (lc_rows lc)); [|lia]. rewrite (Hs i Hi'), Hc. reflexivity.
Qed.
Lemma find_loop_ok j x fs lc : forall k lc1 lcr lcp f c lc' lcr' fs' found,
  lc_cols lc = N -> extends lc lc1 -> sat lc1 x -> cf_row c = lc_rows lc ->
  lc_reduce (g_lu w) cs lc1 lcp true = Ok (lcr, f) ->
  find_loop w cs j x k lc1 lcr fs c f = Ok (lc', lcr', fs', found) ->
  exists lcS lcp, lc_reduce (g_lu w) cs lcS lcp true = Ok (lcr', found) /\ extends lc lcS /\ sat lcS x /\
    (if found then lc' = lcS else lc' = drop_row lcS).
Proof.
  induction k as [|k IH]; intros lc1 lcr lcp f c lc' lcr' fs' found Hc He Hs Hrow Hr E; cbn [find_loop] in E; destruct f.
  - injection E as <- <- _ <-. exists lc1, lcp. split; [exact Hr|]. split; [exact He|]. split; [exact Hs|reflexivity].
  - injection E as <- <- _ <-. exists lc1, lcp. split; [exact Hr|]. split; [exact He|]. split; [exact Hs|reflexivity].
  - injection E as <- <- _ <-. exists lc1, lcp. split; [exact Hr|]. split; [exact He|]. split; [exact Hs|reflexivity].
  - binv E. rename a into lc2. binv E. destruct a as [lcr2 f2]; cbn [fst snd] in E.
    assert (Hc1 : lc_cols lc1 = N) by (rewrite (proj1 He); exact Hc).
    destruct (linearize1_sat _ _ _ _ _ Hc1 Hs E0) as (G1 & G2 & G3 & G4). cbn [cf_row] in G4.
    refine (IH lc2 lcr2 lcr f2 _ lc' lcr' fs' found Hc _ G3 _ E1 E); [|exact Hrow].
    split; [congruence|]. split; [rewrite G2; apply He|]. intros i Hi. destruct (G4 i ltac:(lia)) as [A B].
    destruct He as (_ & _ & He). destruct (He i Hi) as [C D]. split; congruence.
Qed.
Lemma add_reports_ok dim x cur : forall reports lc lcr fs ok lc' lcr' fs' ok',
  lc_cols lc = N -> sat lc x ->
  (ok = true -> exists lcS lcp f, lc_reduce (g_lu w) cs lcS lcp true = Ok (lcr, f) /\ sat lcS x /\ forall y, sat lcS y -> sat lc y) ->
  add_reports w cs dim x cur reports lc lcr fs ok = Ok (lc', lcr', fs', ok') ->
  lc_cols lc' = N /\ sat lc' x /\
  (ok' = true -> exists lcS lcp f, lc_reduce (g_lu w) cs lcS lcp true = Ok (lcr', f) /\ sat lcS x /\ forall y, sat lcS y -> sat lc' y) /\
  (ok' = false -> forall y, sat lc y -> sat lc' y).
Proof.
  induction reports as [|r t IH]; intros lc lcr fs ok lc' lcr' fs' ok' Hc Hs Hok E; cbn [add_reports] in E.
  - injection E as <- <- <- <-. repeat split; try assumption. intros _ y Hy; exact Hy.
  - binv E. destruct a as [lc1 c]; cbn [fst snd] in E. binv E. destruct a as [[[lc2 lcr2] fs2] found].
    destruct (add_extends _ _ _ _ _ _ _ Hc Hs E0) as (He & Hs1 & Hrow).
    unfold find_new in E1. binv E1. destruct a as [lcr1 f1]; cbn [fst snd] in E1.
    destruct (find_loop_ok _ _ _ _ _ _ _ _ _ _ _ _ _ _ Hc He Hs1 Hrow E2 E1) as (lcS & lcp & Hr & HeS & HsS & Hf).
    assert (Hc2 : lc_cols lc2 = N).
    { destruct found; subst lc2; cbn [drop_row lc_cols]; rewrite (proj1 HeS); exact Hc. }
    assert (Hs2 : sat lc2 x).
    { destruct found; subst lc2; [exact HsS|]. apply (drop_sat _ _ _ HeS). exact Hs. }
    assert (HS2 : forall y, sat lcS y -> sat lc2 y).
    { intros y Hy. destruct found; subst lc2; [exact Hy|]. apply (drop_sat _ _ _ HeS). exact (extends_sat _ _ _ HeS Hy). }
    destruct (ok || found)%bool eqn:Eok; cbn [negb] in E.
    + binv E. destruct (dim <=? a)%nat.
      * injection E as <- <- <- <-. split; [exact Hc2|]. split; [exact Hs2|]. split; [|discriminate].
        intros _. exists lcS, lcp, found. repeat split; assumption.
      * destruct (IH _ _ _ _ _ _ _ _ Hc2 Hs2 (fun _ => ex_intro _ lcS (ex_intro _ lcp (ex_intro _ found (conj Hr (conj HsS HS2))))) E) as (A & B & C & D).
        split; [exact A|]. split; [exact B|]. split; [exact C|].
        intros Hf0. exfalso.
        (* once a constraint was found the result stays true *)
        assert (forall reports lc lcr fs lc' lcr' fs' ok', add_reports w cs dim x cur reports lc lcr fs true = Ok (lc', lcr', fs', ok') -> ok' = true) as Hst.
        { clear. induction reports as [|r t IH]; intros lc lcr fs lc' lcr' fs' ok' E; cbn [add_reports] in E.
          - injection E as _ _ _ <-; reflexivity.
          - binv E. binv E. destruct a0 as [[[p q] u] v]. cbn [orb negb] in E. binv E.
            destruct (dim <=? a0)%nat; [injection E as _ _ _ <-; reflexivity|exact (IH _ _ _ _ _ _ _ E)]. }
        rewrite (Hst _ _ _ _ _ _ _ _ E) in Hf0. discriminate.
    + injection E as <- <- <- <-. apply orb_false_iff in Eok. destruct Eok as [-> ->].
      split; [exact Hc2|]. split; [exact Hs2|]. split; [discriminate|].
      intros _ y Hy. subst lc2. apply (drop_sat _ _ _ HeS). exact Hy.
Qed.

(* ----------------------------------------------------------- the loop *)
Variable x0 : vec.
Record inv (s : @state Fn) : Prop := {
  i_pc : sat pc (st_x s); i_bc : sat_ineq bc (st_x s); i_cost : cost (st_x s) <= cost x0;
  i_alpha : 0 <= st_alpha s <= 1;
  i_qp : same_qp (st_qp s);
  i_cols : lc_cols (st_lc s) = N; i_lc : sat (st_lc s) (st_x s);
  i_good : exists v, qp_x (st_qp s) = Some v /\ good (st_lc s) (st_x s) v /\
    (st_copt s = false -> lc_solution cs v = Ok (st_coll s)) }.
(* after the choice of the splines *)
Record mid_inv (s : @state Fn) : Prop := {
  m_inv : inv s; m_copt : st_copt s = false;
  m_cur : exists t, 0 <= t <= 1 /\ forall c, st_cur s c = interpolate (st_x s) (st_coll s) t c }.

Lemma choose_inv s s' : inv s -> (st_copt s || st_cint s)%bool = true -> choose_splines w cs s = Ok s' -> mid_inv s'.
Proof.
  intros I Hor E. unfold choose_splines in E. binv E. rename a into s1.
  assert (H1 : inv s1 /\ st_copt s1 = false /\ st_cint s1 = st_cint s /\ (st_cint s = false -> forall c, st_cur s1 c = st_coll s1 c)).
  { destruct (st_copt s) eqn:Ec.
    - destruct (qp_x (st_qp s)) as [v|] eqn:Ev; [|discriminate]. binv E0. injection E0 as <-.
      split; [|split; [reflexivity|split; [reflexivity|intros _ c; reflexivity]]].
      destruct I as [A B C D F G J (v' & Ev' & Gv & _)]. constructor; cbn [st_x st_alpha st_qp st_lc st_copt st_coll]; try assumption.
      rewrite Ev in Ev'. injection Ev' as <-. exists v. split; [exact Ev|]. split; [exact Gv|]. intros _. assumption.
    - injection E0 as <-. split; [exact I|]. split; [exact Ec|]. split; [reflexivity|]. intros Hci. rewrite Hci in Hor. discriminate. }
  destruct H1 as (I1 & Hc1 & Hci & Hcur).
  destruct (st_cint s1) eqn:Eci; injection E as <-.
  - split.
    + destruct I1 as [A B C D F G J K]. constructor; cbn [st_x st_alpha st_qp st_lc st_copt st_coll]; assumption.
    + cbn [st_copt]. exact Hc1.
    + exists (st_alpha s1). cbn [st_x st_coll st_cur]. split; [exact (i_alpha _ I1)|]. intros c; reflexivity.
  - split; [exact I1|exact Hc1|]. exists 1. split; [lra|]. intros c. rewrite (Hcur ltac:(congruence) c). unfold interpolate. ring.
Qed.

Lemma interp_twice a b t u c : interpolate (interpolate a b t) b u c = interpolate a b (t + u - t * u) c.
Proof. unfold interpolate. ring. Qed.

Lemma accept_inv s s' : mid_inv s -> accept w cs bcr s = Ok s' -> inv s' /\ (st_copt s' || st_cint s')%bool = true.
Proof.
  intros [I Hco (t & Ht & Hcur)] E.
  destruct (i_good _ I) as (v & Ev & (sv & Esv & Gb & Gl & Gm) & Hcoll). specialize (Hcoll Hco).
  rewrite Esv in Hcoll. injection Hcoll as Hcoll. rewrite <- Hcoll in Hcur.
  set (x := st_x s) in *. set (y := st_cur s) in *.
  assert (Ey : forall n, same n (interpolate x sv t) y) by (intros n i _; symmetry; apply Hcur).
  assert (Yp : sat pc y) by (apply (sat_ext pc _ y (Ey _)), sat_interp; [exact (i_pc _ I)|exact (sol_sat _ _ Esv)]).
  assert (Yb : sat_ineq bc y) by (apply (sat_ineq_ext bc _ y (Ey _)), sat_ineq_interp; [exact Ht|exact (i_bc _ I)|exact Gb]).
  assert (Yl : sat (st_lc s) y) by (apply (sat_ext _ _ y (Ey _)), sat_interp; [exact (i_lc _ I)|exact Gl]).
  assert (Yc : cost y <= cost x0).
  { rewrite <- (cost_ext _ y (Ey N)). pose proof (cost_convex x sv t Ht) as C1.
    pose proof (Gm 0 ltac:(lra)) as C2.
    assert (C3 : cost (interpolate x sv 0) = cost x) by (apply cost_ext; intros i _; unfold interpolate; ring).
    rewrite C3 in C2. pose proof (i_cost _ I) as C4. fold x in C4.
    assert (0 <= t * (cost x - cost sv)) by (apply Rmult_le_pos; lra). lra. }
  unfold accept in E. binv E. destruct a as [[[qp lc] lcr] co]. injection E as <-.
  split; [|cbn [st_copt st_cint]; apply orb_true_r].
  destruct (g_lin w).
  - binv E0. rename a into lc'. binv E0. destruct a as [lcr' f']. binv E0. destruct a as [q' c']. cbn [fst] in *.
    injection E0 as <- <- <- <-.
    unfold linearize_all in E. destruct (linearize_from_sat _ _ _ _ _ (i_cols _ I) Yl E) as (L1 & L2 & L3).
    destruct (solve_good _ _ _ _ _ lc' y _ _ (i_qp _ I) Yp Yb E1 L3 (fun y Hy => Hy) E2) as (Q & v' & Ev' & Gv').
    constructor; cbn [st_x st_alpha st_qp st_lc st_copt st_coll]; try assumption; [exact (i_alpha _ I)|].
    exists v'. split; [exact Ev'|]. split; [exact Gv'|discriminate].
  - injection E0 as <- <- <- <-.
    constructor; cbn [st_x st_alpha st_qp st_lc st_copt st_coll]; try assumption; [exact (i_alpha _ I)|exact (i_qp _ I)|exact (i_cols _ I)|].
    exists v. split; [exact Ev|]. split; [|intros _; rewrite Esv, Hcoll; reflexivity].
    exists sv. split; [exact Esv|]. split; [exact Gb|]. split; [exact Gl|].
    intros u Hu. change (cost sv <= cost (interpolate y sv u)). rewrite (cost_ext (interpolate y sv u) (interpolate x sv (t + u - t * u))).
    + apply Gm. split; nra.
    + intros i _. rewrite <- interp_twice. unfold interpolate at 1 3. rewrite (Hcur i). reflexivity.
Qed.

Lemma reject_inv reports s s' b : mid_inv s -> reject w cs bcr reports s = Ok (s', b) ->
  inv s' /\ (b = false -> (st_copt s' || st_cint s')%bool = true).
Proof.
  intros [I Hco _] E. unfold reject in E.
  destruct (reqb (st_alpha s) 1).
  { injection E as <- <-. split; [|intros _; cbn [st_copt st_cint]; apply orb_true_r].
    destruct I as [A B C D F G J K]. constructor; cbn [st_x st_alpha st_qp st_lc st_copt st_coll]; try assumption. }
  binv E. destruct (qp_n (st_qp s) <=? a)%nat; [injection E as <- <-; split; [exact I|discriminate]|].
  binv E. destruct a0 as [[[lc lcr] fs] ok].
  assert (Hnf : false = true -> exists lcS lcp f, lc_reduce (g_lu w) cs lcS lcp true = Ok (st_lcr s, f) /\ sat lcS (st_x s) /\ forall y, sat lcS y -> sat (st_lc s) y) by discriminate.
  destruct (add_reports_ok _ _ _ _ _ _ _ _ _ _ _ _ (i_cols _ I) (i_lc _ I) Hnf E1) as (A1 & A2 & A3 & A4).
  destruct ok.
  - destruct (A3 eq_refl) as (lcS & lcp & f & Hr & HS & HSl).
    binv E. destruct a0 as [q c]. injection E as <- <-. split; [|intros _; reflexivity].
    destruct (solve_good _ _ _ _ _ lc (st_x s) _ _ (i_qp _ I) (i_pc _ I) (i_bc _ I) Hr HS HSl E2) as (Q & v & Ev & Gv).
    destruct I as [A B C D F G J K]. constructor; cbn [fst st_x st_alpha st_qp st_lc st_copt st_coll]; try assumption; [lra|].
    exists v. split; [exact Ev|]. split; [exact Gv|discriminate].
  - specialize (A4 eq_refl).
    assert (HG : exists v, qp_x (st_qp s) = Some v /\ good lc (st_x s) v /\ (st_copt s = false -> lc_solution cs v = Ok (st_coll s))).
    { destruct (i_good _ I) as (v & Ev & (sv & Esv & Gb & Gl & Gm) & Hcoll). exists v. split; [exact Ev|]. split; [|exact Hcoll].
      exists sv. split; [exact Esv|]. split; [exact Gb|]. split; [apply A4; exact Gl|exact Gm]. }
    destruct (rltb (st_alpha s) (g_alpha0 w / 4)); injection E as <- <-.
    + split; [|discriminate]. destruct I as [A B C D F G J K].
      constructor; cbn [st_x st_alpha st_qp st_lc st_copt st_coll]; assumption.
    + split; [|intros _; cbn [st_copt st_cint]; apply orb_true_r]. destruct I as [A B C D F G J K].
      constructor; cbn [st_x st_alpha st_qp st_lc st_copt st_coll]; try assumption. lra.
Qed.

Lemma mid_inv_ext s s' : mid_inv s -> st_x s' = st_x s -> st_coll s' = st_coll s -> st_cur s' = st_cur s -> st_qp s' = st_qp s ->
  st_lc s' = st_lc s -> st_copt s' = st_copt s -> st_alpha s' = st_alpha s -> mid_inv s'.
Proof.
  intros [I Hco Hcur] E1 E2 E3 E4 E5 E6 E7. split.
  - destruct I as [A B C D F G J K]. constructor; rewrite ?E1, ?E2, ?E3, ?E4, ?E5, ?E6, ?E7; assumption.
  - rewrite E6; exact Hco.
  - rewrite E1, E2, E3. exact Hcur.
Qed.
Lemma iterate_inv s s' b : inv s -> (st_copt s || st_cint s)%bool = true -> iterate w cs bcr s = Ok (s', b) ->
  inv s' /\ (b = false -> (st_copt s' || st_cint s')%bool = true).
Proof.
  intros I Hor E. unfold iterate in E. binv E. rename a into s1. pose proof (choose_inv _ _ I Hor E0) as M.
  destruct (g_optimum w).
  - binv E. injection E as <- <-.
    match type of E1 with accept w cs bcr ?s2 = _ => assert (M2 : mid_inv s2) by (apply (mid_inv_ext s1 _ M); reflexivity) end.
    destruct (accept_inv _ _ M2 E1) as [A B].
    split; [exact A|intros _; exact B].
  - destruct (validate_path w (st_first s1) (st_cur s1) (st_ord s1)) as [reports ord]. destruct reports as [|r t].
    + binv E. injection E as <- <-.
      match type of E1 with accept w cs bcr ?s2 = _ => assert (M2 : mid_inv s2) by (apply (mid_inv_ext s1 _ M); reflexivity) end.
    destruct (accept_inv _ _ M2 E1) as [A B].
      split; [exact A|intros _; exact B].
    + match type of E with reject w cs bcr _ ?s2 = _ => assert (M2 : mid_inv s2) by (apply (mid_inv_ext s1 _ M); reflexivity) end.
      exact (reject_inv _ _ _ _ M2 E).
Qed.
Lemma loop_inv2 : forall fuel i s s', inv s -> (st_copt s || st_cint s)%bool = true -> opt_loop w fuel i cs bcr s = Ok s' -> inv s'.
Proof.
  induction fuel as [|f IH]; intros i s s' HP Hor E; cbn [opt_loop] in E;
    destruct (st_nocoll s && st_min s)%bool; try (injection E as <-; exact HP);
    destruct (g_stop w i); try (injection E as <-; exact HP); try discriminate.
  binv E. destruct a as [s1 b]; cbn [fst snd] in E.
  destruct (iterate_inv _ _ _ HP Hor E0) as [HP1 Hb].
  destruct b; [injection E as <-; exact HP1 | exact (IH _ _ _ HP1 (Hb eq_refl) E)].
Qed.
End P.

Section Q.
Context {Rep Fn : Type}.
Variable w : @sgb Rep Fn.
Lemma optimize_kept fuel x : exact_qr (g_qr w) (w_constraint w) -> sat (w_constraint w) (w_input w) ->
  optimize w fuel = Ok x -> sat (w_constraint w) x.
Proof.
  intros Hqr Hin E. destruct (optimize_inv _ _ _ E) as (cs & okd & lcr & f1 & bcr & f2 & qpc & _ & Hd & _ & _ & _ & _ & HH).
  destruct HH as [[_ ->]|(q & c & s & _ & Hl & ->)]; [exact Hin|].
  assert (K : kept w s).
  { apply (loop_inv w (kept w) cs bcr) with (2 := conj Hin (conj Hin Hin) : kept w (start_state w lcr q)) (3 := Hl).
    intros s0 s' b HK Hi. exact (iterate_kept w cs okd Hqr (ex_intro _ _ Hin) Hd bcr s0 s' b HK Hi). }
  exact (proj1 K).
Qed.
Lemma optimize_better fuel x : proper (g_n w) (g_nv w) (g_ss w) ->
  (forall j, (j < length (g_ss w))%nat -> 0 <= g_lambda w j) -> 0 <= g_alpha0 w <= 1 ->
  exact_qr (g_qr w) (w_constraint w) -> solver_exact w ->
  sat (w_constraint w) (w_input w) -> sat_ineq (bounds_of w) (w_input w) ->
  optimize w fuel = Ok x -> sat_ineq (bounds_of w) x /\ w_cost w x <= w_cost w (w_input w).
Proof.
  intros Hpr Hla Hal Hqr Hso Hin Hb E.
  destruct (optimize_inv _ _ _ E) as (cs & okd & lcr & f1 & bcr & f2 & qpc & _ & Hd & Hr & _ & Hrb & Hq & HH).
  destruct HH as [[_ ->]|(q & c & s & Hs & Hl & ->)]; [split; [exact Hb|apply Rle_refl]|].
  pose proof (Hso _ _ _ _ _ Hd Hrb Hq) as Hex.
  assert (I : inv w cs qpc (w_input w) s).
  { refine (loop_inv2 w cs okd Hqr (ex_intro _ _ Hin) Hd bcr f2 qpc Hpr Hla Hal Hrb Hq Hex (w_input w) fuel 0%nat _ s _ _ Hl); [|reflexivity].
    destruct (solve_good w cs okd Hqr (ex_intro _ _ Hin) Hd bcr f2 qpc Hpr Hrb Hq Hex qpc lcr _ _ _ (lc_new (w_size w) 0) (w_input w) q c
                (conj eq_refl (conj eq_refl eq_refl)) Hin Hb Hr (sat_new _ _) (fun y Hy => Hy) Hs) as (Q & v & Ev & Gv).
    constructor; cbn [start_state st_x st_alpha st_qp st_lc st_copt st_coll]; try assumption.
    - apply Rle_refl.
    - destruct (g_optimum w); [lra|exact Hal].
    - reflexivity.
    - apply sat_new.
    - exists v. split; [exact Ev|]. split; [exact Gv|discriminate]. }
  split; [exact (i_bc _ _ _ _ _ I)|exact (i_cost _ _ _ _ _ I)].
Qed.
End Q.
