(* An instance of the spline optimiser with exact solvers: one spline of degree
   2 and one dof, from 0 to e, control point 1 in the middle. *)
From Coq Require Import Reals List Arith Bool Lia Lra.
From Verif Require Import Base XReal SplineModel SplineProofs LinConsModel LinConsSpec LinConsProofs LinConsProofs2
  SplineOptModel SplineOptSpec SplineOptProofs SplineOptProps PolyProofs
  SplineGradModel SplineGradSpec SplineGradProofs SplineGradProofs2.
Import ListNotations.
Open Scope R_scope.

Definition bump (e : R) : spline :=
  mkSpline 2 1 (fun _ => 0) (fun i _ => match i with O => 0 | S O => 1 | _ => e end) 0 1.
Definition bump_qr (n m : nat) (A : mat) : qr_result :=
  mkQR 2 (fun j => j) (fun i j => match i, j with
                     | 0%nat, 0%nat => 1 | 2%nat, 1%nat => 1 | 1%nat, 2%nat => 1
                     | _, _ => 0 end)
    (fun i j => match i, j with 0%nat, 0%nat => 1 | 1%nat, 1%nat => -1 | _, _ => 0 end).
Definition bump_lu (m n : nat) (J : mat) : nat := if (m =? 0)%nat then 0%nat else if reqb (J 0%nat 0%nat) 0 then 0%nat else 1%nat.
Definition bump_solver (q : qprog) (ce ci : lincons) : option vec :=
  let v := fun _ : nat => - qp_b q 0%nat / qp_H q 0%nat 0%nat in
  if (lc_rows ce =? 0)%nat then Some v
  else let a := lc_J ce 0%nat 0%nat in
       let r := match lc_b ce 0%nat with Some r => r | None => 0 end in
       if reqb a 0 then if reqb r 0 then Some v else None
       else Some (fun _ => r / a).
(* the control point in the middle must be at least [low] *)
Definition bump_valid (low : R) (j : nat) (s : spline) : option (unit * R) :=
  if rltb (sp_par s 1%nat 0%nat) low then Some (tt, / 2) else None.
Definition bump_sgb (e alpha0 low : R) (optimum : bool) : @sgb unit unit :=
  mkSGB 2 1 [bump e] (fun _ _ => true) (fun _ => 1) 1 alpha0 false false false false optimum (/ 100)
    [] (fun _ => MInf) (fun _ => PInf) bump_qr bump_lu bump_solver (bump_valid low)
    (fun _ _ _ => Ok tt) (fun f => f) (fun _ _ _ _ => 1) (fun _ => false).

Section I.
Variables e alpha0 low : R.
Variable optimum : bool.
Let w := bump_sgb e alpha0 low optimum.

Lemma bump_len : sp_len (bump e) = 1.
Proof. unfold sp_len. cbn. ring. Qed.
Lemma bump_proper : proper (g_n w) (g_nv w) (g_ss w).
Proof. split; [discriminate|]. split; [cbn; lia|]. intros s [<-|[]]. cbn. repeat split; lra. Qed.
Lemma bump_basis u i : basis_der (bump e) 0 u i = bern_der 2 0 u i.
Proof. unfold basis_der. rewrite bump_len. destruct (reqb_spec 1 0); [lra|]. cbn [bump sp_deg pow]. field. Qed.
Lemma bern20 u : bern_der 2 0 u 0 = (1 - u) * (1 - u) /\ bern_der 2 0 u 1 = 2 * u * (1 - u) /\ bern_der 2 0 u 2 = u * u.
Proof. unfold bern_der, rsum_between, signed, binom. cbn. repeat split; field. Qed.
Definition bump_J (i j : nat) : R := match i, j with 0%nat, 0%nat => 1 | 1%nat, 2%nat => -1 | _, _ => 0 end.
Definition bump_b (i : nat) : R := match i with 0%nat => 0 | _ => - e end.
Lemma bump_pc : lc_rows (w_constraint w) = 2%nat /\ lc_cols (w_constraint w) = 3%nat /\
  forall i, (i < 2)%nat -> (forall j, (j < 3)%nat -> lc_J (w_constraint w) i j = bump_J i j) /\ lc_b (w_constraint w) i = Some (bump_b i).
Proof.
  split; [reflexivity|]. split; [reflexivity|]. intros i Hi.
  destruct (bern20 0) as (A0 & A1 & A2). destruct (bern20 1) as (B0 & B1 & B2).
  destruct i as [|[|i]]; [| |lia]; (split; [intros j Hj; destruct j as [|[|[|j]]]; [| | |lia]|]);
  unfold w_constraint, path_constraint; cbn [lc_of_rows lc_J lc_b nth problem_rows continuity_rows w bump_sgb g_n g_nv g_ss g_act flat_map seq length Nat.div Nat.divmod fst snd
    selected filter map app negb Nat.sub continuity_row nth_spline Nat.eqb block bsize Nat.mul Nat.add Nat.leb Nat.ltb andb Nat.modulo bump_J bump_b rsum];
  rewrite ?bump_basis, ?A0, ?A1, ?A2, ?B0, ?B1, ?B2; cbn [bump sp_par]; try (f_equal); ring.
Qed.
Lemma bump_sat x : sat (w_constraint w) x <-> x 0%nat = 0 /\ x 2%nat = e.
Proof.
  destruct bump_pc as (Hr & Hc & HJ). unfold sat. rewrite Hr, Hc. destruct (HJ 0%nat ltac:(lia)) as [J0 B0]. destruct (HJ 1%nat ltac:(lia)) as [J1 B1].
  assert (E0 : mv 3 (lc_J (w_constraint w)) x 0 = x 0%nat).
  { unfold mv, dot. cbn [rsum]. rewrite !J0 by lia. cbn [bump_J]. ring. }
  assert (E1 : mv 3 (lc_J (w_constraint w)) x 1 = - x 2%nat).
  { unfold mv, dot. cbn [rsum]. rewrite !J1 by lia. cbn [bump_J]. ring. }
  split.
  - intros H. pose proof (H 0%nat ltac:(lia)) as H0. pose proof (H 1%nat ltac:(lia)) as H1. rewrite B0, E0 in H0. rewrite B1, E1 in H1.
    injection H0 as H0. injection H1 as H1. cbn [bump_b] in *. split; lra.
  - intros [H0 H1] i Hi. destruct i as [|[|i]]; [rewrite B0, E0|rewrite B1, E1|lia]; cbn [bump_b]; f_equal; lra.
Qed.
Lemma bump_input : sat (w_constraint w) (w_input w) /\ w_input w 1%nat = 1.
Proof. split; [apply bump_sat|]; unfold w_input, params; cbn; repeat split; reflexivity. Qed.
Lemma bump_bounds x : sat_ineq (bounds_of w) x.
Proof. intros i Hi. cbn in Hi. lia. Qed.
Lemma bump_exact_qr : exact_qr (g_qr w) (w_constraint w).
Proof.
  intros _. destruct bump_pc as (Hr & Hc & HJ). rewrite Hr, Hc. constructor; cbn [w bump_sgb g_qr bump_qr qr_rank qr_perm qr_Q qr_R]; try lia; auto.
  - intros i j Hi Hj. unfold mid. destruct i as [|[|[|i]]]; [| | |lia]; (destruct j as [|[|[|j]]]; [| | |lia]); cbn [rsum Nat.eqb]; split; ring.
  - intros i j Hi Hj. unfold mt. rewrite (proj1 (HJ j Hj) i Hi). unfold mm. destruct i as [|[|[|i]]]; [| | |lia]; (destruct j as [|[|j]]; [| |lia]); cbn [rsum bump_J]; ring.
  - intros k j Hk Hj H. destruct k as [|[|[|k]]]; [| | |lia]; (destruct j as [|[|j]]; [| |lia]); try reflexivity; lia.
  - intros k Hk. destruct k as [|[|k]]; [| |lia]; lra.
Qed.
Lemma bump_integrals p : forall i j, (i < 3)%nat -> (j < 3)%nat ->
  norm_integral (set_par (bump e) p) 1 i j = if (i =? j)%nat then 2 / 3 else - (1 / 3).
Proof.
  intros i j Hi Hj. unfold norm_integral. change (sp_len (set_par (bump e) p)) with (sp_len (bump e)). rewrite bump_len. destruct (reqb_spec 1 0); [lra|]. cbn [Nat.ltb Nat.leb].
  destruct i as [|[|[|i]]]; [| | |lia]; (destruct j as [|[|[|j]]]; [| | |lia]);
  unfold bern_integral, rsum_between, signed, binom; cbn; field.
Qed.
Lemma bump_cost x : w_cost w x =
  2 / 3 * (x 0%nat * x 0%nat + x 1%nat * x 1%nat + x 2%nat * x 2%nat - x 0%nat * x 1%nat - x 1%nat * x 2%nat - x 0%nat * x 2%nat).
Proof.
  unfold w_cost, cost_value, w_splines. cbn [w bump_sgb g_n g_nv g_ss g_lambda g_order update_splines mapi length rsum nth_spline nth].
  set (s := set_par (bump e) (fun i d => x (pidx 2 1 0 i d))).
  unfold sp_norm_integral. change (sp_deg s) with 2%nat. change (sp_nv s) with 1%nat. cbn [rsum].
  unfold s. rewrite !bump_integrals by lia. cbn [Nat.eqb set_par sp_par]. change (pidx 2 1 0 0 0) with 0%nat. change (pidx 2 1 0 1 0) with 1%nat. change (pidx 2 1 0 2 0) with 2%nat.
  field.
Qed.
Lemma bump_cost_sat y : sat (w_constraint w) y -> w_cost w y = 2 / 3 * ((y 1%nat - e / 2) * (y 1%nat - e / 2)) + e * e / 2.
Proof. intros H. apply bump_sat in H. destruct H as [H0 H2]. rewrite bump_cost, H0, H2. field. Qed.
Lemma bump_cost_min y : sat (w_constraint w) y -> e * e / 2 <= w_cost w y.
Proof. intros H. rewrite (bump_cost_sat y H). pose proof (Rle_0_sqr (y 1%nat - e / 2)) as S. unfold Rsqr in S. lra. Qed.
Lemma bump_cost_input : w_cost w (w_input w) = 2 / 3 * (1 - e + e * e).
Proof. rewrite bump_cost_sat by apply bump_input. rewrite (proj2 bump_input). field. Qed.

(* the decomposition *)
Lemma bump_dec cs ok k PK xs : lc_decompose (g_qr w) true true (w_constraint w) = Ok (cs, ok) -> lc_dec cs = Some (k, PK, xs) ->
  k = 1%nat /\ lc_cols cs = 3%nat /\ (forall i, (i < 3)%nat -> PK i 0%nat = if (i =? 1)%nat then 1 else 0) /\
  xs 0%nat = 0 /\ xs 1%nat = 0 /\ xs 2%nat = e.
Proof.
  intros E Hd. pose proof (cs_cols w cs ok bump_exact_qr E) as Hc.
  destruct bump_pc as (Hr & Hcols & HJ). unfold lc_decompose in E. rewrite Hr, Hcols in E. cbn [Nat.eqb] in E. binv E.
  destruct (is_zero _ _ _) in E; [|discriminate]. injection E as <- <-. cbn [lc_dec] in Hd. injection Hd as <- <- <-.
  split; [reflexivity|]. split; [reflexivity|]. split.
  { intros i Hi. destruct i as [|[|[|i]]]; [| | |lia]; reflexivity. }
  assert (Hb : forall i, (i < 2)%nat -> a i = bump_b i).
  { intros i Hi. pose proof (read_b_inv _ _ E0 i ltac:(rewrite Hr; exact Hi)) as Eb. rewrite (proj2 (HJ i Hi)) in Eb. injection Eb as Eb. symmetry; exact Eb. }
  cbn [w bump_sgb g_qr bump_qr qr_rank qr_R qr_perm qr_Q]. unfold mv, dot. cbn [rsum Nat.ltb Nat.leb fsub].
  rewrite !Hb by lia. cbn [bump_b]. unfold upd. cbn. repeat split; try field; try lra.
Qed.
Lemma bump_reduced cs ok q : lc_decompose (g_qr w) true true (w_constraint w) = Ok (cs, ok) ->
  qp_reduced (mkQP (w_size w) (cost_hessian (g_n w) (g_nv w) (g_lambda w) (g_order w) (g_ss w)) (fun _ => 0) true None) cs = Ok q ->
  qp_n q = 1%nat /\ qp_H q 0%nat 0%nat = 4 / 3.
Proof.
  intros E Eq.
  assert (H11 : cost_hessian (g_n w) (g_nv w) (g_lambda w) (g_order w) (g_ss w) 1%nat 1%nat = 4 / 3).
  { unfold cost_hessian. cbn [w bump_sgb g_n g_nv g_lambda g_order g_ss].
    change (1%nat / bsize 2 1)%nat with 0%nat. change (1%nat mod bsize 2 1)%nat with 1%nat. cbn [Nat.eqb Nat.modulo Nat.div Nat.divmod fst snd Nat.sub nth_spline nth].
    change (bump e) with (set_par (bump e) (sp_par (bump e))). rewrite bump_integrals by lia. cbn [Nat.eqb]. field. }
  revert H11 Eq. generalize (cost_hessian (g_n w) (g_nv w) (g_lambda w) (g_order w) (g_ss w)). intros HH H11 Eq.
  unfold qp_reduced in Eq. destruct (lc_dec cs) as [[[k PK] xs]|] eqn:Hd; [|discriminate].
  destruct (bump_dec cs ok k PK xs E Hd) as (-> & Hc & HP & _). rewrite Hc in Eq. cbn [qp_n w_size] in Eq.
  change (w_size w) with 3%nat in Eq. cbn [Nat.eqb] in Eq. injection Eq as <-. cbn [qp_n qp_H]. split; [reflexivity|].
  unfold mm, mt. cbn [rsum]. rewrite !HP by lia. cbn [Nat.eqb].
  rewrite H11. ring.
Qed.
Lemma quad1 q v : qp_n q = 1%nat -> quad (qp_n q) (qp_H q) (qp_b q) v = / 2 * (qp_H q 0%nat 0%nat * (v 0%nat * v 0%nat)) + qp_b q 0%nat * v 0%nat.
Proof. intros ->. unfold quad, dot, mv, dot. cbn [rsum]. ring. Qed.
Lemma bump_solver_exact : solver_exact w.
Proof.
  intros cs ok bcr full q0 E Eb Eq q ce Hn HH Hb Hcol Hrow Hwr.
  destruct (bump_reduced cs ok q0 E Eq) as [N1 H1]. rewrite N1 in Hcol, Hrow.
  assert (Hci : forall u, sat_ineq bcr u).
  { destruct (reduce_inv _ _ _ _ _ _ _ Eb) as (k & PK & xs & _ & _ & Hr & _). intros u i Hi. rewrite Hr in Hi. cbn in Hi. lia. }
  assert (Hmv : forall u, mv (lc_cols ce) (lc_J ce) u 0%nat = lc_J ce 0%nat 0%nat * u 0%nat).
  { intros u. rewrite Hcol. unfold mv, dot. cbn [rsum]. ring. }
  assert (Hmin : forall u, quad (qp_n q0) (qp_H q0) (qp_b q0) (fun _ => - qp_b q 0%nat / qp_H q 0%nat 0%nat) <= quad (qp_n q0) (qp_H q0) (qp_b q0) u).
  { intros u. rewrite !quad1 by exact N1. rewrite HH, Hb, H1. pose proof (Rle_0_sqr (u 0%nat + 3 / 4 * qp_b q0 0%nat)) as S. unfold Rsqr in S.
    replace (- qp_b q0 0%nat / (4 / 3)) with (- (3 / 4 * qp_b q0 0%nat)) by field. nra. }
  cbn [w bump_sgb g_solver]. unfold bump_solver. destruct (Nat.eqb_spec (lc_rows ce) 0) as [Hz|Hz].
  { split; [intros i Hi; lia|]. split; [apply Hci|]. intros u _ _. apply Hmin. }
  assert (Hr1 : lc_rows ce = 1%nat) by lia. pose proof (Hwr 0%nat ltac:(lia)) as W0. destruct (lc_b ce 0%nat) as [r|] eqn:Er; [|congruence].
  assert (Hsat : forall u, sat ce u <-> lc_J ce 0%nat 0%nat * u 0%nat = r).
  { intros u. split.
    - intros Hs. pose proof (Hs 0%nat ltac:(lia)) as E0. rewrite Er, Hmv in E0. injection E0 as E0. symmetry; exact E0.
    - intros Hs i Hi. assert (i = 0%nat) as -> by lia. rewrite Er, Hmv, Hs. reflexivity. }
  destruct (reqb_spec (lc_J ce 0%nat 0%nat) 0) as [Ha|Ha].
  - destruct (reqb_spec r 0) as [H0|H0].
    + split; [apply Hsat; rewrite Ha, H0; ring|]. split; [apply Hci|]. intros u _ _. apply Hmin.
    + intros u [Hu _]. apply Hsat in Hu. rewrite Ha in Hu. apply H0. lra.
  - split; [apply Hsat; field; exact Ha|]. split; [apply Hci|]. intros u Hu _. apply Hsat in Hu.
    rewrite !quad1 by exact N1. replace (r / lc_J ce 0%nat 0%nat) with (u 0%nat) by (rewrite <- Hu; field; exact Ha). apply Rle_refl.
Qed.
Lemma bump_lu_exact : lu_exact w.
Proof.
  intros cs ok k PK xs E Hd m J. destruct (bump_dec cs ok k PK xs E Hd) as (-> & _).
  unfold rank_exact. cbn [w bump_sgb g_lu]. unfold bump_lu. split.
  - intros r Hr Hi. destruct r as [|[|r]]; [lia| |].
    + destruct (Nat.eqb_spec m 0); [lia|]. destruct (reqb_spec (J 0%nat 0%nat) 0) as [H0|]; [|lia]. exfalso.
      pose proof (Hi (fun _ => 1) ltac:(intros j Hj; assert (j = 0%nat) as -> by lia; cbn [rsum]; rewrite H0; ring) 0%nat ltac:(lia)). lra.
    + exfalso. destruct (Req_dec (J 0%nat 0%nat) 0) as [H0|H0].
      * pose proof (Hi (fun i => if (i =? 0)%nat then 1 else 0)) as X. cbn beta in X.
        assert (C : (if (0 =? 0)%nat then 1 else 0) = 0).
        { apply X; [|lia]. intros j Hj. assert (j = 0%nat) as -> by lia. rewrite (rsum_single _ (S (S r)) 0%nat); [rewrite H0; ring|lia|].
          intros i Hi1 Hi2. destruct (Nat.eqb_spec i 0); [lia|ring]. }
        cbn in C. lra.
      * pose proof (Hi (fun i => if (i =? 0)%nat then J 1%nat 0%nat else if (i =? 1)%nat then - J 0%nat 0%nat else 0)) as X. cbn beta in X.
        assert (C : (if (1 =? 0)%nat then J 1%nat 0%nat else if (1 =? 1)%nat then - J 0%nat 0%nat else 0) = 0).
        { apply X; [|lia]. intros j Hj. assert (j = 0%nat) as -> by lia. rewrite !rsum_first. cbn [Nat.eqb].
          rewrite rsum_zero; [ring|]. intros i Hi1. cbn [Nat.eqb]. ring. }
        cbn in C. lra.
  - destruct (Nat.eqb_spec m 0) as [->|Hm]; [intros _ c _ i Hi; lia|]. destruct (reqb_spec (J 0%nat 0%nat) 0) as [H0|H0]; intros Em; [lia|].
    subst m. intros c Hc i Hi. assert (i = 0%nat) as -> by lia. pose proof (Hc 0%nat ltac:(lia)) as X. cbn [rsum] in X.
    destruct (Rmult_integral (c 0%nat) (J 0%nat 0%nat) ltac:(lra)); [assumption|contradiction].
Qed.
Lemma bump_par x : sp_par (sp_at w x 0) 1%nat 0%nat = x 1%nat.
Proof. reflexivity. Qed.
Lemma bump_minimal x : sat (w_constraint w) x -> (forall y, sat (w_constraint w) y -> sat_ineq (bounds_of w) y -> w_cost w x <= w_cost w y) -> x 1%nat = e / 2.
Proof.
  intros Hx Hm. set (y := fun i : nat => match i with 0%nat => 0 | 1%nat => e / 2 | _ => e end).
  assert (Hy : sat (w_constraint w) y) by (apply bump_sat; split; reflexivity).
  pose proof (Hm y Hy (bump_bounds y)) as H. rewrite (bump_cost_sat x Hx), (bump_cost_sat y Hy) in H. cbn [y] in H.
  assert (S : (x 1%nat - e / 2) * (x 1%nat - e / 2) <= 0) by lra. pose proof (Rle_0_sqr (x 1%nat - e / 2)) as S2. unfold Rsqr in S2.
  destruct (Rmult_integral (x 1%nat - e / 2) (x 1%nat - e / 2)); lra.
Qed.
End I.
