(* C73 with the bundled solver of quadratic programs instead of an oracle. *)
From Coq Require Import Reals List Arith Bool Lia Lra.
From Verif Require Import Base XReal SplineModel SplineProofs LinConsModel LinConsSpec LinConsProofs LinConsProofs2
  SplineOptModel SplineOptSpec SplineOptProofs SplineOptProofs3 SplineOptProps PolyProofs
  SplineGradModel SplineGradSpec SplineGradProofs SplineGradProofs2 SplineGradProofs3 SplineGradProofs4 SplineGradProofs5 SplineGradProps
  GiModel GiSpec GiProofs5 SplineGiModel SplineGiProofs.
Import ListNotations.
Open Scope R_scope.

(* ReturnOptimum with the solver of eiquadprog_2011.hpp in exact arithmetic,
   given enough jumps: a path is returned, which keeps the constraints and the
   bounds, and no such path costs less. *)
Theorem C73_bundled_optimum : forall Rep Fn (w : @sgb Rep Fn) J0 xu,
  proper (g_n w) (g_nv w) (g_ss w) -> (forall j, (j < length (g_ss w))%nat -> 0 <= g_lambda w j) ->
  exact_qr (g_qr w) (w_constraint w) ->
  keeps (g_n w) (g_nv w) ((g_n w - 1) / 2) (g_act w) (g_ss w) (g_ss w) -> sat_ineq (bounds_of w) (w_input w) ->
  cost_order_ok (g_n w) (g_order w) = true ->
  (g_check w = true -> validate_bounds (g_n w) (g_nv w) (length (g_ss w)) (bounds_of w) (w_input w) = []) ->
  g_optimum w = true -> g_lin w = false -> g_stop w 0 = false ->
  (forall cs ok q, lc_decompose (g_qr w) true true (w_constraint w) = Ok (cs, ok) ->
     qp_reduced (mkQP (w_size w) (cost_hessian (g_n w) (g_nv w) (g_lambda w) (g_order w) (g_ss w)) (fun _ => 0) true None) cs = Ok q ->
     cholesky (qp_n q) (qp_H q) (qp_b q) J0 xu) ->
  exists K, forall k fuel, (K <= k)%nat -> (1 <= fuel)%nat ->
  exists x, optimize (with_solver w (gi_solver 0 J0 xu k)) fuel = Ok x /\
    keeps (g_n w) (g_nv w) ((g_n w - 1) / 2) (g_act w) (g_ss w) (w_splines w x) /\ sat_ineq (bounds_of w) x /\
    forall y, keeps (g_n w) (g_nv w) ((g_n w - 1) / 2) (g_act w) (g_ss w) (w_splines w y) -> sat_ineq (bounds_of w) y ->
    w_cost w x <= w_cost w y.
Proof.
  intros Rep Fn w J0 xu Hp Hl Hq Hk Hb Hco Hval Hopt Hlin Hst Hch.
  assert (Hin : sat (w_constraint w) (w_input w)) by exact (input_sat w Hp Hk).
  destruct (start_ok w Hq Hin) as (cs & Hd & k0 & PK & xs & Hdec & _ & (lcr & f & Hr) & (bcr & Hrb) & q & Hqr & Hqn).
  destruct (C71_cost (g_n w) (g_nv w) (g_ss w) (g_lambda w) (g_order w) (fun _ => 0) Hp) as (_ & Hsym & _ & Hpsd).
  specialize (Hpsd Hl). change (length (g_ss w) * bsize (g_n w) (g_nv w))%nat with (w_size w) in Hsym, Hpsd.
  assert (Hq2 : qp_n q = k0 /\ qp_H q = mm (w_size w) (mt PK) (mm (w_size w) (cost_hessian (g_n w) (g_nv w) (g_lambda w) (g_order w) (g_ss w)) PK)).
  { pose proof Hqr as X. unfold qp_reduced in X. rewrite Hdec in X. cbn [qp_n qp_H qp_b qp_b0] in X.
    destruct (lc_cols cs =? w_size w)%nat; [|discriminate]. injection X as <-. split; reflexivity. }
  assert (Gs : symmetric (qp_n q) (qp_H q)) by (rewrite (proj2 Hq2); apply reduced_symmetric, Hsym).
  assert (Gp : psd (qp_n q) (qp_H q)) by (rewrite (proj2 Hq2); apply reduced_psd, Hpsd).
  destruct (reduce_inv _ _ _ _ _ _ _ Hr) as (k1 & PK1 & xs1 & Ek1 & _ & Hrow & _).
  destruct (reduce_inv _ _ _ _ _ _ _ Hrb) as (k2 & PK2 & xs2 & Ek2 & _ & _ & Hcolb & _).
  assert (Hfeas : exists u, sat_ineq bcr u).
  { destruct (sat_sol w cs true Hq (ex_intro _ _ Hin) Hd _ Hin) as (vx & sx & Esx & Ex). exists vx.
    apply (proj2 (reduce_sat _ _ _ _ _ _ _ _ _ Hrb Esx)). apply (sat_ineq_ext (bounds_of w) (w_input w)); [|exact Hb]. rewrite (bc_cols w). exact Ex. }
  assert (Hcb : lc_cols bcr = qp_n q).
  { rewrite Hcolb, (proj1 Hq2). rewrite Hdec in Ek2. injection Ek2 as -> _ _. reflexivity. }
  destruct (gi_exact q lcr bcr J0 xu Gs Gp (Hch _ _ _ Hd Hqr) Hrow Hcb Hfeas) as [K HK].
  exists K. intros k fuel Hkk Hf.
  destruct (optimum0 (with_solver w (gi_solver 0 J0 xu k)) Hq Hp Hin Hb) with (fuel := fuel) as (x & Ex & X1 & X2 & X3); try assumption.
  - intros cs' lcr' f' bcr' q' Hd' Hr' Hrb' Hqr'. cbn [with_solver g_qr g_lu g_solver g_n g_nv g_lambda g_order g_ss] in *.
    change (w_constraint (with_solver w (gi_solver 0 J0 xu k))) with (w_constraint w) in *.
    change (w_size (with_solver w (gi_solver 0 J0 xu k))) with (w_size w) in *.
    change (bounds_of (with_solver w (gi_solver 0 J0 xu k))) with (bounds_of w) in *.
    pose proof (eq_trans (eq_sym Hd) Hd') as Y1. injection Y1 as <-.
    pose proof (eq_trans (eq_sym Hr) Hr') as Y2. injection Y2 as <- <-.
    pose proof (eq_trans (eq_sym Hrb) Hrb') as Y3. injection Y3 as <-.
    pose proof (eq_trans (eq_sym Hqr) Hqr') as Y4. injection Y4 as <-.
    exact (HK k Hkk).
  - exists x. split; [exact Ex|]. split; [exact (proj1 (sat_keeps w x Hp) X1)|]. split; [exact X2|].
    intros y Hy Hyb. exact (X3 y (proj2 (sat_keeps w y Hp) Hy) Hyb).
Qed.

(* The path from 0 to 1 through the middle parameter 1: with the bundled solver
   the middle parameter becomes 1/2. *)
Example C73_bundled_case : let w := bump_sgb 1 (/ 5) (3 / 4) true in
  exists J0 xu K, forall k fuel, (K <= k)%nat -> (1 <= fuel)%nat ->
  exists x, optimize (with_solver w (gi_solver 0 J0 xu k)) fuel = Ok x /\ x 1%nat = 1 / 2.
Proof.
  intros w.
  set (H1 := bump_proper 1 (/ 5) (3 / 4) true). set (H2 := bump_exact_qr 1 (/ 5) (3 / 4) true).
  set (H4 := proj1 (bump_input 1 (/ 5) (3 / 4) true)). set (H5 := bump_bounds 1 (/ 5) (3 / 4) true (w_input w)).
  destruct (start_ok w H2 H4) as (cs & Hd & _ & _ & _ & _ & _ & _ & _ & q & Hqr & _).
  destruct (bump_reduced 1 (/ 5) (3 / 4) true cs true q Hd Hqr) as [N1 H11].
  exists (fun _ _ => sqrt (3 / 4)), (fun _ => qp_b q 0%nat * (3 / 4)).
  destruct (C73_bundled_optimum _ _ w (fun _ _ => sqrt (3 / 4)) (fun _ => qp_b q 0%nat * (3 / 4)) H1) as [K HK];
    try reflexivity; try discriminate; try exact H2; try exact H5.
  - intros j _. cbn. lra.
  - exact (bump_keeps 1 (/ 5) (3 / 4) true).
  - intros cs' ok' q' Hd' Hqr'. change (g_qr (bump_sgb 1 (/ 5) (3 / 4) true)) with (g_qr w) in Hd.
    pose proof (eq_trans (eq_sym Hd) Hd') as Y1. injection Y1 as <- _.
    pose proof (eq_trans (eq_sym Hqr) Hqr') as Y4. injection Y4 as <-. rewrite N1. split.
    + intros i l Hi Hl. assert (i = 0%nat) as -> by lia. assert (l = 0%nat) as -> by lia. cbn [rsum]. rewrite H11, !Rplus_0_l, sqrt_sqrt by lra. unfold mid. cbn [Nat.eqb]. field.
    + intros i Hi. assert (i = 0%nat) as -> by lia. unfold mv. cbn [rsum]. rewrite H11. field.
  - exists K. intros k fuel Hk Hf. destruct (HK k fuel Hk Hf) as (x & Ex & X1 & _ & X3). exists x. split; [exact Ex|].
    apply (bump_minimal 1 (/ 5) (3 / 4) true).
    + exact (proj2 (sat_keeps w x H1) X1).
    + intros y Hy _. apply X3; [exact (proj1 (sat_keeps w y H1) Hy)|apply (bump_bounds 1 (/ 5) (3 / 4) true)].
Qed.

Print Assumptions C73_bundled_optimum.
