(* C67, C68: linear constraints and quadratic programs of the spline optimiser. *)
From Coq Require Import Reals Lra Lia List Arith.
From Verif Require Import Base XReal PolyProofs SplineModel SplineProofs LinConsModel LinConsSpec LinConsProofs LinConsProofs2.
Import ListNotations.
Open Scope R_scope.

(* C67: once a constraint is decomposed, the solutions of J x = b are exactly
   the vectors built from a free parameter, each by one parameter only. *)
Theorem C67_solution_set : forall qr check thr c c' ok,
  exact_qr qr c -> lc_decompose qr check thr c = Ok (c', ok) -> (exists x, sat c x) ->
  ok = true /\
  (forall x, sat c x <-> exists v s, lc_solution c' v = Ok s /\ same (lc_cols c) x s) /\
  (exists k, forall v w s t, lc_solution c' v = Ok s -> lc_solution c' w = Ok t ->
     same k v w <-> same (lc_cols c) s t).
Proof.
  intros qr check thr c c' ok HQ E (x0 & Hx0).
  destruct (decompose_feasible qr check thr c x0 HQ Hx0) as (c1 & E1). rewrite E in E1. injection E1 as <- ->.
  destruct (decompose_inv qr check thr c c' true HQ E) as (_ & _ & _ & _ & k & PK & xs & Hd & _ & Hsol & Hinj & _ & _).
  destruct (Hsol (ex_intro _ x0 Hx0)) as (Hset & _ & _). unfold lc_solution. rewrite Hd.
  split; [reflexivity|]. split.
  - intro x. rewrite Hset. split.
    + intros (v & Hv). eexists. eexists. split; [reflexivity|exact Hv].
    + intros (v & s & [= <-] & Hv). exists v. exact Hv.
  - exists k. intros v w s t [= <-] [= <-]. split.
    + intros H i Hi. cbv beta. rewrite (mv_ext k PK v w i H). reflexivity.
    + apply Hinj.
Qed.

(* The particular solution is the shortest one. *)
Theorem C67_least_norm : forall qr check thr c c' ok x0 x,
  exact_qr qr c -> lc_decompose qr check thr c = Ok (c', ok) -> lc_solution c' (fun _ => 0) = Ok x0 -> sat c x ->
  sat c x0 /\ sqnorm (lc_cols c) x0 <= sqnorm (lc_cols c) x.
Proof.
  intros qr check thr c c' ok x0 x HQ E H0 Hx.
  destruct (decompose_inv qr check thr c c' ok HQ E) as (_ & _ & _ & _ & k & PK & xs & Hd & _ & Hsol & _).
  destruct (Hsol (ex_intro _ x Hx)) as (_ & Hs & Hmin). unfold lc_solution in H0. rewrite Hd in H0. injection H0 as <-.
  assert (Es : same (lc_cols c) (fun i => xs i + mv k PK (fun _ => 0) i) xs).
  { intros i _. unfold mv. rewrite rsum_zero; [ring|intros; ring]. }
  split.
  - intros i Hi. rewrite (mv_ext _ _ _ _ i Es). apply Hs, Hi.
  - unfold sqnorm at 1. rewrite (dot_ext _ _ _ _ _ Es Es). apply Hmin, Hx.
Qed.

(* The feasibility check: feasible constraints always pass; one that passes has
   a point with a residual of at most 1e-7 on every row; one that does not has
   no solution. *)
Theorem C67_feasibility_partial : forall qr thr c, exact_qr qr c -> written c ->
  match lc_decompose qr true thr c with
  | Ok (c', true) => exists x, lc_solution c' (fun _ => 0) = Ok x /\
      forall i, (i < lc_rows c)%nat -> exists b, lc_b c i = Some b /\ Rabs (mv (lc_cols c) (lc_J c) x i - b) <= / 10000000
  | Ok (c', false) => thr = false /\ ~ exists x, sat c x
  | Throw => thr = true /\ ~ exists x, sat c x
  | UB | Fuel => False
  end.
Proof.
  intros qr thr c HQ Hw.
  assert (Hf : (exists x, sat c x) -> exists c', lc_decompose qr true thr c = Ok (c', true)).
  { intros (x & Hx). exact (decompose_feasible qr true thr c x HQ Hx). }
  destruct (lc_decompose qr true thr c) as [[c' ok]| | |] eqn:E.
  - destruct ok.
    + destruct (decompose_inv qr true thr c c' true HQ E) as (_ & _ & _ & _ & k & PK & xs & Hd & _ & _ & _ & Hok & _).
      destruct (Hok eq_refl) as (b & Hb & Hz). unfold lc_solution. rewrite Hd. eexists. split; [reflexivity|].
      intros i Hi. exists (b i). split; [exact (Hb i Hi)|].
      rewrite (mv_ext _ _ _ xs i); [apply Hz; [reflexivity|exact Hi]|].
      intros j _. unfold mv. rewrite rsum_zero; [ring|intros; ring].
    + split; [|intro Hx; destruct (Hf Hx) as (c1 & E1); discriminate].
      revert E. unfold lc_decompose. destruct (lc_rows c =? 0)%nat; [discriminate|].
      destruct (read_b c); cbn [bind]; try discriminate. destruct (is_zero _ _ _); [discriminate|]. destruct thr; [discriminate|reflexivity].
  - split; [|intro Hx; destruct (Hf Hx) as (c1 & E1); discriminate].
    revert E. unfold lc_decompose. destruct (lc_rows c =? 0)%nat; [discriminate|].
    destruct (read_b_ok c Hw) as (b & -> & _). cbn [bind]. destruct (is_zero _ _ _); [discriminate|]. destruct thr; [reflexivity|discriminate].
  - revert E. unfold lc_decompose. destruct (lc_rows c =? 0)%nat; [discriminate|].
    destruct (read_b_ok c Hw) as (b & -> & _). cbn [bind]. destruct (is_zero _ _ _); [discriminate|]. destruct thr; discriminate.
  - revert E. unfold lc_decompose. destruct (lc_rows c =? 0)%nat; [discriminate|].
    destruct (read_b_ok c Hw) as (b & -> & _). cbn [bind]. destruct (is_zero _ _ _); [discriminate|]. destruct thr; discriminate.
Qed.

(* Reducing a second constraint to the solutions of the first one loses and
   adds nothing, for equalities and for inequalities. *)
Theorem C67_reduction : forall lu c lc lcr comp lcr' full v s,
  lc_reduce lu c lc lcr comp = Ok (lcr', full) -> lc_solution c v = Ok s ->
  (sat lcr' v <-> sat lc s) /\ (sat_ineq lcr' v <-> sat_ineq lc s).
Proof. exact reduce_sat. Qed.

(* A reduced constraint found to be of full rank can be satisfied whatever its
   right hand side, if it has no more rows than columns. *)
Theorem C67_full_rank_partial : forall lu c lc lcr lcr',
  written lc -> exact_rank lu (lc_rows lcr') (lc_cols lcr') (lc_J lcr') ->
  lc_reduce lu c lc lcr true = Ok (lcr', true) -> (lc_rows lcr' <= lc_cols lcr')%nat -> exists v, sat lcr' v.
Proof. exact reduce_full. Qed.

(* Stacking two constraints keeps the common solutions. *)
Theorem C67_concatenation : forall c d e x, lc_concat c d = Ok e -> sat e x <-> sat c x /\ sat d x.
Proof.
  intros c d e x. unfold lc_concat. destruct (Nat.eqb_spec (lc_cols d) (lc_cols c)) as [Ec|]; [|discriminate].
  intros [= <-]. unfold sat. cbn [lc_rows lc_cols lc_J lc_b].
  assert (E1 : forall i, (i < lc_rows c)%nat ->
     mv (lc_cols c) (fun i j => if (i <? lc_rows c)%nat then lc_J c i j else lc_J d (i - lc_rows c)%nat j) x i = mv (lc_cols c) (lc_J c) x i).
  { intros i Hi. apply mv_mat_ext. intros k _. destruct (Nat.ltb_spec i (lc_rows c)); [reflexivity|lia]. }
  assert (E2 : forall i, (lc_rows c <= i)%nat ->
     mv (lc_cols c) (fun i j => if (i <? lc_rows c)%nat then lc_J c i j else lc_J d (i - lc_rows c)%nat j) x i = mv (lc_cols d) (lc_J d) x (i - lc_rows c)).
  { intros i Hi. rewrite Ec. unfold mv. apply rsum_ext. intros k _. destruct (Nat.ltb_spec i (lc_rows c)); [lia|reflexivity]. }
  split.
  - intro H. split; intros i Hi.
    + specialize (H i ltac:(lia)). rewrite E1 in H by exact Hi. destruct (Nat.ltb_spec i (lc_rows c)); [exact H|lia].
    + specialize (H (lc_rows c + i)%nat ltac:(lia)). rewrite E2 in H by lia.
      destruct (Nat.ltb_spec (lc_rows c + i) (lc_rows c)); [lia|]. replace (lc_rows c + i - lc_rows c)%nat with i in H by lia. exact H.
  - intros (Hc & Hd) i Hi. destruct (Nat.ltb_spec i (lc_rows c)).
    + rewrite E1 by assumption. apply Hc. assumption.
    + rewrite E2 by assumption. apply Hd. lia.
Qed.

(* Adding a row and assigning it adds one equation. *)
Theorem C67_added_row : forall c row v x,
  let e := lc_set_row (lc_rows c) row v (lc_add_rows 1 c) in
  sat e x <-> sat c x /\ dot (lc_cols c) row x = v.
Proof.
  intros c row v x e. unfold e, sat, lc_set_row, lc_add_rows. cbn [lc_rows lc_cols lc_J lc_b].
  split.
  - intro H. split.
    + intros i Hi. specialize (H i ltac:(lia)). destruct (Nat.eqb_spec i (lc_rows c)); [lia|].
      destruct (Nat.ltb_spec i (lc_rows c)); [|lia]. rewrite H. f_equal. apply mv_mat_ext. intros k _.
      destruct (Nat.eqb_spec i (lc_rows c)); [lia|]. destruct (Nat.ltb_spec i (lc_rows c)); [reflexivity|lia].
    + specialize (H (lc_rows c) ltac:(lia)). rewrite Nat.eqb_refl in H. injection H as ->.
      unfold mv, dot. rewrite Nat.eqb_refl. reflexivity.
  - intros (Hc & Hd) i Hi. destruct (Nat.eqb_spec i (lc_rows c)) as [E|E].
    + subst i. f_equal. rewrite <- Hd. unfold mv, dot. rewrite Nat.eqb_refl. reflexivity.
    + destruct (Nat.ltb_spec i (lc_rows c)); [|lia]. rewrite (Hc i) by assumption. f_equal. symmetry. apply mv_mat_ext. intros k _.
      destruct (Nat.eqb_spec i (lc_rows c)); [lia|]. destruct (Nat.ltb_spec i (lc_rows c)); [reflexivity|lia].
Qed.

(* The full statements fail in four places. *)
Definition J11 : mat := fun _ _ => 1.
Definition qr11 (n m : nat) (A : mat) : qr_result := mkQR 1 (fun j => j) mid (fun k j => if (k =? 0)%nat then 1 else 0).
Definition lc11 (b : R) : lincons := mkLC 2 1 J11 (fun i => Some (if (i =? 0)%nat then 0 else b)) None None.

Lemma qr11_exact b : exact_qr qr11 (lc11 b).
Proof.
  intros _. unfold lc11. cbn [lc_cols lc_rows lc_J].
  split; unfold qr11; cbn [qr_rank qr_perm qr_Q qr_R]; try lia; auto.
  - intros i j Hi Hj. replace i with 0%nat by lia. replace j with 0%nat by lia. unfold mid. cbn [rsum Nat.eqb]. lra.
  - intros i j Hi Hj. replace i with 0%nat by lia. unfold mt, J11, mm, mid. cbn [rsum Nat.eqb]. ring.
  - intros k Hk. replace k with 0%nat by lia. cbn [Nat.eqb]. lra.
Qed.

(* x = 0 and x = 1e-8 pass the check although no x satisfies both. *)
Theorem C67_feasibility_refuted :
  exists qr c c', exact_qr qr c /\ written c /\ lc_decompose qr true true c = Ok (c', true) /\ ~ exists x, sat c x.
Proof.
  exists qr11, (lc11 (/ 100000000)).
  assert (HT : lc_decompose qr11 true true (lc11 (/ 100000000)) =
    Ok (mkLC 2 1 J11 (lc_b (lc11 (/ 100000000))) (Some 1%nat)
          (Some (0%nat, fun i j => mid i (1 + j)%nat,
            mv 1 mid (fun i => if (i <? 1)%nat then fsub (qr_R (qr11 0 0 J11)) (fun j => if (j =? 0)%nat then 0 else / 100000000) 1 i else 0))), true)).
  { unfold lc_decompose, read_b, lc11. cbn [lc_rows lc_cols lc_b lc_J Nat.eqb seq forallb defined andb bind val qr11 qr_rank qr_perm qr_Q qr_R].
    match goal with |- context[is_zero ?a ?b ?d] => assert (Ez : is_zero a b d = true) end.
    { apply is_zero_iff. intros i Hi. unfold mv, mid, J11, fsub. cbn [rsum Nat.eqb Nat.ltb Nat.leb].
      destruct i as [|[|i]]; [..|lia]; cbn [Nat.eqb].
      - replace (_ - _) with 0 by field. rewrite Rabs_R0. lra.
      - replace (_ - _) with (- / 100000000) by field. rewrite Rabs_Ropp, Rabs_right by lra. lra. }
    rewrite Ez. reflexivity. }
  eexists. split; [apply qr11_exact|]. split; [|split; [exact HT|]].
  - intros i Hi. discriminate.
  - intros (x & Hx). pose proof (Hx 0%nat ltac:(cbn [lc_rows lc11]; lia)) as E0. pose proof (Hx 1%nat ltac:(cbn [lc_rows lc11]; lia)) as E1.
    unfold lc11, mv, J11 in E0, E1. cbn [lc_b lc_cols lc_J rsum Nat.eqb] in E0, E1. injection E0 as E0. injection E1 as E1. lra.
Qed.

(* Without rows, decompose does not compute the rank. *)
Theorem C67_rank_refuted : exists qr c c', exact_qr qr c /\ lc_decompose qr true true c = Ok (c', true) /\ lc_rank c' = None.
Proof.
  exists qr11, (lc_new 2 0). eexists. split; [intro H; exfalso; apply H; reflexivity|]. split; reflexivity.
Qed.

(* Rows that were added and not assigned have no right hand side. *)
Theorem C67_added_row_refuted : exists qr c, exact_qr qr c /\ written c /\ lc_decompose qr true true (lc_add_rows 1 c) = UB.
Proof.
  exists qr11, (lc_new 1 0). split; [intro H; exfalso; apply H; reflexivity|]. split; [intros i Hi; cbn in Hi; lia|]. reflexivity.
Qed.

(* With more rows than columns, full rank does not make a constraint feasible. *)
Theorem C67_full_rank_refuted : exists lu c lc lcr lcr', written lc /\
  exact_rank lu (lc_rows lcr') (lc_cols lcr') (lc_J lcr') /\
  lc_reduce lu c lc lcr true = Ok (lcr', true) /\ ~ exists v, sat lcr' v.
Proof.
  exists (fun _ _ _ => 1%nat), (mkLC 0 1 J11 (fun _ => None) None (Some (1%nat, mid, fun _ => 0))), (lc11 1), (lc_new 1 0).
  eexists. split; [intros i Hi; discriminate|]. split; [|split].
  2:{ cbn [lc_reduce lc_dec]. reflexivity. }
  - cbn [lc_rows lc_cols lc_J lc11]. split; [cbn; lia|]. split; [lia|]. intro H. exfalso.
    pose proof (H (fun i => if (i =? 0)%nat then 1 else -1)) as E.
    assert (E0 : (if (0 =? 0)%nat then 1 else -1) = 0).
    { apply E; [|lia]. intros j Hj. unfold mm, J11, mid. replace j with 0%nat by lia. cbn [rsum Nat.eqb]. lra. }
    cbn [Nat.eqb] in E0. lra.
  - intros (v & Hv). unfold sat in Hv. cbn [lc_rows lc_cols lc_J lc_b lc11] in Hv.
    pose proof (Hv 0%nat ltac:(lia)) as E0. pose proof (Hv 1%nat ltac:(lia)) as E1.
    unfold mv, mm, J11, mid in E0, E1. cbn [rsum Nat.eqb] in E0, E1. injection E0 as E0. injection E1 as E1. lra.
Qed.

(* Hypotheses are met: one equation x0 = 3 in the plane. *)
Definition J10 : mat := fun _ j => if (j =? 0)%nat then 1 else 0.
Definition lc10 : lincons := mkLC 1 2 J10 (fun _ => Some 3) None None.
Example C67_case : exists c', exact_qr (fun _ _ _ => mkQR 1 (fun j => j) mid mid) lc10 /\
  lc_decompose (fun _ _ _ => mkQR 1 (fun j => j) mid mid) false false lc10 = Ok (c', true) /\ (exists x, sat lc10 x).
Proof.
  eexists. split; [|split; [reflexivity|]].
  - intros _. split; cbn [qr_rank qr_perm qr_Q qr_R lc10 lc_rows lc_cols lc_J]; try lia; auto.
    + intros i j Hi Hj. assert (Ei : i = 0%nat \/ i = 1%nat) by lia. assert (Ej : j = 0%nat \/ j = 1%nat) by lia.
      unfold mid. destruct Ei as [-> | ->], Ej as [-> | ->]; cbn [rsum Nat.eqb]; lra.
    + intros i j Hi Hj. replace j with 0%nat by lia. assert (Ei : i = 0%nat \/ i = 1%nat) by lia.
      unfold mt, J10, mm, mid. destruct Ei as [-> | ->]; cbn [rsum Nat.eqb]; lra.
    + intros k j Hk Hj H. unfold mid. destruct (Nat.eqb_spec k j); [lia|reflexivity].
    + intros k Hk. unfold mid. rewrite Nat.eqb_refl. lra.
  - exists (fun _ => 3). intros i Hi. unfold lc10, mv, J10. cbn [lc_b lc_cols lc_J rsum Nat.eqb]. f_equal. lra.
Qed.

(* C68: the cost of the reduced program is the cost of the program on the
   solutions of the constraint, up to a constant. *)
Theorem C68_reduced_cost_partial : forall q c q' v s,
  symmetric (qp_n q) (qp_H q) -> (qp_b0 q = true -> forall i, (i < qp_n q)%nat -> qp_b q i = 0) ->
  qp_reduced q c = Ok q' -> lc_solution c v = Ok s ->
  exists x0, lc_solution c (fun _ => 0) = Ok x0 /\
  quad (qp_n q) (qp_H q) (qp_b q) s = quad (qp_n q') (qp_H q') (qp_b q') v + quad (qp_n q) (qp_H q) (qp_b q) x0.
Proof. exact reduced_cost. Qed.

(* The equality constrained program: decompose the constraint, reduce the cost,
   solve and rebuild the solution: the result is a solution of the constraint
   and no other one costs less. *)
Theorem C68_minimum_partial : forall qr svd check thr q c c' ok q' x,
  exact_qr qr c -> (exists x, sat c x) -> symmetric (qp_n q) (qp_H q) -> psd (qp_n q) (qp_H q) ->
  (qp_b0 q = true -> forall i, (i < qp_n q)%nat -> qp_b q i = 0) ->
  lc_decompose qr check thr c = Ok (c', ok) -> qp_reduced q c' = Ok q' ->
  (forall i, (i < qp_n q')%nat -> mv (qp_n q') (qp_H q') (svd (qp_n q') (qp_H q') (qp_b q')) i = qp_b q' i) ->
  match qp_x (qp_solve_eq svd q') with Some v => lc_solution c' v = Ok x | None => False end ->
  sat c x /\ forall y, sat c y -> quad (qp_n q) (qp_H q) (qp_b q) x <= quad (qp_n q) (qp_H q) (qp_b q) y.
Proof.
  intros qr svd check thr q c c' ok q' x HQ HF HS HP H0 E Er Hsvd Hx.
  cbn [qp_solve_eq qp_x] in Hx.
  destruct (decompose_inv qr check thr c c' ok HQ E) as (_ & Ecols & _ & _ & k & PK & xs & Hd & _ & Hsol & _).
  destruct (Hsol HF) as (Hset & _ & _).
  assert (En : qp_n q = lc_cols c /\ qp_n q' = k /\ qp_H q' = mm (qp_n q) (mt PK) (mm (qp_n q) (qp_H q) PK)).
  { revert Er. unfold qp_reduced. rewrite Hd. destruct (Nat.eqb_spec (lc_cols c') (qp_n q)); [|discriminate].
    intros [= <-]. cbn [qp_n qp_H]. repeat split; congruence. }
  destruct En as (En & Ek & EH).
  assert (HS' : symmetric (qp_n q') (qp_H q')) by (rewrite Ek, EH; apply reduced_symmetric, HS).
  assert (HP' : psd (qp_n q') (qp_H q')) by (rewrite Ek, EH; apply reduced_psd, HP).
  set (v := fun i => - svd (qp_n q') (qp_H q') (qp_b q') i) in *.
  assert (Hv : forall i, (i < qp_n q')%nat -> mv (qp_n q') (qp_H q') v i = - qp_b q' i).
  { intros i Hi. unfold v. rewrite (mv_ext _ _ _ (fun i => (-1) * svd (qp_n q') (qp_H q') (qp_b q') i)) by (intros j _; ring).
    rewrite mv_scal, Hsvd by exact Hi. ring. }
  split.
  - apply Hset. exists v. unfold lc_solution in Hx. rewrite Hd in Hx. injection Hx as <-. intros i _. reflexivity.
  - intros y Hy. apply Hset in Hy. destruct Hy as (w & Hw).
    destruct (reduced_cost q c' q' v x HS H0 Er Hx) as (x0 & Ex0 & Ec).
    assert (Hsw : lc_solution c' w = Ok (fun i => xs i + mv k PK w i)) by (unfold lc_solution; rewrite Hd; reflexivity).
    destruct (reduced_cost q c' q' w _ HS H0 Er Hsw) as (x1 & Ex1 & Ec1). rewrite Ex0 in Ex1. injection Ex1 as <-.
    assert (Ey : quad (qp_n q) (qp_H q) (qp_b q) y = quad (qp_n q) (qp_H q) (qp_b q) (fun i => xs i + mv k PK w i)).
    { rewrite <- En in Hw. unfold quad. f_equal; [f_equal|]; apply dot_ext; try exact Hw; try (intros i _; reflexivity).
      intros i _. apply mv_ext, Hw. }
    rewrite Ey, Ec, Ec1. pose proof (quad_min _ _ _ v HS' HP' Hv w). lra.
Qed.

(* Hypotheses are met: the shortest vector on the line x0 = 3. *)
Example C68_case : exists c' q' x, 
  let q := mkQP 2 mid (fun _ => 0) true None in
  let qr := fun _ _ _ => mkQR 1 (fun j => j) mid mid in
  exact_qr qr lc10 /\ (exists x, sat lc10 x) /\ symmetric 2 mid /\ psd 2 mid /\
  lc_decompose qr false false lc10 = Ok (c', true) /\ qp_reduced q c' = Ok q' /\ qp_n q' = 1%nat /\
  (forall i, (i < qp_n q')%nat -> mv (qp_n q') (qp_H q') (qp_b q') i = qp_b q' i) /\
  (match qp_x (qp_solve_eq (fun _ _ b => b) q') with Some v => lc_solution c' v = Ok x | None => False end) /\
  x 0%nat = 3 /\ x 1%nat = 0.
Proof.
  destruct C67_case as (c1 & HQ & _ & HF).
  eexists. eexists. eexists. cbv zeta. split; [exact HQ|]. split; [exact HF|]. split; [|split; [|split; [reflexivity|split; [reflexivity|split; [reflexivity|split; [|split; [reflexivity|]]]]]]].
  - intros i j _ _. unfold mid. rewrite Nat.eqb_sym. reflexivity.
  - intro x. unfold dot, mv, mid. cbn [rsum Nat.eqb]. pose proof (Rle_0_sqr (x 0%nat)). pose proof (Rle_0_sqr (x 1%nat)). unfold Rsqr in *. lra.
  - intros i Hi. assert (i = 0%nat) as -> by (cbn in Hi; lia).
    cbn [qp_n qp_H qp_b qp_b0 lc_cols lc_rows lc10 Nat.sub]. unfold mv, mm, mt, mid, fsub, val. cbn [rsum Nat.eqb Nat.add Nat.ltb Nat.leb lc_b lc10 qr_rank qr_Q qr_R qr_perm]. lra.
  - cbn [qp_n qp_H qp_b qp_b0 lc_cols lc_rows lc10 Nat.sub]. unfold mv, mm, mt, mid, fsub, val. cbn [rsum Nat.eqb Nat.add Nat.ltb Nat.leb lc_b lc10 qr_rank qr_Q qr_R qr_perm]. split; lra.
Qed.

(* A linear term assigned without clearing the flag is ignored. *)
Theorem C68_linear_term_refuted : exists q c q' v s x0,
  symmetric (qp_n q) (qp_H q) /\ qp_reduced q c = Ok q' /\ lc_solution c v = Ok s /\ lc_solution c (fun _ => 0) = Ok x0 /\
  quad (qp_n q) (qp_H q) (qp_b q) s <> quad (qp_n q') (qp_H q') (qp_b q') v + quad (qp_n q) (qp_H q) (qp_b q) x0.
Proof.
  exists (mkQP 1 mid (fun _ => 1) true None), (mkLC 0 1 J11 (fun _ => None) None (Some (1%nat, mid, fun _ => 0))).
  eexists. exists (fun _ => 1). eexists. eexists. split; [|split; [|split; [|split]]].
  - intros i j Hi Hj. cbn [qp_n] in *. replace i with j by (cbn in *; lia). reflexivity.
  - unfold qp_reduced. cbn [lc_dec lc_cols qp_n Nat.eqb]. reflexivity.
  - reflexivity.
  - reflexivity.
  - cbn [qp_n qp_H qp_b qp_b0]. unfold quad, dot, mv, mm, mt, mid. cbn [rsum Nat.eqb]. lra.
Qed.

(* With equality and inequality constraints: what the solver finds is stored
   with its cost; otherwise the former contents stay and the cost is infinite.
   More rows than unknowns are refused. *)
Theorem C68_solve : forall solver q ce ci, written ce -> written ci ->
  match qp_solve solver q ce ci with
  | Throw => (lc_cols ce < lc_rows ce)%nat
  | Ok (q', cost) =>
      (lc_rows ce <= lc_cols ce)%nat /\ qp_n q' = qp_n q /\ qp_H q' = qp_H q /\ qp_b q' = qp_b q /\ qp_b0 q' = qp_b0 q /\
      match solver q ce ci with
      | Some x => qp_x q' = Some x /\ cost = Some (quad (qp_n q) (qp_H q) (qp_b q) x)
      | None => qp_x q' = qp_x q /\ cost = None
      end
  | UB | Fuel => False
  end.
Proof.
  intros solver q ce ci He Hi. unfold qp_solve. destruct (Nat.ltb_spec (lc_cols ce) (lc_rows ce)); [assumption|].
  destruct (read_b_ok ce He) as (be & -> & _). destruct (read_b_ok ci Hi) as (bi & -> & _). cbn [bind].
  destruct (solver q ce ci); cbn [qp_n qp_H qp_b qp_b0 qp_x]; repeat split; auto.
Qed.

(* Redundant equations make the program refused although it has a solution. *)
Theorem C68_over_constrained_refuted : exists ce, written ce /\ (exists x, sat ce x) /\
  forall solver q ci, qp_solve solver q ce ci = Throw.
Proof.
  exists (lc11 0). split; [intros i Hi; discriminate|]. split.
  - exists (fun _ => 0). intros i Hi. unfold lc11, mv, J11. cbn [lc_b lc_cols lc_J rsum]. destruct (i =? 0)%nat; f_equal; lra.
  - reflexivity.
Qed.

(* A program whose first resolution fails has no solution to read. *)
Theorem C68_unsolved_refuted : exists solver q c q' cost, qp_reduced q c = Ok q' /\
  qp_solve solver q' (lc_new 1 0) (lc_new 1 0) = Ok (q', cost) /\ qp_x q' = None.
Proof.
  exists (fun _ _ _ => None), (qp_new 1), (mkLC 0 1 J11 (fun _ => None) None (Some (1%nat, mid, fun _ => 0))).
  eexists. eexists. split; [|split]; reflexivity.
Qed.

Print Assumptions C67_solution_set.
Print Assumptions C67_least_norm.
Print Assumptions C67_feasibility_partial.
Print Assumptions C67_reduction.
Print Assumptions C67_full_rank_partial.
Print Assumptions C67_concatenation.
Print Assumptions C67_added_row.
Print Assumptions C67_feasibility_refuted.
Print Assumptions C67_rank_refuted.
Print Assumptions C67_added_row_refuted.
Print Assumptions C67_full_rank_refuted.
Print Assumptions C68_reduced_cost_partial.
Print Assumptions C68_minimum_partial.
Print Assumptions C68_linear_term_refuted.
Print Assumptions C68_solve.
Print Assumptions C68_over_constrained_refuted.
Print Assumptions C68_unsolved_refuted.
