(* C110: the quadratic program solver. *)
From Coq Require Import Reals Lra Lia Arith List Bool.
From Verif Require Import Base XReal SplineModel SplineProofs LinConsModel LinConsSpec LinConsProofs LinConsProofs2 GiModel GiSpec GiProofs GiProofs2 GiProofs3 GiProofs4 GiProofs5.
Import ListNotations.
Open Scope R_scope.

Section Exact.
Variables (n p m : nat) (c1 : R) (G : mat) (g : vec) (ceJ ciJ : mat) (ceb cib : vec) (J0 : mat) (xu : vec) (fuel : nat).
Hypothesis Gs : symmetric n G.
Hypothesis Gp : psd n G.
Hypothesis Ch : cholesky n G g J0 xu.
Hypothesis Hp : (p <= n)%nat.
(* in exact arithmetic: the machine epsilon is 0 *)
Notation answer := (quadprog n p m 0 c1 ceJ ciJ ceb cib fuel J0 xu g).
Notation feasible := (feasible n p m ceJ ciJ ceb cib).
Notation cost := (cost n G g).

(* CONVERGED: the point is feasible, no feasible point is better, and the
   value returned is its cost *)
Theorem C110_optimal_partial c st : answer = Ok (CONVERGED, c, st) ->
  feasible (gx st) /\ c = Some (cost (gx st)) /\ forall y, feasible y -> cost (gx st) <= cost y.
Proof.
  intros E. destruct (quadprog_good n p m c1 G g ceJ ciJ ceb cib J0 xu fuel Gs Gp Ch Hp) as [X|(s & c' & st' & X & Y)]; rewrite X in E; [discriminate|].
  injection E as -> -> ->. cbn [good] in Y. tauto.
Qed.
(* and the active set holds distinct inequality constraints which are
   satisfied with equality, after the equality constraints *)
Theorem C110_active_partial c st : answer = Ok (CONVERGED, c, st) ->
  (p <= giq st)%nat /\ NoDup (map (gA st) (seq p (giq st - p))) /\
  forall i, In i (map (gA st) (seq p (giq st - p))) -> (i < m)%nat /\ dot n (ciJ i) (gx st) = cib i.
Proof.
  intros E. destruct (quadprog_good n p m c1 G g ceJ ciJ ceb cib J0 xu fuel Gs Gp Ch Hp) as [X|(s & c' & st' & X & Y)]; rewrite X in E; [discriminate|].
  injection E as -> -> ->. cbn [good] in Y. destruct Y as (_ & _ & _ & Hq & Y1 & Y2). split; [exact Hq|]. split.
  - assert (K : forall q a, (p <= a)%nat -> (a + q <= giq st)%nat -> NoDup (map (gA st) (seq a q))).
    { induction q as [|q IH]; intros a Ha Hb; cbn [seq map]; constructor.
      - intros X'. apply in_map_iff in X'. destruct X' as (k & K1 & K2). apply in_seq in K2.
        pose proof (Y2 k a ltac:(lia) ltac:(lia) K1). lia.
      - apply IH; lia. }
    apply K; lia.
  - intros i Hi. apply in_map_iff in Hi. destruct Hi as (k & <- & Hk). apply in_seq in Hk.
    destruct (Y1 k ltac:(lia)) as [Z1 Z2]. split; [exact Z1|]. unfold slack in Z2. lra.
Qed.
(* UNBOUNDED: no point satisfies the constraints; the cost is infinite *)
Theorem C110_infeasible_partial c st : answer = Ok (UNBOUNDED, c, st) -> (forall y, ~ feasible y) /\ c = None.
Proof.
  intros E. destruct (quadprog_good n p m c1 G g ceJ ciJ ceb cib J0 xu fuel Gs Gp Ch Hp) as [X|(s & c' & st' & X & Y)]; rewrite X in E; [discriminate|].
  injection E as -> -> ->. exact Y.
Qed.
(* CONSTRAINT_LINEARLY_DEPENDENT: an equality constraint is a combination of
   the ones before it *)
Theorem C110_dependent_partial c st : answer = Ok (DEPENDENT, c, st) -> dependent n p ceJ.
Proof.
  intros E. destruct (quadprog_good n p m c1 G g ceJ ciJ ceb cib J0 xu fuel Gs Gp Ch Hp) as [X|(s & c' & st' & X & Y)]; rewrite X in E; [discriminate|].
  injection E as -> -> ->. exact Y.
Qed.
(* no access out of the arrays *)
Theorem C110_defined_partial : answer <> UB /\ answer <> Throw.
Proof. destruct (quadprog_good n p m c1 G g ceJ ciJ ceb cib J0 xu fuel Gs Gp Ch Hp) as [X|(s & c' & st' & X & Y)]; rewrite X; split; discriminate. Qed.
End Exact.

(* The solver answers after finitely many jumps: CONVERGED if the program has
   a solution and independent equality constraints, UNBOUNDED if it has none. *)
Theorem C110_ends_partial n p m c1 G g ceJ ciJ ceb cib J0 xu :
  symmetric n G -> psd n G -> cholesky n G g J0 xu -> (p <= n)%nat -> ~ dependent n p ceJ ->
  exists N, (exists y, feasible n p m ceJ ciJ ceb cib y) /\ (exists st, forall fuel, (N <= fuel)%nat ->
      quadprog n p m 0 c1 ceJ ciJ ceb cib fuel J0 xu g = Ok (CONVERGED, Some (cost n G g (gx st)), st)) \/
    (forall y, ~ feasible n p m ceJ ciJ ceb cib y) /\ (exists st, forall fuel, (N <= fuel)%nat ->
      quadprog n p m 0 c1 ceJ ciJ ceb cib fuel J0 xu g = Ok (UNBOUNDED, None, st)).
Proof.
  intros Gs Gp Ch Hp Hd. destruct (quadprog_ends n p m c1 G g ceJ ciJ ceb cib J0 xu Gs Gp Ch Hp) as (N & s & c & st & Y & E).
  exists N. destruct s; cbn [good] in Y.
  - left. destruct Y as (Y1 & -> & _). split; [exists (gx st); exact Y1|]. exists st. exact E.
  - contradiction.
  - right. destruct Y as (Y1 & ->). split; [exact Y1|]. exists st. exact E.
Qed.

(* solve, with independent equality constraints: the best feasible point and
   its cost, or an infinite cost if there is no feasible point *)
Theorem C110_solve_partial n p m c1 G g ceJ ciJ ceb cib J0 xu :
  symmetric n G -> psd n G -> cholesky n G g J0 xu -> (p <= n)%nat -> ~ dependent n p ceJ ->
  exists N c x, (forall fuel, (N <= fuel)%nat -> qp_solve_quadprog n p m 0 c1 ceJ ciJ ceb cib fuel J0 xu g = Ok (c, x)) /\
    (c = Some (cost n G g x) /\ feasible n p m ceJ ciJ ceb cib x /\
       (forall y, feasible n p m ceJ ciJ ceb cib y -> cost n G g x <= cost n G g y) \/
     c = None /\ forall y, ~ feasible n p m ceJ ciJ ceb cib y).
Proof.
  intros Gs Gp Ch Hp Hd. destruct (quadprog_ends n p m c1 G g ceJ ciJ ceb cib J0 xu Gs Gp Ch Hp) as (N & s & c & st & Y & E).
  exists N, c, (gx st). split.
  - intros fuel Hf. unfold qp_solve_quadprog. assert (X : (n <? p)%nat = false) by (apply Nat.ltb_ge; exact Hp). rewrite X, E by exact Hf. reflexivity.
  - destruct s; cbn [good] in Y; [left|contradiction|right]; tauto.
Qed.

(* More equality constraints than variables are refused. *)
Theorem C110_over_constrained n p m eps c1 ceJ ciJ ceb cib fuel J0 xu g : (n < p)%nat ->
  qp_solve_quadprog n p m eps c1 ceJ ciJ ceb cib fuel J0 xu g = Throw.
Proof. intros H. unfold qp_solve_quadprog. apply Nat.ltb_lt in H. rewrite H. reflexivity. Qed.

(* ---------------------------------------------- with a positive epsilon *)
Lemma rltb_1 a b : a < b -> rltb a b = true.
Proof. apply rltb_t. Qed.
Lemma rltb_0 a b : b <= a -> rltb a b = false.
Proof. apply rltb_f. Qed.
Lemma rleb_1 a b : a <= b -> rleb a b = true.
Proof. apply rleb_t. Qed.
Lemma rleb_0 a b : b < a -> rleb a b = false.
Proof. apply rleb_f. Qed.

(* An equality constraint with a small normal is not satisfied by the point
   returned as the solution: min x^2 / 2 with sqrt eps * x = sqrt eps. *)
Definition cst (v : R) : vec := fun _ => v.
Theorem C110_equality_ignored_refuted eps : 0 < eps < 1 -> exists ceJ ceb c st,
  symmetric 1 mid /\ psd 1 mid /\ cholesky 1 mid (cst 0) mid (cst 0) /\
  (exists y, feasible 1 1 0 ceJ (fun _ => cst 0) ceb (cst 0) y) /\
  quadprog 1 1 0 eps 1 ceJ (fun _ => cst 0) ceb (cst 0) 1 mid (cst 0) (cst 0) = Ok (CONVERGED, c, st) /\
  ~ feasible 1 1 0 ceJ (fun _ => cst 0) ceb (cst 0) (gx st).
Proof.
  intros He. set (a := sqrt eps). assert (Ha : a * a = eps) by (apply sqrt_sqrt; lra).
  assert (Hp : 0 < a) by (apply sqrt_lt_R0; lra). assert (Hl : eps < a) by nra.
  exists (fun _ => cst a), (cst a).
  assert (E : exists c st, quadprog 1 1 0 eps 1 (fun _ => cst a) (fun _ => cst 0) (cst a) (cst 0) 1 mid (cst 0) (cst 0) = Ok (CONVERGED, c, st) /\ gx st 0%nat = 0).
  { unfold quadprog. cbv zeta. cbn [eq_phase giq gJ gx gu gR gRn gA gf].
    assert (D : forall i, compute_d 1 mid (cst a) i = mid 0%nat i * a) by (intros i; unfold compute_d, mv, mt, cst; cbn [rsum]; ring).
    assert (Z : update_z 1 mid (compute_d 1 mid (cst a)) 0 0%nat = a).
    { unfold update_z. cbn [rsum Nat.sub Nat.add]. rewrite D. unfold mid. cbn. ring. }
    set (z := update_z 1 mid (compute_d 1 mid (cst a)) 0) in *.
    assert (ZZ : dot 1 z z = eps) by (unfold dot; cbn [rsum]; rewrite Z; lra).
    rewrite ZZ, (rltb_0 eps (Rabs eps)) by (rewrite Rabs_pos_eq; lra).
    unfold add_constraint. cbn [Nat.leb Nat.sub add_loop]. rewrite D.
    replace (mid 0%nat 0%nat * a) with a by (unfold mid; cbn; ring).
    rewrite rleb_0 by (rewrite Rabs_pos_eq; lra). cbn [run jump]. unfold at_l1. cbn [fst_ rsum INR]. rewrite rleb_1 by (rewrite Rabs_R0; lra).
    eexists _, _. split; [reflexivity|]. cbn [gx]. unfold cst. ring. }
  destruct E as (c & st & E & X). exists c, st.
  split; [intros i j Hi Hj; unfold mid; rewrite Nat.eqb_sym; reflexivity|].
  split; [intros x; unfold dot, mv, mid; cbn; nra|].
  split; [split; [intros i l Hi Hl'; replace i with 0%nat by lia; replace l with 0%nat by lia; cbn; unfold mid; cbn; ring|
    intros i Hi; unfold mv, cst; cbn [rsum]; ring]|].
  split; [exists (cst 1); split; [intros i Hi; unfold dot, cst; cbn [rsum]; ring|intros; lia]|].
  split; [exact E|]. intros [Y _]. specialize (Y 0%nat ltac:(lia)). unfold dot, cst in Y. cbn [rsum] in Y. rewrite X in Y. lra.
Qed.

(* A program without solution, 0 x = 1: solve returns a finite cost. *)
Theorem C110_infeasible_cost_refuted eps : 0 < eps -> exists x,
  (forall y, ~ feasible 1 1 0 (fun _ => cst 0) (fun _ => cst 0) (cst 1) (cst 0) y) /\
  qp_solve_quadprog 1 1 0 eps 1 (fun _ => cst 0) (fun _ => cst 0) (cst 1) (cst 0) 1 mid (cst 0) (cst 0) = Ok (Some 0, x).
Proof.
  intros He.
  assert (E : exists c x, qp_solve_quadprog 1 1 0 eps 1 (fun _ => cst 0) (fun _ => cst 0) (cst 1) (cst 0) 1 mid (cst 0) (cst 0) = Ok (Some c, x) /\ c = 0).
  { unfold qp_solve_quadprog, quadprog. cbn [Nat.ltb Nat.leb]. cbv zeta. cbn [eq_phase giq gJ gx gu gR gRn gA gf].
    assert (D : forall i, compute_d 1 mid (cst 0) i = 0) by (intros i; unfold compute_d, mv, mt, cst; cbn [rsum]; ring).
    assert (Z : update_z 1 mid (compute_d 1 mid (cst 0)) 0 0%nat = 0).
    { unfold update_z. cbn [rsum Nat.sub Nat.add]. rewrite D. ring. }
    set (z := update_z 1 mid (compute_d 1 mid (cst 0)) 0) in *.
    assert (ZZ : dot 1 z z = 0) by (unfold dot; cbn [rsum]; rewrite Z; lra).
    rewrite ZZ, (rltb_0 eps (Rabs 0)) by (rewrite Rabs_R0; lra).
    unfold add_constraint. cbn [Nat.leb Nat.sub add_loop]. rewrite D.
    rewrite rleb_1 by (rewrite Rabs_R0; lra). eexists _, _. split; [reflexivity|]. cbn [gf]. unfold dot, cst. cbn [rsum]. ring. }
  destruct E as (c & x & E & ->). exists x. split; [|exact E].
  intros y [Y _]. specialize (Y 0%nat ltac:(lia)). unfold dot, cst in Y. cbn [rsum] in Y. lra.
Qed.

(* min eps^2 x^2 / 2 with eps^2 x >= 1 and 0 x >= -1: the solver never answers. *)
Definition loopJ (eps : R) : mat := fun i => cst (if (i =? 0)%nat then eps * eps else 0).
Definition loopb : vec := fun i => if (i =? 0)%nat then 1 else -1.
Section Looping.
Variable eps : R.
Hypothesis He : 0 < eps < 1 / 20.
Let q0 (f : full) : Prop := giq (fst_ f) = 0%nat /\ gJ (fst_ f) 0%nat 0%nat = / eps /\ gRn (fst_ f) = 1 /\
  fs f 0%nat = -1 /\ fs f 1%nat = 1.
Let qa (f : full) : Prop := q0 f /\ gA (fst_ f) 0%nat = 0%nat /\ fss f = -1 /\ fip f = 0%nat.
Lemma loop_l2 f : q0 f -> (fss f = -1 /\ fip f = 0%nat \/ fss f = 0 /\ fiai f 0%nat = true /\ fex f 0%nat = true) ->
  exists f', at_l2 2 f = Ok (Next L2a f') /\ qa f'.
Proof.
  intros (Q1 & Q2 & Q3 & Q4 & Q5) H. unfold at_l2. cbv zeta. cbn [choose]. rewrite Q4, Q5.
  assert (E : (if rltb (-1) (fss f) && fiai f 0%nat && fex f 0%nat then
     if rltb 1 (-1) && fiai f 1%nat && fex f 1%nat then (1, 1%nat) else (-1, 0%nat)
     else if rltb 1 (fss f) && fiai f 1%nat && fex f 1%nat then (1, 1%nat) else (fss f, fip f)) = (-1, 0%nat)).
  { destruct H as [[H1 H2]|(H1 & H2 & H3)]; rewrite H1, ?H2, ?H3.
    - rewrite rltb_0 by lra. cbn [andb]. rewrite rltb_0 by lra. reflexivity.
    - rewrite rltb_1 by lra. cbn [andb]. rewrite rltb_0 by lra. reflexivity. }
  rewrite E, rleb_0 by lra. eexists. split; [reflexivity|]. unfold qa, q0. cbn [fst_ fss fs fip giq gJ gRn gA]. rewrite Q1.
  repeat split; assumption.
Qed.
Lemma loop_l2a f : qa f -> exists f', at_l2a 1 0 2 eps (loopJ eps) loopb f = Ok (Next L2 f') /\ q0 f' /\ fss f' = -1 /\ fip f' = 0%nat.
Proof.
  intros ((Q1 & Q2 & Q3 & Q4 & Q5) & Q6 & Q7 & Q8). unfold at_l2a. cbv zeta. rewrite Q1, Q8.
  assert (D : compute_d 1 (gJ (fst_ f)) (loopJ eps 0%nat) 0%nat = eps).
  { unfold compute_d, mv, mt, loopJ, cst. cbn [rsum Nat.eqb]. rewrite Q2. field. lra. }
  set (d := compute_d 1 (gJ (fst_ f)) (loopJ eps 0%nat)) in *.
  assert (Z : update_z 1 (gJ (fst_ f)) d 0 0%nat = 1).
  { unfold update_z. cbn [rsum Nat.sub Nat.add]. rewrite D, Q2. field. lra. }
  set (z := update_z 1 (gJ (fst_ f)) d 0) in *.
  assert (ZZ : dot 1 z z = 1) by (unfold dot; cbn [rsum]; rewrite Z; ring).
  cbn [Nat.sub partial_step]. rewrite ZZ, (rltb_1 eps (Rabs 1)) by (rewrite Rabs_R1; lra).
  rewrite (proj2 (reqb_t _ _) eq_refl). unfold add_constraint. cbn [Nat.leb Nat.sub add_loop]. rewrite D, Q3.
  rewrite rleb_1 by (rewrite Rabs_pos_eq; lra). cbn [Nat.add Nat.leb]. unfold delete_constraint. cbn [Nat.sub find_qq]. rewrite Q6. cbn [Nat.eqb del_loop Nat.sub].
  cbn [Nat.ltb Nat.leb andb]. eexists. split; [reflexivity|]. unfold q0. cbn [fst_ fss fs fip giq gJ gRn gA]. repeat split; assumption.
Qed.
Lemma loop_run c1 c2 fuel : forall f, qa f -> run 1 0 2 eps c1 (loopJ eps) loopb fuel c2 L2a f = Fuel.
Proof.
  assert (K : forall k fuel f, (fuel <= k)%nat -> qa f -> run 1 0 2 eps c1 (loopJ eps) loopb fuel c2 L2a f = Fuel).
  { induction k as [|k IH]; intros [|fu] f Hk Q; try reflexivity; [lia|]. cbn [run jump].
    destruct (loop_l2a f Q) as (f1 & -> & Q1 & Q2 & Q3). destruct fu as [|fu]; [reflexivity|]. cbn [run jump].
    destruct (loop_l2 f1 Q1 (or_introl (conj Q2 Q3))) as (f2 & -> & Q4). apply IH; [lia|exact Q4]. }
  intros f Q. apply (K fuel fuel f (le_n _) Q).
Qed.
Theorem C110_loops_refuted : symmetric 1 (fun _ _ => eps * eps) /\ psd 1 (fun _ _ => eps * eps) /\
  cholesky 1 (fun _ _ => eps * eps) (cst 0) (fun _ _ => / eps) (cst 0) /\
  (exists y, feasible 1 0 2 (fun _ => cst 0) (loopJ eps) (cst 0) loopb y) /\
  forall fuel, quadprog 1 0 2 eps (eps * eps) (fun _ => cst 0) (loopJ eps) (cst 0) loopb fuel (fun _ _ => / eps) (cst 0) (cst 0) = Fuel.
Proof.
  split; [intros i j _ _; reflexivity|]. split; [intros x; unfold dot, mv; cbn [rsum]; assert (0 <= (eps * x 0%nat) * (eps * x 0%nat)) by apply Rle_0_sqr; lra|].
  split; [split; [intros i l Hi Hl; replace i with 0%nat by lia; replace l with 0%nat by lia; unfold mid; cbn [rsum Nat.eqb]; field; lra|
    intros i Hi; unfold mv, cst; cbn [rsum]; ring]|].
  split.
  { exists (cst (/ (eps * eps))). split; [intros; lia|]. intros i Hi. destruct i as [|[|i]]; [| |lia]; unfold dot, loopJ, loopb, cst; cbn [rsum Nat.eqb].
    - right. field. lra.
    - lra. }
  intros fuel. unfold quadprog. cbv zeta. cbn [eq_phase]. destruct fuel as [|fuel]; [reflexivity|]. cbn [run jump].
  unfold at_l1. cbv zeta. cbn [fst_ gx gu gA].
  assert (S0 : dot 1 (loopJ eps 0%nat) (fun k => - cst 0 k) + - loopb 0%nat = -1) by (unfold dot, loopJ, loopb, cst; cbn [rsum Nat.eqb]; ring).
  assert (S1 : dot 1 (loopJ eps 1%nat) (fun k => - cst 0 k) + - loopb 1%nat = 1) by (unfold dot, loopJ, loopb, cst; cbn [rsum Nat.eqb]; ring).
  rewrite rleb_0.
  - destruct fuel as [|fuel]; [reflexivity|]. cbn [run jump].
    match goal with |- context [at_l2 2 ?f] => destruct (loop_l2 f) as (f' & -> & Q) end.
    + unfold q0. cbn [fst_ giq gJ gRn fs]. repeat split; assumption.
    + right. cbn [fss fiai fex giq]. repeat split.
    + apply loop_run, Q.
  - cbn [rsum]. rewrite S0, S1. rewrite (Rmin_left 0 1), (Rmin_right 0 (-1)) by lra. replace (0 + -1 + 0) with (-1) by ring.
    rewrite Rabs_left by lra. unfold c2_of. cbn [rsum INR].
    replace ((1 + 1) * eps * (eps * eps) * (0 + / eps) * 100) with (200 * (eps * eps)) by (field; lra). nra.
Qed.
End Looping.

(* min x0^2 / 2 + eps^2 x1^2 / 2 with x0 = 0, eps^2 x1 >= 1000 and 0 >= -1: the
   restoration of the active set uses the negative index of the equality
   constraint in an array. *)
Definition obG (eps : R) : mat := fun i j => if (i =? j)%nat then (if (i =? 0)%nat then 1 else eps * eps) else 0.
Definition obJ0 (eps : R) : mat := fun i j => if (i =? j)%nat then (if (i =? 0)%nat then 1 else / eps) else 0.
Definition obE : mat := fun _ j => if (j =? 0)%nat then 1 else 0.
Definition obI (eps : R) : mat := fun i j => if (i =? 0)%nat then (if (j =? 0)%nat then 0 else eps * eps) else 0.
Definition obb : vec := fun i => if (i =? 0)%nat then 1000 else -1.
Theorem C110_restore_refuted eps : 0 < eps < 1 / 20 ->
  symmetric 2 (obG eps) /\ psd 2 (obG eps) /\ cholesky 2 (obG eps) (cst 0) (obJ0 eps) (cst 0) /\
  (exists y, feasible 2 1 2 obE (obI eps) (cst 0) obb y) /\
  quadprog 2 1 2 eps (1 + eps * eps) obE (obI eps) (cst 0) obb 3 (obJ0 eps) (cst 0) (cst 0) = UB.
Proof.
  intros He.
  split; [intros i j _ _; unfold obG; rewrite (Nat.eqb_sym j i); destruct (Nat.eqb_spec i j) as [->|]; reflexivity|].
  split; [intros x; unfold dot, mv, obG; cbn [rsum Nat.eqb]; assert (0 <= (eps * x 1%nat) * (eps * x 1%nat)) by apply Rle_0_sqr; assert (0 <= x 0%nat * x 0%nat) by apply Rle_0_sqr; lra|].
  split.
  { split.
    - intros [|[|i]] [|[|l]] Hi Hl; try lia; unfold obG, obJ0, mid; cbn [rsum Nat.eqb]; field; lra.
    - intros i Hi. unfold mv, cst. cbn [rsum]. ring. }
  split.
  { exists (fun j => if (j =? 0)%nat then 0 else 1000 / (eps * eps)). split.
    - intros i Hi. unfold dot, obE, cst. cbn [rsum Nat.eqb]. ring.
    - intros [|[|i]] Hi; [| |lia]; unfold dot, obI, obb; cbn [rsum Nat.eqb]; [right; field; lra|lra]. }
  unfold quadprog. cbv zeta. cbn [eq_phase giq gJ gx gu gR gRn gA gf].
  set (J := obJ0 eps). set (d := compute_d 2 J (obE 0%nat)).
  assert (D0 : d 0%nat = 1) by (unfold d, compute_d, mv, mt, J, obJ0, obE; cbn [rsum Nat.eqb]; ring).
  assert (D1 : d 1%nat = 0) by (unfold d, compute_d, mv, mt, J, obJ0, obE; cbn [rsum Nat.eqb]; ring).
  set (z := update_z 2 J d 0).
  assert (Z0 : z 0%nat = 1) by (unfold z, update_z; cbn [rsum Nat.sub Nat.add]; rewrite D0, D1; unfold J, obJ0; cbn [Nat.eqb]; ring).
  assert (Z1 : z 1%nat = 0) by (unfold z, update_z; cbn [rsum Nat.sub Nat.add]; rewrite D0, D1; unfold J, obJ0; cbn [Nat.eqb]; ring).
  assert (ZZ : dot 2 z z = 1) by (unfold dot; cbn [rsum]; rewrite Z0, Z1; ring).
  rewrite ZZ, (rltb_1 eps (Rabs 1)) by (rewrite Rabs_R1; lra).
  set (t2 := (- dot 2 (obE 0%nat) (fun k => - cst 0 k) - - cst 0 0%nat) / dot 2 z (obE 0%nat)).
  assert (T2 : t2 = 0) by (unfold t2, dot, cst; cbn [rsum]; unfold Rdiv; ring).
  unfold add_constraint at 1. cbn [Nat.leb Nat.sub add_loop Nat.add]. rewrite D0, D1.
  assert (Hh : hyp2 1 0 <> 0) by (pose proof (hyp2_sq 1 0) as Q; intros X; rewrite X in Q; lra).
  rewrite (proj2 (reqb_f _ _) Hh). destruct (givens 1 0 (hyp2 1 0)) as [[cc ss] gg] eqn:Eg.
  destruct (givens_spec _ _ _ _ _ Hh Eg) as (G1 & G2 & G3 & G4 & G5).
  assert (ss = 0) by lra. assert (gg = cc) by lra. assert (cc = 1) by nra. clear Eg G3 G4 G5. subst ss gg cc.
  assert (U : updv (updv d 1 0) 0 1 0%nat = 1) by apply updv_eq. rewrite U. rewrite Rabs_R1.
  rewrite rleb_0 by lra. rewrite Rmax_left by lra.
  set (J1 := rot_cols 1 0 0 1 J).
  assert (J11 : J1 1%nat 1%nat = - / eps) by (unfold J1; rewrite rot_cols_spec by lra; unfold J, obJ0; cbn [Nat.eqb]; ring).
  assert (J01 : J1 0%nat 1%nat = 0) by (unfold J1; rewrite rot_cols_spec by lra; unfold J, obJ0; cbn [Nat.eqb]; ring).
  set (x := fun k => - cst 0 k + t2 * z k). assert (X1 : x 1%nat = 0) by (unfold x, cst; rewrite T2; ring).
  cbn [run jump]. unfold at_l1. cbv zeta. cbn [fst_ gx gu gA giq].
  assert (S0 : dot 2 (obI eps 0%nat) x + - obb 0%nat = -1000) by (unfold dot, obI, obb; cbn [rsum Nat.eqb]; rewrite X1; ring).
  assert (S1 : dot 2 (obI eps 1%nat) x + - obb 1%nat = 1) by (unfold dot, obI, obb; cbn [rsum Nat.eqb]; ring).
  rewrite rleb_0.
  2: { cbn [rsum]. rewrite S0, S1. rewrite (Rmin_left 0 1), (Rmin_right 0 (-1000)) by lra. replace (0 + -1000 + 0) with (-1000) by ring.
    rewrite Rabs_left by lra. unfold c2_of, J, obJ0. cbn [rsum INR Nat.eqb].
    replace ((1 + 1) * eps * (1 + eps * eps) * (0 + 1 + / eps) * 100) with (200 * (1 + eps) * (1 + eps * eps)) by (field; lra). assert (eps * eps < 1) by nra. assert (0 < eps * eps) by nra. assert (eps * (eps * eps) <= 1 * (eps * eps)) by (apply Rmult_le_compat_r; lra). lra. }
  cbn [jump]. unfold at_l2. cbv zeta. cbn [fst_ fs fss fip fiai fex choose]. rewrite S0, S1. rewrite rltb_1 by lra.
  cbn [giq Nat.sub seq existsb negb andb]. rewrite (rltb_0 1 (-1000)) by lra. cbn [andb]. rewrite rleb_0 by lra.
  cbn [jump]. unfold at_l2a. cbv zeta. cbn [fst_ fip fs giq gJ gR gA gu gRn gx gf Nat.sub partial_step].
  set (e := compute_d 2 J1 (obI eps 0%nat)).
  assert (E1 : e 1%nat = - eps) by (unfold e, compute_d, mv, mt, obI; cbn [rsum Nat.eqb]; rewrite J11; field; lra).
  set (y := update_z 2 J1 e 1).
  assert (Y0 : y 0%nat = 0) by (unfold y, update_z; cbn [rsum Nat.sub Nat.add]; rewrite J01; ring).
  assert (Y1 : y 1%nat = 1) by (unfold y, update_z; cbn [rsum Nat.sub Nat.add]; rewrite J11, E1; field; lra).
  assert (YY : dot 2 y y = 1) by (unfold dot; cbn [rsum]; rewrite Y0, Y1; ring).
  rewrite YY, Rabs_R1, (rltb_1 eps 1) by lra. rewrite (proj2 (reqb_t _ _) eq_refl).
  unfold add_constraint. cbn [Nat.leb Nat.sub add_loop]. rewrite E1. rewrite rleb_1 by (rewrite Rabs_Ropp, Rabs_pos_eq; lra).
  cbn [Nat.add Nat.leb]. unfold delete_constraint. cbn [Nat.sub find_qq]. rewrite updv_eq. cbn [Nat.eqb del_loop Nat.sub Nat.ltb Nat.leb andb]. reflexivity.
Qed.

(* min x^2 / 2 with x >= 1, in exact arithmetic *)
Example C110_example : symmetric 1 mid /\ psd 1 mid /\ cholesky 1 mid (cst 0) mid (cst 0) /\
  exists c st, quadprog 1 0 1 0 1 (fun _ => cst 0) (fun _ => cst 1) (cst 0) (cst 1) 4 mid (cst 0) (cst 0) = Ok (CONVERGED, c, st) /\ gx st 0%nat = 1.
Proof.
  split; [intros i j Hi Hj; unfold mid; rewrite Nat.eqb_sym; reflexivity|].
  split; [intros x; unfold dot, mv, mid; cbn; nra|].
  split; [split; [intros i l Hi Hl'; replace i with 0%nat by lia; replace l with 0%nat by lia; cbn; unfold mid; cbn; ring|
    intros i Hi; unfold mv, cst; cbn [rsum]; ring]|].
  unfold quadprog. cbv zeta. cbn [eq_phase run jump]. unfold at_l1. cbv zeta. cbn [fst_ gx gu gA giq].
  assert (S0 : dot 1 (cst 1) (fun k => - cst 0 k) + - cst 1 0%nat = -1) by (unfold dot, cst; cbn [rsum]; ring).
  rewrite rleb_0.
  2: { cbn [rsum]. rewrite S0, Rmin_right, Rplus_0_l, Rabs_left by lra. lra. }
  cbn [run jump]. unfold at_l2. cbv zeta. cbn [fst_ fs fss fip fiai fex choose]. rewrite S0, rltb_1 by lra.
  cbn [giq Nat.sub seq existsb negb andb]. rewrite rleb_0 by lra. cbn [run jump]. unfold at_l2a. cbv zeta.
  cbn [fst_ fip fs giq gJ gR gA gu gRn gx gf Nat.sub partial_step].
  set (d := compute_d 1 mid (cst 1)). assert (D : d 0%nat = 1) by (unfold d, compute_d, mv, mt, mid, cst; cbn [rsum Nat.eqb]; ring).
  set (z := update_z 1 mid d 0). assert (Z : z 0%nat = 1) by (unfold z, update_z; cbn [rsum Nat.sub Nat.add]; rewrite D; unfold mid; cbn [Nat.eqb]; ring).
  assert (ZZ : dot 1 z z = 1) by (unfold dot; cbn [rsum]; rewrite Z; ring). rewrite ZZ, Rabs_R1, rltb_1 by lra.
  rewrite (proj2 (reqb_t _ _) eq_refl). unfold add_constraint. cbn [Nat.leb Nat.sub add_loop]. rewrite D, Rabs_R1, rleb_0 by lra.
  cbn [run jump]. unfold at_l1. cbv zeta. cbn [fst_ gx gu gA giq].
  assert (T : - (dot 1 (cst 1) (fun k => - cst 0 k) + - cst 1 0%nat) / dot 1 z (cst 1) = 1).
  { rewrite S0. unfold dot, cst. cbn [rsum]. rewrite Z. field. }
  rewrite rleb_1.
  - eexists _, _. split; [reflexivity|]. cbn [gx]. rewrite T, Z. unfold cst. ring.
  - cbn [rsum]. rewrite T. unfold dot at 1, cst. cbn [rsum]. rewrite Z. replace (_ + _) with 0.
    + rewrite Rabs_R0. cbn [INR]. lra.
    + replace (0 + 1 * (-0 + 1 * 1) + -1) with 0 by ring. rewrite Rmin_left by lra. ring.
Qed.

(* A program with solutions is reported to have none when the normal of the
   violated constraint is small: min x^2 / 2 with sqrt eps * x >= sqrt eps. *)
Theorem C110_feasible_unbounded_refuted eps : 0 < eps < 1 / 10000 -> exists ciJ cib st,
  symmetric 1 mid /\ psd 1 mid /\ cholesky 1 mid (cst 0) mid (cst 0) /\
  (exists y, feasible 1 0 1 (fun _ => cst 0) ciJ (cst 0) cib y) /\
  quadprog 1 0 1 eps 1 (fun _ => cst 0) ciJ (cst 0) cib 3 mid (cst 0) (cst 0) = Ok (UNBOUNDED, None, st).
Proof.
  intros He. set (a := sqrt eps). assert (Ha : a * a = eps) by (apply sqrt_sqrt; lra).
  assert (Hp : 0 < a) by (apply sqrt_lt_R0; lra). assert (Hl : 100 * eps < a).
  { assert (a < 1 / 100); [|nra]. destruct (Rlt_dec a (1 / 100)); [assumption|]. nra. }
  exists (fun _ => cst a), (cst a).
  assert (E : exists st, quadprog 1 0 1 eps 1 (fun _ => cst 0) (fun _ => cst a) (cst 0) (cst a) 3 mid (cst 0) (cst 0) = Ok (UNBOUNDED, None, st)).
  { unfold quadprog. cbv zeta. cbn [eq_phase run jump]. unfold at_l1. cbv zeta. cbn [fst_ gx gu gA giq].
    assert (S0 : dot 1 (cst a) (fun k => - cst 0 k) + - cst a 0%nat = - a) by (unfold dot, cst; cbn [rsum]; ring).
    assert (C2 : c2_of 1 mid = 1) by (unfold c2_of, mid; cbn [rsum Nat.eqb]; ring).
    rewrite rleb_0.
    2: { cbn [rsum]. rewrite S0, Rmin_right, Rplus_0_l, Rabs_left, C2 by lra. cbn [INR]. lra. }
    cbn [run jump]. unfold at_l2. cbv zeta. cbn [fst_ fs fss fip fiai fex choose]. rewrite S0, rltb_1 by lra.
    cbn [giq Nat.sub seq existsb negb andb]. rewrite rleb_0 by lra. cbn [run jump]. unfold at_l2a. cbv zeta.
    cbn [fst_ fip fs giq gJ gR gA gu gRn gx gf Nat.sub partial_step].
    set (d := compute_d 1 mid (cst a)). assert (D : d 0%nat = a) by (unfold d, compute_d, mv, mt, mid, cst; cbn [rsum Nat.eqb]; ring).
    set (z := update_z 1 mid d 0). assert (Z : z 0%nat = a) by (unfold z, update_z; cbn [rsum Nat.sub Nat.add]; rewrite D; unfold mid; cbn [Nat.eqb]; ring).
    assert (ZZ : dot 1 z z = eps) by (unfold dot; cbn [rsum]; rewrite Z; lra).
    rewrite ZZ, (rltb_0 eps (Rabs eps)) by (rewrite Rabs_pos_eq; lra). eexists. reflexivity. }
  destruct E as (st & E). exists st.
  split; [intros i j Hi Hj; unfold mid; rewrite Nat.eqb_sym; reflexivity|].
  split; [intros x; unfold dot, mv, mid; cbn; nra|].
  split; [split; [intros i l Hi Hl'; replace i with 0%nat by lia; replace l with 0%nat by lia; cbn; unfold mid; cbn; ring|
    intros i Hi; unfold mv, cst; cbn [rsum]; ring]|].
  split; [exists (cst 1); split; intros i Hi; [lia|unfold dot, cst; cbn [rsum]; lra]|]. exact E.
Qed.

(* Redundant equality constraints, x0 = 0 twice, with x1 >= 1: solve returns a
   finite cost and a point out of the bound, although there are solutions. *)
Definition rJ : mat := fun _ j => if (j =? 0)%nat then 1 else 0.
Definition rI : mat := fun _ j => if (j =? 1)%nat then 1 else 0.
Theorem C110_redundant_refuted eps fuel : 0 <= eps < 1 -> exists x,
  symmetric 2 mid /\ psd 2 mid /\ cholesky 2 mid (cst 0) mid (cst 0) /\
  (exists y, feasible 2 2 1 rJ rI (cst 0) (cst 1) y) /\
  qp_solve_quadprog 2 2 1 eps 2 rJ rI (cst 0) (cst 1) fuel mid (cst 0) (cst 0) = Ok (Some 0, x) /\
  ~ feasible 2 2 1 rJ rI (cst 0) (cst 1) x.
Proof.
  intros He.
  assert (E : exists c x, qp_solve_quadprog 2 2 1 eps 2 rJ rI (cst 0) (cst 1) fuel mid (cst 0) (cst 0) = Ok (Some c, x) /\ c = 0 /\ x 0%nat = 0 /\ x 1%nat = 0).
  { unfold qp_solve_quadprog, quadprog. cbn [Nat.ltb Nat.leb]. cbv zeta. cbn [eq_phase giq gJ gx gu gR gRn gA gf].
    set (d := compute_d 2 mid (rJ 0%nat)).
    assert (D0 : d 0%nat = 1) by (unfold d, compute_d, mv, mt, mid, rJ; cbn [rsum Nat.eqb]; ring).
    assert (D1 : d 1%nat = 0) by (unfold d, compute_d, mv, mt, mid, rJ; cbn [rsum Nat.eqb]; ring).
    set (z := update_z 2 mid d 0).
    assert (Z0 : z 0%nat = 1) by (unfold z, update_z; cbn [rsum Nat.sub Nat.add]; rewrite D0, D1; unfold mid; cbn [Nat.eqb]; ring).
    assert (Z1 : z 1%nat = 0) by (unfold z, update_z; cbn [rsum Nat.sub Nat.add]; rewrite D0, D1; unfold mid; cbn [Nat.eqb]; ring).
    set (t2 := if rltb eps (Rabs (dot 2 z z)) then _ else _).
    assert (T2 : t2 = 0).
    { unfold t2. destruct (rltb eps (Rabs (dot 2 z z))); [|reflexivity]. unfold dot, rJ, cst. cbn [rsum Nat.eqb]. unfold Rdiv. ring. }
    unfold add_constraint at 1. cbn [Nat.leb Nat.sub add_loop Nat.add]. rewrite D0, D1.
    assert (H : hyp2 1 0 = 1).
    { unfold hyp2. rewrite Rabs_R0, Rabs_R1, rltb_1 by lra. replace (1 + 0 / 1 * (0 / 1)) with 1 by field. rewrite sqrt_1. ring. }
    rewrite H. destruct (reqb 1 0) eqn:E1; [apply reqb_t in E1; lra|]. unfold givens. rewrite rltb_0 by lra.
    rewrite updv_eq, Rabs_R1, rleb_0 by lra. cbn [giq gJ gx gu gR gRn gA gf].
    set (J' := rot_cols (1 / 1) (0 / 1) 0 1 mid).
    set (d' := compute_d 2 J' (rJ 1%nat)).
    assert (D1' : d' 1%nat = 0) by (unfold d', compute_d, mv, mt, J', rot_cols, mid, rJ; cbn [rsum Nat.eqb]; field).
    set (z' := update_z 2 J' d' 1).
    assert (Z' : forall k, z' k = 0) by (intros k; unfold z', update_z; cbn [rsum Nat.sub Nat.add]; rewrite D1'; ring).
    assert (ZZ : dot 2 z' z' = 0) by (unfold dot; cbn [rsum]; rewrite !Z'; ring).
    rewrite ZZ, (rltb_0 eps (Rabs 0)) by (rewrite Rabs_R0; lra).
    unfold add_constraint. cbn [Nat.leb Nat.sub add_loop Nat.add]. rewrite D1'.
    rewrite rleb_1 by (rewrite Rabs_R0; apply Rmult_le_pos; [lra|]; pose proof (Rmax_l 1 1); lra).
    eexists _, _. split; [reflexivity|]. cbn [gf gx]. rewrite T2, !Z'. unfold dot, cst. cbn [rsum]. split; [ring|]. split; ring. }
  destruct E as (c & x & E & -> & X0 & X1). exists x.
  split; [intros i j Hi Hj; unfold mid; rewrite Nat.eqb_sym; reflexivity|].
  split; [intros v; unfold dot, mv, mid; cbn; nra|].
  split; [split; [intros i l Hi Hl; destruct i as [|[|i]]; [| |lia]; (destruct l as [|[|l]]; [| |lia]); cbn; unfold mid; cbn; ring|
    intros i Hi; unfold mv, cst; cbn [rsum]; ring]|].
  split; [exists (fun i => INR i); split; intros i Hi; unfold dot, rJ, rI, cst; cbn [rsum Nat.eqb INR]; lra|].
  split; [exact E|]. intros [_ Y]. specialize (Y 0%nat ltac:(lia)). unfold dot, rI, cst in Y. cbn [rsum Nat.eqb] in Y. rewrite X0, X1 in Y. lra.
Qed.

Print Assumptions C110_optimal_partial.
Print Assumptions C110_infeasible_partial.
Print Assumptions C110_dependent_partial.
Print Assumptions C110_defined_partial.
Print Assumptions C110_active_partial.
Print Assumptions C110_ends_partial.
Print Assumptions C110_solve_partial.
Print Assumptions C110_over_constrained.
Print Assumptions C110_equality_ignored_refuted.
Print Assumptions C110_infeasible_cost_refuted.
Print Assumptions C110_loops_refuted.
Print Assumptions C110_restore_refuted.
Print Assumptions C110_redundant_refuted.
Print Assumptions C110_feasible_unbounded_refuted.
