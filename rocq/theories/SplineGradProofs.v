(* Lemmas for the loop of the spline optimiser: outcomes, validation. *)
From Coq Require Import Reals List Arith Bool Lia Lra Permutation.
From Verif Require Import Base XReal SplineModel LinConsModel SplineOptModel SplineGradModel.
Import ListNotations.
Open Scope R_scope.

Ltac binv H := match type of H with
  | bind ?r _ = Ok _ => let E := fresh "E" in destruct r eqn:E; cbn [bind] in H; try discriminate H
  end.

Section P.
Context {Rep Fn : Type}.
Variable w : @sgb Rep Fn.

Lemma loop_inv (P : state -> Prop) cs bcr :
  (forall s s' b, P s -> iterate w cs bcr s = Ok (s', b) -> P s') ->
  forall fuel i s s', P s -> opt_loop w fuel i cs bcr s = Ok s' -> P s'.
Proof.
  intros HI; induction fuel as [|f IH]; intros i s s' HP H; cbn [opt_loop] in H;
    destruct (st_nocoll s && st_min s)%bool; try (injection H as <-; exact HP);
    destruct (g_stop w i); try (injection H as <-; exact HP); try discriminate.
  binv H. destruct a as [s1 b]; cbn [fst snd] in H.
  pose proof (HI _ _ _ HP E) as HP1.
  destruct b; [injection H as <-; exact HP1 | exact (IH _ _ _ HP1 H)].
Qed.

(* optimize, unfolded: either the input or the result of the loop *)
Lemma optimize_inv fuel x : optimize w fuel = Ok x ->
  let N := (length (g_ss w) * bsize (g_n w) (g_nv w))%nat in
  exists cs okd lcr f1 bcr f2 qpc,
    cost_order_ok (g_n w) (g_order w) = true /\
    lc_decompose (g_qr w) true true (path_constraint (g_n w) (g_nv w) (g_ss w) (g_act w)) = Ok (cs, okd) /\
    lc_reduce (g_lu w) cs (lc_new N 0) (lc_new N 0) true = Ok (lcr, f1) /\
    (g_check w = true -> validate_bounds (g_n w) (g_nv w) (length (g_ss w)) (bounds_of w) (params (g_n w) (g_nv w) (g_ss w)) = []) /\
    lc_reduce (g_lu w) cs (bounds_of w) (lc_new 0 0) false = Ok (bcr, f2) /\
    qp_reduced (mkQP N (cost_hessian (g_n w) (g_nv w) (g_lambda w) (g_order w) (g_ss w)) (fun _ => 0) true None) cs = Ok qpc /\
    ((qp_n qpc = 0%nat /\ x = params (g_n w) (g_nv w) (g_ss w)) \/
     exists q c s, qp_solve (g_solver w) qpc lcr bcr = Ok (q, c) /\
       opt_loop w fuel 0 cs bcr (start_state w lcr q) = Ok s /\ x = st_x s).
Proof.
  intros H N; unfold optimize in H.
  destruct (cost_order_ok (g_n w) (g_order w)) eqn:E0; [|discriminate].
  binv H. destruct a as [cs okd]; cbn [fst] in H. binv H. destruct a as [lcr f1]; cbn [fst] in H.
  destruct (g_check w && negb (length (validate_bounds (g_n w) (g_nv w) (length (g_ss w)) (bounds_of w) (params (g_n w) (g_nv w) (g_ss w))) =? 0)%nat)%bool eqn:Ec; [discriminate|].
  binv H. destruct a as [bcr f2]; cbn [fst] in H. binv H. rename a into qpc.
  exists cs, okd, lcr, f1, bcr, f2, qpc. split; [reflexivity|]. split; [reflexivity|]. split; [exact E1|].
  split.
  { intros Hc; rewrite Hc in Ec; cbn [andb] in Ec. apply negb_false_iff, Nat.eqb_eq, length_zero_iff_nil in Ec. exact Ec. }
  split; [exact E2|]. split; [exact E3|].
  destruct (Nat.eqb_spec (qp_n qpc) 0) as [Hz|Hz]; [left; injection H as <-; split; [exact Hz|reflexivity]|].
  right. binv H. destruct a as [q c]; cbn [fst] in H. binv H. injection H as <-.
  exists q, c, a. split; [first [exact E4|reflexivity]|]. split; [exact E5|reflexivity].
Qed.

(* what one iteration does to the splines *)
Lemma choose_x cs s s' : choose_splines w cs s = Ok s' -> st_x s' = st_x s /\ st_ord s' = st_ord s.
Proof.
  unfold choose_splines; intros H. binv H. rename a into s1.
  assert (st_x s1 = st_x s /\ st_ord s1 = st_ord s) as [Hx Ho].
  { destruct (st_copt s); [|injection E as <-; split; reflexivity].
    destruct (qp_x (st_qp s)); [|discriminate]. binv E. injection E as <-; split; reflexivity. }
  destruct (st_cint s1); injection H as <-; cbn [st_x st_ord]; split; assumption.
Qed.
Lemma accept_x cs bcr s s' : accept w cs bcr s = Ok s' -> st_x s' = st_cur s /\ st_ord s' = st_ord s.
Proof.
  unfold accept; intros H. binv H. destruct a as [[[qp lc] lcr] co].
  injection H as <-; cbn [st_x st_ord]; split; reflexivity.
Qed.
Lemma reject_x cs bcr r s s' b : reject w cs bcr r s = Ok (s', b) -> st_x s' = st_x s /\ st_ord s' = st_ord s.
Proof.
  unfold reject; intros H.
  destruct (reqb (st_alpha s) 1); [injection H as <- _; split; reflexivity|].
  binv H. destruct (qp_n (st_qp s) <=? a)%nat; [injection H as <- _; split; reflexivity|].
  binv H. destruct a0 as [[[lc lcr] fs] ok]. destruct ok.
  - binv H. injection H as <- _; split; reflexivity.
  - destruct (rltb (st_alpha s) (g_alpha0 w / 4)); injection H as <- _; split; reflexivity.
Qed.

Lemma val_nil first x : forall ord, val_loop w first x ord = [] -> forall i, In i ord -> g_valid w i (sp_at w x i) = None.
Proof.
  induction ord as [|a t IH]; intros H i Hi; [destruct Hi|]. cbn [val_loop] in H.
  destruct (g_valid w a (sp_at w x a)) eqn:Ea; [destruct first; discriminate|].
  destruct Hi as [->|Hi]; [exact Ea | exact (IH H i Hi)].
Qed.
Lemma val_in first x : forall ord r, In r (val_loop w first x ord) -> In (snd r) ord /\ g_valid w (snd r) (sp_at w x (snd r)) = Some (fst r).
Proof.
  induction ord as [|a t IH]; intros r Hr; cbn [val_loop] in Hr; [destruct Hr|].
  destruct (g_valid w a (sp_at w x a)) eqn:Ea.
  - destruct first.
    + destruct Hr as [<-|[]]. cbn [fst snd]. split; [left; reflexivity|exact Ea].
    + destruct Hr as [<-|Hr]; [cbn [fst snd]; split; [left; reflexivity|exact Ea]|].
      destruct (IH r Hr) as [H1 H2]; split; [right; exact H1|exact H2].
  - destruct (IH r Hr) as [H1 H2]; split; [right; exact H1|exact H2].
Qed.
(* the order of validation stays a permutation of the splines *)
Lemma rotate_perm n k : (k <= n)%nat -> Permutation (seq k (n - k) ++ seq 0 k) (seq 0 n).
Proof.
  intros H. rewrite Permutation_app_comm.
  replace n with (k + (n - k))%nat at 2 by lia. rewrite seq_app. cbn [Nat.add]. apply Permutation_refl.
Qed.
Lemma validate_perm first x ord m reports ord' : Permutation ord (seq 0 m) ->
  validate_path w first x ord = (reports, ord') -> Permutation ord' (seq 0 m).
Proof.
  unfold validate_path; intros Hp H.
  destruct (val_loop w first x ord) as [|r t] eqn:E; [injection H as _ <-; exact Hp|].
  injection H as _ <-. destruct (g_reorder w); [|exact Hp].
  assert (Hr : In (snd r) ord) by (apply (val_in first x ord r); rewrite E; left; reflexivity).
  apply (Permutation_in _ Hp) in Hr. apply in_seq in Hr.
  rewrite (Permutation_length Hp), seq_length. apply rotate_perm; lia.
Qed.
Lemma validate_reports first x ord reports ord' : validate_path w first x ord = (reports, ord') -> reports = val_loop w first x ord.
Proof. unfold validate_path; destruct (val_loop w first x ord); intros H; injection H as <- _; reflexivity. Qed.

Lemma iterate_safe cs bcr s s' b m : m = length (g_ss w) -> g_optimum w = false ->
  Permutation (st_ord s) (seq 0 m) -> iterate w cs bcr s = Ok (s', b) ->
  Permutation (st_ord s') (seq 0 m) /\
  (st_x s' = st_x s \/ forall j, (j < m)%nat -> g_valid w j (sp_at w (st_x s') j) = None).
Proof.
  intros Hm Ho Hp H. unfold iterate in H. binv H. rename a into s1. rewrite Ho in H.
  destruct (choose_x _ _ _ E) as [Hx1 Ho1]. rewrite <- Ho1 in Hp.
  destruct (validate_path w (st_first s1) (st_cur s1) (st_ord s1)) as [reports ord] eqn:Ev.
  pose proof (validate_perm _ _ _ _ _ _ Hp Ev) as Hp'.
  pose proof (validate_reports _ _ _ _ _ Ev) as Hr.
  destruct reports as [|r t].
  - binv H. injection H as <- _. destruct (accept_x _ _ _ _ E0) as [Hx Hord]. cbn [st_cur st_ord] in Hx, Hord.
    rewrite Hord, Hx. split; [exact Hp'|right]. intros j Hj.
    apply (val_nil (st_first s1) (st_cur s1) (st_ord s1)); [symmetry; exact Hr|].
    apply (Permutation_in _ (Permutation_sym Hp)). apply in_seq. lia.
  - destruct (reject_x _ _ _ _ _ _ H) as [Hx Hord]. cbn [st_x st_ord] in Hx, Hord.
    rewrite Hord, Hx, Hx1. split; [exact Hp'|left; reflexivity].
Qed.

Lemma optimize_safe fuel x : g_optimum w = false -> optimize w fuel = Ok x ->
  x = params (g_n w) (g_nv w) (g_ss w) \/ forall j, (j < length (g_ss w))%nat -> g_valid w j (sp_at w x j) = None.
Proof.
  intros Ho H. destruct (optimize_inv _ _ H) as (cs & okd & lcr & f1 & bcr & f2 & qpc & _ & _ & _ & _ & _ & _ & HH).
  destruct HH as [[_ ->]|(q & c & s & _ & Hl & ->)]; [left; reflexivity|].
  set (m := length (g_ss w)).
  refine (proj2 (loop_inv (fun s => Permutation (st_ord s) (seq 0 m) /\
    (st_x s = params (g_n w) (g_nv w) (g_ss w) \/ forall j, (j < m)%nat -> g_valid w j (sp_at w (st_x s) j) = None)) cs bcr _ _ _ _ _ _ Hl)).
  - intros s0 s' b [Hp Hx] Hi. destruct (iterate_safe _ _ _ _ _ m eq_refl Ho Hp Hi) as [Hp' [He|Hv]]; split; try exact Hp'.
    + rewrite He; exact Hx.
    + right; exact Hv.
  - split; [apply Permutation_refl|left; reflexivity].
Qed.

(* the number of iterations is bounded by the monitor *)
Lemma solve_not_fuel solver q ce ci : qp_solve solver q ce ci <> Fuel.
Proof.
  unfold qp_solve. destruct (lc_cols ce <? lc_rows ce)%nat; [discriminate|].
  unfold read_b. destruct (forallb _ (seq 0 (lc_rows ce))); cbn [bind]; [|discriminate].
  destruct (forallb _ (seq 0 (lc_rows ci))); cbn [bind]; [|discriminate].
  destruct (solver q ce ci); discriminate.
Qed.
Lemma reduce_not_fuel lu c lc lcr b : lc_reduce lu c lc lcr b <> Fuel.
Proof.
  unfold lc_reduce. destruct (lc_dec c) as [[[k PK] xs]|]; [|discriminate].
  destruct (lc_cols lc =? lc_cols c)%nat; [|discriminate]. destruct b; discriminate.
Qed.
Lemma lin1_not_fuel sod x c coll : linearize1 w sod x c coll <> Fuel.
Proof. unfold linearize1. destruct (sod <? _)%nat; discriminate. Qed.
Lemma linall_not_fuel x fs : forall i coll, linearize_from w i x fs coll <> Fuel.
Proof.
  induction fs as [|c t IH]; intros i coll; cbn [linearize_from]; [discriminate|].
  destruct (linearize1 w i x c coll) eqn:E; cbn [bind]; try discriminate; [apply IH|].
  exfalso; exact (lin1_not_fuel _ _ _ _ E).
Qed.
Lemma find_loop_not_fuel cs j x fs : forall k coll lcr c solved, find_loop w cs j x k coll lcr fs c solved <> Fuel.
Proof.
  induction k as [|k IH]; intros coll lcr c solved; cbn [find_loop]; (destruct solved; [discriminate|]); [discriminate|].
  destruct (linearize1 w j x _ coll) eqn:E; cbn [bind]; try discriminate; [|exfalso; exact (lin1_not_fuel _ _ _ _ E)].
  destruct (lc_reduce (g_lu w) cs a lcr true) eqn:E1; cbn [bind]; try discriminate; [|exfalso; exact (reduce_not_fuel _ _ _ _ _ E1)].
  apply IH.
Qed.
Lemma add_reports_not_fuel cs dim x cur : (forall a b r, g_create w a b r <> Fuel) ->
  forall reports coll lcr fs ok, add_reports w cs dim x cur reports coll lcr fs ok <> Fuel.
Proof.
  intros Hc; induction reports as [|r t IH]; intros coll lcr fs ok; cbn [add_reports]; [discriminate|].
  destruct (add_collision w (snd r) x cur (fst r) coll) eqn:E; cbn [bind]; try discriminate.
  - unfold find_new. destruct (lc_reduce (g_lu w) cs (fst a) lcr true) eqn:E1; cbn [bind]; try discriminate; [|exfalso; exact (reduce_not_fuel _ _ _ _ _ E1)].
    destruct (find_loop w cs (snd r) x 5 (fst a) (fst a0) fs (snd a) (snd a0)) eqn:E2; cbn [bind]; try discriminate;
      [|exfalso; exact (find_loop_not_fuel _ _ _ _ _ _ _ _ _ E2)].
    destruct a1 as [[[coll' lcr'] fs'] found]. destruct (negb (ok || found)); [discriminate|].
    unfold rank_of; destruct (lc_rank lcr'); cbn [bind]; [|discriminate]. destruct (dim <=? n)%nat; [discriminate|apply IH].
  - unfold add_collision in E. destruct (g_create w (sp_at w x (snd r)) (sp_at w cur (snd r)) (fst (fst r))) eqn:E1; cbn [bind] in E; try discriminate;
      [|exfalso; exact (Hc _ _ _ E1)].
    destruct (linearize1 w (snd r) x _ _) eqn:E2; cbn [bind] in E; try discriminate. exfalso; exact (lin1_not_fuel _ _ _ _ E2).
Qed.
Lemma iterate_not_fuel cs bcr s : (forall a b r, g_create w a b r <> Fuel) -> iterate w cs bcr s <> Fuel.
Proof.
  intros Hc. unfold iterate.
  assert (Hch : choose_splines w cs s <> Fuel).
  { unfold choose_splines. destruct (st_copt s).
    - destruct (qp_x (st_qp s)) as [v|]; cbn [bind]; [|discriminate].
      unfold lc_solution. destruct (lc_dec cs) as [[[k PK] xs]|]; cbn [bind]; [|discriminate].
      cbn [st_cint]. destruct (st_cint s); discriminate.
    - cbn [bind]. destruct (st_cint s); discriminate. }
  assert (Hac : forall s, accept w cs bcr s <> Fuel).
  { intros s0. unfold accept. destruct (g_lin w); cbn [bind]; [|discriminate].
    unfold linearize_all. destruct (linearize_from w 0 (st_cur s0) (st_fs s0) (st_lc s0)) eqn:E; cbn [bind]; try discriminate; [|exfalso; exact (linall_not_fuel _ _ _ _ E)].
    destruct (lc_reduce (g_lu w) cs a (st_lcr s0) true) eqn:E1; cbn [bind]; try discriminate; [|exfalso; exact (reduce_not_fuel _ _ _ _ _ E1)].
    destruct (qp_solve (g_solver w) (st_qp s0) (fst a0) bcr) eqn:E2; cbn [bind]; try discriminate. exfalso; exact (solve_not_fuel _ _ _ _ E2). }
  assert (Hre : forall r s, reject w cs bcr r s <> Fuel).
  { intros r s0. unfold reject. destruct (reqb (st_alpha s0) 1); [discriminate|].
    unfold rank_of; destruct (lc_rank (st_lcr s0)); cbn [bind]; [|discriminate].
    destruct (qp_n (st_qp s0) <=? n)%nat; [discriminate|].
    destruct (add_reports w cs (qp_n (st_qp s0)) (st_x s0) (st_cur s0) r (st_lc s0) (st_lcr s0) (st_fs s0) false) eqn:E; cbn [bind]; try discriminate;
      [|exfalso; exact (add_reports_not_fuel _ _ _ _ Hc _ _ _ _ _ E)].
    destruct a as [[[lc lcr] fs] ok]. destruct ok; [|destruct (rltb (st_alpha s0) (g_alpha0 w / 4)); discriminate].
    destruct (qp_solve (g_solver w) (st_qp s0) lcr bcr) eqn:E1; cbn [bind]; try discriminate. exfalso; exact (solve_not_fuel _ _ _ _ E1). }
  destruct (choose_splines w cs s) as [s1| | |]; cbn [bind]; try discriminate; [|congruence].
  destruct (g_optimum w).
  - match goal with |- bind ?r _ <> _ => destruct r eqn:E; cbn [bind]; try discriminate; exfalso; exact (Hac _ E) end.
  - destruct (validate_path w (st_first s1) (st_cur s1) (st_ord s1)) as [[|r t] ord]; [|apply Hre].
    match goal with |- bind ?r _ <> _ => destruct r eqn:E; cbn [bind]; try discriminate; exfalso; exact (Hac _ E) end.
Qed.
Lemma loop_not_fuel cs bcr : (forall a b r, g_create w a b r <> Fuel) ->
  forall fuel i s, g_stop w (i + fuel) = true -> opt_loop w fuel i cs bcr s <> Fuel.
Proof.
  intros Hc; induction fuel as [|f IH]; intros i s Hs; cbn [opt_loop]; destruct (st_nocoll s && st_min s)%bool; try discriminate.
  - rewrite Nat.add_0_r in Hs; rewrite Hs; discriminate.
  - destruct (g_stop w i); [discriminate|].
    destruct (iterate w cs bcr s) as [[s1 b]| | |] eqn:E; cbn [bind fst snd]; try discriminate.
    + destruct b; [discriminate|]. apply IH. rewrite <- Nat.add_succ_comm in Hs. exact Hs.
    + exfalso; exact (iterate_not_fuel _ _ _ Hc E).
Qed.
Lemma decompose_not_fuel qr a b c : lc_decompose qr a b c <> Fuel.
Proof.
  unfold lc_decompose. destruct (lc_rows c =? 0)%nat; [discriminate|].
  unfold read_b. destruct (forallb _ _); cbn [bind]; [|discriminate].
  destruct a; [|discriminate]. destruct (is_zero _ _ _); [discriminate|]. destruct b; discriminate.
Qed.
Lemma optimize_not_fuel fuel : (forall a b r, g_create w a b r <> Fuel) -> g_stop w fuel = true -> optimize w fuel <> Fuel.
Proof.
  intros Hc Hs H. unfold optimize in H. destruct (cost_order_ok _ _); [|discriminate].
  destruct (lc_decompose _ _ _ _) eqn:E in H; cbn [bind] in H; try discriminate; [|exact (decompose_not_fuel _ _ _ _ E)].
  destruct (lc_reduce _ _ _ _ true) eqn:E1 in H; cbn [bind] in H; try discriminate; [|exact (reduce_not_fuel _ _ _ _ _ E1)].
  destruct (_ && _)%bool in H; [discriminate|].
  destruct (lc_reduce _ _ _ _ false) eqn:E2 in H; cbn [bind] in H; try discriminate; [|exact (reduce_not_fuel _ _ _ _ _ E2)].
  destruct (qp_reduced _ _) eqn:E3 in H; cbn [bind] in H; try discriminate.
  - destruct (qp_n a2 =? 0)%nat; [discriminate|].
    destruct (qp_solve _ _ _ _) eqn:E4 in H; cbn [bind] in H; try discriminate; [|exact (solve_not_fuel _ _ _ _ E4)].
    destruct (opt_loop _ _ _ _ _ _) eqn:E5 in H; cbn [bind] in H; try discriminate.
    exact (loop_not_fuel _ _ Hc fuel 0%nat _ Hs E5).
  - unfold qp_reduced in E3. destruct (lc_dec (fst a)) as [[[k PK] xs]|]; [|discriminate]. destruct (_ =? _)%nat in E3; discriminate.
Qed.
End P.
