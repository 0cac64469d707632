(* C108: the TOPPRA optimizer. *)
From Coq Require Import Reals Lra Lia Psatz ZArith.
From Verif Require Import Base XReal PolyModel PolySpec PolyProps TopModel TopSpec TopProofs TopProofs2 TopProofs3.
Open Scope R_scope.

(* sub-paths without time parameterization: the duration is the length of the
   parameter range *)
Definition untimed {C} (l : list (tsub C)) : Prop :=
  Forall (fun p => ts_a p <= ts_b p /\ ts_dur p = ts_b p - ts_a p) l.
Definition width {C} (p : tsub C) : R := ts_b p - ts_a p.

Lemma total_width {C} (l : list (tsub C)) : untimed l -> total l = upto width l (length l).
Proof.
  intros U. unfold upto. rewrite firstn_all. unfold total, width. induction U as [|p l [_ E] _ IH]; [reflexivity|].
  cbn [fold_right]. rewrite IH, E. reflexivity.
Qed.

(* The samples: they start at 0, increase by at most the length of the path
   divided by N, the ends of the sub-paths are samples, the last sample is the
   length of the path, and there are at most N + number of sub-paths samples. *)
Theorem C108_grid {C} (l : list (tsub C)) N : (0 < N)%Z -> untimed l -> short <= total l ->
  exists g ids, grid N l = Ok (g, ids) /\ good_grid g (total l / IZR N) /\
    (2 <= length g)%nat /\ INR (length g) <= IZR N + INR (length l) /\
    length ids = S (length l) /\ nth 0 ids 1%nat = 0%nat /\
    (forall j, (j <= length l)%nat -> nth_error g (nth j ids 0%nat) = Some (upto width l j)) /\
    (forall j, (j < length l)%nat -> (nth j ids 0 <= nth (S j) ids 0)%nat) /\
    nth (length l) ids 0%nat = (length g - 1)%nat.
Proof.
  intros HN U Hs. pose proof (total_width l U) as TW.
  assert (S0 : 0 < short) by (unfold short; lra).
  assert (N0 : 0 < IZR N) by (apply IZR_lt; exact HN).
  set (d := total l / IZR N). assert (Hd : 0 < d) by (apply Rdiv_lt_0_compat; lra).
  assert (F : Forall (fun p => 0 <= plen p) l).
  { eapply Forall_impl; [|exact U]. intros p [A _]. unfold plen. lra. }
  assert (Hl : l <> []). { intros ->. cbn in Hs. lra. }
  assert (G0 : grid N l = Ok (grid_loop (Some d) l [0] [0%nat])).
  { unfold grid. destruct (Z.ltb_spec (N + Z.of_nat (length l) - 1) 0); [lia|]. unfold dparams.
    destruct (Z.eqb_spec N 0); [lia|]. reflexivity. }
  destruct (grid_loop (Some d) l [0] [0%nat]) as [g ids] eqn:E.
  destruct (grid_loop_spec d Hd l [0] [0%nat] g ids ltac:(discriminate) F E) as (ext & idx & G & I & X1 & X2 & X3 & X4 & X5 & X6 & X7).
  change (@plen C) with (@width C) in *.
  exists g, ids. split; [exact G0|].
  assert (Lg : length g = S (length ext)) by (rewrite G; reflexivity).
  split.
  { constructor.
    - rewrite G. reflexivity.
    - intros k Hk. apply X4; [cbn; lia|exact Hk].
    - intros k Hk. apply X4; [cbn; lia|exact Hk]. }
  split.
  { destruct ext as [|e ext]; [|cbn in Lg; lia]. exfalso. rewrite G in X3. cbn in X3. lra. }
  split.
  { rewrite Lg, X1. rewrite S_INR.
    pose proof (proj2 (npts_bound d Hd l F) Hl) as B. change (@plen C) with (@width C) in B. rewrite <- TW in B.
    replace (total l / d) with (IZR N) in B by (unfold d; field; lra).
    assert (K : (Z.of_nat (npts d l) < N + Z.of_nat (length l))%Z).
    { apply lt_IZR. rewrite plus_IZR, <- !INR_IZR_INZ. exact B. }
    assert (K' : IZR (Z.of_nat (npts d l) + 1) <= IZR (N + Z.of_nat (length l))) by (apply IZR_le; lia).
    rewrite !plus_IZR, <- !INR_IZR_INZ in K'. exact K'. }
  split; [rewrite I; cbn [length app]; rewrite X2; reflexivity|].
  split; [rewrite I; reflexivity|].
  split.
  { intros [|j] Hj.
    - rewrite I, G. reflexivity.
    - rewrite I. cbn [app nth]. destruct (X5 j ltac:(lia)) as [J1 J2]. rewrite (nth_error_nth' g 0) by lia. f_equal.
      rewrite J2. cbn [last]. lra. }
  split.
  { intros [|j] Hj; rewrite I; cbn [app nth]; [lia|apply X6; lia]. }
  { rewrite I. destruct l as [|p l']; [congruence|]. cbn [length app nth]. specialize (X7 Hl). cbn [length] in X7.
    replace (S (length l') - 1)%nat with (length l') in X7 by lia. exact X7. }
Qed.

(* An answer of the solver on the grid [g]: squared speeds [x] that do not
   vanish at two consecutive samples. *)
Definition answers (solve : list R -> option (list R * list R)) (g x : list R) : Prop :=
  solve g = Some (g, x) /\ length x = length g /\ moving x.

Section Answer.
Context {C : Type}.
Variables (solve : list R -> option (list R * list R)) (N : Z) (l : list (tsub C)) (g x : list R) (ids : list nat).
Hypothesis HN : (0 < N)%Z.
Hypothesis U : untimed l.
Hypothesis Hs : short <= total l.
Hypothesis Hg : grid N l = Ok (g, ids).
Hypothesis Ha : answers solve g x.

Lemma result_shape : exists ts, times g (speeds x) 0 = Ok ts /\
  toppra solve N l = Ok (TTimed (outs g x ts ids l)) /\
  length g = length (speeds x) /\ (2 <= length g)%nat /\ length ids = S (length l) /\
  (forall k, (S k < length g)%nat -> nth k g 0 < nth (S k) g 0) /\
  nth 0 ids 1%nat = 0%nat /\ nth (length l) ids 0%nat = (length g - 1)%nat /\
  (forall j, (j <= length l)%nat -> nth (nth j ids 0%nat) g 0 = upto width l j) /\
  (forall j, (j < length l)%nat -> (nth j ids 0 <= nth (S j) ids 0 <= length g - 1)%nat).
Proof.
  destruct (C108_grid l N HN U Hs) as (g' & ids' & Hg' & GG & L2 & _ & Li & I0 & IX & IM & IL).
  rewrite Hg in Hg'. assert (g' = g /\ ids' = ids) as [-> ->] by (split; congruence). clear Hg'.
  destruct Ha as (A1 & A2 & A3).
  assert (LS : length g = length (speeds x)) by (unfold speeds; rewrite map_length; lia).
  destruct (times_ok g (speeds x) 0 LS) as [ts Et].
  { intros k Hk. apply speeds_sum; [exact A3|lia]. }
  assert (R : forall j, (j <= length l)%nat -> (nth j ids 0 <= length g - 1)%nat).
  { intros j Hj. specialize (IX j Hj). assert (nth j ids 0 < length g)%nat by (apply nth_error_Some; congruence). lia. }
  exists ts. split; [exact Et|]. split.
  { unfold toppra. destruct (rltb (total l) short) eqn:Er.
    { exfalso. unfold rltb in Er. destruct (Rlt_dec (total l) short); [lra|discriminate]. }
    rewrite Hg. cbn [bind]. rewrite A1. rewrite Nat.eqb_refl, A2, Nat.eqb_refl. cbn [negb orb].
    rewrite Et. cbn [bind]. fold (law g (speeds x) ts).
    rewrite (apply_law_ok g x ts LS L2 (gg_incr _ _ GG) Et l ids Li); [reflexivity|].
    apply Forall_forall. intros i Hi. destruct (In_nth _ _ 0%nat Hi) as (j & Hj & <-). apply R. lia. }
  split; [exact LS|]. split; [exact L2|]. split; [exact Li|]. split; [apply GG|]. split; [exact I0|]. split; [exact IL|].
  split.
  - intros j Hj. apply nth_error_nth. apply IX. exact Hj.
  - intros j Hj. split; [apply IM; exact Hj|apply R; lia].
Qed.

(* Every sub-path is kept, in order; its law maps its time range [0, T]
   increasingly onto [0, width]; the durations add up to the travel time of the
   answer. *)
Theorem C108_time_laws : exists out, toppra solve N l = Ok (TTimed out) /\ map to_sub out = l /\
  Forall (fun o => to_a o = 0 /\ to_b o = width (to_sub o) /\
                   timed_onto (ex_value (to_law o)) (to_T o) (width (to_sub o))) out /\
  fold_right (fun o a => to_T o + a) 0 out = travel g x.
Proof.
  destruct result_shape as (ts & Et & E & LS & L2 & Li & Hi & I0 & IL & IX & IM).
  exists (outs g x ts ids l). split; [exact E|]. split; [apply outs_subs; assumption|]. split.
  - apply Forall_forall. intros o Ho. apply In_nth_error in Ho. destruct Ho as [j Ej].
    assert (Hj : (j < length l)%nat).
    { rewrite <- (outs_subs g x ts LS L2 l ids Li), map_length. apply nth_error_Some. congruence. }
    destruct (nth_error l j) as [p|] eqn:Ep; [|apply nth_error_None in Ep; lia].
    rewrite (outs_nth g x ts LS L2 l ids j p Li Ep) in Ej. injection Ej as <-.
    assert (W : nth (nth (S j) ids 0%nat) g 0 - nth (nth j ids 0%nat) g 0 = width p).
    { rewrite !IX by lia. clear - Ep. unfold upto. revert j Ep.
      induction l as [|p0 l' IH]; intros [|j] Ep; try discriminate.
      - cbn in Ep. injection Ep as ->. cbn [firstn fold_right]. lra.
      - cbn in Ep. specialize (IH j Ep). change (firstn (S (S j)) (p0 :: l')) with (p0 :: firstn (S j) l').
        change (firstn (S j) (p0 :: l')) with (p0 :: firstn j l'). cbn [fold_right]. lra. }
    split; [reflexivity|]. split; [exact W|].
    cbn [to_sub mkout]. rewrite <- W. apply out_timed; try assumption. apply IM. exact Hj.
  - rewrite (outs_sum g x ts LS L2 l ids Li). rewrite (last_nth ids), Li. replace (S (length l) - 1)%nat with (length l) by lia. rewrite IL.
    assert (H0 : hd 0%nat ids = 0%nat) by (destruct ids; [discriminate|exact I0]). rewrite H0.
    destruct Ha as (_ & A2 & _).
    pose proof (travel_times g x 0 ts (eq_sym A2) Et) as T. rewrite last_nth in T.
    rewrite (law_len g (speeds x) ts LS L2 Et) in T. change (nth 0 (0 :: ts) 0) with 0. lra.
Qed.

(* At each instant the squared speed along the path is the linear interpolation
   of the answer of the solver, at the parameter reached. *)
Theorem C108_speed out j o t : toppra solve N l = Ok (TTimed out) -> nth_error out j = Some o -> 0 <= t <= to_T o ->
  exists s v, ex_value (to_law o) t = Ok s /\ ex_derivative (to_law o) t 1 = Ok v /\ 0 <= v /\
    profile g x (upto width l j + s) (v * v).
Proof.
  intros E Ej Ht. destruct result_shape as (ts & Et & E' & LS & L2 & Li & Hi & I0 & IL & IX & IM).
  rewrite E in E'. assert (out = outs g x ts ids l) by congruence. subst out. clear E'.
  assert (Hj : (j < length l)%nat).
  { rewrite <- (outs_subs g x ts LS L2 l ids Li), map_length. apply nth_error_Some. congruence. }
  destruct (nth_error l j) as [p|] eqn:Ep; [|apply nth_error_None in Ep; lia].
  rewrite (outs_nth g x ts LS L2 l ids j p Li Ep) in Ej. injection Ej as <-.
  destruct (out_speed g x ts LS L2 Hi Et _ _ p t (IM j Hj) Ht) as (s & v & A & B & V & P).
  exists s, v. rewrite <- (IX j) by lia. repeat split; assumption.
Qed.
(* Between two samples the acceleration along the path is constant. *)
Theorem C108_acceleration out j o t : toppra solve N l = Ok (TTimed out) -> nth_error out j = Some o -> 0 <= t <= to_T o ->
  exists s k, ex_value (to_law o) t = Ok s /\ (S k < length g)%nat /\
    nth k g 0 <= upto width l j + s <= nth (S k) g 0 /\
    ex_derivative (to_law o) t 2 = Ok ((pos (nth (S k) x 0) - pos (nth k x 0)) / (2 * (nth (S k) g 0 - nth k g 0))).
Proof.
  intros E Ej Ht. destruct result_shape as (ts & Et & E' & LS & L2 & Li & Hi & I0 & IL & IX & IM).
  rewrite E in E'. assert (out = outs g x ts ids l) by congruence. subst out. clear E'.
  assert (Hj : (j < length l)%nat).
  { rewrite <- (outs_subs g x ts LS L2 l ids Li), map_length. apply nth_error_Some. congruence. }
  destruct (nth_error l j) as [p|] eqn:Ep; [|apply nth_error_None in Ep; lia].
  rewrite (outs_nth g x ts LS L2 l ids j p Li Ep) in Ej. injection Ej as <-.
  destruct (out_range g x ts LS L2 Hi Et _ _ p t (IM j Hj) Ht) as [R1 _].
  destruct (law_total g (speeds x) ts LS L2 Hi Et _ R1) as [k Pk].
  pose proof (law_at g (speeds x) ts LS L2 Hi Et k _ Pk) as (V & _ & _).
  destruct (piece_bounds g (speeds x) ts LS L2 Hi Et k _ Pk) as [Bk Rk].
  destruct (law_step g (speeds x) ts LS L2 Et k Bk) as [A B].
  pose proof (pos_range _ _ _ _ _ _ A (Hi k ltac:(lia)) B (speeds_nonneg x k) (speeds_nonneg x (S k)) _ Rk) as PR.
  exists (lpos g (speeds x) ts k (t + nth (nth j ids 0%nat) (0 :: ts) 0) - nth (nth j ids 0%nat) g 0), k.
  split; [|split; [lia|split]].
  - cbn [to_law mkout]. unfold ex_value. cbn [ex_in ex_dt ex_ds]. rewrite V. reflexivity.
  - rewrite <- (IX j) by lia. unfold lpos. lra.
  - apply (out_acc g x ts LS L2 Hi Et _ _ p t k (IM j Hj) Ht Pk).
Qed.
(* The speed is continuous where two sub-paths meet. *)
Theorem C108_speed_continuous out j o o' : toppra solve N l = Ok (TTimed out) ->
  nth_error out j = Some o -> nth_error out (S j) = Some o' ->
  exists v, ex_derivative (to_law o) (to_T o) 1 = Ok v /\ ex_derivative (to_law o') 0 1 = Ok v.
Proof.
  intros E Ej Ej'. destruct result_shape as (ts & Et & E' & LS & L2 & Li & Hi & I0 & IL & IX & IM).
  rewrite E in E'. assert (out = outs g x ts ids l) by congruence. subst out. clear E'.
  assert (Hj : (S j < length l)%nat).
  { rewrite <- (outs_subs g x ts LS L2 l ids Li), map_length. apply nth_error_Some. congruence. }
  destruct (nth_error l j) as [p|] eqn:Ep; [|apply nth_error_None in Ep; lia].
  destruct (nth_error l (S j)) as [p'|] eqn:Ep'; [|apply nth_error_None in Ep'; lia].
  rewrite (outs_nth g x ts LS L2 l ids j p Li Ep) in Ej. rewrite (outs_nth g x ts LS L2 l ids (S j) p' Li Ep') in Ej'.
  injection Ej as <-. injection Ej' as <-.
  exists (nth (nth (S j) ids 0%nat) (speeds x) 0).
  pose proof (law_node g (speeds x) ts LS L2 Hi Et (nth (S j) ids 0%nat) (proj2 (IM j ltac:(lia)))) as [_ J].
  unfold ex_derivative. cbn [to_law mkout ex_in ex_dt to_T]. split; rewrite <- J; f_equal; ring.
Qed.

(* Sub-paths whose parameter range starts at 0 keep their geometry. *)
Theorem C108_geometry_partial out j o : toppra solve N l = Ok (TTimed out) -> nth_error out j = Some o ->
  ts_a (to_sub o) = 0 ->
  to_eval o 0 = Ok (ts_q (to_sub o) (ts_a (to_sub o))) /\
  to_eval o (to_T o) = Ok (ts_q (to_sub o) (ts_b (to_sub o))) /\
  (forall t, 0 <= t <= to_T o -> exists s, ts_a (to_sub o) <= s <= ts_b (to_sub o) /\ to_eval o t = Ok (ts_q (to_sub o) s)) /\
  (forall s, ts_a (to_sub o) <= s <= ts_b (to_sub o) -> exists t, 0 <= t <= to_T o /\ to_eval o t = Ok (ts_q (to_sub o) s)).
Proof.
  intros E Ej H0. destruct C108_time_laws as (out' & E' & _ & F & _). rewrite E in E'.
  assert (out' = out) by congruence. subst out'. clear E'.
  rewrite Forall_forall in F. destruct (F o (nth_error_In _ _ Ej)) as (_ & _ & T). unfold width in T. rewrite H0, Rminus_0_r in T.
  destruct T as [T0 Ts Te To Ti _]. rewrite H0. unfold to_eval. split; [|split; [|split]].
  - rewrite Ts. reflexivity.
  - rewrite Te. reflexivity.
  - intros t Ht. destruct (Ti t Ht) as (s & Es & Bs). exists s. split; [exact Bs|]. rewrite Es. reflexivity.
  - intros s Bs. destruct (To s Bs) as (t & Ht & Es). exists t. split; [exact Ht|]. rewrite Es. reflexivity.
Qed.
End Answer.

(* A path shorter than 1e-6 is returned flattened, without time law. *)
Theorem C108_short {C} solve N (l : list (tsub C)) : total l < short -> toppra solve N l = Ok (TSame l).
Proof. intros H. unfold toppra, rltb. destruct (Rlt_dec (total l) short); [reflexivity|contradiction]. Qed.
(* A failure of the solver is reported. *)
Theorem C108_failure {C} solve N (l : list (tsub C)) g ids :
  short <= total l -> grid N l = Ok (g, ids) -> solve g = None -> toppra solve N l = Throw.
Proof.
  intros H E F. unfold toppra, rltb. destruct (Rlt_dec (total l) short); [lra|]. rewrite E. cbn [bind]. rewrite F. reflexivity.
Qed.

(* ------------------------------------------------------------- refutations *)
(* A sub-path whose parameter range is [a, b] with a <> 0 is evaluated on
   [0, b - a]: the start of the result is not the start of the input. *)
Theorem C108_shifted_range_refuted {C} solve N (l : list (tsub C)) g ids x out j o :
  (0 < N)%Z -> untimed l -> short <= total l -> grid N l = Ok (g, ids) -> answers solve g x ->
  toppra solve N l = Ok (TTimed out) -> nth_error out j = Some o ->
  ts_q (to_sub o) 0 <> ts_q (to_sub o) (ts_a (to_sub o)) ->
  to_eval o 0 = Ok (ts_q (to_sub o) 0) /\ to_eval o 0 <> Ok (ts_q (to_sub o) (ts_a (to_sub o))).
Proof.
  intros HN U Hs Hg Ha E Ej D. destruct (C108_time_laws solve N l g x ids HN U Hs Hg Ha) as (out' & E' & _ & F & _).
  rewrite E in E'. assert (out' = out) by congruence. subst out'.
  rewrite Forall_forall in F. destruct (F o (nth_error_In _ _ Ej)) as (_ & _ & T).
  unfold to_eval. rewrite (to_start _ _ _ T). cbn [bind]. split; [reflexivity|congruence].
Qed.
(* The bound of the velocity of a path of the result is never computed: the
   function calls itself without end. *)
Theorem C108_velocity_bound_refuted fuel vb e T t0 t1 ds : ex_velocity_bound fuel vb e T t0 t1 <> Ok ds.
Proof.
  assert (B : forall f low up, ex_bound f e low up = Fuel) by (induction f; intros; [reflexivity|apply IHf]).
  unfold ex_velocity_bound. rewrite B. destruct (ex_value e (Rmax t0 0)); cbn [bind]; try congruence.
  destruct (ex_value e (Rmin t1 T)); cbn [bind]; congruence.
Qed.
(* With a number of samples that is not positive, the grid is the single point
   0, whatever the path. *)
Theorem C108_no_samples_refuted {C} (l : list (tsub C)) N :
  (N <= 0)%Z -> (0 <= N + Z.of_nat (length l) - 1)%Z -> untimed l -> short <= total l ->
  exists ids, grid N l = Ok ([0], ids) /\ 0 < total l.
Proof.
  intros HN HN' U Hs. assert (0 < short) by (unfold short; lra).
  unfold grid. destruct (Z.ltb_spec (N + Z.of_nat (length l) - 1) 0); [lia|].
  assert (Np : forall len, 0 <= len -> npoints len (dparams (total l) N) = 0%nat).
  { intros len Hlen. unfold dparams, npoints. destruct (Z.eqb_spec N 0); [reflexivity|].
    assert (Hn : IZR N <= -1) by (apply IZR_le; lia).
    assert (Q : len / (total l / IZR N) <= 0).
    { replace (len / (total l / IZR N)) with (len * / total l * IZR N) by (field; lra).
      assert (0 <= len * / total l) by (apply Rmult_le_pos; [exact Hlen|left; apply Rinv_0_lt_compat; lra]). nra. }
    pose proof (ceil_spec (len / (total l / IZR N))) as [_ B].
    assert (ceilZ (len / (total l / IZR N)) < 1)%Z by (apply lt_IZR; lra). lia. }
  revert Np. generalize (dparams (total l) N) as dp. intros dp Np.
  assert (G : forall (l' : list (tsub C)) ids, untimed l' -> exists ids', grid_loop dp l' [0] ids = ([0], ids')).
  { induction l' as [|p l' IH]; intros ids U'; [eexists; reflexivity|]. inversion U' as [|? ? [A _] U2]; subst.
    cbn [grid_loop]. rewrite Np by lra. cbn [subgrid seq map app]. apply IH. exact U2. }
  destruct (G l [0%nat] U) as [ids Ei]. exists ids. rewrite Ei. split; [reflexivity|lra].
Qed.
(* A path that already has a time parameterization: the samples cover the
   parameters, the path is defined on durations. *)
Theorem C108_retimed_refuted : exists (l : list (tsub unit)) N g ids,
  (0 < N)%Z /\ short <= total l /\ grid N l = Ok (g, ids) /\ last g 0 <> total l.
Proof.
  exists [mkTS 0 1 2 (fun _ => tt)], 1%Z. unfold grid. cbn [length].
  destruct (Z.ltb_spec (1 + Z.of_nat 1 - 1) 0); [lia|].
  destruct (grid_loop (dparams (total [mkTS 0 1 2 (fun _ => tt)]) 1) [mkTS 0 1 2 (fun _ => tt)] [0] [0%nat]) as [g ids] eqn:E.
  exists g, ids. cbn [total fold_right ts_dur] in *. split; [lia|]. split; [unfold short; lra|]. split; [reflexivity|].
  unfold dparams in E. cbn [Z.eqb] in E.
  assert (Hd : 0 < (2 + 0) / 1) by lra.
  destruct (grid_loop_spec ((2 + 0) / 1) Hd _ [0] _ g ids ltac:(discriminate) (Forall_cons (P := fun p => 0 <= plen p) (mkTS 0 1 2 (fun _ => tt)) ltac:(unfold plen; cbn; lra) (Forall_nil _)) E)
    as (_ & _ & _ & _ & _ & _ & X & _).
  rewrite X. unfold upto, plen. cbn. lra.
Qed.
(* The documentation of the parameter: 0 is GLPK, 1 is qpOASES. *)
Definition documented (n : Z) : option lpsolver :=
  match n with 0%Z => Some GLPK | 1%Z => Some qpOASES | _ => None end.
Theorem C108_solver_choice_refuted n s : documented n = Some s -> solver_of n <> s.
Proof. destruct n as [|[p|p|]|p]; cbn; congruence. Qed.

(* --------------------------------------------------------------- example *)
Definition ex_l : list (tsub R) := [mkTS 0 1 1 (fun s => s); mkTS 0 1 1 (fun s => 1 + s)].
(* rest at both ends, squared speed 4 in the middle *)
Definition ex_solve (g : list R) : option (list R * list R) := Some (g, 0 :: repeat 4 (length g - 2) ++ [0]).
Lemma ex_untimed : untimed ex_l.
Proof. unfold untimed, ex_l. repeat constructor; cbn; lra. Qed.
Lemma ceil_1 x : x = 1 -> ceilZ x = 1%Z.
Proof.
  intros ->. pose proof (ceil_spec 1) as [A B]. assert (IZR 0 < IZR (ceilZ 1)) by lra. apply lt_IZR in H.
  assert (IZR (ceilZ 1) < IZR 2) by lra. apply lt_IZR in H0. lia.
Qed.
Lemma ex_grid : grid 2 ex_l = Ok ([0; 1; 2], [0; 1; 2]%nat).
Proof.
  unfold grid. cbn [length ex_l]. destruct (Z.ltb_spec (2 + Z.of_nat 2 - 1) 0); [lia|].
  unfold dparams. cbn [Z.eqb].
  assert (T : total ex_l / 2 = 1) by (unfold ex_l, total; cbn; lra).
  fold ex_l. rewrite T. unfold ex_l. cbn [grid_loop ts_a ts_b]. replace (1 - 0) with 1 by ring.
  assert (N : npoints 1 (Some 1) = 1%nat) by (unfold npoints; rewrite (ceil_1 (1 / 1)) by lra; reflexivity).
  rewrite N. unfold subgrid. cbn. repeat f_equal; lra.
Qed.
Example C108_example : grid 2 ex_l = Ok ([0; 1; 2], [0; 1; 2]%nat) /\ answers ex_solve [0; 1; 2] [0; 4; 0] /\
  untimed ex_l /\ short <= total ex_l /\
  exists out, toppra ex_solve 2 ex_l = Ok (TTimed out) /\ fold_right (fun o a => to_T o + a) 0 out = 2.
Proof.
  assert (A : answers ex_solve [0; 1; 2] [0; 4; 0]).
  { split; [reflexivity|]. split; [reflexivity|]. intros [|[|k]] Hk; cbn in *; try lia; [right|left]; lra. }
  assert (S : short <= total ex_l) by (unfold short, ex_l, total; cbn; lra).
  split; [exact ex_grid|]. split; [exact A|]. split; [exact ex_untimed|]. split; [exact S|].
  destruct (C108_time_laws ex_solve 2 ex_l _ _ _ ltac:(lia) ex_untimed S ex_grid A) as (out & E & _ & _ & T).
  exists out. split; [exact E|]. rewrite T. cbn [travel]. unfold pos. rewrite !Rmax_left by lra. rewrite sqrt_0.
  replace (sqrt 4) with 2 by (rewrite <- (sqrt_square 2) by lra; f_equal; lra). field.
Qed.

Print Assumptions C108_grid.
Print Assumptions C108_time_laws.
Print Assumptions C108_speed.
Print Assumptions C108_acceleration.
Print Assumptions C108_speed_continuous.
Print Assumptions C108_geometry_partial.
Print Assumptions C108_short.
Print Assumptions C108_failure.
Print Assumptions C108_shifted_range_refuted.
Print Assumptions C108_velocity_bound_refuted.
Print Assumptions C108_no_samples_refuted.
Print Assumptions C108_retimed_refuted.
Print Assumptions C108_solver_choice_refuted.
