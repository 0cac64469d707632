(* C111: sampling a path, and steering, by interpolated paths. *)
From Coq Require Import Lia Bool.
From Verif Require Import Base QcTac PathModel PathSpec PathProofs PathProofs2 PathProofs7 PathProps ResampleModel ResampleSpec.
Open Scope Qc_scope.

Lemma nq_S n : nq (S n) = nq n + 1.
Proof.
  apply Qc_is_canon. unfold nq, Qcplus, Q2Qc. cbn [this]. rewrite !Qred_correct.
  rewrite Nat2Z.inj_succ. unfold Z.succ. rewrite inject_Z_plus. reflexivity.
Qed.
Lemma nq_0 : nq 0 = 0. Proof. apply Qc_is_canon. reflexivity. Qed.
Lemma nq_nonneg n : 0 <= nq n.
Proof. induction n; [rewrite nq_0; apply Qcle_refl|rewrite nq_S; qc]. Qed.
Lemma nq_lt a b : (a < b)%nat -> nq a + 1 <= nq b.
Proof. induction 1; [rewrite nq_S; apply Qcle_refl|]. rewrite nq_S. qc. Qed.
Lemma nq_pos n : nq (S n) <> 0.
Proof. intros E. pose proof (nq_nonneg n). rewrite nq_S in E. qc. Qed.
Lemma frac_nq k n : Q2Qc (Z.of_nat k # Pos.of_succ_nat n) = nq k / nq (S n).
Proof.
  assert (E : nq (S n) * Q2Qc (Z.of_nat k # Pos.of_succ_nat n) = nq k).
  { apply Qc_is_canon. unfold nq, Qcmult, Q2Qc. cbn [this]. rewrite !Qred_correct.
    unfold Qeq, inject_Z, Qmult. cbn [Qnum Qden]. rewrite Pos.mul_1_l, Zpos_P_of_succ_nat, Nat2Z.inj_succ. lia. }
  rewrite <- E. field. apply nq_pos.
Qed.

Section Resample.
Variable conf : Type.
Variable interp : conf -> conf -> Qc -> conf.
Notation path := (path conf).
Notation eval := (eval conf interp).

Section OnePath.
Variable p : path.
Variable n : nat.
Hypothesis Hlt : start p < stop p.
Notation u := (instant p n).
Let dl := plength p / nq (n + 1).

Lemma dl_pos : 0 < dl.
Proof.
  unfold dl. apply Qcnot_le_lt. intros H.
  assert (E : plength p = plength p / nq (n + 1) * nq (n + 1)).
  { field. rewrite Nat.add_1_r. apply nq_pos. }
  pose proof (nq_nonneg (n + 1)) as N.
  pose proof (Qcmult_le_compat_r _ _ _ H N) as M. rewrite <- E in M. unfold start, stop in Hlt.
  unfold plength, ilen in M. qc.
Qed.
Lemma u_eq k : u k = fst (timeRange p) + dl * nq k.
Proof.
  unfold instant, dl, start, stop, plength, ilen. rewrite frac_nq, Nat.add_1_r. field. apply nq_pos.
Qed.
Lemma u_0 : u 0 = fst (timeRange p).
Proof. rewrite u_eq, nq_0. ring. Qed.
Lemma u_end : u (S n) = snd (timeRange p).
Proof. rewrite u_eq. unfold dl, plength, ilen. rewrite Nat.add_1_r. field. apply nq_pos. Qed.
Lemma u_step k : u (S k) = u k + dl.
Proof. rewrite !u_eq, nq_S. ring. Qed.
Lemma u_lt i j : (i < j)%nat -> u i < u j.
Proof. pose proof dl_pos as D. induction 1; rewrite u_step; qc. Qed.
Lemma u_le i j : (i <= j)%nat -> u i <= u j.
Proof. intros H. destruct (Nat.eq_dec i j) as [->|]; [apply Qcle_refl|]. apply Qclt_le_weak, u_lt. lia. Qed.
Lemma u_neq i j : i <> j -> u i <> u j.
Proof.
  intros H E. destruct (Nat.lt_trichotomy i j) as [L|[L|L]]; [|contradiction|]; apply u_lt in L; rewrite E in L; qc.
Qed.
Lemma u_find t : start p <= t -> t <= stop p -> exists k, (k <= n)%nat /\ u k <= t /\ t <= u (S k).
Proof.
  intros H1 H2. assert (G : forall m, t <= u (S m) -> exists k, (k <= m)%nat /\ u k <= t /\ t <= u (S k)).
  { induction m; intros H.
    - exists 0%nat. split; [lia|]. split; [rewrite u_0; exact H1|exact H].
    - destruct (Qclt_le_dec t (u (S m))) as [L|L].
      + destruct IHm as (k & K & Hk); [apply Qclt_le_weak; exact L|]. exists k. split; [lia|exact Hk].
      + exists (S m). split; [lia|]. split; assumption. }
  apply G. rewrite u_end. exact H2.
Qed.

(* the samples, as insertions *)
Definition val q0 k : conf := match eval p (u k) with Ok (Some q) => q | _ => q0 end.
Definition ins q0 : list (Qc * conf) := map (fun k => (u k, val q0 k)) (seq 1 n).

Lemma loop_ins q0 : forall todo k ks ks', sample_loop conf interp p (fst (timeRange p)) dl k todo ks = Ok ks' ->
  (forall j, (k < j <= k + todo)%nat -> eval p (u j) = Ok (Some (val q0 j))) /\
  ks' = fold_left (fun acc x => kinsert (fst x) (snd x) acc) (map (fun k => (u k, val q0 k)) (seq (S k) todo)) ks.
Proof.
  induction todo as [|m IH]; intros k ks ks' H; cbn [sample_loop] in H; cbv zeta in H.
  - injection H as <-. split; [lia|reflexivity].
  - rewrite Nat.add_1_r, <- u_eq in H. destruct (eval p (u (S k))) as [[q|]| | |] eqn:E; cbn in H; try discriminate.
    destruct (IH _ _ _ H) as (A & B).
    assert (V : val q0 (S k) = q) by (unfold val; rewrite E; reflexivity).
    split.
    + intros j Hj. destruct (Nat.eq_dec j (S k)) as [->|]; [rewrite V; exact E|]. apply A. lia.
    + rewrite B. cbn [seq map fold_left fst snd]. rewrite V. reflexivity.
Qed.
Lemma inserted_fold (h : hdr conf) (ks l : list (Qc * conf)) :
  inserted l (Interp h ks) = Interp h (fold_left (fun acc x => kinsert (fst x) (snd x) acc) l ks).
Proof. revert ks. induction l as [|a l IH]; intros ks; [reflexivity|]. cbn [inserted fold_left path_insert]. apply IH. Qed.

(* the sampled path is built by insertions *)
Lemma resample_inv r : resample interp p n = Ok r -> exists q0 q1 p0 ks,
  initial conf interp p = Ok (Some q0) /\ end_ conf interp p = Ok (Some q1) /\
  (forall j, (1 <= j <= n)%nat -> eval p (u j) = Ok (Some (val q0 j))) /\
  interp_create q0 q1 (timeRange p) None = Ok p0 /\
  inserted (ins q0) p0 = Interp (mk_hdr (timeRange p) None) ks /\
  r = Interp (mk_hdr (timeRange p) (cs (hd_of p))) ks.
Proof.
  unfold resample. cbv zeta. intros H.
  destruct (initial conf interp p) as [[q0|]| | |]; cbn [end_or_ub bind] in H; try discriminate.
  destruct (end_ conf interp p) as [[q1|]| | |]; cbn [end_or_ub bind] in H; try discriminate.
  fold dl in H.
  destruct (sample_loop conf interp p (fst (timeRange p)) dl 0 n (kinsert (snd (timeRange p)) q1 (kinsert (fst (timeRange p)) q0 [])))
    as [ks| | |] eqn:E; cbn [bind] in H; try discriminate.
  destruct (loop_ins q0 _ _ _ _ E) as (A & B).
  destruct (C23_create_total conf q0 q1 (timeRange p)) as (p0 & P0); [apply Qclt_le_weak; exact Hlt|].
  exists q0, q1, p0, ks. split; [reflexivity|]. split; [reflexivity|].
  split; [intros j Hj; apply A; lia|]. split; [exact P0|]. split.
  - unfold interp_create in P0.
    clear E. revert P0 B. generalize (kinsert (snd (timeRange p)) q1 (kinsert (fst (timeRange p)) q0 [])). intros l P0 B.
    destruct l as [|x l]; [discriminate|]. cbn [check_ends mk_hdr cs] in P0.
    destruct (klast (x :: l)); [|discriminate]. injection P0 as <-.
    rewrite inserted_fold, B. reflexivity.
  - clear - H. destruct ks as [|k0 kr]; [discriminate H|]. destruct (klast (k0 :: kr)); [|discriminate H].
    destruct (check_ends _ _ _); [|discriminate H]. injection H as <-. reflexivity.
Qed.

Definition value q0 q1 k : conf := if (k =? 0)%nat then q0 else if (k =? S n)%nat then q1 else val q0 k.

Lemma way q0 q1 k : (k <= S n)%nat -> waypoint (given q0 q1 (timeRange p) (ins q0)) (u k, value q0 q1 k).
Proof.
  intros Hk. unfold given, value.
  destruct (Nat.eqb_spec k 0) as [->|K0].
  { exists [], ((snd (timeRange p), q1) :: ins q0). rewrite u_0. split; [reflexivity|constructor]. }
  destruct (Nat.eqb_spec k (S n)) as [->|K1].
  { exists [(fst (timeRange p), q0)], (ins q0). rewrite u_end. split; [reflexivity|].
    constructor; [|constructor]. cbn [fst]. rewrite <- u_0, <- u_end. apply u_neq. lia. }
  assert (E : seq 1 n = seq 1 (k - 1) ++ k :: seq (S k) (n - k)).
  { replace n with ((k - 1) + S (n - k))%nat at 1 by lia. rewrite seq_app. f_equal. cbn [seq].
    replace (1 + (k - 1))%nat with k by lia. reflexivity. }
  exists ((fst (timeRange p), q0) :: (snd (timeRange p), q1) :: map (fun k => (u k, val q0 k)) (seq 1 (k - 1))),
    (map (fun k => (u k, val q0 k)) (seq (S k) (n - k))).
  split; [unfold ins; rewrite E, map_app; reflexivity|].
  constructor; [cbn [fst]; rewrite <- u_0; apply u_neq; lia|].
  constructor; [cbn [fst]; rewrite <- u_end; apply u_neq; lia|].
  apply Forall_forall. intros x Hx. apply in_map_iff in Hx. destruct Hx as (j & <- & Hj). apply in_seq in Hj.
  cbn [fst]. apply u_neq. lia.
Qed.
Lemma way_inv q0 q1 w : waypoint (given q0 q1 (timeRange p) (ins q0)) w -> exists k, (k <= S n)%nat /\ fst w = u k.
Proof.
  intros H. apply waypoint_In in H. destruct H as [<-|[<-|H]].
  - exists 0%nat. split; [lia|]. symmetry. apply u_0.
  - exists (S n). split; [lia|]. symmetry. apply u_end.
  - apply in_map_iff in H. destruct H as (j & <- & Hj). apply in_seq in Hj. exists j. split; [lia|reflexivity].
Qed.
Lemma consec q0 q1 k : (k <= n)%nat ->
  consecutive (given q0 q1 (timeRange p) (ins q0)) (u k, value q0 q1 k) (u (S k), value q0 q1 (S k)).
Proof.
  intros Hk. split; [apply way; lia|]. split; [apply way; lia|]. split; [apply u_lt; lia|].
  intros w Hw. apply way_inv in Hw. destruct Hw as (j & Hj & E). rewrite E. cbn [fst].
  destruct (Nat.le_gt_cases j k); [left|right]; apply u_le; lia.
Qed.
Lemma through_value q0 q1 : initial conf interp p = Ok (Some q0) -> end_ conf interp p = Ok (Some q1) ->
  (forall j, (1 <= j <= n)%nat -> eval p (u j) = Ok (Some (val q0 j))) ->
  forall k, (k <= S n)%nat -> through conf interp p n k = Ok (Some (value q0 q1 k)).
Proof.
  intros H0 H1 A k Hk. unfold through, value. destruct (Nat.eqb_spec k 0); [exact H0|].
  destruct (Nat.eqb_spec k (S n)); [exact H1|]. apply A. lia.
Qed.
Lemma eval_cons I c ks t : eval (Interp (mk_hdr I c) ks) t =
  apply_cs (mk_hdr I c) t (eval (Interp (mk_hdr I None) ks) t).
Proof.
  unfold PathModel.eval, config_at.
  change (param_at (hd_of (Interp (mk_hdr I c) ks)) t) with t. change (param_at (hd_of (Interp (mk_hdr I None) ks)) t) with t.
  change (compute conf interp (Interp (mk_hdr I c) ks) t) with (compute conf interp (Interp (mk_hdr I None) ks) t).
  destruct (compute conf interp (Interp (mk_hdr I None) ks) t) as [[q|]| | |]; reflexivity.
Qed.

(* the first and last knots are the ends *)
Lemma loop_ends q0 q1 ks : geodesic interp ->
  sample_loop conf interp p (fst (timeRange p)) dl 0 n (kinsert (snd (timeRange p)) q1 (kinsert (fst (timeRange p)) q0 [])) = Ok ks ->
  exists k0 l kl, ks = k0 :: l /\ klast ks = Some kl /\ snd k0 = q0 /\ snd kl = q1.
Proof.
  intros Hg E. destruct (loop_ins q0 _ _ _ _ E) as (_ & B).
  destruct (C23_create_total conf q0 q1 (timeRange p)) as (p0 & P0); [apply Qclt_le_weak; exact Hlt|].
  assert (Hi : Forall (fun k => fst (timeRange p) <= fst k /\ fst k <= snd (timeRange p)) (ins q0)).
  { apply Forall_forall. intros x Hx. apply in_map_iff in Hx. destruct Hx as (j & <- & Hj). apply in_seq in Hj.
    cbn [fst]. rewrite <- u_0, <- u_end. split; apply u_le; lia. }
  destruct (C23_waypoints conf interp q0 q1 (timeRange p) (ins q0) p0 Hg (Qclt_le_weak _ _ Hlt) Hi P0)
    as (_ & _ & _ & _ & C & D). specialize (D Hlt).
  assert (K : inserted (ins q0) p0 = Interp (mk_hdr (timeRange p) None) ks).
  { unfold interp_create in P0.
    clear E C D. revert P0 B. generalize (kinsert (snd (timeRange p)) q1 (kinsert (fst (timeRange p)) q0 [])). intros l P0 B.
    destruct l as [|x l]; [discriminate|]. cbn [check_ends mk_hdr cs] in P0.
    destruct (klast (x :: l)); [|discriminate]. injection P0 as <-.
    rewrite inserted_fold, B. reflexivity. }
  rewrite K in C, D. cbn [initial end_] in C, D. destruct ks as [|k0 l]; [discriminate|].
  destruct (klast (k0 :: l)) as [kl|]; [|discriminate]. exists k0, l, kl. injection C as C. injection D as D. auto.
Qed.

(* all in one *)
Lemma sampled r : geodesic interp -> resample interp p n = Ok r ->
  timeRange r = timeRange p /\ initial conf interp r = initial conf interp p /\ end_ conf interp r = end_ conf interp p /\
  forall k t, (k <= n)%nat -> u k <= t -> t <= u (S k) -> exists a b,
    through conf interp p n k = Ok (Some a) /\ through conf interp p n (S k) = Ok (Some b) /\
    eval r t = apply_cs (mk_hdr (timeRange p) (cs (hd_of p))) t (Ok (Some (interp a b ((t - u k) / (u (S k) - u k))))).
Proof.
  intros Hg H. destruct (resample_inv r H) as (q0 & q1 & p0 & ks & H0 & H1 & A & P0 & K & ->).
  assert (Hi : Forall (fun k => fst (timeRange p) <= fst k /\ fst k <= snd (timeRange p)) (ins q0)).
  { apply Forall_forall. intros x Hx. apply in_map_iff in Hx. destruct Hx as (j & <- & Hj). apply in_seq in Hj.
    cbn [fst]. rewrite <- u_0, <- u_end. split; apply u_le; lia. }
  destruct (C23_waypoints conf interp q0 q1 (timeRange p) (ins q0) p0 Hg (Qclt_le_weak _ _ Hlt) Hi P0)
    as (_ & _ & C & _ & D & E). rewrite K in *.
  split; [reflexivity|]. split; [rewrite H0; exact D|]. split; [rewrite H1; exact (E Hlt)|].
  intros k t Hk T1 T2. exists (value q0 q1 k), (value q0 q1 (S k)).
  split; [apply through_value; auto; lia|]. split; [apply through_value; auto; lia|].
  rewrite eval_cons. f_equal. exact (C _ _ t (consec q0 q1 k Hk) T1 T2).
Qed.
End OnePath.

(* The sampled path has the range and the ends of the path, goes through its
   configuration at each sample, and is interpolated in between. *)
Theorem C111_sampled p n r : geodesic interp -> start p < stop p -> cs (hd_of p) = None ->
  resample interp p n = Ok r ->
  timeRange r = timeRange p /\ initial conf interp r = initial conf interp p /\ end_ conf interp r = end_ conf interp p /\
  (forall k, (1 <= k <= n)%nat -> eval r (instant p n k) = eval p (instant p n k)) /\
  forall k t, (k <= n)%nat -> instant p n k <= t -> t <= instant p n (S k) -> exists a b,
    through conf interp p n k = Ok (Some a) /\ through conf interp p n (S k) = Ok (Some b) /\
    eval r t = Ok (Some (interp a b ((t - instant p n k) / (instant p n (S k) - instant p n k)))).
Proof.
  intros Hg Hlt Hc H. destruct (sampled p n Hlt r Hg H) as (A & B & C & D).
  assert (D' : forall k t, (k <= n)%nat -> instant p n k <= t -> t <= instant p n (S k) -> exists a b,
    through conf interp p n k = Ok (Some a) /\ through conf interp p n (S k) = Ok (Some b) /\
    eval r t = Ok (Some (interp a b ((t - instant p n k) / (instant p n (S k) - instant p n k))))).
  { intros k t Hk T1 T2. destruct (D k t Hk T1 T2) as (a & b & E1 & E2 & E3). exists a, b.
    rewrite Hc in E3. split; [exact E1|]. split; [exact E2|]. exact E3. }
  split; [exact A|]. split; [exact B|]. split; [exact C|]. split; [|exact D'].
  intros k Hk. destruct (D' k (instant p n k)) as (a & b & E1 & _ & E3); [lia|apply Qcle_refl|apply (u_le p n Hlt); lia|].
  rewrite E3. unfold through in E1.
  destruct (Nat.eqb_spec k 0); [lia|]. destruct (Nat.eqb_spec k (S n)); [lia|].
  rewrite E1. replace ((instant p n k - instant p n k) / (instant p n (S k) - instant p n k)) with 0;
    [rewrite (proj1 Hg); reflexivity|].
  unfold Qcdiv. ring.
Qed.

(* Under constraints each configuration of the sampled path is projected, and
   the samples are kept when the path has no time parameterization. *)
Theorem C111_sampled_constrained p n r c : geodesic interp -> start p < stop p -> cs (hd_of p) = Some c -> idempotent c ->
  resample interp p n = Ok r ->
  timeRange r = timeRange p /\ initial conf interp r = initial conf interp p /\ end_ conf interp r = end_ conf interp p /\
  cs (hd_of r) = Some c /\
  (tp (hd_of p) = None -> forall k, (1 <= k <= n)%nat -> eval r (instant p n k) = eval p (instant p n k)) /\
  forall k t, (k <= n)%nat -> instant p n k <= t -> t <= instant p n (S k) -> exists a b,
    through conf interp p n k = Ok (Some a) /\ through conf interp p n (S k) = Ok (Some b) /\
    eval r t = Ok (c_apply c t (interp a b ((t - instant p n k) / (instant p n (S k) - instant p n k)))).
Proof.
  intros Hg Hlt Hc Hi H. destruct (sampled p n Hlt r Hg H) as (A & B & C & D).
  assert (D' : forall k t, (k <= n)%nat -> instant p n k <= t -> t <= instant p n (S k) -> exists a b,
    through conf interp p n k = Ok (Some a) /\ through conf interp p n (S k) = Ok (Some b) /\
    eval r t = Ok (c_apply c t (interp a b ((t - instant p n k) / (instant p n (S k) - instant p n k))))).
  { intros k t Hk T1 T2. destruct (D k t Hk T1 T2) as (a & b & E1 & E2 & E3). exists a, b.
    rewrite Hc in E3. split; [exact E1|]. split; [exact E2|]. exact E3. }
  split; [exact A|]. split; [exact B|]. split; [exact C|].
  split; [destruct (resample_inv p n Hlt r H) as (q0 & q1 & p0 & ks & _ & _ & _ & _ & _ & ->); exact Hc|]. split; [|exact D'].
  intros Ht k Hk. destruct (D' k (instant p n k)) as (a & b & E1 & _ & E3); [lia|apply Qcle_refl|apply (u_le p n Hlt); lia|].
  rewrite E3. unfold through in E1.
  destruct (Nat.eqb_spec k 0); [lia|]. destruct (Nat.eqb_spec k (S n)); [lia|].
  rewrite E1. replace ((instant p n k - instant p n k) / (instant p n (S k) - instant p n k)) with 0
    by (unfold Qcdiv; ring). rewrite (proj1 Hg). f_equal.
  unfold PathModel.eval, config_at, param_at, apply_cs in E1. rewrite Ht, Hc in E1.
  destruct (compute conf interp p (instant p n k)) as [[q|]| | |]; try discriminate.
  injection E1 as E1. exact (Hi _ _ _ E1).
Qed.

(* Sampling answers as soon as the path can be evaluated at each sample and its
   ends satisfy its constraints, and throws otherwise. *)
Lemma loop_total p n (Hlt : start p < stop p) : forall todo k ks, (k + todo = n)%nat ->
  (forall j, (k < j <= n)%nat -> exists o, eval p (instant p n j) = Ok o) ->
  ((forall j, (k < j <= n)%nat -> exists q, eval p (instant p n j) = Ok (Some q)) /\ ks <> [] /\
    exists ks', sample_loop conf interp p (fst (timeRange p)) (plength p / nq (n + 1)) k todo ks = Ok ks' /\ ks' <> []) \/
  (exists j, (k < j <= n)%nat /\ eval p (instant p n j) = Ok None) /\
    sample_loop conf interp p (fst (timeRange p)) (plength p / nq (n + 1)) k todo ks = Throw \/ ks = [].
Proof.
  induction todo as [|m IH]; intros k ks Hk Ho; cbn [sample_loop]; cbv zeta.
  - destruct ks as [|x l]; [right; right; reflexivity|]. left. split; [lia|]. split; [discriminate|].
    eexists. split; [reflexivity|discriminate].
  - destruct ks as [|x l]; [right; right; reflexivity|]. rewrite Nat.add_1_r with (n := k), <- (u_eq p n).
    destruct (Ho (S k)) as ([q|] & E); [lia| |].
    + rewrite E. cbn [config_or_throw bind].
      destruct (IH (S k) (kinsert (instant p n (S k)) q (x :: l))) as [(A & _ & ks' & B & N)|[((j & Hj & A) & B)|B]].
      * lia.
      * intros j Hj. apply Ho. lia.
      * left. split; [|split; [discriminate|exists ks'; split; assumption]].
        intros j Hj. destruct (Nat.eq_dec j (S k)) as [->|]; [exists q; exact E|]. apply A. lia.
      * right. left. split; [exists j; split; [lia|exact A]|exact B].
      * exfalso. cbn [kinsert] in B. destruct x. destruct (qltb _ _); [discriminate|]. destruct (qeqb _ _); discriminate.
    + right. left. split; [exists (S k); split; [lia|exact E]|]. rewrite E. reflexivity.
Qed.
Lemma first_knots (I : itv) (q0 q1 : conf) : kinsert (snd I) q1 (kinsert (fst I) q0 []) <> [].
Proof. cbn [kinsert]. destruct (qltb _ _); [discriminate|]. destruct (qeqb _ _); discriminate. Qed.
Lemma klast_some (ks : list (Qc * conf)) : ks <> [] -> exists k, klast ks = Some k.
Proof.
  intros H. unfold klast. destruct (rev ks) as [|a l] eqn:E; [|eauto].
  apply (f_equal (@rev _)) in E. rewrite rev_involutive in E. contradiction.
Qed.
Theorem C111_sampled_defined p n q0 q1 : geodesic interp -> start p < stop p ->
  initial conf interp p = Ok (Some q0) -> end_ conf interp p = Ok (Some q1) ->
  (forall t, start p <= t -> t <= stop p -> exists o, eval p t = Ok o) ->
  ((forall k, (1 <= k <= n)%nat -> exists q, eval p (instant p n k) = Ok (Some q)) ->
   (forall c, cs (hd_of p) = Some c -> c_sat c (start p) q0 = true /\ c_sat c (stop p) q1 = true) ->
   exists r, resample interp p n = Ok r) /\
  ((exists k, (1 <= k <= n)%nat /\ eval p (instant p n k) = Ok None) \/
   (exists c, cs (hd_of p) = Some c /\ (c_sat c (start p) q0 = false \/ c_sat c (stop p) q1 = false)) ->
   resample interp p n = Throw).
Proof.
  intros Hg Hlt H0 H1 Ho.
  assert (Hu : forall j, (0 < j <= n)%nat -> exists o, eval p (instant p n j) = Ok o).
  { intros j Hj. apply Ho.
    - unfold start. rewrite <- (u_0 p n). apply (u_le p n Hlt). lia.
    - unfold stop. rewrite <- (u_end p n). apply (u_le p n Hlt). lia. }
  destruct (loop_total p n Hlt n 0 (kinsert (snd (timeRange p)) q1 (kinsert (fst (timeRange p)) q0 [])) eq_refl Hu)
    as [(A & _ & ks & B & N)|[((j & Hj & A) & B)|B]].
  - unfold resample. cbv zeta. rewrite H0, H1. cbn [end_or_ub bind]. rewrite B. cbn [bind].
    destruct (loop_ends p n Hlt q0 q1 ks Hg B) as (k0 & l & kl & -> & Kl & E0 & E1). rewrite Kl, E0, E1.
    unfold check_ends. cbn [cs mk_hdr pr]. split.
    + intros _ Hc. destruct (cs (hd_of p)) as [c|]; [|eauto]. destruct (Hc c eq_refl) as (C0 & C1).
      unfold start, stop in C0, C1. rewrite C0, C1. cbn [andb]. eauto.
    + intros [(k & Hk & E)|(c & -> & C)]; [destruct (A k) as (q & E'); [lia|]; congruence|].
      unfold start, stop in C. destruct C as [-> | ->]; [reflexivity|]. rewrite andb_false_r. reflexivity.
  - unfold resample. cbv zeta. rewrite H0, H1. cbn [end_or_ub bind]. rewrite B. split; [|reflexivity].
    intros Q. destruct (Q j) as (q & E); [lia|]. congruence.
  - exfalso. exact (first_knots _ _ _ B).
Qed.

(* A path of length 0: the sampled path stays at its initial configuration. *)
Lemma loop_point p q0 t0 : forall todo k ks',
  sample_loop conf interp p t0 0 k todo [(t0, q0)] = Ok ks' -> ks' = [(t0, q0)].
Proof.
  induction todo as [|m IH]; intros k ks' H; cbn [sample_loop] in H; cbv zeta in H; [injection H as <-; reflexivity|].
  rewrite Qcmult_0_l, Qcplus_0_r in H. destruct (eval p t0) as [[q|]| | |]; cbn [config_or_throw bind] in H; try discriminate.
  cbn [kinsert] in H. qcaselt t0 t0; [exfalso; qc|]. qcaseeq t0 t0; [|contradiction]. exact (IH _ _ H).
Qed.
Theorem C111_sampled_point p n r : start p = stop p -> cs (hd_of p) = None -> resample interp p n = Ok r ->
  timeRange r = timeRange p /\ initial conf interp r = initial conf interp p /\ end_ conf interp r = initial conf interp p /\
  forall t, eval r t = initial conf interp p.
Proof.
  intros He Hc H. unfold resample in H. cbv zeta in H. rewrite Hc in H. unfold start, stop in He.
  destruct (initial conf interp p) as [[q0|]| | |]; cbn [end_or_ub bind] in H; try discriminate.
  destruct (end_ conf interp p) as [[q1|]| | |]; cbn [end_or_ub bind] in H; try discriminate.
  assert (L : plength p / nq (n + 1) = 0).
  { unfold plength, ilen. rewrite He. unfold Qcdiv. ring. }
  rewrite L in H.
  assert (K : kinsert (snd (timeRange p)) q1 (kinsert (fst (timeRange p)) q0 []) = [(fst (timeRange p), q0)]).
  { cbn [kinsert]. rewrite He. qcaselt (snd (timeRange p)) (snd (timeRange p)); [exfalso; qc|].
    qcaseeq (snd (timeRange p)) (snd (timeRange p)); [reflexivity|contradiction]. }
  rewrite K in H.
  destruct (sample_loop conf interp p (fst (timeRange p)) 0 0 n [(fst (timeRange p), q0)]) as [ks| | |] eqn:E; cbn [bind] in H; try discriminate.
  apply loop_point in E. subst ks. cbn [klast rev app check_ends mk_hdr cs snd] in H. injection H as <-.
  split; [reflexivity|]. split; [reflexivity|]. split; [reflexivity|].
  intros t. unfold PathModel.eval, config_at. cbn [hd_of param_at tp compute interp_compute mk_hdr pr]. unfold interp_compute. cbn [pr].
  replace (qeqb (ilen (timeRange p)) 0) with true; [rewrite orb_true_r; reflexivity|].
  symmetry. unfold ilen. rewrite He. qcaseeq (snd (timeRange p) - snd (timeRange p)) 0; [reflexivity|].
  exfalso. apply Hc0. ring.
Qed.

(* The sampled path stays close to a path of bounded velocity: the more
   samples, the closer. *)
Theorem C111_sampled_close p n r d L : geodesic interp -> metric conf interp d -> 0 <= L -> start p < stop p ->
  cs (hd_of p) = None -> slow conf interp d L p ->
  initial conf interp p = eval p (start p) -> end_ conf interp p = eval p (stop p) ->
  resample interp p n = Ok r -> forall t q, start p <= t -> t <= stop p -> eval p t = Ok (Some q) ->
  exists q', eval r t = Ok (Some q') /\ d q' q <= L * ((stop p - start p) * Q2Qc (1 # Pos.of_succ_nat n)).
Proof.
  intros Hg (Ds & Dt & Di) HL Hlt Hc Hs H0 H1 H t q T1 T2 Eq.
  destruct (C111_sampled p n r Hg Hlt Hc H) as (_ & _ & _ & _ & D).
  destruct (u_find p n t T1 T2) as (k & Hk & K1 & K2).
  destruct (D k t Hk K1 K2) as (a & b & Ea & Eb & Er).
  eexists. split; [exact Er|].
  assert (W : forall j v, (j <= S n)%nat -> through conf interp p n j = Ok (Some v) -> eval p (instant p n j) = Ok (Some v)).
  { intros j v Hj E. unfold through in E. destruct (Nat.eqb_spec j 0) as [->|].
    - rewrite (u_0 p n). rewrite H0 in E. exact E.
    - destruct (Nat.eqb_spec j (S n)) as [->|]; [|exact E]. rewrite (u_end p n). rewrite H1 in E. exact E. }
  apply W in Ea; [|lia]. apply W in Eb; [|lia].
  assert (S1 : start p <= instant p n k) by (unfold start; rewrite <- (u_0 p n); apply (u_le p n Hlt); lia).
  assert (S2 : instant p n (S k) <= stop p) by (unfold stop; rewrite <- (u_end p n); apply (u_le p n Hlt); lia).
  set (dl := (stop p - start p) * Q2Qc (1 # Pos.of_succ_nat n)).
  assert (St : instant p n (S k) = instant p n k + dl).
  { rewrite (u_step p n). f_equal. unfold dl, plength, ilen, start, stop.
    change 1%Z with (Z.of_nat 1). rewrite frac_nq, nq_S, nq_0, Nat.add_1_r. field. apply nq_pos. }
  assert (P : 0 < dl) by (pose proof (u_lt p n Hlt k (S k) (Nat.lt_succ_diag_r k)); rewrite St in *; qc).
  rewrite St. replace (instant p n k + dl - instant p n k) with dl by ring.
  set (x := (t - instant p n k) / dl).
  assert (N : dl <> 0) by (intros E; rewrite E in P; qc).
  assert (X : x * dl = t - instant p n k) by (unfold x; field; exact N).
  assert (X0 : 0 <= x).
  { apply Qcnot_lt_le. intros B. pose proof (Qcmult_lt_compat_r _ _ _ P B) as M. rewrite X in M. qc. }
  assert (X1 : x <= 1).
  { apply Qcnot_lt_le. intros B. pose proof (Qcmult_lt_compat_r _ _ _ P B) as M. rewrite X in M. rewrite St in K2. qc. }
  destruct (Di a b x X0 X1) as (Dl & Dr).
  assert (Hab : d a b <= L * dl).
  { replace dl with (instant p n (S k) - instant p n k) by (rewrite St; ring).
    apply (Hs _ _ _ _ S1 (Qcle_trans _ _ _ K1 K2) S2 Ea Eb). }
  assert (Ha : d a q <= L * (t - instant p n k)) by (apply (Hs _ _ _ _ S1 K1 T2 Ea Eq)).
  assert (Hb : d q b <= L * (instant p n (S k) - t)) by (apply (Hs _ _ _ _ T1 K2 S2 Eq Eb)).
  rewrite St in Hb. set (v := interp a b x) in *.
  assert (L1 : d v q <= (x + x) * (L * dl)).
  { pose proof (Dt v a q) as T. rewrite (Ds v a) in T. rewrite <- X in Ha.
    assert (M : x * d a b <= x * (L * dl)).
    { rewrite !(Qcmult_comm x). apply Qcmult_le_compat_r; assumption. }
    replace ((x + x) * (L * dl)) with (x * (L * dl) + L * (x * dl)) by ring.
    eapply Qcle_trans; [exact T|]. apply Qcplus_le_compat; [|exact Ha]. eapply Qcle_trans; eassumption. }
  assert (L2 : d v q <= ((1 - x) + (1 - x)) * (L * dl)).
  { pose proof (Dt v b q) as T. rewrite (Ds b q) in T.
    replace (instant p n k + dl - t) with ((1 - x) * dl) in Hb
      by (replace ((1 - x) * dl) with (dl - x * dl) by ring; rewrite X; ring).
    assert (M : (1 - x) * d a b <= (1 - x) * (L * dl)).
    { rewrite !(Qcmult_comm (1 - x)). apply Qcmult_le_compat_r; [assumption|]. qc. }
    replace ((1 - x + (1 - x)) * (L * dl)) with ((1 - x) * (L * dl) + L * ((1 - x) * dl)) by ring.
    eapply Qcle_trans; [exact T|]. apply Qcplus_le_compat; [|exact Hb]. eapply Qcle_trans; eassumption. }
  assert (Z0 : 0 <= L * dl) by (rewrite <- (Qcmult_0_l dl); apply Qcmult_le_compat_r; [exact HL|apply Qclt_le_weak; exact P]).
  destruct (Qclt_le_dec (x + x) 1) as [Q|Q].
  - eapply Qcle_trans; [exact L1|]. rewrite <- (Qcmult_1_l (L * dl)) at 2. apply Qcmult_le_compat_r; [apply Qclt_le_weak; exact Q|exact Z0].
  - eapply Qcle_trans; [exact L2|]. rewrite <- (Qcmult_1_l (L * dl)) at 2. apply Qcmult_le_compat_r; [qc|exact Z0].
Qed.

(* The interpolated steering method: a path from q1 to q2 whose length is their
   distance, under the constraints; none if an end does not satisfy them. *)
Theorem C111_steer dist c q1 q2 : geodesic interp -> 0 < dist q1 q2 -> exists o,
  interpolated_steer dist c q1 q2 = Ok o /\
  (o = None <-> exists x, c = Some x /\ (c_sat x 0 q1 = false \/ c_sat x (dist q1 q2) q2 = false)) /\
  forall p, o = Some p -> timeRange p = (0, dist q1 q2) /\ cs (hd_of p) = c /\
    initial conf interp p = Ok (Some q1) /\ end_ conf interp p = Ok (Some q2) /\
    forall t, 0 <= t -> t <= dist q1 q2 ->
      eval p t = match c with
                 | None => Ok (Some (interp q1 q2 (t / dist q1 q2)))
                 | Some x => Ok (c_apply x t (interp q1 q2 (t / dist q1 q2)))
                 end.
Proof.
  intros Hg Hd. unfold interpolated_steer, interpolated_compute, interp_create. cbv zeta. set (l := dist q1 q2) in *.
  assert (K : kinsert l q2 (kinsert 0 q1 []) = [(0, q1); (l, q2)]).
  { cbn [kinsert]. qcaselt l 0; [exfalso; qc|]. qcaseeq l 0; [exfalso; rewrite Hc0 in Hd; qc|]. reflexivity. }
  cbn [fst snd]. rewrite K. cbn [klast rev app snd].
  exists (if check_ends (mk_hdr (0, l) c) q1 q2 then Some (Interp (mk_hdr (0, l) c) [(0, q1); (l, q2)]) else None).
  split; [destruct (check_ends _ _ _); reflexivity|]. split.
  - unfold check_ends. cbn [cs mk_hdr pr fst snd]. destruct c as [x|].
    + destruct (c_sat x 0 q1) eqn:E1, (c_sat x l q2) eqn:E2; cbn [andb]; split; intros B; try discriminate; try reflexivity;
        try (exists x; split; [reflexivity|]; auto; fail).
      destruct B as (y & Y & [B|B]); injection Y as <-; congruence.
    + split; [discriminate|]. intros (y & Y & _). discriminate.
  - intros p E. destruct (check_ends _ _ _); [|discriminate]. injection E as <-.
    split; [reflexivity|]. split; [reflexivity|]. split; [reflexivity|]. split; [reflexivity|].
    intros t T1 T2. rewrite eval_cons.
    assert (V : eval (Interp (mk_hdr (0, l) None) [(0, q1); (l, q2)]) t = Ok (Some (interp q1 q2 (t / l)))).
    { destruct (C23_create_total conf q1 q2 (0, l)) as (p0 & P0); [apply Qclt_le_weak; exact Hd|].
      destruct (C23_waypoints conf interp q1 q2 (0, l) [] p0 Hg (Qclt_le_weak _ _ Hd) (Forall_nil _) P0) as (_ & _ & C & _).
      unfold interp_create in P0. cbn [fst snd] in P0. rewrite K in P0. cbn in P0. injection P0 as <-.
      cbn [inserted fold_left] in C. rewrite (C (0, q1) (l, q2) t); [|
        | exact T1 | exact T2].
      - cbn [fst snd]. do 3 f_equal. unfold Qcdiv. replace (l - 0) with l by ring. replace (t - 0) with t by ring. reflexivity.
      - split; [exists [], [(l, q2)]; split; [reflexivity|constructor]|].
        split; [exists [(0, q1)], []; split; [reflexivity|repeat constructor]|].
        + cbn [fst]. intros E. rewrite <- E in Hd. qc.
        + split; [exact Hd|]. intros w Hw. apply waypoint_In in Hw. destruct Hw as [<-|[<-|[]]]; cbn [fst]; [left|right]; apply Qcle_refl. }
    rewrite V. destruct c; reflexivity.
Qed.
End Resample.

(* The hypotheses are met: a parabola sampled at one time, and its distance. *)
Definition parabola : path Qc := Gen (mk_hdr (qn 0, qn 2) None) (fun t => Some (t * t)).
Example C111_ex : exists r, resample lerp parabola 1 = Ok r /\
  start parabola < stop parabola /\ instant parabola 1 1 = qn 1 /\
  eval Qc lerp r (qn 1) = Ok (Some (qn 1)) /\ eval Qc lerp r (Q2Qc (3 # 2)) = Ok (Some (Q2Qc (5 # 2))) /\
  end_ Qc lerp r = Ok (Some (qn 4)) /\ resample lerp parabola 0 <> Ok r.
Proof.
  eexists. split; [vm_compute; reflexivity|]. split; [reflexivity|]. split; [apply Qc_is_canon; reflexivity|].
  split; [by_show|]. split; [by_show|]. split; [by_show|]. vm_compute. discriminate.
Qed.
Definition qdist (a b : Qc) : Qc := if qleb a b then b - a else a - b.
Ltac qd := unfold qdist in *; repeat match goal with |- context [qleb ?a ?b] => qcase a b end.
Lemma qdist_metric : metric Qc lerp qdist.
Proof.
  split; [|split].
  - intros a b. qd; qc.
  - intros a b c. qd; qc.
  - intros a b v V0 V1. unfold lerp.
    assert (E1 : a + v * (b - a) - a = v * (b - a)) by ring. assert (E2 : b - (a + v * (b - a)) = (1 - v) * (b - a)) by ring.
    assert (F : forall w c e, 0 <= w -> c <= e -> 0 <= w * (e - c)).
    { intros w c e W C. rewrite <- (Qcmult_0_l (e - c)). apply Qcmult_le_compat_r; [exact W|qc]. }
    assert (W1 : 0 <= 1 - v) by qc.
    unfold qdist. destruct (qleb_spec a b) as [H|H].
    + pose proof (F v a b V0 H). pose proof (F (1 - v) a b W1 H).
      qcase a (a + v * (b - a)); [|exfalso; qc]. qcase (a + v * (b - a)) b; [|exfalso; qc].
      rewrite E1, E2. split; apply Qcle_refl.
    + pose proof (F v b a V0 (Qclt_le_weak _ _ H)) as F1. pose proof (F (1 - v) b a W1 (Qclt_le_weak _ _ H)) as F2.
      assert (G1 : v * (b - a) = - (v * (a - b))) by ring. assert (G2 : (1 - v) * (b - a) = - ((1 - v) * (a - b))) by ring.
      split.
      * destruct (qleb_spec a (a + v * (b - a))); [rewrite E1; qc|]. replace (a - (a + v * (b - a))) with (v * (a - b)) by ring. apply Qcle_refl.
      * destruct (qleb_spec (a + v * (b - a)) b); [rewrite E2; qc|]. replace (a + v * (b - a) - b) with ((1 - v) * (a - b)) by ring. apply Qcle_refl.
Qed.
Example C111_close_ex : metric Qc lerp qdist /\ slow Qc lerp qdist (qn 4) parabola /\
  initial Qc lerp parabola = eval Qc lerp parabola (start parabola) /\
  end_ Qc lerp parabola = eval Qc lerp parabola (stop parabola).
Proof.
  split; [exact qdist_metric|]. split; [|split; reflexivity].
  intros s t a b H1 H2 H3 Ea Eb. unfold eval, config_at, param_at, apply_cs in Ea, Eb. cbn in Ea, Eb.
  injection Ea as <-. injection Eb as <-. change (start parabola) with (qn 0) in H1. change (stop parabola) with (qn 2) in H3.
  assert (Q0 : qn 0 = 0) by (apply Qc_is_canon; reflexivity). rewrite Q0 in H1.
  assert (N : 0 <= (t + s) * (t - s)).
  { rewrite <- (Qcmult_0_l (t - s)). apply Qcmult_le_compat_r; [|qc]. qc. }
  assert (M : (t + s) * (t - s) <= qn 4 * (t - s)).
  { apply Qcmult_le_compat_r; [|qc]. assert (Q4 : qn 4 = qn 2 + qn 2) by (apply Qc_is_canon; reflexivity). rewrite Q4. qc. }
  assert (E : t * t - s * s = (t + s) * (t - s)) by ring.
  unfold qdist. qcase (s * s) (t * t); [rewrite E; exact M|].
  replace (s * s - t * t) with (- ((t + s) * (t - s))) by ring. qc.
Qed.
Example C111_point_ex : exists r, resample lerp (Gen (mk_hdr (qn 1, qn 1) None) (fun t => Some (t + t))) 2 = Ok r /\
  eval Qc lerp r (qn 1) = Ok (Some (qn 2)).
Proof. eexists. split; [vm_compute; reflexivity|by_show]. Qed.
(* under the constraint q = s, steering succeeds along it and is null elsewhere *)
Definition follow : constr Qc := mkC (fun s _ => Some s) (fun s q => qeqb q s).
Example C111_steer_ex : idempotent follow /\
  (exists p, interpolated_steer qdist (Some follow) (qn 0) (qn 3) = Ok (Some p)) /\
  interpolated_steer qdist (Some follow) (qn 1) (qn 3) = Ok None.
Proof.
  split; [intros s q q' E; exact E|]. split; [eexists; vm_compute; reflexivity|vm_compute; reflexivity].
Qed.

(* With a time parameterization the right hand side of the constraints is set
   at the time instead of the parameter: the samples are not kept. *)
Theorem C111_sampled_timed_refuted : exists (p : path Qc) c n r k,
  start p < stop p /\ cs (hd_of p) = Some c /\ idempotent c /\ resample lerp p n = Ok r /\ (1 <= k <= n)%nat /\
  eval Qc lerp r (instant p n k) <> eval Qc lerp p (instant p n k).
Proof.
  exists (Straight (mkH (qn 0, qn 1) (qn 0, qn 1) (Some follow) (Some (fun t => t * t))) (qn 0) (qn 1)), follow, 1%nat.
  eexists _, 1%nat. split; [reflexivity|]. split; [reflexivity|]. split; [intros s q q' E; exact E|].
  split; [vm_compute; reflexivity|]. split; [lia|]. intros E. differ E.
Qed.

Print Assumptions C111_sampled.
Print Assumptions C111_sampled_constrained.
Print Assumptions C111_sampled_defined.
Print Assumptions C111_sampled_close.
Print Assumptions C111_sampled_point.
Print Assumptions C111_steer.
Print Assumptions C111_sampled_timed_refuted.
