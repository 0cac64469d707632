(* C09: nearest neighbours with a kd-tree. *)
From Coq Require Import Reals Lra Lia Psatz Permutation.
From Verif Require Import Base PartialCutReal XReal PolyProofs WDistModel WDistSpec WDistProofs KdTreeModel KdTreeSpec.
From Verif Require Import KdTreeProofs KdTreeProofs2 KdTreeProofs3 KdTreeProofs4.
Open Scope R_scope.

Definition real_bounds (dim : nat) (blo bhi : nat -> xr) : Prop := forall k, (k < dim)%nat ->
  match blo k with Fin _ | MInf => True | _ => False end /\ match bhi k with Fin _ | PInf => True | _ => False end.
(* nodes are within the bounds of the robot; the tree is told when two
   different components are merged *)
Definition fair (dim : nat) (blo bhi : nat -> xr) (o : op) : Prop :=
  match o with Add n => in_bounds dim blo bhi (ncfg n) | KMerge c1 c2 => c1 <> c2 | RMerge _ _ => False | Clear => True end.

(* Any history, any bucket size, any bounds: the answer to a query is a node of
   the requested component at minimal distance. *)
Theorem C09_nearest_partial dim bsize w wt dist rlo rhi fuel ops comp t comp' q c :
  (forall k, (k < dim)%nat -> w k = Some (wt k) /\ 0 <= wt k) -> dominates dim wt dist ->
  real_bounds dim rlo rhi -> Forall (fair dim rlo rhi) ops ->
  run dim bsize w fuel ops (root rlo rhi, comp) = Ok (t, comp') ->
  (in_bounds dim rlo rhi q ->
   exists a, search dim w dist t q c = Ok a /\
     is_nearest dist (fun n => In n (present ops []) /\ component ops comp (nid n) = c) q a) /\
  (~ in_bounds dim rlo rhi q -> search dim w dist t q c = Throw).
Proof.
  intros Hw Hd Hb Hf E.
  assert (W0 : wf dim wt comp (root rlo rhi)) by (split; [exact I|intros ? ? []]).
  destruct (run_good dim bsize w wt Hw fuel ops (root rlo rhi) comp t comp' [] Hf W0 (Permutation_refl _) E) as (B & W & P & Ec).
  cbn [root tbox] in B. unfold search. rewrite B.
  pose proof (outside_spec dim (mkBox 0 rlo rhi) q Hb) as O. cbn [lo hi] in O. split.
  - intros Q. apply O in Q. rewrite Q.
    destruct (srch_spec dim w wt Hw dist Hd comp' q c t 0 (PInf, None) (fun _ => False) W (LB_0 dim wt _ q)) as (st & E1 & N); [split; [reflexivity|auto]|].
    exists st. split; [exact E1|]. eapply nearest_ext; [|exact N]. intros n. unfold cand. rewrite Ec. split.
    + intros [[]|[H1 H2]]. split; [apply (Permutation_in _ P), H1|exact H2].
    + intros [H1 H2]. right. split; [apply (Permutation_in _ (Permutation_sym P)), H1|exact H2].
  - intros Q. destruct (outside dim {| sd := 0; lo := rlo; hi := rhi |} q); [reflexivity|]. exfalso. apply Q, O. reflexivity.
Qed.

(* A history without erasure runs to its end if the buckets hold at least two
   nodes and the nodes added are all different in some weighted coordinate; one
   split at a time is enough. *)
Theorem C09_insertion_partial dim bsize w wt rlo rhi fuel ops comp :
  (forall k, (k < dim)%nat -> w k = Some (wt k) /\ 0 <= wt k) ->
  (2 <= bsize)%nat -> Forall (fair dim rlo rhi) ops -> ~ In Clear ops ->
  NoDup (present ops []) -> (forall a b, In a (present ops []) -> In b (present ops []) -> a <> b -> differ dim wt a b) ->
  exists st, run dim bsize w (S fuel) ops (root rlo rhi, comp) = Ok st.
Proof.
  intros Hw B Hf Hc ND Hd. apply (run_ok dim bsize w wt Hw fuel ops (root rlo rhi) comp []); try assumption.
  - destruct (existsb is_clear ops) eqn:E; [|reflexivity]. apply existsb_exists in E as (o & Ho & E). destruct o; try discriminate. contradiction.
  - split; [exact I|intros ? ? []].
  - split; [reflexivity|lia].
  - reflexivity.
Qed.
(* Whatever the history, no exception, and splits are never nested. *)
Theorem C09_insertion_outcome dim bsize w wt rlo rhi fuel ops comp :
  (forall k, (k < dim)%nat -> w k = Some (wt k) /\ 0 <= wt k) -> Forall (fair dim rlo rhi) ops ->
  (exists st, run dim bsize w (S fuel) ops (root rlo rhi, comp) = Ok st) \/
  run dim bsize w (S fuel) ops (root rlo rhi, comp) = UB.
Proof.
  intros Hw Hf. apply (run_total dim bsize w wt Hw); [exact Hf|split; [exact I|intros ? ? []]|split; [cbn; lia|lia]].
Qed.

(* The distance of a robot whose joints have one coordinate on a line: what the
   two theorems ask for, if the joints which are not rotations have weight at
   most 1 (their weight does not count in the distance). *)
Definition line_dist (rot : nat -> bool) (ws : list R) (x y : nat -> R) : R :=
  match impl_distance R (length ws) 0 (fun _ a b => Rabs (a - b)) rot (map Fin ws) (mkConf x (fun _ => 0)) (mkConf y (fun _ => 0)) with
  | Ok (Fin d) => d
  | _ => 0
  end.
Definition line_weights (ws : list R) : nat -> option R := kd_weights (map (fun x => (x, 1%nat)) ws).
Lemma line_metric' : is_metric eq (fun a b : R => Rabs (a - b)).
Proof.
  constructor.
  - intros; apply Rabs_pos.
  - intros; apply Rabs_minus_sym.
  - intros a b ->. rewrite Rminus_diag_eq by reflexivity. apply Rabs_R0.
  - intros a b H. destruct (Req_dec (a - b) 0) as [E|E]; [lra|]. exfalso. exact (Rabs_no_R0 _ E H).
  - intros a b c. replace (a - c) with ((a - b) + (b - c)) by ring. apply Rabs_triang.
Qed.
Lemma line_dist_D rot ws x y : line_dist rot ws x y = D R (length ws) 0 (fun _ a b => Rabs (a - b)) rot ws (mkConf x (fun _ => 0)) (mkConf y (fun _ => 0)).
Proof. unfold line_dist. rewrite impl_distance_ok by (auto using line_metric'). reflexivity. Qed.
Theorem C09_line_joints_partial rot ws :
  (forall k, (k < length ws)%nat -> 0 <= nth k ws 0 /\ (rot k = false -> nth k ws 0 <= 1)) ->
  (forall k, (k < length ws)%nat -> line_weights ws k = Some (nth k ws 0) /\ 0 <= nth k ws 0) /\
  dominates (length ws) (fun k => nth k ws 0) (line_dist rot ws).
Proof.
  intros H. split.
  - intros k Hk. split; [|apply H, Hk]. unfold line_weights. clear H. revert k Hk. induction ws as [|a ws IH]; intros k Hk; cbn [length] in Hk; [lia|].
    cbn [map kd_weights]. destruct k as [|k]; [reflexivity|]. cbn [Nat.ltb Nat.leb nth]. replace (S k - 1)%nat with k by lia. apply IH. lia.
  - intros x y. rewrite line_dist_D. unfold D. split; [apply sqrt_pos|].
    set (cf := coef (length ws) rot ws).
    assert (Cn : forall k, 0 <= cf k) by (intros; apply coef_nonneg).
    rewrite sqrt_sqrt by (apply ip_self; intros; apply Cn). rewrite Nat.add_0_r. unfold ip.
    assert (G : forall n, (n <= length ws)%nat -> weighted_square n (fun k => nth k ws 0) x y <=
      sumf n (fun k => cf k * comp_dist R (length ws) (fun _ a b => Rabs (a - b)) (mkConf x (fun _ => 0)) (mkConf y (fun _ => 0)) k *
        comp_dist R (length ws) (fun _ a b => Rabs (a - b)) (mkConf x (fun _ => 0)) (mkConf y (fun _ => 0)) k)).
    { induction n as [|n IH]; intros L; cbn [weighted_square sumf]; [lra|]. specialize (IH ltac:(lia)).
      assert (T : (nth n ws 0 * (x n - y n)) * (nth n ws 0 * (x n - y n)) <= cf n * Rabs (x n - y n) * Rabs (x n - y n)).
      { rewrite (Rmult_assoc (cf n)). rewrite <- Rabs_mult, Rabs_right by (apply Rle_ge, Rle_0_sqr).
        unfold cf, coef. destruct (Nat.ltb_spec n (length ws)); [|lia]. destruct (H n ltac:(lia)) as [H1 H2]. rewrite sq_sq. destruct (rot n); [lra|].
        apply Rmult_le_compat_r; [apply Rle_0_sqr|]. specialize (H2 eq_refl). rewrite <- (Rmult_1_r 1). apply Rmult_le_compat; lra. }
      unfold comp_dist at 3 4. destruct (Nat.ltb_spec n (length ws)); [|lia]. cbn [joint]. lra. }
    apply G. lia.
Qed.

(* ------------------------------------------------------------ refutations *)
(* The roadmap does not tell the tree when components are merged: the nodes of
   the component which disappears are not found any more. *)
Theorem C09_untold_merge_refuted dim bsize w dist rlo rhi fuel n q :
  (1 <= bsize)%nat -> real_bounds dim rlo rhi -> in_bounds dim rlo rhi q ->
  exists t comp, run dim bsize w fuel [Add n; RMerge 1 2] (root rlo rhi, fun _ => 2%nat) = Ok (t, comp) /\
    comp (nid n) = 1%nat /\ search dim w dist t q 1 = Ok (PInf, None).
Proof.
  intros B Hb Q. unfold root. cbn [run].
  assert (E : add_node dim bsize w fuel (fun _ => 2%nat) n (Leaf (mkBox 0 rlo rhi) 0 []) = Ok (Leaf (mkBox 0 rlo rhi) 1 [(2%nat, [n])])).
  { destruct fuel; cbn [add_node insert]; destruct (Nat.ltb_spec 0 bsize); try lia; reflexivity. }
  rewrite E. cbn [bind]. eexists. eexists. split; [reflexivity|]. split; [reflexivity|].
  unfold search. cbn [tbox]. apply (outside_spec dim (mkBox 0 rlo rhi) q Hb) in Q. rewrite Q. reflexivity.
Qed.
(* A full bucket of nodes with the same configuration cannot be split: the next
   node reads an uninitialised dimension.  With a bucket size of 1, this is any
   second node. *)
Theorem C09_same_configuration_refuted dim bsize w wt rlo rhi fuel ns x n comp :
  (forall k, (k < dim)%nat -> w k = Some (wt k) /\ 0 <= wt k) ->
  length ns = bsize -> Forall (fun a => ncfg a = x) ns -> in_bounds dim rlo rhi x ->
  run dim bsize w (S fuel) (map Add ns ++ [Add n]) (root rlo rhi, comp) = UB.
Proof.
  intros Hw L F Q. rewrite run_app.
  destruct (run_fill dim bsize w (S fuel) comp (mkBox 0 rlo rhi) ns 0 [] I ltac:(lia)) as (m & E & K & P). unfold root. rewrite E. cbn [bind run].
  rewrite add_full; [reflexivity|lia|]. unfold mnodes in P at 2. cbn [map concat] in P. rewrite app_nil_r in P.
  assert (X : forall a, In a (mnodes (mtouch m (comp (nid n)))) -> ncfg a = x).
  { intros a Ha. rewrite mnodes_touch in Ha. rewrite Forall_forall in F. apply F. apply (Permutation_in _ P), Ha. }
  destruct (split_spec dim w wt Hw (mkBox 0 rlo rhi) (mtouch m (comp (nid n)))) as [(d & v & (_ & _ & a & b & Ha & Hb & Lab) & _)|[_ E']].
  - intros a Ha. rewrite (X a Ha). exact Q.
  - exfalso. rewrite (X a Ha), (X b Hb) in Lab. lra.
  - exact E'.
Qed.
(* Erasing does not reset the number of nodes of the root: after a full bucket
   has been erased, the first node added is split from nothing. *)
Theorem C09_clear_refuted dim bsize w wt rlo rhi fuel ns n comp :
  (forall k, (k < dim)%nat -> w k = Some (wt k) /\ 0 <= wt k) ->
  length ns = bsize ->
  run dim bsize w (S fuel) (map Add ns ++ [Clear; Add n]) (root rlo rhi, comp) = UB.
Proof.
  intros Hw L. rewrite run_app.
  destruct (run_fill dim bsize w (S fuel) comp (mkBox 0 rlo rhi) ns 0 [] I ltac:(lia)) as (m & E & K & P). unfold root. rewrite E. cbn [bind run clear].
  rewrite add_full; [reflexivity|lia|].
  destruct (split_spec dim w wt Hw (mkBox 0 rlo rhi) (mtouch [] (comp (nid n)))) as [(d & v & (_ & _ & a & b & Ha & _) & _)|[_ E']].
  - intros a [].
  - destruct Ha.
  - exact E'.
Qed.
(* Extra coordinates have no weight: the first split reads an uninitialised
   weight. *)
Theorem C09_extra_coordinates_refuted dim bsize ws rlo rhi fuel ns n comp :
  (fold_right (fun e a => snd e + a) 0 ws < dim)%nat -> length ns = bsize ->
  run dim bsize (kd_weights ws) (S fuel) (map Add ns ++ [Add n]) (root rlo rhi, comp) = UB.
Proof.
  intros Hx L. rewrite run_app.
  destruct (run_fill dim bsize (kd_weights ws) (S fuel) comp (mkBox 0 rlo rhi) ns 0 [] I ltac:(lia)) as (m & E & K & P). unfold root. rewrite E. cbn [bind run].
  rewrite add_full; [reflexivity|lia|]. unfold split. rewrite (split_dim_unread _ _ _ _ (fold_right (fun e a => snd e + a) 0 ws)%nat); [reflexivity|apply in_seq; lia|].
  clear. induction ws as [|[a s] ws IH]; [reflexivity|]. cbn [fold_right snd kd_weights].
  destruct (Nat.ltb_spec (s + fold_right (fun e a => snd e + a) 0 ws) s)%nat; [lia|].
  replace (s + fold_right (fun e a => snd e + a) 0 ws - s)%nat with (fold_right (fun e a => snd e + a) 0 ws)%nat by lia. exact IH.
Qed.
(* The weight of a joint which is not a rotation counts in the tree and not in
   the distance: one such joint of weight 2, three nodes at 0, 10 and 6, the
   node found for 3.2 is the one at 0 instead of the one at 6. *)
Definition at_ (i : nat) (r : R) : node := mkNode i (fun _ => r).
Ltac rcase := match goal with |- context [rltb ?a ?b] => destruct (rltb_spec a b) as [?|?]; try (exfalso; lra) end.
Ltac rrun := repeat (cbn [run add_node insert Nat.ltb Nat.leb Nat.eqb mtouch mupd at_ nid ncfg bind split split_dim seq mnodes map concat snd fst app wread
  line_weights kd_weights act_hi act_lo fold_left xltb xsub xneg xadd xmul lo hi sd tbox goes_sup add_list upd nth_error]; try rcase).
Lemma line_dist_1 x y : line_dist (fun _ => false) [2] x y = Rabs (x 0%nat - y 0%nat).
Proof.
  unfold line_dist, impl_distance. cbn [length dist_loop nth_error map extra_norm squared_distance joint xadd xsqrt].
  unfold squared_distance. cbn [xadd xmul xsqrt].
  replace (0 + Rabs (x 0%nat - y 0%nat) * Rabs (x 0%nat - y 0%nat) + 0) with (Rabs (x 0%nat - y 0%nat) * Rabs (x 0%nat - y 0%nat)) by ring.
  destruct (rltb_spec (Rabs (x 0%nat - y 0%nat) * Rabs (x 0%nat - y 0%nat)) 0) as [C|C].
  - exfalso. pose proof (Rle_0_sqr (Rabs (x 0%nat - y 0%nat))) as P. unfold Rsqr in P. lra.
  - apply sqrt_square. apply Rabs_pos.
Qed.
Theorem C09_translation_weight_refuted :
  exists t comp, run 1 2 (line_weights [2]) 1 [Add (at_ 0 0); Add (at_ 1 10); Add (at_ 2 6)] (root (fun _ => Fin 0) (fun _ => Fin 10), fun _ => 0%nat) = Ok (t, comp) /\
    search 1 (line_weights [2]) (line_dist (fun _ => false) [2]) t (fun _ => 3.2) 0 = Ok (Fin 3.2, Some (at_ 0 0)) /\
    line_dist (fun _ => false) [2] (fun _ => 6) (fun _ => 3.2) < line_dist (fun _ => false) [2] (fun _ => 0) (fun _ => 3.2).
Proof.
  assert (E : run 1 2 (line_weights [2]) 1 [Add (at_ 0 0); Add (at_ 1 10); Add (at_ 2 6)] (root (fun _ => Fin 0) (fun _ => Fin 10), fun _ => 0%nat) =
    Ok (Node (mkBox 0 (fun _ => Fin 0) (fun _ => Fin 10)) 2 [(0%nat, [])]
         (Leaf (mkBox 0 (fun _ => Fin 0) (upd (fun _ => Fin 10) 0%nat (Fin ((10 + 0) * / 2)))) 1 [(0%nat, [at_ 0 0])])
         (Leaf (mkBox 0 (upd (fun _ => Fin 0) 0%nat (Fin ((10 + 0) * / 2))) (fun _ => Fin 10)) 2 [(0%nat, [at_ 2 6; at_ 1 10])]), fun _ => 0%nat)).
  { unfold root, at_. rrun. unfold split, mnodes, line_weights. rrun. unfold wread, act_hi, act_lo. rrun. unfold goes_sup. rrun. reflexivity. }
  rewrite E. eexists. eexists. split; [reflexivity|]. split.
  - unfold search. cbn [tbox]. unfold outside. cbn [seq existsb lo hi xltb]. rcase. rcase. cbn [orb].
    cbn [srch fst xsq xmul xltb tmap mfind Nat.eqb andb xis0]. destruct (reqb_spec 0 0) as [_|N]; [|congruence].
    unfold goes_sup, dist_to_box, wread, line_weights, std_min. cbn [tbox sd lo hi upd Nat.eqb xltb map kd_weights Nat.ltb Nat.leb bind xsub xneg xadd xabs xmul].
    cbn [xltb xadd xabs xmul]. rcase. cbn [bind xltb].
    rewrite (Rabs_right ((10 + 0) * / 2 + - (3.2))), (Rabs_right (10 + - (3.2))) by lra. rcase. cbn [bind xltb]. rcase.
    unfold mget. cbn [mfind Nat.eqb fold_left]. unfold closer at 1. cbn [at_ ncfg fst xltb]. rewrite line_dist_1. cbn [bind fst].
    replace (Rabs (0 - 3.2)) with 3.2 by (rewrite Rabs_left; lra). unfold xsq. cbn [xmul xneg xadd xltb].
    rcase. cbn [andb]. unfold closer. cbn [at_ ncfg fst xltb]. rewrite line_dist_1. replace (Rabs (0 - 3.2)) with 3.2 by (rewrite Rabs_left; lra). reflexivity.
  - rewrite !line_dist_1. rewrite Rabs_right, Rabs_left by lra. lra.
Qed.

(* --------------------------------------------------------------- examples *)
Lemma at_bounds i r : -5 <= r <= 100 -> in_bounds 1 (fun _ => Fin (-5)) (fun _ => PInf) (ncfg (at_ i r)).
Proof. intros H k Hk. cbn. split; [lra|exact I]. Qed.
Definition ex_ops : list op := [Add (at_ 0 1); Add (at_ 1 2); Add (at_ 2 7); Add (at_ 3 9); Add (at_ 4 4); KMerge 0 1].
Lemma ex_fair : Forall (fair 1 (fun _ => Fin (-5)) (fun _ => PInf)) ex_ops.
Proof. unfold ex_ops. repeat (apply Forall_cons; [cbn [fair]; first [apply at_bounds; lra|lia]|]). apply Forall_nil. Qed.
Lemma ex_present : present ex_ops [] = [at_ 4 4; at_ 3 9; at_ 2 7; at_ 1 2; at_ 0 1].
Proof. reflexivity. Qed.
(* five nodes, several splits, two components merged *)
Example C09_ex comp : exists t comp', run 1 2 (line_weights [2]) 1 ex_ops (root (fun _ => Fin (-5)) (fun _ => PInf), comp) = Ok (t, comp') /\
  forall q c, -5 <= q 0%nat -> exists a, search 1 (line_weights [2]) (line_dist (fun _ => true) [2]) t q c = Ok a /\
    is_nearest (line_dist (fun _ => true) [2]) (fun n => In n [at_ 4 4; at_ 3 9; at_ 2 7; at_ 1 2; at_ 0 1] /\ (if (comp (nid n) =? 1)%nat then 0%nat else comp (nid n)) = c) q a.
Proof.
  assert (H : forall k, (k < length [2])%nat -> 0 <= nth k [2] 0 /\ (true = false -> nth k [2] 0 <= 1)).
  { intros [|k] Hk; cbn [length] in Hk; [|lia]. cbn. split; [lra|discriminate]. }
  destruct (C09_line_joints_partial (fun _ => true) [2] H) as [Hw Hd]. cbn [length] in Hw, Hd.
  destruct (C09_insertion_partial 1 2 (line_weights [2]) (fun k => nth k [2] 0) (fun _ => Fin (-5)) (fun _ => PInf) 0 ex_ops comp) as [[t comp'] E].
  - exact Hw.
  - lia.
  - exact ex_fair.
  - intros X. repeat (destruct X as [X|X]; [discriminate|]). destruct X.
  - rewrite ex_present. unfold at_. repeat (constructor; [cbn [In]; intros X; repeat (destruct X as [X|X]; [discriminate|]); destruct X|]). constructor.
  - rewrite ex_present. intros a b Ha Hb N. exists 0%nat. split; [lia|]. split; [cbn; lra|].
    cbn [In] in Ha, Hb.
    repeat (destruct Ha as [<-|Ha]; [repeat (destruct Hb as [<-|Hb]; [try (exfalso; apply N; reflexivity); cbn [at_ ncfg]; lra|]); destruct Hb|]); destruct Ha.
  - exists t, comp'. split; [exact E|]. intros q c Q.
    assert (Rb : real_bounds 1 (fun _ => Fin (-5)) (fun _ => PInf)) by (intros k _; split; exact I).
    destruct (C09_nearest_partial 1 2 _ _ (line_dist (fun _ => true) [2]) _ _ 1 ex_ops comp t comp' q c Hw Hd Rb ex_fair E) as [A _].
    destruct A as (a & Ea & Na); [intros k Hk; cbn; replace k with 0%nat by lia; split; [exact Q|exact I]|].
    exists a. split; [exact Ea|]. rewrite ex_present in Na. exact Na.
Qed.
Example C09_same_ex : run 1 2 (line_weights [1]) 1 [Add (at_ 0 3); Add (at_ 1 3); Add (at_ 2 5)] (root (fun _ => MInf) (fun _ => PInf), fun _ => 0%nat) = UB.
Proof.
  apply (C09_same_configuration_refuted 1 2 (line_weights [1]) (fun k => nth k [1] 0) (fun _ => MInf) (fun _ => PInf) 0 [at_ 0 3; at_ 1 3] (fun _ => 3) (at_ 2 5)).
  - intros k Hk. replace k with 0%nat by lia. cbn. split; [reflexivity|lra].
  - reflexivity.
  - repeat constructor.
  - intros k _. split; exact I.
Qed.
Example C09_clear_ex : run 1 2 (line_weights [1]) 1 [Add (at_ 0 3); Add (at_ 1 4); Clear; Add (at_ 2 5)] (root (fun _ => MInf) (fun _ => PInf), fun _ => 0%nat) = UB.
Proof.
  apply (C09_clear_refuted 1 2 (line_weights [1]) (fun k => nth k [1] 0) (fun _ => MInf) (fun _ => PInf) 0 [at_ 0 3; at_ 1 4] (at_ 2 5)).
  - intros k Hk. replace k with 0%nat by lia. cbn. split; [reflexivity|lra].
  - reflexivity.
Qed.
Example C09_extra_ex : run 2 2 (line_weights [1]) 1 [Add (at_ 0 3); Add (at_ 1 4); Add (at_ 2 5)] (root (fun _ => MInf) (fun _ => PInf), fun _ => 0%nat) = UB.
Proof.
  apply (C09_extra_coordinates_refuted 2 2 [(1, 1%nat)] (fun _ => MInf) (fun _ => PInf) 0 [at_ 0 3; at_ 1 4] (at_ 2 5)); [cbn; lia|reflexivity].
Qed.
Example C09_merge_ex : exists t comp, run 1 2 (line_weights [1]) 1 [Add (at_ 0 3); RMerge 1 2] (root (fun _ => MInf) (fun _ => PInf), fun _ => 2%nat) = Ok (t, comp) /\
  comp 0%nat = 1%nat /\ search 1 (line_weights [1]) (line_dist (fun _ => true) [1]) t (fun _ => 4) 1 = Ok (PInf, None).
Proof.
  apply (C09_untold_merge_refuted 1 2 (line_weights [1]) (line_dist (fun _ => true) [1]) (fun _ => MInf) (fun _ => PInf) 1 (at_ 0 3) (fun _ => 4));
    [lia|intros k _; split; exact I|intros k _; split; exact I].
Qed.

Print Assumptions C09_nearest_partial.
Print Assumptions C09_insertion_partial.
Print Assumptions C09_insertion_outcome.
Print Assumptions C09_line_joints_partial.
Print Assumptions C09_untold_merge_refuted.
Print Assumptions C09_same_configuration_refuted.
Print Assumptions C09_clear_refuted.
Print Assumptions C09_extra_coordinates_refuted.
Print Assumptions C09_translation_weight_refuted.
