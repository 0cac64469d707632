(* Proofs about the kd-tree, part 3: search. *)
From Coq Require Import Reals Lra Lia Psatz Permutation.
From Verif Require Import Base XReal PolyProofs KdTreeModel KdTreeSpec KdTreeProofs KdTreeProofs2.
Open Scope R_scope.

Lemma wsq_nonneg n wt x q : 0 <= weighted_square n wt x q.
Proof. induction n as [|n IH]; cbn [weighted_square]; [lra|]. pose proof (Rle_0_sqr (wt n * (x n - q n))) as H. unfold Rsqr in H. lra. Qed.
Lemma wsq_term n wt x q d : (d < n)%nat -> (wt d * (x d - q d)) * (wt d * (x d - q d)) <= weighted_square n wt x q.
Proof.
  induction n as [|n IH]; intros H; [lia|]. cbn [weighted_square].
  destruct (Nat.eq_dec d n) as [E|N].
  - rewrite E. pose proof (wsq_nonneg n wt x q). lra.
  - pose proof (IH ltac:(lia)). pose proof (Rle_0_sqr (wt n * (x n - q n))) as K. unfold Rsqr in K. lra.
Qed.
Lemma wsq_out n wt x q d y : (n <= d)%nat -> weighted_square n wt (upd x d y) q = weighted_square n wt x q.
Proof. induction n as [|n IH]; intros H; cbn [weighted_square]; [reflexivity|]. rewrite IH by lia. rewrite upd_neq by lia. reflexivity. Qed.
Lemma wsq_upd n wt x q d y : (d < n)%nat ->
  weighted_square n wt (upd x d y) q =
  weighted_square n wt x q - (wt d * (x d - q d)) * (wt d * (x d - q d)) + (wt d * (y - q d)) * (wt d * (y - q d)).
Proof.
  induction n as [|n IH]; intros H; [lia|]. cbn [weighted_square]. destruct (Nat.eq_dec d n) as [E|N].
  - subst d. rewrite wsq_out by lia. rewrite upd_eq. lra.
  - rewrite IH by lia. rewrite upd_neq by lia. lra.
Qed.

Section Search.
Variable dim : nat.
Variable w : nat -> option R.
Variable wt : nat -> R.
Hypothesis Hw : forall k, (k < dim)%nat -> w k = Some (wt k) /\ 0 <= wt k.
Variable dist : (nat -> R) -> (nat -> R) -> R.
Hypothesis Hd : dominates dim wt dist.
Notation wf := (wf dim wt).
Notation inb := (inb dim).
Variable comp : nat -> nat.

Definition LB (b : box) (q : nat -> R) (beta : R) : Prop := forall x, inb b x -> beta <= weighted_square dim wt x q.

Lemma LB_move b q beta d x y : LB b q beta -> (d < dim)%nat -> inb b x -> above (lo b d) y -> below (hi b d) y ->
  beta + (wt d * (x d - q d)) * (wt d * (x d - q d)) - (wt d * (y - q d)) * (wt d * (y - q d)) <= weighted_square dim wt x q.
Proof.
  intros HL Hk Hx Ha Hb.
  assert (K : inb b (upd x d y)).
  { intros k K. unfold upd. destruct (Nat.eqb_spec k d) as [E|_]; [subst k; split; assumption|apply Hx, K]. }
  specialize (HL _ K). rewrite wsq_upd in HL by exact Hk. lra.
Qed.

Lemma std_min_fin a b : exists r, std_min (Fin a) (Fin b) = Fin r /\ r <= a /\ r <= b /\ (r = a \/ r = b).
Proof. unfold std_min. cbn [xltb]. destruct (rltb_spec b a); [exists b|exists a]; repeat split; auto; lra. Qed.

(* distance to the first child of a box cut at v *)
Lemma dbox_inf b d v q : (d < dim)%nat -> 0 < wt d -> above (lo b d) v ->
  exists e, dist_to_box w (mkBox d (lo b) (upd (hi b) d (Fin v))) q = Ok (Fin (wt d * e)) /\ 0 <= e /\
    (v <= q d -> e = q d - v) /\ (q d <= v -> e <= v - q d) /\
    (forall l, lo b d = Fin l -> q d <= l -> e = l - q d).
Proof.
  intros Hk Wd Ha. unfold dist_to_box, wread. cbn [sd lo hi]. rewrite (proj1 (Hw d Hk)). cbn [bind]. rewrite upd_eq.
  unfold above in Ha. destruct (lo b d) as [l| | |] eqn:El; try contradiction.
  - cbn [xsub xneg xadd xabs xmul]. destruct (std_min_fin (Rabs (l + - q d) * wt d) (Rabs (v + - q d) * wt d)) as (r & E & R1 & R2 & R3).
    rewrite E. exists (Rmin (Rabs (l + - q d)) (Rabs (v + - q d))).
    assert (Er : r = wt d * Rmin (Rabs (l + - q d)) (Rabs (v + - q d))).
    { unfold Rmin. destruct (Rle_dec (Rabs (l + - q d)) (Rabs (v + - q d))) as [L|L].
      - assert (Rabs (l + - q d) * wt d <= Rabs (v + - q d) * wt d) by (apply Rmult_le_compat_r; lra). destruct R3 as [-> | ->]; lra.
      - assert (Rabs (v + - q d) * wt d <= Rabs (l + - q d) * wt d) by (apply Rmult_le_compat_r; lra). destruct R3 as [-> | ->]; lra. }
    rewrite <- Er. split; [reflexivity|].
    split; [apply Rmin_glb; apply Rabs_pos|]. split; [|split].
    + intros Q. rewrite (Rabs_left1 (l + - q d)), (Rabs_left1 (v + - q d)) by lra. rewrite Rmin_right; lra.
    + intros Q. rewrite (Rabs_right (v + - q d)) by lra. eapply Rle_trans; [apply Rmin_r|lra].
    + intros l' E' Q. injection E' as <-. rewrite (Rabs_right (l + - q d)), (Rabs_right (v + - q d)) by lra. rewrite Rmin_left; lra.
  - cbn [xsub xneg xadd xabs xmul]. unfold xsign_inf. destruct (rltb_spec 0 (wt d)) as [_|C]; [|lra].
    cbn [std_min xltb]. unfold std_min. cbn [xltb]. exists (Rabs (v + - q d)). rewrite Rmult_comm. split; [reflexivity|].
    split; [apply Rabs_pos|]. split; [|split].
    + intros Q. rewrite Rabs_left1; lra.
    + intros Q. rewrite Rabs_right; lra.
    + intros l' E'. discriminate.
Qed.
Lemma dbox_sup b d v q : (d < dim)%nat -> 0 < wt d -> below (hi b d) v ->
  exists e, dist_to_box w (mkBox d (upd (lo b) d (Fin v)) (hi b)) q = Ok (Fin (wt d * e)) /\ 0 <= e /\
    (q d <= v -> e = v - q d) /\ (v <= q d -> e <= q d - v) /\
    (forall h, hi b d = Fin h -> h <= q d -> e = q d - h).
Proof.
  intros Hk Wd Ha. unfold dist_to_box, wread. cbn [sd lo hi]. rewrite (proj1 (Hw d Hk)). cbn [bind]. rewrite upd_eq.
  unfold below in Ha. destruct (hi b d) as [h| | |] eqn:El; try contradiction.
  - cbn [xsub xneg xadd xabs xmul]. destruct (std_min_fin (Rabs (v + - q d) * wt d) (Rabs (h + - q d) * wt d)) as (r & E & R1 & R2 & R3).
    rewrite E. exists (Rmin (Rabs (v + - q d)) (Rabs (h + - q d))).
    assert (Er : r = wt d * Rmin (Rabs (v + - q d)) (Rabs (h + - q d))).
    { unfold Rmin. destruct (Rle_dec (Rabs (v + - q d)) (Rabs (h + - q d))) as [L|L].
      - assert (Rabs (v + - q d) * wt d <= Rabs (h + - q d) * wt d) by (apply Rmult_le_compat_r; lra). destruct R3 as [-> | ->]; lra.
      - assert (Rabs (h + - q d) * wt d <= Rabs (v + - q d) * wt d) by (apply Rmult_le_compat_r; lra). destruct R3 as [-> | ->]; lra. }
    rewrite <- Er. split; [reflexivity|].
    split; [apply Rmin_glb; apply Rabs_pos|]. split; [|split].
    + intros Q. rewrite (Rabs_right (v + - q d)), (Rabs_right (h + - q d)) by lra. rewrite Rmin_left; lra.
    + intros Q. rewrite (Rabs_left1 (v + - q d)) by lra. eapply Rle_trans; [apply Rmin_l|lra].
    + intros h' E' Q. injection E' as <-. rewrite (Rabs_left1 (v + - q d)), (Rabs_left1 (h + - q d)) by lra. rewrite Rmin_right; lra.
  - cbn [xsub xneg xadd xabs xmul]. unfold xsign_inf. destruct (rltb_spec 0 (wt d)) as [_|C]; [|lra].
    unfold std_min. cbn [xltb]. exists (Rabs (v + - q d)). rewrite Rmult_comm. split; [reflexivity|].
    split; [apply Rabs_pos|]. split; [|split].
    + intros Q. rewrite Rabs_right; lra.
    + intros Q. rewrite Rabs_left1; lra.
    + intros l' E'. discriminate.
Qed.

Lemma sq_le a b : 0 <= a -> a <= b -> a * a <= b * b.
Proof. intros. apply Rmult_le_compat; lra. Qed.
Lemma sq_sq k a : (k * a) * (k * a) = (k * k) * (a * a).
Proof. ring. Qed.

(* the lower bounds given to the children are right *)
Lemma LB_sup b d v q beta ei es :
  LB b q beta -> (d < dim)%nat -> 0 < wt d -> above (lo b d) v -> below (hi b d) v ->
  0 <= ei -> 0 <= es -> ei < es ->
  (v <= q d -> ei = q d - v) -> (forall l, lo b d = Fin l -> q d <= l -> ei = l - q d) ->
  (q d <= v -> es = v - q d) -> (v <= q d -> es <= q d - v) ->
  LB (mkBox d (upd (lo b) d (Fin v)) (hi b)) q (beta - (wt d * ei) * (wt d * ei) + (wt d * es) * (wt d * es)).
Proof.
  intros HL Hk Wd Ha Hb Ei0 Es0 Lt I1 I2 S1 S2 x Hx. apply inb_sup in Hx; [|assumption..]. destruct Hx as [Hx Xv].
  destruct (Rle_lt_dec (q d) v) as [Q|Q]; [|exfalso; specialize (I1 ltac:(lra)); specialize (S2 ltac:(lra)); lra].
  specialize (S1 Q).
  assert (Sx : (wt d * es) * (wt d * es) <= (wt d * (x d - q d)) * (wt d * (x d - q d))).
  { apply sq_le; [apply Rmult_le_pos; lra|]. apply Rmult_le_compat_l; lra. }
  pose proof (Rle_0_sqr (wt d * ei)) as P0. unfold Rsqr in P0.
  destruct (lo b d) as [l| | |] eqn:El; try contradiction.
  - destruct (Rle_lt_dec (q d) l) as [C|C].
    + pose proof (LB_move b q beta d x l HL Hk Hx) as M. rewrite El in M.
      assert (Bl : below (hi b d) l) by (unfold above, below in *; destruct (hi b d); try tauto; lra).
      specialize (M ltac:(unfold above; lra) Bl). rewrite (I2 l eq_refl C). lra.
    + pose proof (LB_move b q beta d x (q d) HL Hk Hx) as M. rewrite El in M.
      assert (Bl : below (hi b d) (q d)) by (unfold above, below in *; destruct (hi b d); try tauto; lra).
      specialize (M ltac:(unfold above; lra) Bl). replace (q d - q d) with 0 in M by ring. lra.
  - pose proof (LB_move b q beta d x (q d) HL Hk Hx) as M. rewrite El in M.
    assert (Bl : below (hi b d) (q d)) by (unfold above, below in *; destruct (hi b d); try tauto; lra).
    specialize (M I Bl). replace (q d - q d) with 0 in M by ring. lra.
Qed.
Lemma LB_inf b d v q beta ei es :
  LB b q beta -> (d < dim)%nat -> 0 < wt d -> above (lo b d) v -> below (hi b d) v ->
  0 <= ei -> 0 <= es -> es <= ei ->
  (v <= q d -> ei = q d - v) -> (q d <= v -> ei <= v - q d) ->
  (q d <= v -> es = v - q d) -> (forall h, hi b d = Fin h -> h <= q d -> es = q d - h) ->
  LB (mkBox d (lo b) (upd (hi b) d (Fin v))) q (beta - (wt d * es) * (wt d * es) + (wt d * ei) * (wt d * ei)).
Proof.
  intros HL Hk Wd Ha Hb Ei0 Es0 Le I1 I2 S1 S2 x Hx. apply inb_inf in Hx; [|assumption..]. destruct Hx as [Hx Xv].
  pose proof (Rle_0_sqr (wt d * es)) as P0. unfold Rsqr in P0.
  destruct (Rlt_le_dec (q d) v) as [Q|Q].
  - specialize (I2 ltac:(lra)). specialize (S1 ltac:(lra)). assert (E : ei = es) by lra. rewrite E. specialize (HL x Hx). lra.
  - specialize (I1 Q).
    assert (Sx : (wt d * ei) * (wt d * ei) <= (wt d * (x d - q d)) * (wt d * (x d - q d))).
    { replace ((wt d * (x d - q d)) * (wt d * (x d - q d))) with ((wt d * (q d - x d)) * (wt d * (q d - x d))) by ring.
      apply sq_le; [apply Rmult_le_pos; lra|]. apply Rmult_le_compat_l; lra. }
    destruct (hi b d) as [h| | |] eqn:El; try contradiction.
    + destruct (Rle_lt_dec h (q d)) as [C|C].
      * pose proof (LB_move b q beta d x h HL Hk Hx) as M. rewrite El in M.
        assert (Bl : above (lo b d) h) by (unfold above, below in *; destruct (lo b d); try tauto; lra).
        specialize (M Bl ltac:(unfold below; lra)). rewrite (S2 h eq_refl C).
        replace ((wt d * (h - q d)) * (wt d * (h - q d))) with ((wt d * (q d - h)) * (wt d * (q d - h))) in M by ring. lra.
      * pose proof (LB_move b q beta d x (q d) HL Hk Hx) as M. rewrite El in M.
        assert (Bl : above (lo b d) (q d)) by (unfold above, below in *; destruct (lo b d); try tauto; lra).
        specialize (M Bl ltac:(unfold below; lra)). replace (q d - q d) with 0 in M by ring. lra.
    + pose proof (LB_move b q beta d x (q d) HL Hk Hx) as M. rewrite El in M.
      assert (Bl : above (lo b d) (q d)) by (unfold above, below in *; destruct (lo b d); try tauto; lra).
      specialize (M Bl I). replace (q d - q d) with 0 in M by ring. lra.
Qed.
Lemma LB_sub b b' q beta : LB b q beta -> (forall x, inb b' x -> inb b x) -> LB b' q beta.
Proof. intros H S x Hx. apply H, S, Hx. Qed.
Lemma LB_0 b q : LB b q 0.
Proof. intros x _. apply wsq_nonneg. Qed.

(* ------------------------------------------------------ the best candidate *)
Lemma nearest_ext S1 S2 q st : (forall n, S1 n <-> S2 n) -> is_nearest dist S1 q st -> is_nearest dist S2 q st.
Proof.
  intros E. unfold is_nearest. destruct (snd st) as [n|].
  - intros (H1 & H2 & H3). split; [apply E, H1|]. split; [exact H2|]. intros n' Hn. apply H3, E, Hn.
  - intros (H1 & H2). split; [exact H1|]. intros n Hn. apply (H2 n), E, Hn.
Qed.
Lemma closer_nearest S q st n : is_nearest dist S q st -> is_nearest dist (fun x => S x \/ x = n) q (closer dist q st n).
Proof.
  unfold is_nearest, closer. destruct st as [mn [r|]]; cbn [fst snd].
  - intros (H1 & -> & H3). cbn [xltb]. destruct (rltb_spec (dist (ncfg n) q) (dist (ncfg r) q)) as [L|L]; cbn [fst snd].
    + split; [auto|]. split; [reflexivity|]. intros n' [Hn| ->]; [specialize (H3 n' Hn); lra|lra].
    + split; [auto|]. split; [reflexivity|]. intros n' [Hn| ->]; [auto|lra].
  - intros (-> & H). cbn [xltb fst snd]. split; [auto|]. split; [reflexivity|]. intros n' [Hn| ->]; [exfalso; exact (H n' Hn)|lra].
Qed.
Lemma fold_nearest q l : forall S st, is_nearest dist S q st -> is_nearest dist (fun x => S x \/ In x l) q (fold_left (closer dist q) l st).
Proof.
  induction l as [|n l IH]; intros S st H; cbn [fold_left].
  - eapply nearest_ext; [|exact H]. intros x; cbn [In]; tauto.
  - eapply nearest_ext; [|apply IH, closer_nearest, H]. intros x. cbn [In]. split; [intros [[A| ->]|A]; auto|intros [A|[A|A]]; auto].
Qed.

Definition cand (t : tree) (c : nat) (n : node) : Prop := In n (elems t) /\ comp (nid n) = c.
Lemma nearest_skip t c q st S :
  is_nearest dist S q st -> (forall n, cand t c n -> match snd st with Some r => dist (ncfg r) q <= dist (ncfg n) q | None => False end) ->
  is_nearest dist (fun x => S x \/ cand t c x) q st.
Proof.
  unfold is_nearest. destruct (snd st) as [r|].
  - intros (H1 & H2 & H3) H. split; [auto|]. split; [exact H2|]. intros n' [Hn|Hn]; auto.
  - intros (H1 & H2) H. split; [exact H1|]. intros n [Hn|Hn]; [exact (H2 n Hn)|exact (H n Hn)].
Qed.
Lemma cand_node b k m i s c n : cand (Node b k m i s) c n <-> cand i c n \/ cand s c n.
Proof. unfold cand. cbn [elems]. rewrite in_app_iff. tauto. Qed.

Lemma srch_spec q c : forall t beta st S, wf comp t -> LB (tbox t) q beta -> is_nearest dist S q st ->
  exists st', srch w dist t (Fin beta) q c st = Ok st' /\ is_nearest dist (fun x => S x \/ cand t c x) q st'.
Proof.
  induction t as [b k m|b k m i IHi s IHs]; intros beta st S Ht HL HS; cbn [srch tmap];
    destruct (xltb (Fin beta) (xsq (fst st))) eqn:Eb; cbn [andb].
  2, 4: exists st; split; [reflexivity|]; apply nearest_skip; [exact HS|]; intros n [Hn _];
    pose proof (wf_inb dim wt comp _ Ht n Hn) as Bn; specialize (HL _ Bn); destruct (Hd (ncfg n) q) as [D0 D1];
    unfold is_nearest in HS; destruct (snd st) as [r|]; [|destruct HS as [E _]; rewrite E in Eb; discriminate];
    destruct HS as (_ & E & _); rewrite E in Eb; cbn [xsq xmul xltb] in Eb;
    destruct (rltb_spec beta (dist (ncfg r) q * dist (ncfg r) q)) as [|C]; [discriminate|];
    destruct (Hd (ncfg r) q) as [R0 _]; apply Rnot_lt_le; intros X;
    assert (dist (ncfg n) q * dist (ncfg n) q < dist (ncfg r) q * dist (ncfg r) q) by (apply Rmult_le_0_lt_compat; lra); lra.
  - destruct Ht as [K1 K2].
    assert (Ec : forall x, cand (Leaf b k m) c x <-> In x (mget m c)).
    { intros x. unfold cand. cbn [elems]. rewrite mnodes_In by exact K1. split.
      - intros [[c' Hx] E]. destruct (K2 c' x Hx) as [E' _]. replace c with c' by congruence. exact Hx.
      - intros Hx. split; [exists c; exact Hx|apply (K2 c x Hx)]. }
    destruct (mfind m c) as [l|] eqn:Em.
    + eexists. split; [reflexivity|]. eapply nearest_ext; [|apply fold_nearest; exact HS].
      intros x. cbn beta. rewrite (Ec x). tauto.
    + exists st. split; [reflexivity|]. eapply nearest_ext; [|exact HS]. intros x. rewrite (Ec x). unfold mget. rewrite Em. cbn [In]. tauto.
  - pose proof Ht as Ht'. cbn [KdTreeProofs.wf] in Ht'. destruct Ht' as (K & Hm & Wi & Ws & d & v & Hk & Wd & Ha & Hb & Ei & Es).
    destruct (mfind m c) as [l|] eqn:Em.
    2:{ exists st. split; [reflexivity|]. eapply nearest_ext; [|exact HS]. intros x. split; [auto|]. intros [Hx|[Hx E]]; [exact Hx|].
        exfalso. destruct (Hm x Hx) as [l El]. rewrite E in El. congruence. }
    cbn [tbox] in HL.
    assert (Bi : forall x, inb (tbox i) x -> inb b x) by (intros x Hx; rewrite Ei in Hx; apply inb_inf in Hx; tauto).
    assert (Bs : forall x, inb (tbox s) x -> inb b x) by (intros x Hx; rewrite Es in Hx; apply inb_sup in Hx; tauto).
    destruct (dbox_inf b d v q Hk Wd Ha) as (ei & Edi & Ei0 & I1 & I2 & I3). rewrite <- Ei in Edi.
    destruct (dbox_sup b d v q Hk Wd Hb) as (es & Eds & Es0 & S1 & S2 & S3). rewrite <- Es in Eds.
    assert (Eg : goes_sup s q = rltb v (q d)).
    { unfold goes_sup. rewrite Es. cbn [sd lo]. rewrite upd_eq. reflexivity. }
    assert (IS : forall b1 b2, LB (tbox i) q b1 -> LB (tbox s) q b2 -> exists st',
      bind (srch w dist i (Fin b1) q c st) (fun st1 => srch w dist s (Fin b2) q c st1) = Ok st' /\ is_nearest dist (fun x => S x \/ cand (Node b k m i s) c x) q st').
    { intros b1 b2 L1 L2. destruct (IHi b1 st S Wi L1 HS) as (st1 & E1 & N1). rewrite E1. cbn [bind].
      destruct (IHs b2 st1 _ Ws L2 N1) as (st2 & E2 & N2). exists st2. split; [exact E2|].
      eapply nearest_ext; [|exact N2]. intros x. rewrite cand_node. tauto. }
    assert (SI : forall b1 b2, LB (tbox i) q b1 -> LB (tbox s) q b2 -> exists st',
      bind (srch w dist s (Fin b2) q c st) (fun st1 => srch w dist i (Fin b1) q c st1) = Ok st' /\ is_nearest dist (fun x => S x \/ cand (Node b k m i s) c x) q st').
    { intros b1 b2 L1 L2. destruct (IHs b2 st S Ws L2 HS) as (st1 & E1 & N1). rewrite E1. cbn [bind].
      destruct (IHi b1 st1 _ Wi L1 N1) as (st2 & E2 & N2). exists st2. split; [exact E2|].
      eapply nearest_ext; [|exact N2]. intros x. rewrite cand_node. tauto. }
    cbn [xis0]. rewrite Eg, Edi, Eds. cbn [bind].
    destruct (reqb_spec beta 0) as [Z|Z].
    + subst beta. destruct (rltb_spec v (q d)) as [Q|Q]; cbn [bind xltb xsq xmul xsub xneg xadd].
      * specialize (I1 ltac:(lra)). destruct (rltb_spec (wt d * ei) 0) as [C|_]; [pose proof (Rmult_le_pos (wt d) ei ltac:(lra) Ei0); lra|].
        apply SI; [|apply LB_0]. rewrite Ei. intros x Hx. apply inb_inf in Hx; [|assumption..]. destruct Hx as [_ Xv].
        pose proof (wsq_term dim wt x q d Hk) as T.
        assert (Sx : (wt d * ei) * (wt d * ei) <= (wt d * (x d - q d)) * (wt d * (x d - q d))).
        { replace ((wt d * (x d - q d)) * (wt d * (x d - q d))) with ((wt d * (q d - x d)) * (wt d * (q d - x d))) by ring.
          apply sq_le; [apply Rmult_le_pos; lra|]. apply Rmult_le_compat_l; lra. }
        lra.
      * specialize (S1 ltac:(lra)). destruct (rltb_spec 0 (wt d * es)) as [C|C].
        -- apply IS; [apply LB_0|]. rewrite Es. intros x Hx. apply inb_sup in Hx; [|assumption..]. destruct Hx as [_ Xv].
           pose proof (wsq_term dim wt x q d Hk) as T.
           assert (Sx : (wt d * es) * (wt d * es) <= (wt d * (x d - q d)) * (wt d * (x d - q d))).
           { apply sq_le; [apply Rmult_le_pos; lra|]. apply Rmult_le_compat_l; lra. }
           lra.
        -- apply SI; [|apply LB_0]. intros x _. pose proof (wsq_nonneg dim wt x q). pose proof (Rle_0_sqr (wt d * es)) as P0. unfold Rsqr in P0. lra.
    + cbn [bind xltb xsq xmul xsub xneg xadd]. destruct (rltb_spec (wt d * ei) (wt d * es)) as [C|C].
      * apply IS; [apply (LB_sub b); [exact HL|exact Bi]|]. rewrite Es.
        replace (beta + - (wt d * ei * (wt d * ei)) + wt d * es * (wt d * es)) with (beta - (wt d * ei) * (wt d * ei) + (wt d * es) * (wt d * es)) by ring.
        apply LB_sup; try assumption. apply Rmult_lt_reg_l in C; assumption.
      * apply SI; [|apply (LB_sub b); [exact HL|exact Bs]]. rewrite Ei.
        replace (beta + - (wt d * es * (wt d * es)) + wt d * ei * (wt d * ei)) with (beta - (wt d * es) * (wt d * es) + (wt d * ei) * (wt d * ei)) by ring.
        apply LB_inf; try assumption. apply Rnot_lt_le in C. apply Rmult_le_reg_l in C; assumption.
Qed.
End Search.

Lemma outside_spec dim b q :
  (forall k, (k < dim)%nat -> match lo b k with Fin _ | MInf => True | _ => False end /\ match hi b k with Fin _ | PInf => True | _ => False end) ->
  outside dim b q = false <-> in_bounds dim (lo b) (hi b) q.
Proof.
  intros Hb. unfold outside, in_bounds. rewrite <- Bool.not_true_iff_false, existsb_exists. split.
  - intros H k Hk. destruct (Hb k Hk) as [L U].
    destruct (xltb (Fin (q k)) (lo b k)) eqn:E1; [exfalso; apply H; exists k; split; [apply in_seq; lia|rewrite E1; reflexivity]|].
    destruct (xltb (hi b k) (Fin (q k))) eqn:E2; [exfalso; apply H; exists k; split; [apply in_seq; lia|rewrite E2; apply Bool.orb_true_r]|].
    destruct (lo b k); try contradiction; destruct (hi b k); try contradiction; cbn [xltb] in *; split; try exact I.
    + destruct (rltb_spec (q k) r); [discriminate|lra].
    + destruct (rltb_spec r0 (q k)); [discriminate|lra].
    + destruct (rltb_spec (q k) r); [discriminate|lra].
    + destruct (rltb_spec r (q k)); [discriminate|lra].
  - intros H (k & Hk & E). apply in_seq in Hk. destruct (H k ltac:(lia)) as [L U]. apply Bool.orb_true_iff in E.
    destruct E as [E|E]; [destruct (lo b k)|destruct (hi b k)]; try contradiction; cbn [xltb] in E; try discriminate.
    + destruct (rltb_spec (q k) r); [lra|discriminate].
    + destruct (rltb_spec r (q k)); [lra|discriminate].
Qed.
