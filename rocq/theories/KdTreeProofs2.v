(* Proofs about the kd-tree, part 2: insertion keeps the invariant. *)
From Coq Require Import Reals Lra Lia Permutation.
From Verif Require Import Base XReal PolyProofs KdTreeModel KdTreeSpec KdTreeProofs.
Open Scope R_scope.

Lemma mnodes_touch m c : mnodes (mtouch m c) = mnodes m.
Proof.
  unfold mtouch, mnodes. induction m as [|[k l] m IH]; [reflexivity|]. cbn [mupd].
  destruct (c =? k)%nat; [reflexivity|]. destruct (c <? k)%nat; [reflexivity|]. cbn [map snd concat]. rewrite IH. reflexivity.
Qed.
Lemma mnodes_cons m c n : Permutation (mnodes (mupd m c (cons n))) (n :: mnodes m).
Proof.
  unfold mnodes. induction m as [|[k l] m IH]; [reflexivity|]. cbn [mupd].
  destruct (c =? k)%nat; [reflexivity|]. destruct (c <? k)%nat; [reflexivity|]. cbn [map snd concat]. rewrite IH.
  symmetry. apply Permutation_middle.
Qed.
Lemma mnodes_clear m : mnodes (map (fun e : nat * list node => (fst e, @nil node)) m) = [].
Proof. unfold mnodes. induction m; [reflexivity|]. cbn. assumption. Qed.
Lemma mget_miss m c : ~ In c (map fst m) -> mget m c = [].
Proof. intros H. unfold mget. rewrite mfind_none by exact H. reflexivity. Qed.
Lemma mnodes_mupd m c f : ks m -> Permutation (mnodes (mupd m c f) ++ mget m c) (mnodes m ++ f (mget m c)).
Proof.
  unfold mnodes. induction m as [|[k l] m IH]; intros H.
  - cbn. rewrite !app_nil_r. reflexivity.
  - cbn [ks] in H. destruct H as [H1 H2]. cbn [mupd]. unfold mget in *. cbn [mfind].
    destruct (Nat.eqb_spec c k) as [E|N].
    + cbn [map snd concat]. etransitivity; [apply Permutation_app_comm|].
      rewrite <- app_assoc. apply Permutation_app_head. apply Permutation_app_comm.
    + destruct (Nat.ltb_spec c k) as [L|L].
      * rewrite (mfind_none m c) by (intros K; specialize (H1 c K); lia). cbn [map snd concat]. rewrite app_nil_r.
        rewrite Permutation_app_comm. reflexivity.
      * cbn [map snd concat]. rewrite <- !app_assoc. apply Permutation_app_head. apply IH, H2.
Qed.
Lemma mnodes_erase m c : ks m -> Permutation (mnodes (merase m c) ++ mget m c) (mnodes m).
Proof.
  unfold mnodes, merase. induction m as [|[k l] m IH]; intros H; [reflexivity|].
  cbn [ks] in H. destruct H as [H1 H2]. cbn [filter fst]. unfold mget in *. cbn [mfind]. rewrite (Nat.eqb_sym c k).
  destruct (Nat.eqb_spec k c) as [E|N]; cbn [negb map snd concat].
  - rewrite Permutation_app_comm. apply Permutation_app_head. specialize (IH H2).
    rewrite mfind_none in IH by (intros K; specialize (H1 c K); lia). rewrite app_nil_r in IH. exact IH.
  - rewrite <- app_assoc. apply Permutation_app_head. apply IH, H2.
Qed.
Lemma lmerge_perm a : forall b, Permutation (lmerge a b) (a ++ b).
Proof.
  induction a as [|x a IHa]; intros b; [reflexivity|].
  induction b as [|y b IHb]; [cbn; rewrite app_nil_r; reflexivity|].
  change (lmerge (x :: a) (y :: b)) with (if (nid y <? nid x)%nat then y :: lmerge (x :: a) b else x :: lmerge a (y :: b)).
  destruct (nid y <? nid x)%nat.
  - rewrite IHb. apply Permutation_middle.
  - rewrite IHa. reflexivity.
Qed.
Lemma mnodes_merge m c1 c2 : ks m -> c1 <> c2 -> Permutation (mnodes (merge_map m c1 c2)) (mnodes m).
Proof.
  intros H N. unfold merge_map. destruct (Nat.eqb_spec c1 c2) as [|_]; [contradiction|].
  set (m1 := mtouch (mtouch m c2) c1).
  assert (K : ks m1) by (repeat apply ks_touch; exact H).
  assert (E1 : mnodes m1 = mnodes m) by (unfold m1; rewrite !mnodes_touch; reflexivity).
  set (m2 := mupd m1 c1 (fun l => lmerge l (mget m1 c2))).
  assert (E2 : mget m2 c2 = mget m1 c2).
  { unfold m2. rewrite mget_mupd by exact K. destruct (Nat.eqb_spec c2 c1) as [E|_]; [congruence|reflexivity]. }
  pose proof (mnodes_erase m2 c2 (ks_mupd _ _ _ K)) as P1. rewrite E2 in P1.
  pose proof (mnodes_mupd m1 c1 (fun l => lmerge l (mget m1 c2)) K) as P2. fold m2 in P2. rewrite lmerge_perm in P2.
  rewrite <- P1 in P2. rewrite E1 in P2. rewrite <- app_assoc in P2.
  rewrite (Permutation_app_comm (mget m1 c1)) in P2. eapply Permutation_app_inv_r; exact P2.
Qed.

Section Add.
Variable dim bsize : nat.
Variable w : nat -> option R.
Variable wt : nat -> R.
Hypothesis Hw : forall k, (k < dim)%nat -> w k = Some (wt k) /\ 0 <= wt k.
Notation wf := (wf dim wt).
Notation inb := (inb dim).

Definition good (comp : nat -> nat) (ns : list node) (t : tree) (r : res tree) : Prop :=
  match r with
  | Ok t' => tbox t' = tbox t /\ wf comp t' /\ Permutation (elems t') (ns ++ elems t)
  | Throw => False
  | _ => True
  end.
Lemma wf_touch comp b k m c : wf comp (Leaf b k m) -> wf comp (Leaf b k (mtouch m c)).
Proof.
  cbn [KdTreeProofs.wf]. intros [H1 H2]. split; [apply ks_touch, H1|]. intros c' n Hn. rewrite mget_touch in Hn by exact H1. auto.
Qed.
Lemma insert_good full comp n :
  (forall b k m, wf comp (Leaf b k m) -> inb b (ncfg n) -> good comp [n] (Leaf b k m) (full b k m)) ->
  forall t, wf comp t -> inb (tbox t) (ncfg n) -> good comp [n] t (insert bsize full comp n t).
Proof.
  intros Hf. induction t as [b k m|b k m i IHi s IHs]; intros Ht Hn; cbn [insert tbox] in *.
  - pose proof (wf_touch comp b k m (comp (nid n)) Ht) as Ht1. set (m1 := mtouch m (comp (nid n))) in *.
    assert (E1 : mnodes m1 = mnodes m) by apply mnodes_touch.
    destruct (k <? bsize)%nat.
    + cbn [good tbox KdTreeProofs.wf elems app]. destruct Ht1 as [K1 K2]. split; [reflexivity|]. split.
      * split; [apply ks_mupd, K1|]. intros c x Hx. rewrite mget_mupd in Hx by exact K1.
        destruct (Nat.eqb_spec c (comp (nid n))) as [E|_]; [|auto]. destruct Hx as [<-|Hx]; [auto|]. rewrite E. apply K2, Hx.
      * rewrite mnodes_cons, E1. reflexivity.
    + specialize (Hf b k m1 Ht1 Hn). destruct (full b k m1); cbn [good tbox elems] in *; try exact I; try contradiction.
      rewrite E1 in Hf. exact Hf.
  - pose proof Ht as Ht'. cbn [KdTreeProofs.wf] in Ht'. destruct Ht' as (K & Hm & Wi & Ws & d & v & Hd & Wd & Ha & Hb & Ei & Es).
    assert (Eg : goes_sup s (ncfg n) = rltb v (ncfg n d)).
    { unfold goes_sup. rewrite Es. cbn [sd lo]. rewrite upd_eq. reflexivity. }
    rewrite Eg. destruct (rltb_spec v (ncfg n d)) as [L|L].
    + assert (Hs : inb (tbox s) (ncfg n)) by (rewrite Es; apply inb_sup; [assumption..|split; [assumption|lra]]).
      specialize (IHs Ws Hs). destruct (insert bsize full comp n s) as [s1| | |]; cbn [bind good] in *; try exact I; try contradiction.
      destruct IHs as (B & W & P). cbn [tbox KdTreeProofs.wf elems app]. cbn [app] in P.
      assert (PP : Permutation (elems i ++ elems s1) (n :: elems i ++ elems s)).
      { rewrite P. symmetry. apply Permutation_middle. }
      split; [reflexivity|]. split; [|exact PP].
      split; [apply ks_touch, K|]. split.
      * intros x Hx. apply has_touch; [exact K|]. apply (Permutation_in _ PP) in Hx as [<-|Hx]; [left; reflexivity|right; auto].
      * split; [exact Wi|]. split; [exact W|]. exists d, v. rewrite B. auto 8.
    + assert (Hs : inb (tbox i) (ncfg n)) by (rewrite Ei; apply inb_inf; [assumption..|split; [assumption|lra]]).
      specialize (IHi Wi Hs). destruct (insert bsize full comp n i) as [i1| | |]; cbn [bind good] in *; try exact I; try contradiction.
      destruct IHi as (B & W & P). cbn [tbox KdTreeProofs.wf elems app]. cbn [app] in P.
      assert (PP : Permutation (elems i1 ++ elems s) (n :: elems i ++ elems s)).
      { rewrite P. reflexivity. }
      split; [reflexivity|]. split; [|exact PP].
      split; [apply ks_touch, K|]. split.
      * intros x Hx. apply has_touch; [exact K|]. apply (Permutation_in _ PP) in Hx as [<-|Hx]; [left; reflexivity|right; auto].
      * split; [exact W|]. split; [exact Ws|]. exists d, v. rewrite B. auto 8.
Qed.
Lemma add_list_good add comp b :
  (forall n t, wf comp t -> tbox t = b -> inb b (ncfg n) -> good comp [n] t (add n t)) ->
  forall ns t, wf comp t -> tbox t = b -> (forall n, In n ns -> inb b (ncfg n)) -> good comp ns t (add_list add ns t).
Proof.
  intros Ha. induction ns as [|n ns IH]; intros t Ht Hb Hn; cbn [add_list].
  - cbn [good app]. auto.
  - pose proof (Ha n t Ht Hb (Hn n (or_introl eq_refl))) as G. destruct (add n t) as [t1| | |]; cbn [bind good] in *; try exact I; try contradiction.
    destruct G as (B & W & P).
    assert (Hn' : forall x, In x ns -> inb b (ncfg x)) by (intros; apply Hn; right; assumption).
    specialize (IH t1 W (eq_trans B Hb) Hn'). destruct (add_list add ns t1) as [t2| | |]; cbn [good] in *; try exact I; try contradiction.
    destruct IH as (B2 & W2 & P2). split; [congruence|]. split; [exact W2|]. rewrite P2, P. cbn [app].
    symmetry. apply Permutation_middle.
Qed.
Lemma wf_split comp b k m d v :
  (d < dim)%nat -> 0 < wt d -> above (lo b d) v -> below (hi b d) v -> ks m ->
  wf comp (Node b k (map (fun e : nat * list node => (fst e, @nil node)) m)
    (Leaf (mkBox d (lo b) (upd (hi b) d (Fin v))) 0 []) (Leaf (mkBox d (upd (lo b) d (Fin v)) (hi b)) 0 [])).
Proof.
  intros Hd W A B K. cbn [KdTreeProofs.wf elems tbox].
  split; [apply ks_clear, K|]. split; [intros n []|].
  split; [split; [exact I|intros c n []]|]. split; [split; [exact I|intros c n []]|].
  exists d, v. auto 8.
Qed.
Lemma add_node_good fuel comp : forall n t, wf comp t -> inb (tbox t) (ncfg n) ->
  good comp [n] t (add_node dim bsize w fuel comp n t).
Proof.
  induction fuel as [|f IH]; intros n t Ht Hn; cbn [add_node]; apply insert_good; try assumption; intros b k m Hl Hb; [exact I|].
  pose proof Hl as Hl'. cbn [KdTreeProofs.wf] in Hl'. destruct Hl' as [K1 K2].
  assert (Hin : forall x, In x (mnodes m) -> inb b (ncfg x)).
  { intros x Hx. apply mnodes_In in Hx as [c Hx]; [|exact K1]. apply (K2 c x Hx). }
  destruct (split_spec dim w wt Hw b m Hin) as [(d & v & (Hd & Wd & _) & A & B & _ & _ & E)|[_ E]]; rewrite E; cbn [bind]; [|exact I].
  set (t0 := Node _ _ _ _ _).
  assert (W0 : wf comp t0) by (apply wf_split; assumption).
  assert (G : good comp (mnodes m) t0 (add_list (add_node dim bsize w f comp) (mnodes m) t0)).
  { apply (add_list_good _ comp b); [|exact W0|reflexivity|exact Hin]. intros x t1 H1 H2 H3. apply IH; [exact H1|rewrite H2; exact H3]. }
  destruct (add_list (add_node dim bsize w f comp) (mnodes m) t0) as [t1| | |]; cbn [bind good] in *; try exact I; try contradiction.
  destruct G as (B1 & W1 & P1). change (tbox t0) with b in B1. change (elems t0) with (@nil node) in P1. rewrite app_nil_r in P1.
  assert (G2 : good comp [n] t1 (add_node dim bsize w f comp n t1)) by (apply IH; [exact W1|rewrite B1; exact Hb]).
  destruct (add_node dim bsize w f comp n t1) as [t2| | |]; cbn [good] in *; try exact I; try contradiction.
  destruct G2 as (B2 & W2 & P2). split; [rewrite B2; exact B1|]. split; [exact W2|]. rewrite P2, P1. reflexivity.
Qed.

(* merging and erasing *)
Lemma merge_elems comp c1 c2 : c1 <> c2 -> forall t, wf comp t -> Permutation (elems (merge c1 c2 t)) (elems t) /\ tbox (merge c1 c2 t) = tbox t.
Proof.
  intros N. induction t as [b k m|b k m i IHi s IHs]; cbn [merge elems tbox KdTreeProofs.wf].
  - intros [K _]. split; [apply mnodes_merge; assumption|reflexivity].
  - intros (_ & _ & Wi & Ws & _). destruct (IHi Wi) as [Pi _]. destruct (IHs Ws) as [Ps _]. rewrite Pi, Ps. auto.
Qed.
Lemma merge_wf comp c1 c2 : c1 <> c2 -> forall t, wf comp t -> wf (relabel c1 c2 comp) (merge c1 c2 t).
Proof.
  intros N. induction t as [b k m|b k m i IHi s IHs]; cbn [merge KdTreeProofs.wf].
  - intros [K H]. split; [apply ks_merge, K|]. intros c n Hn. apply mget_merge in Hn; [|exact K|exact N]. unfold relabel.
    destruct Hn as [[-> [Hn|Hn]]|(N1 & N2 & Hn)]; destruct (H _ _ Hn) as [E B]; split; try exact B; rewrite E.
    + destruct (c1 =? c2)%nat; reflexivity.
    + rewrite Nat.eqb_refl. reflexivity.
    + destruct (Nat.eqb_spec c c2); [contradiction|reflexivity].
  - intros (K & Hm & Wi & Ws & d & v & Hd & Wd & Ha & Hb & Ei & Es).
    destruct (merge_elems comp c1 c2 N i Wi) as [Pi Bi]. destruct (merge_elems comp c1 c2 N s Ws) as [Ps Bs].
    split; [apply ks_merge, K|]. split.
    + intros n Hn. rewrite Pi, Ps in Hn. specialize (Hm n Hn). apply has_merge; [exact K|exact N|]. unfold relabel.
      destruct (Nat.eqb_spec (comp (nid n)) c2); auto.
    + split; [auto|]. split; [auto|]. exists d, v. rewrite Bi, Bs. auto 8.
Qed.
Lemma clear_wf comp t : wf comp (clear t) /\ elems (clear t) = [] /\ tbox (clear t) = tbox t.
Proof. destruct t; (split; [split; [exact I|intros c n []]|split; reflexivity]). Qed.

(* a history where the tree is told about every merge *)
Definition fair_op (b : box) (o : op) : Prop :=
  match o with Add n => inb b (ncfg n) | KMerge c1 c2 => c1 <> c2 | RMerge _ _ => False | Clear => True end.
Lemma run_good fuel ops : forall t comp t' comp' ns,
  Forall (fair_op (tbox t)) ops -> wf comp t -> Permutation (elems t) ns ->
  run dim bsize w fuel ops (t, comp) = Ok (t', comp') ->
  tbox t' = tbox t /\ wf comp' t' /\ Permutation (elems t') (present ops ns) /\ comp' = component ops comp.
Proof.
  induction ops as [|o ops IH]; intros t comp t' comp' ns Hf Hw0 Hp; cbn [run present component].
  - intros E. injection E as <- <-. auto.
  - inversion Hf as [|? ? Ho Hf']; subst. destruct o as [n|c1 c2|c1 c2|]; cbn [fair_op] in Ho.
    + pose proof (add_node_good fuel comp n t Hw0 Ho) as G. destruct (add_node dim bsize w fuel comp n t) as [t1| | |]; cbn [bind good] in *; try discriminate.
      destruct G as (B & W & P). intros E. apply (IH t1 comp t' comp' (n :: ns)) in E; try assumption.
      * destruct E as (B' & E'). split; [congruence|exact E'].
      * rewrite B. exact Hf'.
      * rewrite P. cbn [app]. rewrite Hp. reflexivity.
    + intros E. destruct (merge_elems comp c1 c2 Ho t Hw0) as [P B]. apply (IH _ _ t' comp' ns) in E.
      * destruct E as (B' & E'). split; [congruence|exact E'].
      * rewrite B. exact Hf'.
      * apply merge_wf; assumption.
      * rewrite P. exact Hp.
    + destruct Ho.
    + intros E. destruct (clear_wf comp t) as (W & P & B). apply (IH _ _ t' comp' []) in E.
      * destruct E as (B' & E'). split; [congruence|exact E'].
      * rewrite B. exact Hf'.
      * exact W.
      * rewrite P. reflexivity.
Qed.

(* -------------------------------------------------------------- no failure *)
(* leaves hold what their counter says, at most the size of a bucket *)
Fixpoint counted (t : tree) : Prop :=
  match t with
  | Leaf _ k m => length (mnodes m) = k /\ (k <= bsize)%nat
  | Node _ _ _ i s => counted i /\ counted s
  end.
(* the same with a counter which may be too large *)
Fixpoint bounded (t : tree) : Prop :=
  match t with
  | Leaf _ k m => (length (mnodes m) <= k /\ k <= bsize)%nat
  | Node _ k _ i s => (k <= bsize)%nat /\ bounded i /\ bounded s
  end.
Fixpoint full_leaf (t : tree) (ns : list node) : Prop :=
  match t with
  | Leaf _ k m => ns = mnodes m /\ (bsize <= k)%nat
  | Node _ _ _ i s => full_leaf i ns \/ full_leaf s ns
  end.
Definition infs (d : nat) (v : R) (ns : list node) : list node := filter (fun n => negb (rltb v (ncfg n d))) ns.
Definition sups (d : nat) (v : R) (ns : list node) : list node := filter (fun n => rltb v (ncfg n d)) ns.
Lemma infs_sups d v ns : (length (infs d v ns) + length (sups d v ns) = length ns)%nat.
Proof.
  unfold infs, sups. induction ns as [|n ns IH]; cbn [filter length]; [reflexivity|].
  destruct (rltb v (ncfg n d)); cbn [negb length]; lia.
Qed.
Lemma some_in (f : node -> bool) ns n : In n ns -> f n = true -> (1 <= length (filter f ns))%nat.
Proof.
  intros H E. destruct (filter f ns) eqn:F; cbn; [|lia]. exfalso. assert (In n (filter f ns)) by (apply filter_In; auto). rewrite F in H0. destruct H0.
Qed.
Lemma add_two f comp b k d v bi bs :
  bs = mkBox d (upd (lo b) d (Fin v)) (hi b) ->
  forall ns ki mi ks ms m,
  (ki + length (infs d v ns) <= bsize)%nat -> (ks + length (sups d v ns) <= bsize)%nat ->
  length (mnodes mi) = ki -> length (mnodes ms) = ks ->
  exists m' mi' ms',
    add_list (add_node dim bsize w f comp) ns (Node b k m (Leaf bi ki mi) (Leaf bs ks ms)) =
      Ok (Node b k m' (Leaf bi (ki + length (infs d v ns)) mi') (Leaf bs (ks + length (sups d v ns)) ms')) /\
    length (mnodes mi') = (ki + length (infs d v ns))%nat /\ length (mnodes ms') = (ks + length (sups d v ns))%nat.
Proof.
  intros Es. induction ns as [|n ns IH]; intros ki mi ks ms m Hi Hs Li Ls; cbn [add_list].
  - cbn [infs sups filter length]. rewrite !Nat.add_0_r. exists m, mi, ms. auto.
  - assert (Eg : forall kk mm, goes_sup (Leaf bs kk mm) (ncfg n) = rltb v (ncfg n d)).
    { intros. unfold goes_sup. rewrite Es. cbn [tbox sd lo]. rewrite upd_eq. reflexivity. }
    unfold infs, sups in *. cbn [filter] in *.
    assert (G : forall full, insert bsize full comp n (Node b k m (Leaf bi ki mi) (Leaf bs ks ms)) =
      if rltb v (ncfg n d) then Ok (Node b k (mtouch m (comp (nid n))) (Leaf bi ki mi) (Leaf bs (S ks) (mupd (mtouch ms (comp (nid n))) (comp (nid n)) (cons n))))
      else Ok (Node b k (mtouch m (comp (nid n))) (Leaf bi (S ki) (mupd (mtouch mi (comp (nid n))) (comp (nid n)) (cons n))) (Leaf bs ks ms))).
    { intros full. cbn [insert]. rewrite Eg. destruct (rltb v (ncfg n d)); cbn [negb length] in *.
      - destruct (Nat.ltb_spec ks bsize) as [_|X]; [reflexivity|lia].
      - destruct (Nat.ltb_spec ki bsize) as [_|X]; [reflexivity|lia]. }
    assert (Ga : add_node dim bsize w f comp n (Node b k m (Leaf bi ki mi) (Leaf bs ks ms)) =
      if rltb v (ncfg n d) then Ok (Node b k (mtouch m (comp (nid n))) (Leaf bi ki mi) (Leaf bs (S ks) (mupd (mtouch ms (comp (nid n))) (comp (nid n)) (cons n))))
      else Ok (Node b k (mtouch m (comp (nid n))) (Leaf bi (S ki) (mupd (mtouch mi (comp (nid n))) (comp (nid n)) (cons n))) (Leaf bs ks ms))).
    { destruct f; cbn [add_node]; apply G. }
    rewrite Ga. clear G Ga. destruct (rltb v (ncfg n d)); cbn [bind negb length] in *.
    + destruct (IH ki mi (S ks) (mupd (mtouch ms (comp (nid n))) (comp (nid n)) (cons n)) (mtouch m (comp (nid n)))) as (m' & mi' & ms' & E & L1 & L2);
        [lia|lia|assumption| |].
      { rewrite (Permutation_length (mnodes_cons _ _ _)). cbn [length]. rewrite mnodes_touch. lia. }
      exists m', mi', ms'. rewrite E, L1, L2. rewrite <- !plus_n_Sm. auto.
    + destruct (IH (S ki) (mupd (mtouch mi (comp (nid n))) (comp (nid n)) (cons n)) ks ms (mtouch m (comp (nid n)))) as (m' & mi' & ms' & E & L1 & L2);
        [lia|lia| |assumption|].
      { rewrite (Permutation_length (mnodes_cons _ _ _)). cbn [length]. rewrite mnodes_touch. lia. }
      exists m', mi', ms'. rewrite E, L1, L2. rewrite <- !plus_n_Sm. auto.
Qed.
Lemma add_list_snoc add ns n t : add_list add (ns ++ [n]) t = bind (add_list add ns t) (add n).
Proof.
  revert t. induction ns as [|x ns IH]; intros t; cbn [app add_list bind].
  - destruct (add n t); reflexivity.
  - destruct (add x t); cbn [bind]; [apply IH|reflexivity..].
Qed.
(* adding a node succeeds, unless a full leaf has no width *)
Lemma add_node_ok (P : tree -> Prop) fuel comp n :
  (P = bounded \/ P = counted) ->
  forall t, wf comp t -> inb (tbox t) (ncfg n) -> P t ->
  (exists t', add_node dim bsize w (S fuel) comp n t = Ok t' /\ P t') \/
  (add_node dim bsize w (S fuel) comp n t = UB /\ exists ns, full_leaf t ns /\ forall k, ~ wide dim wt ns k).
Proof.
  intros HP. cbn [add_node]. set (full := fun b k m => _).
  induction t as [b k m|b k m i IHi s IHs]; intros Ht Hn Hc.
  - pose proof (wf_touch comp b k m (comp (nid n)) Ht) as Ht1. cbn [insert].
    set (m1 := mtouch m (comp (nid n))) in *.
    assert (E1 : mnodes m1 = mnodes m) by apply mnodes_touch.
    assert (Hc' : (length (mnodes m) <= k /\ k <= bsize)%nat) by (destruct HP as [-> | ->]; cbn in Hc; lia).
    destruct (Nat.ltb_spec k bsize) as [L|L].
    + left. eexists. split; [reflexivity|].
      assert (EL : length (mnodes (mupd m1 (comp (nid n)) (cons n))) = S (length (mnodes m)))
        by (rewrite (Permutation_length (mnodes_cons _ _ _)); cbn [length]; rewrite E1; reflexivity).
      destruct HP as [-> | ->]; cbn [bounded counted] in *; rewrite EL; lia.
    + unfold full. cbn [KdTreeProofs.wf] in Ht1. destruct Ht1 as [K1 K2].
      assert (Hin : forall x, In x (mnodes m1) -> inb b (ncfg x)).
      { intros x Hx. apply mnodes_In in Hx as [c Hx]; [|exact K1]. apply (K2 c x Hx). }
      destruct (split_spec dim w wt Hw b m1 Hin) as [(d & v & _ & _ & _ & (n1 & N1 & V1) & (n2 & N2 & V2) & E)|[W E]]; rewrite E; cbn [bind].
      2:{ right. split; [reflexivity|]. exists (mnodes m). cbn [full_leaf]. rewrite E1 in W. auto. }
      left. set (bi := mkBox d (lo b) (upd (hi b) d (Fin v))). set (bs := mkBox d (upd (lo b) d (Fin v)) (hi b)).
      set (t0 := Node _ _ _ _ _).
      assert (I1 : (1 <= length (infs d v (mnodes m1)))%nat).
      { apply (some_in _ _ n1 N1). destruct (rltb_spec v (ncfg n1 d)); [lra|reflexivity]. }
      assert (S1 : (1 <= length (sups d v (mnodes m1)))%nat).
      { apply (some_in _ _ n2 N2). destruct (rltb_spec v (ncfg n2 d)); [reflexivity|lra]. }
      pose proof (infs_sups d v (mnodes m1)) as IS. rewrite E1 in *.
      assert (Ia : (length (infs d v (mnodes m ++ [n])) <= S (length (infs d v (mnodes m))))%nat).
      { unfold infs. rewrite filter_app, app_length. cbn [filter]. destruct (negb (rltb v (ncfg n d))); cbn [length]; lia. }
      assert (Sa : (length (sups d v (mnodes m ++ [n])) <= S (length (sups d v (mnodes m))))%nat).
      { unfold sups. rewrite filter_app, app_length. cbn [filter]. destruct (rltb v (ncfg n d)); cbn [length]; lia. }
      destruct (add_two fuel comp b k d v bi bs eq_refl (mnodes m ++ [n]) 0 [] 0 [] (map (fun e : nat * list node => (fst e, @nil node)) m1))
        as (m' & mi' & ms' & EE & L1 & L2); [lia|lia|reflexivity|reflexivity|].
      rewrite add_list_snoc in EE. fold t0 in EE.
      destruct (add_list (add_node dim bsize w fuel comp) (mnodes m) t0) as [t1| | |]; cbn [bind] in EE; try discriminate.
      cbn [bind]. rewrite EE. eexists. split; [reflexivity|].
      destruct HP as [-> | ->]; cbn [bounded counted]; rewrite L1, L2; lia.
  - pose proof Ht as Ht'. cbn [KdTreeProofs.wf] in Ht'. destruct Ht' as (K & Hm & Wi & Ws & d & v & Hd & Wd & Ha & Hb & Ei & Es).
    assert (Pi : P i /\ P s) by (destruct HP as [-> | ->]; [exact (proj2 Hc)|exact Hc]). destruct Pi as [Pi Ps].
    assert (Pn : forall m' i' s', P i' -> P s' -> P (Node b k m' i' s')) by (destruct HP as [-> | ->]; intros; [split; [exact (proj1 Hc)|split; assumption]|split; assumption]).
    assert (Eg : goes_sup s (ncfg n) = rltb v (ncfg n d)).
    { unfold goes_sup. rewrite Es. cbn [sd lo]. rewrite upd_eq. reflexivity. }
    cbn [insert tbox] in *. rewrite Eg. destruct (rltb_spec v (ncfg n d)) as [L|L].
    + assert (Hs : inb (tbox s) (ncfg n)) by (rewrite Es; apply inb_sup; [assumption..|split; [assumption|lra]]).
      destruct (IHs Ws Hs Ps) as [(s1 & E & C)|(E & ns & F & Wn)]; rewrite E; cbn [bind].
      * left. eexists. split; [reflexivity|]. apply Pn; assumption.
      * right. split; [reflexivity|]. exists ns. cbn [full_leaf]. auto.
    + assert (Hs : inb (tbox i) (ncfg n)) by (rewrite Ei; apply inb_inf; [assumption..|split; [assumption|lra]]).
      destruct (IHi Wi Hs Pi) as [(s1 & E & C)|(E & ns & F & Wn)]; rewrite E; cbn [bind].
      * left. eexists. split; [reflexivity|]. apply Pn; assumption.
      * right. split; [reflexivity|]. exists ns. cbn [full_leaf]. auto.
Qed.
End Add.
