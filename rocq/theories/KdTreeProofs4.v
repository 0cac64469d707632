(* Proofs about the kd-tree, part 4: histories. *)
From Coq Require Import Reals Lra Lia Psatz Permutation.
From Verif Require Import Base XReal PolyProofs KdTreeModel KdTreeSpec KdTreeProofs KdTreeProofs2 KdTreeProofs3.
Open Scope R_scope.

Lemma full_leaf_spec bsize t ns : counted bsize t -> full_leaf bsize t ns ->
  (bsize <= length ns)%nat /\ (forall n, In n ns -> In n (elems t)) /\ (NoDup (elems t) -> NoDup ns).
Proof.
  induction t as [b k m|b k m i IHi s IHs]; cbn [counted full_leaf elems].
  - intros [E L] [-> L']. repeat split; auto; lia.
  - intros [Ci Cs] [H|H].
    + destruct (IHi Ci H) as (A & B & C). split; [exact A|]. split; [intros n Hn; apply in_app_iff; auto|].
      intros N. apply C. clear -N. induction (elems i) as [|x l IH]; [constructor|]. cbn in N. inversion N; subst. constructor; [|auto].
      intros X. apply H1, in_app_iff. auto.
    + destruct (IHs Cs H) as (A & B & C). split; [exact A|]. split; [intros n Hn; apply in_app_iff; auto|].
      intros N. apply C. clear -N. induction (elems i) as [|x l IH]; [exact N|]. cbn in N. inversion N; subst. auto.
Qed.
Lemma merge_counted dim wt bsize comp c1 c2 : c1 <> c2 -> forall t, wf dim wt comp t -> counted bsize t -> counted bsize (merge c1 c2 t).
Proof.
  intros N. induction t as [b k m|b k m i IHi s IHs]; cbn [merge wf counted].
  - intros [K _] [E L]. rewrite (Permutation_length (mnodes_merge m c1 c2 K N)). auto.
  - intros (_ & _ & Wi & Ws & _) [Ci Cs]. auto.
Qed.
Lemma merge_bounded dim wt bsize comp c1 c2 : c1 <> c2 -> forall t, wf dim wt comp t -> bounded bsize t -> bounded bsize (merge c1 c2 t).
Proof.
  intros N. induction t as [b k m|b k m i IHi s IHs]; cbn [merge wf bounded].
  - intros [K _] [E L]. rewrite (Permutation_length (mnodes_merge m c1 c2 K N)). auto.
  - intros (_ & _ & Wi & Ws & _) (Ck & Ci & Cs). auto.
Qed.
Definition is_clear (o : op) : bool := match o with Clear => true | _ => false end.
Lemma present_app ops : existsb is_clear ops = false -> forall ns, exists l, present ops ns = l ++ ns.
Proof.
  induction ops as [|o ops IH]; cbn [existsb]; intros E ns; cbn [present]; [exists []; reflexivity|].
  apply Bool.orb_false_iff in E as [E1 E2]. destruct o; try discriminate; try apply IH, E2.
  destruct (IH E2 (n :: ns)) as [l Hl]. exists (l ++ [n]). rewrite Hl, <- app_assoc. reflexivity.
Qed.
Lemma NoDup_suffix {A} (l1 l2 : list A) : NoDup (l1 ++ l2) -> NoDup l2.
Proof. induction l1; cbn; [auto|]. intros H. inversion H; auto. Qed.

Section Hist.
Variable dim bsize : nat.
Variable w : nat -> option R.
Variable wt : nat -> R.
Hypothesis Hw : forall k, (k < dim)%nat -> w k = Some (wt k) /\ 0 <= wt k.

Lemma differ_wide ns a b : In a ns -> In b ns -> differ dim wt a b -> exists k, wide dim wt ns k.
Proof.
  intros Ha Hb (k & Hk & W & N). exists k. split; [exact Hk|]. split; [exact W|].
  destruct (Rtotal_order (ncfg a k) (ncfg b k)) as [L|[E|L]]; [exists a, b; auto|contradiction|exists b, a; auto].
Qed.
Lemma run_ok fuel ops : forall t comp ns,
  (2 <= bsize)%nat -> Forall (fair_op dim (tbox t)) ops -> existsb is_clear ops = false ->
  wf dim wt comp t -> counted bsize t -> Permutation (elems t) ns ->
  NoDup (present ops ns) -> (forall a b, In a (present ops ns) -> In b (present ops ns) -> a <> b -> differ dim wt a b) ->
  exists st, run dim bsize w (S fuel) ops (t, comp) = Ok st.
Proof.
  induction ops as [|o ops IH]; intros t comp ns B2 Hf Hc W C P ND Hd; cbn [run]; [eexists; reflexivity|].
  inversion Hf as [|? ? Ho Hf']; subst. cbn [existsb] in Hc. apply Bool.orb_false_iff in Hc as [Hc1 Hc2].
  destruct o as [n|c1 c2|c1 c2|]; cbn [fair_op] in Ho; try discriminate; [| |destruct Ho].
  - cbn [present] in *.
    destruct (add_node_ok dim bsize w wt Hw (counted bsize) fuel comp n (or_intror eq_refl) t W Ho C) as [(t1 & E & C1)|(E & l & F & N)].
    + rewrite E. cbn [bind]. pose proof (add_node_good dim bsize w wt Hw (S fuel) comp n t W Ho) as G. rewrite E in G. cbn [good] in G.
      destruct G as (B & W1 & P1). apply (IH t1 comp (n :: ns)); try assumption; [rewrite B; exact Hf'|].
      rewrite P1. cbn [app]. rewrite P. reflexivity.
    + exfalso. destruct (full_leaf_spec bsize t l C F) as (L & Inc & Nd).
      destruct (present_app ops Hc2 (n :: ns)) as [pre Hp]. rewrite Hp in *.
      assert (NDt : NoDup (elems t)).
      { apply (Permutation_NoDup (Permutation_sym P)). apply NoDup_suffix in ND. inversion ND; assumption. }
      specialize (Nd NDt). destruct l as [|a [|b l]]; cbn [length] in L; try lia.
      assert (Nab : a <> b) by (intros X; inversion Nd; subst; apply H1; left; reflexivity).
      assert (In0 : forall x, In x (a :: b :: l) -> In x (pre ++ n :: ns)).
      { intros x Hx. apply in_app_iff. right. right. apply (Permutation_in _ P), Inc, Hx. }
      destruct (differ_wide (a :: b :: l) a b) as [k Hk]; [left; reflexivity|right; left; reflexivity| |exact (N k Hk)].
      apply Hd; [apply In0; left; reflexivity|apply In0; right; left; reflexivity|exact Nab].
  - cbn [present] in *. destruct (merge_elems dim wt comp c1 c2 Ho t W) as [P1 B1].
    apply (IH _ _ ns); try assumption.
    + rewrite B1. exact Hf'.
    + apply merge_wf; assumption.
    + eapply merge_counted; eassumption.
    + rewrite P1. exact P.
Qed.
(* with erasures: a history runs to its end or reads an uninitialised dimension *)
Lemma run_total fuel ops : forall t comp,
  Forall (fair_op dim (tbox t)) ops -> wf dim wt comp t -> bounded bsize t ->
  (exists st, run dim bsize w (S fuel) ops (t, comp) = Ok st) \/ run dim bsize w (S fuel) ops (t, comp) = UB.
Proof.
  induction ops as [|o ops IH]; intros t comp Hf W C; cbn [run]; [left; eexists; reflexivity|].
  inversion Hf as [|? ? Ho Hf']; subst. destruct o as [n|c1 c2|c1 c2|]; cbn [fair_op] in Ho; [| |destruct Ho|].
  - destruct (add_node_ok dim bsize w wt Hw (bounded bsize) fuel comp n (or_introl eq_refl) t W Ho C) as [(t1 & E & C1)|(E & _)];
      rewrite E; cbn [bind]; [|auto].
    pose proof (add_node_good dim bsize w wt Hw (S fuel) comp n t W Ho) as G. rewrite E in G. cbn [good] in G.
    destruct G as (B & W1 & _). apply IH; try assumption. rewrite B. exact Hf'.
  - destruct (merge_elems dim wt comp c1 c2 Ho t W) as [_ B1]. apply IH; [rewrite B1; exact Hf'|apply merge_wf; assumption|eapply merge_bounded; eassumption].
  - destruct (clear_wf dim wt comp t) as (W1 & _ & B1). apply IH; [rewrite B1; exact Hf'|exact W1|].
    clear -C. destruct t as [b k m|b k m i s]; cbn [clear bounded] in *; unfold mnodes; cbn [map concat length]; lia.
Qed.
End Hist.

(* a leaf receives nodes until it is full *)
Lemma run_fill dim bsize w fuel comp b ns : forall k m, ks m -> (k + length ns <= bsize)%nat ->
  exists m', run dim bsize w fuel (map Add ns) (Leaf b k m, comp) = Ok (Leaf b (k + length ns) m', comp) /\
    ks m' /\ Permutation (mnodes m') (ns ++ mnodes m).
Proof.
  induction ns as [|n ns IH]; intros k m K L; cbn [map run length app] in *.
  - rewrite Nat.add_0_r. exists m. auto.
  - assert (E : add_node dim bsize w fuel comp n (Leaf b k m) = Ok (Leaf b (S k) (mupd (mtouch m (comp (nid n))) (comp (nid n)) (cons n)))).
    { destruct fuel; cbn [add_node insert]; destruct (Nat.ltb_spec k bsize); [reflexivity|lia|reflexivity|lia]. }
    rewrite E. cbn [bind]. destruct (IH (S k) (mupd (mtouch m (comp (nid n))) (comp (nid n)) (cons n))) as (m' & E' & K' & P); [apply ks_mupd, ks_touch, K|lia|].
    exists m'. split; [rewrite E', <- plus_n_Sm; reflexivity|]. split; [exact K'|]. rewrite P, mnodes_cons, mnodes_touch.
    symmetry. apply Permutation_middle.
Qed.
Lemma run_app dim bsize w fuel o1 o2 : forall st, run dim bsize w fuel (o1 ++ o2) st = bind (run dim bsize w fuel o1 st) (run dim bsize w fuel o2).
Proof.
  induction o1 as [|o o1 IH]; intros [t comp]; cbn [app run bind]; [reflexivity|].
  destruct o; try apply IH. destruct (add_node dim bsize w fuel comp n t); cbn [bind]; [apply IH|reflexivity..].
Qed.
Lemma add_full dim bsize w fuel comp b k m n : (bsize <= k)%nat -> split dim w b (mtouch m (comp (nid n))) = UB ->
  add_node dim bsize w (S fuel) comp n (Leaf b k m) = UB.
Proof.
  intros L E. cbn [add_node insert]. destruct (Nat.ltb_spec k bsize); [lia|]. rewrite E. reflexivity.
Qed.
Lemma split_dim_unread w ns ks st k : In k ks -> w k = None -> split_dim w ns ks st = UB.
Proof.
  revert st. induction ks as [|k' ks IH]; intros st; [intros []|]. intros [E|H] N; cbn [split_dim]; unfold wread.
  - subst k'. rewrite N. reflexivity.
  - destruct (w k'); cbn [bind]; [|reflexivity]. destruct (xltb _ _); apply IH; assumption.
Qed.
