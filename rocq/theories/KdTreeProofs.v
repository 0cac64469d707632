(* Proofs about the kd-tree, part 1: maps, trees, insertion. *)
From Coq Require Import Reals Lra Lia.
From Verif Require Import Base XReal PolyProofs KdTreeModel KdTreeSpec.
Open Scope R_scope.

(* ---------------------------------------------------------------- maps *)
Fixpoint ks (m : nmap) : Prop :=
  match m with
  | [] => True
  | (c, _) :: m' => (forall c', In c' (map fst m') -> (c < c')%nat) /\ ks m'
  end.

Lemma mfind_In m c l : mfind m c = Some l -> In c (map fst m).
Proof.
  induction m as [|[c' l'] m IH]; cbn [mfind map fst In]; [discriminate|].
  destruct (Nat.eqb_spec c c'); intros E; [left; auto|right; auto].
Qed.
Lemma mfind_none m c : ~ In c (map fst m) -> mfind m c = None.
Proof.
  intros H. destruct (mfind m c) eqn:E; [|reflexivity]. exfalso. apply H. eapply mfind_In; exact E.
Qed.
Lemma keys_mupd m c f k : In k (map fst (mupd m c f)) -> k = c \/ In k (map fst m).
Proof.
  induction m as [|[c' l] m IH]; cbn [mupd map fst In].
  - intros [H|[]]; auto.
  - destruct (Nat.eqb_spec c c'); [cbn; auto|]. destruct (Nat.ltb_spec c c'); cbn [map fst In]; intros [H1|H1]; auto.
    destruct (IH H1); auto.
Qed.
Lemma ks_mupd m c f : ks m -> ks (mupd m c f).
Proof.
  induction m as [|[c' l] m IH]; cbn [mupd ks]; [split; [intros ? []|exact I]|].
  intros [H1 H2]. destruct (Nat.eqb_spec c c') as [->|N]; [cbn [ks]; auto|].
  destruct (Nat.ltb_spec c c') as [L|L]; cbn [ks].
  - split; [|split; assumption]. cbn [map fst In]. intros k [<-|Hk]; [exact L|]. specialize (H1 k Hk). lia.
  - split; [|auto]. intros k Hk. apply keys_mupd in Hk as [->|Hk]; [lia|auto].
Qed.
Lemma mfind_mupd m c f c' : ks m ->
  mfind (mupd m c f) c' = if (c' =? c)%nat then Some (f (mget m c)) else mfind m c'.
Proof.
  induction m as [|[k l] m IH]; intros H.
  - unfold mget. cbn [mupd mfind]. destruct (c' =? c)%nat; reflexivity.
  - cbn [ks] in H. destruct H as [H1 H2]. cbn [mupd].
    destruct (Nat.eqb_spec c k) as [->|N].
    + unfold mget. cbn [mfind]. rewrite Nat.eqb_refl. destruct (Nat.eqb_spec c' k); reflexivity.
    + destruct (Nat.ltb_spec c k) as [L|L].
      * unfold mget. rewrite (mfind_none ((k, l) :: m) c).
        2:{ cbn [map fst In]. intros [E|E]; [lia|]. specialize (H1 c E). lia. }
        cbn [mfind]. destruct (c' =? c)%nat; reflexivity.
      * cbn [mfind]. unfold mget in *. cbn [mfind]. destruct (Nat.eqb_spec c k) as [|_]; [contradiction|].
        destruct (Nat.eqb_spec c' k) as [->|N'].
        -- destruct (Nat.eqb_spec k c); [lia|reflexivity].
        -- apply IH, H2.
Qed.
Lemma mget_mupd m c f c' : ks m -> mget (mupd m c f) c' = if (c' =? c)%nat then f (mget m c) else mget m c'.
Proof. intros H. unfold mget at 1. rewrite mfind_mupd by exact H. destruct (c' =? c)%nat; reflexivity. Qed.
Lemma ks_touch m c : ks m -> ks (mtouch m c).
Proof. apply ks_mupd. Qed.
Lemma mget_touch m c c' : ks m -> mget (mtouch m c) c' = mget m c'.
Proof. intros H. unfold mtouch. rewrite mget_mupd by exact H. destruct (Nat.eqb_spec c' c) as [->|]; reflexivity. Qed.
Definition has (m : nmap) (c : nat) : Prop := exists l, mfind m c = Some l.
Lemma has_touch m c c' : ks m -> (has (mtouch m c) c' <-> c' = c \/ has m c').
Proof.
  intros H. unfold has, mtouch. rewrite mfind_mupd by exact H. destruct (Nat.eqb_spec c' c) as [->|N].
  - split; [auto|intros _; eexists; reflexivity].
  - split; [auto|intros [E|E]; [contradiction|exact E]].
Qed.
Lemma has_mupd m c f c' : ks m -> (has (mupd m c f) c' <-> c' = c \/ has m c').
Proof.
  intros H. unfold has. rewrite mfind_mupd by exact H. destruct (Nat.eqb_spec c' c) as [->|N].
  - split; [auto|intros _; eexists; reflexivity].
  - split; [auto|intros [E|E]; [contradiction|exact E]].
Qed.
Lemma In_mget m c n : In n (mget m c) -> has m c.
Proof. unfold mget, has. destruct (mfind m c); [eauto|intros []]. Qed.
Lemma mnodes_In m n : ks m -> (In n (mnodes m) <-> exists c, In n (mget m c)).
Proof.
  induction m as [|[k l] m IH]; intros H.
  - unfold mget. cbn. split; [intros []|intros [c []]].
  - cbn [ks] in H. destruct H as [H1 H2]. unfold mnodes in *. cbn [map snd concat]. rewrite in_app_iff, (IH H2). split.
    + intros [E|[c E]].
      * exists k. unfold mget. cbn [mfind]. rewrite Nat.eqb_refl. exact E.
      * exists c. unfold mget in *. cbn [mfind]. destruct (Nat.eqb_spec c k) as [->|_]; [|exact E].
        rewrite mfind_none in E; [destruct E|]. intros K. specialize (H1 k K). lia.
    + intros [c E]. unfold mget in E. cbn [mfind] in E. destruct (Nat.eqb_spec c k) as [Ec|N]; [left; exact E|right; exists c; exact E].
Qed.
Lemma mfind_erase m c c' : mfind (merase m c) c' = if (c' =? c)%nat then None else mfind m c'.
Proof.
  induction m as [|[k l] m IH]; unfold merase in *; cbn [filter mfind fst]; [destruct (c' =? c)%nat; reflexivity|].
  destruct (Nat.eqb_spec k c) as [->|N]; cbn [negb mfind].
  - rewrite IH. destruct (c' =? c)%nat; reflexivity.
  - rewrite IH. destruct (Nat.eqb_spec c' k) as [Ek|]; [|reflexivity]; subst c'. destruct (Nat.eqb_spec k c); [contradiction|reflexivity].
Qed.
Lemma ks_erase m c : ks m -> ks (merase m c).
Proof.
  induction m as [|[k l] m IH]; unfold merase in *; cbn [filter ks fst]; [auto|]. intros [H1 H2].
  destruct (negb (k =? c)%nat); [|auto]. cbn [ks]. split; [|auto].
  intros c' Hc. apply H1. clear -Hc. induction m as [|[a b] m IH]; cbn [filter fst] in Hc; [exact Hc|].
  cbn [map fst In]. destruct (negb (a =? c)%nat); cbn [map fst In] in Hc; [destruct Hc; auto|auto].
Qed.
Lemma mfind_clear m c : mfind (map (fun e : nat * list node => (fst e, @nil node)) m) c = match mfind m c with Some _ => Some [] | None => None end.
Proof.
  induction m as [|[k l] m IH]; cbn [map mfind fst]; [reflexivity|]. destruct (c =? k)%nat; [reflexivity|exact IH].
Qed.
Lemma ks_clear m : ks m -> ks (map (fun e : nat * list node => (fst e, @nil node)) m).
Proof.
  induction m as [|[k l] m IH]; cbn [map ks fst]; [auto|]. intros [H1 H2]. split; [|auto].
  rewrite map_map. cbn [fst]. rewrite (map_ext _ fst) by reflexivity. exact H1.
Qed.
Lemma has_clear m c : has (map (fun e : nat * list node => (fst e, @nil node)) m) c <-> has m c.
Proof.
  unfold has. rewrite mfind_clear. destruct (mfind m c); split; intros [l' E]; try discriminate; eexists; reflexivity.
Qed.
Lemma lmerge_In a : forall b n, In n (lmerge a b) <-> In n a \/ In n b.
Proof.
  induction a as [|x a IHa]; intros b n; [cbn; tauto|].
  induction b as [|y b IHb]; [cbn; tauto|].
  change (lmerge (x :: a) (y :: b)) with (if (nid y <? nid x)%nat then y :: lmerge (x :: a) b else x :: lmerge a (y :: b)).
  destruct (nid y <? nid x)%nat; cbn [In].
  - rewrite IHb. cbn [In]. tauto.
  - rewrite IHa. cbn [In]. tauto.
Qed.
Lemma ks_merge m c1 c2 : ks m -> ks (merge_map m c1 c2).
Proof.
  intros H. unfold merge_map. apply ks_erase. destruct (c1 =? c2)%nat; [|apply ks_mupd]; apply ks_touch, ks_touch, H.
Qed.
Lemma mget_merge m c1 c2 c n : ks m -> c1 <> c2 ->
  (In n (mget (merge_map m c1 c2) c) <-> (c = c1 /\ (In n (mget m c1) \/ In n (mget m c2))) \/ (c <> c1 /\ c <> c2 /\ In n (mget m c))).
Proof.
  intros H N. unfold merge_map. destruct (Nat.eqb_spec c1 c2) as [|_]; [contradiction|].
  unfold mget at 1. rewrite mfind_erase. destruct (Nat.eqb_spec c c2) as [->|N2].
  - split; [intros []|intros [[E _]|[_ [E _]]]; congruence].
  - rewrite mfind_mupd by (apply ks_touch, ks_touch, H). destruct (Nat.eqb_spec c c1) as [->|N1].
    + rewrite !mget_touch by (repeat apply ks_touch; exact H). rewrite lmerge_In. tauto.
    + fold (mget (mtouch (mtouch m c2) c1) c). rewrite !mget_touch by (repeat apply ks_touch; exact H). tauto.
Qed.
Lemma has_merge m c1 c2 c : ks m -> c1 <> c2 -> (has (merge_map m c1 c2) c <-> c = c1 \/ (c <> c2 /\ has m c)).
Proof.
  intros H N. unfold merge_map, has. destruct (Nat.eqb_spec c1 c2) as [|_]; [contradiction|].
  rewrite mfind_erase. destruct (Nat.eqb_spec c c2) as [->|N2].
  - split; [intros [l E]; discriminate|intros [E|[E _]]; congruence].
  - fold (has (mupd (mtouch (mtouch m c2) c1) c1 (fun l => lmerge l (mget (mtouch (mtouch m c2) c1) c2))) c).
    rewrite has_mupd by (repeat apply ks_touch; exact H). rewrite !has_touch by (repeat apply ks_touch; exact H).
    split; [intros [E|[E|[E|E]]]; auto; try congruence|intros [E|[_ E]]; auto].
Qed.

(* ---------------------------------------------------------------- trees *)
Fixpoint elems (t : tree) : list node :=
  match t with Leaf _ _ m => mnodes m | Node _ _ _ i s => elems i ++ elems s end.
Definition above (b : xr) (x : R) : Prop := match b with Fin r => r <= x | MInf => True | _ => False end.
Definition below (b : xr) (x : R) : Prop := match b with Fin r => x <= r | PInf => True | _ => False end.

Section Inv.
Variable dim bsize : nat.
Variable w : nat -> option R.
Variable wt : nat -> R.
Hypothesis Hw : forall k, (k < dim)%nat -> w k = Some (wt k) /\ 0 <= wt k.

Definition inb (b : box) (x : nat -> R) : Prop := in_bounds dim (lo b) (hi b) x.

(* the invariant: components, boxes *)
Fixpoint wf (comp : nat -> nat) (t : tree) : Prop :=
  match t with
  | Leaf b k m => ks m /\ (forall c n, In n (mget m c) -> comp (nid n) = c /\ inb b (ncfg n))
  | Node b k m i s =>
      ks m /\ (forall n, In n (elems i ++ elems s) -> has m (comp (nid n))) /\ wf comp i /\ wf comp s /\
      exists d v, (d < dim)%nat /\ 0 < wt d /\ above (lo b d) v /\ below (hi b d) v /\
        tbox i = mkBox d (lo b) (upd (hi b) d (Fin v)) /\ tbox s = mkBox d (upd (lo b) d (Fin v)) (hi b)
  end.

Lemma inb_inf b d v x : (d < dim)%nat -> above (lo b d) v -> below (hi b d) v ->
  (inb (mkBox d (lo b) (upd (hi b) d (Fin v))) x <-> inb b x /\ x d <= v).
Proof.
  intros Hd Ha Hb. unfold inb, in_bounds. cbn [lo hi]. split.
  - intros H. split.
    + intros k Hk. destruct (H k Hk) as [H1 H2]. split; [exact H1|]. unfold upd in H2. destruct (Nat.eqb_spec k d) as [->|]; [|exact H2].
      unfold below in Hb. destruct (hi b d); try tauto. lra.
    + destruct (H d Hd) as [_ H2]. unfold upd in H2. rewrite Nat.eqb_refl in H2. exact H2.
  - intros [H Hx] k Hk. destruct (H k Hk) as [H1 H2]. split; [exact H1|]. unfold upd. destruct (Nat.eqb_spec k d) as [->|]; assumption.
Qed.
Lemma inb_sup b d v x : (d < dim)%nat -> above (lo b d) v -> below (hi b d) v ->
  (inb (mkBox d (upd (lo b) d (Fin v)) (hi b)) x <-> inb b x /\ v <= x d).
Proof.
  intros Hd Ha Hb. unfold inb, in_bounds. cbn [lo hi]. split.
  - intros H. split.
    + intros k Hk. destruct (H k Hk) as [H1 H2]. split; [|exact H2]. unfold upd in H1. destruct (Nat.eqb_spec k d) as [->|]; [|exact H1].
      unfold above in Ha. destruct (lo b d); try tauto. lra.
    + destruct (H d Hd) as [H1 _]. unfold upd in H1. rewrite Nat.eqb_refl in H1. exact H1.
  - intros [H Hx] k Hk. destruct (H k Hk) as [H1 H2]. split; [|exact H2]. unfold upd. destruct (Nat.eqb_spec k d) as [->|]; assumption.
Qed.
Lemma inb_ext b1 b2 x : lo b1 = lo b2 -> hi b1 = hi b2 -> inb b1 x -> inb b2 x.
Proof. intros E1 E2. unfold inb. rewrite E1, E2. auto. Qed.

Lemma wf_inb comp t : wf comp t -> forall n, In n (elems t) -> inb (tbox t) (ncfg n).
Proof.
  induction t as [b k m|b k m i IHi s IHs]; cbn [wf elems tbox].
  - intros [H1 H2] n Hn. apply mnodes_In in Hn as [c Hn]; [|exact H1]. apply (H2 c n Hn).
  - intros (_ & _ & Hi & Hs & d & v & Hd & _ & Ha & Hb & Ei & Es) n Hn. apply in_app_iff in Hn as [Hn|Hn].
    + specialize (IHi Hi n Hn). rewrite Ei in IHi. apply inb_inf in IHi; tauto.
    + specialize (IHs Hs n Hn). rewrite Es in IHs. apply inb_sup in IHs; tauto.
Qed.
(* ------------------------------------------------------------- splitting *)
Lemma act_lo_spec ns k : ns <> [] -> exists r, act_lo ns k = Fin r /\ (forall n, In n ns -> r <= ncfg n k) /\ exists n, In n ns /\ ncfg n k = r.
Proof.
  intros H. unfold act_lo.
  assert (G : forall l a, (exists r, fold_left (fun a n => if xltb (Fin (ncfg n k)) a then Fin (ncfg n k) else a) l (Fin a) = Fin r /\ r <= a /\
     (forall n, In n l -> r <= ncfg n k) /\ (r = a \/ exists n, In n l /\ ncfg n k = r))).
  { induction l as [|x l IH]; intros a; cbn [fold_left]; [exists a; repeat split; [lra|intros ? []|auto]|].
    cbn [xltb]. destruct (rltb_spec (ncfg x k) a) as [L|L].
    - destruct (IH (ncfg x k)) as (r & E & H1 & H2 & H3). exists r. split; [exact E|]. split; [lra|]. split.
      + intros n [<-|Hn]; auto.
      + destruct H3 as [->|(n & Hn & <-)]; [right; exists x; cbn; auto|right; exists n; cbn; auto].
    - destruct (IH a) as (r & E & H1 & H2 & H3). exists r. split; [exact E|]. split; [lra|]. split.
      + intros n [<-|Hn]; [lra|auto].
      + destruct H3 as [->|(n & Hn & <-)]; [auto|right; exists n; cbn; auto]. }
  destruct ns as [|x l]; [congruence|]. cbn [fold_left xltb].
  destruct (G l (ncfg x k)) as (r & E & H1 & H2 & H3). exists r. split; [exact E|]. split.
  - intros n [<-|Hn]; auto.
  - destruct H3 as [->|(n & Hn & <-)]; [exists x; cbn; auto|exists n; cbn; auto].
Qed.
Lemma act_hi_spec ns k : ns <> [] -> exists r, act_hi ns k = Fin r /\ (forall n, In n ns -> ncfg n k <= r) /\ exists n, In n ns /\ ncfg n k = r.
Proof.
  intros H. unfold act_hi.
  assert (G : forall l a, (exists r, fold_left (fun a n => if xltb a (Fin (ncfg n k)) then Fin (ncfg n k) else a) l (Fin a) = Fin r /\ a <= r /\
     (forall n, In n l -> ncfg n k <= r) /\ (r = a \/ exists n, In n l /\ ncfg n k = r))).
  { induction l as [|x l IH]; intros a; cbn [fold_left]; [exists a; repeat split; [lra|intros ? []|auto]|].
    cbn [xltb]. destruct (rltb_spec a (ncfg x k)) as [L|L].
    - destruct (IH (ncfg x k)) as (r & E & H1 & H2 & H3). exists r. split; [exact E|]. split; [lra|]. split.
      + intros n [<-|Hn]; auto.
      + destruct H3 as [->|(n & Hn & <-)]; [right; exists x; cbn; auto|right; exists n; cbn; auto].
    - destruct (IH a) as (r & E & H1 & H2 & H3). exists r. split; [exact E|]. split; [lra|]. split.
      + intros n [<-|Hn]; [lra|auto].
      + destruct H3 as [->|(n & Hn & <-)]; [auto|right; exists n; cbn; auto]. }
  destruct ns as [|x l]; [congruence|]. cbn [fold_left xltb].
  destruct (G l (ncfg x k)) as (r & E & H1 & H2 & H3). exists r. split; [exact E|]. split.
  - intros n [<-|Hn]; auto.
  - destruct H3 as [->|(n & Hn & <-)]; [exists x; cbn; auto|exists n; cbn; auto].
Qed.
(* the chosen dimension: weight and width are positive; there is one as soon as
   some dimension has a positive weighted width *)
Definition wide (ns : list node) (k : nat) : Prop :=
  (k < dim)%nat /\ 0 < wt k /\ exists a b, In a ns /\ In b ns /\ ncfg a k < ncfg b k.
Lemma split_dim_spec ns ks' :
  (forall k, In k ks' -> (k < dim)%nat) -> forall dw od, 0 <= dw ->
  (forall d, od = Some d -> wide ns d) ->
  exists od', split_dim w ns ks' (Fin dw, od) = Ok od' /\ (forall d, od' = Some d -> wide ns d) /\
    (od' = None -> od = None /\ (dw = 0 -> forall k, In k ks' -> ~ wide ns k)).
Proof.
  induction ks' as [|k ks' IH]; intros Hk dw od Hd Ho; cbn [split_dim].
  - exists od. cbn [snd]. split; [reflexivity|]. split; [exact Ho|]. intros ->. split; [reflexivity|]. intros _ k [].
  - destruct (Hw k) as [Ew Wp]; [apply Hk; left; reflexivity|]. unfold wread. rewrite Ew. cbn [bind fst].
    assert (Hk' : forall k0, In k0 ks' -> (k0 < dim)%nat) by (intros; apply Hk; right; assumption).
    destruct ns as [|n0 ns0] eqn:En.
    + cbn [act_hi act_lo fold_left xsub xneg xadd xmul]. unfold xsign_inf.
      assert (F : xltb (Fin dw) (if rltb 0 (wt k) then MInf else if rltb (wt k) 0 then PInf else NaN) = false).
      { destruct (rltb_spec 0 (wt k)); [reflexivity|]. destruct (rltb_spec (wt k) 0); [lra|reflexivity]. }
      rewrite F. destruct (IH Hk' dw od Hd Ho) as (od' & E & H1 & H2). exists od'. split; [exact E|]. split; [exact H1|].
      intros N. destruct (H2 N) as [H3 H4]. split; [exact H3|]. intros Z k0 [<-|K]; [|auto]. intros (_ & _ & a & b & [] & _).
    + rewrite <- En in *. assert (Ne : ns <> []) by (rewrite En; discriminate). clear n0 ns0 En.
      destruct (act_lo_spec ns k Ne) as (l & El & L1 & (nl & Nl & L2)).
      destruct (act_hi_spec ns k Ne) as (h & Eh & U1 & (nh & Nh & U2)).
      rewrite El, Eh. cbn [xsub xneg xadd xmul xltb].
      assert (LH : l <= h) by (rewrite <- L2; apply U1; exact Nl).
      destruct (rltb_spec dw ((h + - l) * wt k)) as [C|C].
      * assert (Wk : wide ns k).
        { split; [apply Hk; left; reflexivity|]. assert (0 < wt k) by (destruct Wp as [?|Z]; [assumption|exfalso; rewrite <- Z in C; lra]).
          split; [assumption|]. exists nl, nh. repeat split; try assumption.
          destruct (Rle_lt_or_eq_dec l h LH) as [?|Z]; [lra|]. exfalso. rewrite Z in C. replace ((h + - h) * wt k) with 0 in C by ring. lra. }
        destruct (IH Hk' (h + - l) (Some k)) as (od' & E & H1 & H2); [lra|intros d E; injection E as <-; exact Wk|].
        exists od'. split; [exact E|]. split; [exact H1|]. intros N. destruct (H2 N) as [X _]. discriminate.
      * destruct (IH Hk' dw od Hd Ho) as (od' & E & H1 & H2). exists od'. split; [exact E|]. split; [exact H1|].
        intros N. destruct (H2 N) as [H3 H4]. split; [exact H3|]. intros Z k0 [<-|K]; [|auto].
        intros (_ & W & a & b & Ha & Hb & Lab). specialize (L1 a Ha). specialize (U1 b Hb). subst dw.
        assert (0 < (h + - l) * wt k) by (apply Rmult_lt_0_compat; lra). lra.
Qed.
Lemma split_spec b m :
  (forall n, In n (mnodes m) -> inb b (ncfg n)) ->
  (exists d v, wide (mnodes m) d /\ above (lo b d) v /\ below (hi b d) v /\
     (exists n, In n (mnodes m) /\ ncfg n d <= v) /\ (exists n, In n (mnodes m) /\ v < ncfg n d) /\
     split dim w b m = Ok (Leaf (mkBox d (lo b) (upd (hi b) d (Fin v))) 0 [], Leaf (mkBox d (upd (lo b) d (Fin v)) (hi b)) 0 [])) \/
  ((forall k, ~ wide (mnodes m) k) /\ split dim w b m = UB).
Proof.
  intros Hb. unfold split.
  destruct (split_dim_spec (mnodes m) (seq 0 dim)) with (dw := 0) (od := @None nat) as (od & E & H1 & H2);
    [intros k Hk; apply in_seq in Hk; lia|lra|discriminate|].
  rewrite E. cbn [bind]. destruct od as [d|].
  - left. destruct (H1 d eq_refl) as (Hd & Wd & x & y & Hx & Hy & Lxy).
    assert (Ne : mnodes m <> []) by (intros Z; rewrite Z in Hx; destruct Hx).
    destruct (act_lo_spec (mnodes m) d Ne) as (l & El & L1 & (nl & Nl & L2)).
    destruct (act_hi_spec (mnodes m) d Ne) as (h & Eh & U1 & (nh & Nh & U2)).
    assert (LH : l < h) by (specialize (L1 x Hx); specialize (U1 y Hy); lra).
    exists d, ((h + l) * / 2). rewrite El, Eh. cbn [xadd xmul].
    destruct (Hb nl Nl d Hd) as [B1 _]. destruct (Hb nh Nh d Hd) as [_ B2].
    split; [apply H1; reflexivity|]. split; [unfold above; destruct (lo b d); try tauto; lra|].
    split; [unfold below; destruct (hi b d); try tauto; lra|].
    split; [exists nl; split; [assumption|lra]|]. split; [exists nh; split; [assumption|lra]|reflexivity].
  - right. split; [|reflexivity]. intros k Hk. destruct (H2 eq_refl) as [_ H3]. apply (H3 eq_refl k); [|exact Hk].
    apply in_seq. destruct Hk as [Hk _]. lia.
Qed.
End Inv.
