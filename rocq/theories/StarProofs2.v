(* computeParentMap: termination, tree of shortest out paths. *)
From Verif Require Import Base Reach RoadmapModel RoadmapSpec RoadmapProofs RoadmapProofs2 StarModel StarSpec StarProofs.
From Coq Require Import Lqa Permutation.

Section S.
Context {C P : Type}.
Variable plen : P -> Q.
Hypothesis HL : forall p, (0 <= plen p)%Q.
Variable pop : list (label P) -> option (label P * list (label P)).
Hypothesis HPOP : queue_ok pop.
Variable s : rm C P.
Hypothesis HI : inv s.
Variable root : nat.
Hypothesis HR : In root (nodes s).
Notation label := (label P).
Notation cost_to := (cost_to plen).
Notation visited := (visited P).
Notation edgeP := (edge P).
Implicit Types v : visited.

Definition outs (n : nat) : list edgeP := match ninfo s n with Some nd => nout nd | None => [] end.
Lemma outs_ok n e : In e (outs n) -> In e (edges s) /\ efrom e = n /\ In (eto e) (nodes s) /\
  exists nd, ninfo s n = Some nd /\ In e (nout nd).
Proof.
  unfold outs. destruct (ninfo s n) as [nd|] eqn:E; [|intros []]. intro H.
  destruct (RoadmapProofs2.e_out _ (i_E _ HI) n nd e E H) as [A B]. split; [exact A|]. split; [exact B|].
  split; [apply (RoadmapProofs2.e_end _ (i_E _ HI) e A)|eauto].
Qed.
Lemma outs_in n nd e : ninfo s n = Some nd -> In e (nout nd) -> In e (outs n).
Proof. unfold outs; intros ->; auto. Qed.

(* the label walks *)
Definition low v (n : nat) (d : Q) : Prop := exists e k, v n = Some (e, k) /\ (k <= d)%Q.
Inductive wl v : nat -> Q -> list nat -> Prop :=
| wl0 : wl v root 0%Q []
| wl1 u d ns e : wl v u d ns -> ~ In u ns -> low v u d -> In e (outs u) -> wl v (eto e) (d + plen (epath e))%Q (u :: ns).
Definition sub v v' : Prop := forall n d, low v n d -> low v' n d.
Lemma wl_sub v v' n d ns : sub v v' -> wl v n d ns -> wl v' n d ns.
Proof. intros H; induction 1; [constructor|constructor; auto]. Qed.
Lemma wl_node v n d ns : wl v n d ns -> In n (nodes s).
Proof. destruct 1; [exact HR|]. apply (outs_ok u e H2). Qed.
Lemma wl_ns v n d ns : wl v n d ns -> NoDup ns /\ incl ns (nodes s) /\ forall x, In x ns -> low v x d.
Proof.
  induction 1 as [|u d ns e H [I1 [I2 I3]] Hn Hl He].
  - split; [constructor|]. split; [intros x []|intros x []].
  - split; [constructor; assumption|]. pose proof (HL (epath e)) as Hp. split.
    + intros x [<-|Hx]; [eapply wl_node; exact H|auto].
    + assert (K : forall x, low v x d -> low v x (d + plen (epath e))) by (intros x [e' [k [A B]]]; exists e', k; split; [exact A|lra]).
      intros x [<-|Hx]; apply K; auto.
Qed.
Lemma better_fresh v c ns : better P v c = true -> wl v (l_node P c) (l_cost P c) ns -> ~ In (l_node P c) ns.
Proof.
  intros HB HW Hi. destruct (wl_ns _ _ _ _ HW) as [_ [_ H]]. destruct (H _ Hi) as [e [k [A B]]].
  unfold better in HB. rewrite A in HB. destruct (Qlt_le_dec _ _); [lra|discriminate].
Qed.

(* the finitely many values of the labels *)
Fixpoint walks (k : nat) : list (nat * Q) :=
  match k with
  | O => [(root, 0%Q)]
  | S k => walks k ++ flat_map (fun '(u, d) => map (fun e => (eto e, (d + plen (epath e))%Q)) (outs u)) (walks k)
  end.
Lemma walks_le i j x : i <= j -> In x (walks i) -> In x (walks j).
Proof. induction 1; [auto|]. intro X. cbn [walks]. apply in_or_app; left; auto. Qed.
Lemma wl_walks v n d ns : wl v n d ns -> In (n, d) (walks (length ns)).
Proof.
  induction 1 as [|u d ns e H IH Hn Hl He]; [left; reflexivity|]. cbn [length walks]. apply in_or_app; right.
  apply in_flat_map. exists (u, d); split; [exact IH|]. apply in_map_iff. exists e; auto.
Qed.
Definition Ls := map snd (walks (length (nodes s))).
Lemma wl_Ls v c ns : better P v c = true -> wl v (l_node P c) (l_cost P c) ns -> In (l_cost P c) Ls.
Proof.
  intros HB HW. apply in_map_iff. exists (l_node P c, l_cost P c); split; [reflexivity|].
  apply (walks_le (length ns)); [|eapply wl_walks; exact HW].
  destruct (wl_ns _ _ _ _ HW) as [H1 [H2 _]]. apply NoDup_incl_length; assumption.
Qed.
Definition ltb (k x : Q) : bool := if Qlt_le_dec x k then true else false.
Definition rank v n : nat := match v n with None => S (length Ls) | Some (_, k) => length (filter (ltb k) Ls) end.
Lemma filter_len {A} (f : A -> bool) l : length (filter f l) <= length l.
Proof. induction l as [|a l IH]; cbn [filter length]; [lia|]. destruct (f a); cbn [length]; lia. Qed.
Lemma filter_lt {A} (f g : A -> bool) l x : (forall a, f a = true -> g a = true) -> In x l -> f x = false -> g x = true ->
  length (filter f l) < length (filter g l).
Proof.
  intros H. assert (M : forall l, length (filter f l) <= length (filter g l)).
  { induction l0 as [|a l0 IH]; cbn [filter]; [lia|]. specialize (H a). destruct (f a); [rewrite H by reflexivity; cbn [length]; lia|].
    destruct (g a); cbn [length]; lia. }
  induction l as [|a l IH]; intros Hi Hf Hg; [destruct Hi|]. cbn [filter]. destruct Hi as [->|Hi].
  - rewrite Hf, Hg. cbn [length]. specialize (M l); lia.
  - specialize (IH Hi Hf Hg). pose proof (H a). destruct (f a); [rewrite H0 by reflexivity; cbn [length]; lia|]. destruct (g a); cbn [length]; lia.
Qed.
Lemma rank_dec v c ns : better P v c = true -> wl v (l_node P c) (l_cost P c) ns ->
  rank (upd v (l_node P c) (Some (l_parent P c, l_cost P c))) (l_node P c) < rank v (l_node P c).
Proof.
  intros HB HW. pose proof (wl_Ls _ _ _ HB HW) as Hin. unfold rank. rewrite upd_eq. unfold better in HB.
  destruct (v (l_node P c)) as [[e k]|].
  - destruct (Qlt_le_dec (l_cost P c) k) as [Hk|]; [|discriminate].
    apply (filter_lt _ _ _ (l_cost P c)); [|exact Hin| |]; unfold ltb.
    + intros a. destruct (Qlt_le_dec a (l_cost P c)); [|discriminate]. destruct (Qlt_le_dec a k); [auto|]. exfalso; lra.
    + destruct (Qlt_le_dec (l_cost P c) (l_cost P c)); [exfalso; lra|reflexivity].
    + destruct (Qlt_le_dec (l_cost P c) k); [reflexivity|exfalso; lra].
  - pose proof (filter_len (ltb (l_cost P c)) Ls). lia.
Qed.
Fixpoint total v (l : list nat) : nat := match l with [] => 0 | n :: l => rank v n + total v l end.
Lemma total_upd v n x l : ~ In n l -> total (upd v n x) l = total v l.
Proof.
  induction l as [|a l IH]; cbn [total]; [reflexivity|]. intro H. rewrite IH by (intro; apply H; right; assumption).
  f_equal. unfold rank. rewrite upd_neq; [reflexivity|]. intro; subst; apply H; left; reflexivity.
Qed.
Lemma total_dec v n x l : NoDup l -> In n l -> rank (upd v n x) n < rank v n -> total (upd v n x) l < total v l.
Proof.
  induction l as [|a l IH]; intros ND Hi HD; [destruct Hi|]. apply NoDup_cons_iff in ND as [N1 N2]. cbn [total].
  destruct Hi as [->|Hi].
  - rewrite total_upd by exact N1. lia.
  - assert (a <> n) by (intro; subst; contradiction). specialize (IH N2 Hi HD).
    assert (rank (upd v n x) a = rank v a) by (unfold rank; rewrite upd_neq; auto). lia.
Qed.
Fixpoint maxdeg (l : list nat) : nat := match l with [] => 0 | n :: l => Nat.max (length (outs n)) (maxdeg l) end.
Lemma maxdeg_le n l : In n l -> length (outs n) <= maxdeg l.
Proof. induction l as [|a l IH]; intro H; [destruct H|]. cbn [maxdeg]. destruct H as [->|H]; [lia|]. specialize (IH H); lia. Qed.
Definition D := maxdeg (nodes s).
Definition measure v (queue : list label) : nat := total v (nodes s) * S D + length queue.

(* ----------------------------------------------------------------- invariant *)
Definition pmo v : pmap P := fun n => option_map fst (v n).
Definition parent_ok v (n : nat) (p : option edgeP) (k : Q) : Prop :=
  match p with
  | None => n = root /\ k = 0%Q
  | Some e => eto e = n /\ In e (outs (efrom e)) /\ exists e' du, v (efrom e) = Some (e', du) /\ (du + plen (epath e) <= k)%Q
  end.
Definition lab v (c : label) : Prop :=
  (exists ns, wl v (l_node P c) (l_cost P c) ns) /\ parent_ok v (l_node P c) (l_parent P c) (l_cost P c).
(* node n is reached with cost at most d, or will be *)
Definition due v (queue : list label) (n : nat) (d : Q) : Prop :=
  low v n d \/ exists c, In c queue /\ l_node P c = n /\ (l_cost P c <= d)%Q.
Record cinv v (queue : list label) : Prop := {
  ci_lab : forall c, In c queue -> lab v c;
  ci_par : forall n p k, v n = Some (p, k) -> parent_ok v n p k;
  ci_chain : forall n, v n <> None -> exists c, cost_to (pmo v) n c;
  ci_root : due v queue root 0;
  ci_out : forall n p k e, v n = Some (p, k) -> In e (outs n) -> due v queue (eto e) (k + plen (epath e)) }.

Lemma cinv0 : cinv (fun _ => None) [mkL P root None 0%Q].
Proof.
  split; try discriminate.
  - intros c [<-|[]]. split; [exists []; constructor|]. split; reflexivity.
  - intros n H; congruence.
  - right. exists (mkL P root None 0%Q). split; [left; reflexivity|]. split; [reflexivity|cbn [l_cost]; lra].
Qed.
Lemma due_sub v v' q q' n d : sub v v' -> incl q q' -> due v q n d -> due v' q' n d.
Proof. intros H1 H2 [H|[c [A B]]]; [left; auto|right; exists c; split; [auto|exact B]]. Qed.
Lemma cinv_drop v c q : better P v c = false -> cinv v (c :: q) -> cinv v q.
Proof.
  intros HB [H1 H2 H3 H4 H5].
  assert (K : forall n d, due v (c :: q) n d -> due v q n d).
  { intros n d [H|[x [[<-|Hx] [A B]]]]; [left; exact H| |right; eauto].
    left. unfold better in HB. subst n. destruct (v (l_node P c)) as [[e k]|] eqn:E; [|discriminate].
    destruct (Qlt_le_dec (l_cost P c) k); [discriminate|]. exists e, k. split; [exact E|lra]. }
  split; auto.
  - intros x Hx; apply H1; right; exact Hx.
  - intros n p k e Hn He. apply K; eauto.
Qed.
Definition kid (c : label) (e : edgeP) : label := mkL P (eto e) (Some e) (l_cost P c + plen (epath e))%Q.

Section Accept.
Variables (v : visited) (c : label) (q : list label).
Hypothesis HC : cinv v (c :: q).
Hypothesis HB : better P v c = true.
Notation n := (l_node P c).
Notation v' := (upd v (l_node P c) (Some (l_parent P c, l_cost P c))).
Lemma acc_lt e k : v n = Some (e, k) -> (l_cost P c < k)%Q.
Proof. intro H. unfold better in HB. rewrite H in HB. destruct (Qlt_le_dec _ _); [assumption|discriminate]. Qed.
Lemma acc_sub : sub v v'.
Proof.
  intros x d [e [k [A B]]]. unfold low, upd. destruct (Nat.eqb_spec x n) as [->|N]; [|eauto].
  apply acc_lt in A. do 2 eexists; split; [reflexivity|lra].
Qed.
Lemma par_sub x p k : parent_ok v x p k -> parent_ok v' x p k.
Proof.
  destruct p as [e|]; [|auto]. intros [A [B [e' [du [E F]]]]]. split; [exact A|]. split; [exact B|].
  destruct (acc_sub (efrom e) du) as [e2 [k2 [X Y]]]; [exists e', du; split; [exact E|lra]|].
  exists e2, k2. split; [exact X|lra].
Qed.
(* nodes on the way from a node with a smaller value are not n *)
Lemma chain_kept x cx : cost_to (pmo v) x cx -> forall p k, v x = Some (p, k) ->
  (forall e k', v n = Some (e, k') -> (k < k')%Q) -> exists c', cost_to (pmo v') x c'.
Proof.
  induction 1 as [x H|x e cx H Hc IH]; intros p k Hx Hk.
  - exists 0%Q. constructor. unfold pmo, upd. destruct (Nat.eqb_spec x n) as [->|N]; [|exact H].
    exfalso. specialize (Hk p k Hx). lra.
  - assert (N : x <> n). { intros ->. specialize (Hk p k Hx). lra. }
    assert (p = Some e) by (unfold pmo in H; rewrite Hx in H; cbn in H; congruence). subst p.
    destruct (ci_par _ _ HC _ _ _ Hx) as [_ [_ [e' [du [E F]]]]]. pose proof (HL (epath e)) as Hp.
    destruct (IH e' du E) as [c' Hc'].
    + intros e2 k2 H2. specialize (Hk e2 k2 H2). lra.
    + exists (c' + plen (epath e))%Q. eapply cost_step; [|exact Hc']. unfold pmo. rewrite upd_neq by exact N. exact H.
Qed.
Lemma chain_new : exists cn, cost_to (pmo v') n cn.
Proof.
  destruct (ci_lab _ _ HC c) as [_ HP]; [left; reflexivity|].
  assert (E : pmo v' n = Some (l_parent P c)) by (unfold pmo; rewrite upd_eq; reflexivity).
  destruct (l_parent P c) as [e|] eqn:EL; [|exists 0%Q; constructor; exact E].
  destruct HP as [_ [_ [e' [du [A B]]]]]. pose proof (HL (epath e)) as Hp.
  destruct (ci_chain _ _ HC (efrom e)) as [cu Hu]; [congruence|].
  destruct (chain_kept _ _ Hu _ _ A) as [c' Hc'].
  - intros e2 k2 H2. apply acc_lt in H2. lra.
  - exists (c' + plen (epath e))%Q. eapply cost_step; [exact E|rewrite <- EL; exact Hc'].
Qed.
Lemma chain_all x cx : cost_to (pmo v) x cx -> exists c', cost_to (pmo v') x c'.
Proof.
  induction 1 as [x H|x e cx H Hc [c' IH]]; (destruct (Nat.eqb_spec x n) as [X|N]; [subst x; apply chain_new|]).
  - exists 0%Q. constructor. unfold pmo. rewrite upd_neq; assumption.
  - exists (c' + plen (epath e))%Q. eapply cost_step; [|exact IH]. unfold pmo. rewrite upd_neq; assumption.
Qed.
Lemma cinv_accept : cinv v' (q ++ map (kid c) (outs n)).
Proof.
  destruct (ci_lab _ _ HC c) as [[ns HW] HP]; [left; reflexivity|].
  assert (K : forall x d, due v (c :: q) x d -> due v' (q ++ map (kid c) (outs n)) x d).
  { intros x d [H|[y [[<-|Hy] [A B]]]].
    - left; apply acc_sub; exact H.
    - left. subst x. exists (l_parent P c), (l_cost P c). split; [apply upd_eq|exact B].
    - right. exists y. split; [apply in_or_app; left; exact Hy|auto]. }
  split.
  - intros y Hy. apply in_app_iff in Hy as [Hy|Hy].
    + destruct (ci_lab _ _ HC y) as [[ns' A] B]; [right; exact Hy|]. split; [exists ns'; eapply wl_sub; [apply acc_sub|exact A]|apply par_sub; exact B].
    + apply in_map_iff in Hy as [e [<- He]]. destruct (outs_ok _ _ He) as [X1 [X2 [X3 _]]]. split.
      * exists (n :: ns). apply wl1; [eapply wl_sub; [apply acc_sub|exact HW]|eapply better_fresh; eassumption| |exact He].
        do 2 eexists; split; [apply upd_eq|lra].
      * cbn [kid l_node l_parent l_cost parent_ok]. split; [reflexivity|]. rewrite X2. split; [exact He|].
        do 2 eexists; split; [apply upd_eq|lra].
  - intros x p k. destruct (Nat.eqb_spec x n) as [->|N].
    + rewrite upd_eq. intro X; injection X as <- <-. apply par_sub; exact HP.
    + rewrite upd_neq by exact N. intro X. apply par_sub, (ci_par _ _ HC); exact X.
  - intros x. destruct (Nat.eqb_spec x n) as [->|N]; [intros _; apply chain_new|].
    rewrite upd_neq by exact N. intro X. destruct (ci_chain _ _ HC x X) as [cx Hx]. eapply chain_all; exact Hx.
  - apply K, (ci_root _ _ HC).
  - intros x p k e. destruct (Nat.eqb_spec x n) as [->|N].
    + rewrite upd_eq. intros X He; injection X as <- <-. right. exists (kid c e).
      split; [apply in_or_app; right; apply in_map; exact He|]. split; [reflexivity|cbn [kid l_cost]; lra].
    + rewrite upd_neq by exact N. intros X He. apply K. eapply (ci_out _ _ HC); eassumption.
Qed.
Lemma measure_accept : measure v' (q ++ map (kid c) (outs n)) < measure v (c :: q).
Proof.
  destruct (ci_lab _ _ HC c) as [[ns HW] _]; [left; reflexivity|].
  pose proof (wl_node _ _ _ _ HW) as Hn.
  pose proof (total_dec v n (Some (l_parent P c, l_cost P c)) (nodes s) (n_nd _ (w_N _ (i_wf _ HI))) Hn (rank_dec _ _ _ HB HW)) as HT.
  pose proof (maxdeg_le n (nodes s) Hn) as HD. fold D in HD.
  unfold measure. rewrite app_length, map_length. cbn [length].
  assert (S (total v' (nodes s)) * S D <= total v (nodes s) * S D) by (apply Nat.mul_le_mono_r; exact HT). cbn [Nat.mul] in H. lia.
Qed.
End Accept.

Lemma cinv_perm v q q' : Permutation q q' -> cinv v q -> cinv v q'.
Proof.
  intros HP [H1 H2 H3 H4 H5].
  assert (K : forall n d, due v q n d -> due v q' n d) by (intros; eapply due_sub; [intros x y Z; exact Z|intros x Hx; eapply Permutation_in; eassumption|assumption]).
  split; auto.
  - intros c Hc. apply H1. eapply Permutation_in; [symmetry; exact HP|exact Hc].
  - intros n p k e Hn He. apply K; eauto.
Qed.
Lemma measure_perm v q q' : Permutation q q' -> measure v q = measure v q'.
Proof. intro H; unfold measure. rewrite (Permutation_length H). reflexivity. Qed.

Lemma loop_ok fuel : forall v q, cinv v q ->
  match cpm_loop C P plen pop fuel s v q with Ok v' => cinv v' [] | Fuel => fuel <= measure v q | _ => False end.
Proof.
  induction fuel as [|k IH]; intros v q HC; cbn [cpm_loop]; [lia|].
  destruct HPOP as [HP1 HP2]. destruct (pop q) as [[c q']|] eqn:E.
  - apply HP2 in E. apply (cinv_perm v _ _ E) in HC. rewrite (measure_perm v _ _ E).
    destruct (better P v c) eqn:HB.
    + assert (HN : In (l_node P c) (nodes s)). { destruct (ci_lab _ _ HC c) as [[ns HW] _]; [left; reflexivity|]. eapply wl_node; exact HW. }
      apply (n_def _ (w_N _ (i_wf _ HI))) in HN. unfold children. pose proof (measure_accept v c q' HC HB) as HM.
      specialize (IH _ _ (cinv_accept v c q' HC HB)). unfold outs in IH, HM. fold (kid c).
      destruct (ninfo s (l_node P c)) as [nd|] eqn:En; [|congruence]. cbn [bind].
      change (map (fun e => mkL P (eto e) (Some e) (l_cost P c + plen (epath e))%Q) (nout nd)) with (map (kid c) (nout nd)).
      destruct (cpm_loop C P plen pop k s _ _); auto. lia.
    + specialize (IH _ _ (cinv_drop _ _ _ HB HC)). destruct (cpm_loop C P plen pop k s v q'); auto.
      unfold measure in *. cbn [length]. lia.
  - destruct q as [|c q]; [exact HC|]. exfalso. apply (HP1 (c :: q)); [discriminate|exact E].
Qed.

(* --------------------------------------------------------------- conclusions *)
Lemma low_path v l : cinv v [] -> forall a d b, low v a d -> out_path s a l b -> low v b (d + len_of plen l).
Proof.
  intro HC. induction l as [|e l IH]; cbn [out_path len_of]; intros a d b Ha Hb.
  - subst b. destruct Ha as [e [k [A B]]]. exists e, k. split; [exact A|lra].
  - destruct Hb as [[nd [H1 H2]] Hb]. destruct Ha as [p [k [A B]]].
    destruct (ci_out _ _ HC a p k e A (outs_in _ _ _ H1 H2)) as [HD|[x [[] _]]].
    assert (HD' : low v (eto e) (d + plen (epath e))).
    { destruct HD as [p' [k' [X Y]]]. exists p', k'; split; [exact X|lra]. }
    destruct (IH _ _ _ HD' Hb) as [p' [k' [X Y]]]. exists p', k'. split; [exact X|lra].
Qed.
Lemma reach_path a b : reach (arc s) a b -> exists l, out_path s a l b.
Proof.
  induction 1 as [x|x y z [e [He [E1 E2]]] _ [l Hl]]; [exists []; reflexivity|].
  destruct (RoadmapProofs2.e_end _ (i_E _ HI) e He) as [F1 _]. rewrite E1 in F1. apply (n_def _ (w_N _ (i_wf _ HI))) in F1.
  destruct (ninfo s x) as [nd|] eqn:En; [|congruence].
  rewrite <- E1 in En. destruct (RoadmapProofs2.e_outc _ (i_E _ HI) e nd He En) as [e' [G1 G2]].
  exists (e' :: l). cbn [out_path]. rewrite E1 in En. split; [eauto|]. rewrite G2, E2. exact Hl.
Qed.
Lemma cost_le_val v n c : cinv v [] -> cost_to (pmo v) n c -> forall p k, v n = Some (p, k) -> (c <= k)%Q.
Proof.
  intros HC. induction 1 as [n H|n e c H Hc IH]; intros p k Hn; pose proof (ci_par _ _ HC _ _ _ Hn) as HP;
    unfold pmo in H; rewrite Hn in H; cbn in H; injection H as ->.
  - destruct HP as [_ ->]; lra.
  - destruct HP as [_ [_ [e' [du [A B]]]]]. specialize (IH _ _ A). lra.
Qed.
Lemma cpm_correct fuel m : computeParentMap C P plen pop fuel s root = Ok m ->
  tree plen s root m /\ (forall n, m n <> None <-> connected_to s root n) /\
  (forall n c l, cost_to m n c -> out_path s root l n -> (c <= len_of plen l)%Q).
Proof.
  unfold computeParentMap. pose proof (loop_ok fuel _ _ cinv0) as HC.
  destruct (cpm_loop C P plen pop fuel s _ _) as [v| | |]; cbn [bind]; intro H; try discriminate.
  assert (Hm : m = pmo v) by (inversion H; reflexivity). subst m. clear H.
  destruct (ci_root _ _ HC) as [HR0|[x [[] _]]].
  assert (RT : forall n c, cost_to (pmo v) n c -> connected_to s root n).
  { induction 1 as [n H|n e c H Hc IH]; unfold pmo in H; destruct (v n) as [[p k]|] eqn:En; cbn in H; try discriminate; injection H as ->.
    - destruct (ci_par _ _ HC _ _ _ En) as [-> _]. apply reach_refl.
    - destruct (ci_par _ _ HC _ _ _ En) as [A [B _]]. destruct (outs_ok _ _ B) as [X1 _].
      eapply reach_snoc; [exact IH|]. exists e; auto. }
  assert (KEY : forall n, pmo v n <> None -> v n <> None) by (intros n; unfold pmo; destruct (v n); [discriminate|auto]).
  split; [split|split].
  - destruct HR0 as [p [k [A B]]]. unfold pmo. rewrite A. cbn. f_equal.
    destruct p as [e|]; [exfalso|reflexivity].
    destruct (ci_par _ _ HC _ _ _ A) as [E1 [_ [e' [du [F1 F2]]]]]. pose proof (HL (epath e)) as Hp.
    destruct (ci_chain _ _ HC root) as [c Hc]; [congruence|].
    (* the root would be below a root *)
    assert (exists r, pmo v r = Some None) as [r Hr].
    { clear -Hc. induction Hc as [n H|n e c H _ IH]; eauto. }
    unfold pmo in Hr. destruct (v r) as [[p' k']|] eqn:Er; cbn in Hr; [|discriminate]. injection Hr as ->.
    destruct (ci_par _ _ HC _ _ _ Er) as [-> _]. congruence.
  - intros n H. unfold pmo in H. destruct (v n) as [[p k]|] eqn:En; cbn in H; [|discriminate]. injection H as ->.
    apply (ci_par _ _ HC _ _ _ En).
  - intros n e H. unfold pmo in H. destruct (v n) as [[p k]|] eqn:En; cbn in H; [|discriminate]. injection H as ->.
    destruct (ci_par _ _ HC _ _ _ En) as [A [B _]]. split; [apply (outs_ok _ _ B)|exact A].
  - intros n H. apply (ci_chain _ _ HC), KEY; exact H.
  - intros n; split; intro H.
    + destruct (ci_chain _ _ HC n (KEY _ H)) as [c Hc]. eapply RT; exact Hc.
    + apply reach_path in H as [l Hl]. destruct (low_path v l HC _ _ _ HR0 Hl) as [p [k [A _]]]. unfold pmo; rewrite A; discriminate.
  - intros n c l Hc Hl. destruct (low_path v l HC _ _ _ HR0 Hl) as [p [k [A B]]].
    pose proof (cost_le_val v n c HC Hc p k A). lra.
Qed.
Lemma cpm_total : exists f0, forall fuel, f0 <= fuel -> exists m, computeParentMap C P plen pop fuel s root = Ok m.
Proof.
  exists (S (measure (fun _ => None) [mkL P root None 0%Q])). intros fuel Hf.
  unfold computeParentMap. pose proof (loop_ok fuel _ _ cinv0) as HC.
  destruct (cpm_loop C P plen pop fuel s _ _) as [v| | |]; cbn [bind]; try contradiction; [eauto|lia].
Qed.
Lemma cpm_outcome fuel : computeParentMap C P plen pop fuel s root <> UB /\ computeParentMap C P plen pop fuel s root <> Throw.
Proof.
  unfold computeParentMap. pose proof (loop_ok fuel _ _ cinv0) as HC.
  destruct (cpm_loop C P plen pop fuel s _ _) as [v| | |]; cbn [bind]; try contradiction; split; discriminate.
Qed.
End S.
