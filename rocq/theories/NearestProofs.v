From Verif Require Import Base RoadmapModel NearestModel.
From Coq Require Import Permutation Lqa.

(* [res] contains K entries of smallest distance among l, in ascending order *)
Fixpoint ascending (d : nat -> Q) (l : list nat) : Prop :=
  match l with
  | [] => True
  | x :: l' => (forall y, In y l' -> (d x <= d y)%Q) /\ ascending d l'
  end.
Record k_smallest (d : nat -> Q) (K : nat) (l out : list nat) : Prop := {
  ks_perm : exists rest, Permutation l (out ++ rest) /\ (forall x y, In x out -> In y rest -> (d x <= d y)%Q);
  ks_len : length out = Nat.min K (length l);
  ks_asc : ascending d out
}.

Section Knn.
Variable sel : list dn -> option (dn * list dn).
Hypothesis sel_ok : is_heap sel.
Variable d : nat -> Q.

Lemma sel_some l x r : sel l = Some (x, r) -> Permutation l (x :: r) /\ forall y, In y l -> (fst y <= fst x)%Q.
Proof.
  intros H. destruct l as [|a l]; [rewrite (proj1 sel_ok) in H; discriminate|].
  destruct (proj2 sel_ok (a :: l)) as [x' [r' [H1 [H2 H3]]]]; [discriminate|].
  rewrite H in H1; injection H1 as <- <-; auto.
Qed.
Lemma sel_none l : sel l = None -> l = [].
Proof.
  intros H. destruct l as [|a l]; [reflexivity|].
  destruct (proj2 sel_ok (a :: l)) as [x' [r' [H1 _]]]; [discriminate|]. congruence.
Qed.

(* state of the scan after the nodes [seen] *)
Record scan (K : nat) (seen : list nat) (ns : list dn) : Prop := {
  sc_perm : exists rest, Permutation seen (map snd ns ++ rest) /\
      (forall x y, In x ns -> In y rest -> (fst x <= d y)%Q);
  sc_len : length ns = Nat.min K (length seen);
  sc_d : forall x, In x ns -> fst x = d (snd x)
}.
Lemma scan_push K seen ns n : 0 < K -> scan K seen ns ->
  exists ns', knn_push sel d K ns n = Ok ns' /\ scan K (seen ++ [n]) ns'.
Proof.
  intros HK [[rest [P1 P2]] HL HD]. unfold knn_push.
  destruct (Nat.ltb_spec (length ns) K) as [Hlt|Hge].
  - eexists; split; [reflexivity|].
    assert (Hseen : length seen = length ns) by lia.
    assert (rest = []) as ->.
    { apply Permutation_length in P1. rewrite app_length, map_length in P1. unfold dn in *; destruct rest; [reflexivity|simpl in P1; lia]. }
    constructor.
    + exists []. split; [|intros x y _ []]. simpl. rewrite app_nil_r in *.
      rewrite <- Permutation_cons_append. apply perm_skip; exact P1.
    + rewrite app_length; simpl; lia.
    + intros x [<-|Hx]; [reflexivity|auto].
  - destruct (sel ns) as [[x r]|] eqn:E.
    + destruct (sel_some _ _ _ E) as [S1 S2].
      destruct (Qlt_le_dec (d n) (fst x)) as [Hd|Hd]; eexists; (split; [reflexivity|]).
      * constructor.
        -- exists (snd x :: rest). split.
           ++ rewrite <- Permutation_cons_append. simpl. apply perm_skip.
              rewrite <- Permutation_middle. rewrite P1. rewrite (Permutation_map snd S1). reflexivity.
           ++ assert (Hx : fst x = d (snd x)) by (apply HD; rewrite S1; left; reflexivity).
              intros y z Hy Hz. simpl in Hy, Hz.
              assert (Hy' : (fst y <= fst x)%Q).
              { destruct Hy as [<-|Hy]; [simpl; lra|]. apply S2; rewrite S1; right; exact Hy. }
              destruct Hz as [<-|Hz]; [rewrite <- Hx; exact Hy'|].
              apply Qle_trans with (fst x); [exact Hy'|]. apply P2; [rewrite S1; left; reflexivity|exact Hz].
        -- apply Permutation_length in S1. simpl in *. rewrite app_length; simpl; lia.
        -- intros y [<-|Hy]; [reflexivity|]. apply HD; rewrite S1; right; exact Hy.
      * constructor.
        -- exists (rest ++ [n]). split.
           ++ rewrite app_assoc. apply Permutation_app_tail; exact P1.
           ++ intros y z Hy Hz. rewrite in_app_iff in Hz; simpl in Hz. destruct Hz as [Hz|[<-|[]]]; [auto|].
              apply Qle_trans with (fst x); [apply S2; exact Hy|exact Hd].
        -- rewrite app_length; simpl; lia.
        -- exact HD.
    + apply sel_none in E; subst ns; simpl in Hge; lia.
Qed.
Lemma scan_all K l : 0 < K -> forall seen ns, scan K seen ns ->
  exists ns', knn_scan sel d K l ns = Ok ns' /\ scan K (seen ++ l) ns'.
Proof.
  intros HK; induction l as [|n l IH]; intros seen ns HS.
  - exists ns; split; [reflexivity|rewrite app_nil_r; exact HS].
  - destruct (scan_push K seen ns n HK HS) as [ns1 [E1 HS1]].
    destruct (IH _ _ HS1) as [ns2 [E2 HS2]]. exists ns2; split.
    + cbn [knn_scan]; rewrite E1; exact E2.
    + rewrite <- app_assoc in HS2; exact HS2.
Qed.

Lemma drain k : forall ns acc, length ns = k -> (forall x, In x ns -> fst x = d (snd x)) ->
  (forall x y, In x ns -> In y acc -> (fst x <= d y)%Q) -> ascending d acc ->
  Permutation (knn_drain sel k ns acc) (map snd ns ++ acc) /\ ascending d (knn_drain sel k ns acc).
Proof.
  induction k as [|k IH]; intros ns acc HL HD HA HS.
  - destruct ns; [|discriminate]. simpl; auto.
  - cbn [knn_drain]. destruct (sel ns) as [[x r]|] eqn:E.
    + destruct (sel_some _ _ _ E) as [S1 S2].
      assert (Hx : fst x = d (snd x)) by (apply HD; rewrite S1; left; reflexivity).
      destruct (IH r (snd x :: acc)) as [I1 I2].
      * apply Permutation_length in S1; simpl in S1; unfold dn in *; lia.
      * intros y Hy; apply HD; rewrite S1; right; exact Hy.
      * intros y z Hy [<-|Hz]; [rewrite <- Hx; apply S2|apply HA; [|exact Hz]]; rewrite S1; right; exact Hy.
      * split; [|exact HS]. intros y Hy. rewrite <- Hx. apply HA; [rewrite S1; left; reflexivity|exact Hy].
      * split; [|exact I2]. rewrite I1, <- Permutation_middle, (Permutation_map snd S1). reflexivity.
    + apply sel_none in E; subst ns; discriminate.
Qed.

Theorem knn_spec K l : 0 < K ->
  exists out m, knn sel d K l = Ok (out, m) /\ k_smallest d K l out /\
    match m with None => l = [] | Some r => exists x, In x out /\ r = d x /\ forall y, In y out -> (d y <= r)%Q end.
Proof.
  intros HK. destruct (scan_all K l HK [] []) as [ns [E HS]].
  { constructor; [exists []; simpl; split; [constructor|intros x y []]|simpl; lia|intros x []]. }
  unfold knn; rewrite E; cbn [bind]. eexists _, _; split; [reflexivity|].
  destruct HS as [[rest [P1 P2]] HL HD]. simpl in P1, HL.
  destruct (drain (length ns) ns [] eq_refl HD) as [D1 D2]; [intros x y _ []|exact I|].
  rewrite app_nil_r in D1.
  assert (Hin : forall x, In x (knn_drain sel (length ns) ns []) <-> exists y, snd y = x /\ In y ns).
  { intros x. rewrite D1. apply in_map_iff. }
  split.
  - constructor.
    + exists rest. split; [rewrite D1; exact P1|].
      intros x y Hx Hy. apply Hin in Hx as [z [<- Hz]]. rewrite <- (HD z Hz). auto.
    + rewrite (Permutation_length D1), map_length. exact HL.
    + exact D2.
  - destruct (sel ns) as [[x r]|] eqn:E2.
    + destruct (sel_some _ _ _ E2) as [S1 S2].
      assert (Hx : In x ns) by (rewrite S1; left; reflexivity).
      exists (snd x). split; [apply Hin; eauto|]. split; [auto|].
      intros y Hy. apply Hin in Hy as [z [<- Hz]]. rewrite <- (HD z Hz). auto.
    + apply sel_none in E2; subst ns. simpl in HL. destruct l; [reflexivity|simpl in HL; lia].
Qed.
Theorem knn_zero l : l <> [] -> knn sel d 0 l = UB.
Proof.
  destruct l as [|n l]; [congruence|]. intros _. unfold knn; simpl. unfold knn_push; simpl.
  rewrite (proj1 sel_ok). reflexivity.
Qed.
End Knn.

Lemma within_ball_In d r l n : In n (within_ball d r l) <-> In n l /\ (d n < r)%Q.
Proof.
  unfold within_ball. rewrite filter_In. destruct (Qlt_le_dec (d n) r) as [H|H]; split; intros [H1 H2]; auto.
  - discriminate.
  - lra.
Qed.
