From Verif Require Import Base RoadSerModel RoadSerSpec.
Open Scope nat_scope.

Section S.
Context {Q P D : Type} (path_ok : P -> bool).
Notation object := (object Q P D).
Notation pay_ok := (pay_ok Q P D path_ok).
Notation save_ptr := (save_ptr Q P D path_ok).
Notation save_ptrs := (save_ptrs Q P D).
Notation load_ptr := (load_ptr Q P D).
Notation load_ptrs := (load_ptrs Q P D).
Implicit Type h : nat -> option object.

(* ------------------------------------------------------------ positions *)
Lemma index_in a l i : index a l = Some i -> i < length l /\ nth_error l i = Some a.
Proof.
  revert i. induction l as [|x l IH]; intros i; cbn [index]; [discriminate|].
  destruct (Nat.eqb_spec x a) as [->|N].
  - intros [= <-]. cbn. split; [lia|reflexivity].
  - destruct (index a l) as [j|]; [|discriminate]. intros [= <-]. destruct (IH j eq_refl). cbn. split; [lia|assumption].
Qed.
Lemma index_none a l : index a l = None <-> ~ In a l.
Proof.
  induction l as [|x l IH]; cbn [index]; [tauto|].
  destruct (Nat.eqb_spec x a) as [->|N].
  - split; [discriminate|]. intros H. exfalso. apply H. left. reflexivity.
  - destruct (index a l) as [j|]; cbn.
    + split; [discriminate|]. intros H. exfalso. assert (Some j = None) by (apply IH; intros I; apply H; right; exact I). discriminate.
    + split; [|reflexivity]. intros _ [E|I]; [congruence|]. apply IH in I; auto.
Qed.
Definition pos (l : list nat) (a : nat) : nat := match index a l with Some i => i | None => 0 end.
Lemma index_app a l m : In a l -> index a (l ++ m) = index a l.
Proof.
  induction l as [|x l IH]; [intros []|]. cbn [app index]. intros I.
  destruct (Nat.eqb_spec x a) as [->|N]; [reflexivity|]. destruct I as [E|I]; [congruence|]. rewrite IH; auto.
Qed.
Lemma pos_app a l m : In a l -> pos (l ++ m) a = pos l a.
Proof. intros H. unfold pos. rewrite index_app; auto. Qed.
Lemma index_app_new a l m : ~ In a l -> index a (l ++ a :: m) = Some (length l).
Proof.
  induction l as [|x l IH]; intros N; cbn [app index length].
  - rewrite Nat.eqb_refl. reflexivity.
  - destruct (Nat.eqb_spec x a) as [->|N2]; [exfalso; apply N; left; reflexivity|].
    rewrite IH; [reflexivity|]. intros I. apply N. right. exact I.
Qed.
Lemma in_index a l : In a l -> exists i, index a l = Some i.
Proof. intros H. destruct (index a l) eqn:E; [eauto|]. apply index_none in E. contradiction. Qed.

Lemma cut_concat {A B} (f : A -> B) (l : list (list A)) : cut (map (@length _) l) (map f (concat l)) = map (map f) l.
Proof.
  induction l as [|x l IH]; [reflexivity|]. cbn [map concat cut]. rewrite map_app.
  rewrite firstn_app, skipn_app, map_length, Nat.sub_diag. cbn [firstn skipn]. rewrite app_nil_r.
  rewrite <- (map_length f x), firstn_all, skipn_all. cbn [app]. rewrite IH. reflexivity.
Qed.
Lemma sum_lengths {A} (l : list (list A)) : list_sum (map (@length _) l) = length (concat l).
Proof. induction l as [|x l IH]; [reflexivity|]. cbn [map list_sum fold_right concat]. rewrite app_length. unfold list_sum in IH. rewrite IH. reflexivity. Qed.

Lemma nodup_snoc (l : list nat) a : NoDup l -> ~ In a l -> NoDup (l ++ [a]).
Proof.
  induction l as [|x l IH]; intros ND I; cbn [app]; [constructor; [intros []|constructor]|].
  inversion ND as [|y l' N1 N2]; subst. constructor.
  - rewrite in_app_iff. intros [H|[H|[]]]; [auto|]. apply I. left. congruence.
  - apply IH; [exact N2|]. intros H. apply I. right. exact H.
Qed.

(* ------------------------------------------------------------ renaming *)
Definition ren (f : nat -> nat) (o : object) : object := mkObj (o_pay o) (map (map (option_map f)) (o_ptrs o)).
Definition ren_at h (f : nat -> nat) (a : nat) : option object :=
  match h a with Some o => Some (ren f o) | None => None end.

(* the members of [a] are known, can be saved and point to objects of [l] *)
Definition done h (l : list nat) (a : nat) : Prop :=
  exists o, h a = Some o /\ pay_ok (o_pay o) = true /\ forall b, In (Some b) (concat (o_ptrs o)) -> In b l.

Lemma ren_ext h f g l a : done h l a -> (forall b, In b l -> f b = g b) -> ren_at h f a = ren_at h g a.
Proof.
  intros (o & E & _ & I) FG. unfold ren_at. rewrite E. unfold ren. do 2 f_equal.
  apply map_ext_in. intros x Hx. apply map_ext_in. intros [b|] Hb; [|reflexivity]. cbn. f_equal. apply FG, I.
  apply in_concat. eauto.
Qed.
Lemma done_app h l m a : done h l a -> done h (l ++ m) a.
Proof. intros (o & E & K & I). exists o. split; [exact E|split; [exact K|]]. intros b Hb. apply in_or_app. left. auto. Qed.



Lemma save_spec h : forall fuel met p met' ts,
  save_ptr h fuel met p = Ok (met', ts) -> NoDup met ->
  exists ext, met' = met ++ ext /\ NoDup met' /\ (forall a, p = Some a -> In a met') /\
    (forall a, In a ext -> done h met' a) /\
    (forall a, In a ext -> exists r, p = Some r /\ reachable h r a) /\
    forall fuel' t rest, fuel <= fuel' -> length t = length met ->
      load_ptr fuel' t (ts ++ rest) = Some (t ++ map (ren_at h (pos met')) ext, option_map (pos met') p, rest).
Proof.
  induction fuel as [|k IH]; intros met p met' ts E ND.
  - destruct p as [a|]; cbn [RoadSerModel.save_ptr] in E.
    + destruct (index a met) as [i|] eqn:I; [|discriminate]. injection E as <- <-.
      exists []. rewrite app_nil_r. destruct (index_in _ _ _ I) as [L N].
      split; [reflexivity|]. split; [exact ND|]. split; [intros b [= <-]; eapply nth_error_In; eauto|].
      split; [intros b []|]. split; [intros b []|].
      intros fuel' t rest _ Lt. destruct fuel'; cbn [app RoadSerModel.load_ptr map];
        rewrite (proj2 (Nat.ltb_lt _ _)) by lia; rewrite app_nil_r; unfold pos; cbn; rewrite I; reflexivity.
    + injection E as <- <-. exists []. rewrite app_nil_r.
      split; [reflexivity|]. split; [exact ND|]. split; [discriminate|]. split; [intros b []|]. split; [intros b []|].
      intros fuel' t rest _ Lt. destruct fuel'; cbn; rewrite app_nil_r; reflexivity.
  - destruct p as [a|]; cbn [RoadSerModel.save_ptr] in E.
    2:{ injection E as <- <-. exists []. rewrite app_nil_r.
      split; [reflexivity|]. split; [exact ND|]. split; [discriminate|]. split; [intros b []|]. split; [intros b []|].
      intros fuel' t rest _ Lt. destruct fuel'; cbn; rewrite app_nil_r; reflexivity. }
    destruct (index a met) as [i|] eqn:I.
    { injection E as <- <-.
      exists []. rewrite app_nil_r. destruct (index_in _ _ _ I) as [L N].
      split; [reflexivity|]. split; [exact ND|]. split; [intros b [= <-]; eapply nth_error_In; eauto|].
      split; [intros b []|]. split; [intros b []|].
      intros fuel' t rest _ Lt. destruct fuel'; cbn [app RoadSerModel.load_ptr map];
        rewrite (proj2 (Nat.ltb_lt _ _)) by lia; rewrite app_nil_r; unfold pos; cbn; rewrite I; reflexivity. }
    apply index_none in I.
    destruct (h a) as [o|] eqn:Ha; [|discriminate].
    destruct (pay_ok (o_pay o)) eqn:K; [|discriminate].
    destruct (save_ptrs (save_ptr h k) (met ++ [a]) (concat (o_ptrs o))) as [[m2 ts2]| | |] eqn:SV; try discriminate.
    cbn [bind fst snd] in E. injection E as <- <-.
    (* the list of pointers *)
    assert (forall ps m m' tl, save_ptrs (save_ptr h k) m ps = Ok (m', tl) -> NoDup m ->
      exists ext, m' = m ++ ext /\ NoDup m' /\ (forall b, In (Some b) ps -> In b m') /\
        (forall b, In b ext -> done h m' b) /\
        (forall b, In b ext -> exists r, In (Some r) ps /\ reachable h r b) /\
        forall fuel' t rest, k <= fuel' -> length t = length m ->
          load_ptrs (load_ptr fuel') (length ps) t (tl ++ rest)
          = Some (t ++ map (ren_at h (pos m')) ext, map (option_map (pos m')) ps, rest)) as LS.
    { clear -IH. induction ps as [|p ps IHl]; intros m m' tl E ND.
      - cbn in E. injection E as <- <-. exists []. rewrite app_nil_r.
        split; [reflexivity|]. split; [exact ND|]. split; [intros b []|]. split; [intros b []|]. split; [intros b []|].
        intros fuel' t rest _ _. cbn. rewrite app_nil_r. reflexivity.
      - cbn [RoadSerModel.save_ptrs] in E.
        destruct (save_ptr h k m p) as [[m1 t1]| | |] eqn:E1; try discriminate. cbn [bind fst snd] in E.
        fold (save_ptrs (save_ptr h k)) in E.
        destruct (save_ptrs (save_ptr h k) m1 ps) as [[m2 t2]| | |] eqn:E2; try discriminate. cbn [bind fst snd] in E.
        injection E as <- <-.
        destruct (IH _ _ _ _ E1 ND) as (e1 & X1 & N1 & P1 & D1 & R1 & L1).
        destruct (IHl _ _ _ E2 N1) as (e2 & X2 & N2 & P2 & D2 & R2 & L2).
        exists (e1 ++ e2). split; [rewrite X2, X1, app_assoc; reflexivity|]. split; [exact N2|].
        split; [|split; [|split]].
        + intros b [->|Hb]; [rewrite X2; apply in_or_app; left; apply P1; reflexivity|auto].
        + intros b Hb. apply in_app_or in Hb. destruct Hb as [Hb|Hb]; [rewrite X2; apply done_app|]; auto.
        + intros b Hb. apply in_app_or in Hb. destruct Hb as [Hb|Hb].
          * destruct (R1 b Hb) as (r & -> & Hr). exists r. split; [left; reflexivity|exact Hr].
          * destruct (R2 b Hb) as (r & Ir & Hr). exists r. split; [right; exact Ir|exact Hr].
        + intros fuel' t rest F Lt. cbn [length RoadSerModel.load_ptrs].
          rewrite <- app_assoc, L1 by assumption. fold (load_ptrs (load_ptr fuel')).
          rewrite L2; [|assumption|rewrite app_length, map_length, X1, app_length; lia].
          rewrite map_app, app_assoc. cbn [map].
          assert (map (ren_at h (pos m1)) e1 = map (ren_at h (pos m2)) e1) as ->.
          { apply map_ext_in. intros b Hb. apply ren_ext with (l := m1); [auto|].
            intros c Hc. rewrite X2. symmetry. apply pos_app. exact Hc. }
          assert (option_map (pos m1) p = option_map (pos m2) p) as ->.
          { destruct p as [b|]; [|reflexivity]. cbn. f_equal. rewrite X2. symmetry. apply pos_app. apply P1. reflexivity. }
          reflexivity. }
    assert (NoDup (met ++ [a])) as ND1.
    { apply nodup_snoc; assumption. }
    destruct (LS _ _ _ _ SV ND1) as (e & X & N & PI & DD & RR & LL).
    assert (pos m2 a = length met) as PA.
    { unfold pos. rewrite X, <- app_assoc. cbn [app]. rewrite index_app_new by exact I. reflexivity. }
    exists (a :: e). split; [rewrite X, <- app_assoc; reflexivity|]. split; [exact N|]. split; [|split; [|split]].
    + intros b [= <-]. rewrite X. apply in_or_app. left. apply in_or_app. right. left. reflexivity.
    + intros b [<-|Hb]; [|auto]. exists o. auto.
    + intros b [<-|Hb]; exists a; split; try reflexivity; [constructor|].
      destruct (RR b Hb) as (r & Ir & Hr). apply in_concat in Ir. destruct Ir as (l & Il & Ib).
      assert (points h a r) as PT by (exists o, l; auto).
      clear -PT Hr. induction Hr as [|x y Hx IHx Hxy]; [eapply rb_step; [constructor|exact PT]|].
      eapply rb_step; [exact IHx|exact Hxy].
    + intros fuel' t rest F Lt. destruct fuel' as [|k']; [lia|]. cbn [app RoadSerModel.load_ptr].
      rewrite sum_lengths, LL; [|lia|rewrite !app_length; cbn; lia].
      rewrite <- app_assoc. unfold set_at. rewrite firstn_app, firstn_all, Nat.sub_diag. cbn [firstn]. rewrite app_nil_r.
      rewrite skipn_app, skipn_all2 by lia. replace (S (length t) - length t) with 1 by lia. cbn [app skipn map option_map].
      rewrite cut_concat, PA, Lt. unfold ren_at at 2. rewrite Ha. reflexivity.
Qed.

(* ------------------------------------------------------------ success *)
Definition unmet (dom met : list nat) : nat := length (filter (fun a => match index a met with Some _ => false | None => true end) dom).
Lemma unmet_app dom met ext : unmet dom (met ++ ext) <= unmet dom met.
Proof.
  unfold unmet. induction dom as [|x dom IH]; [apply Nat.le_refl|]. cbn [filter].
  destruct (index x met) as [i|] eqn:I.
  - rewrite index_app, I; [exact IH|]. destruct (index_in _ _ _ I) as [_ N]. eapply nth_error_In; eauto.
  - destruct (index x (met ++ ext)); cbn [length]; lia.
Qed.
Lemma unmet_new dom met a : In a dom -> ~ In a met -> unmet dom (met ++ [a]) < unmet dom met.
Proof.
  intros Ia Na. unfold unmet. induction dom as [|x dom IH]; [destruct Ia|]. cbn [filter].
  destruct (Nat.eq_dec x a) as [->|N].
  - pose proof (index_app_new a met [] Na) as E. rewrite E.
    apply index_none in Na. rewrite Na. cbn [length]. pose proof (unmet_app dom met [a]). unfold unmet in H. lia.
  - destruct Ia as [E|Ia]; [congruence|]. specialize (IH Ia).
    destruct (index x met) as [i|] eqn:I.
    + rewrite index_app, I; [exact IH|]. destruct (index_in _ _ _ I) as [_ Nn]. eapply nth_error_In; eauto.
    + assert (index x (met ++ [a]) = None) as ->; [|cbn [length]; lia].
      apply index_none. rewrite in_app_iff. intros [H|[H|[]]]; [|congruence]. apply index_none in I. auto.
Qed.

Lemma save_total h dom : closed h dom -> forall fuel met p,
  unmet dom met <= fuel -> (forall a, p = Some a -> In a dom) -> NoDup met ->
  (exists r, save_ptr h fuel met p = Ok r) \/
  (save_ptr h fuel met p = Throw /\ exists a o, In a dom /\ h a = Some o /\ pay_ok (o_pay o) = false).
Proof.
  intros C. induction fuel as [|k IH]; intros met p U Ip ND.
  - destruct p as [a|]; cbn [RoadSerModel.save_ptr]; [|left; eauto].
    destruct (index a met) as [i|] eqn:I; [left; eauto|]. exfalso. apply index_none in I.
    pose proof (unmet_new dom met a (Ip a eq_refl) I). lia.
  - destruct p as [a|]; cbn [RoadSerModel.save_ptr]; [|left; eauto].
    destruct (index a met) as [i|] eqn:I; [left; eauto|]. apply index_none in I.
    destruct (C a (Ip a eq_refl)) as (o & Ha & Cl0). rewrite Ha.
    assert (forall b, In (Some b) (concat (o_ptrs o)) -> In b dom) as Cl.
    { intros b Hb. apply in_concat in Hb. destruct Hb as (l & Hl & Hb). eauto. }
    destruct (pay_ok (o_pay o)) eqn:K; [|right; split; [reflexivity|exists a, o; auto]].
    assert (forall ps m, unmet dom m <= k -> (forall b, In (Some b) ps -> In b dom) -> NoDup m ->
      (exists r, save_ptrs (save_ptr h k) m ps = Ok r) \/
      (save_ptrs (save_ptr h k) m ps = Throw /\ exists a o, In a dom /\ h a = Some o /\ pay_ok (o_pay o) = false)) as L.
    { clear -IH. induction ps as [|p ps IHl]; intros m U Ip ND; [left; eexists; reflexivity|].
      cbn [RoadSerModel.save_ptrs]. fold (save_ptrs (save_ptr h k)).
      destruct (IH m p U) as [[[m1 t1] E]|[E B]]; [intros a ->; apply Ip; left; reflexivity|exact ND| |].
      - rewrite E. cbn [bind fst snd]. destruct (save_spec _ _ _ _ _ _ E ND) as (e & -> & N1 & _).
        destruct (IHl (m ++ e)) as [[[m2 t2] E2]|[E2 B]].
        + pose proof (unmet_app dom m e). lia.
        + intros b Hb. apply Ip. right. exact Hb.
        + exact N1.
        + rewrite E2. left. eexists. reflexivity.
        + rewrite E2. right. split; [reflexivity|exact B].
      - rewrite E. right. split; [reflexivity|exact B]. }
    destruct (L (concat (o_ptrs o)) (met ++ [a])) as [[r E]|[E B]].
    + pose proof (unmet_new dom met a (Ip a eq_refl) I). lia.
    + exact Cl.
    + apply nodup_snoc; assumption.
    + rewrite E. left. eexists. reflexivity.
    + rewrite E. right. split; [reflexivity|exact B].
Qed.
End S.
