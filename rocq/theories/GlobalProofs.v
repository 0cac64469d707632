(* Proofs about the global path projector. *)
From Coq Require Import List Bool ZArith Lia.
From Verif Require Import Base QcTac GlobalModel GlobalSpec.
Import ListNotations.
Open Scope Qc_scope.

Section Build.
Variable C : Type.
Variable dist : C -> C -> Qc.
Variable sat : C -> bool.
Notation pts := (list (Qc * C)).
Notation minsert := (minsert C).
Notation insert_all := (insert_all C).
Notation build := (build C sat).

Lemma minsert_in t q (m : pts) x : In x (minsert t q m) -> x = (t, q) \/ In x m.
Proof.
  induction m as [|[t' q'] m IH]; cbn [GlobalModel.minsert]; intros H.
  - destruct H as [<-|[]]. now left.
  - destruct (qltb t t'); [destruct H as [<-|H]; [now left|now right]|].
    destruct (qltb t' t); [|now right].
    destruct H as [<-|H]; [right; now left|]. destruct (IH H) as [->|I]; [now left|right; now right].
Qed.
Lemma insert_all_in l : forall t (m : pts) x, In x (insert_all t l m) -> In x m \/ In (snd x) (map snd l).
Proof.
  induction l as [|[d q] l IH]; intros t m x H; cbn [GlobalModel.insert_all] in H; [now left|].
  destruct (IH _ _ _ H) as [I|I].
  - destruct (minsert_in _ _ _ _ I) as [->|J]; [right; now left|now left].
  - right. now right.
Qed.
Lemma minsert_hd t q q0 (m : pts) : 0 <= t -> exists m', minsert t q ((0, q0) :: m) = (0, q0) :: m'.
Proof.
  intros H. cbn [GlobalModel.minsert]. qcaselt t 0; [exfalso; revert H Hc; qc|]. destruct (qltb 0 t); eauto.
Qed.
Lemma insert_all_hd l : forall t q0 (m : pts), 0 <= t -> Forall (fun x => 0 <= fst x) l ->
  exists m', insert_all t l ((0, q0) :: m) = (0, q0) :: m'.
Proof.
  induction l as [|[d q] l IH]; intros t q0 m H F; cbn [GlobalModel.insert_all]; [eauto|].
  inversion F as [|? ? F1 F2]; subst. cbn [fst] in F1.
  assert (P : 0 <= t + d) by (revert H F1; qc).
  destruct (minsert_hd (t + d) q q0 m P) as [m' ->]. apply IH; assumption.
Qed.
Lemma sum_nonneg (l : pts) : forall z, 0 <= z -> Forall (fun x => 0 <= fst x) l -> 0 <= fold_left (fun x p => x + fst p) l z.
Proof.
  induction l as [|[d q] l IH]; intros z H F; cbn [fold_left]; [exact H|]. inversion F as [|? ? F1 F2]; subst.
  apply IH; [|assumption]. cbn [fst] in *. revert H F1. qc.
Qed.
Lemma removelast_incl {A} (l : list A) x : In x (removelast l) -> In x l.
Proof.
  induction l as [|a l IH]; [intros []|]. cbn [removelast]. destruct l; [intros []|]. intros [<-|H]; [now left|right; auto].
Qed.
Lemma removelast_Forall {A} (P : A -> Prop) l : Forall P l -> Forall P (removelast l).
Proof. intros F. apply Forall_forall. intros x H. rewrite Forall_forall in F. apply F, removelast_incl, H. Qed.

(* whatever the distances, the result starts at [q0] and goes through [q0],
   points of the list but the last, and the last if the constraints are
   satisfied there *)
Lemma build_sat q0 l m : Forall (fun x => 0 <= fst x) l -> build q0 l = Ok (Interp C m) ->
  (exists m', m = (0, q0) :: m') /\
  (Forall (fun x => sat (snd x) = true) (removelast l) -> Forall (fun x => sat (snd x) = true) m).
Proof.
  intros F. unfold GlobalModel.build.
  set (T := fold_left _ l 0). assert (HT : 0 <= T) by (apply sum_nonneg; [apply Qcle_refl|assumption]).
  cbn [GlobalModel.minsert]. set (qe := snd (last l (0, q0))).
  destruct (sat (snd (hd _ _)) && sat _) eqn:E; [|discriminate]. intros [= <-].
  apply andb_prop in E as [E1 E2].
  qcaselt T 0; [exfalso; revert HT Hc; qc|]. clear Hc. cbn [hd snd] in E1.
  assert (S0 : sat q0 = true) by (destruct (qltb 0 T); exact E1).
  assert (SM : Forall (fun x => sat (snd x) = true) (if qltb 0 T then [(0, q0); (T, qe)] else [(0, q0)])).
  { destruct (qltb 0 T); repeat constructor; cbn [snd]; try exact S0. exact E2. }
  split.
  - destruct (qltb 0 T); apply insert_all_hd; try apply Qcle_refl; apply removelast_Forall; exact F.
  - intros FS. apply Forall_forall. intros x Hx. apply insert_all_in in Hx as [Hx|Hx].
    + rewrite Forall_forall in SM. apply SM, Hx.
    + apply in_map_iff in Hx as (y & <- & Hy). rewrite Forall_forall in FS. exact (FS _ Hy).
Qed.

(* exact distances *)
Fixpoint chain (prev : C) (l : pts) : Prop :=
  match l with [] => True | (d, q) :: l' => d = dist prev q /\ chain q l' end.
Hypothesis PD : proper C dist.
Let NN := proj1 PD.
Let ZE := proj2 PD.
Lemma dist_refl_chain a b : dist a b = 0 -> a = b. Proof. apply ZE. Qed.
Lemma chain_nonneg l : forall prev, chain prev l -> Forall (fun x => 0 <= fst x) l.
Proof. induction l as [|[d q] l IH]; intros prev H; constructor; [destruct H as [-> _]; apply NN|]. destruct H as [_ H]. eapply IH, H. Qed.
Definition tot (l : pts) : Qc := fold_left (fun x p => x + fst p) l 0.
Lemma sum_shift (l : pts) : forall z, fold_left (fun x p => x + fst p) l z = z + tot l.
Proof.
  unfold tot. induction l as [|[d q] l IH]; intros z; cbn [fold_left fst]; [ring|]. rewrite (IH (z + d)), (IH (0 + d)). ring.
Qed.
Lemma tot_cons d q l : tot ((d, q) :: l) = d + tot l.
Proof. unfold tot at 1. cbn [fold_left fst]. rewrite sum_shift. ring. Qed.
Lemma tot_nonneg l prev : chain prev l -> 0 <= tot l.
Proof. intros H. apply sum_nonneg; [apply Qcle_refl|eapply chain_nonneg, H]. Qed.
Lemma chain_zero l : forall prev, chain prev l -> tot l = 0 -> Forall (fun x => fst x = 0 /\ snd x = prev) l.
Proof.
  induction l as [|[d q] l IH]; intros prev H E; [constructor|].
  destruct H as [-> H]. rewrite tot_cons in E.
  assert (N := NN prev q). assert (S := tot_nonneg _ _ H).
  assert (Z : dist prev q = 0) by (revert E N S; generalize (tot l), (dist prev q); clear; qc).
  assert (Q := ZE _ _ Z). subst q. constructor; cbn [fst snd]; [auto|].
  apply IH; [exact H|]. rewrite Z in E. rewrite <- E. ring.
Qed.
Lemma minsert_app A t q (m : pts) : Forall (fun x => fst x < t) A -> minsert t q (A ++ m) = A ++ minsert t q m.
Proof.
  induction A as [|[t' q'] A IH]; intros F; [reflexivity|]. inversion F as [|? ? F1 F2]; subst. cbn [fst] in F1.
  cbn [app GlobalModel.minsert]. qcaselt t t'; [exfalso; revert F1 Hc; qc|]. qcaselt t' t; [|exfalso; revert F1 Hc0; qc].
  now rewrite IH.
Qed.
Lemma timed_app A a b : timed C dist (A ++ [a]) -> fst b = fst a + dist (snd a) (snd b) -> timed C dist (A ++ [a; b]).
Proof.
  induction A as [|x A IH]; cbn [app]; intros H E; [split; [exact E|exact I]|].
  destruct A as [|y A]; cbn [app] in *; [destruct H as [H _]; repeat split; auto|]. destruct H as [H1 H2]. split; [exact H1|]. apply IH; assumption.
Qed.
Section Rel.
Variable R : C -> C -> Prop.
Notation lk := (linked (fun a b : Qc * C => R (snd a) (snd b))).
Fixpoint rchain (prev : C) (l : pts) : Prop :=
  match l with [] => True | (_, q) :: l' => R prev q /\ rchain q l' end.
Lemma linked_app A a b : lk (A ++ [a]) -> R (snd a) (snd b) -> lk (A ++ [a; b]).
Proof.
  induction A as [|x A IH]; cbn [app]; intros H E; [split; [exact E|exact I]|].
  destruct A as [|y A]; cbn [app] in *; [destruct H as [H _]; repeat split; auto|]. destruct H as [H1 H2]. split; [exact H1|]. apply IH; assumption.
Qed.
Lemma insert_same l : forall T qe (A : pts), Forall (fun x => fst x < T) A -> Forall (fun x => fst x = 0) l ->
  insert_all T l (A ++ [(T, qe)]) = A ++ [(T, qe)].
Proof.
  induction l as [|[d q] l IH]; intros T qe A FA FL; cbn [GlobalModel.insert_all]; [reflexivity|].
  inversion FL as [|? ? F1 F2]; subst. cbn [fst] in F1. subst d. replace (T + 0) with T by qc.
  rewrite minsert_app by exact FA. cbn [GlobalModel.minsert]. qcaselt T T; [exfalso; revert Hc; qc|]. apply IH; assumption.
Qed.
Lemma app1 {A} (l : list A) a b : l ++ [a; b] = (l ++ [a]) ++ [b].
Proof. now rewrite <- app_assoc. Qed.
(* the heart: inserting the points of an exact chain in order *)
Lemma insert_chain l : forall t prev (A : pts) d qe T,
  chain prev (l ++ [(d, qe)]) -> T = t + tot (l ++ [(d, qe)]) -> t < T ->
  Forall (fun x => fst x < t) A -> timed C dist (A ++ [(t, prev)]) ->
  exists B b, insert_all t l (A ++ [(t, prev); (T, qe)]) = (B ++ [b]) ++ [(T, qe)] /\ timed C dist (B ++ [b; (T, qe)]) /\
    (lk (A ++ [(t, prev)]) -> rchain prev l -> lk (B ++ [b]) /\ (rchain prev (l ++ [(d, qe)]) -> lk (B ++ [b; (T, qe)]))).
Proof.
  induction l as [|[d1 q1] l IH]; intros t prev A d qe T H ET LT FA TA.
  - cbn [app] in H, ET. destruct H as [Hd _]. rewrite tot_cons in ET. change (tot []) with 0 in ET.
    exists A, (t, prev). cbn [GlobalModel.insert_all]. split; [apply app1|].
    split; [apply timed_app; [exact TA|cbn [fst snd]; rewrite ET, Hd; ring]|].
    intros SA _. split; [exact SA|]. intros [L _]. apply linked_app; [exact SA|]. exact L.
  - cbn [app] in H, ET. destruct H as [Hd H]. rewrite tot_cons in ET.
    assert (NS := tot_nonneg _ _ H). remember (tot (l ++ [(d, qe)])) as S eqn:DS.
    assert (Nd : 0 <= d1) by (rewrite Hd; apply NN).
    cbn [GlobalModel.insert_all]. rewrite minsert_app.
    2:{ eapply Forall_impl; [|exact FA]. intros x Hx. cbn beta in Hx. revert Hx Nd. qc. }
    cbn [GlobalModel.minsert].
    qcaselt (t + d1) t; [exfalso; revert Nd Hc; qc|].
    qcaselt t (t + d1).
    + qcaselt (t + d1) T.
      * replace (A ++ (t, prev) :: [(t + d1, q1); (T, qe)]) with ((A ++ [(t, prev)]) ++ [(t + d1, q1); (T, qe)]) by (now rewrite <- app_assoc).
        destruct (IH (t + d1) q1 (A ++ [(t, prev)]) d qe T) as (B & b & E & TB & SB).
        -- exact H.
        -- rewrite <- DS, ET. ring.
        -- assumption.
        -- apply Forall_app; split; [eapply Forall_impl; [|exact FA]; intros x Hx; cbn beta in Hx; revert Hx Hc0; qc|]. repeat constructor. exact Hc0.
        -- rewrite <- app1. apply timed_app; [exact TA|]. cbn [fst snd]. rewrite Hd. reflexivity.
        -- exists B, b. split; [exact E|]. split; [exact TB|]. intros SA [F1 F2]. destruct SB as [SB1 SB2]; [|exact F2|].
           { rewrite <- app1. apply linked_app; [exact SA|]. exact F1. }
           split; [exact SB1|]. intros [_ F3]. exact (SB2 F3).
      * qcaselt T (t + d1); [exfalso; revert Hc2 ET NS; clear; qc|].
        assert (ES : t + d1 = T) by (apply Qcle_antisym; assumption).
        assert (S0 : S = 0) by (revert ES ET; clear; qc). rewrite DS in S0.
        assert (Z := chain_zero _ _ H S0). apply Forall_app in Z as [Z1 Z2]. inversion Z2 as [|? ? [Zd Zq] _]; cbn [snd] in Zq; subst qe.
        change (A ++ (t, prev) :: [(T, q1)]) with (A ++ [(t, prev); (T, q1)]).
        rewrite ES. rewrite (app1 A (t, prev) (T, q1)), insert_same.
        2:{ apply Forall_app; split; [eapply Forall_impl; [|exact FA]; intros y Hy; cbn beta in Hy; revert Hy LT; qc|]. repeat constructor. exact LT. }
        2:{ eapply Forall_impl; [|exact Z1]. intros y [Hy _]. exact Hy. }
        exists A, (t, prev). split; [reflexivity|]. split.
        { apply timed_app; [exact TA|]. cbn [fst snd]. rewrite <- ES, Hd. reflexivity. }
        intros SA [F1 F2]. split; [exact SA|]. intros _. apply linked_app; [exact SA|]. exact F1.
    + assert (D0 : d1 = 0) by (revert Hc0 Nd; qc). assert (Q : prev = q1) by (apply ZE; congruence). subst q1.
      rewrite D0. rewrite D0 in ET. replace (t + 0) with t by ring.
      destruct (IH t prev A d qe T) as (B & b & E & TB & SB).
      -- exact H.
      -- rewrite <- DS, ET. ring.
      -- exact LT.
      -- exact FA.
      -- exact TA.
      -- exists B, b. split; [exact E|]. split; [exact TB|]. intros SA [F1 F2]. destruct (SB SA F2) as [SB1 SB2]. split; [exact SB1|]. intros [_ F3]. exact (SB2 F3).
Qed.
Lemma removelast_snoc {A} (l : list A) a : removelast (l ++ [a]) = l.
Proof. rewrite removelast_app by discriminate. cbn [removelast]. apply app_nil_r. Qed.
Lemma last_snoc {A} (l : list A) a x : last (l ++ [a]) x = a.
Proof. induction l as [|b l IH]; [reflexivity|]. cbn [app last]. destruct (l ++ [a]) eqn:E; [destruct l; discriminate|exact IH]. Qed.
Lemma exists_last_or_nil {A} (l : list A) : l = [] \/ exists l1 a, l = l1 ++ [a].
Proof. destruct l as [|x l]; [now left|right]. destruct (@exists_last A (x :: l)) as (l1 & a & E); [discriminate|]. eauto. Qed.
Lemma build_exact q0 l m : chain q0 l -> build q0 l = Ok (Interp C m) ->
  snd (last m (0, q0)) = snd (last l (0, q0)) /\ timed C dist m /\
  (rchain q0 (removelast l) -> lk (removelast m)) /\
  (rchain q0 l -> lk m).
Proof.
  intros H. unfold GlobalModel.build. destruct (sat _ && sat _); [|discriminate]. intros [= <-].
  destruct (exists_last_or_nil l) as [->|(l' & [d qe] & ->)].
  - cbn. repeat split.
  - rewrite removelast_snoc, last_snoc. cbn [snd GlobalModel.minsert].
    change (fold_left (fun x p => x + fst p) (l' ++ [(d, qe)]) 0) with (tot (l' ++ [(d, qe)])).
    assert (HT := tot_nonneg _ _ H). remember (tot (l' ++ [(d, qe)])) as T eqn:DT.
    qcaselt T 0; [exfalso; revert HT Hc; qc|]. qcaselt 0 T.
    + destruct (insert_chain l' 0 q0 [] d qe T) as (B & b & E & TB & SB); try assumption.
      * rewrite <- DT. ring.
      * constructor.
      * exact I.
      * cbn [app] in E. rewrite E. rewrite last_snoc. rewrite <- app1. rewrite app1, removelast_snoc. split; [reflexivity|].
        split; [rewrite <- app1; exact TB|]. split.
        -- intros F. destruct (SB I F) as [S1 _]. exact S1.
        -- intros F. assert (F1 : rchain q0 l').
           { revert F. clear. revert q0. induction l' as [|[d1 q1] l' IH]; intros q0 F; [exact I|]. destruct F as [F1 F2]. split; [exact F1|apply IH, F2]. }
           destruct (SB I F1) as [_ S2]. rewrite <- app1. apply S2. exact F.
    + assert (T0 : T = 0) by (revert HT Hc0; qc).
      rewrite DT in T0. assert (Z := chain_zero _ _ H T0). apply Forall_app in Z as [Z1 Z2]. inversion Z2 as [|? ? [Zd Zq] _]. cbn [snd] in Zq. subst qe.
      assert (IS := insert_same l' 0 q0 []). cbn [app] in IS. rewrite IS; [|constructor|eapply Forall_impl; [|exact Z1]; intros y [Hy _]; exact Hy].
      repeat split.
Qed.
End Rel.
Lemma spaced_linked d (l : pts) : linked (fun a b : Qc * C => dist (snd a) (snd b) <= d) l -> spaced C dist d l.
Proof. induction l as [|a [|b l] IH]; intros H; try exact I. destruct H as [H1 H2]. split; [exact H1|apply IH, H2]. Qed.
Lemma rchain_le d (l : pts) : forall prev, chain prev l -> Forall (fun x => fst x <= d) l -> rchain (fun a b => dist a b <= d) prev l.
Proof.
  induction l as [|[e q] l IH]; intros prev H F; [exact I|]. destruct H as [H1 H2]. inversion F as [|? ? F1 F2]; subst. split; [exact F1|].
  apply IH; assumption.
Qed.
End Build.

Section Sweep.
Variables C LS V : Type.
Variable dist : C -> C -> Qc.
Variable interp : C -> C -> Qc -> C.
Variable sat : C -> bool.
Variable one : LS -> C -> move C LS V.
Variable ls0 : LS.
Variable step : Qc.
Variable jump : C -> C -> V -> V -> bool.
Variable v0 : V.
Variable mem : nat -> C * C.
Notation node := (node C LS).
Notation state := (state C LS).
Notation n_q := (n_q C LS).
Notation n_b := (n_b C LS).
Notation n_l := (n_l C LS).
Notation n_a := (n_a C LS).
Notation s_pre := (s_pre C LS).
Notation s_post := (s_post C LS).
Notation s_l := (s_l C LS).
Notation sweep := (sweep C LS V dist one jump).
Notation one_sweep := (one_sweep C LS V dist one jump v0).
Notation reinterpolate := (reinterpolate C LS dist interp ls0 step).
Notation reinterpolated := (reinterpolated C LS dist interp ls0 step).
Notation iterate := (iterate C LS V dist interp one ls0 step jump v0 mem).
Notation front := (front C LS step).
Hypothesis HON : forall a q, m_ok _ _ _ (one a q) = true -> sat (m_q _ _ _ (one a q)) = true.
Hypothesis NN : forall a b, 0 <= dist a b.

(* a point reported as projected satisfies the constraints, and distances are
   not negative *)
Definition fine (n : node) : Prop := (n_b n = true -> sat (n_q n) = true) /\ 0 <= n_l n.
Definition fine_st (s : state) : Prop := Forall fine (s_pre s) /\ Forall fine (s_post s) /\ 0 <= s_l s.

Lemma fine_l n d : fine n -> 0 <= d -> fine (with_l C LS n d). Proof. intros [A _] D. split; assumption. Qed.
Lemma fine_a n a : fine n -> fine (with_a C LS n a). Proof. intros [A B]. split; assumption. Qed.
Lemma sweep_fine l : forall acc a prev pu all cur other, Forall fine l -> Forall fine acc ->
  match sweep l acc a prev pu all cur other with
  | Swept _ _ acc' _ _ _ _ => Forall fine acc'
  | Jumped _ _ acc' _ rest => Forall fine acc' /\ Forall fine rest
  end.
Proof.
  induction l as [|n l IH]; intros acc a prev pu all cur other F FA; cbn [GlobalModel.sweep]; [exact FA|].
  inversion F as [|? ? F1 F2]; subst. destruct (n_b n) eqn:B.
  - apply IH; [exact F2|]. constructor; [|exact FA]. destruct pu; [apply fine_l; [exact F1|apply NN]|exact F1].
  - assert (G : fine {| GlobalModel.n_q := m_q _ _ _ (one a (n_q n)); GlobalModel.n_b := m_ok _ _ _ (one a (n_q n)); GlobalModel.n_a := n_a n; GlobalModel.n_l := n_l n |}).
    { split; [cbn; apply HON|exact (proj2 F1)]. }
    destruct pu; [destruct (jump _ _ _ _)|].
    + split; [exact FA|]. constructor; assumption.
    + apply IH; [exact F2|]. constructor; [apply fine_l; [exact G|apply NN]|exact FA].
    + apply IH; [exact F2|]. constructor; [apply fine_l; [exact G|apply NN]|exact FA].
Qed.
Lemma set_first_fine a l : Forall fine l -> Forall fine (set_first C LS a l).
Proof. destruct 1; constructor; [apply fine_a|]; assumption. Qed.
Lemma one_sweep_fine m q0 qe s b s' : fine_st s -> one_sweep m q0 qe s = Ok (b, s') -> fine_st s'.
Proof.
  intros (F1 & F2 & F3). unfold GlobalModel.one_sweep. destruct (s_pre s) as [|n l] eqn:E.
  - intros [= <- <-]. unfold fine_st. rewrite E. auto.
  - assert (W := sweep_fine (n :: l) [] (n_a n) q0 false true (fst m, v0) (snd m, v0) F1 (Forall_nil _)).
    destruct (sweep (n :: l) _ _ _ _ _ _ _) as [acc a prev pu all|acc a rest].
    + assert (W' : Forall fine (set_first C LS a (rev acc))) by (apply set_first_fine, Forall_rev, W).
      intros [= <- <-]. destruct pu; [destruct (s_post s) as [|x post]|]; repeat split; cbn; auto.
      inversion F2; subst. constructor; [apply fine_l; [assumption|apply NN]|assumption].
    + destruct W as [W1 W2]. destruct acc as [|x acc]; [discriminate|]. inversion W1 as [|? ? W3 W4]; subst.
      apply Forall_rev in W4. destruct (rev acc) as [|y pre]; intros [= <- <-]; repeat split; cbn; auto.
      * constructor; [apply fine_a; assumption|]. apply Forall_app. auto.
      * inversion W4; subst. constructor; [apply fine_a; assumption|assumption].
      * constructor; [assumption|]. apply Forall_app. auto.
Qed.
Lemma reint_fine fuel : forall prev l ql l' z w, Forall fine l -> reinterpolate fuel prev l ql = Ok (l', z, w) ->
  Forall fine l' /\ (forall d, w = Some d -> 0 <= d).
Proof.
  induction fuel as [|f IH]; intros prev l ql l' z w F E; cbn [GlobalModel.reinterpolate] in E; [discriminate|].
  destruct l as [|n l]; [injection E as <- <- <-; split; [constructor|discriminate]|].
  inversion F as [|? ? F1 F2]; subst.
  destruct (qltb step _).
  - destruct (reinterpolate f _ _ _) as [[[l1 z1] w1]| | |] eqn:R; cbn [bind] in E; try discriminate. injection E as <- <- <-.
    eapply IH; [|exact R]. constructor; [split; [discriminate|apply NN]|]. constructor; [apply fine_l; [assumption|apply NN]|assumption].
  - destruct (qltb _ _).
    + destruct l as [|n' l].
      * injection E as <- <- <-. split; [constructor|]. intros d [= <-]. apply NN.
      * destruct (reinterpolate f _ _ _) as [[[l1 z1] w1]| | |] eqn:R; cbn [bind] in E; try discriminate. injection E as <- <- <-.
        eapply IH; [|exact R]. inversion F2; subst. constructor; [apply fine_l; [assumption|apply NN]|assumption].
    + destruct (reinterpolate f _ _ _) as [[[l1 z1] w1]| | |] eqn:R; cbn [bind] in E; try discriminate. injection E as <- <- <-.
      destruct (IH _ _ _ _ _ _ F2 R) as [G1 G2]. split; [constructor; assumption|exact G2].
Qed.
Lemma reinterpolated_fine fuel q0 qe s z s' : fine_st s -> reinterpolated fuel q0 qe s = Ok (z, s') -> fine_st s'.
Proof.
  intros (F1 & F2 & F3) E. unfold GlobalModel.reinterpolated in E.
  destruct (reinterpolate fuel _ _ _) as [[[l1 z1] w1]| | |] eqn:R; cbn [bind] in E; try discriminate.
  destruct (reint_fine _ _ _ _ _ _ _ F1 R) as [G1 G2]. destruct w1 as [d|]; injection E as <- <-.
  - assert (D := G2 d eq_refl). destruct (s_post s) as [|x post]; repeat split; cbn; auto.
    inversion F2; subst. constructor; [apply fine_l; assumption|assumption].
  - repeat split; cbn; auto.
Qed.
Lemma iterate_fine fuel : forall q0 qe mi mc s n s', fine_st s -> iterate fuel q0 qe mi mc s n = Ok s' -> fine_st s'.
Proof.
  induction fuel as [|f IH]; intros q0 qe mi mc s n s' F E; cbn [GlobalModel.iterate] in E; [discriminate|].
  destruct (one_sweep _ _ _ _) as [[done s1]| | |] eqn:O; cbn [bind] in E; try discriminate.
  assert (F1 := one_sweep_fine _ _ _ _ _ _ F O). destruct done; [injection E as <-; exact F1|].
  destruct (Nat.ltb _ mc).
  - destruct (reinterpolated _ _ _ _) as [[z s2]| | |] eqn:R; cbn [bind] in E; try discriminate.
    assert (F2 := reinterpolated_fine _ _ _ _ _ _ F1 R). destruct (Nat.ltb mi _); [injection E as <-; exact F2|]. eapply IH; [exact F2|exact E].
  - cbn [bind] in E. destruct (Nat.ltb mi _); [injection E as <-; exact F1|]. eapply IH; [exact F1|exact E].
Qed.
Lemma front_fine l : forall r b, Forall fine l -> front l = (r, b) ->
  Forall (fun x => 0 <= fst x) r /\ Forall (fun x => sat (snd x) = true) r /\ Forall (fun x => fst x <= step) r.
Proof.
  induction l as [|n l IH]; intros r b F E; cbn [GlobalModel.front] in E; [injection E as <- <-; repeat split; constructor|].
  inversion F as [|? ? [F1 F1'] F2]; subst. destruct (n_b n) eqn:B; cbn [negb orb] in E; [|injection E as <- <-; repeat split; constructor].
  qcaselt step (n_l n); [injection E as <- <-; repeat split; constructor|].
  destruct (front l) as [r' b'] eqn:Fr. injection E as <- <-. destruct (IH _ _ F2 eq_refl) as (G1 & G2 & G3).
  repeat split; constructor; cbn; auto.
Qed.

(* ---- exact distances, when no jump is detected *)
Hypothesis NJ : forall a b c d, jump a b c d = false.
Fixpoint good (prev : C) (pu : bool) (l : list node) (qe : C) (le : Qc) : Prop :=
  match l with
  | [] => pu = true \/ le = dist prev qe
  | n :: l' => (n_b n = false \/ pu = true \/ n_l n = dist prev (n_q n)) /\ good (n_q n) (negb (n_b n)) l' qe le
  end.
Fixpoint exact (prev : C) (l : list node) (qe : C) (le : Qc) : Prop :=
  match l with
  | [] => le = dist prev qe
  | n :: l' => n_l n = dist prev (n_q n) /\ exact (n_q n) l' qe le
  end.
Lemma exact_good l : forall prev qe le, exact prev l qe le -> good prev false l qe le.
Proof.
  induction l as [|n l IH]; intros prev qe le H; cbn in *; [auto|]. destruct H as [H1 H2]. split; [auto|].
  destruct (n_b n); [apply IH, H2|]. cbn [negb]. clear -H2. revert H2. generalize (n_q n). clear n.
  destruct l as [|m l]; cbn; intros q H; [auto|]. destruct H as [H1 H2]. split; [auto|].
  assert (IH : forall l prev qe le, exact prev l qe le -> forall pu, good prev pu l qe le).
  { clear. induction l as [|n l IH]; intros prev qe le H pu; cbn in *; [auto|]. destruct H as [H1 H2]. split; [auto|]. apply IH, H2. }
  apply IH, H2.
Qed.
Lemma good_true l : forall q q' qe le, good q true l qe le -> good q' true l qe le.
Proof. destruct l; cbn; intros q q' qe le H; [auto|]. destruct H as [_ H]. split; [auto|exact H]. Qed.
Lemma sweep_exact l : forall acc a prev pu all cur other qe le, good prev pu l qe le ->
  exists l' a' prev' pu' all', sweep l acc a prev pu all cur other = Swept C LS (rev l' ++ acc) a' prev' pu' all' /\
    length l' = length l /\
    exact prev l' qe (if pu' then dist prev' qe else le) /\ (all' = true -> all = true /\ Forall (fun n => n_b n = true) l').
Proof.
  induction l as [|n l IH]; intros acc a prev pu all cur other qe le H; cbn [GlobalModel.sweep].
  - exists [], a, prev, pu, all. cbn in *. repeat split; auto. destruct pu; [reflexivity|]. destruct H as [H|H]; [discriminate|exact H].
  - destruct H as [H1 H2]. destruct (n_b n) eqn:B.
    + cbn [negb] in H2.
      destruct (IH ((if pu then with_l C LS n (dist prev (n_q n)) else n) :: acc) a (n_q n) false all cur other qe le H2)
        as (l' & a' & p' & u' & al' & E & L & X & A).
      exists ((if pu then with_l C LS n (dist prev (n_q n)) else n) :: l'), a', p', u', al'.
      rewrite E. cbn [rev length]. rewrite <- app_assoc. split; [reflexivity|]. split; [now rewrite L|]. split.
      * destruct pu; cbn; split; auto. destruct H1 as [H1|[H1|H1]]; [congruence|discriminate|exact H1].
      * intros T. destruct (A T) as [A1 A2]. split; [exact A1|]. constructor; [|exact A2]. destruct pu; exact B.
    + cbn [negb] in H2. set (m := one a (n_q n)).
      set (n2 := with_l C LS {| GlobalModel.n_q := m_q _ _ _ m; GlobalModel.n_b := m_ok _ _ _ m; GlobalModel.n_a := n_a n; GlobalModel.n_l := n_l n |} (dist prev (m_q _ _ _ m))).
      assert (K : forall cur other, exists l' a' prev' pu' all',
        sweep l (n2 :: acc) (m_ls _ _ _ m) (m_q _ _ _ m) true (all && m_ok _ _ _ m) cur other = Swept C LS (rev l' ++ acc) a' prev' pu' all' /\
        length l' = S (length l) /\
        exact prev l' qe (if pu' then dist prev' qe else le) /\ (all' = true -> all = true /\ Forall (fun n => n_b n = true) l')).
      { intros c o. destruct (IH (n2 :: acc) (m_ls _ _ _ m) (m_q _ _ _ m) true (all && m_ok _ _ _ m) c o qe le (good_true _ _ _ _ _ H2))
          as (l' & a' & p' & u' & al' & E & L & X & A).
        exists (n2 :: l'), a', p', u', al'. rewrite E. cbn [rev length]. rewrite <- app_assoc. split; [reflexivity|]. split; [now rewrite L|]. split.
        - cbn. split; [reflexivity|exact X].
        - intros T. destruct (A T) as [A1 A2]. apply andb_prop in A1 as [A1 A3]. split; [exact A1|]. constructor; [exact A3|exact A2]. }
      destruct pu; [rewrite NJ|]; apply K.
Qed.
Definition exact_st (q0 qe : C) (s : state) : Prop := s_post s = [] /\ exact q0 (s_pre s) qe (s_l s).
Definition good_st (q0 qe : C) (s : state) : Prop := s_post s = [] /\ good q0 false (s_pre s) qe (s_l s).
Lemma set_first_exact a prev l qe le : exact prev l qe le -> exact prev (set_first C LS a l) qe le.
Proof. destruct l; auto. Qed.
Lemma set_first_b a (l : list node) : Forall (fun n => n_b n = true) l -> Forall (fun n => n_b n = true) (set_first C LS a l).
Proof. destruct 1; constructor; auto. Qed.
Lemma one_sweep_exact m q0 qe s b s' : good_st q0 qe s -> one_sweep m q0 qe s = Ok (b, s') ->
  exact_st q0 qe s' /\ (b = true -> Forall (fun n => n_b n = true) (s_pre s')).
Proof.
  intros [P G]. unfold GlobalModel.one_sweep. destruct (s_pre s) as [|n l] eqn:E.
  - intros [= <- <-]. cbn in G. destruct G as [G|G]; [discriminate|]. unfold exact_st. rewrite E. repeat split; auto.
  - destruct (sweep_exact (n :: l) [] (n_a n) q0 false true (fst m, v0) (snd m, v0) qe (s_l s) G) as (l' & a' & p' & u' & al' & W & L & X & A).
    rewrite W. rewrite app_nil_r, rev_involutive, P. intros [= <- <-]. destruct u'; cbn.
    + split; [split; [reflexivity|apply set_first_exact, X]|]. intros T. apply set_first_b. apply (A T).
    + split; [split; [reflexivity|apply set_first_exact, X]|]. intros T. apply set_first_b. apply (A T).
Qed.
Lemma reint_exact fuel : forall prev l ql le l' z w, exact prev l ql le -> reinterpolate fuel prev l ql = Ok (l', z, w) ->
  exact prev l' ql (match w with Some d => d | None => le end).
Proof.
  induction fuel as [|f IH]; intros prev l ql le l' z w X E; cbn [GlobalModel.reinterpolate] in E; [discriminate|].
  destruct l as [|n l]; [injection E as <- <- <-; exact X|]. destruct X as [X1 X2].
  destruct (qltb step _).
  - destruct (reinterpolate f _ _ _) as [[[l1 z1] w1]| | |] eqn:R; cbn [bind] in E; try discriminate. injection E as <- <- <-.
    eapply IH; [|exact R]. cbn. repeat split. exact X2.
  - destruct (qltb _ _).
    + destruct l as [|n' l]; [injection E as <- <- <-; reflexivity|].
      destruct (reinterpolate f _ _ _) as [[[l1 z1] w1]| | |] eqn:R; cbn [bind] in E; try discriminate. injection E as <- <- <-.
      eapply IH; [|exact R]. destruct X2 as [_ X2]. cbn. split; [reflexivity|exact X2].
    + destruct (reinterpolate f _ _ _) as [[[l1 z1] w1]| | |] eqn:R; cbn [bind] in E; try discriminate. injection E as <- <- <-.
      cbn. split; [exact X1|]. eapply IH; [exact X2|exact R].
Qed.
Lemma reinterpolated_exact fuel q0 qe s z s' : exact_st q0 qe s -> reinterpolated fuel q0 qe s = Ok (z, s') -> exact_st q0 qe s'.
Proof.
  intros [P X] E. unfold GlobalModel.reinterpolated in E. rewrite P in E.
  destruct (reinterpolate fuel _ _ _) as [[[l1 z1] w1]| | |] eqn:R; cbn [bind] in E; try discriminate.
  assert (Y := reint_exact _ _ _ _ _ _ _ _ X R). destruct w1; injection E as <- <-; split; cbn; auto.
Qed.
Lemma iterate_exact fuel : forall q0 qe mi mc s n s', good_st q0 qe s -> iterate fuel q0 qe mi mc s n = Ok s' -> exact_st q0 qe s'.
Proof.
  induction fuel as [|f IH]; intros q0 qe mi mc s n s' F E; cbn [GlobalModel.iterate] in E; [discriminate|].
  destruct (one_sweep _ _ _ _) as [[done s1]| | |] eqn:O; cbn [bind] in E; try discriminate.
  destruct (one_sweep_exact _ _ _ _ _ _ F O) as [F1 _]. destruct done; [injection E as <-; exact F1|].
  destruct (Nat.ltb _ mc).
  - destruct (reinterpolated _ _ _ _) as [[z s2]| | |] eqn:R; cbn [bind] in E; try discriminate.
    assert (F2 := reinterpolated_exact _ _ _ _ _ _ F1 R). destruct (Nat.ltb mi _); [injection E as <-; exact F2|].
    eapply IH; [|exact E]. destruct F2 as [P2 F2]. split; [exact P2|apply exact_good, F2].
  - cbn [bind] in E. destruct (Nat.ltb mi _); [injection E as <-; exact F1|]. eapply IH; [|exact E].
    destruct F1 as [P1 F1]. split; [exact P1|apply exact_good, F1].
Qed.
Lemma front_chain l : forall prev qe le r b, exact prev l qe le -> front l = (r, b) ->
  chain C dist prev r /\ (b = true -> chain C dist prev (r ++ [(le, qe)])).
Proof.
  induction l as [|n l IH]; intros prev qe le r b X E; cbn [GlobalModel.front] in E; [injection E as <- <-; cbn in *; auto|].
  destruct X as [X1 X2]. destruct (negb _ || _); [injection E as <- <-; split; [exact I|discriminate]|].
  destruct (front l) as [r' b'] eqn:Fr. injection E as <- <-. destruct (IH _ _ _ _ _ X2 eq_refl) as [C1 C2].
  split; [split; [exact X1|exact C1]|]. intros T. split; [exact X1|exact (C2 T)].
Qed.
End Sweep.
