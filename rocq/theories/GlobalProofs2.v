(* Proofs about the global path projector with a bound of the Hessian. *)
From Coq Require Import List Bool ZArith Lia.
From Verif Require Import Base QcTac GlobalModel GlobalSpec GlobalProofs.
Import ListNotations.
Open Scope Qc_scope.

Section Hess.
Variables C LS V : Type.
Variable dist : C -> C -> Qc.
Variable interp : C -> C -> Qc -> C.
Variable sat : C -> bool.
Variable one : LS -> C -> move C LS V.
Variable ls0 : LS.
Variables step K thrmin : Qc.
Variable maxIter : nat.
Notation data := (data C LS).
Notation hstate := (hstate C LS).
Notation d_q := (d_q C LS).
Notation d_pr := (d_pr C LS).
Notation d_n := (d_n C LS).
Notation d_len := (d_len C LS).
Notation d_sigma := (d_sigma C LS).
Notation d_a := (d_a C LS).
Notation h_pre := (h_pre C LS).
Notation h_post := (h_post C LS).
Notation with_len := (with_len C LS).
Notation init_data := (init_data C LS V dist one ls0).
Notation hsweep := (hsweep C LS V dist one).
Notation hone := (hone C LS V dist one).
Notation hreint := (hreint C LS V dist interp one ls0 K thrmin maxIter).
Notation hreinterpolate := (hreinterpolate C LS V dist interp one ls0 K thrmin maxIter).
Notation hiterate := (hiterate C LS V dist interp one ls0 K thrmin maxIter).
Hypothesis HON : forall a q, m_ok _ _ _ (one a q) = true -> sat (m_q _ _ _ (one a q)) = true.

(* where a singular value comes from: the solver computed it at the
   configuration, or in the step which ended there *)
Definition cert (q : C) (s : Qc) : Prop :=
  (exists a, m_sigma _ _ _ (one a q) = s) \/ (exists a q', m_q _ _ _ (one a q') = q /\ m_sigma _ _ _ (one a q') = s).
Definition okd (x : data) : Prop := d_pr x = true -> sat (d_q x) = true.
Definition dcert (x : data) : Prop := cert (d_q x) (d_sigma x).
Fixpoint hexact (prev : C) (l : list data) : Prop :=
  match l with [] => True | x :: l' => d_len x = dist prev (d_q x) /\ hexact (d_q x) l' end.
(* inner points, then the end *)
Definition ended (qe : C) (l : list data) : Prop :=
  exists inner e, l = inner ++ [e] /\ d_q e = qe /\ d_pr e = true /\ Forall okd inner.
Definition unproj (l : list data) : Prop := Exists (fun x => d_pr x = false) l.

Lemma hexact_app l : forall prev k, hexact prev (l ++ k) <-> hexact prev l /\ hexact (last (map d_q l) prev) k.
Proof.
  induction l as [|x l IH]; intros prev k; [cbn; tauto|]. cbn [app hexact map]. rewrite IH.
  replace (last (d_q x :: map d_q l) prev) with (last (map d_q l) (d_q x)); [tauto|].
  destruct (map d_q l) as [|y m] eqn:E; [reflexivity|]. cbn [last]. clear. revert y. induction m as [|z m IH]; intros y; [reflexivity|]. cbn [last]. apply IH.
Qed.

(* ---------------------------------------------------------- one step *)
Fixpoint hgood (prev : C) (pu : bool) (l k : list data) : Prop :=
  match l with
  | [] => match k with [] => True | y :: k' => (pu = true \/ d_len y = dist prev (d_q y)) /\ hexact (d_q y) k' end
  | x :: l' => (d_pr x = false \/ pu = true \/ d_len x = dist prev (d_q x)) /\ hgood (d_q x) (negb (d_pr x)) l' k
  end.
Lemma hexact_good l : forall prev k pu, hexact prev (l ++ k) -> hgood prev pu l k.
Proof.
  induction l as [|x l IH]; intros prev k pu H; cbn in *.
  - destruct k; [exact I|]. destruct H as [H1 H2]. auto.
  - destruct H as [H1 H2]. auto.
Qed.
Lemma hgood_true l : forall q q' k, hgood q true l k -> hgood q' true l k.
Proof. destruct l as [|x l]; cbn; intros q q' k H; [destruct k; [exact I|]; destruct H; auto|]. destruct H as [_ H]. auto. Qed.
Definition touch (u : bool) (p : C) (k : list data) : list data :=
  match k with [] => [] | y :: k' => (if u then with_len y (dist p (d_q y)) else y) :: k' end.
Lemma hsweep_exact l : forall prev pu all k r p u a, hgood prev pu l k -> hsweep l prev pu all = (r, p, u, a) ->
  hexact prev (r ++ touch u p k).
Proof.
  induction l as [|x l IH]; intros prev pu all k r p u a G E; cbn [GlobalModel.hsweep] in E.
  - injection E as <- <- <- <-. destruct k as [|y k]; [exact I|]. destruct G as [G1 G2]. destruct pu; cbn.
    + split; [reflexivity|exact G2].
    + split; [destruct G1 as [G1|G1]; [discriminate|exact G1]|exact G2].
  - destruct G as [G1 G2]. destruct (d_pr x) eqn:B.
    + destruct (hsweep l (d_q x) false all) as [[[r1 p1] u1] a1] eqn:W. injection E as <- <- <- <-. cbn [negb] in G2.
      assert (X := IH _ _ _ _ _ _ _ _ G2 W). cbn [app]. destruct pu; cbn; split; auto.
      destruct G1 as [G1|[G1|G1]]; [congruence|discriminate|exact G1].
    + destruct (hsweep l _ true _) as [[[r1 p1] u1] a1] eqn:W. injection E as <- <- <- <-. cbn [negb] in G2.
      assert (X := IH _ _ _ _ _ _ _ _ (hgood_true _ _ _ _ G2) W). cbn. split; [reflexivity|exact X].
Qed.
Lemma hsweep_ok l : forall prev pu all r p u a, Forall okd l -> hsweep l prev pu all = (r, p, u, a) -> Forall okd r.
Proof.
  induction l as [|x l IH]; intros prev pu all r p u a F E; cbn [GlobalModel.hsweep] in E; [injection E as <- <- <- <-; constructor|].
  inversion F as [|? ? F1 F2]; subst. destruct (d_pr x) eqn:B.
  - destruct (hsweep l (d_q x) false all) as [[[r1 p1] u1] a1] eqn:W. injection E as <- <- <- <-. constructor; [destruct pu; exact F1|eapply IH; [exact F2|exact W]].
  - destruct (hsweep l _ true _) as [[[r1 p1] u1] a1] eqn:W. injection E as <- <- <- <-. constructor; [exact (HON _ _)|eapply IH; [exact F2|exact W]].
Qed.
Lemma hsweep_cert l : forall prev pu all r p u a, Forall dcert l -> hsweep l prev pu all = (r, p, u, a) -> Forall dcert r.
Proof.
  induction l as [|x l IH]; intros prev pu all r p u a F E; cbn [GlobalModel.hsweep] in E; [injection E as <- <- <- <-; constructor|].
  inversion F as [|? ? F1 F2]; subst. destruct (d_pr x) eqn:B.
  - destruct (hsweep l (d_q x) false all) as [[[r1 p1] u1] a1] eqn:W. injection E as <- <- <- <-. constructor; [destruct pu; exact F1|eapply IH; [exact F2|exact W]].
  - destruct (hsweep l _ true _) as [[[r1 p1] u1] a1] eqn:W. injection E as <- <- <- <-. constructor; [right; cbn; eauto|eapply IH; [exact F2|exact W]].
Qed.
Lemma hsweep_all l : forall prev pu all r p u a, hsweep l prev pu all = (r, p, u, a) -> a = false -> all = false \/ unproj r.
Proof.
  induction l as [|x l IH]; intros prev pu all r p u a E A; cbn [GlobalModel.hsweep] in E; [injection E as <- <- <- <-; auto|].
  destruct (d_pr x) eqn:B.
  - destruct (hsweep l (d_q x) false all) as [[[r1 p1] u1] a1] eqn:W. injection E as <- <- <- <-.
    destruct (IH _ _ _ _ _ _ _ W A) as [H|H]; [auto|right; right; exact H].
  - destruct (hsweep l _ true _) as [[[r1 p1] u1] a1] eqn:W. injection E as <- <- <- <-.
    destruct (IH _ _ _ _ _ _ _ W A) as [H|H]; [|right; right; exact H].
    apply andb_false_iff in H as [H|H]; [auto|]. right. left. exact H.
Qed.
Lemma hsweep_snoc l e : forall prev pu all r p u a, d_pr e = true -> hsweep (l ++ [e]) prev pu all = (r, p, u, a) ->
  exists r1 e', r = r1 ++ [e'] /\ d_q e' = d_q e /\ d_pr e' = true /\ u = false /\ (Forall okd l -> Forall okd r1).
Proof.
  induction l as [|x l IH]; intros prev pu all r p u a B E; cbn [app GlobalModel.hsweep] in E.
  - rewrite B in E. injection E as <- <- <- <-. exists [], (if pu then with_len e (dist prev (d_q e)) else e). destruct pu; repeat split; auto.
  - destruct (d_pr x) eqn:Bx.
    + destruct (hsweep (l ++ [e]) (d_q x) false all) as [[[r1 p1] u1] a1] eqn:W. injection E as <- <- <- <-.
      destruct (IH _ _ _ _ _ _ _ B W) as (r2 & e' & -> & Q1 & Q2 & Q3 & Q4). eexists (_ :: r2), e'. split; [reflexivity|]. repeat split; auto.
      intros F. inversion F; subst. constructor; [destruct pu; assumption|auto].
    + destruct (hsweep (l ++ [e]) _ true _) as [[[r1 p1] u1] a1] eqn:W. injection E as <- <- <- <-.
      destruct (IH _ _ _ _ _ _ _ B W) as (r2 & e' & -> & Q1 & Q2 & Q3 & Q4). eexists (_ :: r2), e'. split; [reflexivity|]. repeat split; auto.
      intros F. inversion F; subst. constructor; [exact (HON _ _)|auto].
Qed.

(* invariant of the loop *)
Definition inv (q0 qe : C) (s : hstate) : Prop :=
  exists x0 rest, h_pre s = x0 :: rest /\ d_q x0 = q0 /\ (d_n x0 = 0%nat /\ d_pr x0 = true) /\ thrmin * K <= d_sigma x0 /\
    ended qe (rest ++ h_post s) /\ hexact q0 (rest ++ h_post s) /\ Forall dcert (x0 :: rest ++ h_post s).
Lemma hone_inv q0 qe s : inv q0 qe s -> exists b s', hone s = Ok (b, s') /\ inv q0 qe s' /\ (b = false -> h_post s' = [] -> unproj (h_pre s')).
Proof.
  intros (x0 & rest & E0 & Q0 & N0 & S0 & (inner & e & EE & QE & PE & OK) & X & CE).
  unfold GlobalModel.hone. rewrite E0. destruct (hsweep rest (d_q x0) false true) as [[[r p] u] a] eqn:W.
  inversion CE as [|? ? CE0 CE1]; subst. apply Forall_app in CE1 as [CE1 CE2].
  assert (HX := hsweep_exact _ _ _ _ (h_post s) _ _ _ _ (hexact_good _ _ _ false X) W).
  assert (HC := hsweep_cert _ _ _ _ _ _ _ _ CE1 W).
  assert (HA : a = false -> unproj (x0 :: r)).
  { intros A. destruct (hsweep_all _ _ _ _ _ _ _ _ W A) as [H|H]; [discriminate|]. right. exact H. }
  destruct (h_post s) as [|y post] eqn:P.
  - rewrite app_nil_r in EE. subst rest.
    destruct (hsweep_snoc _ _ _ _ _ _ _ _ _ PE W) as (r1 & e' & -> & Q1 & Q2 & -> & Q4).
    exists a. eexists. split; [reflexivity|]. split.
    + exists x0, (r1 ++ [e']). cbn. rewrite !app_nil_r. cbn in HX. rewrite app_nil_r in HX. repeat split; auto; try (apply N0).
      exists r1, e'. repeat split; auto.
    + intros A _. cbn. apply HA, A.
  - (* inner points follow *)
    assert (SP : exists k, inner = rest ++ k /\ y :: post = k ++ [e]).
    { clear -EE. revert inner EE. induction rest as [|x rest IH]; intros inner EE; [exists inner; auto|].
      destruct inner as [|z inner]; cbn [app] in EE.
      - injection EE as -> E. destruct rest; discriminate.
      - injection EE as -> E. destruct (IH _ E) as (k & -> & K2). exists k. auto. }
    destruct SP as (k & -> & Ek). apply Forall_app in OK as [OK1 OK2].
    assert (OR := hsweep_ok _ _ _ _ _ _ _ _ OK1 W).
    assert (PT : exists b s', (if u then Ok (a, {| GlobalModel.h_pre := x0 :: r; GlobalModel.h_post := with_len y (dist p (d_q y)) :: post |})
       else Ok (a, {| GlobalModel.h_pre := x0 :: r; GlobalModel.h_post := y :: post |})) = Ok (b, s') /\
       s' = {| GlobalModel.h_pre := x0 :: r; GlobalModel.h_post := touch u p (y :: post) |} /\ b = a).
    { destruct u; eexists; eexists; (split; [reflexivity|]); split; reflexivity. }
    destruct PT as (b & s' & -> & -> & ->). exists a. eexists. split; [reflexivity|]. split; [|intros _ H; destruct u; discriminate].
    exists x0, r. cbn [GlobalModel.h_pre GlobalModel.h_post]. split; [reflexivity|]. split; [reflexivity|]. split; [exact N0|]. split; [assumption|].
    split; [|split; [exact HX|]].
    + destruct k as [|z k]; cbn [app] in Ek; injection Ek as -> ->.
      * exists r, (if u then with_len e (dist p (d_q e)) else e). cbn [touch]. split; [reflexivity|]. destruct u; repeat split; auto.
      * inversion OK2 as [|? ? OZ OK3]; subst.
        exists (r ++ (if u then with_len z (dist p (d_q z)) else z) :: k), e. cbn [touch]. split; [rewrite <- app_assoc; reflexivity|]. repeat split; auto.
        apply Forall_app. split; [exact OR|]. constructor; [destruct u; exact OZ|exact OK3].
    + constructor; [exact CE0|]. apply Forall_app. split; [exact HC|]. inversion CE2; subst. constructor; [destruct u; assumption|assumption].
Qed.

(* --------------------------------------------------- reinterpolation *)
Definition near (x y : data) : Prop := d_len y <= (d_sigma x + d_sigma y) / K /\ thrmin * K <= d_sigma x /\ thrmin * K <= d_sigma y.
Lemma ended_cons_new qe x l : d_pr x = false -> ended qe l -> ended qe (x :: l).
Proof. intros B (i & e & -> & H1 & H2 & H3). exists (x :: i), e. repeat split; auto. constructor; [intros H; congruence|exact H3]. Qed.
Lemma ended_len qe x d l : ended qe (x :: l) -> ended qe (with_len x d :: l).
Proof.
  intros (i & e & E & H1 & H2 & H3). destruct i as [|y i]; cbn [app] in E; injection E as -> ->.
  - exists [], (with_len e d). repeat split; auto.
  - exists (with_len y d :: i), e. inversion H3; subst. repeat split; auto.
Qed.
Lemma ended_uncons qe x y l : ended qe (x :: y :: l) -> okd x /\ ended qe (y :: l).
Proof.
  intros (i & e & E & H1 & H2 & H3). destruct i as [|z i]; cbn [app] in E; [discriminate|]. injection E as -> E. inversion H3; subst.
  split; [assumption|]. exists i, e. auto.
Qed.
Lemma ended_cons qe x l : okd x -> ended qe l -> ended qe (x :: l).
Proof. intros O (i & e & -> & H1 & H2 & H3). exists (x :: i), e. repeat split; auto. Qed.
(* the end is projected, or inner points follow *)
Lemma hreint_spec fuel : forall acc prev l post z s, hreint fuel acc prev l post = Ok (z, s) ->
  exists m, h_pre s ++ h_post s = rev acc ++ prev :: m /\
    (hexact (d_q prev) (l ++ post) -> hexact (d_q prev) m) /\
    (forall qe, l ++ post <> [] -> ended qe (l ++ post) -> ended qe m) /\
    (Forall dcert (l ++ post) -> Forall dcert m) /\
    (unproj (l ++ post) -> unproj m) /\ ((0 < z)%nat -> unproj m) /\
    (length (l ++ post) <= length m)%nat /\
    (thrmin * K <= d_sigma prev -> (d_n prev < maxIter)%nat -> exists m1, h_pre s = rev acc ++ prev :: m1) /\
    (exists m1, h_pre s = rev acc ++ m1) /\
    (z = 0%nat -> h_post s = [] -> m = l /\ post = [] /\ linked near (prev :: l)).
Proof.
  induction fuel as [|f IH]; intros acc prev l post z s E; cbn [GlobalModel.hreint] in E; [discriminate|].
  destruct l as [|x l].
  - injection E as <- <-. exists post. cbn [GlobalModel.h_pre GlobalModel.h_post rev app]. rewrite <- app_assoc.
    split; [reflexivity|]. do 3 (split; [auto|]). split; [auto|]. split; [lia|]. split; [reflexivity|]. split; [exists []; reflexivity|].
    split; [exists [prev]; reflexivity|].
    intros _ P. subst. repeat split.
  - destruct (qltb_spec (d_sigma prev) (thrmin * K)) as [L1|L1]; cbn [orb] in E.
    + injection E as <- <-. exists (x :: l ++ post). cbn [GlobalModel.h_pre GlobalModel.h_post app].
      split; [reflexivity|]. do 4 (split; [auto|]). split; [lia|]. split; [reflexivity|]. split; [intros H; exfalso; revert H L1; qc|].
      split; [exists []; symmetry; apply app_nil_r|]. discriminate.
    + destruct (Nat.leb_spec maxIter (d_n prev)) as [L2|L2].
      * injection E as <- <-. exists (x :: l ++ post). cbn [GlobalModel.h_pre GlobalModel.h_post app].
        split; [reflexivity|]. do 4 (split; [auto|]). split; [lia|]. split; [reflexivity|]. split; [intros _ H; lia|].
        split; [exists []; symmetry; apply app_nil_r|]. discriminate.
      * destruct (qltb_spec (d_sigma x) (thrmin * K)) as [L3|L3].
        { injection E as <- <-. exists (x :: l ++ post). cbn [GlobalModel.h_pre GlobalModel.h_post app rev]. rewrite <- app_assoc.
          split; [reflexivity|]. do 4 (split; [auto|]). split; [lia|]. split; [reflexivity|]. split; [exists []; reflexivity|].
          split; [exists [prev]; reflexivity|]. discriminate. }
        destruct (qltb_spec ((d_sigma prev + d_sigma x) / K) (d_len x)) as [L4|L4].
        -- set (q := interp (d_q prev) (d_q x) (d_sigma prev / (K * d_len x))) in E.
           set (y := init_data q false (Some (d_q prev))) in E.
           destruct (hreint f _ _ _ _) as [[z1 s1]| | |] eqn:R; cbn [bind] in E; try discriminate. injection E as <- <-.
           destruct (IH _ _ _ _ _ _ R) as (m & M1 & M2 & M3 & M4 & M5 & M6 & M7 & M8 & (m9 & M9) & M10).
           exists (y :: m). cbn [fst snd]. split; [rewrite M1; cbn [rev]; rewrite <- app_assoc; reflexivity|].
           split; [intros H; cbn [app hexact] in *; split; [reflexivity|]; apply M2; split; [reflexivity|apply H]|].
           split. { intros qe _ H. cbn [app] in *. apply ended_cons_new; [reflexivity|]. apply M3; [discriminate|]. apply ended_len, H. }
           split. { intros H. constructor; [left; exists ls0; reflexivity|]. apply M4. cbn [app] in *. inversion H; subst. constructor; assumption. }
           split; [intros _; left; reflexivity|]. split; [intros _; left; reflexivity|].
           split; [cbn [length app] in *; lia|].
           split; [intros _ _; exists m9; rewrite M9; cbn [rev]; rewrite <- app_assoc; reflexivity|].
           split; [exists (prev :: m9); rewrite M9; cbn [rev]; rewrite <- app_assoc; reflexivity|]. discriminate.
        -- destruct (IH _ _ _ _ _ _ E) as (m & M1 & M2 & M3 & M4 & M5 & M6 & M7 & M8 & (m9 & M9) & M10).
           exists (x :: m). split; [rewrite M1; cbn [rev]; rewrite <- app_assoc; reflexivity|].
           split; [intros H; cbn [app hexact] in *; split; [apply H|apply M2; apply H]|].
           split. { intros qe _ H. cbn [app] in *. destruct (l ++ post) as [|w k] eqn:LP.
                    - assert (m = []) as ->; [|exact H].
                      (* nothing follows: nothing is added *)
                      apply app_eq_nil in LP as [-> ->]. destruct f; cbn [GlobalModel.hreint] in E; [discriminate|]. injection E as <- <-.
                      cbn [GlobalModel.h_pre GlobalModel.h_post app rev] in M1. rewrite app_nil_r in M1. rewrite <- app_assoc in M1. cbn [app] in M1.
                      rewrite <- !app_assoc in M1. cbn [app] in M1.
                      apply app_inv_head in M1. injection M1 as M1. congruence.
                    - destruct (ended_uncons _ _ _ _ H) as [O H2]. apply ended_cons; [exact O|]. apply M3; [discriminate|exact H2]. }
           split. { intros H. cbn [app] in *. inversion H; subst. constructor; auto. }
           split. { intros H. cbn [app] in *. inversion H; subst; [left; assumption|right; apply M5; assumption]. }
           split; [intros H; right; apply M6, H|]. split; [cbn [length app] in *; lia|].
           split; [intros _ _; exists m9; rewrite M9; cbn [rev]; rewrite <- app_assoc; reflexivity|].
           split; [exists (prev :: m9); rewrite M9; cbn [rev]; rewrite <- app_assoc; reflexivity|].
           intros Z P. destruct (M10 Z P) as (-> & -> & LK). repeat split; auto.
Qed.

(* what a reinterpolation does to the invariant *)
Lemma ended_nonempty qe l : ended qe l -> l <> [].
Proof. intros (i & e & -> & _) H. destruct i; discriminate. Qed.
Definition linked_st (s : hstate) : Prop := linked near (h_pre s).
Lemma hreint_inv fuel q0 qe s z s' : (0 < maxIter)%nat -> inv q0 qe s -> hreinterpolate fuel s = Ok (z, s') ->
  inv q0 qe s' /\ (h_post s' = [] -> unproj (h_pre s) -> unproj (h_pre s')) /\ (h_post s' = [] -> (0 < z)%nat -> unproj (h_pre s')) /\
  (z = 0%nat -> h_post s' = [] -> linked_st s').
Proof.
  intros MI (x0 & rest & E0 & Q0 & N0 & S0 & EN & X & CE) E. unfold GlobalModel.hreinterpolate in E. rewrite E0 in E.
  destruct (hreint_spec _ _ _ _ _ _ _ E) as (m & M1 & M2 & M3 & M4 & M5 & M6 & M7 & M8 & _ & M10).
  destruct (M8 S0) as (m1 & Em1); [destruct N0; lia|]. cbn [rev app] in Em1, M1. inversion CE as [|? ? CE0 CE1]; subst.
  assert (EM : m1 ++ h_post s' = m) by (rewrite Em1 in M1; cbn [app] in M1; injection M1 as M1; exact M1).
  assert (PM : h_post s' = [] -> m = m1) by (intros P; rewrite P, app_nil_r in EM; congruence).
  split; [|split; [|split]].
  - exists x0, m1. rewrite EM. repeat split; auto; try (apply N0). apply M3; [eapply ended_nonempty, EN|exact EN].
  - intros P U. rewrite Em1. rewrite (PM P) in M5. rewrite E0 in U. inversion U; subst; [left; assumption|right]. apply M5. unfold unproj. apply Exists_app. left. assumption.
  - intros P Z. rewrite Em1. right. rewrite <- (PM P). apply M6, Z.
  - intros Z P. destruct (M10 Z P) as (-> & _ & LK). unfold linked_st. rewrite Em1, <- (PM P). exact LK.
Qed.
(* the state at the end of the loop *)
Lemma hiterate_inv fuel : forall q0 qe mc s n s', (0 < maxIter)%nat -> inv q0 qe s -> hiterate fuel mc s n = Ok s' ->
  inv q0 qe s' /\ (h_post s' = [] -> unproj (h_pre s') \/ linked_st s').
Proof.
  induction fuel as [|f IH]; intros q0 qe mc s n s' MI I E; cbn [GlobalModel.hiterate] in E; [discriminate|].
  destruct (hone_inv _ _ _ I) as (b & s1 & E1 & I1 & U1). rewrite E1 in E. cbn [bind] in E.
  destruct (Nat.ltb _ mc || b) eqn:T.
  - destruct (hreinterpolate f s1) as [[z s2]| | |] eqn:R; cbn [bind] in E; try discriminate.
    destruct (hreint_inv _ _ _ _ _ _ MI I1 R) as (I2 & U2 & U3 & L2).
    destruct (Nat.ltb (2 * maxIter) _); [|destruct (negb b || Nat.ltb 0 z) eqn:A].
    + injection E as <-. split; [exact I2|]. intros P. destruct z; [right; apply L2; auto|left; apply U3; [exact P|lia]].
    + eapply IH; eassumption.
    + injection E as <-. split; [exact I2|]. intros P. apply orb_false_iff in A as [_ A]. apply Nat.ltb_ge in A. right. apply L2; [lia|exact P].
  - apply orb_false_iff in T as [_ ->]. cbn [bind negb orb] in E.
    destruct (Nat.ltb (2 * maxIter) _).
    + injection E as <-. split; [exact I1|]. intros P. left. apply U1; auto.
    + eapply IH; eassumption.
Qed.
(* the loop does not crash *)
Lemma hiterate_defined fuel : forall q0 qe mc s n, (0 < maxIter)%nat -> inv q0 qe s -> hiterate fuel mc s n <> UB /\ hiterate fuel mc s n <> Throw.
Proof.
  assert (HR : forall fuel acc prev l post, hreint fuel acc prev l post <> UB /\ hreint fuel acc prev l post <> Throw).
  { clear. induction fuel as [|f IH]; intros acc prev l post; cbn [GlobalModel.hreint]; [split; discriminate|].
    destruct l as [|x l]; [split; discriminate|]. destruct (qltb _ _ || _); [split; discriminate|]. destruct (qltb _ _); [split; discriminate|].
    destruct (qltb _ _); [|apply IH]. match goal with |- bind ?r _ <> _ /\ _ => destruct (IH (prev :: acc) (init_data (interp (d_q prev) (d_q x) (d_sigma prev / (K * d_len x))) false (Some (d_q prev))) (with_len x (dist (interp (d_q prev) (d_q x) (d_sigma prev / (K * d_len x))) (d_q x)) :: l) post) as [H1 H2]; destruct r end;
    cbn [bind]; split; congruence. }
  induction fuel as [|f IH]; intros q0 qe mc s n MI I; cbn [GlobalModel.hiterate]; [split; discriminate|].
  destruct (hone_inv _ _ _ I) as (b & s1 & E1 & I1 & U1). rewrite E1. cbn [bind].
  destruct (Nat.ltb _ mc || b).
  - destruct (hreinterpolate f s1) as [[z s2]| | |] eqn:R; cbn [bind]; [|exfalso|exfalso|split; discriminate].
    + destruct (hreint_inv _ _ _ _ _ _ MI I1 R) as (I2 & _). destruct (Nat.ltb (2 * maxIter) _); [split; discriminate|].
      destruct (negb b || _); [eapply IH; eassumption|split; discriminate].
    + destruct I1 as (x0 & rest & E0 & _). unfold GlobalModel.hreinterpolate in R. rewrite E0 in R. exact (proj2 (HR _ _ _ _ _) R).
    + destruct I1 as (x0 & rest & E0 & _). unfold GlobalModel.hreinterpolate in R. rewrite E0 in R. exact (proj1 (HR _ _ _ _ _) R).
  - cbn [bind]. destruct (Nat.ltb (2 * maxIter) _); [split; discriminate|]. destruct (negb b || _); [eapply IH; eassumption|split; discriminate].
Qed.
Lemma hfront_full l : forall r b, hfront C LS l = (r, b) -> b = true -> r = map (fun x => (d_len x, d_q x)) l /\ Forall (fun x => d_pr x = true) l.
Proof.
  induction l as [|x l IH]; intros r b E T; cbn [GlobalModel.hfront] in E; [injection E as <- <-; auto|].
  destruct (d_pr x) eqn:B; [|injection E as <- <-; discriminate]. destruct (hfront C LS l) as [r1 b1]. injection E as <- <-.
  destruct (IH _ _ eq_refl T) as [-> F]. auto.
Qed.
Lemma hexact_chain l : forall prev, hexact prev l -> chain C dist prev (map (fun x => (d_len x, d_q x)) l).
Proof. induction l as [|x l IH]; intros prev H; [exact I|]. destruct H as [H1 H2]. split; [exact H1|apply IH, H2]. Qed.
(* consecutive points are within reach of their singular values *)
Definition reach (a b : C) : Prop := exists sa sb, cert a sa /\ cert b sb /\ thrmin * K <= sa /\ thrmin * K <= sb /\ dist a b <= (sa + sb) / K.
Lemma near_rchain l : forall x, hexact (d_q x) l -> Forall dcert (x :: l) -> linked near (x :: l) ->
  rchain C reach (d_q x) (map (fun x => (d_len x, d_q x)) l).
Proof.
  induction l as [|y l IH]; intros x H F L; [exact I|]. destruct H as [H1 H2]. destruct L as [(L1 & L2 & L3) L4].
  inversion F as [|? ? F1 F2]; subst. cbn [map rchain]. split; [|apply IH; assumption].
  exists (d_sigma x), (d_sigma y). inversion F2; subst. rewrite <- H1. repeat split; assumption.
Qed.
End Hess.
