(* C96: path optimizers respect their limits and interruptions. *)
From Coq Require Import ZArith List Bool Lia QArith Lqa.
From Verif Require Import Base Ext LoopModel MonModel.
Import ListNotations.
Open Scope Z_scope.

Section Mon.
Variable env : nat -> Z * bool.
Variable X : Type.
Notation program := (program X).
Notation loop := (loop env X).
Notation optimize := (optimize env X).

(* ---------------------------------------------------------- specification *)
(* [n] iterations of a program *)
Definition after (p : program) (n : nat) (x : X) : X := Nat.iter n (body X p) x.
(* Reasons to stop an execution that began (monitorExecution) at the instant
   [g]: before the iteration [j] (counted from 0), interrupt() has been called
   since the beginning, or [j] iterations were allowed, or the time is over. *)
Definition interrupted (g j : nat) : Prop := exists i, (i <= j)%nat /\ snd (env (S g + i)%nat) = true.
Definition elapsed (g j : nat) : Z := fst (env (S g + j)%nat) - fst (env g).
Definition must_stop (m : Z) (t : dbl) (g j : nat) : Prop :=
  interrupted g j \/ m <= Z.of_nat j \/ over_time (Z.quot (elapsed g j) 1000) t = true.

Lemma iter_shift {A} (f : A -> A) n x : Nat.iter n f (f x) = f (Nat.iter n f x).
Proof. induction n as [|n IH]; [reflexivity|]. cbn. f_equal. exact IH. Qed.

(* state of the optimizer before the test [j] of an execution begun at [g] *)
Record at_test (o : optimizer) (m : Z) (t : dbl) (g j : nat) : Prop := {
  a_flag : flag o = true <-> (exists i, (i < j)%nat /\ snd (env (S g + i)%nat) = true);
  a_max : max_it o = m; a_time : t_out o = t; a_on : enabled o = true; a_it : iteration o = Z.of_nat j; a_start : time_start o = fst (env g) }.

Lemma flag_seen o m t g j : at_test o m t g j -> flag (seen env o (S g + j)) = true <-> interrupted g j.
Proof.
  intros [F _ _ _ _ _]. unfold seen, interrupted. destruct (snd (env (S g + j)%nat)) eqn:E.
  - split; [intros _; exists j; split; [lia | exact E] | reflexivity].
  - rewrite F. split; intros [i [L H]]; exists i; (split; [|exact H]); [lia|].
    assert (i <> j) by (intros ->; congruence). lia.
Qed.
Lemma seen_same o g : max_it (seen env o g) = max_it o /\ t_out (seen env o g) = t_out o /\ enabled (seen env o g) = enabled o /\ iteration (seen env o g) = iteration o /\ time_start (seen env o g) = time_start o.
Proof. unfold seen. destruct (snd (env g)); repeat split. Qed.
Lemma should_stop_iff o m t g j : at_test o m t g j -> should_stop (seen env o (S g + j)) (fst (env (S g + j)%nat)) = true <-> must_stop m t g j.
Proof.
  intros A. pose proof (flag_seen _ _ _ _ _ A) as F. destruct A as [_ A2 A3 A4 A5 A6]. destruct (seen_same o (S g + j)) as [S1 [S2 [S3 [S4 S5]]]].
  unfold should_stop, must_stop. rewrite S1, S2, S3, S4, S5, A2, A3, A4, A5, A6. cbn [negb]. destruct (flag (seen env o (S g + j))) eqn:E.
  - split; [intros _; left; apply F; reflexivity | reflexivity].
  - fold (elapsed g j). destruct (Z.leb_spec m (Z.of_nat j)) as [L|L]; [split; auto|]. split; [auto|]. intros [H|[H|H]]; [apply F in H; congruence | lia | exact H].
Qed.
Lemma at_next o m t g j : at_test o m t g j -> at_test (end_iteration (seen env o (S g + j))) m t g (S j).
Proof.
  intros A. pose proof (flag_seen _ _ _ _ _ A) as F. destruct A as [_ A2 A3 A4 A5 A6]. destruct (seen_same o (S g + j)) as [S1 [S2 [S3 [S4 S5]]]].
  split; cbn [end_iteration flag max_it t_out enabled iteration time_start]; rewrite ?S1, ?S2, ?S3, ?S4, ?S5; try assumption.
  - rewrite F. unfold interrupted. split; intros [i [L H]]; exists i; (split; [lia | exact H]).
  - rewrite A5, Nat2Z.inj_succ. lia.
Qed.
Lemma loop_spec fuel : forall o m t g j p x r, at_test o m t g j -> loop fuel (S g + j) o p x = r -> r <> Fuel ->
  exists n o', (n < fuel)%nat /\ r = Ok (after p n x, o', (S g + j + n + 1)%nat) /\
    (forall i, (i < n)%nat -> ~ must_stop m t g (j + i) /\ finished X p (after p i x) = false) /\
    (must_stop m t g (j + n) \/ finished X p (after p n x) = true) /\ max_it o' = m /\ t_out o' = t.
Proof.
  induction fuel as [|f IH]; intros o m t g j p x r A E Nf; [cbn in E; congruence|]. cbn [MonModel.loop] in E.
  pose proof (should_stop_iff _ _ _ _ _ A) as St. destruct (should_stop (seen env o (S g + j)) (fst (env (S g + j)%nat)) || finished X p x) eqn:B.
  - exists 0%nat, (seen env o (S g + j)). split; [lia|]. split; [rewrite <- E; unfold after; cbn [Nat.iter nat_rect]; do 2 f_equal; lia|].
    split; [intros i Hi; lia|]. apply orb_true_iff in B. rewrite Nat.add_0_r. split; [destruct B as [B|B]; [left; apply St; exact B | right; exact B]|].
    destruct A as [_ A2 A3 _ _ _]. destruct (seen_same o (S g + j)) as [S1 [S2 _]]. rewrite S1, S2. split; assumption.
  - apply orb_false_iff in B. destruct B as [B1 B2]. pose proof (at_next _ _ _ _ _ A) as A'.
    replace (S (S g + j))%nat with (S g + S j)%nat in E by lia.
    destruct (IH _ _ _ _ _ _ _ _ A' E Nf) as [n [o' [L [R [Be [En Se]]]]]]. exists (S n), o'. split; [lia|].
    assert (Sh : forall i, after p i (body X p x) = after p (S i) x) by (intros i; unfold after; rewrite iter_shift; reflexivity).
    split; [rewrite R, Sh; do 2 f_equal; lia|]. split; [|split; [|exact Se]].
    + intros [|i] Hi; [rewrite Nat.add_0_r; split; [intros M; apply St in M; congruence | exact B2]|].
      destruct (Be i ltac:(lia)) as [Q1 Q2]. rewrite Sh in Q2. replace (j + S i)%nat with (S j + i)%nat by lia. auto.
    + rewrite Sh in En. replace (j + S n)%nat with (S j + n)%nat by lia. exact En.
Qed.
Lemma at_start o g : at_test (monitor_execution (seen env o g) (fst (env g))) (max_it o) (t_out o) g 0.
Proof.
  destruct (seen_same o g) as [S1 [S2 _]]. split; cbn [monitor_execution flag max_it t_out enabled iteration time_start]; auto.
  split; [discriminate | intros [i [L _]]; lia].
Qed.

(* -------------------------------------------------------------- theorems *)
(* An execution does n iterations: before none of them was there a reason to
   stop, and after them there is one or the optimizer has finished. *)
Theorem C96_exact fuel g o p x r : optimize fuel g o p x = r -> r <> Fuel ->
  exists n o', r = Ok (after p n x, o', (g + n + 2)%nat) /\
    (forall i, (i < n)%nat -> ~ must_stop (max_it o) (t_out o) g i /\ finished X p (after p i x) = false) /\
    (must_stop (max_it o) (t_out o) g n \/ finished X p (after p n x) = true) /\ max_it o' = max_it o /\ t_out o' = t_out o.
Proof.
  intros E Nf. unfold MonModel.optimize in E. replace (S g) with (S g + 0)%nat in E by lia.
  destruct (loop_spec _ _ _ _ _ _ _ _ _ (at_start o g) E Nf) as [n [o' [_ [R [B [N M]]]]]]. exists n, o'. split; [rewrite R; do 2 f_equal; lia|]. auto.
Qed.
(* It ends within the number of iterations allowed, ... *)
Theorem C96_iterations fuel g o p x : (Z.to_nat (max_it o) < fuel)%nat ->
  exists n o', optimize fuel g o p x = Ok (after p n x, o', (g + n + 2)%nat) /\ Z.of_nat n <= Z.max 0 (max_it o).
Proof.
  intros L.
  assert (Nf : optimize fuel g o p x <> Fuel).
  { unfold MonModel.optimize. replace (S g) with (S g + 0)%nat by lia. pose proof (at_start o g) as A. revert A. generalize (monitor_execution (seen env o g) (fst (env g))) as o1. intros o1 A.
    assert (G : forall f o2 j y, at_test o2 (max_it o) (t_out o) g j -> (Z.to_nat (max_it o) - j < f)%nat -> loop f (S g + j) o2 p y <> Fuel).
    { induction f as [|f IH]; intros o2 j y A2 Lf; [lia|]. cbn [MonModel.loop].
      destruct (should_stop (seen env o2 (S g + j)) (fst (env (S g + j)%nat)) || finished X p y) eqn:B; [discriminate|].
      apply orb_false_iff in B. destruct B as [B _]. replace (S (S g + j))%nat with (S g + S j)%nat by lia. apply IH; [apply at_next; exact A2|].
      destruct (Z.leb_spec (max_it o) (Z.of_nat j)) as [H|H]; [|lia]. exfalso.
      enough (should_stop (seen env o2 (S g + j)) (fst (env (S g + j)%nat)) = true) by congruence. apply (should_stop_iff _ _ _ _ _ A2). right. left. exact H. }
    apply G; [exact A | lia]. }
  destruct (C96_exact fuel g o p x _ eq_refl Nf) as [n [o' [R [B _]]]]. exists n, o'. split; [exact R|].
  destruct n as [|n]; [lia|]. destruct (B n ltac:(lia)) as [M _]. destruct (Z.le_gt_cases (max_it o) (Z.of_nat n)) as [H|H]; [exfalso; apply M; right; left; exact H | lia].
Qed.
(* ... at the first test after an interruption, ... *)
Theorem C96_interruption fuel g o p x n o' j :
  optimize fuel g o p x = Ok (after p n x, o', (g + n + 2)%nat) -> snd (env (S g + j)%nat) = true -> (n <= j)%nat.
Proof.
  intros E H. destruct (C96_exact fuel g o p x _ E ltac:(discriminate)) as [n' [o1 [R [B _]]]]. injection R as _ _ En. assert (n' = n) by lia. subst n'.
  destruct (Nat.le_gt_cases n j) as [L|L]; [exact L|]. destruct (B j L) as [M _]. exfalso. apply M. left. exists j. split; [lia | exact H].
Qed.
(* ... and starts no iteration when the time out (in seconds) has elapsed for
   a millisecond. *)
Theorem C96_time fuel g o p x n o' q j : t_out o = DExt (Fin q) -> (0 <= q)%Q ->
  optimize fuel g o p x = Ok (after p n x, o', (g + n + 2)%nat) -> (j < n)%nat ->
  (inject_Z (elapsed g j) < q * 1000000 + 1000)%Q.
Proof.
  intros T Q0 E Hj. destruct (C96_exact fuel g o p x _ E ltac:(discriminate)) as [n' [o1 [R [B _]]]]. injection R as _ _ En. assert (n' = n) by lia. subst n'.
  destruct (B j Hj) as [M _]. assert (O : over_time (Z.quot (elapsed g j) 1000) (t_out o) = false) by (destruct (over_time (Z.quot (elapsed g j) 1000) (t_out o)) eqn:Z; [exfalso; apply M; right; right; exact Z | reflexivity]).
  rewrite T in O. cbn [over_time] in O. apply negb_false_iff, Qle_bool_iff in O.
  destruct (Z.lt_ge_cases (elapsed g j) 0) as [N|N].
  - assert (inject_Z (elapsed g j) < 0)%Q by (unfold inject_Z, Qlt; cbn; lia). lra.
  - assert (D : elapsed g j < 1000 * Z.quot (elapsed g j) 1000 + 1000).
    { pose proof (Z.quot_rem' (elapsed g j) 1000). pose proof (Z.rem_bound_pos (elapsed g j) 1000 N ltac:(lia)). lia. }
    assert (D' : (inject_Z (elapsed g j) < 1000 * inject_Z (Z.quot (elapsed g j) 1000) + 1000)%Q).
    { replace 1000%Q with (inject_Z 1000) by reflexivity. rewrite <- inject_Z_mult, <- inject_Z_plus, <- Zlt_Qlt. exact D. }
    lra.
Qed.
(* Interrupting before optimize has begun has no effect. *)
Theorem C96_early_interruption_refuted fuel g o p x : optimize fuel g (interrupt o) p x = optimize fuel g o p x.
Proof. unfold MonModel.optimize. f_equal. unfold seen. destruct (snd (env g)); reflexivity. Qed.

(* An optimizer which did not call monitorExecution stops when it has finished
   or at the first test after an interruption, even an early one. *)
Theorem C96_unmonitored fuel : forall g o p x r, enabled o = false -> loop fuel g o p x = r -> r <> Fuel ->
  exists n o', r = Ok (after p n x, o', (g + n + 1)%nat) /\
    (forall i, (i < n)%nat -> flag o = false /\ snd (env (g + i)%nat) = false /\ finished X p (after p i x) = false) /\
    (flag o = true \/ (exists i, (i <= n)%nat /\ snd (env (g + i)%nat) = true) \/ finished X p (after p n x) = true).
Proof.
  induction fuel as [|f IH]; intros g o p x r EN E Nf; [cbn in E; congruence|]. cbn [MonModel.loop] in E.
  assert (SS : should_stop (seen env o g) (fst (env g)) = true <-> flag o = true \/ snd (env g) = true).
  { unfold should_stop, seen. destruct (snd (env g)); [cbn; tauto|]. rewrite EN. destruct (flag o); cbn; [tauto|]. split; [discriminate|intros [H|H]; discriminate]. }
  destruct (should_stop (seen env o g) (fst (env g)) || finished X p x) eqn:B.
  - exists 0%nat, (seen env o g). split; [rewrite <- E; unfold after; cbn [Nat.iter nat_rect]; do 2 f_equal; lia|]. split; [intros i Hi; lia|].
    apply orb_true_iff in B as [B|B]; [|right; right; exact B]. apply SS in B as [B|B]; [left; exact B|right; left; exists 0%nat; rewrite Nat.add_0_r; auto].
  - apply orb_false_iff in B as [B1 B2]. assert (F0 : flag o = false /\ snd (env g) = false).
    { destruct (flag o) eqn:Fo; [assert (H := proj2 SS (or_introl eq_refl)); congruence|]. destruct (snd (env g)) eqn:Eg; [assert (H := proj2 SS (or_intror eq_refl)); congruence|]. auto. }
    destruct F0 as [F0 F1]. assert (S0 : seen env o g = o) by (unfold seen; rewrite F1; reflexivity). rewrite S0 in E.
    destruct (IH (S g) (end_iteration o) p (body X p x) r EN E Nf) as (n & o' & R & Be & Af). exists (S n), o'.
    assert (Sh : forall i, after p i (body X p x) = after p (S i) x) by (intros i; unfold after; rewrite iter_shift; reflexivity).
    split; [rewrite R, Sh; do 2 f_equal; lia|]. split.
    + intros [|i] Hi; [rewrite Nat.add_0_r; auto|]. destruct (Be i ltac:(lia)) as (_ & Q2 & Q3). rewrite Sh in Q3. replace (g + S i)%nat with (S g + i)%nat by lia. auto.
    + rewrite Sh in Af. destruct Af as [Af|[[i [Hi Af]]|Af]]; [cbn in Af; congruence| |auto]. right; left. exists (S i). split; [lia|]. replace (g + S i)%nat with (S g + i)%nat by lia. exact Af.
Qed.

(* ------------------------------------------------------ sequences *)
(* A sequence of optimizers ends, within the sum of their iterations. *)
Theorem C96_sequence fuel l : forall g x, (forall o p, In (o, p) l -> (Z.to_nat (max_it o) < fuel)%nat) ->
  exists x' g', optimize_all env X fuel g l x = Ok (x', g') /\
    Z.of_nat g' <= Z.of_nat g + fold_right (fun a s => Z.max 0 (max_it (fst a)) + 2 + s) 0 l.
Proof.
  induction l as [|[o p] l IH]; intros g x H; cbn [optimize_all fold_right fst].
  - exists x, g. split; [reflexivity | lia].
  - destruct (C96_iterations fuel g o p x (H o p (or_introl eq_refl))) as [n [o' [E L]]]. rewrite E.
    destruct (IH (g + n + 2)%nat (after p n x) (fun o1 p1 I => H o1 p1 (or_intror I))) as [x' [g' [E' L']]]. exists x', g'. split; [exact E' | lia].
Qed.
End Mon.

(* An interruption during the first optimizer stops this one only: the second
   does all its iterations. [ticking p n] counts them. *)
Definition tick : program nat := {| body := S; finished := fun _ => false |}.
Theorem C96_sequence_interruption_refuted m1 m2 fuel : (Z.to_nat m1 < fuel)%nat -> (Z.to_nat m2 < fuel)%nat -> 0 <= m2 ->
  let env g := (0, Nat.eqb g 1) in
  exists g, optimize_all env nat fuel 0 [(create m1 (DExt PInf), tick); (create m2 (DExt PInf), tick)] 0%nat = Ok (Z.to_nat m2, g) /\ snd (env 1%nat) = true.
Proof.
  intros L1 L2 P env. assert (T : forall n x, after nat tick n x = (n + x)%nat) by (intros n x; unfold after; induction n as [|n IH]; [reflexivity | cbn; f_equal; exact IH]).
  destruct (C96_iterations env nat fuel 0 (create m1 (DExt PInf)) tick 0%nat L1) as [n [o1 [E _]]].
  pose proof (C96_interruption env nat fuel 0 _ tick 0%nat n o1 0%nat E eq_refl) as N0. assert (n = 0%nat) by lia. subst n.
  cbn [optimize_all]. rewrite E. rewrite T. cbn [Nat.add].
  destruct (C96_iterations env nat fuel 2 (create m2 (DExt PInf)) tick 0%nat L2) as [k [o2 [E2 B2]]]. rewrite E2, T, Nat.add_0_r. cbn [create max_it] in B2.
  destruct (C96_exact env nat fuel 2 _ tick 0%nat _ E2 ltac:(discriminate)) as [k' [o3 [R [_ [F _]]]]]. injection R as _ _ Ek. assert (k' = k) by lia. subst k'.
  destruct F as [[I|[I|I]]|I]; [destruct I as [i [_ I]]; cbn in I; discriminate | | cbn in I; discriminate | cbn in I; discriminate].
  cbn [create max_it] in I. assert (Z.to_nat m2 = k) by lia. subst k. eexists. split; reflexivity.
Qed.
(* Asking for more iterations than the greatest signed number stops before the
   first iteration. *)
Theorem C96_large_refuted env X fuel g o n p x : 2 ^ 63 <= n < 2 ^ 64 ->
  exists o', optimize env X (S fuel) g (set_max o n) p x = Ok (x, o', (g + 2)%nat).
Proof.
  intros H. assert (M : max_it (set_max o n) <= 0) by (cbn [set_max max_it]; unfold to_signed; destruct (Z.ltb_spec n (2 ^ 63)); lia).
  destruct (C96_iterations env X (S fuel) g (set_max o n) p x ltac:(lia)) as [k [o' [E L]]]. assert (k = 0%nat) by lia. subst k. exists o'. rewrite E. do 2 f_equal. lia.
Qed.
Theorem C96_settings o n t : 0 <= n < 2 ^ 63 ->
  max_it (set_max o n) = n /\ t_out (set_max o n) = t_out o /\ t_out (set_time_out o t) = t /\ max_it (set_time_out o t) = max_it o.
Proof. intros H. cbn [set_max set_time_out max_it t_out]. unfold to_signed. destruct (Z.ltb_spec n (2 ^ 63)); [auto | lia]. Qed.

(* What each optimizer keeps, the sequence keeps; the stored paths are the
   successive results, the last of which is the outcome. *)
Theorem C96_results {P} (good : P -> Prop) (os : list (P -> res P)) path stored :
  (forall o p p', In o os -> good p -> o p = Ok p' -> good p') -> good path ->
  exists new, fst (optimize_path os path stored) = stored ++ new /\ (length new <= length os)%nat /\ Forall good new /\
    snd (optimize_path os path stored) = finish_solve os path /\
    (forall p, snd (optimize_path os path stored) = Ok p -> p = last new path /\ length new = length os) /\
    (forall i o p, nth_error os i = Some o -> nth_error new i = Some p -> o (match i with O => path | S k => nth k new path end) = Ok p).
Proof.
  revert path stored. induction os as [|o os IH]; intros path stored K G; cbn [optimize_path finish_solve].
  - exists []. rewrite app_nil_r. cbn. repeat split; auto; try congruence; destruct i; discriminate.
  - destruct (o path) as [p| | |] eqn:E; try solve [exists []; rewrite app_nil_r; cbn; repeat split; auto; try lia; try congruence; destruct i; discriminate].
    assert (Gp : good p) by (apply (K o path p (or_introl eq_refl) G E)).
    destruct (IH p (stored ++ [p]) (fun o' a b I => K o' a b (or_intror I)) Gp) as [new [A [B [C [D [F H]]]]]].
    exists (p :: new). rewrite A, <- app_assoc. split; [reflexivity|]. split; [cbn; lia|]. split; [constructor; assumption|]. split; [exact D|]. split.
    + intros r Er. destruct (F r Er) as [F1 F2]. split; [|cbn; lia]. rewrite F1. clear. destruct new as [|a new]; [reflexivity|]. cbn [last]. revert a. induction new as [|b new IH]; intros a; [reflexivity|]. apply IH.
    + intros [|i] o' r Ho Hr; cbn in Ho, Hr; [injection Ho as <-; injection Hr as <-; exact E|].
      specialize (H i o' r Ho Hr). destruct i as [|i]; cbn [nth]; [exact H|]. rewrite (nth_indep new p path) in H; [exact H|]. apply nth_error_Some. intros Z. assert (nth_error new (S i) = None) by (apply nth_error_None; apply nth_error_None in Z; lia). congruence.
Qed.

(* The path given by an optimizer's steering is one that its steering method
   and its projector both accept; null otherwise. *)
Theorem C96_steer {Q P} (sm : Q -> Q -> option P) proj q1 q2 :
  (forall p, steer sm proj q1 q2 = Some p <-> exists dp, sm q1 q2 = Some dp /\ match proj with None => p = dp | Some f => f dp = (true, Some p) end).
Proof.
  intros p. unfold steer. destruct (sm q1 q2) as [dp|]; [|split; [discriminate | intros [dp [E _]]; discriminate]].
  destruct proj as [f|]; [destruct (f dp) as [b pp] eqn:E|]; split.
  - destruct b; [|discriminate]. intros ->. exists dp. auto.
  - intros [d [D F]]. injection D as <-. rewrite E in F. injection F as -> ->. reflexivity.
  - intros [= ->]. exists p. auto.
  - intros [d [D ->]]. injection D as <-. reflexivity.
Qed.

(* Six iterations are allowed, an interruption comes before the fourth test. *)
Example stopped_by_interruption : exists o', optimize (fun g => (Z.of_nat g, Nat.eqb g 4)) nat 10 0 (create 6 (DExt PInf)) tick 0%nat = Ok (3%nat, o', 5%nat).
Proof. eexists. reflexivity. Qed.
Example stopped_early : exists o', loop (fun g => (Z.of_nat g, false)) nat 10 0 (interrupt (create 6 (DExt PInf))) tick 0%nat = Ok (0%nat, o', 1%nat).
Proof. eexists. reflexivity. Qed.
Example stopped_by_count : exists o', optimize (fun g => (Z.of_nat g, false)) nat 10 0 (create 6 (DExt PInf)) tick 0%nat = Ok (6%nat, o', 8%nat).
Proof. eexists. reflexivity. Qed.
Example stopped_by_time : exists o', optimize (fun g => (2000 * Z.of_nat g, false)) nat 10 0 (create 6 (DExt (Fin (1 # 200)))) tick 0%nat = Ok (2%nat, o', 4%nat).
Proof. eexists. reflexivity. Qed.
Example results_demo : optimize_path [(fun p => Ok (p - 1)); (fun p => if p <? 5 then Throw else Ok p); (fun p => Ok 0)] 5 [9] = ([9; 4], Throw).
Proof. reflexivity. Qed.

Print Assumptions C96_exact.
Print Assumptions C96_iterations.
Print Assumptions C96_interruption.
Print Assumptions C96_time.
Print Assumptions C96_early_interruption_refuted.
Print Assumptions C96_sequence.
Print Assumptions C96_sequence_interruption_refuted.
Print Assumptions C96_large_refuted.
Print Assumptions C96_settings.
Print Assumptions C96_results.
Print Assumptions C96_steer.
Print Assumptions C96_unmonitored.
