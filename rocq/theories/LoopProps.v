(* C25: the solving loop of the planners. *)
From Coq Require Import Lqa Qround.
From Verif Require Import Base Ext LoopModel LoopSpec.

Section Props.
Context {St A : Type}.
Variable start : res St.
Variable oneStep : St -> res St.
Variable reached : St -> bool.
Variable computePath : St -> res A.
Variable clock : nat -> Z.
Variable intr : nat -> bool.
Variable c : settings.

Notation after := (after start oneStep).
Notation limit := (limit clock c).
Notation quiet := (quiet intr).
Notation looks := (looks c).
Notation goes_on := (goes_on start oneStep reached clock intr c).
Notation arrives := (arrives start oneStep reached clock intr c).
Notation loop := (loop St A oneStep reached computePath clock intr).
Notation solve := (solve St A start oneStep reached computePath clock intr).

Lemma after_det n : forall s t, after n s -> after n t -> s = t.
Proof.
  induction n as [|n IH]; intros s t H1 H2; inversion H1; inversion H2; subst; [congruence|].
  assert (s0 = s1) by (apply IH; assumption). subst; congruence.
Qed.
Definition limitb (n : nat) : bool :=
  (negb (Nat.eqb (maxI c) 0) && (maxI c <=? n)) || over_time (clock n) (tmo c).
Lemma limitb_iff n : limitb n = true <-> limit n.
Proof.
  unfold limitb, LoopSpec.limit. rewrite orb_true_iff, andb_true_iff, negb_true_iff, Nat.eqb_neq, Nat.leb_le.
  destruct (tmo c) as [|[|q|]]; cbn [over_time]; try (intuition discriminate).
  rewrite negb_true_iff. split; intros [H|H]; auto; right.
  - apply Qnot_le_lt. intro L. apply Qle_bool_iff in L. congruence.
  - destruct (Qle_bool (inject_Z (clock n)) (q * 1000)) eqn:E; [|reflexivity].
    apply Qle_bool_iff in E. exfalso; apply (Qlt_not_le _ _ H E).
Qed.

(* the loop, one step at a time *)
Lemma loop_eq k n b s : loop (S k) c n b s =
  if b then Solved n (computePath s)
  else if limitb n then (if reached s then Solved n (computePath s) else LimitHit n)
  else match oneStep s with
       | Ok s' => if intr (S n) then Interrupted (S n) else loop k c (S n) (stopS c && reached s') s'
       | _ => StepRaised n
       end.
Proof.
  cbn [LoopModel.loop]. destruct b; [reflexivity|]. unfold limitb, uint_infty.
  destruct (negb (Nat.eqb (maxI c) 0) && (maxI c <=? n)), (over_time (clock n) (tmo c));
    cbn [orb]; destruct (reached s); reflexivity.
Qed.

Definition ends (n : nat) (e : ending A) : Prop :=
  match e with
  | Solved m r => n <= m /\ exists s, arrives m s /\ quiet m /\ reached s = true /\ (looks m \/ limit m) /\ r = computePath s
  | LimitHit m => n <= m /\ exists s, arrives m s /\ quiet m /\ reached s = false /\ limit m
  | Interrupted m => n <= m /\ exists s, arrives m s /\ intr m = true
  | StepRaised m => n <= m /\ exists s, arrives m s /\ goes_on m /\ forall t, oneStep s <> Ok t
  | StartRaised => forall s, start <> Ok s
  | NoFuel => True
  end.
Lemma ends_le n m e : n <= m -> ends m e -> ends n e.
Proof. intro L. destruct e; cbn [ends]; auto; intros [H1 H2]; split; auto; lia. Qed.

Lemma loop_ends k : forall n b s, arrives n s -> quiet n -> (b = true -> reached s = true /\ looks n) ->
  (b = false -> looks n -> reached s = false) -> ends n (loop k c n b s).
Proof.
  induction k as [|k IH]; intros n b s HA HQ H1 H2; [exact I|]. rewrite loop_eq.
  destruct b.
  { destruct (H1 eq_refl). cbn [ends]. split; [lia|]. exists s; auto 10. }
  destruct (limitb n) eqn:EL.
  { apply limitb_iff in EL. destruct (reached s) eqn:ER; cbn [ends]; split; try lia; exists s; auto 10. }
  assert (NL : ~ limit n) by (rewrite <- limitb_iff, EL; discriminate).
  assert (GO : goes_on n).
  { split; [exact HQ|]. split; [exact NL|]. intros L t Ht.
    rewrite (after_det n t s Ht (proj1 HA)). apply H2; auto. }
  destruct (oneStep s) as [s'| | |] eqn:ES;
    try (cbn [ends]; split; [lia|]; exists s; split; [exact HA|]; split; [exact GO|]; intros t; congruence).
  assert (HA' : arrives (S n) s').
  { destruct HA as [HA1 HA2]. split; [econstructor; eassumption|].
    intros j Hj. destruct (Nat.eq_dec j n) as [E|N]; [subst; exact GO|apply HA2; lia]. }
  destruct (intr (S n)) eqn:EI.
  { cbn [ends]. split; [lia|]. exists s'; auto. }
  apply (ends_le n (S n)); [lia|]. apply IH.
  - exact HA'.
  - intros j Hj. destruct (Nat.eq_dec j (S n)) as [E|N]; [subst; exact EI|apply HQ; lia].
  - rewrite andb_true_iff. intros [X1 X2]. split; [exact X2|right; exact X1].
  - intros X [L|L]; [lia|]. rewrite L in X; exact X.
Qed.
Lemma solve_ends k : ends 0 (solve k c).
Proof.
  unfold LoopModel.solve. destruct start as [s| | |] eqn:ES; try (cbn [ends]; intros t; congruence).
  assert (HA : arrives 0 s) by (split; [constructor; exact ES|intros j Hj; lia]).
  destruct (intr 0) eqn:EI.
  { cbn [ends]. split; [lia|]. exists s; auto. }
  apply loop_ends; auto.
  - intros j Hj. replace j with 0 by lia. exact EI.
  - intro H; split; [exact H|left; reflexivity].
Qed.

(* enough fuel *)
Lemma loop_fuel k : forall n b s, loop k c n b s = NoFuel -> after n s -> quiet n ->
  (b = false -> looks n -> reached s = false) -> forall j, n <= j < n + k -> ~ limit j.
Proof.
  induction k as [|k IH]; intros n b s HN HA HQ H2 j Hj; [lia|]. rewrite loop_eq in HN.
  destruct b; [discriminate|]. destruct (limitb n) eqn:EL; [destruct (reached s); discriminate|].
  assert (NL : ~ limit n) by (rewrite <- limitb_iff, EL; discriminate).
  destruct (oneStep s) as [s'| | |] eqn:ES; try discriminate.
  destruct (intr (S n)) eqn:EI; [discriminate|].
  destruct (Nat.eq_dec j n) as [E|N]; [subst; exact NL|].
  eapply IH; [exact HN| | | |lia].
  - econstructor; eassumption.
  - intros i Hi. destruct (Nat.eq_dec i (S n)) as [E'|N']; [subst; exact EI|apply HQ; lia].
  - intros X [L|L]; [lia|]. rewrite L in X; exact X.
Qed.
Lemma solve_fuel k : solve k c = NoFuel -> forall j, j < k -> ~ limit j.
Proof.
  unfold LoopModel.solve. destruct start as [s| | |] eqn:ES; try discriminate.
  destruct (intr 0) eqn:EI; [discriminate|]. intros H j Hj.
  eapply loop_fuel; [exact H| | | |lia].
  - constructor; exact ES.
  - intros i Hi. replace i with 0 by lia. exact EI.
  - auto.
Qed.
(* more fuel does not change the outcome *)
Lemma loop_mono k : forall n b s, loop k c n b s <> NoFuel -> forall k', k <= k' -> loop k' c n b s = loop k c n b s.
Proof.
  induction k as [|k IH]; intros n b s H k' Hk; [cbn [LoopModel.loop] in H; congruence|].
  destruct k' as [|k']; [lia|]. rewrite !loop_eq in *. destruct b; [reflexivity|].
  destruct (limitb n); [reflexivity|]. destruct (oneStep s) as [s'| | |]; try reflexivity.
  destruct (intr (S n)); [reflexivity|]. apply IH; [exact H|lia].
Qed.
Lemma solve_mono k k' : solve k c <> NoFuel -> k <= k' -> solve k' c = solve k c.
Proof.
  unfold LoopModel.solve. destruct start as [s| | |]; try reflexivity.
  destruct (intr 0); [reflexivity|]. intros; apply loop_mono; assumption.
Qed.
(* ------------------------------------------------------------- statements *)
(* What each way of ending means. Solved: the target is reached and was not
   when it was last looked at, nobody has interrupted, and either solve stops
   at the first solution or a limit is reached; LimitHit: a limit is reached
   and the target is not; Interrupted: interrupt() was called during the last
   step; StepRaised: the planner itself has raised. In all cases each
   preceding step was due. *)
Theorem C25_ending : forall fuel,
  match solve fuel c with
  | Solved n r => exists s, arrives n s /\ quiet n /\ reached s = true /\ (looks n \/ limit n) /\ r = computePath s
  | LimitHit n => exists s, arrives n s /\ quiet n /\ reached s = false /\ limit n
  | Interrupted n => exists s, arrives n s /\ intr n = true
  | StepRaised n => exists s, arrives n s /\ goes_on n /\ forall t, oneStep s <> Ok t
  | StartRaised => forall s, start <> Ok s
  | NoFuel => forall j, j < fuel -> ~ limit j
  end.
Proof.
  intro k. assert (H := solve_ends k). destruct (solve k c) eqn:E; cbn [ends] in H; try (apply H).
  exact (solve_fuel k E).
Qed.

(* With a limit on the iterations, solve terminates and does not execute more
   steps. *)
Theorem C25_max_iterations : maxI c <> 0 ->
  exists n, forall fuel, maxI c < fuel -> steps (solve fuel c) = Some n /\ n <= maxI c.
Proof.
  intro HM. assert (NF : solve (S (maxI c)) c <> NoFuel).
  { intro E. apply (solve_fuel _ E (maxI c)); [lia|]. left; split; [exact HM|lia]. }
  assert (HE := solve_ends (S (maxI c))).
  assert (LE : forall m s, arrives m s -> m <= maxI c).
  { intros m s [_ HG]. destruct (Nat.le_gt_cases m (maxI c)) as [L|L]; [exact L|].
    exfalso. apply (HG (maxI c) L). left; split; [exact HM|lia]. }
  destruct (solve (S (maxI c)) c) eqn:E; [| | | | |congruence].
  all: cbn [ends] in HE.
  1: exists n; destruct HE as [_ [s [HA _]]].
  2: exists n; destruct HE as [_ [s [HA _]]].
  3: exists n; destruct HE as [_ [s [HA _]]].
  4: exists n; destruct HE as [_ [s [HA _]]].
  5: exists 0.
  all: intros fuel HF; rewrite (solve_mono (S (maxI c)) fuel) by (rewrite ?E; (congruence || lia)); rewrite E;
       split; [reflexivity|first [apply (LE _ s HA)|lia]].
Qed.

(* With a finite time out, and a clock which goes on, solve terminates, and
   starts no step after the time out. *)
Theorem C25_time_out : forall q, tmo c = DExt (Fin q) ->
  (forall t : Z, exists k, (t < clock k)%Z) ->
  exists fuel n, steps (solve fuel c) = Some n /\ forall j, j < n -> (inject_Z (clock j) <= q * 1000)%Q.
Proof.
  intros q HT HC. destruct (HC (Qceiling (q * 1000))) as [k Hk].
  assert (HL : limit k).
  { right. rewrite HT. apply Qle_lt_trans with (inject_Z (Qceiling (q * 1000))); [apply Qle_ceiling|].
    rewrite <- Zlt_Qlt. exact Hk. }
  assert (NF : solve (S k) c <> NoFuel).
  { intro E. apply (solve_fuel _ E k); [lia|exact HL]. }
  assert (LE : forall m s, arrives m s -> forall j, j < m -> (inject_Z (clock j) <= q * 1000)%Q).
  { intros m s [_ HG] j Hj. destruct (HG j Hj) as [_ [NL _]]. apply Qnot_lt_le. intro L. apply NL.
    right. rewrite HT. exact L. }
  assert (HE := solve_ends (S k)). exists (S k).
  destruct (solve (S k) c) eqn:E; [| | | | |congruence]; cbn [ends steps] in *.
  1-4: exists n; split; [reflexivity|]; destruct HE as [_ [s [HA _]]]; apply (LE n s HA).
  exists 0. split; [reflexivity|]. intros j Hj; lia.
Qed.
End Props.

(* The settings that the setters accept: when solve does not stop at the first
   solution, a limit is set. *)
Lemma set_step_ok s o : o <> SetTime DNaN ->
  (tmo s <> DNaN /\ (stopS s = false -> maxI s <> 0 \/ tmo s <> DExt PInf)) ->
  tmo (fst (set_step s o)) <> DNaN /\
  (stopS (fst (set_step s o)) = false -> maxI (fst (set_step s o)) <> 0 \/ tmo (fst (set_step s o)) <> DExt PInf).
Proof.
  intros NN [H1 H2]. destruct o as [n|d|b]; cbn [set_step].
  - destruct (stopS s) eqn:ES; cbn [negb andb fst tmo stopS maxI].
    + split; [exact H1|discriminate].
    + destruct (Nat.eqb_spec n uint_infty) as [E|N]; cbn [andb].
      * destruct (is_infty (tmo s)) eqn:EI; cbn [fst tmo stopS maxI]; [split; [exact H1|intros _; auto]|].
        split; [exact H1|]. intros _. right. intro E'. rewrite E' in EI; discriminate.
      * cbn [fst tmo stopS maxI]. split; [exact H1|]. intros _; left; exact N.
  - destruct (stopS s) eqn:ES; cbn [negb andb fst tmo stopS maxI].
    + split; [intro E; apply NN; rewrite E; reflexivity|discriminate].
    + destruct (Nat.eqb_spec (maxI s) uint_infty) as [E|N]; cbn [andb].
      * destruct (is_infty d) eqn:EI; cbn [fst tmo stopS maxI]; [split; [exact H1|intros _; auto]|].
        split; [intro E'; apply NN; rewrite E'; reflexivity|]. intros _. right. intro E'. rewrite E' in EI; discriminate.
      * cbn [fst tmo stopS maxI]. split; [intro E'; apply NN; rewrite E'; reflexivity|]. intros _; left; exact N.
  - destruct b; cbn [negb andb fst tmo stopS maxI]; [split; [exact H1|discriminate]|].
    destruct (Nat.eqb_spec (maxI s) uint_infty) as [E|N]; cbn [andb].
    + destruct (is_infty (tmo s)) eqn:EI; cbn [fst tmo stopS maxI]; [split; assumption|].
      split; [exact H1|]. intros _. right. intro E'. rewrite E' in EI; discriminate.
    + cbn [fst tmo stopS maxI]. split; [exact H1|]. intros _; left; exact N.
Qed.
Lemma set_run_ok l : no_nan l -> tmo (set_run l) <> DNaN /\
  (stopS (set_run l) = false -> maxI (set_run l) <> 0 \/ tmo (set_run l) <> DExt PInf).
Proof.
  unfold set_run. intro HN.
  assert (X : forall l s, no_nan l -> (tmo s <> DNaN /\ (stopS s = false -> maxI s <> 0 \/ tmo s <> DExt PInf)) ->
    let t := fold_left (fun s o => fst (set_step s o)) l s in
    tmo t <> DNaN /\ (stopS t = false -> maxI t <> 0 \/ tmo t <> DExt PInf)).
  { clear. induction l as [|o l IH]; intros s HN H; [exact H|]. cbn [fold_left]. apply IH.
    - intro X; apply HN; right; exact X.
    - apply set_step_ok; [intros ->; apply HN; left; reflexivity|exact H]. }
  apply X; [exact HN|]. cbn [settings0 tmo stopS]. split; discriminate.
Qed.
(* With settings made by any sequence of setter calls, refused ones included,
   none of them with a NaN, solve always terminates when it is not asked to
   stop at the first solution. Missing: NaN, see C25_nan_refuted. *)
Theorem C25_no_endless_run_partial : forall l (St A : Type) start step reached (path : St -> res A) clock intr,
  no_nan l -> stopS (set_run l) = false -> (forall t : Z, exists k, (t < clock k)%Z) ->
  exists fuel n, steps (solve St A start step reached path clock intr fuel (set_run l)) = Some n.
Proof.
  intros l St A start step reached path clock intr HN HS HC. destruct (set_run_ok l HN) as [H1 H2].
  destruct (Nat.eq_dec (maxI (set_run l)) 0) as [E|N].
  - destruct (H2 HS) as [X|X]; [contradiction|].
    destruct (tmo (set_run l)) as [|[|q|]] eqn:ET; try congruence.
    + assert (L : limit clock (set_run l) 0) by (right; rewrite ET; exact I).
      assert (Y := C25_ending start step reached path clock intr (set_run l) 1).
      exists 1. destruct (solve St A start step reached path clock intr 1 (set_run l)); cbn [steps];
        try (eexists; reflexivity). exfalso. apply (Y 0); [lia|exact L].
    + destruct (C25_time_out start step reached path clock intr (set_run l) q ET HC) as [f [n [X1 _]]].
      exists f, n; exact X1.
  - destruct (C25_max_iterations start step reached path clock intr (set_run l) N) as [n X1].
    exists (S (maxI (set_run l))), n. apply X1; lia.
Qed.

(* A time out which is not a number is accepted and is no limit: the run is
   endless, although a clock goes on. *)
Theorem C25_nan_refuted : exists l,
  stopS (set_run l) = false /\
  forall fuel, steps (solve nat nat (Ok 0) (fun s => Ok (S s)) (fun _ => false) (fun s => Ok s)
                        (fun k => Z.of_nat k) (fun _ => false) fuel (set_run l)) = None.
Proof.
  exists [SetTime DNaN; SetStop false]. split; [reflexivity|]. intro fuel.
  assert (X : forall fuel n s, loop nat nat (fun s => Ok (S s)) (fun _ => false) (fun s => Ok s)
            (fun k => Z.of_nat k) (fun _ => false) fuel (set_run [SetTime DNaN; SetStop false]) n false s = NoFuel).
  { clear. induction fuel as [|k IH]; intros n s; [reflexivity|].
    cbn -[set_run]. exact (IH (S n) (S s)). }
  unfold solve. rewrite X. reflexivity.
Qed.
(* solve returns although a solution has been found only when it was not
   interrupted: an interruption during the step which solves the problem makes
   it throw. *)
Example ex_interrupted_when_solved :
  solve nat nat (Ok 0) (fun s => Ok (S s)) (fun s => Nat.eqb s 3) (fun s => Ok s)
    (fun _ => 0%Z) (fun k => Nat.eqb k 3) 10 settings0 = Interrupted 3.
Proof. reflexivity. Qed.

Definition ex_solve (c : settings) (fuel : nat) : ending nat :=
  solve nat nat (Ok 0) (fun s => Ok (S s)) (fun s => Nat.eqb s 3) (fun s => Ok s)
    (fun k => (100 * Z.of_nat k)%Z) (fun _ => false) fuel c.
Example ex_solved : ex_solve settings0 10 = Solved 3 (Ok 3).
Proof. reflexivity. Qed.
Example ex_max : ex_solve (set_run [SetMax 2]) 10 = LimitHit 2.
Proof. reflexivity. Qed.
Example ex_exact_max : ex_solve (set_run [SetMax 3]) 10 = Solved 3 (Ok 3).
Proof. reflexivity. Qed.
Example ex_late : ex_solve (set_run [SetMax 5; SetStop false]) 10 = LimitHit 5.
Proof. reflexivity. Qed.
Example ex_late_solved : ex_solve (set_run [SetMax 3; SetStop false]) 10 = Solved 3 (Ok 3).
Proof. reflexivity. Qed.
Example ex_time : ex_solve (set_run [SetTime (DExt (Fin (1 # 5)))]) 10 = Solved 3 (Ok 3).
Proof. vm_compute; reflexivity. Qed.
Example ex_time_short : ex_solve (set_run [SetTime (DExt (Fin (1 # 10)))]) 10 = LimitHit 2.
Proof. vm_compute; reflexivity. Qed.
Example ex_refused : set_run [SetStop false; SetMax 4; SetStop false; SetMax 0] = mkSet 4 (DExt PInf) false.
Proof. reflexivity. Qed.

Print Assumptions C25_ending.
Print Assumptions C25_max_iterations.
Print Assumptions C25_time_out.
Print Assumptions C25_no_endless_run_partial.
Print Assumptions C25_nan_refuted.
