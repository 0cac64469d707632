(* Proofs about the dichotomy projector and the loop over path vectors. *)
From Coq Require Import Lia Permutation.
From Verif Require Import Base QcTac VecSpec VecProofs PathProjModel PathProjSpec.
Open Scope Qc_scope.

Section Proofs.
Context {C P : Type}.
Variable init fin : P -> C.
Variable start len : P -> Qc.
Variable ev : P -> Qc -> C.
Variable cons : P -> option (cset C).
Variable steer : C -> C -> option P.
Notation outT := (out C P).
Notation oinit := (oinit C P init).
Notation ofin := (ofin C P init fin).
Notation olen := (olen C P len).
Notation ochained := (chained oinit ofin).

(* ---------------------------------------------------- dichotomy *)
Section Dich.
Variable maxl : Qc.
Variable r : C.
Variable k : cset C.
Hypothesis HS : steers init fin steer.
Hypothesis HA : honest_apply k.
Notation dich_loop := (dich_loop C P init fin start len ev steer maxl).
Definition sat_ends (p : P) : Prop := c_sat k r (init p) = true /\ c_sat k r (fin p) = true.

Lemma dich_loop_spec : forall fuel st paths q1 q2 b paths',
  chained init fin q1 (paths ++ st) q2 -> Forall sat_ends (paths ++ st) -> Forall (fun p => len p < maxl) paths ->
  dich_loop fuel r k st paths = Ok (b, paths') ->
  Forall sat_ends paths' /\ Forall (fun p => len p < maxl) paths' /\
  (exists q', chained init fin q1 paths' q') /\ (b = true -> chained init fin q1 paths' q2).
Proof.
  induction fuel as [|f IH]; intros st paths q1 q2 b paths' CH SA LE; destruct st as [|s st]; cbn [PathProjModel.dich_loop]; try discriminate.
  1,2: intros E; injection E as <- <-; rewrite app_nil_r in *; eauto.
  assert (Fl : Forall sat_ends paths /\ Forall (fun p => len p < maxl) paths /\
    (exists q', chained init fin q1 paths q') /\ (false = true -> chained init fin q1 paths q2)).
  { split; [apply Forall_app in SA; apply SA|]. split; [exact LE|]. split; [|discriminate].
    apply chained_app in CH as (x & CH & _). eauto. }
  destruct (qltb_spec (len s) maxl) as [Lt|_].
  - apply IH with (q2 := q2); [rewrite <- app_assoc; exact CH|rewrite <- app_assoc; exact SA|].
    apply Forall_app; auto.
  - destruct (c_apply k r _) as [ok q] eqn:Ea. destruct ok; cbn [negb].
    2: { intros E; injection E as <- <-. exact Fl. }
    destruct (steer (init s) q) as [s1|] eqn:E1; [|discriminate].
    destruct (steer q (fin s)) as [s2|] eqn:E2; [|discriminate].
    destruct (qeqb _ _ || qeqb _ _). { intros E; injection E as <- <-. exact Fl. }
    destruct (HS _ _ _ E1) as (A1 & A2). destruct (HS _ _ _ E2) as (B1 & B2).
    apply IH; [| |exact LE].
    + apply chained_app in CH as (x & CH & D). apply chained_app. exists x. split; [exact CH|].
      cbn [chained] in *. rewrite A1, A2, B1, B2. intuition.
    + apply Forall_app in SA as (SA & SB). apply Forall_app. split; [exact SA|].
      inversion SB as [|? ? (Z1 & Z2) SB']; subst. pose proof (HA _ _ _ Ea) as Z.
      constructor; [|constructor; [|exact SB']]; unfold sat_ends; rewrite ?A1, ?A2, ?B1, ?B2; auto.
Qed.

Lemma cons_all_spec l : Forall sat_ends l -> cons_all C P init fin r k l = Ok (map (fun p => L (Con p k)) l).
Proof.
  induction 1 as [|p l (A & B) _ IH]; cbn [cons_all map]; [reflexivity|].
  unfold con. rewrite A, B. cbn [andb bind]. rewrite IH. reflexivity.
Qed.
Lemma leaves_map l : leaves (V (map (fun p => L (@Con C P p k)) l)) = map (fun p => Con p k) l.
Proof. cbn [leaves]. induction l as [|p l IH]; cbn; [reflexivity|]. rewrite IH. reflexivity. Qed.
Lemma ochained_map l : forall q q', chained init fin q l q' -> ochained q (map (fun p => Con p k) l) q'.
Proof. induction l as [|p l IH]; cbn; intros q q'; [auto|]. intros (A & B). auto. Qed.
Lemma dich_out_spec ok paths : Forall sat_ends paths ->
  (paths = [] /\ dich_out C P init fin r k ok paths = Ok (false, None)) \/
  (paths <> [] /\ exists t, dich_out C P init fin r k ok paths = Ok (ok, Some t) /\ leaves t = map (fun p => Con p k) paths).
Proof.
  intros SA. destruct paths as [|p [|p' l]]; [left; auto|right|right]; (split; [discriminate|]).
  - unfold dich_out, con. inversion SA as [|? ? (A & B) _]; subst. rewrite A, B. cbn [andb bind].
    eexists. split; reflexivity.
  - unfold dich_out. rewrite cons_all_spec by exact SA. cbn [bind]. eexists. split; [reflexivity|].
    apply leaves_map.
Qed.

(* termination when each split shortens by at least delta *)
Section Term.
Variable delta : Qc.
Hypothesis D0 : 0 < delta.
Hypothesis SH : forall s q s1 s2, maxl <= len s -> c_apply k r (ev s (start s + len s / (1 + 1))) = (true, q) ->
  steer (init s) q = Some s1 -> steer q (fin s) = Some s2 -> len s1 <= len s - delta /\ len s2 <= len s - delta.
Hypothesis ST : forall a b, steer a b <> None.
Fixpoint nq (n : nat) : Qc := match n with O => 0 | S m => delta + nq m end.

Lemma dich_one : forall n s, len s < maxl + nq n -> forall f' st paths,
  (exists paths', dich_loop (2 ^ (S n) - 1 + f') r k (s :: st) paths = Ok (false, paths')) \/
  (exists f'' paths', (f' <= f'')%nat /\ dich_loop (2 ^ (S n) - 1 + f') r k (s :: st) paths = dich_loop f'' r k st paths').
Proof.
  induction n as [|n IH]; intros s Hs f' st paths.
  - cbn in Hs. replace (2 ^ 1 - 1 + f')%nat with (S f') by (cbn; lia). cbn [PathProjModel.dich_loop].
    destruct (qltb_spec (len s) maxl) as [_|Ge]; [|exfalso; qc].
    right. exists f', (paths ++ [s]). auto.
  - pose proof (Nat.pow_nonzero 2 (S n) ltac:(lia)) as Z.
    assert (EP : (2 ^ S (S n) = 2 * 2 ^ S n)%nat) by reflexivity. rewrite EP.
    replace (2 * 2 ^ S n - 1 + f')%nat with (S (2 ^ S n - 1 + (2 ^ S n - 1 + f')))%nat by lia. clear EP.
    cbn [PathProjModel.dich_loop].
    destruct (qltb_spec (len s) maxl) as [_|Ge].
    { right. eexists _, _. split; [|reflexivity]. lia. }
    destruct (c_apply k r _) as [ok q] eqn:Ea. destruct ok; cbn [negb]; [|left; eauto].
    destruct (steer (init s) q) as [s1|] eqn:E1; [|exfalso; exact (ST _ _ E1)].
    destruct (steer q (fin s)) as [s2|] eqn:E2; [|exfalso; exact (ST _ _ E2)].
    destruct (qeqb _ _ || qeqb _ _); [left; eauto|].
    destruct (SH _ _ _ _ Ge Ea E1 E2) as (L1 & L2).
    assert (N1 : len s1 < maxl + nq n) by (cbn [nq] in Hs; qc).
    assert (N2 : len s2 < maxl + nq n) by (cbn [nq] in Hs; qc).
    destruct (IH s1 N1 (2 ^ S n - 1 + f')%nat (s2 :: st) paths) as [(p' & ->)|(f2 & p' & Lf & ->)]; [left; eauto|].
    replace f2 with (2 ^ S n - 1 + (f2 - (2 ^ S n - 1)))%nat by lia.
    destruct (IH s2 N2 (f2 - (2 ^ S n - 1))%nat st p') as [(p2 & ->)|(f3 & p2 & Lf' & ->)]; [left; eauto|].
    right. exists f3, p2. split; [lia|reflexivity].
Qed.
Lemma dich_terminates n s fuel : len s < maxl + nq n -> (2 ^ (S n) <= fuel)%nat ->
  exists b paths, dich_loop fuel r k [s] [] = Ok (b, paths).
Proof.
  intros Hs F. replace fuel with (2 ^ S n - 1 + (fuel - (2 ^ S n - 1)))%nat by lia.
  destruct (dich_one n s Hs (fuel - (2 ^ S n - 1)) [] []) as [(p' & ->)|(f2 & p' & _ & ->)]; [eauto|].
  exists true, p'. destruct f2; reflexivity.
Qed.
End Term.
End Dich.

Section DichAll.
Variable maxl : Qc.
Variable straight : P -> bool.
Hypothesis HS : steers init fin steer.
Notation dichotomy := (dichotomy C P init fin start len ev cons steer maxl straight).
Lemma dichotomy_spec fuel p b o : (forall k, cons p = Some k -> honest_apply k) -> dichotomy fuel p = Ok (b, o) ->
  exists k, cons p = Some k /\
  match o with
  | None => b = false
  | Some t => (exists q', ochained (init p) (leaves t) q') /\
      Forall (fun x => c_sat k (init p) (oinit x) = true /\ c_sat k (init p) (ofin x) = true) (leaves t) /\
      (b = true -> ochained (init p) (leaves t) (fin p)) /\
      (t = L (Raw p) \/ Forall (fun x => olen x < maxl) (leaves t))
  end.
Proof.
  intros HA. unfold PathProjModel.dichotomy. destruct (negb (straight p)); [discriminate|].
  destruct (cons p) as [k|] eqn:Ek; [|discriminate]. specialize (HA k eq_refl).
  destruct (c_sat k (init p) (init p)) eqn:S1; cbn [negb orb].
  2: { intros E. injection E as <- <-. exists k. auto. }
  destruct (c_sat k (init p) (fin p)) eqn:S2; cbn [negb].
  2: { intros E. injection E as <- <-. exists k. auto. }
  destruct (negb (c_cp k && c_dim k)).
  { intros E. injection E as <- <-. exists k. split; [reflexivity|]. cbn [leaves].
    split; [eexists; cbn; eauto|]. split; [repeat constructor; assumption|]. split; [cbn; auto|auto]. }
  destruct (steer (init p) (fin p)) as [s|] eqn:Es; [|discriminate].
  destruct (HS _ _ _ Es) as (A1 & A2).
  destruct (PathProjModel.dich_loop _ _ _ _ _ _ _ _ _ _ _ _ _ _) as [[ok paths]| | |] eqn:El; cbn [bind]; try discriminate.
  destruct (dich_loop_spec maxl (init p) k HS HA fuel [s] [] (init p) (fin p) ok paths) as (B1 & B2 & B3 & B4).
  { cbn. auto. }
  { cbn. constructor; [|constructor]. unfold sat_ends. rewrite A1, A2. auto. }
  { constructor. }
  { exact El. }
  destruct (dich_out_spec (init p) k ok paths B1) as [(-> & ->)|(NE & t & -> & Et)]; intros E; injection E as <- <-; exists k.
  { auto. }
  split; [reflexivity|]. rewrite Et. split; [|split; [|split]].
  - destruct B3 as (q' & B3). exists q'. apply ochained_map. exact B3.
  - apply Forall_map. eapply Forall_impl; [|exact B1]. intros x H. exact H.
  - intros Hb. apply ochained_map. apply B4. exact Hb.
  - right. apply Forall_map. eapply Forall_impl; [|exact B2]. intros x H. exact H.
Qed.
Lemma dichotomy_defined fuel p k : straight p = true -> cons p = Some k -> honest_apply k -> (forall a b, steer a b <> None) ->
  dichotomy fuel p <> UB /\ dichotomy fuel p <> Throw.
Proof.
  intros SP Ek HA ST. unfold PathProjModel.dichotomy. rewrite SP, Ek. cbn [negb].
  destruct (c_sat k (init p) (init p)) eqn:S1; cbn [negb orb]; [|split; discriminate].
  destruct (c_sat k (init p) (fin p)) eqn:S2; cbn [negb]; [|split; discriminate].
  destruct (negb (c_cp k && c_dim k)); [split; discriminate|].
  destruct (steer (init p) (fin p)) as [s|] eqn:Es; [|exfalso; exact (ST _ _ Es)].
  destruct (HS _ _ _ Es) as (A1 & A2).
  assert (K : forall fuel st paths, PathProjModel.dich_loop C P init fin start len ev steer maxl fuel (init p) k st paths <> UB /\
    PathProjModel.dich_loop C P init fin start len ev steer maxl fuel (init p) k st paths <> Throw).
  { clear - ST. induction fuel as [|f IH]; intros [|x st] paths; cbn [PathProjModel.dich_loop]; try (split; discriminate).
    destruct (qltb _ _); [apply IH|]. destruct (c_apply _ _ _) as [ok q]. destruct ok; cbn [negb]; [|split; discriminate].
    destruct (steer (init x) q) as [s1|] eqn:E1; [|exfalso; exact (ST _ _ E1)].
    destruct (steer q (fin x)) as [s2|] eqn:E2; [|exfalso; exact (ST _ _ E2)].
    destruct (_ || _); [split; discriminate|apply IH]. }
  destruct (PathProjModel.dich_loop _ _ _ _ _ _ _ _ _ _ _ _ _ _) as [[ok paths]| | |] eqn:El; cbn [bind];
    try (split; discriminate); try (exfalso; edestruct K as (K1 & K2); first [apply K1; exact El|apply K2; exact El]).
  destruct (dich_loop_spec maxl (init p) k HS HA fuel [s] [] (init p) (fin p) ok paths) as (B1 & _).
  { cbn. auto. }
  { cbn. constructor; [|constructor]. unfold sat_ends. rewrite A1, A2. auto. }
  { constructor. }
  { exact El. }
  destruct (dich_out_spec (init p) k ok paths B1) as [(-> & ->)|(NE & t & -> & Et)]; split; discriminate.
Qed.
Lemma dichotomy_terminates delta n fuel p k : cons p = Some k -> 0 < delta ->
  (forall s q s1 s2, maxl <= len s -> c_apply k (init p) (ev s (start s + len s / (1 + 1))) = (true, q) ->
    steer (init s) q = Some s1 -> steer q (fin s) = Some s2 -> len s1 <= len s - delta /\ len s2 <= len s - delta) ->
  (forall a b, steer a b <> None) ->
  (forall s, steer (init p) (fin p) = Some s -> len s < maxl + nq delta n) -> (2 ^ (S n) <= fuel)%nat ->
  dichotomy fuel p <> Fuel.
Proof.
  intros Ek D0 SH ST Hn F. unfold PathProjModel.dichotomy. destruct (negb (straight p)); [discriminate|]. rewrite Ek.
  destruct (_ || _); [discriminate|]. destruct (negb _); [discriminate|].
  destruct (steer (init p) (fin p)) as [s|] eqn:Es; [|discriminate].
  destruct (dich_terminates maxl (init p) k delta SH ST n s fuel (Hn s eq_refl) F) as (b & paths & ->). cbn [bind].
  unfold dich_out. destruct paths as [|a [|a' l]]; [discriminate| |].
  - unfold con. destruct (_ && _); discriminate.
  - assert (K : forall l, cons_all C P init fin (init p) k l <> Fuel).
    { induction l0 as [|x l0 IH]; cbn [cons_all]; [discriminate|]. unfold con. destruct (_ && _); cbn [bind]; [|discriminate].
      destruct (cons_all _ _ _ _ _ _ l0) eqn:E; cbn [bind]; try discriminate. contradiction. }
    specialize (K (a :: a' :: l)). destruct (cons_all _ _ _ _ _ _ _); cbn [bind]; congruence.
Qed.
End DichAll.
End Proofs.
