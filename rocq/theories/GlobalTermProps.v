(* C99: termination of the global projector *)
From Coq Require Import QArith.Qround List Bool ZArith.
From Verif Require Import Base QcTac GlobalModel GlobalSpec GlobalProofs GlobalProps.
Import ListNotations.
Open Scope Qc_scope.

(* The number of iterations since the last insertion is bounded, not the number
   of iterations.  A solver whose line search makes points part and come back
   together: points are inserted and removed for ever. *)
Definition cyc (a : nat) (q : Qc) : move Qc nat Qc :=
  let '(r, b) := match a with
                 | 0 => (q, 1) | 1 => (Z2 6, 2) | 2 => (q, 3) | 3 => (q, 4) | _ => (Z2 4, 0)
                 end%nat in
  {| m_ok := false; m_q := r; m_ls := b; m_dq := r - q; m_sigma := 1 |}.
Definition cyc_path : path Qc :=
  {| init := 0; fin := Z2 10; len := Z2 10; at_ := fun t => t; points := Some [0; Z2 2; Z2 4; Z2 10]; constrained := true |}.
Definition cycle_start (l1 l2 le : Qc) : state Qc nat :=
  {| s_pre := [{| n_q := Z2 2; n_b := false; n_a := 0%nat; n_l := l1 |}; {| n_q := Z2 4; n_b := false; n_a := 0%nat; n_l := l2 |}];
     s_post := []; s_l := le |}.
Notation sweep1 := (one_sweep Qc nat Qc dist1 cyc (fun _ _ _ _ => false) 0 (0, 0) 0 (Z2 10)).
Notation reint1 f := (reinterpolated Qc nat dist1 interp1 0%nat (Z2 3) f 0 (Z2 10)).
Notation iter1 f s n := (iterate Qc nat Qc dist1 interp1 cyc 0%nat (Z2 3) (fun _ _ _ _ => false) 0 (fun _ => (0, 0)) f 0 (Z2 10) 10 35 s n).
Definition mid1 : state Qc nat := Eval vm_compute in match sweep1 (cycle_start 0 0 0) with Ok (_, s) => s | _ => cycle_start 0 0 0 end.
Definition mid2 : state Qc nat := Eval vm_compute in match reint1 20%nat mid1 with Ok (_, s) => s | _ => cycle_start 0 0 0 end.
Definition mid3 : state Qc nat := Eval vm_compute in match sweep1 mid2 with Ok (_, s) => s | _ => cycle_start 0 0 0 end.
Definition mid4 : state Qc nat := Eval vm_compute in match reint1 20%nat mid3 with Ok (_, s) => s | _ => cycle_start 0 0 0 end.
Lemma cyc1 l1 l2 le : sweep1 (cycle_start l1 l2 le) = Ok (false, mid1).
Proof. vm_compute. reflexivity. Qed.
Lemma cyc2 f : reint1 (8 + f)%nat mid1 = Ok (1%Z, mid2).
Proof. vm_compute. reflexivity. Qed.
Lemma cyc3 : sweep1 mid2 = Ok (false, mid3).
Proof. vm_compute. reflexivity. Qed.
Lemma cyc4 f : reint1 (8 + f)%nat mid3 = Ok ((-1)%Z, mid4).
Proof. vm_compute. reflexivity. Qed.
Lemma cyc5 : mid4 = cycle_start (Z2 2) (Z2 2) (Z2 6).
Proof. vm_compute. reflexivity. Qed.
Lemma iter_step f s n : iter1 (S f) s n =
  bind (sweep1 s) (fun r => let (done, s1) := r in if done : bool then Ok s1 else
    bind (if Nat.ltb (length (s_pre _ _ s1) + length (s_post _ _ s1) + 2) 35 then reint1 f s1 else Ok (0%Z, s1)) (fun r =>
    let (z, s2) := r in let nb := S (if (0 <? z)%Z then O else n) in if Nat.ltb 10 nb then Ok s2 else iter1 f s2 nb)).
Proof. reflexivity. Qed.

Lemma cyc_turn f l1 l2 le n : (n <= 2)%nat -> iter1 (10 + f)%nat (cycle_start l1 l2 le) n = iter1 (8 + f)%nat (cycle_start (Z2 2) (Z2 2) (Z2 6)) 2%nat.
Proof.
  intros N. change (10 + f)%nat with (S (S (8 + f))). rewrite iter_step, cyc1. cbn [bind].
  change (length (s_pre Qc nat mid1) + length (s_post Qc nat mid1) + 2)%nat with 4%nat. change (Nat.ltb 4 35) with true. cbv iota.
  change (S (8 + f)) with (8 + S f)%nat. rewrite cyc2. cbn [bind].
  change (S (if (0 <? 1)%Z then 0 else n)) with 1%nat. change (Nat.ltb 10 1) with false. cbv zeta iota.
  change (8 + S f)%nat with (S (8 + f)). rewrite iter_step, cyc3. cbn [bind].
  change (length (s_pre Qc nat mid3) + length (s_post Qc nat mid3) + 2)%nat with 5%nat. change (Nat.ltb 5 35) with true. cbv iota.
  rewrite cyc4. cbn [bind]. change (S (if (0 <? -1)%Z then 0 else 1)%nat) with 2%nat. change (Nat.ltb 10 2) with false. cbv zeta iota.
  rewrite cyc5. reflexivity.
Qed.
Lemma cyc_forever f : forall l1 l2 le n, (n <= 2)%nat -> iter1 f (cycle_start l1 l2 le) n = Fuel.
Proof.
  induction f as [f IH] using (well_founded_induction lt_wf). intros l1 l2 le n N.
  destruct (le_lt_dec 10 f) as [H|H].
  - replace f with (10 + (f - 10))%nat by lia. rewrite cyc_turn by exact N. apply IH; lia.
  - destruct n as [|[|[|]]]; try lia; do 10 (destruct f as [|f]; [vm_compute; reflexivity|]); lia.
Qed.
Theorem C99_terminates_refuted : proper Qc dist1 /\ honest Qc nat Qc (fun q => qeqb q 0 || qeqb q (Z2 10)) cyc /\
  forall fuel, project Qc nat Qc dist1 interp1 (fun q => qeqb q 0 || qeqb q (Z2 10)) cyc 0%nat (Z2 3) (fun _ _ _ _ => false) 0
    (fun _ => (0, 0)) fuel 10 cyc_path = Fuel.
Proof.
  split; [apply dist1_proper|]. split.
  - intros a q H. exfalso. destruct a as [|[|[|[|]]]]; discriminate H.
  - intros fuel. unfold project, config_list. cbn [points cyc_path removelast last bind].
    change (qltb 0 (Z2 3)) with true. cbv iota.
    replace (2 + Z.to_nat (Qfloor (this (Q2Qc 10 * len Qc cyc_path / Z2 3))))%nat with 35%nat by (vm_compute; reflexivity).
    change (map (fresh Qc nat 0%nat) [Z2 2; Z2 4]) with (s_pre Qc nat (cycle_start 0 0 0)).
    change {| s_pre := s_pre Qc nat (cycle_start 0 0 0); s_post := []; s_l := 0 |} with (cycle_start 0 0 0).
    rewrite cyc_forever by lia. reflexivity.
Qed.

(* One refinement of the list of points ends, when the middle of two
   configurations is at half their distance. *)
Lemma qltb_lt a b : qltb a b = true <-> a < b.
Proof. qcaselt a b; split; intros H; try reflexivity; try assumption; try discriminate. exfalso. revert Hc H. qc. Qed.
Section Ends.
Variables C LS : Type.
Variable dist : C -> C -> Qc.
Variable interp : C -> C -> Qc -> C.
Variable ls0 : LS.
Variable step : Qc.
Hypothesis middle : forall a b, dist a (interp a b (Q2Qc (1 # 2))) = Q2Qc (1 # 2) * dist a b /\
                                dist (interp a b (Q2Qc (1 # 2))) b = Q2Qc (1 # 2) * dist a b.
Hypothesis step_pos : 0 < step.
Notation node := (node C LS).
Notation reint f := (reinterpolate C LS dist interp ls0 step f).
Notation nq := (n_q C LS). Notation nl := (n_l C LS).

(* distances are those between the points *)
Fixpoint true_lengths (prev : C) (l : list node) : Prop :=
  match l with [] => True | n :: l' => nl n = dist prev (nq n) /\ true_lengths (nq n) l' end.
Definition ends (prev : C) (l : list node) (ql : C) : Prop :=
  exists f, forall f', (f <= f')%nat -> reint f' prev l ql <> Fuel.

Lemma ends_node ql : forall k prev n l, nl n = dist prev (nq n) -> nl n <= step * Q2Qc (inject_Z (2 ^ Z.of_nat k)) ->
  ends (nq n) l ql ->
  (nl n < step * Q2Qc (1 # 100) -> match l with [] => True | n' :: l' => ends prev (with_l C LS n' (dist prev (nq n')) :: l') ql end) ->
  ends prev (n :: l) ql.
Proof.
  induction k as [|k IH]; intros prev n l E B T R.
  - assert (nl n <= step) as B1.
    { change (Q2Qc (inject_Z (2 ^ Z.of_nat 0))) with 1 in B. revert B. qc. }
    destruct T as [f T]. destruct (qltb (nl n) (step * Q2Qc (1 # 100))) eqn:H.
    + apply qltb_lt in H. specialize (R H). destruct l as [|n' l'].
      * exists 1%nat. intros [|f'] L; [lia|]. cbn [reinterpolate]. qcaselt step (nl n); [exfalso; revert Hc B1; qc|].
        apply qltb_lt in H. rewrite H. discriminate.
      * destruct R as [g R]. exists (S g). intros [|f'] L; [lia|]. cbn [reinterpolate]. qcaselt step (nl n); [exfalso; revert Hc B1; qc|].
        apply qltb_lt in H. rewrite H. specialize (R f' ltac:(lia)).
        destruct (reint f' prev (with_l C LS n' (dist prev (nq n')) :: l') ql) as [[[? ?] ?]| | |]; cbn [bind]; congruence.
    + exists (S f). intros [|f'] L; [lia|]. cbn [reinterpolate]. qcaselt step (nl n); [exfalso; revert Hc B1; qc|].
      rewrite H. specialize (T f' ltac:(lia)). destruct (reint f' (nq n) l ql) as [[[? ?] ?]| | |]; cbn [bind]; congruence.
  - destruct (qltb step (nl n)) eqn:H.
    2:{ assert (nl n <= step) as B1 by (apply Qcnot_lt_le; intros X; apply qltb_lt in X; congruence).
        apply IH; [exact E| |exact T|exact R].
        assert (1 <= Q2Qc (inject_Z (2 ^ Z.of_nat k))) as P2.
        { unfold Qcle. cbn [this Q2Qc]. rewrite (Qred_correct (inject_Z (2 ^ Z.of_nat k))). change (Q2Qc 1 <= inject_Z (2 ^ Z.of_nat k))%Q.
          change 1%Q with (inject_Z 1). unfold inject_Z, Qle. cbn. assert (0 < 2 ^ Z.of_nat k)%Z by (apply Z.pow_pos_nonneg; lia). lia. }
        apply Qcle_trans with (1 * step); [revert B1; qc|]. rewrite (Qcmult_comm step).
        apply Qcmult_le_compat_r; [exact P2|]. apply Qclt_le_weak, step_pos. }
    apply qltb_lt in H.
    set (q := interp prev (nq n) (Q2Qc (1 # 2))). destruct (middle prev (nq n)) as [M1 M2]. fold q in M1, M2.
    set (m := {| n_q := q; n_b := false; n_a := ls0; n_l := dist prev q |} : node).
    assert (Q2Qc (inject_Z (2 ^ Z.of_nat (S k))) = Q2Qc (1 + 1) * Q2Qc (inject_Z (2 ^ Z.of_nat k))) as P2.
    { apply Qc_is_canon. cbn [this Q2Qc Qcmult]. rewrite !Qred_correct. rewrite Nat2Z.inj_succ, Z.pow_succ_r by lia. rewrite inject_Z_mult. reflexivity. }
    rewrite P2 in B.
    assert (ends prev (m :: with_l C LS n (dist q (nq n)) :: l) ql) as [f SE].
    { apply IH.
      - reflexivity.
      - cbn [n_l m]. rewrite M1, <- E. revert B. generalize (Q2Qc (inject_Z (2 ^ Z.of_nat k))). qc.
      - cbn [n_q m]. apply IH.
        + reflexivity.
        + cbn [with_l n_l]. rewrite M2, <- E. revert B. generalize (Q2Qc (inject_Z (2 ^ Z.of_nat k))). qc.
        + exact T.
        + cbn [with_l n_l]. rewrite M2, <- E. intros X. exfalso. revert X H step_pos. qc.
      - cbn [n_l m]. rewrite M1, <- E. intros X. exfalso. revert X H step_pos. qc. }
    exists (S f). intros [|f'] L; [lia|]. cbn [reinterpolate]. apply qltb_lt in H. rewrite H.
    fold q. fold m. specialize (SE f' ltac:(lia)).
    destruct (reint f' prev (m :: with_l C LS n (dist q (nq n)) :: l) ql) as [[[? ?] ?]| | |]; cbn [bind]; congruence.
Qed.
Lemma power_bound (d : Qc) : exists k, d <= step * Q2Qc (inject_Z (2 ^ Z.of_nat k)).
Proof.
  set (z := Z.to_nat (Qceiling (this (d / step)))). exists z.
  assert (d / step <= Q2Qc (inject_Z (2 ^ Z.of_nat z))) as H.
  { unfold Qcle. cbn [this Q2Qc]. rewrite (Qred_correct (inject_Z (2 ^ Z.of_nat z))).
    apply Qle_trans with (inject_Z (Qceiling (this (d / step)))); [apply Qle_ceiling|].
    rewrite <- Zle_Qle. subst z. assert (forall k : nat, Z.of_nat k <= 2 ^ Z.of_nat k)%Z as P.
    { induction k as [|k IH]; [cbn; lia|]. rewrite Nat2Z.inj_succ, Z.pow_succ_r by lia.
      assert (0 < 2 ^ Z.of_nat k)%Z by (apply Z.pow_pos_nonneg; lia). lia. }
    eapply Z.le_trans; [|apply P]. lia. }
  assert (d = step * (d / step)) as -> by (field; intros X; rewrite X in step_pos; discriminate).
  rewrite (Qcmult_comm step), (Qcmult_comm step). apply Qcmult_le_compat_r; [exact H|]. apply Qclt_le_weak, step_pos.
Qed.
Theorem C99_refinement_ends_partial prev l ql : true_lengths prev l -> ends prev l ql.
Proof.
  remember (length l) as len eqn:L. revert prev l L. induction len as [|len IH]; intros prev [|n l] L TL; try discriminate.
  - exists 1%nat. intros [|f'] F; [lia|]. cbn. discriminate.
  - cbn in L. injection L as L. destruct TL as [E TL]. destruct (power_bound (nl n)) as [k K].
    apply ends_node with (k := k); [exact E|exact K|apply IH; assumption|].
    intros _. destruct l as [|n' l']; [exact Logic.I|]. apply IH; [exact L|]. cbn [true_lengths with_l n_l n_q]. split; [reflexivity|].
    apply TL.
Qed.
End Ends.

Example C99_refinement_example : forall prev n l, true_lengths Qc unit dist1 prev [n; l] ->
  exists f, reinterpolate Qc unit dist1 interp1 tt (Z2 3) f prev [n; l] 0 <> Fuel.
Proof.
  intros prev n l T. destruct (C99_refinement_ends_partial Qc unit dist1 interp1 tt (Z2 3)) with (prev := prev) (l := [n; l]) (ql := 0) as [f H].
  - intros a b. unfold dist1, interp1, qabs.
    split; repeat match goal with |- context [qltb ?x ?y] => qcaselt x y end; try (revert Hc); try (revert Hc0); qc.
  - reflexivity.
  - exact T.
  - exists f. apply H. lia.
Qed.

(* ------------------------------------------ with a bound of the Hessian *)
(* The constraint is satisfied at 0 and at 10 only.  Points are inserted in the
   gap, all go to 0, and so on for ever: once all the points are projected the
   number of points is not bounded either. *)
Notation data1 := (data Qc unit).
Definition at0 : data1 := {| d_q := 0; d_len := 0; d_a := tt; d_n := 0; d_sigma := 1; d_pr := true |}.
Definition proj0 : data1 := {| d_q := 0; d_len := 0; d_a := tt; d_n := 1; d_sigma := 1; d_pr := true |}.
Definition new_at (z : Z) : data1 := {| d_q := Z2 z; d_len := 1; d_a := tt; d_n := 0; d_sigma := 1; d_pr := false |}.
Definition end_at (l : Qc) : data1 := {| d_q := Z2 10; d_len := l; d_a := tt; d_n := 0; d_sigma := 1; d_pr := true |}.
Definition news : list data1 := map new_at [1; 2; 3; 4; 5; 6; 7; 8]%Z.
Definition grown (n : nat) : hstate Qc unit := {| h_pre := at0 :: repeat proj0 n ++ news ++ [end_at (Z2 2)]; h_post := [] |}.
Definition moved (n : nat) : hstate Qc unit := {| h_pre := at0 :: repeat proj0 n ++ [end_at (Z2 10)]; h_post := [] |}.
Notation sol := (solver (Z2 10)).
Notation hsweep1 := (hsweep Qc unit Qc dist1 sol).
Notation hone1 := (hone Qc unit Qc dist1 sol).
Notation hreint1 f := (hreint Qc unit Qc dist1 interp1 sol tt 1 (Q2Qc (1 # 10)) 10 f).
Notation hiter1 f := (hiterate Qc unit Qc dist1 interp1 sol tt 1 (Q2Qc (1 # 10)) 10 f).

Lemma sweep_proj n l : forall all, hsweep1 (repeat proj0 n ++ l) 0 false all =
  let '(r, p, u, a) := hsweep1 l 0 false all in (repeat proj0 n ++ r, p, u, a).
Proof.
  induction n as [|n IH]; intros all; cbn [repeat app hsweep].
  - destruct (hsweep1 l 0 false all) as [[[? ?] ?] ?]. reflexivity.
  - change (d_pr Qc unit proj0) with true. cbv iota. change (d_q Qc unit proj0) with 0. rewrite IH.
    destruct (hsweep1 l 0 false all) as [[[? ?] ?] ?]. reflexivity.
Qed.
Lemma sweep_news : hsweep1 (news ++ [end_at (Z2 2)]) 0 false true = (repeat proj0 8 ++ [end_at (Z2 10)], Z2 10, false, true).
Proof. vm_compute. reflexivity. Qed.
Lemma hone_grown n : hone1 (grown n) = Ok (true, moved (n + 8)).
Proof.
  unfold hone, grown. cbn [h_pre]. change (d_q Qc unit at0) with 0. rewrite sweep_proj, sweep_news. cbv beta iota.
  unfold moved. rewrite repeat_app, <- app_assoc. reflexivity.
Qed.
Lemma hreint_app C LS V dist interp one ls0 K thr mi f : forall b a prev l post,
  hreint C LS V dist interp one ls0 K thr mi f (a ++ b) prev l post =
  bind (hreint C LS V dist interp one ls0 K thr mi f a prev l post) (fun r =>
    Ok (fst r, {| h_pre := rev b ++ h_pre C LS (snd r); h_post := h_post C LS (snd r) |})).
Proof.
  induction f as [|f IH]; intros b a prev l post; [reflexivity|]. cbn [hreint]. destruct l as [|x l].
  - cbn [bind fst snd h_pre h_post rev]. rewrite rev_app_distr, <- app_assoc. reflexivity.
  - destruct (_ || _); [cbn [bind fst snd h_pre h_post]; rewrite rev_app_distr; reflexivity|].
    destruct (qltb (d_sigma C LS x) (thr * K)); [cbn [bind fst snd h_pre h_post rev]; rewrite rev_app_distr, <- app_assoc; reflexivity|].
    destruct (qltb _ (d_len C LS x)).
    + change (prev :: a ++ b) with ((prev :: a) ++ b). rewrite IH.
      destruct (hreint C LS V dist interp one ls0 K thr mi f (prev :: a) _ _ post) as [[? ?]| | |]; reflexivity.
    + change (prev :: a ++ b) with ((prev :: a) ++ b). apply IH.
Qed.
Lemma hreint_gap f acc prev : d_q Qc unit prev = 0 -> d_sigma Qc unit prev = 1 -> (d_n Qc unit prev <= 1)%nat ->
  hreint1 f acc prev [end_at (Z2 10)] [] = Fuel \/
  hreint1 f acc prev [end_at (Z2 10)] [] = Ok (8%nat, {| h_pre := rev acc ++ prev :: news ++ [end_at (Z2 2)]; h_post := [] |}).
Proof.
  intros Q S N. rewrite (hreint_app _ _ _ _ _ _ _ _ _ _ f acc []).
  assert (hreint1 f [] prev [end_at (Z2 10)] [] = Fuel \/
    hreint1 f [] prev [end_at (Z2 10)] [] = Ok (8%nat, {| h_pre := prev :: news ++ [end_at (Z2 2)]; h_post := [] |})) as [->| ->];
    [|left; reflexivity|right; reflexivity].
  destruct prev as [q l [] n s b]. cbn in Q, S, N. subst q s.
  destruct n as [|[|n]]; [| |lia].
  all: do 10 (destruct f as [|f]; [left; vm_compute; reflexivity|]); right; vm_compute; reflexivity.
Qed.
Lemma hreint_moved n : forall f acc prev, d_q Qc unit prev = 0 -> d_sigma Qc unit prev = 1 -> (d_n Qc unit prev <= 1)%nat ->
  hreint1 f acc prev (repeat proj0 n ++ [end_at (Z2 10)]) [] = Fuel \/
  hreint1 f acc prev (repeat proj0 n ++ [end_at (Z2 10)]) [] =
    Ok (8%nat, {| h_pre := rev acc ++ prev :: repeat proj0 n ++ news ++ [end_at (Z2 2)]; h_post := [] |}).
Proof.
  induction n as [|n IH]; intros f acc prev Q S N; [apply hreint_gap; assumption|].
  destruct f as [|f]; [left; reflexivity|]. cbn [repeat app hreint]. rewrite S.
  change (qltb 1 (Q2Qc (1 # 10) * 1)) with false. destruct (Nat.leb_spec 10 (d_n Qc unit prev)) as [X|_]; [lia|]. cbn [orb].
  change (qltb (d_sigma Qc unit proj0) (Q2Qc (1 # 10) * 1)) with false. cbv iota.
  change (qltb ((1 + d_sigma Qc unit proj0) / 1) (d_len Qc unit proj0)) with false. cbv iota.
  destruct (IH f (prev :: acc) proj0 eq_refl eq_refl (le_n 1)) as [H|H]; [left; exact H|right].
  rewrite H. cbn [rev]. rewrite <- app_assoc. reflexivity.
Qed.
Lemma grows f : forall m n k, hiter1 f m (grown n) k = Fuel.
Proof.
  induction f as [|f IH]; intros m n k; [reflexivity|]. cbn [hiterate]. rewrite hone_grown. cbn [bind].
  rewrite orb_true_r. unfold hreinterpolate, moved. cbn [h_pre h_post].
  destruct (hreint_moved (n + 8) f [] at0 eq_refl eq_refl ltac:(auto)) as [->| ->]; [reflexivity|]. cbn [bind negb orb].
  change (Nat.ltb 0 8) with true. change (Nat.ltb (2 * 10) 1) with false. cbv zeta iota. apply IH.
Qed.
Theorem C100_terminates_refuted : honest Qc unit Qc sat1 sol /\ proper Qc dist1 /\ forall fuel,
  project2 Qc unit Qc dist1 interp1 sat1 sol tt (Z2 3) 1 (Q2Qc (1 # 10)) 10 fuel line = Fuel.
Proof.
  split; [apply solver_honest|]. split; [apply dist1_proper|]. intros fuel. unfold project2, hreinterpolate, initial_datas.
  cbn [h_pre h_post points line].
  assert (init_data Qc unit Qc dist1 sol tt (init Qc line) true None = at0) as -> by (vm_compute; reflexivity).
  assert (init_data Qc unit Qc dist1 sol tt (fin Qc line) true (Some (init Qc line)) = end_at (Z2 10)) as -> by (vm_compute; reflexivity).
  destruct (hreint_gap fuel [] at0 eq_refl eq_refl ltac:(auto)) as [->| ->]; [reflexivity|]. cbn [bind snd rev app].
  change {| h_pre := at0 :: news ++ [end_at (Z2 2)]; h_post := [] |} with (grown 0).
  change (Nat.eqb (size Qc unit (grown 0)) 2) with false. change (qltb 0 (Z2 3)) with true. cbv iota. rewrite grows. reflexivity.
Qed.

(* One refinement ends when interpolation is along a shortest path. *)
Section Ends2.
Variables C LS V : Type.
Variable dist : C -> C -> Qc.
Variable interp : C -> C -> Qc -> C.
Variable one : LS -> C -> move C LS V.
Variable ls0 : LS.
Variables K thrmin : Qc.
Variable maxIter : nat.
Hypothesis straight : forall a b t, 0 <= t <= 1 -> dist (interp a b t) b = (1 - t) * dist a b.
Hypothesis K_pos : 0 < K.
Hypothesis thr_pos : 0 < thrmin.
Notation data := (data C LS).
Notation hr f := (hreint C LS V dist interp one ls0 K thrmin maxIter f).
Notation dq := (d_q C LS). Notation dl := (d_len C LS). Notation ds := (d_sigma C LS).

Fixpoint true_lengths2 (prev : C) (l : list data) : Prop :=
  match l with [] => True | x :: l' => dl x = dist prev (dq x) /\ true_lengths2 (dq x) l' end.
Definition ends2 (acc : list data) (prev : data) (l post : list data) : Prop :=
  exists f, forall f', (f <= f')%nat -> hr f' acc prev l post <> Fuel.

Lemma ends2_point l post : forall N acc prev x, 0 <= ds x -> dl x = dist (dq prev) (dq x) ->
  dl x <= thrmin * Q2Qc (inject_Z (Z.of_nat N)) ->
  (forall acc x', dq x' = dq x -> ends2 acc x' l post) -> ends2 acc prev (x :: l) post.
Proof.
  induction N as [|N IH]; intros acc prev x SX E B T.
  all: destruct (qltb (ds prev) (thrmin * K) || Nat.leb maxIter (d_n C LS prev)) eqn:H1;
    [exists 1%nat; intros [|f'] L; [lia|]; cbn [hreint]; rewrite H1; discriminate|].
  all: destruct (qltb (ds x) (thrmin * K)) eqn:H2;
    [exists 1%nat; intros [|f'] L; [lia|]; cbn [hreint]; rewrite H1, H2; discriminate|].
  all: destruct (qltb ((ds prev + ds x) / K) (dl x)) eqn:H3;
    [|destruct (T (prev :: acc) x eq_refl) as [f F]; exists (S f); intros [|f'] L; [lia|]; cbn [hreint]; rewrite H1, H2, H3; apply F; lia].
  all: apply orb_false_iff in H1; destruct H1 as [H1 H1'].
  all: assert (thrmin * K <= ds prev) as P1 by (apply Qcnot_lt_le; intros X; apply qltb_lt in X; congruence).
  all: assert (thrmin <= ds prev / K) as P2
    by (apply Qcmult_lt_0_le_reg_r with K; [exact K_pos|]; replace (ds prev / K * K) with (ds prev) by (field; apply not_eq_sym, qlt_neq; exact K_pos); exact P1).
  all: apply qltb_lt in H3.
  all: assert (0 <= ds x / K) as P3
    by (apply Qcmult_lt_0_le_reg_r with K; [exact K_pos|]; replace (ds x / K * K) with (ds x) by (field; apply not_eq_sym, qlt_neq; exact K_pos); revert SX; qc).
  all: assert (ds prev / K + ds x / K < dl x) as P4
    by (replace (ds prev / K + ds x / K) with ((ds prev + ds x) / K) by (field; apply not_eq_sym, qlt_neq; exact K_pos); exact H3).
  - exfalso. change (Q2Qc (inject_Z (Z.of_nat 0))) with 0 in B. revert B P2 P3 P4 thr_pos. generalize (ds prev / K) (ds x / K). qc.
  - assert (0 < dl x) as DP by (revert P2 P3 P4 thr_pos; generalize (ds prev / K) (ds x / K); qc).
    set (t := ds prev / (K * dl x)).
    assert (t * dl x = ds prev / K) as TE by (unfold t; field; split; apply not_eq_sym, qlt_neq; assumption).
    assert (0 <= t <= 1) as TB.
    { split; apply Qcmult_lt_0_le_reg_r with (dl x); try exact DP; rewrite TE; revert P2 P3 P4 thr_pos; generalize (ds prev / K) (ds x / K); qc. }
    pose proof (straight (dq prev) (dq x) t TB) as M.
    set (q := interp (dq prev) (dq x) t) in *.
    set (y := init_data C LS V dist one ls0 q false (Some (dq prev))).
    assert (ends2 (prev :: acc) y (with_len C LS x (dist q (dq x)) :: l) post) as [f F].
    { apply IH.
      - exact SX.
      - reflexivity.
      - cbn [with_len d_len]. rewrite M, <- E.
        assert (Q2Qc (inject_Z (Z.of_nat (S N))) = 1 + Q2Qc (inject_Z (Z.of_nat N))) as SN.
        { apply Qc_is_canon. cbn [this Q2Qc Qcplus]. rewrite !Qred_correct. rewrite Nat2Z.inj_succ, <- Z.add_1_l, inject_Z_plus. reflexivity. }
        rewrite SN in B. replace ((1 - t) * dl x) with (dl x - t * dl x) by ring. rewrite TE.
        revert B P2. generalize (ds prev / K) (Q2Qc (inject_Z (Z.of_nat N))). qc.
      - intros a x' Hx. apply T. exact Hx. }
    exists (S f). intros [|f'] L; [lia|]. cbn [hreint]. rewrite H1, H1', H2. cbn [orb]. apply qltb_lt in H3. rewrite H3.
    fold t. fold q. fold y. specialize (F f' ltac:(lia)).
    destruct (hr f' (prev :: acc) y (with_len C LS x (dist q (dq x)) :: l) post) as [[? ?]| | |]; cbn [bind]; congruence.
Qed.
Lemma nat_bound (d : Qc) : exists N, d <= thrmin * Q2Qc (inject_Z (Z.of_nat N)).
Proof.
  exists (Z.to_nat (Qceiling (this (d / thrmin)))). set (z := Qceiling (this (d / thrmin))).
  assert (d / thrmin <= Q2Qc (inject_Z (Z.of_nat (Z.to_nat z)))) as H.
  { unfold Qcle. cbn [this Q2Qc]. rewrite (Qred_correct (inject_Z (Z.of_nat (Z.to_nat z)))).
    apply Qle_trans with (inject_Z z); [apply Qle_ceiling|]. rewrite <- Zle_Qle. lia. }
  assert (d = thrmin * (d / thrmin)) as -> by (field; apply not_eq_sym, qlt_neq; exact thr_pos).
  rewrite (Qcmult_comm thrmin), (Qcmult_comm thrmin). apply Qcmult_le_compat_r; [exact H|]. apply Qclt_le_weak, thr_pos.
Qed.
Theorem C100_refinement_ends_partial acc prev l post : Forall (fun x => 0 <= ds x) l ->
  true_lengths2 (dq prev) l -> ends2 acc prev l post.
Proof.
  revert acc prev. induction l as [|x l IH]; intros acc prev S TL.
  - exists 1%nat. intros [|f'] L; [lia|]. cbn. discriminate.
  - inversion S as [|x' l' S1 S2]; subst. destruct TL as [E TL]. destruct (nat_bound (dl x)) as [N B].
    apply ends2_point with (N := N); try assumption. intros a x' Hx. apply IH; [exact S2|]. rewrite Hx. exact TL.
Qed.
End Ends2.

Lemma qabs_scale c x : 0 <= c -> qabs (c * x) = c * qabs x.
Proof.
  intros H. unfold qabs. destruct (qltb_spec x 0) as [X|X].
  - qcaselt (c * x) 0; [ring|]. assert (c * x <= 0 * x -> c * x = 0) as A.
    { intros Y. apply Qcle_antisym; [revert Y; qc|exact Hc]. }
    assert (c * x <= 0) as B.
    { replace 0 with (c * 0) by ring. rewrite (Qcmult_comm c x), (Qcmult_comm c 0). apply Qcmult_le_compat_r; [apply Qclt_le_weak, X|exact H]. }
    assert (c * x = 0) as -> by (apply Qcle_antisym; assumption || exact B).
    assert (c * x = 0) as Z by (apply Qcle_antisym; assumption || exact B).
    replace (c * - x) with (- (c * x)) by ring. rewrite Z. reflexivity.
  - qcaselt (c * x) 0; [|reflexivity]. exfalso.
    assert (0 <= c * x) as B by (replace 0 with (0 * x) by ring; apply Qcmult_le_compat_r; assumption).
    revert B Hc. qc.
Qed.
Example C100_refinement_example sigma a q0 q1 : 0 <= sigma ->
  let x := {| d_q := q1; d_len := dist1 q0 q1; d_a := tt; d_n := 0; d_sigma := sigma; d_pr := true |} in
  let prev := {| d_q := q0; d_len := 0; d_a := tt; d_n := 0; d_sigma := sigma; d_pr := true |} in
  exists f, hreint Qc unit Qc dist1 interp1 sol tt 1 (Q2Qc (1 # 10)) 10 f a prev [x] [] <> Fuel.
Proof.
  intros S x prev. destruct (C100_refinement_ends_partial Qc unit Qc dist1 interp1 sol tt 1 (Q2Qc (1 # 10)) 10%nat) with
    (acc := a) (prev := prev) (l := [x]) (post := @nil data1) as [f H].
  - intros u v t [T0 T1]. unfold dist1, interp1. rewrite <- qabs_scale by (revert T1; qc). f_equal. ring.
  - reflexivity.
  - reflexivity.
  - constructor; [exact S|constructor].
  - cbn. auto.
  - exists f. apply H. lia.
Qed.

Print Assumptions C99_terminates_refuted.
Print Assumptions C99_refinement_ends_partial.
Print Assumptions C100_terminates_refuted.
Print Assumptions C100_refinement_ends_partial.
