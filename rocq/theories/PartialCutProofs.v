(* Proofs about the partial shortcut optimizer, for any number type. *)
From Coq Require Import Lia.
From Verif Require Import Base VecSpec VecProofs PartialCutModel.

Section Gen.
Context {C P J T : Type}.
Variable tzero : T.
Variables tadd tsub tmul tdiv : T -> T -> T.
Variable tltb : T -> T -> bool.
Variable init fin : P -> C.
Variable rng : P -> T * T.
Variable cons : P -> option (C -> option C).
Variable dist : C -> C -> T.
Variable steer : C -> C -> option (list P).
Variable valid : list P -> bool.
Variable mix : J -> C -> C -> T -> C -> C.
Hypothesis ST : forall a b ps, steer a b = Some ps -> ps <> [] /\ chained init fin a ps b.

Notation rank := (rank P T tadd tsub tltb rng).
Notation rank_loop := (rank_loop P T tadd tsub tltb rng).
Notation gen_loop := (gen_loop C P J T tadd tsub tdiv fin rng cons steer mix).
Notation generate := (generate C P J T tzero tadd tsub tdiv tltb fin rng cons steer mix).
Notation full_loop := (full_loop C P J T tzero tadd tsub tdiv tltb fin rng cons steer valid mix).
Notation vlen := (vlen P T tzero tadd tsub rng).

Lemma rank_loop_ok l : forall x i, l <> [] -> exists r y, rank_loop l x i = Ok (i + r, y) /\ r < length l.
Proof.
  induction l as [|p l IH]; intros x i H; [contradiction|]. cbn [PartialCutModel.rank_loop].
  destruct (tltb _ _).
  - destruct l as [|p' l].
    + exists 0, (snd (rng p)). rewrite Nat.add_0_r. split; [reflexivity|cbn; lia].
    + destruct (IH (tsub x (len P T tsub rng p)) (S i) ltac:(discriminate)) as (r & y & E & L).
      exists (S r), y. rewrite E. split; [f_equal; f_equal; lia|cbn [length] in *; lia].
  - exists 0, (tadd x (fst (rng p))). rewrite Nat.add_0_r. split; [reflexivity|cbn; lia].
Qed.

Lemma gen_loop_chained j q1 q2 sp l : forall qi t qe r, gen_loop j q1 q2 sp l qi t = Some (qe, r) -> chained init fin qi r qe.
Proof.
  induction l as [|p l IH]; intros qi t qe r; cbn [PartialCutModel.gen_loop].
  - intros E. injection E as <- <-. reflexivity.
  - cbv zeta. destruct (match cons p with None => _ | Some f => _ end) as [q'|]; [|discriminate].
    destruct (steer qi q') as [ps|] eqn:Es; [|discriminate].
    destruct (gen_loop _ _ _ _ l q' _) as [[qe' r']|] eqn:Eg; [|discriminate].
    intros E. injection E as <- <-. apply chained_app; eexists; split; [apply ST; exact Es|eapply IH; exact Eg].
Qed.

Lemma generate_total l j t1 q1 t2 q2 : l <> [] -> exists o, generate l j t1 q1 t2 q2 = Ok o.
Proof.
  intros H. unfold PartialCutModel.generate, PartialCutModel.rank.
  destruct (rank_loop_ok l t1 0 H) as (r1 & y1 & E1 & _). destruct (rank_loop_ok l t2 0 H) as (r2 & y2 & E2 & _).
  rewrite E1, E2. cbn [bind]. destruct (_ =? _); [eauto|].
  destruct (gen_loop _ _ _ _ _ _ _) as [[qe r]|]; [|eauto]. destruct (steer qe q2); eauto.
Qed.
Lemma generate_chained l j t1 q1 t2 q2 r : generate l j t1 q1 t2 q2 = Ok (Some r) -> r <> [] /\ chained init fin q1 r q2.
Proof.
  unfold PartialCutModel.generate. destruct (rank l t1) as [[r1 lt1]| | |]; cbn [bind]; try discriminate.
  destruct (rank l t2) as [[r2 lt2]| | |]; cbn [bind]; try discriminate.
  destruct (r1 =? r2); [discriminate|].
  destruct (gen_loop _ _ _ _ _ _ _) as [[qe r']|] eqn:Eg; [|discriminate].
  destruct (steer qe q2) as [ps|] eqn:Es; [|discriminate]. intros E. injection E as <-.
  destruct (ST _ _ _ Es) as (N & K). split; [intros E; apply app_eq_nil in E as (_ & E); contradiction|].
  apply chained_app; exists qe; split; [eapply gen_loop_chained; exact Eg|exact K].
Qed.

Lemma full_loop_spec q0 q3 js : forall l, l <> [] -> chained init fin q0 l q3 ->
  exists r out, full_loop q0 q3 js l = Ok (r, out) /\ r <> [] /\ chained init fin q0 r q3 /\
    (r = l \/ valid r = true) /\ incl out js.
Proof.
  induction js as [|j js IH]; intros l N K; cbn [PartialCutModel.full_loop].
  - exists l, []. repeat split; auto. intros x [].
  - destruct (generate_total l j tzero q0 (vlen l) q3 N) as (o & E). rewrite E. cbn [bind].
    assert (Fl : exists r out, bind (full_loop q0 q3 js l) (fun '(r, out) => Ok (r, j :: out)) = Ok (r, out) /\
      r <> [] /\ chained init fin q0 r q3 /\ (r = l \/ valid r = true) /\ incl out (j :: js)).
    { destruct (IH l N K) as (r & out & -> & A & B & D & I). exists r, (j :: out). cbn [bind].
      repeat split; auto. intros x [<-|Hx]; [left; reflexivity|right; apply I; exact Hx]. }
    destruct o as [r|]; [|exact Fl]. destruct (valid r) eqn:Ev; [|exact Fl].
    destruct (generate_chained _ _ _ _ _ _ _ E) as (N' & K').
    destruct (IH r N' K') as (r' & out & E' & A & B & D & I). exists r', out. split; [exact E'|].
    split; [exact A|]. split; [exact B|]. split.
    + right. destruct D as [->|D]; assumption.
    + intros x Hx. right. apply I. exact Hx.
Qed.

Section Random.
Variable veval : list P -> T -> option C.
Variable vcut : list P -> T -> T -> res (list P).
Variable junk : nat -> C.
Variable draw : nat -> T * T.
Variable margin : T.
Notation body := (body C P J T tzero tadd tsub tmul tdiv tltb init fin rng cons dist steer valid mix veval vcut junk draw margin).
Notation random_loop := (random_loop C P J T tzero tadd tsub tmul tdiv tltb init fin rng cons dist steer valid mix veval vcut junk draw margin).
Notation random_opt := (random_opt C P J T tzero tadd tsub tmul tdiv tltb init fin rng cons dist steer valid mix veval vcut junk draw margin).

Lemma random_loop_idle q0 q3 js mx pv : js <> [] -> (forall t, veval pv t <> None) ->
  forall fuel k s, r_cur s = pv -> r_res s = pv -> mx - r_fail s <= fuel ->
  exists s', random_loop fuel js mx q0 q3 k s = Ok s' /\ r_res s' = pv.
Proof.
  intros HJ HV. induction fuel as [|f IH]; intros k s E1 E2 L.
  - exists s. cbn [PartialCutModel.random_loop]. destruct (Nat.ltb_spec (r_fail s) mx); [lia|]. auto.
  - cbn [PartialCutModel.random_loop]. destruct (Nat.ltb_spec (r_fail s) mx) as [Lt|Ge]; [|exists s; auto].
    assert (Eb : exists s1, body js q0 q3 k s = Ok s1 /\ r_cur s1 = pv /\ r_res s1 = pv /\ r_fail s1 = S (r_fail s)).
    { unfold PartialCutModel.body. cbv zeta.
      assert (Lm : r_j s mod length js < length js) by (apply Nat.mod_upper_bound; destruct js; [contradiction|discriminate]).
      destruct (nth_error js (r_j s mod length js)) as [j|] eqn:Ej; [|apply nth_error_None in Ej; lia].
      rewrite E1. destruct (if tltb _ _ then _ else _) as [t1 t2].
      destruct (veval pv t1) as [a|] eqn:Ea; [|exfalso; exact (HV _ Ea)].
      destruct (veval pv t2) as [b|] eqn:Eb; [|exfalso; exact (HV _ Eb)].
      eexists. split; [reflexivity|]. cbn. auto. }
    destruct Eb as (s1 & -> & B1 & B2 & B3). cbn [bind]. apply IH; auto. rewrite B3. lia.
Qed.
Lemma random_idle q0 q3 js pv nf fuel : (forall t, veval pv t <> None) -> length js * nf <= fuel ->
  random_opt fuel nf q0 q3 pv js = Ok pv.
Proof.
  intros HV L. unfold PartialCutModel.random_opt. destruct js as [|j js].
  - cbn. destruct fuel; reflexivity.
  - destruct (random_loop_idle q0 q3 (j :: js) (length (j :: js) * nf) pv ltac:(discriminate) HV fuel 0
      (mkS pv pv (path_length C P T tzero tadd init fin dist pv) 0 0) eq_refl eq_refl) as (s' & -> & E).
    { cbn [r_fail]. lia. }
    cbn [bind]. rewrite E. reflexivity.
Qed.

Lemma full_loop_len q0 q3 js : forall l r out, full_loop q0 q3 js l = Ok (r, out) -> length out <= length js.
Proof.
  induction js as [|j js IH]; intros l r out; cbn [PartialCutModel.full_loop].
  - intros E. injection E as <- <-. apply le_n.
  - destruct (generate _ _ _ _ _ _) as [o| | |]; cbn [bind]; try discriminate.
    assert (Fl : bind (full_loop q0 q3 js l) (fun '(r, out) => Ok (r, j :: out)) = Ok (r, out) -> length out <= length (j :: js)).
    { destruct (full_loop q0 q3 js l) as [[r1 o1]| | |] eqn:E'; cbn [bind]; try discriminate.
      intros X. injection X as _ <-. apply IH in E'. cbn [length]. lia. }
    destruct o as [r1|]; [|exact Fl]. destruct (valid r1); [|exact Fl]. intros E. apply IH in E. cbn [length]. lia.
Qed.
Notation partial_optimize := (partial_optimize C P J T tzero tadd tsub tmul tdiv tltb init fin rng cons dist steer valid mix veval vcut junk draw margin).
Lemma chained_ends p0 l : forall q q', chained init fin q (p0 :: l) q' -> init p0 = q /\ fin (last (p0 :: l) p0) = q'.
Proof.
  intros q q' H. split; [exact (proj1 H)|]. destruct (exists_last (l := p0 :: l)) as (l1 & x & E); [discriminate|].
  rewrite E in *. rewrite last_last. apply chained_app in H as (m & _ & H). cbn in H. apply H.
Qed.
Lemma partial_full onlyFull fuel nf js p0 rest q q' :
  (forall l t, veval l t <> None) -> cons p0 <> None -> chained init fin q (p0 :: rest) q' -> length js * nf <= fuel ->
  exists r out, partial_optimize onlyFull fuel nf js (p0 :: rest) = Ok r /\ full_loop q q' js (p0 :: rest) = Ok (r, out) /\
    r <> [] /\ chained init fin q r q' /\ (r = p0 :: rest \/ valid r = true).
Proof.
  intros HV NC CH F. unfold PartialCutModel.partial_optimize.
  destruct (cons p0) as [f|] eqn:E; [|contradiction].
  destruct (chained_ends p0 rest q q' CH) as (-> & ->).
  destruct (full_loop_spec q q' js (p0 :: rest) ltac:(discriminate) CH) as (r & out & E' & N & K & D & _).
  pose proof (full_loop_len _ _ _ _ _ _ E') as L. exists r, out. rewrite E'. cbn [bind].
  split; [|auto]. destruct onlyFull; [reflexivity|]. apply random_idle; [apply HV|nia].
Qed.
End Random.
End Gen.
