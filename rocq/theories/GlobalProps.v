(* C99, C100: the global path projector. *)
From Coq Require Import QArith.Qround List Bool ZArith Lia.
From Verif Require Import Base QcTac GlobalModel GlobalSpec GlobalProofs GlobalProofs2.
Import ListNotations.
Open Scope Qc_scope.

Section Props.
Variables C LS V : Type.
Variable dist : C -> C -> Qc.
Variable interp : C -> C -> Qc -> C.
Variable sat : C -> bool.
Variable one : LS -> C -> move C LS V.
Variable ls0 : LS.
Notation path := (path C).
Notation out := (out C).
Notation Interp := (Interp C).
Notation Same := (Same C).

(* ------------------------------------------------------- specification *)
(* the solver says that it has converged only if the constraints hold *)
Definition honest : Prop := forall a q, m_ok _ _ _ (one a q) = true -> sat (m_q _ _ _ (one a q)) = true.
(* the ends of a path: those of its way-points if it has some *)
Definition first_of (p : path) : C := match points C p with Some l => hd (init C p) l | None => init C p end.
Definition last_of (p : path) : C := match points C p with Some l => last l (fin C p) | None => fin C p end.
Definition satisfying (l : list (Qc * C)) : Prop := Forall (fun x => sat (snd x) = true) l.
(* [s] is the smallest singular value that the solver gave at [q] or in the
   step which ended there *)
Definition singular_value (q : C) (s : Qc) : Prop :=
  (exists a, m_sigma _ _ _ (one a q) = s) \/ (exists a q', m_q _ _ _ (one a q') = q /\ m_sigma _ _ _ (one a q') = s).
(* with [K] a bound of the Hessian of the constraints: the balls in which the
   projection is certified to be continuous reach each other *)
Definition certified (K thr : Qc) (a b : C) : Prop :=
  exists sa sb, singular_value a sa /\ singular_value b sb /\ thr * K <= sa /\ thr * K <= sb /\ dist a b <= (sa + sb) / K.

Lemma last_default {A} (l : list A) x y : l <> [] -> last l x = last l y.
Proof. induction l as [|a [|b l] IH]; intros H; [congruence|reflexivity|]. apply IH. discriminate. Qed.

(* ------------------------------------------------------ without bound *)
Section Step.
Variable step : Qc.
Variable jump : C -> C -> V -> V -> bool.
Variable v0 : V.
Variable mem : nat -> C * C.
Notation project := (project C LS V dist interp sat one ls0 step jump v0 mem).
Notation config_list := (config_list C step).

Lemma config_list_ends fuel p q0 l qe : config_list fuel p = Ok (q0, l, qe) -> q0 = first_of p /\ qe = last_of p.
Proof.
  unfold GlobalModel.config_list, first_of, last_of. destruct (points C p) as [[|a [|b k]]|]; try discriminate.
  - intros [= <- <- <-]. split; [reflexivity|]. apply (last_default (b :: k) a (fin C p)). discriminate.
  - destruct (samples C step fuel p step); cbn [bind]; try discriminate. intros [= <- <- <-]. auto.
Qed.
(* what project does when it does not give the path back *)
Lemma project_inv fuel mi p ok l : project fuel mi p = Ok (ok, Interp l) ->
  exists q0 inner qe mc s r full, config_list fuel p = Ok (q0, inner, qe) /\ inner <> [] /\
    iterate C LS V dist interp one ls0 step jump v0 mem fuel q0 qe mi mc {| s_pre := map (fresh C LS ls0) inner; s_post := []; s_l := 0 |} 0 = Ok s /\
    front C LS step (s_pre _ _ s ++ s_post _ _ s) = (r, full) /\ ok = full /\
    build C sat q0 (if full then r ++ [(s_l _ _ s, qe)] else r) = Ok (Interp l).
Proof.
  unfold GlobalModel.project. destruct (config_list fuel p) as [[[q0 inner] qe]| | |] eqn:CL; cbn [bind]; try discriminate.
  destruct inner as [|q inner]; [discriminate|]. destruct (qltb 0 step); [|discriminate].
  match goal with |- context [iterate C LS V dist interp one ls0 step jump v0 mem fuel q0 qe mi ?m _ _] => set (mc := m) end.
  destruct (iterate _ _ _ _ _ _ _ _ _ _ _ _ _ _ _ _ _ _) as [s| | |] eqn:IT; cbn [bind]; try discriminate.
  unfold create_path. destruct (front _ _ _ _) as [r full] eqn:FR.
  destruct (build _ _ _ _) as [o| | |] eqn:B; cbn [bind]; try discriminate. intros [= <- ->].
  exists q0, (q :: inner), qe, mc, s, r, full. repeat split; auto. discriminate.
Qed.
Lemma fresh_fine inner : Forall (fine C LS sat) (map (fresh C LS ls0) inner).
Proof. induction inner as [|q l IH]; constructor; [|exact IH]. split; [discriminate|]. cbn. apply Qcle_refl. Qed.

(* C99: whatever is returned starts like the path and its way-points satisfy
   the constraints. *)
Theorem C99_waypoints fuel mi p ok l : honest -> (forall a b, 0 <= dist a b) ->
  project fuel mi p = Ok (ok, Interp l) ->
  hd (1, last_of p) l = (0, first_of p) /\ satisfying l.
Proof.
  intros HON NN E. destruct (project_inv _ _ _ _ _ E) as (q0 & inner & qe & mc & s & r & full & CL & NE & IT & FR & -> & B).
  destruct (config_list_ends _ _ _ _ _ CL) as [-> ->].
  assert (F0 : fine_st C LS sat {| s_pre := map (fresh C LS ls0) inner; s_post := []; s_l := 0 |}).
  { split; [apply fresh_fine|]. split; [constructor|apply Qcle_refl]. }
  destruct (iterate_fine C LS V dist interp sat one ls0 step jump v0 mem HON NN _ _ _ _ _ _ _ _ F0 IT) as (F1 & F2 & F3).
  assert (FA : Forall (fine C LS sat) (s_pre _ _ s ++ s_post _ _ s)) by (apply Forall_app; auto).
  destruct (front_fine C LS sat step _ _ _ FA FR) as (G1 & G2 & G3).
  assert (PL : Forall (fun x : Qc * C => 0 <= fst x) (if full then r ++ [(s_l _ _ s, last_of p)] else r)).
  { destruct full; [|exact G1]. apply Forall_app. split; [exact G1|]. repeat constructor. exact F3. }
  destruct (build_sat C sat _ _ _ PL B) as [(m' & ->) S]. split; [reflexivity|]. apply S.
  destruct full; [rewrite removelast_snoc; exact G2|apply removelast_Forall, G2].
Qed.

Section NoJump.
Hypothesis NJ : forall a b c d, jump a b c d = false.
Hypothesis PD : proper C dist.
Lemma project_chain fuel mi p ok l : honest -> project fuel mi p = Ok (ok, Interp l) ->
  exists r d, chain C dist (first_of p) r /\ Forall (fun x => fst x <= step) r /\ (ok = true -> chain C dist (first_of p) (r ++ [(d, last_of p)])) /\
    build C sat (first_of p) (if ok then r ++ [(d, last_of p)] else r) = Ok (Interp l).
Proof.
  intros HON E. destruct (project_inv _ _ _ _ _ E) as (q0 & inner & qe & mc & s & r & full & CL & NE & IT & FR & -> & B).
  destruct (config_list_ends _ _ _ _ _ CL) as [-> ->].
  assert (G0 : good_st C LS dist (first_of p) (last_of p) {| s_pre := map (fresh C LS ls0) inner; s_post := []; s_l := 0 |}).
  { split; [reflexivity|]. cbn [GlobalModel.s_pre GlobalModel.s_l]. clear -NE. revert NE. generalize (first_of p). induction inner as [|q [|q' l] IH]; intros q0 NE; [congruence| |].
    - cbn. auto.
    - cbn [map good]. split; [left; reflexivity|].
      assert (N : q' :: l <> []) by discriminate. specialize (IH q N). cbn [map] in IH. cbn in IH |- *. destruct IH as [_ IH]. auto. }
  assert (X := iterate_exact C LS V dist interp one ls0 step jump v0 mem NJ _ _ _ _ _ _ _ _ G0 IT). destruct X as [P0 X].
  rewrite P0, app_nil_r in FR.
  destruct (front_chain C LS dist step _ _ _ _ _ _ X FR) as [C1 C2].
  exists r, (s_l _ _ s). split; [exact C1|]. split; [|split; [exact C2|exact B]].
  assert (F0 : fine_st C LS sat {| s_pre := map (fresh C LS ls0) inner; s_post := []; s_l := 0 |}).
  { split; [apply fresh_fine|]. split; [constructor|apply Qcle_refl]. }
  destruct (iterate_fine C LS V dist interp sat one ls0 step jump v0 mem HON (proj1 PD) _ _ _ _ _ _ _ _ F0 IT) as (F1 & F2 & F3).
  exact (proj2 (proj2 (front_fine C LS sat step _ _ _ F1 FR))).
Qed.
(* When no discontinuity is detected: after a success the path ends at its end,
   parameters are distances and all the way-points but the last are within the
   step of the previous one; *)
Theorem C99_success_partial fuel mi p l : honest -> project fuel mi p = Ok (true, Interp l) ->
  snd (last l (0, first_of p)) = last_of p /\ timed C dist l /\ spaced C dist step (removelast l).
Proof.
  intros HON E. destruct (project_chain _ _ _ _ _ HON E) as (r & d & C1 & F & C2 & B).
  destruct (build_exact C dist sat PD (fun a b => dist a b <= step) _ _ _ (C2 eq_refl) B) as (L & T & S & _).
  rewrite last_snoc in L. rewrite removelast_snoc in S. split; [exact L|]. split; [exact T|].
  apply spaced_linked, S, rchain_le; assumption.
Qed.
(* after a failure, all are. *)
Theorem C99_failure fuel mi p l : honest -> project fuel mi p = Ok (false, Interp l) ->
  timed C dist l /\ spaced C dist step l.
Proof.
  intros HON E. destruct (project_chain _ _ _ _ _ HON E) as (r & d & C1 & F & C2 & B).
  destruct (build_exact C dist sat PD (fun a b => dist a b <= step) _ _ _ C1 B) as (_ & T & _ & S).
  split; [exact T|]. apply spaced_linked, S, rchain_le; assumption.
Qed.
End NoJump.

(* The path is given back, with success, exactly when it is not longer than the
   step, or is made of two way-points. *)
Theorem C99_same fuel mi p ok : project fuel mi p = Ok (ok, Same) ->
  ok = true /\ match points C p with None => len C p <= step | Some l => length l = 2%nat end.
Proof.
  unfold GlobalModel.project. destruct (config_list fuel p) as [[[q0 inner] qe]| | |] eqn:CL; cbn [bind]; try discriminate.
  destruct inner as [|q inner].
  - intros [= <-]. split; [reflexivity|]. unfold GlobalModel.config_list in CL. destruct (points C p) as [[|a [|b k]]|]; try discriminate.
    + injection CL as _ RL _. destruct k; [reflexivity|discriminate].
    + destruct fuel as [|f]; cbn [samples] in CL; [discriminate|]. qcaselt step (len C p); [|assumption].
      destruct (samples _ _ _ _ _); discriminate.
  - destruct (qltb 0 step); [|discriminate]. destruct (iterate _ _ _ _ _ _ _ _ _ _ _ _ _ _ _ _ _ _) as [s| | |]; cbn [bind]; try discriminate.
    unfold create_path. destruct (front _ _ _ _) as [r full]. unfold build. destruct (sat _ && sat _); cbn [bind]; discriminate.
Qed.
Theorem C99_short fuel mi p : match points C p with None => len C p <= step | Some l => length l = 2%nat end ->
  project (S fuel) mi p = Ok (true, Same).
Proof.
  intros H. unfold GlobalModel.project, GlobalModel.config_list. destruct (points C p) as [[|a [|b [|c k]]]|]; cbn in H; try discriminate; [reflexivity|].
  cbn [samples]. qcaselt step (len C p); [exfalso; revert H Hc; qc|]. reflexivity.
Qed.

(* It is defined: with a positive step, for a path which is not reduced to one
   way-point and whose ends satisfy the constraints. *)
Lemma sweep_acc l : forall acc a prev pu all cur other, (pu = true -> acc <> []) ->
  match sweep C LS V dist one jump l acc a prev pu all cur other with Jumped _ _ acc _ _ => acc <> [] | Swept _ _ _ _ _ _ _ => True end.
Proof.
  induction l as [|n l IH]; intros acc a prev pu all cur other H; cbn [sweep]; [exact I|].
  destruct (n_b C LS n); [apply IH; discriminate|]. destruct pu; [|apply IH; discriminate].
  destruct (jump _ _ _ _); [apply H; reflexivity|]. apply IH. discriminate.
Qed.
Lemma one_sweep_defined m q0 qe s : exists r, one_sweep C LS V dist one jump v0 m q0 qe s = Ok r.
Proof.
  unfold one_sweep. destruct (s_pre C LS s) as [|n l]; [eauto|].
  assert (A := sweep_acc (n :: l) [] (n_a C LS n) q0 false true (fst m, v0) (snd m, v0)).
  destruct (sweep _ _ _ _ _ _ _ _ _ _ _ _ _ _) as [acc a prev pu all|acc a rest]; [eauto|].
  destruct acc as [|x acc]; [exfalso; apply A; [discriminate|reflexivity]|]. destruct (rev acc); eauto.
Qed.
Definition no_crash {A} (r : res A) : Prop := r <> UB /\ r <> Throw.
Lemma reint_defined fuel : forall prev l ql, no_crash (reinterpolate C LS dist interp ls0 step fuel prev l ql).
Proof.
  induction fuel as [|f IH]; intros prev l ql; cbn [reinterpolate]; [split; discriminate|].
  destruct l as [|n l]; [split; discriminate|]. destruct (qltb step _).
  - match goal with |- no_crash (bind ?r _) => assert (H : no_crash r) by apply IH; destruct r as [[[? ?] ?]| | |] end; cbn [bind]; destruct H; split; congruence.
  - destruct (qltb _ _).
    + destruct l as [|n' l]; [split; discriminate|].
      match goal with |- no_crash (bind ?r _) => assert (H : no_crash r) by apply IH; destruct r as [[[? ?] ?]| | |] end; cbn [bind]; destruct H; split; congruence.
    + match goal with |- no_crash (bind ?r _) => assert (H : no_crash r) by apply IH; destruct r as [[[? ?] ?]| | |] end; cbn [bind]; destruct H; split; congruence.
Qed.
Lemma iterate_defined fuel : forall q0 qe mi mc s n, no_crash (iterate C LS V dist interp one ls0 step jump v0 mem fuel q0 qe mi mc s n).
Proof.
  induction fuel as [|f IH]; intros q0 qe mi mc s n; cbn [iterate]; [split; discriminate|].
  destruct (one_sweep_defined (mem f) q0 qe s) as [[b s1] ->]. cbn [bind]. destruct b; [split; discriminate|].
  destruct (Nat.ltb _ mc).
  - unfold reinterpolated. assert (H := reint_defined f q0 (s_pre C LS s1) (match s_post C LS s1 with [] => qe | n :: _ => n_q C LS n end)).
    destruct (reinterpolate _ _ _ _ _ _ _ _ _ _) as [[[l z] w]| | |]; cbn [bind]; destruct H; try (split; congruence).
    destruct (Nat.ltb mi _); [split; discriminate|apply IH].
  - cbn [bind]. destruct (Nat.ltb mi _); [split; discriminate|apply IH].
Qed.
Lemma build_defined q0 l : sat q0 = true -> Forall (fun x => 0 <= fst x) l -> Forall (fun x => sat (snd x) = true) l ->
  exists m, build C sat q0 l = Ok (Interp m).
Proof.
  intros S0 P F. unfold build.
  set (T := fold_left _ l 0). assert (HT : 0 <= T) by (apply sum_nonneg; [apply Qcle_refl|exact P]).
  assert (SL : sat (snd (last l (0, q0))) = true).
  { clear -S0 F. destruct (exists_last_or_nil l) as [->|(l' & a & ->)]; [exact S0|]. rewrite last_snoc. apply Forall_app in F as [_ F]. inversion F; assumption. }
  cbn [minsert]. qcaselt T 0; [exfalso; revert HT Hc; qc|]. destruct (qltb 0 T); cbn [hd last snd]; rewrite ?S0, ?SL; eexists; reflexivity.
Qed.
Theorem C99_defined fuel mi p : honest -> (forall a b, 0 <= dist a b) -> 0 < step ->
  match points C p with Some l => (2 <= length l)%nat | None => True end ->
  sat (first_of p) = true -> sat (last_of p) = true ->
  (exists ok o, project fuel mi p = Ok (ok, o)) \/ project fuel mi p = Fuel.
Proof.
  intros HON NN HS PT S0 S1. unfold GlobalModel.project. destruct (config_list fuel p) as [[[q0 inner] qe]| | |] eqn:CL; cbn [bind]; [| | |now right].
  - destruct (config_list_ends _ _ _ _ _ CL) as [-> ->]. destruct inner as [|q inner]; [left; eauto|].
    qcaselt 0 step; [|exfalso; revert HS Hc; qc].
    match goal with |- context [iterate C LS V dist interp one ls0 step jump v0 mem fuel ?a ?b mi ?m ?s ?n] =>
      assert (D := iterate_defined fuel a b mi m s n); destruct (iterate C LS V dist interp one ls0 step jump v0 mem fuel a b mi m s n) as [s'| | |] eqn:IT end; cbn [bind];
      [|destruct D; congruence|destruct D; congruence|now right].
    left. unfold create_path. destruct (front _ _ _ _) as [r full] eqn:FR.
    assert (F0 : fine_st C LS sat {| s_pre := map (fresh C LS ls0) (q :: inner); s_post := []; s_l := 0 |}).
    { split; [apply fresh_fine|]. split; [constructor|apply Qcle_refl]. }
    destruct (iterate_fine C LS V dist interp sat one ls0 step jump v0 mem HON NN _ _ _ _ _ _ _ _ F0 IT) as (F1 & F2 & F3).
    assert (FA : Forall (fine C LS sat) (s_pre _ _ s' ++ s_post _ _ s')) by (apply Forall_app; auto).
    destruct (front_fine C LS sat step _ _ _ FA FR) as (G1 & G2 & G3).
    destruct (build_defined (first_of p) (if full then r ++ [(s_l C LS s', last_of p)] else r) S0) as [m ->].
    + destruct full; [|exact G1]. apply Forall_app. split; [exact G1|]. repeat constructor. exact F3.
    + destruct full; [|exact G2]. apply Forall_app. split; [exact G2|]. repeat constructor. exact S1.
    + cbn [bind]. eauto.
  - exfalso. unfold GlobalModel.config_list in CL. destruct (points C p) as [[|a [|b k]]|]; cbn in PT; try lia; try discriminate.
    assert (SD : forall f t, samples C step f p t <> Throw /\ samples C step f p t <> UB).
    { clear. induction f as [|f IH]; intros t; cbn [samples]; [split; discriminate|]. destruct (qltb _ _); [|split; discriminate].
      destruct (IH (t + step * Q2Qc (99 # 100))) as [H1 H2]. destruct (samples _ _ _ _ _); cbn [bind]; split; congruence. }
    destruct (SD fuel step) as [H1 H2]. destruct (samples _ _ _ _ _); cbn [bind] in CL; congruence.
  - exfalso. unfold GlobalModel.config_list in CL. destruct (points C p) as [[|a [|b k]]|]; cbn in PT; try lia; try discriminate.
    assert (SD : forall f t, samples C step f p t <> Throw /\ samples C step f p t <> UB).
    { clear. induction f as [|f IH]; intros t; cbn [samples]; [split; discriminate|]. destruct (qltb _ _); [|split; discriminate].
      destruct (IH (t + step * Q2Qc (99 # 100))) as [H1 H2]. destruct (samples _ _ _ _ _); cbn [bind]; split; congruence. }
    destruct (SD fuel step) as [H1 H2]. destruct (samples _ _ _ _ _); cbn [bind] in CL; congruence.
Qed.
(* It crashes on a path with a single way-point. *)
Theorem C99_single_refuted fuel mi q0 qe L at_ : project fuel mi {| init := q0; fin := qe; len := L; at_ := at_; points := Some [q0]; constrained := true |} = UB.
Proof. reflexivity. Qed.
End Step.

(* ------------------------------------------------------------ with a bound *)
Section Hessian.
Variables step K thrmin : Qc.
Variable maxIter : nat.
Notation project2 := (project2 C LS V dist interp sat one ls0 step K thrmin maxIter).
Notation hreint := (hreint C LS V dist interp one ls0 K thrmin maxIter).
Notation sigma q := (m_sigma _ _ _ (one ls0 q)).

(* the first reinterpolation *)
Lemma first_reint fuel p z s : points C p = None -> hreinterpolate C LS V dist interp one ls0 K thrmin maxIter fuel {| h_pre := initial_datas C LS V dist one ls0 p; h_post := [] |} = Ok (z, s) ->
  sat (fin C p) = true -> (0 < maxIter)%nat ->
  size C LS s = 2%nat \/
  inv C LS V dist sat one K thrmin (init C p) (fin C p) s.
Proof.
  intros PT E S1 MI. unfold hreinterpolate, initial_datas in E. rewrite PT in E. cbn [h_pre h_post] in E.
  set (x0 := init_data C LS V dist one ls0 (init C p) true None) in *.
  set (e := init_data C LS V dist one ls0 (fin C p) true (Some (init C p))) in *.
  destruct fuel as [|f]; [discriminate|]. assert (E' := E). cbn [GlobalModel.hreint] in E.
  destruct (qltb_spec (d_sigma C LS x0) (thrmin * K)) as [L1|L1]; cbn [orb] in E.
  { left. injection E as <- <-. reflexivity. }
  right. exists x0.
  destruct (hreint_spec C LS V dist interp sat one ls0 K thrmin maxIter _ _ _ _ _ _ _ E') as (m & M1 & M2 & M3 & M4 & M5 & M6 & M7 & M8 & _ & M10).
  destruct (M8 L1) as (m1 & Em1); [exact MI|]. cbn [rev app] in Em1, M1. exists m1.
  assert (EM : m1 ++ h_post C LS s = m) by (rewrite Em1 in M1; cbn [app] in M1; injection M1 as M1; exact M1).
  rewrite EM. repeat split; auto.
  - apply M3; [discriminate|]. exists [], e. repeat split; constructor.
  - apply M2. cbn. auto.
  - constructor; [left; exists ls0; reflexivity|]. apply M4. cbn. constructor; [left; exists ls0; reflexivity|constructor].
Qed.
Lemma first_same fuel p z s : points C p = None -> hreinterpolate C LS V dist interp one ls0 K thrmin maxIter fuel {| h_pre := initial_datas C LS V dist one ls0 p; h_post := [] |} = Ok (z, s) ->
  (0 < maxIter)%nat -> size C LS s = 2%nat ->
  thrmin * K <= sigma (init C p) -> thrmin * K <= sigma (fin C p) -> dist (init C p) (fin C p) <= (sigma (init C p) + sigma (fin C p)) / K.
Proof.
  intros PT E MI SZ H0 H1. unfold hreinterpolate, initial_datas in E. rewrite PT in E. cbn [h_pre h_post] in E.
  set (x0 := init_data C LS V dist one ls0 (init C p) true None) in *.
  set (e := init_data C LS V dist one ls0 (fin C p) true (Some (init C p))) in *.
  destruct fuel as [|f]; [discriminate|]. cbn [GlobalModel.hreint] in E.
  destruct (qltb_spec (d_sigma C LS x0) (thrmin * K)) as [L1|L1]; cbn [orb] in E; [exfalso; cbn in L1; revert H0 L1; qc|].
  destruct (Nat.leb_spec maxIter (d_n C LS x0)) as [L2|L2]; [cbn in L2; lia|].
  destruct (qltb_spec (d_sigma C LS e) (thrmin * K)) as [L3|L3]; [exfalso; cbn in L3; revert H1 L3; qc|].
  destruct (qltb_spec ((d_sigma C LS x0 + d_sigma C LS e) / K) (d_len C LS e)) as [L4|L4]; [exfalso|exact L4].
  destruct (hreint f _ _ _ _) as [[z1 s1]| | |] eqn:R; cbn [bind] in E; try discriminate. injection E as <- <-.
  destruct (hreint_spec C LS V dist interp sat one ls0 K thrmin maxIter _ _ _ _ _ _ _ R) as (m & M1 & _ & _ & _ & _ & _ & M7 & _).
  unfold size in SZ. rewrite <- app_length, M1 in SZ. cbn [length app rev] in SZ, M7. lia.
Qed.

Lemma project2_inv fuel p ok l : project2 fuel p = Ok (ok, Interp l) -> points C p = None -> sat (fin C p) = true -> (0 < maxIter)%nat -> honest ->
  exists s x0 rest r b, inv C LS V dist sat one K thrmin (init C p) (fin C p) s /\ (h_post C LS s = [] -> unproj C LS (h_pre C LS s) \/ linked_st C LS K thrmin s) /\
    h_pre C LS s = x0 :: rest /\ hfront C LS rest = (r, b) /\ build C sat (init C p) r = Ok (Interp l) /\ ok = match h_post C LS s with [] => b | _ => false end.
Proof.
  intros E PT S1 MI HON. unfold GlobalModel.project2 in E.
  destruct (hreinterpolate _ _ _ _ _ _ _ _ _ _ _ _) as [[z s]| | |] eqn:R; cbn [bind snd] in E; try discriminate.
  destruct (Nat.eqb_spec (size C LS s) 2) as [SZ|SZ]; [discriminate|]. destruct (qltb 0 step); [|discriminate].
  destruct (first_reint _ _ _ _ PT R S1 MI) as [H|I]; [contradiction|].
  destruct (hiterate _ _ _ _ _ _ _ _ _ _ _ _ _ _) as [s'| | |] eqn:IT; cbn [bind] in E; try discriminate.
  destruct (hiterate_inv C LS V dist interp sat one ls0 K thrmin maxIter HON _ _ _ _ _ _ _ MI I IT) as [I' U].
  unfold hcreate_path in E. destruct I' as (x0 & rest & E0 & Q0 & J). rewrite E0 in E. destruct (hfront C LS rest) as [r b] eqn:FR. rewrite Q0 in E.
  destruct (build _ _ _ _) as [o| | |] eqn:B; cbn [bind] in E; try discriminate. injection E as <- ->.
  exists s', x0, rest, r, b. split; [exists x0, rest; auto|]. repeat split; auto.
Qed.
Lemma hfront_chain rest : forall prev r b, hexact C LS dist prev rest -> hfront C LS rest = (r, b) -> chain C dist prev r.
Proof.
  induction rest as [|x l IH]; intros prev r b H E; cbn [hfront] in E; [injection E as <- <-; exact I|].
  destruct (d_pr C LS x); [|injection E as <- <-; exact I]. destruct (hfront C LS l) as [r1 b1]. injection E as <- <-. destruct H as [H1 H2].
  split; [exact H1|eapply IH; [exact H2|reflexivity]].
Qed.
Lemma hfront_in rest : forall r b x, hfront C LS rest = (r, b) -> In x r -> exists y, In y rest /\ d_pr C LS y = true /\ d_q C LS y = snd x.
Proof.
  induction rest as [|y l IH]; intros r b x E H; cbn [hfront] in E; [injection E as <- <-; destruct H|].
  destruct (d_pr C LS y) eqn:P; [|injection E as <- <-; destruct H]. destruct (hfront C LS l) as [r1 b1]. injection E as <- <-.
  destruct H as [<-|H]; [exists y; repeat split; [left; reflexivity|exact P]|]. destruct (IH _ _ _ eq_refl H) as (w & W1 & W2 & W3). exists w. repeat split; auto. right; exact W1.
Qed.
Lemma ended_sat qe l y : sat qe = true -> ended C LS sat qe l -> In y l -> d_pr C LS y = true -> sat (d_q C LS y) = true.
Proof.
  intros S (inner & e & -> & Q & _ & O) H P. apply in_app_or in H as [H|[->|[]]]; [|congruence]. rewrite Forall_forall in O. apply O; assumption.
Qed.

(* C100: whatever is returned starts at the start, has way-points which satisfy
   the constraints, and distances for parameters. *)
Theorem C100_waypoints fuel p ok l : honest -> proper C dist -> (0 < maxIter)%nat -> points C p = None -> sat (fin C p) = true ->
  project2 fuel p = Ok (ok, Interp l) ->
  hd (1, fin C p) l = (0, init C p) /\ satisfying l /\ timed C dist l.
Proof.
  intros HON PD MI PT S1 E. destruct (project2_inv _ _ _ _ E PT S1 MI HON) as (s & x0 & rest & r & b & (x0' & rest' & E0' & Q0 & N0 & S0 & EN & X & CE) & U & E0 & FR & B & ->).
  rewrite E0 in E0'. injection E0' as <- <-. 
  assert (X1 : hexact C LS dist (init C p) rest) by (apply (hexact_app C LS dist interp K) in X as [X _]; exact X).
  assert (CH := hfront_chain _ _ _ _ X1 FR).
  destruct (build_sat C sat _ _ _ (chain_nonneg C dist PD _ _ CH) B) as [(m' & ->) S].
  destruct (build_exact C dist sat PD (fun _ _ => True) _ _ _ CH B) as (_ & T & _).
  split; [reflexivity|]. split; [|exact T]. apply S. apply Forall_forall. intros x Hx. apply removelast_incl in Hx.
  destruct (hfront_in _ _ _ _ FR Hx) as (y & Y1 & Y2 & Y3). rewrite <- Y3. eapply ended_sat; [exact S1|exact EN| |exact Y2]. apply in_or_app. left; exact Y1.
Qed.
(* After a success, it ends at the end and consecutive way-points are
   certified. *)
Theorem C100_certified fuel p l : honest -> proper C dist -> (0 < maxIter)%nat -> points C p = None -> sat (fin C p) = true ->
  project2 fuel p = Ok (true, Interp l) ->
  snd (last l (0, init C p)) = fin C p /\ linked (fun a b => certified K thrmin (snd a) (snd b)) l.
Proof.
  intros HON PD MI PT S1 E. destruct (project2_inv _ _ _ _ E PT S1 MI HON) as (s & x0 & rest & r & b & (x0' & rest' & E0' & Q0 & N0 & S0 & EN & X & CE) & U & E0 & FR & B & OK).
  rewrite E0 in E0'. injection E0' as <- <-. destruct (h_post C LS s) as [|y post] eqn:P; [|discriminate]. subst b.
  destruct (hfront_full C LS _ _ _ FR eq_refl) as [-> FP]. rewrite app_nil_r in *.
  assert (CH := hexact_chain C LS dist _ _ X).
  destruct (build_exact C dist sat PD (reach C LS V dist one K thrmin) _ _ _ CH B) as (L & _ & _ & LK). split.
  - rewrite L. destruct EN as (inner & e & -> & QE & _). rewrite map_app. cbn [map]. rewrite last_snoc. exact QE.
  - refine (LK _). rewrite <- Q0. apply near_rchain; [rewrite Q0; exact X|exact CE|].
    destruct (U eq_refl) as [N|L0]; [exfalso|unfold linked_st in L0; rewrite E0 in L0; exact L0].
    rewrite E0 in N. inversion N as [? ? H|? ? H]; subst.
    + destruct N0 as [_ N0]. congruence.
    + apply Exists_exists in H as (w & W1 & W2). rewrite Forall_forall in FP. rewrite (FP _ W1) in W2. discriminate.
Qed.
(* The path is given back, with success, when its ends are certified; *)
Theorem C100_same_partial fuel p ok : (0 < maxIter)%nat -> points C p = None ->
  thrmin * K <= sigma (init C p) -> thrmin * K <= sigma (fin C p) ->
  project2 fuel p = Ok (ok, Same) -> ok = true /\ certified K thrmin (init C p) (fin C p).
Proof.
  intros MI PT H0 H1 E. unfold GlobalModel.project2 in E.
  destruct (hreinterpolate _ _ _ _ _ _ _ _ _ _ _ _) as [[z s]| | |] eqn:R; cbn [bind snd] in E; try discriminate.
  destruct (Nat.eqb_spec (size C LS s) 2) as [SZ|SZ].
  - injection E as <-. split; [reflexivity|]. exists (sigma (init C p)), (sigma (fin C p)).
    split; [left; exists ls0; reflexivity|]. split; [left; exists ls0; reflexivity|]. split; [exact H0|]. split; [exact H1|].
    eapply first_same; eassumption.
  - destruct (qltb 0 step); [|discriminate]. destruct (hiterate _ _ _ _ _ _ _ _ _ _ _ _ _ _) as [s'| | |]; cbn [bind] in E; try discriminate.
    unfold hcreate_path in E. destruct (h_pre C LS s') as [|x l]; [discriminate|]. destruct (hfront C LS l) as [r b]. unfold build in E.
    destruct (sat _ && sat _); discriminate.
Qed.
(* and also, without any projection, when one of its ends is singular. *)
Theorem C100_singular_refuted fuel p : points C p = None ->
  sigma (init C p) < thrmin * K \/ ((0 < maxIter)%nat /\ sigma (fin C p) < thrmin * K) ->
  project2 (S fuel) p = Ok (true, Same).
Proof.
  intros PT H. unfold GlobalModel.project2, hreinterpolate, initial_datas. rewrite PT. cbn [h_pre h_post GlobalModel.hreint].
  set (x0 := init_data C LS V dist one ls0 (init C p) true None).
  set (e := init_data C LS V dist one ls0 (fin C p) true (Some (init C p))).
  destruct (qltb_spec (d_sigma C LS x0) (thrmin * K)) as [L1|L1]; [reflexivity|]. cbn [orb].
  destruct H as [H|[MI H]]; [exfalso; cbn in L1; revert L1 H; qc|].
  destruct (Nat.leb_spec maxIter (d_n C LS x0)) as [L2|L2]; [cbn in L2; lia|].
  destruct (qltb_spec (d_sigma C LS e) (thrmin * K)) as [L3|L3]; [reflexivity|exfalso; cbn in L3; revert L3 H; qc].
Qed.
(* It is defined. *)
Lemma hreint_defined fuel acc prev l post : no_crash (hreint fuel acc prev l post).
Proof.
  revert acc prev l post. induction fuel as [|f IH]; intros acc prev l post; cbn [GlobalModel.hreint]; [split; discriminate|].
  destruct l as [|x l]; [split; discriminate|]. destruct (qltb _ _ || _); [split; discriminate|]. destruct (qltb _ _); [split; discriminate|].
  destruct (qltb _ _); [|apply IH]. match goal with |- no_crash (bind ?r _) => assert (H : no_crash r) by apply IH; destruct r end; cbn [bind]; destruct H; split; congruence.
Qed.
Theorem C100_defined fuel p : honest -> proper C dist -> 0 < step -> (0 < maxIter)%nat -> points C p = None ->
  sat (init C p) = true -> sat (fin C p) = true ->
  (exists ok o, project2 fuel p = Ok (ok, o)) \/ project2 fuel p = Fuel.
Proof.
  intros HON PD HS MI PT S0 S1. unfold GlobalModel.project2.
  destruct (hreinterpolate _ _ _ _ _ _ _ _ _ _ _ _) as [[z s]| | |] eqn:R; cbn [bind snd]; [| | |now right].
  - destruct (Nat.eqb_spec (size C LS s) 2) as [SZ|SZ]; [left; eauto|]. qcaselt 0 step; [|exfalso; revert HS Hc; qc].
    destruct (first_reint _ _ _ _ PT R S1 MI) as [H|I]; [contradiction|].
    match goal with |- context [hiterate C LS V dist interp one ls0 K thrmin maxIter fuel ?m s ?n] =>
      destruct (hiterate_defined C LS V dist interp sat one ls0 K thrmin maxIter HON fuel _ _ m s n MI I) as [D1 D2];
      destruct (hiterate C LS V dist interp one ls0 K thrmin maxIter fuel m s n) as [s'| | |] eqn:IT end; cbn [bind]; [|congruence|congruence|now right].
    destruct (hiterate_inv C LS V dist interp sat one ls0 K thrmin maxIter HON _ _ _ _ _ _ _ MI I IT) as [(x0 & rest & E0 & Q0 & _ & _ & EN & X & _) _].
    unfold hcreate_path. rewrite E0. destruct (hfront C LS rest) as [r b] eqn:FR. rewrite Q0. left.
    assert (X1 : hexact C LS dist (init C p) rest) by (apply (hexact_app C LS dist interp K) in X as [X _]; exact X).
    destruct (build_defined (init C p) r S0) as [m ->]; [exact (chain_nonneg C dist PD _ _ (hfront_chain _ _ _ _ X1 FR))| |cbn [bind]; eauto].
    apply Forall_forall. intros x Hx. destruct (hfront_in _ _ _ _ FR Hx) as (y & Y1 & Y2 & Y3). rewrite <- Y3.
    eapply ended_sat; [exact S1|exact EN| |exact Y2]. apply in_or_app. left; exact Y1.
  - exfalso. unfold hreinterpolate, initial_datas in R. rewrite PT in R. cbn [h_pre h_post] in R. exact (proj2 (hreint_defined _ _ _ _ _) R).
  - exfalso. unfold hreinterpolate, initial_datas in R. rewrite PT in R. cbn [h_pre h_post] in R. exact (proj1 (hreint_defined _ _ _ _ _) R).
Qed.
End Hessian.

(* Without constraints the path is given back; otherwise the bound chooses. *)
Theorem C99_unconstrained fuel mi step thr K jump v0 mem p : constrained C p = false ->
  global_apply C LS V dist interp sat one ls0 fuel mi step thr K jump v0 mem p = Ok (true, Same).
Proof. intros H. unfold global_apply. rewrite H. reflexivity. Qed.
Theorem C99_choice fuel mi step thr K jump v0 mem p : constrained C p = true ->
  global_apply C LS V dist interp sat one ls0 fuel mi step thr K jump v0 mem p =
    if qltb 0 K then project2 C LS V dist interp sat one ls0 step K thr mi fuel p
    else project C LS V dist interp sat one ls0 step jump v0 mem fuel mi p.
Proof. intros H. unfold global_apply. rewrite H. cbn [negb]. unfold qltb. destruct (qleb K 0); reflexivity. Qed.
End Props.

(* ------------------------------------------------------ counterexamples *)
(* One dimension. *)
Definition Z2 (z : Z) : Qc := Q2Qc (inject_Z z).
Definition qabs (x : Qc) : Qc := if qltb x 0 then - x else x.
Definition dist1 (a b : Qc) : Qc := qabs (a - b).
Definition interp1 (a b t : Qc) : Qc := a + t * (b - a).
Lemma dist1_proper : proper Qc dist1.
Proof.
  unfold dist1, qabs. split; intros a b; qcaselt (a - b) 0; revert Hc; qc.
Qed.
Definition sgn (x : Qc) : Qc := if qltb 0 x then 1 else if qltb x 0 then - (1) else 0.
(* l.270-308 of global.cc in dimension one, cosines are products of signs *)
Definition jump1 (cur other dcur dother : Qc) : bool :=
  let q := cur - other in
  (negb (qltb (qabs q) (Q2Qc (1 # 1000000000000))) && qltb (Z2 16) (1 - Z2 2 * (q * (dcur - dother)) / (q * q) + q * q / (q * q))) ||
  (qltb (Q2Qc (1 # 2)) (sgn dcur * sgn q) && qltb (sgn dother * sgn q) (- Q2Qc (1 # 2))).
(* a solver which sends [a, b] to 0 and the rest to 10, in one step *)
Definition solver (c : Qc) (_ : unit) (q : Qc) : move Qc unit Qc :=
  let r := if qltb q c then 0 else Z2 10 in
  {| m_ok := true; m_q := r; m_ls := tt; m_dq := r - q; m_sigma := 1 |}.
Definition sat1 (q : Qc) : bool := qeqb q 0 || qeqb q (Z2 10).
Definition line : path Qc := {| init := 0; fin := Z2 10; len := Z2 10; at_ := fun t => t; points := None; constrained := true |}.
Lemma solver_honest c : honest Qc unit Qc sat1 (solver c).
Proof. intros a q _. unfold solver, sat1. cbn [m_q]. destruct (qltb q c); reflexivity. Qed.

(* The distance of the last way-point to the end is not looked at: a success
   with a gap greater than the step.  No discontinuity is detected. *)
Theorem C99_gap_refuted :
  honest Qc unit Qc sat1 (solver (Z2 9)) /\ proper Qc dist1 /\
  project Qc unit Qc dist1 interp1 sat1 (solver (Z2 9)) tt (Z2 3) (fun _ _ _ _ => false) 0 (fun _ => (0, 0)) 50 10 line = Ok (true, Interp Qc [(0, 0); (Z2 10, Z2 10)]) /\
  project Qc unit Qc dist1 interp1 sat1 (solver (Z2 9)) tt (Z2 3) jump1 0 (fun _ => (0, 0)) 50 10 line = Ok (true, Interp Qc [(0, 0); (Z2 10, Z2 10)]) /\
  ~ spaced Qc dist1 (Z2 3) [(0, 0); (Z2 10, Z2 10)].
Proof.
  split; [apply solver_honest|]. split; [apply dist1_proper|]. split; [vm_compute; reflexivity|]. split; [vm_compute; reflexivity|].
  intros [H _]. vm_compute in H. apply H. reflexivity.
Qed.
(* When a discontinuity is detected the points before it are moved again and
   the rest is kept as it is, with distances which were not computed: a success
   although the path does not reach its end. *)
Theorem C99_discontinuity_refuted :
  honest Qc unit Qc sat1 (solver (Z2 8)) /\
  project Qc unit Qc dist1 interp1 sat1 (solver (Z2 8)) tt (Z2 3) jump1 0 (fun _ => (0, 0)) 50 10 line = Ok (true, Interp Qc [(0, 0)]) /\
  last_of Qc line = Z2 10.
Proof. split; [apply solver_honest|]. split; vm_compute; reflexivity. Qed.

(* With a bound, projecting an interpolated path writes past its end. *)
Definition broken : path Qc := {| init := 0; fin := Z2 10; len := Z2 10; at_ := fun t => t; points := Some [0; Z2 5; Z2 10]; constrained := true |}.
Theorem C100_interpolated_refuted :
  honest Qc unit Qc sat1 (solver (Z2 9)) /\ proper Qc dist1 /\
  project2 Qc unit Qc dist1 interp1 sat1 (solver (Z2 9)) tt (Z2 3) (Q2Qc (1 # 10)) (Q2Qc (1 # 10)) 10 50 broken = UB.
Proof. split; [apply solver_honest|]. split; [apply dist1_proper|]. vm_compute. reflexivity. Qed.

(* ---------------------------------------------------------------- examples *)
(* the constraint: to be an integer; the solver fails from [c] on *)
Definition whole (q : Qc) : bool := qeqb q (Z2 (Qfloor (this q))).
Definition floor_solver (c : Qc) (_ : unit) (q : Qc) : move Qc unit Qc :=
  let r := Z2 (Qfloor (this q)) in
  {| m_ok := qltb q c; m_q := r; m_ls := tt; m_dq := r - q; m_sigma := 1 |}.
Lemma floor_honest c : honest Qc unit Qc whole (floor_solver c).
Proof.
  intros a q _. unfold floor_solver, whole. cbn [m_q].
  assert (E : Qfloor (this (Z2 (Qfloor (this q)))) = Qfloor (this q)).
  { unfold Z2. cbn [this Q2Qc]. rewrite (Qfloor_comp _ _ (Qred_correct _)). apply Qfloor_Z. }
  rewrite E. qcaseeq (Z2 (Qfloor (this q))) (Z2 (Qfloor (this q))); [reflexivity|congruence].
Qed.
Example C99_success_example :
  project Qc unit Qc dist1 interp1 whole (floor_solver (Z2 100)) tt (Z2 3) (fun _ _ _ _ => false) 0 (fun _ => (0, 0)) 50 10 line =
    Ok (true, Interp Qc [(0, 0); (Z2 3, Z2 3); (Z2 5, Z2 5); (Z2 8, Z2 8); (Z2 10, Z2 10)]).
Proof. vm_compute. reflexivity. Qed.
Example C99_failure_example :
  project Qc unit Qc dist1 interp1 whole (floor_solver (Z2 6)) tt (Z2 3) (fun _ _ _ _ => false) 0 (fun _ => (0, 0)) 50 10 line =
    Ok (false, Interp Qc [(0, 0); (Z2 3, Z2 3); (Z2 5, Z2 5)]).
Proof. vm_compute. reflexivity. Qed.
Example C100_certified_example :
  project2 Qc unit Qc dist1 interp1 whole (floor_solver (Z2 100)) tt (Z2 3) (Q2Qc (1 # 2)) (Q2Qc (1 # 10)) 10 50 line =
    Ok (true, Interp Qc [(0, 0); (Z2 2, Z2 2); (Z2 4, Z2 4); (Z2 6, Z2 6); (Z2 10, Z2 10)]).
Proof. vm_compute. reflexivity. Qed.

Print Assumptions C99_waypoints.
Print Assumptions C99_success_partial.
Print Assumptions C99_failure.
Print Assumptions C99_same.
Print Assumptions C99_short.
Print Assumptions C99_defined.
Print Assumptions C99_single_refuted.
Print Assumptions C99_gap_refuted.
Print Assumptions C99_discontinuity_refuted.
Print Assumptions C99_unconstrained.
Print Assumptions C99_choice.
Print Assumptions C100_waypoints.
Print Assumptions C100_certified.
Print Assumptions C100_same_partial.
Print Assumptions C100_defined.
Print Assumptions C100_singular_refuted.
Print Assumptions C100_interpolated_refuted.
