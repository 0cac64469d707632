(* C105 *)
From Coq Require Import Sorted.
From Verif Require Import Base RoadSerModel RoadSerSpec RoadSerProofs.
Open Scope nat_scope.

Section S.
Context {Q P D : Type} (path_ok : P -> bool).
Notation save := (save_roadmap Q P D path_ok).
Notation load := (load_roadmap Q P D).
Implicit Type h : nat -> option (object Q P D).

Lemma save_inv h fuel root ts : save h fuel root = Ok ts ->
  exists met, save_ptr Q P D path_ok h fuel [] (Some root) = Ok (met, ts).
Proof.
  unfold save_roadmap. destruct (save_ptr Q P D path_ok h fuel [] (Some root)) as [[m t]| | |]; try discriminate.
  cbn. intros [= <-]. eauto.
Qed.
Lemma met_all h fuel root met ts : save_ptr Q P D path_ok h fuel [] (Some root) = Ok (met, ts) ->
  NoDup met /\ (forall a, In a met -> done path_ok h met a) /\ (forall a, In a met <-> reachable h root a) /\
  forall fuel' rest, fuel <= fuel' ->
    load_ptr Q P D fuel' [] (ts ++ rest) = Some (map (ren_at h (pos met)) met, Some (pos met root), rest).
Proof.
  intros E. destruct (save_spec path_ok h _ _ _ _ _ E (NoDup_nil _)) as (e & -> & N & I & DD & R & L). cbn [app] in *.
  split; [exact N|]. split; [exact DD|]. split.
  - intros a. split.
    + intros H. destruct (R a H) as (r & [= <-] & Hr). exact Hr.
    + induction 1 as [|a b Ha IH (o & l & E1 & Hl & Hb)]; [apply I; reflexivity|].
      destruct (DD a IH) as (o' & E2 & _ & C). assert (o' = o) as -> by congruence. apply C, in_concat. eauto.
  - intros fuel' rest F. rewrite L; [reflexivity|exact F|reflexivity].
Qed.

(* The loaded roadmap is a copy of the saved one: same configurations, paths,
   distance, and the same pointers between nodes, edges, components, initial
   and goal nodes. *)
Theorem C105_copy h fuel root ts : save h fuel root = Ok ts ->
  exists f, forall fuel', fuel <= fuel' ->
    exists h2 r2, load fuel' ts = Some (h2, r2) /\ copy_of f h root h2 r2.
Proof.
  intros E. destruct (save_inv _ _ _ _ E) as (met & S). destruct (met_all _ _ _ _ _ S) as (N & DD & R & L).
  exists (pos met). intros fuel' F. unfold load_roadmap.
  specialize (L fuel' [] F). rewrite app_nil_r in L. rewrite L.
  do 2 eexists. split; [reflexivity|].
  assert (forall a, In a met -> nth_error met (pos met a) = Some a) as NP.
  { intros a Ia. destruct (in_index _ _ Ia) as [i Ei]. unfold pos. rewrite Ei. apply (index_in _ _ _ Ei). }
  split; [reflexivity|]. split; [|split].
  - intros a b Ra Rb Eq. apply R in Ra, Rb. apply NP in Ra, Rb. congruence.
  - intros a Ra. apply R in Ra. destruct (DD a Ra) as (o & Ho & _). exists o. split; [exact Ho|].
    cbv beta. rewrite (map_nth_error _ _ _ (NP a Ra)). unfold ren_at. rewrite Ho. reflexivity.
  - intros i o Hi. cbv beta in Hi. destruct (nth_error (map (ren_at h (pos met)) met) i) as [x|] eqn:X; [|discriminate].
    rewrite nth_error_map in X. destruct (nth_error met i) as [a|] eqn:Ea; [|discriminate].
    exists a. assert (In a met) as Ia by (eapply nth_error_In; eauto). split; [apply R, Ia|].
    apply (proj1 (NoDup_nth_error met) N).
    + pose proof (NP a Ia) as Y. apply nth_error_Some. congruence.
    + rewrite (NP a Ia). symmetry. exact Ea.
Qed.

Lemma unmet_le dom met : unmet dom met <= length dom.
Proof. unfold unmet. induction dom as [|x l IH]; [apply Nat.le_refl|]. cbn [filter]. destruct (index x met); cbn [length]; lia. Qed.

(* A roadmap in memory, whose paths can be saved and without kd-tree, is saved
   in finite time. *)
Theorem C105_saves h dom root fuel : closed h dom -> In root dom -> length dom <= fuel ->
  (forall a o, In a dom -> h a = Some o -> pay_ok Q P D path_ok (o_pay o) = true) ->
  exists ts, save h fuel root = Ok ts.
Proof.
  intros C I F K. unfold save_roadmap.
  destruct (save_total path_ok h dom C fuel [] (Some root)) as [[[m t] E]|[E (a & o & Ia & Ho & B)]].
  - pose proof (unmet_le dom []). lia.
  - intros a [= <-]. exact I.
  - constructor.
  - rewrite E. cbn. eauto.
  - rewrite (K a o Ia Ho) in B. discriminate.
Qed.

(* If an edge has a path which cannot be saved, or with a kd-tree, an exception
   is thrown. *)
Theorem C105_refuses h dom root fuel a o : closed h dom -> In root dom -> length dom <= fuel ->
  reachable h root a -> h a = Some o ->
  ((exists d, o_pay o = PRoadmap d NNKdTree) \/ (exists p, o_pay o = PEdge p /\ path_ok p = false)) ->
  save h fuel root = Throw.
Proof.
  intros C I F Ra Ho B.
  assert (pay_ok Q P D path_ok (o_pay o) = false) as NB by (destruct B as [[d ->]|(p & -> & X)]; [reflexivity|exact X]).
  unfold save_roadmap.
  destruct (save_total path_ok h dom C fuel [] (Some root)) as [[[m t] E]|[E _]].
  - pose proof (unmet_le dom []). lia.
  - intros x [= <-]. exact I.
  - constructor.
  - exfalso. destruct (met_all _ _ _ _ _ E) as (N & DD & R & L).
    destruct (DD a (proj2 (R a) Ra)) as (o' & Ho' & K & _). congruence.
  - rewrite E. reflexivity.
Qed.

(* In the copy the same nodes are connected. *)
Theorem C105_connected f h1 r1 h2 r2 a b : copy_of f h1 r1 h2 r2 -> reachable h1 r1 a -> reachable h1 r1 b ->
  connected h1 a b <-> connected h2 (f a) (f b).
Proof.
  intros (_ & Inj & Cp & _) Ra Rb. split.
  - intros H. revert Ra. clear Rb. induction H as [a|a b c (q & out_ & rest & e & p & n1 & Ha & Ie & He) Hbc IH]; intros Ra.
    { constructor. }
    assert (reachable h1 r1 e) as Re.
    { eapply rb_step; [exact Ra|]. exists (mkObj (PNode q) (out_ :: rest)), out_. cbn. auto. }
    assert (reachable h1 r1 b) as Rb.
    { eapply rb_step; [exact Re|]. exists (mkObj (PEdge p) [[n1]; [Some b]]), [Some b]. cbn. auto. }
    destruct (Cp a Ra) as (oa & Ea & Fa). destruct (Cp e Re) as (oe & Ee & Fe).
    rewrite Ha in Ea. injection Ea as <-. rewrite He in Ee. injection Ee as <-.
    apply cn_step with (b := f b); [|auto].
    exists q, (map (option_map f) out_), (map (map (option_map f)) rest), (f e), p, (option_map f n1).
    split; [exact Fa|]. split; [|exact Fe]. apply in_map_iff. exists (Some e). auto.
  - remember (f a) as x eqn:Ex. remember (f b) as y eqn:Ey. intros H. revert a Ex Ra.
    induction H as [x|x y z (q & out_ & rest & e & p & n1 & Ha & Ie & He) Hbc IH]; intros a Ex Ra.
    { subst x. rewrite (Inj a b); [constructor|assumption|assumption|congruence]. }
    subst x. destruct (Cp a Ra) as (oa & Ea & Fa). rewrite Fa in Ha.
    destruct oa as [pa la]. cbn [o_pay o_ptrs] in Ha. destruct la as [|o0 r0]; [discriminate|].
    cbn [map] in Ha. injection Ha as -> <- <-.
    apply in_map_iff in Ie. destruct Ie as ([e0|] & [= <-] & Ie).
    assert (reachable h1 r1 e0) as Re.
    { eapply rb_step; [exact Ra|]. exists (mkObj (PNode q) (o0 :: r0)), o0. cbn. auto. }
    destruct (Cp e0 Re) as (oe & Ee & Fe). rewrite Fe in He.
    destruct oe as [pe le]. cbn [o_pay o_ptrs] in He.
    destruct le as [|l1 [|l2 [|]]]; try discriminate. cbn [map] in He. injection He as -> E1 E2.
    destruct l1 as [|m1 [|]]; try discriminate. destruct l2 as [|[m2|] [|]]; try discriminate.
    cbn in E2. injection E2 as E2. subst y.
    assert (reachable h1 r1 m2) as Rm.
    { eapply rb_step; [exact Re|]. exists (mkObj (PEdge p) [[m1]; [Some m2]]), [Some m2]. cbn. auto. }
    apply cn_step with (b := m2); [|apply IH; auto].
    exists q, o0, r0, e0, p, m1. auto.
Qed.
End S.

(* Three components, an edge from a node of the first to a node of the third. *)
Definition ex_heap (a : nat) : option (object nat nat nat) :=
  nth_error [roadmap_obj nat nat nat 9 NNBasic [1; 2; 3] [4; 5; 6] [7] (Some 4) [6];
             comp_obj nat nat nat [4] [] [3]; comp_obj nat nat nat [5] [] []; comp_obj nat nat nat [6] [1] [];
             node_obj nat nat nat 40 [7] [] 1; node_obj nat nat nat 50 [] [] 2; node_obj nat nat nat 60 [] [7] 3;
             edge_obj nat nat nat 70 4 6] a.
Definition ex_ok (p : nat) := Nat.eqb p 70.

Definition ex_ts : list (rtok nat nat nat) :=
  Eval vm_compute in match save_roadmap nat nat nat ex_ok ex_heap 8 0 with Ok ts => ts | _ => [] end.
Definition ex_table : list (option (object nat nat nat)) :=
  Eval vm_compute in match load_ptr nat nat nat 8 [] ex_ts with Some (t, _, _) => t | None => [] end.
Lemma ex_loaded : load_ptr nat nat nat 8 [] ex_ts = Some (ex_table, Some 0, []).
Proof. vm_compute. reflexivity. Qed.

(* Components are numbered as they are created and listed by number: in the
   loaded roadmap the third comes before the second. *)
Theorem C105_component_order_refuted : exists (h : nat -> option (object nat nat nat)) root fuel ts h2 o ccs,
  h root = Some o /\ (exists rest, o_ptrs o = map Some [1; 2; 3] :: rest) /\
  save_roadmap nat nat nat ex_ok h fuel root = Ok ts /\ load_roadmap nat nat nat fuel ts = Some (h2, 0) /\
  (exists o2 rest, h2 0 = Some o2 /\ o_ptrs o2 = map Some ccs :: rest) /\ ~ StronglySorted lt ccs.
Proof.
  exists ex_heap, 0, 8, ex_ts, (fun i => match nth_error ex_table i with Some o => o | None => None end),
    (roadmap_obj nat nat nat 9 NNBasic [1; 2; 3] [4; 5; 6] [7] (Some 4) [6]), [1; 6; 5].
  split; [reflexivity|]. split; [eexists; reflexivity|].
  split; [vm_compute; reflexivity|]. split; [unfold load_roadmap; rewrite ex_loaded; reflexivity|]. split.
  - do 2 eexists. split; reflexivity.
  - intros S. inversion S as [|x l S1 _]; subst. inversion S1 as [|x l _ F]; subst. inversion F; subst. lia.
Qed.

Example C105_example :
  closed ex_heap [0; 1; 2; 3; 4; 5; 6; 7] /\
  (forall a o, In a [0; 1; 2; 3; 4; 5; 6; 7] -> ex_heap a = Some o -> pay_ok nat nat nat ex_ok (o_pay o) = true) /\
  reachable ex_heap 0 7 /\ connected ex_heap 4 6 /\ ~ connected ex_heap 6 4.
Proof.
  split; [|split; [|split; [|split]]].
  - intros a Ha. repeat destruct Ha as [<-|Ha]; try destruct Ha; (eexists; split; [reflexivity|]); cbn;
      intros l b Hl Hb; repeat (destruct Hl as [<-|Hl]); try destruct Hl; cbn in Hb;
      repeat (destruct Hb as [[= <-]|Hb]); try destruct Hb; auto 10.
  - intros a o Ha. repeat destruct Ha as [<-|Ha]; try destruct Ha; intros [= <-]; reflexivity.
  - eapply rb_step with (a := 4).
    + eapply rb_step; [constructor|]. do 2 eexists. split; [reflexivity|]. split; [right; left; reflexivity|]. left. reflexivity.
    + do 2 eexists. split; [reflexivity|]. split; [left; reflexivity|]. left. reflexivity.
  - apply cn_step with (b := 6); [|constructor]. exists 40, [Some 7]. do 4 eexists.
    split; [reflexivity|]. split; [left; reflexivity|]. reflexivity.
  - intros H. inversion H as [|a b c E _]; subst. destruct E as (q & out_ & rest & e & p & n1 & Ha & Ie & _).
    injection Ha as <- <- <-. destruct Ie.
Qed.

Print Assumptions C105_copy.
Print Assumptions C105_saves.
Print Assumptions C105_refuses.
Print Assumptions C105_connected.
Print Assumptions C105_component_order_refuted.
