(* Property theorems for C36: constraint sets. *)
From Verif Require Import Base ConsSetModel ConsSetSpec.

Fixpoint run (s : cset) (h : list constraint) : res cset :=
  match h with
  | [] => Ok s
  | c :: r => bind (addConstraint s c) (fun st => run (fst st) r)
  end.

Fixpoint constraint_ind' (P : constraint -> Prop) (Hp : forall i, P (CProj i)) (Ho : forall i, P (COther i))
  (Hs : forall l o, Forall P l -> P (CSet l o)) (c : constraint) : P c :=
  match c with
  | CProj i => Hp i
  | COther i => Ho i
  | CSet l o => Hs l o ((fix loop (l : list constraint) : Forall P l :=
      match l with [] => Forall_nil _ | x :: r => Forall_cons _ (constraint_ind' P Hp Ho Hs x) (loop r) end) l)
  end.

(* the set that holds exactly the accepted constraints *)
Definition holds (t : nat) (acc : list constraint) (s : cset) : Prop :=
  (existsb is_proj acc = false /\ constraints s = CProj t :: acc /\ configProjI s = None) \/
  (exists a id b, acc = a ++ CProj id :: b /\ existsb is_proj a = false /\ existsb is_proj b = false /\
     constraints s = acc /\ configProjI s = Some (length a)).

Lemma offer_app l1 : forall acc l2, offer acc (l1 ++ l2) =
  let (a, t) := offer acc l1 in if t : bool then (a, t) else offer a l2.
Proof.
  induction l1 as [|c l1 IH]; intros acc l2; [reflexivity|]. cbn [app offer].
  destruct (is_proj c && existsb is_proj acc); [reflexivity|apply IH].
Qed.

Lemma add_offer t c : forall s acc, holds t acc s ->
  exists s', addConstraint s c = Ok (s', snd (offer acc (leaves c))) /\ holds t (fst (offer acc (leaves c))) s'.
Proof.
  induction c as [i|i|l o IH] using constraint_ind'; intros s acc Hs.
  - cbn [addConstraint leaves offer is_proj andb]. destruct Hs as [(H1 & H2 & H3)|(a & id & b & E & Ha & Hb & H2 & H3)].
    + rewrite H3, H2, H1. cbn [fst snd]. eexists. split; [reflexivity|]. right. exists acc, i, []. cbn. auto.
    + rewrite H3. assert (Ex : existsb is_proj acc = true) by (rewrite E, existsb_app; cbn; apply orb_true_r).
      rewrite Ex. cbn [fst snd]. exists s. split; [reflexivity|]. right. exists a, id, b. auto.
  - cbn [addConstraint leaves offer is_proj andb fst snd]. eexists. split; [reflexivity|].
    destruct Hs as [(H1 & H2 & H3)|(a & id & b & E & Ha & Hb & H2 & H3)].
    + left. cbn [constraints configProjI]. rewrite existsb_app, H1, H2. auto.
    + right. exists a, id, (b ++ [COther i]). cbn [constraints configProjI].
      rewrite existsb_app, Hb, H2, E, <- app_assoc. auto.
  - cbn [addConstraint leaves]. revert s acc Hs. induction l as [|x l IHl]; intros s acc Hs.
    + cbn [flat_map offer fst snd]. exists s. auto.
    + inversion IH as [|? ? Hx Hl]; subst. cbn [flat_map]. rewrite offer_app.
      destruct (Hx s acc Hs) as (s1 & E1 & H1). rewrite E1. destruct (offer acc (leaves x)) as [a t'] eqn:Eo.
      cbn [bind fst snd] in *. destruct t'; [exists s1; auto|]. cbn [fst snd]. apply IHl; assumption.
Qed.

Lemma run_holds t h : forall s acc, holds t acc s -> exists s', run s h = Ok s' /\ holds t (accepted_by acc h) s'.
Proof.
  induction h as [|c h IH]; intros s acc Hs; cbn [run accepted_by]; [exists s; auto|].
  destruct (add_offer t c s acc Hs) as (s1 & E & H1). rewrite E. cbn [bind fst]. apply IH. exact H1.
Qed.
Lemma holds_create t : holds t [] (create t).
Proof. left. auto. Qed.

Lemma find_app_none a b : existsb is_proj a = false -> find is_proj (a ++ b) = find is_proj b.
Proof.
  induction a as [|x a IH]; [reflexivity|]. cbn [existsb app find]. destruct (is_proj x); [discriminate|]. exact IH.
Qed.
Lemma holds_proj t acc s : holds t acc s ->
  configProjector s = Ok (the_proj acc) /\
  configProj_ s = Ok (match the_proj acc with Some id => id | None => t end) /\
  constraints s = (match the_proj acc with Some _ => [] | None => [CProj t] end) ++ acc /\
  length (filter is_proj acc) <= 1.
Proof.
  assert (F : forall l, existsb is_proj l = false -> filter is_proj l = []).
  { induction l as [|x l IH]; [reflexivity|]. cbn. destruct (is_proj x); [discriminate|exact IH]. }
  intros [(H1 & H2 & H3)|(a & id & b & E & Ha & Hb & H2 & H3)]; unfold configProjector, configProj_, the_proj.
  - pose proof (find_app_none acc [] H1) as Ef. rewrite app_nil_r in Ef. cbn [find] in Ef.
    rewrite H3, Ef, H2, (F _ H1). cbn. repeat split. lia.
  - rewrite E, (find_app_none a _ Ha). cbn [find is_proj]. rewrite H3, H2, E.
    rewrite nth_error_app2, Nat.sub_diag by lia. cbn [nth_error as_proj bind app].
    rewrite filter_app, (F _ Ha). cbn [filter is_proj app length]. rewrite (F _ Hb). cbn [length]. repeat split; try lia.
Qed.

(* After any history of additions (exceptions caught by the caller) the set
   contains the accepted constraints, in order, preceded by the projector
   without constraint iff no projector was accepted; configProjector() is the
   accepted projector or null, and the (un)compress operations always find a
   projector.  No undefined behaviour. *)
Theorem C36_history :
  forall t h, exists s, run (create t) h = Ok s /\
    let acc := accepted_by [] h in
    configProjector s = Ok (the_proj acc) /\
    configProj_ s = Ok (match the_proj acc with Some id => id | None => t end) /\
    constraints s = (match the_proj acc with Some _ => [] | None => [CProj t] end) ++ acc /\
    length (filter is_proj acc) <= 1.
Proof.
  intros t h. destruct (run_holds t h (create t) [] (holds_create t)) as (s & E & H).
  exists s. split; [exact E|]. apply holds_proj. exact H.
Qed.

(* adding a projector: refused, the set unchanged, iff there is one already;
   adding another kind of constraint never fails *)
Theorem C36_single_projector :
  forall t h s id, run (create t) h = Ok s ->
    (configProjector s = Ok None ->
       exists s', addConstraint s (CProj id) = Ok (s', false) /\ configProjector s' = Ok (Some id)) /\
    (forall id', configProjector s = Ok (Some id') -> addConstraint s (CProj id) = Ok (s, true)) /\
    (exists s', addConstraint s (COther id) = Ok (s', false) /\ configProjector s' = configProjector s).
Proof.
  intros t h s id E. destruct (run_holds t h (create t) [] (holds_create t)) as (s0 & E0 & H).
  rewrite E in E0. injection E0 as <-. pose proof (holds_proj t _ s H) as (P & _).
  destruct (add_offer t (CProj id) s _ H) as (s' & E1 & H1). destruct (add_offer t (COther id) s _ H) as (s2 & E2 & H2).
  pose proof (holds_proj t _ s' H1) as (P1 & _). pose proof (holds_proj t _ s2 H2) as (P2 & _).
  set (acc := accepted_by [] h) in *. split; [|split].
  - intros En. exists s'. cbn [leaves offer is_proj andb] in E1, H1, P1.
    destruct H as [(X1 & X2 & X3)|(a & i & b & Ea & Ha & Hb & X2 & X3)].
    + rewrite X1 in E1, P1. cbn [fst snd] in E1, P1. split; [exact E1|]. rewrite P1. unfold the_proj.
      rewrite (find_app_none _ _ X1). reflexivity.
    + exfalso. rewrite En in P. injection P as P. unfold the_proj in P. rewrite Ea, (find_app_none _ _ Ha) in P. discriminate.
  - intros id' Es. destruct H as [(X1 & X2 & X3)|(a & i & b & Ea & Ha & Hb & X2 & X3)].
    + exfalso. rewrite Es in P. injection P as P. unfold the_proj in P.
      pose proof (find_app_none acc [] X1) as Ef. rewrite app_nil_r in Ef. rewrite Ef in P. discriminate.
    + cbn [addConstraint]. rewrite X3. reflexivity.
  - exists s2. cbn [leaves offer is_proj andb fst snd] in E2, P2. split; [exact E2|]. rewrite P2, P. f_equal.
    unfold the_proj. clear. induction acc as [|x l IH]; [reflexivity|]. cbn. destruct (is_proj x); [reflexivity|exact IH].
Qed.

(* isSatisfied is the conjunction of the members, the error the concatenation
   of theirs; the projector without constraint accepts everything *)
Theorem C36_satisfied :
  forall (config : Type) (sat : constraint -> config -> bool) (err : constraint -> config -> list nat) t h s q,
    run (create t) h = Ok s -> sat (CProj t) q = true -> err (CProj t) q = [] ->
    let acc := accepted_by [] h in
    (isSatisfied sat s q = true <-> forall c, In c acc -> sat c q = true) /\
    isSatisfiedError sat err s q = (isSatisfied sat s q, flat_map (fun c => err c q) acc).
Proof.
  intros config sat err t h s q E Ht He acc. destruct (C36_history t h) as (s0 & E0 & _ & _ & Ec & _).
  rewrite E in E0. injection E0 as <-. fold acc in Ec.
  assert (S : forall l, sat_list sat l q = true <-> forall c, In c l -> sat c q = true).
  { induction l as [|c l IH]; cbn [sat_list]; [split; [intros _ c []|reflexivity]|].
    destruct (sat c q) eqn:Es; cbn [negb].
    - rewrite IH. split; [intros H x [<-|Hx]; auto|intros H x Hx; apply H; right; exact Hx].
    - split; [discriminate|]. intros H. rewrite (H c (or_introl eq_refl)) in Es. discriminate. }
  assert (R : forall l r e, sat_err_list sat err l q r e = (r && sat_list sat l q, e ++ flat_map (fun c => err c q) l)).
  { induction l as [|c l IH]; intros r e; cbn [sat_err_list sat_list flat_map].
    - rewrite andb_true_r, app_nil_r. reflexivity.
    - rewrite IH, <- app_assoc. destruct (sat c q); cbn [negb]; [reflexivity|]. destruct r; reflexivity. }
  unfold isSatisfied, isSatisfiedError. rewrite R, Ec. cbn [andb app].
  destruct (the_proj acc); cbn [app]; [split; [apply S|reflexivity]|].
  cbn [sat_list flat_map]. rewrite Ht, He. cbn [negb app]. split; [apply S|reflexivity].
Qed.

(* apply runs the members in order, each on the result of the previous ones,
   and succeeds iff all succeed *)
Inductive applied {config} (app : constraint -> config -> config * bool) : list constraint -> config -> config -> Prop :=
| applied_nil q : applied app [] q q
| applied_cons c l q q1 q2 : app c q = (q1, true) -> applied app l q1 q2 -> applied app (c :: l) q q2.
Theorem C36_apply :
  forall (config : Type) (app : constraint -> config -> config * bool) t h s q,
    run (create t) h = Ok s -> (forall q, app (CProj t) q = (q, true)) ->
    let acc := accepted_by [] h in
    forall q', apply app s q = (q', true) <-> applied app acc q q'.
Proof.
  intros config app t h s q E Ht acc q'. destruct (C36_history t h) as (s0 & E0 & _ & _ & Ec & _).
  rewrite E in E0. injection E0 as <-. fold acc in Ec.
  assert (A : forall l q, compute_list app l q = (q', true) <-> applied app l q q').
  { induction l as [|c l IH]; intros q0; cbn [compute_list].
    - split; [intros H; injection H as <-; constructor|intros H; inversion H; reflexivity].
    - destruct (app c q0) as [q1 ok] eqn:Ea. destruct ok.
      + rewrite IH. split; [intros H; econstructor; eassumption|].
        intros H. inversion H as [|? ? ? q1' ? Ea' Hl]; subst. rewrite Ea in Ea'. injection Ea' as <-. exact Hl.
      + split; [discriminate|]. intros H. inversion H as [|? ? ? q1' ? Ea' Hl]; subst. rewrite Ea in Ea'. discriminate. }
  unfold apply. rewrite Ec. destruct (the_proj acc); cbn [List.app]; [apply A|].
  cbn [compute_list]. rewrite Ht. apply A.
Qed.
(* when each member establishes itself and keeps what the previous members
   established, a successful apply gives a configuration that satisfies the set *)
Theorem C36_apply_then_satisfied :
  forall (config : Type) (app : constraint -> config -> config * bool) (sat : constraint -> config -> bool) t h s q q',
    run (create t) h = Ok s -> (forall q, app (CProj t) q = (q, true)) -> (forall q, sat (CProj t) q = true) ->
    (forall c q q', app c q = (q', true) -> sat c q' = true) ->
    (forall c d q q', In c (accepted_by [] h) -> In d (accepted_by [] h) ->
       app d q = (q', true) -> sat c q = true -> sat c q' = true) ->
    apply app s q = (q', true) -> isSatisfied sat s q' = true.
Proof.
  intros config app sat t h s q q' E Ht Hs He Hk Ha.
  apply (C36_satisfied config sat (fun _ _ => []) t h s q' E (Hs q') eq_refl).
  apply (C36_apply config app t h s q E Ht) in Ha.
  assert (G : forall l q, incl l (accepted_by [] h) -> applied app l q q' ->
            forall c, In c (accepted_by [] h) -> In c l \/ sat c q = true -> sat c q' = true).
  { induction l as [|d l IH]; intros q0 Hi Hap c Hc Hor.
    - inversion Hap; subst. destruct Hor as [[]|H]; exact H.
    - inversion Hap as [|? ? ? q1 ? Ea Hl]; subst. apply (IH q1); [intros x Hx; apply Hi; right; exact Hx|exact Hl|exact Hc|].
      destruct Hor as [[->|Hin]|Hsat]; [right; eapply He; exact Ea|left; exact Hin|right].
      eapply Hk; [exact Hc|apply Hi; left; reflexivity|exact Ea|exact Hsat]. }
  intros c Hc. apply (G _ q (incl_refl _) Ha c Hc). left. exact Hc.
Qed.

(* ---- findings ---- *)
(* Adding a set without projector: its projector without constraint becomes
   the projector of the receiving set, and a real one is then refused. *)
Theorem C36_add_set_without_projector_refuted :
  exists t b s s1, run (create t) [] = Ok s /\ run (create b) [] = Ok s1 /\
    configProjector s1 = Ok None /\
    exists s2, addConstraint s (as_constraint s1) = Ok (s2, false) /\
      configProjector s2 = Ok (Some b) /\ forall p, addConstraint s2 (CProj p) = Ok (s2, true).
Proof.
  exists 0, 1. eexists _, _. split; [reflexivity|]. split; [reflexivity|]. split; [reflexivity|].
  eexists. split; [reflexivity|]. split; reflexivity.
Qed.
(* Adding a set with a projector to a set that has one throws, but the
   constraints that precede the projector stay. *)
Theorem C36_throw_leaves_set_unchanged_refuted :
  exists t b s s1 s2, run (create t) [CProj 10] = Ok s /\ run (create b) [COther 11; CProj 12] = Ok s1 /\
    addConstraint s (as_constraint s1) = Ok (s2, true) /\ s2 <> s.
Proof. exists 0, 1. eexists _, _, _. split; [reflexivity|]. split; [reflexivity|]. split; [reflexivity|discriminate]. Qed.

(* ---- a concrete history ---- *)
Definition ex_h := [COther 1; CSet [COther 2; CProj 3; COther 4] (Some 1); CProj 5; COther 6].
Example C36_ex : accepted_by [] ex_h = [COther 1; COther 2; CProj 3; COther 4; COther 6].
Proof. reflexivity. Qed.
Example C36_ex_run : run (create 0) ex_h =
  Ok {| constraints := [COther 1; COther 2; CProj 3; COther 4; COther 6]; configProjI := Some 2 |}.
Proof. reflexivity. Qed.
(* configurations are lists of numbers; a constraint of number n sets entry n
   to n and is satisfied when it is *)
Definition cnum (c : constraint) : nat := match c with CProj n => n | COther n => n | CSet _ _ => 0 end.
Definition ex_sat (c : constraint) (q : nat -> nat) : bool := q (cnum c) =? cnum c.
Definition ex_app (c : constraint) (q : nat -> nat) : (nat -> nat) * bool :=
  if cnum c =? 0 then (q, true) else (upd q (cnum c) (cnum c), true).
Definition ex_q : nat -> nat := fun n => match n with 0 => 0 | _ => 100 end.
Example C36_ex_apply : isSatisfied ex_sat {| constraints := leaves (CSet ex_h None); configProjI := None |} ex_q = false /\
  forall s, run (create 0) ex_h = Ok s -> snd (apply ex_app s ex_q) = true /\ isSatisfied ex_sat s (fst (apply ex_app s ex_q)) = true.
Proof. split; [reflexivity|]. intros s E. injection E as <-. split; vm_compute; reflexivity. Qed.
Example C36_ex_keeps : forall c d q q', ex_app d q = (q', true) -> ex_sat c q = true -> ex_sat c q' = true.
Proof.
  intros c d q q' H Hs. unfold ex_app in H. destruct (cnum d =? 0); injection H as <-; [exact Hs|].
  unfold ex_sat in *. unfold upd. destruct (Nat.eqb_spec (cnum c) (cnum d)) as [->|N]; [apply Nat.eqb_refl|exact Hs].
Qed.

Print Assumptions C36_history.
Print Assumptions C36_single_projector.
Print Assumptions C36_satisfied.
Print Assumptions C36_apply.
Print Assumptions C36_apply_then_satisfied.
Print Assumptions C36_add_set_without_projector_refuted.
Print Assumptions C36_throw_leaves_set_unchanged_refuted.
