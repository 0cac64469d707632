(* C26 and C57: what the planners put in the roadmap. *)
From Coq Require Import Qround.
From Verif Require Import Base Reach RoadmapModel RoadmapSpec AstarModel AstarSpec AstarProps.
From Verif Require Import PlannerModel PlannerSpec PlannerProofs PlannerProofs2 PlannerProofs3.

Section Statements.
Context {C P : Type}.
Variable ceqb : C -> C -> bool.
Variable dist : C -> C -> Q.
Variable plen : P -> Q.
Variable prev : P -> P.
Variable V : env C P.
Notation rmS := (rm C P).
Notation built := (@RoadmapSpec.built C P ceqb dist plen prev).
Notation certified := (certified prev V).
Notation projected := (projected prev V).
Notation posed := (@posed C P).
Notation rrt_solve := (rrt_solve C P ceqb dist plen prev V).
Notation vis_solve := (vis_solve C P ceqb dist plen prev V).
Notation birrt_solve := (birrt_solve C P ceqb dist plen V).

(* C26: an execution of RRT, whatever the random configurations: no crash, and
   the roadmap only contains edges covered by a validation, which join their
   nodes. *)
Theorem C26_diffusing : forall stepLength ratio (s : rmS) qi gs qs,
  honest ceqb prev V -> answers V -> built s -> edges_ok V certified s ->
  match rrt_solve stepLength ratio s qi gs qs with
  | Ok t => built t /\ edges_ok V certified t /\ posed t qi gs
  | Throw => True
  | UB => False
  | Fuel => False
  end.
Proof.
  intros sl ratio s qi gs qs HH HW HB HE.
  pose proof (rrt_ok ceqb dist plen prev V HH HW certified (fun p H => proj1 H) (cert_rev prev V) sl ratio s qi gs qs (conj HB HE)) as H.
  destruct (rrt_solve sl ratio s qi gs qs); cbn [fine] in H; auto. destruct H as [[H1 H2] H3]; auto.
Qed.
(* C26: same for the visibility PRM *)
Theorem C26_visibility : forall (s : rmS) guards qi gs qs,
  honest ceqb prev V -> answers V -> built s -> edges_ok V certified s ->
  match vis_solve s guards qi gs qs with
  | Ok (t, _) => built t /\ edges_ok V certified t /\ posed t qi gs
  | Throw => True
  | UB => False
  | Fuel => False
  end.
Proof.
  intros s g qi gs qs HH HW HB HE.
  pose proof (vis_solve_ok ceqb dist plen prev V HH HW s g qi gs qs (conj HB HE)) as H.
  destruct (vis_solve s g qi gs qs) as [[t g']| | |]; cbn [fine] in H; auto. destruct H as [[H1 H2] H3]; auto.
Qed.
(* C26, bidirectional RRT. Missing: constraints whose projection depends on the
   node it starts from; then, and for paths with an empty valid part, the
   property is false, see below. *)
Theorem C26_birrt_partial : forall (s : rmS) qi gs qs,
  honest ceqb prev V -> answers V -> same_projection V -> built s -> edges_ok V certified s ->
  match birrt_solve s qi gs qs with
  | Ok t => built t /\ edges_ok V certified t /\ posed t qi gs
  | Throw => True
  | UB => accepts_empty V
  | Fuel => False
  end.
Proof.
  intros s qi gs qs HH HW HS HB HE.
  pose proof (birrt_ok ceqb dist plen prev V HH HW HS s qi gs qs (conj HB HE)) as H.
  destruct (birrt_solve s qi gs qs); cbn [almost] in H; auto. destruct H as [[H1 H2] H3]; auto.
Qed.
(* C26: what is read in such a roadmap is a sequence of validated paths from
   the initial configuration to a goal configuration, each starting where the
   previous one ends. *)
Theorem C26_solution : forall (t : rmS) qi gs, edges_ok V certified t -> built t -> posed t qi gs ->
  match roadmap_astar dist plen t with
  | Ok l => exists qg, In qg gs /\ joined prev V qi (map epath l) qg
  | Throw => forall i g, initN t = Some i -> In g (goals t) -> ~ connected_to t i g
  | UB => False
  | Fuel => False
  end.
Proof.
  intros t qi gs HE HB [i [H1 [H2 H3]]].
  destruct (C06_astar_correct _ _ ceqb dist plen prev t i HB H1) as [[l [g [E [Hg Hp]]]]|[E Hn]]; rewrite E.
  - assert (exists qg, In qg gs /\ config_of t g qg) as [qg [G1 G2]].
    { clear -H3 Hg. induction H3; [destruct Hg|]. destruct Hg as [->|Hg]; [eexists; split; [left; reflexivity|assumption]|].
      destruct IHForall2 as [qg [X Y]]; [exact Hg|]. exists qg; split; [right; exact X|exact Y]. }
    exists qg; split; [exact G1|]. eapply path_joined; eassumption.
  - intros i' g Hi Hg. rewrite H1 in Hi; injection Hi as <-. auto.
Qed.

(* C57: with a path projector, every path RRT adds comes out of it. *)
Theorem C57_diffusing_partial : forall stepLength ratio (s : rmS) qi gs qs t,
  honest ceqb prev V -> answers V -> e_proj V <> None -> built s -> edges_ok V projected s ->
  rrt_solve stepLength ratio s qi gs qs = Ok t -> edges_ok V projected t.
Proof.
  intros sl ratio s qi gs qs t HH HW HP HB HE HR.
  pose proof (rrt_ok ceqb dist plen prev V HH HW projected (fun p H => proj2 H HP) (proj_rev prev V) sl ratio s qi gs qs (conj HB HE)) as H.
  rewrite HR in H. apply H.
Qed.
End Statements.

(* ------------------------------------------------------------------ examples *)
(* Configurations on a line, straight paths (start, end, and whether the path
   comes out of the projector), of length at most 7 and not from 2 to 6; beyond
   12 there is an obstacle. *)
Section Ex.
Open Scope Z_scope.
Definition path := (Z * Z * bool)%type.
Definition len (p : path) : Q := inject_Z (Z.abs (snd (fst p) - fst (fst p))).
Definition rev_ (p : path) : path := (snd (fst p), fst (fst p), snd p).
Definition sm (a b : Z) : option path :=
  if ((Z.abs (b - a) <=? 7) && negb ((a =? 2) && (b =? 6)))%bool then Some (a, b, false) else None.
Definition val (p : path) (r : bool) : bool * option path :=
  let '(a, b, k) := p in
  if ((a <=? 12) && (b <=? 12))%bool then (true, Some p)
  else (false, Some (if r then (Z.max (Z.min a 12) b, b, k) else (a, Z.max (Z.min b 12) a, k))).
Definition cut (p : path) (x : Q) : res path :=
  let '(a, b, k) := p in Ok (a, Z.max a (Z.min b (a + Qfloor x)), k).
Definition V (con : option (Z -> Z -> option Z)) (pr : option (path -> bool * option path)) : env Z path :=
  mkEnv sm con pr val cut (fun p => fst (fst p)) (fun p => snd (fst p)) (fun _ => 0%Q) len.
Definition keep (p : path) : bool * option path := (true, Some (fst p, true)).
Definition dst (a b : Z) : Q := inject_Z (Z.abs (a - b)).

Lemma V_honest con pr : pr = None \/ pr = Some keep -> honest Z.eqb rev_ (V con pr).
Proof.
  intro Hpr. assert (HP : forall f, e_proj (V con pr) = Some f -> f = keep).
  { cbn [e_proj V]. intros f Hf. destruct Hpr; subst; congruence. }
  split; cbn [e_sm e_val e_cut e_init e_end V].
  - intros a b p. unfold sm. destruct (_ && _)%bool; [|discriminate]. intro H; inversion H; auto.
  - intros [[a b] k] r v. unfold val. destruct (_ && _)%bool; intro H; inversion H; auto.
  - intros [[a b] k] x v. unfold val. destruct (_ && _)%bool; intro H; inversion H; auto.
  - intros [[a b] k] x v. unfold val. destruct (_ && _)%bool; intro H; inversion H; auto.
  - intros f p b p' Hf. apply HP in Hf; subst. intro H; inversion H; reflexivity.
  - intros f p p' Hf. apply HP in Hf; subst. intro H; inversion H; reflexivity.
  - intros [[a b] k] x v. unfold cut. intro H; inversion H; reflexivity.
  - intros [[a b] k]; auto.
  - intros a b H; apply Z.eqb_eq; exact H.
Qed.
Lemma V_answers con pr : pr = None \/ pr = Some keep -> answers (V con pr).
Proof.
  intro Hpr. split; cbn [e_val e_proj e_cut V].
  - intros [[a b] k] r. unfold val. destruct (_ && _)%bool; discriminate.
  - intros f p Hf. destruct Hpr; subst; [discriminate|]. injection Hf as <-. discriminate.
  - intros [[a b] k] x; split; discriminate.
Qed.

Definition obs (r : res (rm Z path)) :=
  match r with
  | Ok t => Some (initN t, goals t, map (fun n => option_map ncfg (ninfo t n)) (seq 0 (length (nodes t))),
                  map (fun e => (efrom e, eto e, epath e)) (edges t))
  | _ => None
  end.

(* 5 is reached from both sides, then 14 is in the obstacle: the valid part
   ends at 12 *)
Example ex_rrt : obs (rrt_solve Z path Z.eqb dst len rev_ (V None (Some keep)) 0 0 empty 0 [10] [5; 14]) =
  Some (Some 0%nat, [1%nat], [Some 0; Some 10; Some 5; Some 12],
     [(0%nat, 2%nat, (0, 5, true)); (2%nat, 0%nat, (5, 0, true)); (1%nat, 2%nat, (10, 5, true)); (2%nat, 1%nat, (5, 10, true));
      (1%nat, 3%nat, (10, 12, true)); (3%nat, 1%nat, (12, 10, true))]).
Proof. vm_compute; reflexivity. Qed.
(* the hypotheses of the theorems hold of the example *)
Example ex_rrt_hyps : honest Z.eqb rev_ (V None (Some keep)) /\ answers (V None (Some keep)) /\
  built Z.eqb dst len rev_ (@empty Z path) /\ edges_ok (V None (Some keep)) (projected rev_ (V None (Some keep))) empty.
Proof.
  split; [apply V_honest; auto|]. split; [apply V_answers; auto|]. split; [constructor|]. intros e [].
Qed.
Example ex_birrt : obs (birrt_solve Z path Z.eqb dst len (V None None) empty 0 [10] [5]) =
  Some (Some 0%nat, [1%nat], [Some 0; Some 10; Some 5],
     [(0%nat, 2%nat, (0, 5, false)); (2%nat, 1%nat, (5, 10, false))]).
Proof. vm_compute; reflexivity. Qed.
Example ex_vis : obs (bind (vis_solve Z path Z.eqb dst len rev_ (V None None) empty (fun _ => false) 0 [10] [5]) (fun x => Ok (fst x))) =
  Some (Some 0%nat, [1%nat], [Some 0; Some 10; Some 5],
     [(0%nat, 2%nat, (0, 5, false)); (2%nat, 0%nat, (5, 0, false)); (1%nat, 2%nat, (10, 5, false)); (2%nat, 1%nat, (5, 10, false))]).
Proof. vm_compute; reflexivity. Qed.
Example ex_solution : match rrt_solve Z path Z.eqb dst len rev_ (V None (Some keep)) 0 0 empty 0 [10] [5; 14] with
  | Ok t => match roadmap_astar dst len t with Ok l => map epath l | _ => [] end | _ => [] end = [(0, 5, true); (5, 10, true)].
Proof. vm_compute; reflexivity. Qed.

(* projection on the even numbers, on the side of the node *)
Definition even_side (near q : Z) : option Z :=
  Some (if (q mod 2 =? 0) then q else if near <? q then q - 1 else q + 1).
Definition solutions (r : res (rm Z path)) : option (list path) :=
  match r with
  | Ok t => match roadmap_astar dst len t with Ok l => Some (map epath l) | _ => None end
  | _ => None
  end.
End Ex.

(* C26 is false of bidirectional RRT with constraints: both trees are extended
   towards two projections of one random configuration, and joined as if these
   were equal. The solution jumps from 4 to 6. *)
Theorem C26_birrt_refuted : exists (V : env Z path) qi qg qs t,
  honest Z.eqb rev_ V /\ answers V /\ birrt_solve Z path Z.eqb dst len V empty qi [qg] qs = Ok t /\
  ~ edges_ok V (fun _ => True) t /\
  exists l, roadmap_astar dst len t = Ok l /\ ~ joined rev_ V qi (map epath l) qg.
Proof.
  exists (V (Some even_side) None), 0%Z, 10%Z, [5%Z].
  assert (E : solutions (birrt_solve Z path Z.eqb dst len (V (Some even_side) None) empty 0%Z [10%Z] [5%Z]) =
            Some [(0, 4, false); (6, 10, false)]%Z) by (vm_compute; reflexivity).
  assert (HO : obs (birrt_solve Z path Z.eqb dst len (V (Some even_side) None) empty 0%Z [10%Z] [5%Z]) =
    Some (Some 0, [1], [Some 0%Z; Some 10%Z; Some 4%Z], [(0, 2, (0, 4, false)%Z); (2, 1, (6, 10, false)%Z)]))
    by (vm_compute; reflexivity).
  destruct (birrt_solve Z path Z.eqb dst len (V (Some even_side) None) empty 0%Z [10%Z] [5%Z]) as [t| | |]; try discriminate.
  exists t. split; [apply V_honest; auto|]. split; [apply V_answers; auto|]. split; [reflexivity|].
  cbn [solutions obs] in E, HO. split.
  - intro H. inversion HO as [[H1 H2 H3 H4]].
    assert (HL : length (nodes t) = 3) by (apply (f_equal (@length _)) in H3; rewrite map_length, seq_length in H3; exact H3).
    rewrite HL in H3. cbn [seq map] in H3. inversion H3 as [[N0 N1 N2]].
    destruct (edges t) as [|e1 [|e2 l]] eqn:EE; try discriminate. cbn [map] in H4. injection H4 as A1 A2 A3 B1 B2 B3 B4.
    destruct (H e2) as [_ [[nd [K1 K2]] _]]; [rewrite EE; right; left; reflexivity|].
    rewrite B1 in K1. rewrite K1 in N2. cbn [option_map] in N2. rewrite K2, B3 in N2. cbn in N2. discriminate.
  - destruct (roadmap_astar dst len t) as [l| | |]; try discriminate. exists l. split; [reflexivity|].
    injection E as E. rewrite E. cbn [joined]. intros [_ [_ [_ [H _]]]]. cbn in H. discriminate.
Qed.
(* C26 is false of bidirectional RRT when an accepted path has an empty valid
   part, as when the initial configuration is sampled: null node pointer. *)
Theorem C26_birrt_null_refuted : exists (V : env Z path) qi qg qs,
  honest Z.eqb rev_ V /\ answers V /\ same_projection V /\ birrt_solve Z path Z.eqb dst len V empty qi [qg] qs = UB.
Proof.
  exists (V None None), 0%Z, 10%Z, [2%Z; 6%Z; 0%Z].
  split; [apply V_honest; auto|]. split; [apply V_answers; auto|]. split; [intros f a b q H; discriminate|].
  vm_compute; reflexivity.
Qed.
(* C57 is false of bidirectional RRT and of the visibility PRM: the paths of
   their edges do not come out of the path projector of the problem. *)
Lemma unmarked (con : option (Z -> Z -> option Z)) p : projected rev_ (V con (Some keep)) p -> snd p = true.
Proof.
  induction 1 as [f p b p' Hf He|[[x y] k] r b v H IH He|[[x y] k] x' v H IH He|[[x y] k] H IH].
  - injection Hf as <-. injection He as _ <-. reflexivity.
  - cbn [e_val V] in He. unfold val in He. cbn [snd] in IH. subst k.
    destruct (_ && _)%bool; [injection He as _ <-; reflexivity|].
    injection He as _ <-. destruct r; reflexivity.
  - cbn [e_cut V] in He. unfold cut in He. cbn [snd] in IH. subst k. injection He as <-. reflexivity.
  - exact IH.
Qed.
Theorem C57_birrt_visibility_refuted : exists (V : env Z path) qi qg qs t t' g,
  honest Z.eqb rev_ V /\ answers V /\ e_proj V <> None /\
  birrt_solve Z path Z.eqb dst len V empty qi [qg] qs = Ok t /\ ~ edges_ok V (projected rev_ V) t /\
  vis_solve Z path Z.eqb dst len rev_ V empty (fun _ => false) qi [qg] qs = Ok (t', g) /\ ~ edges_ok V (projected rev_ V) t'.
Proof.
  exists (V None (Some keep)), 0%Z, 10%Z, [5%Z].
  assert (H1 : obs (birrt_solve Z path Z.eqb dst len (V None (Some keep)) empty 0%Z [10%Z] [5%Z]) =
    Some (Some 0, [1], [Some 0%Z; Some 10%Z; Some 5%Z], [(0, 2, (0, 5, false)%Z); (2, 1, (5, 10, false)%Z)]))
    by (vm_compute; reflexivity).
  assert (H2 : obs (bind (vis_solve Z path Z.eqb dst len rev_ (V None (Some keep)) empty (fun _ => false) 0%Z [10%Z] [5%Z]) (fun x => Ok (fst x))) =
    Some (Some 0, [1], [Some 0%Z; Some 10%Z; Some 5%Z], [(0, 2, (0, 5, false)%Z); (2, 0, (5, 0, false)%Z); (1, 2, (10, 5, false)%Z); (2, 1, (5, 10, false)%Z)]))
    by (vm_compute; reflexivity).
  destruct (birrt_solve Z path Z.eqb dst len (V None (Some keep)) empty 0%Z [10%Z] [5%Z]) as [t| | |]; [|discriminate H1|discriminate H1|discriminate H1].
  destruct (vis_solve Z path Z.eqb dst len rev_ (V None (Some keep)) empty (fun _ => false) 0%Z [10%Z] [5%Z]) as [[t' g]| | |]; [|discriminate H2|discriminate H2|discriminate H2].
  exists t, t', g. split; [apply V_honest; auto|]. split; [apply V_answers; auto|]. split; [discriminate|].
  assert (K : forall (u : rm Z path) (e : edge path) l, edges u = e :: l -> snd (epath e) = false -> ~ edges_ok (V None (Some keep)) (projected rev_ (V None (Some keep))) u).
  { intros u e l Hu He H. assert (HI : In e (edges u)) by (rewrite Hu; left; reflexivity). destruct (H e HI) as [X _]. apply unmarked in X. congruence. }
  cbn [obs bind fst] in H1, H2. split; [reflexivity|]. split; [|split; [reflexivity|]].
  - inversion H1 as [[A1 A2 A3 A4]]. destruct (edges t) as [|e l] eqn:E; [discriminate|]. cbn [map] in A4.
    eapply K; [exact E|]. apply (f_equal (fun z => match z with (_, _, p) :: _ => snd p | [] => false end)) in A4. exact A4.
  - inversion H2 as [[A1 A2 A3 A4]]. destruct (edges t') as [|e l] eqn:E; [discriminate|]. cbn [map] in A4.
    eapply K; [exact E|]. apply (f_equal (fun z => match z with (_, _, p) :: _ => snd p | [] => false end)) in A4. exact A4.
Qed.
Print Assumptions C26_diffusing.
Print Assumptions C26_visibility.
Print Assumptions C26_birrt_partial.
Print Assumptions C26_solution.
Print Assumptions C57_diffusing_partial.
Print Assumptions C26_birrt_refuted.
Print Assumptions C26_birrt_null_refuted.
Print Assumptions C57_birrt_visibility_refuted.
