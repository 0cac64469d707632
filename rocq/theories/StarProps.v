(* C28, and C26 and C57 for bidirectional RRT*. *)
From Verif Require Import Base Reach RoadmapModel RoadmapSpec RoadmapProofs RoadmapProofs3 RoadmapProofs4 NearestModel.
From Verif Require Import PlannerModel PlannerSpec PlannerProofs2 PlannerProofs3 PlannerProps.
From Verif Require Import StarModel StarSpec StarProofs StarProofs2 StarProofs3 StarProofs4.

Section Statements.
Context {C P : Type}.
Variable ceqb : C -> C -> bool.
Variable dist : C -> C -> Q.
Variable plen : P -> Q.
Variable prev : P -> P.
Variable V : env C P.
Variable aproj : option (C -> C * bool).
Variable mid : C -> C -> C.
Variables maxLen minLen tiny : Q.
Variable radius : nat -> Q.
Variable pop : list (label P) -> option (label P * list (label P)).
Notation rmS := (rm C P).
Notation built := (@RoadmapSpec.built C P ceqb dist plen prev).
Notation certified := (certified prev V).
Notation projected := (projected prev V).
Notation two_trees := (two_trees ceqb dist plen prev V).
Notation cost_to := (cost_to plen).
Notation star_step := (star_step C P ceqb dist plen prev V aproj mid maxLen minLen tiny radius pop).
Notation star_run := (star_run C P ceqb dist plen prev V aproj mid maxLen minLen tiny radius pop).
Notation star_solve := (star_solve C P ceqb dist plen prev V aproj mid maxLen minLen tiny radius pop).
Notation extend := (extend C P ceqb dist plen prev V aproj mid maxLen minLen tiny radius).
Notation improve := (improve C P ceqb dist plen prev V maxLen minLen tiny radius).
Notation parentMap := (computeParentMap C P plen pop).

(* the lengths are those of paths that can be travelled both ways *)
Definition lengths : Prop := (forall p, (0 <= plen p)%Q) /\ forall p, (plen (prev p) == plen p)%Q.

(* C28: the map recomputed from a roadmap is a tree, has an entry for each node
   that can be reached from the root and no other, and gives each one the length
   of a shortest path from the root. *)
Theorem C28_parent_map : forall (s : rmS) root fuel m, built s -> (forall p, (0 <= plen p)%Q) -> queue_ok pop ->
  In root (nodes s) -> parentMap fuel s root = Ok m ->
  tree plen s root m /\ (forall n, m n <> None <-> connected_to s root n) /\
  (forall n c l, cost_to m n c -> out_path s root l n -> (c <= len_of plen l)%Q).
Proof. intros s root fuel m HB HL HP HR H. apply (cpm_correct plen HL pop HP s (built_inv _ _ _ _ _ HB) root HR fuel m H). Qed.
(* C28: its computation ends, without error *)
Theorem C28_parent_map_ends : forall (s : rmS) root, built s -> (forall p, (0 <= plen p)%Q) -> queue_ok pop ->
  In root (nodes s) -> exists f0, forall fuel, f0 <= fuel -> exists m, parentMap fuel s root = Ok m.
Proof. intros s root HB HL HP HR. apply (cpm_total plen HL pop HP s (built_inv _ _ _ _ _ HB) root HR). Qed.
(* C28: the cost read in a tree is the length of the path to the root; in
   particular following the parents never cycles nor leaves the map *)
Theorem C28_cost : forall (s : rmS) root m n, built s -> In root (nodes s) -> tree plen s root m -> m n <> None ->
  exists c, cost_of C P plen s m n = Ok c /\ cost_to m n c.
Proof.
  intros s root m n HB HR HT Hn. destruct (t_cost _ _ _ _ HT n Hn) as [c Hc]. exists c. split; [|exact Hc].
  apply (cost_of_ok plen s root m n c (built_inv _ _ _ _ _ HB) HR HT Hc).
Qed.

(* C28: extending a tree towards a configuration keeps a tree, no node gets
   farther from the root, and the new node and its near nodes are connected in
   the shortest way. *)
Theorem C28_extend : forall (s : rmS) root m q, honest ceqb prev V -> answers V -> lengths ->
  sound_rm ceqb dist plen prev V certified s -> In root (nodes s) -> tree plen s root m -> exact_keys s root m ->
  outcome V False (extend s root m q) (fun '(t, m', q', b) =>
    sound_rm ceqb dist plen prev V certified t /\ tree plen t root m' /\ lowered plen m m' /\
    (forall n, m' n <> None -> mut t n root) /\
    (b = false -> m' = m) /\
    (b = true -> exists near nnew c, m nnew = None /\ config_of t nnew q' /\
       well_placed dist plen V s root m m' q' (radius (length (nodes s))) near nnew c)).
Proof.
  intros s root m q HH HW [HL HLR] HG HR HT HK.
  eapply sf_mono; [apply (extend_ok ceqb dist plen prev V aproj mid maxLen minLen tiny radius HH HW HL HLR certified (fun p H => proj1 H) (cert_rev prev V) s root m q HG HR HT HK)|].
  intros [[[t m'] q'] b] [A1 [A2 [A3 [A4 [A5 [A6 [A7 A8]]]]]]]. auto 10.
Qed.
(* C28: improving, once the trees are connected *)
Theorem C28_improve : forall (st : bst C P) q, honest ceqb prev V -> answers V -> lengths ->
  two_trees certified st -> mut (br _ _ st) (root0 _ _ st) (root1 _ _ st) ->
  full (br _ _ st) (map0 _ _ st) -> full (br _ _ st) (map1 _ _ st) ->
  outcome V False (improve st q) (fun x =>
    two_trees certified x /\ root0 _ _ x = root0 _ _ st /\ root1 _ _ x = root1 _ _ st /\
    full (br _ _ x) (map0 _ _ x) /\ full (br _ _ x) (map1 _ _ x) /\
    lowered plen (map0 _ _ st) (map0 _ _ x) /\ lowered plen (map1 _ _ st) (map1 _ _ x) /\
    ((map0 _ _ x = map0 _ _ st /\ map1 _ _ x = map1 _ _ st) \/
     exists q' near nnew c0 c1, config_of (br _ _ x) nnew q' /\ ~ In nnew (nodes (br _ _ st)) /\
       well_placed dist plen V (br _ _ st) (root0 _ _ st) (map0 _ _ st) (map0 _ _ x) q' (radius (length (nodes (br _ _ st)))) near nnew c0 /\
       well_placed dist plen V (br _ _ st) (root1 _ _ st) (map1 _ _ st) (map1 _ _ x) q' (radius (length (nodes (br _ _ st)))) near nnew c1)).
Proof.
  intros st q HH HW [HL HLR] HV HM F0 F1.
  eapply sf_mono; [apply (improve_ok ceqb dist plen prev V maxLen minLen tiny radius HH HW HL HLR certified (fun p H => proj1 H) (cert_rev prev V) st q HV HM F0 F1)|].
  intros x [A1 [_ A2]]. auto.
Qed.
(* C28: one step keeps the two trees, and never increases a cost, except that
   the maps are recomputed (as shortest ones) once the trees are connected. *)
Theorem C28_step : forall fuel (st : bst C P) q, honest ceqb prev V -> answers V -> lengths -> queue_ok pop ->
  two_trees certified st ->
  outcome V True (star_step fuel st q) (fun x => two_trees certified x /\
    (length (live (br _ _ st)) = 2 \/ map1 _ _ st (root0 _ _ st) <> None -> cheaper plen st x) /\
    (length (live (br _ _ st)) <> 2 -> full (br _ _ x) (map0 _ _ x) /\ full (br _ _ x) (map1 _ _ x))).
Proof.
  intros fuel st q HH HW [HL HLR] HP HV.
  eapply sf_mono; [apply (step_good ceqb dist plen prev V aproj mid maxLen minLen tiny radius pop HH HW HL HLR HP certified (fun p H => proj1 H) (cert_rev prev V) fuel st q HV)|].
  intros x [A1 [_ [_ A2]]]. auto.
Qed.
(* C28 and C26: an execution from an empty roadmap. Missing: the sampling along
   the best path (d_draw), with which the planner may crash, see below; and
   roadmaps that are not empty at the start. *)
Theorem C28_solve_partial : forall fuel qi qg ds, honest ceqb prev V -> answers V -> lengths -> queue_ok pop ->
  (forall d, In d ds -> d_draw C d = false) ->
  outcome V True (star_solve fuel empty qi [qg] ds) (fun x => two_trees certified x /\ posed (br _ _ x) qi [qg]).
Proof.
  intros fuel qi qg ds HH HW [HL HLR] HP HD.
  apply (solve_good ceqb dist plen prev V aproj mid maxLen minLen tiny radius pop HH HW HL HLR HP certified (fun p H => proj1 H) (cert_rev prev V) fuel qi qg ds HD).
Qed.
(* C28: once the maps have been recomputed, sampling along the best path is
   safe, for ever. *)
Theorem C28_after_joining : forall fuel (st : bst C P) qi gs ds, honest ceqb prev V -> answers V -> lengths -> queue_ok pop ->
  two_trees certified st -> posed (br _ _ st) qi gs -> length (live (br _ _ st)) <> 2 ->
  full (br _ _ st) (map0 _ _ st) -> full (br _ _ st) (map1 _ _ st) ->
  outcome V True (star_run fuel st ds) (fun x => two_trees certified x /\ posed (br _ _ x) qi gs).
Proof.
  intros fuel st qi gs ds HH HW [HL HLR] HP HV.
  apply (run_full ceqb dist plen prev V aproj mid maxLen minLen tiny radius pop HH HW HL HLR HP certified (fun p H => proj1 H) (cert_rev prev V) fuel qi gs ds st HV).
Qed.
(* C57: with a path projector, every path comes out of it. *)
Theorem C57_star_partial : forall fuel qi qg ds x, honest ceqb prev V -> answers V -> lengths -> queue_ok pop ->
  e_proj V <> None -> (forall d, In d ds -> d_draw C d = false) ->
  star_solve fuel empty qi [qg] ds = Ok x -> edges_ok V projected (br _ _ x).
Proof.
  intros fuel qi qg ds x HH HW [HL HLR] HP HJ HD HX.
  pose proof (solve_good ceqb dist plen prev V aproj mid maxLen minLen tiny radius pop HH HW HL HLR HP projected (fun p H => proj2 H HJ) (proj_rev prev V) fuel qi qg ds HD) as H.
  rewrite HX in H. destruct H as [H _]. apply (v_good _ H).
Qed.
(* C26: the solutions found are made of validated paths *)
Theorem C26_star_partial : forall fuel qi qg ds x, honest ceqb prev V -> answers V -> lengths -> queue_ok pop ->
  (forall d, In d ds -> d_draw C d = false) ->
  star_solve fuel empty qi [qg] ds = Ok x -> built (br _ _ x) /\ edges_ok V certified (br _ _ x) /\ posed (br _ _ x) qi [qg].
Proof.
  intros fuel qi qg ds x HH HW HL HP HD HX. pose proof (C28_solve_partial fuel qi qg ds HH HW HL HP HD) as H.
  rewrite HX in H. destruct H as [H H1]. destruct (v_good _ H) as [G1 G2]. split; [exact (built_weaken _ _ _ _ _ _ G1)|auto].
Qed.
End Statements.

(* ------------------------------------------------------------------ examples *)
(* the first longest label *)
Section Pop.
Variable A : Type.
Variable key : A -> Q.
Fixpoint take (l : list A) : option (A * list A) :=
  match l with
  | [] => None
  | x :: l' => match take l' with
               | None => Some (x, l')
               | Some (y, r) => if Qlt_le_dec (key x) (key y) then Some (y, x :: r) else Some (x, l')
               end
  end.
Lemma take_ok : queue_ok take.
Proof.
  split.
  - intros [|x l] H; [congruence|]. cbn [take]. destruct (take l) as [[y r]|]; [destruct (Qlt_le_dec (key x) (key y))|]; discriminate.
  - induction l as [|x l IH]; intros y r; cbn [take]; [discriminate|]. destruct (take l) as [[z k]|] eqn:E.
    + destruct (Qlt_le_dec (key x) (key z)); intro H; injection H as <- <-; [|apply Permutation.Permutation_refl].
      eapply Permutation.Permutation_trans; [apply Permutation.perm_skip, (IH _ _ eq_refl)|apply Permutation.perm_swap].
    + intro H; injection H as <- <-. apply Permutation.Permutation_refl.
Qed.
End Pop.
Definition xpop : list (label path) -> option (label path * list (label path)) := take (label path) (l_cost path).
Lemma ex_lengths : lengths len rev_.
Proof.
  split.
  - intros p. unfold len, Qle; cbn. lia.
  - intros p. unfold len, rev_; cbn [fst snd]. rewrite <- Z.abs_opp. replace (- (fst (fst p) - snd (fst p)))%Z with (snd (fst p) - fst (fst p))%Z by lia. apply Qeq_refl.
Qed.
Definition shoot (q : Z) : draws Z := mkD Z false 0 (fun _ b _ => b) q.
Definition along (k : nat) : draws Z := mkD Z true k (fun _ b _ => (b + 1)%Z) 0%Z.
Notation xsolve E s ds := (star_solve Z path Z.eqb dst len rev_ E None (fun a b => ((a + b) / 2)%Z) 4 (1#2) (1#1000) (fun _ => 6%Q) xpop 50 s 0%Z [10%Z] ds).
(* what can be seen of a state: the roots, the number of components and the
   costs in both maps *)
Definition look (r : res (bst Z path)) :=
  match r with
  | Ok x => let l := seq 0 (length (nodes (br _ _ x))) in
            let cost m n := match cost_of Z path len (br _ _ x) m n with Ok c => Some (Qred c) | _ => None end in
            Some (root0 _ _ x, root1 _ _ x, length (live (br _ _ x)), map (cost (map0 _ _ x)) l, map (cost (map1 _ _ x)) l)
  | _ => None
  end.
(* hypotheses of the statements above, and an execution: the second sample joins
   the trees, the third one recomputes the maps and improves them *)
Example ex_env : honest Z.eqb rev_ (V None None) /\ answers (V None None) /\ lengths len rev_ /\ queue_ok xpop /\
  ~ extract_throws (V None None).
Proof.
  split; [apply V_honest; auto|]. split; [apply V_answers; auto|]. split; [apply ex_lengths|]. split; [apply take_ok|].
  intros [[[a b] k] [x H]]. discriminate H.
Qed.
Example ex_star2 : look (xsolve (V None None) empty [shoot 3%Z; shoot 7%Z]) =
  Some (0, 1, 1, [Some 0; None; Some 3; Some 7]%Q, [None; Some 0; None; Some 3]%Q).
Proof. vm_compute; reflexivity. Qed.
Example ex_star4 : look (xsolve (V None None) empty [shoot 3%Z; shoot 7%Z; shoot 5%Z; shoot 1%Z]) =
  Some (0, 1, 1, [Some 0; Some 10; Some 3; Some 7; Some 5; Some 1]%Q, [Some 10; Some 0; Some 7; Some 3; Some 5; Some 9]%Q).
Proof. vm_compute; reflexivity. Qed.
(* then sampling along the best path is safe *)
Example ex_star_along : look (xsolve (V None None) empty [shoot 3%Z; shoot 7%Z; shoot 5%Z; along 1]) =
  Some (0, 1, 1, [Some 0; Some 10; Some 3; Some 7; Some 5; Some 4]%Q, [Some 10; Some 0; Some 7; Some 3; Some 5; Some 6]%Q).
Proof. vm_compute; reflexivity. Qed.
(* a detour 0 - 5 - 2, and a new node 1: the node at 2 is rewired *)
Notation an := (addNode Z path Z.eqb dst).
Definition both (s : rm Z path) (a b : nat) (p : path) : res (rm Z path) :=
  bind (addEdge s a b p) (fun s1 => addEdge s1 b a (rev_ p)).
Definition detour : res (rm Z path) :=
  bind (an empty 0%Z) (fun '(_, s) => bind (an s 5%Z) (fun '(_, s) => bind (an s 2%Z) (fun '(_, s) =>
  bind (both s 0 1 (0, 5, false)%Z) (fun s => both s 1 2 (5, 2, false)%Z)))).
Definition costs (s : rm Z path) (m : pmap path) :=
  map (fun n => match cost_of Z path len s m n with Ok c => Some (Qred c) | _ => None end) (seq 0 (length (nodes s))).
Example ex_detour : match detour with
  | Ok s => match computeParentMap Z path len xpop 20 s 0 with
            | Ok m => match extend Z path Z.eqb dst len rev_ (V None None) None (fun a _ => a) 4 (1#2) (1#1000) (fun _ => 6%Q) s 0 m 1%Z with
                      | Ok (t, m', q, b) => Some (costs s m, costs t m', q, b)
                      | _ => None
                      end
            | _ => None
            end
  | _ => None
  end = Some ([Some 0; Some 5; Some 8]%Q, [Some 0; Some 5; Some 2; Some 1]%Q, 1%Z, true).
Proof. vm_compute; reflexivity. Qed.

(* C28: sampling along the best path just after the trees have been connected
   reads through an end iterator: the maps are recomputed only afterwards. *)
Theorem C28_sample_refuted : exists (V : env Z path) ds,
  honest Z.eqb rev_ V /\ answers V /\ ~ extract_throws V /\ lengths len rev_ /\ queue_ok xpop /\ xsolve V empty ds = UB.
Proof.
  exists (V None None), [shoot 3%Z; shoot 7%Z; along 0]. destruct ex_env as [H1 [H2 [H3 [H4 H5]]]].
  do 5 (split; [assumption|]). vm_compute; reflexivity.
Qed.
(* C28: started with a roadmap where the initial configuration already has
   neighbours, the planner reads the cost of a node that is not in its map. *)
Theorem C28_precomputed_refuted : exists (V : env Z path) s ds,
  honest Z.eqb rev_ V /\ answers V /\ ~ extract_throws V /\ lengths len rev_ /\ queue_ok xpop /\
  sound_rm Z.eqb dst len rev_ V (certified rev_ V) s /\ (forall d, In d ds -> d_draw Z d = false) /\ xsolve V s ds = UB.
Proof.
  destruct ex_env as [H1 [H2 [H3 [H4 H5]]]].
  destruct (s_addNode Z.eqb dst len rev_ (V None None) H1 (certified rev_ (V None None)) empty 0%Z) as [n0 [s0 [A1 [A2 [_ [A3 _]]]]]].
  { split; [constructor|intros e []]. }
  destruct (s_addNode Z.eqb dst len rev_ (V None None) H1 (certified rev_ (V None None)) s0 5%Z A2) as [n1 [s1 [B1 [B2 [B3 [B4 _]]]]]].
  assert (K : certified rev_ (V None None) (0, 5, false)%Z) by (apply (cert_whole rev_ (V None None) _ false (Some (0, 5, false)%Z)); reflexivity).
  destruct (s_edges2 Z.eqb dst len rev_ (V None None) H1 (certified rev_ (V None None)) (cert_rev rev_ _) s1 n0 n1 (0, 5, false)%Z B2 K)
    as [s2 [s3 [D1 [D2 [D3 _]]]]]; [exact (sup_cfg _ _ _ _ B3 A3)|exact B4|].
  exists (V None None), s3, [shoot 7%Z]. do 5 (split; [assumption|]). split; [exact D3|]. split; [intros d [<-|[]]; reflexivity|].
  vm_compute in A1. injection A1 as <- <-. vm_compute in B1. injection B1 as <- <-. vm_compute in D1. injection D1 as <-.
  vm_compute in D2. injection D2 as <-. vm_compute; reflexivity.
Qed.
Print Assumptions C28_parent_map.
Print Assumptions C28_parent_map_ends.
Print Assumptions C28_cost.
Print Assumptions C28_extend.
Print Assumptions C28_improve.
Print Assumptions C28_step.
Print Assumptions C28_solve_partial.
Print Assumptions C28_after_joining.
Print Assumptions C26_star_partial.
Print Assumptions C57_star_partial.
Print Assumptions C28_sample_refuted.
Print Assumptions C28_precomputed_refuted.
