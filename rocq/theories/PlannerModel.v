(* One step of the planners built on the roadmap: connection of the initial
   and goal nodes (PathPlanner), RRT (DiffusingPlanner), bidirectional RRT
   (BiRRTPlanner) and visibility PRM (VisibilityPrmPlanner).

   Steering method, constraints, path projector, path validation and path
   extraction are parameters (record env); random configurations are
   arguments. Assertions are left out. An exception thrown in the middle of a
   step is Throw: what the roadmap contains then is not modelled.
   nearestNode(q, cc, d, reverse) is the exhaustive search of
   RoadmapModel.nn_search. *)
From Verif Require Import Base RoadmapModel.

Record env (C P : Type) := mkEnv {
  e_sm : C -> C -> option P;                (* SteeringMethod::operator() *)
  e_con : option (C -> C -> option C);      (* constraints: projectOnKernel(near, target) when
                                               there is a projector, then apply; None when
                                               apply fails *)
  e_proj : option (P -> bool * option P);   (* PathProjector::apply *)
  e_val : P -> bool -> bool * option P;     (* PathValidation::validate(path, reverse), with
                                               the valid part *)
  e_cut : P -> Q -> res P;                  (* extract(t0, t0 + x) *)
  e_init : P -> C; e_end : P -> C;          (* initial(), end() *)
  e_t0 : P -> Q; e_t1 : P -> Q }.           (* timeRange() *)
Arguments mkEnv {C P}.
Arguments e_sm {C P}. Arguments e_con {C P}. Arguments e_proj {C P}. Arguments e_val {C P}.
Arguments e_cut {C P}. Arguments e_init {C P}. Arguments e_end {C P}.
Arguments e_t0 {C P}. Arguments e_t1 {C P}.

Section Planner.
Variables C P : Type.
Variable ceqb : C -> C -> bool.
Variable dist : C -> C -> Q.
Variable plen : P -> Q.
Variable prev : P -> P.
Variable E : env C P.

Notation rmS := (rm C P).
Notation addNode := (addNode C P ceqb dist).
Notation addEdge := (@addEdge C P).
Notation addNodeAndEdges := (addNodeAndEdges C P ceqb dist prev).
Notation addNodeAndEdge := (addNodeAndEdge C P ceqb dist).
Notation addNodeAndEdgeTo := (addNodeAndEdgeTo C P ceqb dist).
Notation nn_search := (nn_search C P dist).

(* Node::configuration and Node::connectedComponent *)
Definition cfgN (s : rmS) (n : nat) : res C :=
  match ninfo s n with Some nd => Ok (ncfg nd) | None => UB end.
Definition ccN (s : rmS) (n : nat) : res nat :=
  match ninfo s n with Some nd => Ok (ncc nd) | None => UB end.
(* nearestNode: a null pointer when the component is empty, dereferenced by
   each caller *)
Definition near_node (s : rmS) (rev : bool) (q : C) (cc : nat) : res nat :=
  match nn_search s rev q cc with Some (n, _) => Ok n | None => UB end.

(* ------------------------------------------------------------ PathPlanner *)
(* startSolve, src/path-planner.cc:83-98, after checkProblem *)
Fixpoint add_goals (s : rmS) (gs : list C) : res rmS :=
  match gs with
  | [] => Ok s
  | g :: gs' => bind (addGoalNode C P ceqb dist s g) (fun s' => add_goals s' gs')
  end.
Definition start_solve (s : rmS) (qi : C) (gs : list C) : res rmS :=
  bind (initNode C P ceqb dist (resetGoalNodes s) qi) (fun s1 => add_goals s1 gs).

(* path-planner.cc:232-248 (263-277): the path to put in the roadmap, if any *)
Definition try_path (q1 q2 : C) : res (option P) :=
  match e_sm E q1 q2 with
  | None => Ok None
  | Some p =>
    let pr := match e_proj E with
              | None => Some p
              | Some f => match f p with (true, r) => r | (false, _) => None end
              end in
    match pr with
    | None => Ok None
    | Some p' =>
      match e_val E p' false with
      | (false, _) => Ok None
      | (true, None) => UB
      | (true, Some v) => if Qlt_le_dec 0 (plen v) then Ok (Some p') else Ok None
      end
    end
  end.
(* path-planner.cc:225-250: from a node to the nearest node of each other
   component; [fwd] is false for the goals, 254-279 *)
Fixpoint future (s : rmS) (n : nat) (qn : C) (c0 : nat) (fwd : bool) (ccs : list nat)
  : res (list (nat * nat * P)) :=
  match ccs with
  | [] => Ok []
  | cc :: ccs' =>
    if cc =? c0 then future s n qn c0 fwd ccs'
    else
      bind (near_node s fwd qn cc) (fun m =>
      bind (cfgN s m) (fun qm =>
      bind (if fwd then try_path qn qm else try_path qm qn) (fun r =>
      bind (future s n qn c0 fwd ccs') (fun l =>
      Ok (match r with
          | None => l
          | Some p => (if fwd then (n, m, p) else (m, n, p)) :: l
          end)))))
  end.
Fixpoint future_goals (s : rmS) (gs : list nat) : res (list (nat * nat * P)) :=
  match gs with
  | [] => Ok []
  | g :: gs' =>
    bind (cfgN s g) (fun qg => bind (ccN s g) (fun cg =>
    bind (future s g qg cg false (live s)) (fun l1 =>
    bind (future_goals s gs') (fun l2 => Ok (l1 ++ l2)))))
  end.
Fixpoint add_edges (s : rmS) (l : list (nat * nat * P)) : res rmS :=
  match l with
  | [] => Ok s
  | (a, b, p) :: l' => bind (addEdge s a b p) (fun s' => add_edges s' l')
  end.
(* tryConnectInitAndGoals, path-planner.cc:211-284 *)
Definition try_connect (s : rmS) : res rmS :=
  match initN s with
  | None => UB
  | Some i =>
    bind (cfgN s i) (fun qi => bind (ccN s i) (fun ci =>
    bind (future s i qi ci true (live s)) (fun l1 =>
    bind (future_goals s (goals s)) (fun l2 => add_edges s (l1 ++ l2)))))
  end.

(* ------------------------------------------------------- DiffusingPlanner *)
(* extend, src/diffusing-planner.cc:98-143. [stepLength]: parameter
   DiffusingPlanner/extensionStepLength *)
Definition diff_extend (stepLength : Q) (qnear target : C) : res (option P) :=
  match (match e_con E with None => Some target | Some f => f qnear target end) with
  | None => Ok None
  | Some qp =>
    match e_sm E qnear qp with
    | None => Ok None
    | Some p =>
      bind (if Qlt_le_dec 0 stepLength
            then if Qlt_le_dec stepLength (plen p) then e_cut E p stepLength else Ok p
            else Ok p)
           (fun p1 => Ok (match e_proj E with None => Some p1 | Some f => snd (f p1) end))
    end
  end.
(* belongs, diffusing-planner.cc:90-96 *)
Fixpoint belongs (s : rmS) (q : C) (l : list nat) : res bool :=
  match l with
  | [] => Ok false
  | n :: l' => bind (cfgN s n) (fun qn => if ceqb qn q then Ok true else belongs s q l')
  end.
Definition delayed := list (nat * C * P).
(* oneStep, first loop, diffusing-planner.cc:201-236. The components are those
   at the beginning of the step: addNodeAndEdges links nodes of one
   component. [ratio]: DiffusingPlanner/extensionStepRatio *)
Fixpoint diff_phase1 (stepLength ratio : Q) (q : C) (ccs : list nat) (s : rmS) (new near : list nat) (dl : delayed)
  : res (rmS * list nat * list nat * delayed) :=
  match ccs with
  | [] => Ok (s, new, near, dl)
  | cc :: ccs' =>
    bind (near_node s false q cc) (fun n =>
    bind (cfgN s n) (fun qn =>
    bind (diff_extend stepLength qn q) (fun r =>
    match r with
    | None => diff_phase1 stepLength ratio q ccs' s new (near ++ [n]) dl
    | Some p =>
      match e_val E p false with
      | (_, None) => UB
      | (valid, Some v) =>
        if Qeq_bool (e_t1 E v) (e_t0 E p) then diff_phase1 stepLength ratio q ccs' s new (near ++ [n]) dl
        else
          bind (if negb valid && negb (Qle_bool ratio 0) && negb (Qle_bool 1 ratio)
                then e_cut E v (plen v * ratio) else Ok v) (fun w =>
          bind (if valid then belongs s (e_end E w) new else Ok false) (fun b =>
          if b then diff_phase1 stepLength ratio q ccs' s new (near ++ [n]) (dl ++ [(n, e_end E w, w)])
          else bind (addNodeAndEdges s n (e_end E w) w) (fun '(m, s') =>
               diff_phase1 stepLength ratio q ccs' s' (new ++ [m]) (near ++ [n]) dl)))
      end
    end)))
  end.
(* diffusing-planner.cc:239-246 (same code in visibility-prm-planner.cc:172-183) *)
Fixpoint add_delayed (s : rmS) (dl : delayed) : res rmS :=
  match dl with
  | [] => Ok s
  | (n, q, p) :: dl' =>
    bind (addNode s q) (fun '(m, s1) =>
    bind (addEdge s1 n m p) (fun s2 =>
    bind (addEdge s2 m n (prev p)) (fun s3 => add_delayed s3 dl')))
  end.
(* diffusing-planner.cc:259-284 (294-316) *)
Definition diff_link (s : rmS) (n1 n2 : nat) : res rmS :=
  bind (cfgN s n1) (fun q1 => bind (cfgN s n2) (fun q2 =>
  match e_sm E q1 q2 with
  | None => Ok s
  | Some p =>
    match (match e_proj E with None => (true, Some p) | Some f => f p end) with
    | (false, _) => Ok s
    | (true, None) => UB
    | (true, Some p') =>
      match e_val E p' false with
      | (true, _) => bind (addEdge s n1 n2 p') (fun s1 => addEdge s1 n2 n1 (prev p'))
      | (false, Some v) =>
        if Qlt_le_dec 0 (plen v)
        then bind (addNodeAndEdges s n1 (e_end E v) v) (fun '(_, s1) => Ok s1)
        else Ok s
      | (false, None) => Ok s
      end
    end
  end)).
Fixpoint diff_links (s : rmS) (n1 : nat) (l : list nat) : res rmS :=
  match l with
  | [] => Ok s
  | n2 :: l' => bind (diff_link s n1 n2) (fun s' => diff_links s' n1 l')
  end.
(* diffusing-planner.cc:287-317 *)
Fixpoint diff_links_cc (s : rmS) (n1 cc1 : nat) (l : list nat) : res rmS :=
  match l with
  | [] => Ok s
  | n2 :: l' =>
    bind (ccN s n2) (fun c2 =>
    if c2 =? cc1 then diff_links_cc s n1 cc1 l'
    else bind (diff_link s n1 n2) (fun s' => diff_links_cc s' n1 cc1 l'))
  end.
(* diffusing-planner.cc:254-318 *)
Fixpoint diff_phase3 (s : rmS) (new near : list nat) : res rmS :=
  match new with
  | [] => Ok s
  | n1 :: new' =>
    bind (diff_links s n1 new') (fun s1 =>
    bind (ccN s1 n1) (fun cc1 =>
    bind (diff_links_cc s1 n1 cc1 near) (fun s2 => diff_phase3 s2 new' near)))
  end.
(* oneStep, diffusing-planner.cc:180-328 *)
Definition diff_step (stepLength ratio : Q) (s : rmS) (q : C) : res rmS :=
  bind (diff_phase1 stepLength ratio q (live s) s [] [] []) (fun '(s1, new, near, dl) =>
  bind (add_delayed s1 dl) (fun s2 => diff_phase3 s2 new near)).

(* ------------------------------------------------------------ BiRRTPlanner *)
(* extendInternal, src/bi-rrt-planner.cc:75-97 *)
Definition birrt_extend (rev : bool) (qnear target : C) : option P :=
  match (match e_con E with None => Some target | Some f => f qnear target end) with
  | None => None
  | Some qp => if rev then e_sm E qp qnear else e_sm E qnear qp
  end.
(* second part of oneStep, bi-rrt-planner.cc:138-169. [r]: the node reached
   from the start component (reachedNodeFromStart, startComponentConnected) and
   its configuration q_new, [b]: pathValidFromStart *)
Fixpoint birrt_ends (s : rmS) (r : option (nat * C)) (b : bool) (q : C) (ccs : list nat) : res rmS :=
  match ccs with
  | [] => Ok s
  | cc :: ccs' =>
    bind (near_node s true q cc) (fun near =>
    bind (cfgN s near) (fun qn =>
    match birrt_extend true qn q with
    | None => birrt_ends s r b q ccs'
    | Some p =>
      let '(b2, v) := e_val E p true in
      if b2 && b then
        match r, v with
        | Some (n, _), Some v => addEdge s n near v
        | _, _ => UB
        end
      else
        match v with
        | None => birrt_ends s r b q ccs'
        | Some v =>
          if Qeq_bool (e_t1 E v) (e_t0 E p) then birrt_ends s r b q ccs'
          else
            bind (addNodeAndEdgeTo s (e_init E v) near v) (fun '(m, s1) =>
            match r with
            | None => birrt_ends s1 r b q ccs'
            | Some (n, qnew) =>
              match e_sm E qnew (e_init E v) with
              | None => birrt_ends s1 r b q ccs'
              | Some p2 => if fst (e_val E p2 false) then addEdge s1 n m p2
                           else birrt_ends s1 r b q ccs'
              end
            end)
        end
    end))
  end.
(* oneStep, bi-rrt-planner.cc:109-170. [c0], [ccs]: startComponent_ and
   endComponents_ *)
Definition birrt_step (s : rmS) (c0 : nat) (ccs : list nat) (q : C) : res rmS :=
  bind (near_node s false q c0) (fun near =>
  bind (cfgN s near) (fun qn =>
  match birrt_extend false qn q with
  | None => birrt_ends s None false q ccs
  | Some p =>
    match e_val E p false with
    | (b, None) => birrt_ends s None b q ccs
    | (b, Some v) =>
      if Qeq_bool (e_t1 E v) (e_t0 E p) then birrt_ends s None b q ccs
      else bind (addNodeAndEdge s near (e_end E v) v) (fun '(n, s1) =>
           birrt_ends s1 (Some (n, e_end E v)) b q ccs)
    end
  end)).
(* startSolve, bi-rrt-planner.cc:100-107: the components of a planner which
   has not been used *)
Fixpoint goal_comps (s : rmS) (gs : list nat) : res (list nat) :=
  match gs with
  | [] => Ok []
  | g :: gs' => bind (ccN s g) (fun c => bind (goal_comps s gs') (fun l => Ok (c :: l)))
  end.
Definition birrt_start (s : rmS) : res (nat * list nat) :=
  match initN s with
  | None => UB
  | Some i => bind (ccN s i) (fun c => bind (goal_comps s (goals s)) (fun l => Ok (c, l)))
  end.

(* ---------------------------------------------------- VisibilityPrmPlanner *)
(* visibleFromCC, src/visibility-prm-planner.cc:73-106: the shortest path to a
   guard of the component. [guard]: nodeStatus_ *)
Fixpoint visible (s : rmS) (guard : nat -> bool) (q : C) (ns : list nat) (best : option (nat * P))
  : res (option (nat * P)) :=
  match ns with
  | [] => Ok best
  | n :: ns' =>
    if guard n then
      bind (cfgN s n) (fun qn =>
      match e_sm E q qn with
      | None => visible s guard q ns' best
      | Some p =>
        if fst (e_val E p false)
        then visible s guard q ns'
               (match best with
                | None => Some (n, p)
                | Some (_, p0) => if Qlt_le_dec (plen p) (plen p0) then Some (n, p) else best
                end)
        else visible s guard q ns' best
      end)
    else visible s guard q ns' best
  end.
(* visibility-prm-planner.cc:155-163 *)
Fixpoint vis_all (s : rmS) (guard : nat -> bool) (q : C) (ccs : list nat) : res delayed :=
  match ccs with
  | [] => Ok []
  | cc :: ccs' =>
    bind (visible s guard q (cnodes (cinfo s cc)) None) (fun r =>
    bind (vis_all s guard q ccs') (fun l =>
    Ok (match r with None => l | Some (n, p) => (n, q, prev p) :: l end)))
  end.
(* visibility-prm-planner.cc:172-183, with the change of status *)
Fixpoint vis_insert (s : rmS) (guard : nat -> bool) (dl : delayed) : res (rmS * (nat -> bool)) :=
  match dl with
  | [] => Ok (s, guard)
  | (n, q, p) :: dl' =>
    bind (addNode s q) (fun '(m, s1) =>
    bind (addEdge s1 n m p) (fun s2 =>
    bind (addEdge s2 m n (prev p)) (fun s3 => vis_insert s3 (upd guard m false) dl')))
  end.
(* oneStep, visibility-prm-planner.cc:126-186. [q]: q_proj at the end of the
   sampling loop *)
Definition vis_guards (s : rmS) (guard : nat -> bool) : nat -> bool :=
  fold_left (fun g n => upd g n true) (goals s)
    (match initN s with Some i => upd guard i true | None => guard end).
Definition vis_step (s : rmS) (guard : nat -> bool) (q : C) : res (rmS * (nat -> bool)) :=
  match initN s with
  | None => UB
  | Some _ =>
    let g := vis_guards s guard in
    bind (vis_all s g q (live s)) (fun dl =>
    match length dl with
    | O => bind (addNode s q) (fun '(m, s1) => Ok (s1, upd g m true))
    | 1 => Ok (s, g)
    | _ => vis_insert s g dl
    end)
  end.
(* the sampling loop, visibility-prm-planner.cc:146-152, on the successive
   random configurations. [kproj]: projectOnKernel and apply, when the
   constraints have a projector *)
Fixpoint vis_sample (kproj : option (C -> C -> option C)) (cvalid : C -> bool) (qi : C) (shots : list C) : res C :=
  match shots with
  | [] => Fuel
  | q :: shots' =>
    match kproj with
    | None => if cvalid q then Ok q else vis_sample kproj cvalid qi shots'
    | Some f =>
      match f qi q with
      | Some qp => if cvalid qp then Ok qp else vis_sample kproj cvalid qi shots'
      | None => vis_sample kproj cvalid qi shots'
      end
    end
  end.

(* -------------------------------------------------------------- executions *)
(* The successive iterations of solve, src/path-planner.cc:110-150, on the
   successive random configurations; see LoopModel for the way they end. *)
Fixpoint run_steps {S : Type} (step : S -> C -> res S) (s : S) (qs : list C) : res S :=
  match qs with
  | [] => Ok s
  | q :: qs' => bind (step s q) (fun s' => run_steps step s' qs')
  end.
(* startSolve, tryConnectInitAndGoals, then the iterations *)
Definition rrt_solve (stepLength ratio : Q) (s : rmS) (qi : C) (gs : list C) (qs : list C) : res rmS :=
  bind (start_solve s qi gs) (fun s1 => bind (try_connect s1) (fun s2 => run_steps (diff_step stepLength ratio) s2 qs)).
(* the components are stored by startSolve *)
Definition birrt_solve (s : rmS) (qi : C) (gs : list C) (qs : list C) : res rmS :=
  bind (start_solve s qi gs) (fun s1 => bind (birrt_start s1) (fun '(c0, ccs) =>
  bind (try_connect s1) (fun s2 => run_steps (fun s q => birrt_step s c0 ccs q) s2 qs))).
Definition vis_solve (s : rmS) (guard : nat -> bool) (qi : C) (gs : list C) (qs : list C) : res (rmS * (nat -> bool)) :=
  bind (start_solve s qi gs) (fun s1 => bind (try_connect s1) (fun s2 =>
  run_steps (fun '(s, g) q => vis_step s g q) (s2, guard) qs)).
End Planner.
