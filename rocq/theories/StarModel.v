(* Bidirectional RRT*: src/path-planner/bi-rrt-star.cc.

   Oracles as in PlannerModel (record env; e_con is not used). Parameters:
   - [aproj]: ConstraintSet::apply, the configuration left in its argument and
     the boolean returned; None when the problem has no constraints;
   - [mid]: interpolation at one half;
   - [maxLen], [minLen]: BiRRT*/maxStepLength (or its replacement), and
     BiRRT*/minimalPathLength; [tiny]: 1e-16;
   - [radius]: the radius of the ball for a number of nodes.
   std::map<NodePtr_t, EdgePtr_t> is a partial function; reading through end()
   is undefined behaviour. Edges are values. *)
From Verif Require Import Base RoadmapModel NearestModel PlannerModel.

Definition pmap (P : Type) := nat -> option (option (edge P)).

Section Star.
Variables C P : Type.
Variable ceqb : C -> C -> bool.
Variable dist : C -> C -> Q.
Variable plen : P -> Q.
Variable prev : P -> P.
Variable E : env C P.
Variable aproj : option (C -> C * bool).
Variable mid : C -> C -> C.
Variables maxLen minLen tiny : Q.
Variable radius : nat -> Q.

Notation rmS := (rm C P).
Notation addNode := (addNode C P ceqb dist).
Notation addEdge := (@addEdge C P).
Notation pm := (pmap P).

(* -------------------------------------------------------------- parent maps *)
(* computeCost, lines 89-101: current->second is read before the iterator is
   compared with end() *)
Fixpoint computeCost (fuel : nat) (m : pm) (n : nat) : res Q :=
  match fuel with
  | O => Fuel
  | S k =>
    match m n with
    | None => UB
    | Some None => Ok 0%Q
    | Some (Some e) => bind (computeCost k m (efrom e)) (fun c => Ok (c + plen (epath e))%Q)
    end
  end.
(* setParent, lines 108-119 *)
Definition setParent (m : pm) (n : nat) (e : option (edge P)) (newNode : bool) : res pm :=
  let orphan := match e with
                | Some e => match m (efrom e) with None => true | Some _ => false end
                | None => false
                end in
  if orphan then Throw
  else match newNode, m n with
       | true, Some _ => Throw
       | _, _ => Ok (upd m n (Some e))
       end.

(* WeighedNode_t, lines 121-128 *)
Record label := mkL { l_node : nat; l_parent : option (edge P); l_cost : Q }.
(* Visited_t *)
Definition visited := nat -> option (option (edge P) * Q).
(* std::priority_queue: the top, and what is left; a longest label, but the
   order plays no role below *)
Variable pop : list label -> option (label * list label).
(* computeParentMap, lines 131-173 *)
Definition children (s : rmS) (c : label) : res (list label) :=
  match ninfo s (l_node c) with
  | None => UB
  | Some nd => Ok (map (fun e => mkL (eto e) (Some e) (l_cost c + plen (epath e))%Q) (nout nd))
  end.
Definition better (v : visited) (c : label) : bool :=
  match v (l_node c) with
  | None => true
  | Some (_, k) => if Qlt_le_dec (l_cost c) k then true else false
  end.
Fixpoint cpm_loop (fuel : nat) (s : rmS) (v : visited) (queue : list label) : res visited :=
  match fuel with
  | O => Fuel
  | S k =>
    match pop queue with
    | None => Ok v
    | Some (c, queue') =>
      if better v c
      then bind (children s c) (fun l =>
           cpm_loop k s (upd v (l_node c) (Some (l_parent c, l_cost c))) (queue' ++ l))
      else cpm_loop k s v queue'
    end
  end.
Definition computeParentMap (fuel : nat) (s : rmS) (root : nat) : res pm :=
  bind (cpm_loop fuel s (fun _ => None) [mkL root None 0%Q])
       (fun v => Ok (fun n => option_map fst (v n))).

(* ----------------------------------------------------------------- planner *)
Record bst := mkB { br : rmS; root0 : nat; root1 : nat; map0 : pm; map1 : pm }.

Definition cost_of (s : rmS) (m : pm) (n : nat) : res Q := computeCost (S (length (nodes s))) m n.

(* buildPath, lines 279-320; the lengths limit applies when positive *)
Definition buildPath (q0 q1 : C) (limit : Q) (validatePath : bool) : res (bool * option P) :=
  match e_sm E q0 q1 with
  | None => Ok (false, None)
  | Some p =>
    let pr := match e_proj E with None => (true, Some p) | Some f => f p end in
    match pr with
    | (_, None) => Ok (false, None)
    | (ok, Some p1) =>
      bind (if Qlt_le_dec 0 limit
            then if Qlt_le_dec limit (plen p1) then e_cut E p1 limit else Ok p1
            else Ok p1) (fun p2 =>
      if validatePath
      then let '(b, v) := e_val E p2 false in Ok (ok && b, v)
      else Ok (ok, Some p2))
    end
  end.

(* lines 331-343 *)
Fixpoint project (k : nat) (f : C -> C * bool) (qnear q : C) : C :=
  let '(q', ok) := f q in
  if ok then q' else match k with O => q' | S k' => project k' f qnear (mid qnear q') end.
Definition project_rand (qnear q : C) : C :=
  match aproj with None => q | Some f => project 10 f qnear q end.

(* What the loops over the near nodes carry: the cost of the new node, its
   parent and the path between both. *)
Definition choice := (Q * nat * P)%type.
(* the entries of vector paths: validation has been run, and the path *)
Definition tried := (bool * option P)%type.
(* lines 361-399 (fixed: None) and 464-499 (fixed: the nearest node and its
   path), for a new configuration q *)
Fixpoint choose (s : rmS) (m : pm) (q : C) (fixed : option (nat * P)) (nears : list nat) (c : choice)
  : res (list tried * choice) :=
  match nears with
  | [] => Ok ([], c)
  | n :: nears' =>
    let '(cost, best, path) := c in
    let self := match fixed with Some x => x | None => (best, path) end in
    bind
      (if n =? fst self then Ok ((true, Some (snd self)), c)
       else
         bind (cfgN C P s n) (fun qn =>
         bind (buildPath qn q (-(1))%Q false) (fun r =>
         match r with
         | (true, Some p) =>
           bind (cost_of s m n) (fun cn =>
           if Qlt_le_dec (cn + plen p)%Q cost
           then if fst (e_val E p false) then Ok ((true, Some p), ((cn + plen p)%Q, n, p)) else Ok ((true, None), c)
           else Ok ((false, Some p), c))
         | (true, None) => UB
         | (false, _) => Ok ((false, None), c)
         end)))
      (fun tc => bind (choose s m q fixed nears' (snd tc)) (fun r => Ok (fst tc :: fst r, snd r)))
  end.
(* lines 408-424, 508-527 *)
Fixpoint rewire (s : rmS) (m : pm) (nnew : nat) (cost : Q) (best : nat) (l : list (nat * tried)) : res (rmS * pm) :=
  match l with
  | [] => Ok (s, m)
  | (n, (ran, op)) :: l' =>
    if n =? best then rewire s m nnew cost best l'
    else match op with
    | None => rewire s m nnew cost best l'
    | Some p =>
      bind (cost_of s m n) (fun cn =>
      if Qlt_le_dec (cost + plen p)%Q cn then
        if ran || fst (e_val E p false) then
          bind (addEdge s n nnew p) (fun s1 =>
          bind (addEdge s1 nnew n (prev p)) (fun s2 =>
          bind (setParent m n (Some (mkEdge nnew n (prev p))) false) (fun m' =>
          rewire s2 m' nnew cost best l')))
        else rewire s m nnew cost best l'
      else rewire s m nnew cost best l')
    end
  end.
(* lines 401-425 and 501-528: the new node gets its parent, then its near nodes
   are rewired. The boolean: the node was not in the map. *)
Definition insert (s : rmS) (m : pm) (nnew : nat) (nears : list nat) (paths : list tried) (c : choice)
  : res (rmS * pm * bool) :=
  let '(cost, best, path) := c in
  bind (addEdge s best nnew path) (fun s2 =>
  bind (addEdge s2 nnew best (prev path)) (fun s3 =>
  match m nnew with
  | Some _ => Ok (s3, m, false)
  | None =>
    bind (setParent m nnew (Some (mkEdge best nnew path)) true) (fun m1 =>
    bind (rewire s3 m1 nnew cost best (combine nears paths)) (fun '(s4, m2) => Ok (s4, m2, true)))
  end)).

(* extend, lines 322-426: the roadmap, the map, the configuration and the
   result. The number of nodes is read before the new node is added. *)
Definition extend (s : rmS) (target : nat) (m : pm) (q : C) : res (rmS * pm * C * bool) :=
  bind (ccN C P s target) (fun cc =>
  match nn_search C P dist s false q cc with
  | None => UB
  | Some (near, d) =>
    if Qlt_le_dec d tiny then Ok (s, m, q, false)
    else
      bind (cfgN C P s near) (fun qn =>
      let q1 := project_rand qn q in
      bind (buildPath qn q1 maxLen true) (fun r =>
      match snd r with
      | None => Ok (s, m, q1, false)
      | Some path =>
        if Qlt_le_dec (plen path) minLen then Ok (s, m, q1, false)
        else
          let q2 := e_end E path in
          let nears := ball_cc dist s q2 cc (radius (length (nodes s))) in
          bind (cost_of s m near) (fun c0 =>
          bind (choose s m q2 None nears ((c0 + plen path)%Q, near, path)) (fun '(paths, c) =>
          bind (addNode s q2) (fun '(nnew, s1) =>
          bind (insert s1 m nnew nears paths c) (fun '(s4, m2, b) => Ok (s4, m2, q2, b)))))
      end))
  end).

(* connect, lines 428-438 *)
Fixpoint connect (fuel : nat) (s : rmS) (target : nat) (m : pm) (q : C) : res (rmS * pm) :=
  if length (live s) =? 2 then
    match fuel with
    | O => Fuel
    | S k => bind (extend s target m q) (fun '(s1, m1, _, b) =>
             if b then connect k s1 target m1 q else Ok (s1, m1))
    end
  else Ok (s, m).

(* improve, lines 440-530; one turn of the loop on k *)
Definition improve_map (s : rmS) (m : pm) (nnew : nat) (qnew : C) (nearQ : nat) (path : P) (nears : list nat)
  : res (rmS * pm) :=
  bind (cost_of s m nearQ) (fun c0 =>
  bind (choose s m qnew (Some (nearQ, path)) nears ((c0 + plen path)%Q, nearQ, path)) (fun '(paths, c) =>
  bind (insert s m nnew nears paths c) (fun '(s1, m1, _) => Ok (s1, m1)))).
Definition improve (st : bst) (q : C) : res bst :=
  let s := br st in
  match nearestNode C P dist s false q with
  | None => UB
  | Some (nearQ, d) =>
    if Qlt_le_dec d tiny then Ok st
    else
      bind (cfgN C P s nearQ) (fun qn =>
      bind (buildPath qn q maxLen true) (fun r =>
      match snd r with
      | None => Ok st
      | Some path =>
        if Qlt_le_dec (plen path) minLen then Ok st
        else
          let qnew := e_end E path in
          bind (ccN C P s (root0 st)) (fun cc =>
          let nears := ball_cc dist s qnew cc (radius (length (nodes s))) in
          bind (addNode s qnew) (fun '(nnew, s1) =>
          bind (improve_map s1 (map0 st) nnew qnew nearQ path nears) (fun '(s2, m0) =>
          bind (improve_map s2 (map1 st) nnew qnew nearQ path nears) (fun '(s3, m1) =>
          Ok (mkB s3 (root0 st) (root1 st) m0 m1)))))
      end))
  end.

(* startSolve, lines 175-197, after PathPlanner::startSolve *)
Definition star_start (s : rmS) : res bst :=
  match initN s, goals s with
  | Some i, [g] =>
    bind (setParent (fun _ => None) i None true) (fun m0 =>
    bind (setParent (fun _ => None) g None true) (fun m1 => Ok (mkB s i g m0 m1)))
  | None, [_] => UB
  | _, _ => Throw
  end.

(* oneStep, lines 199-225, after the configuration has been sampled *)
Definition star_step (fuel : nat) (st : bst) (q : C) : res bst :=
  let s := br st in
  if length (live s) =? 2 then
    bind (extend s (root0 st) (map0 st) q) (fun '(s1, m0, q1, b) =>
    if b then
      bind (ccN C P s1 (root0 st)) (fun c0 => bind (ccN C P s1 (root1 st)) (fun c1 =>
      if c0 =? c1 then Ok (mkB s1 (root0 st) (root1 st) m0 (map1 st))
      else bind (connect fuel s1 (root1 st) (map1 st) q1) (fun '(s2, m1) =>
           Ok (mkB s2 (root1 st) (root0 st) m1 m0))))
    else Ok (mkB s1 (root1 st) (root0 st) (map1 st) m0))
  else
    bind (match map1 st (root0 st) with
          | Some _ => Ok (map0 st, map1 st)
          | None => bind (computeParentMap fuel s (root0 st)) (fun m0 =>
                    bind (computeParentMap fuel s (root1 st)) (fun m1 => Ok (m0, m1)))
          end) (fun '(m0, m1) => improve (mkB s (root0 st) (root1 st) m0 m1) q).

(* sample, lines 227-270. [draw]: the first random number is above the
   threshold; [k]: the second one; [mk q0 q1 q2]: the configuration computed
   from three successive configurations of the best path; [shot]: what the
   shooter gives *)
Fixpoint count_edges (fuel : nat) (m : pm) (n : nat) : res nat :=
  match fuel with
  | O => Fuel
  | S f =>
    match m n with
    | None => UB
    | Some None => Ok 0
    | Some (Some e) => bind (count_edges f m (efrom e)) (fun c => Ok (S c))
    end
  end.
Fixpoint climb (i : nat) (m : pm) (n : nat) : res (edge P) :=
  match m n with
  | Some (Some e) => match i with O => Ok e | S i' => climb i' m (efrom e) end
  | _ => UB
  end.
Definition sample (st : bst) (draw : bool) (k : nat) (mk : C -> C -> C -> C) (shot : C) : res C :=
  let s := br st in
  if (length (live s) =? 1) && draw then
    bind (count_edges (S (length (nodes s))) (map0 st) (root1 st)) (fun nedges =>
    if 2 <=? nedges then
      bind (climb (k mod (nedges - 1)) (map0 st) (root1 st)) (fun edge1 =>
      bind (climb 0 (map0 st) (efrom edge1)) (fun edge0 =>
      if eto edge0 =? efrom edge1 then
        bind (cfgN C P s (efrom edge0)) (fun q0 => bind (cfgN C P s (eto edge0)) (fun q1 =>
        bind (cfgN C P s (eto edge1)) (fun q2 => Ok (mk q0 q1 q2))))
      else Throw))
    else Ok shot)
  else Ok shot.

(* oneStep *)
Record draws := mkD { d_draw : bool; d_k : nat; d_mk : C -> C -> C -> C; d_shot : C }.
Definition star_one (fuel : nat) (st : bst) (d : draws) : res bst :=
  bind (sample st (d_draw d) (d_k d) (d_mk d) (d_shot d)) (star_step fuel st).
Fixpoint star_run (fuel : nat) (st : bst) (ds : list draws) : res bst :=
  match ds with
  | [] => Ok st
  | d :: ds' => bind (star_one fuel st d) (fun st' => star_run fuel st' ds')
  end.
Definition star_solve (fuel : nat) (s : rmS) (qi : C) (gs : list C) (ds : list draws) : res bst :=
  bind (start_solve C P ceqb dist s qi gs) (fun s1 => bind (star_start s1) (fun st =>
  bind (try_connect C P dist plen E s1) (fun s2 =>
  star_run fuel (mkB s2 (root0 st) (root1 st) (map0 st) (map1 st)) ds))).
End Star.
