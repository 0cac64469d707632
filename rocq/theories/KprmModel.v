(* kPRM*: src/path-planner/k-prm-star.cc.

   Oracles as in PlannerModel (record env; e_con is not used: the constraints
   are part of [valid] below). The priority queue of the nearest neighbour
   search is a parameter [sel] as in NearestModel. *)
From Verif Require Import Base RoadmapModel NearestModel PlannerModel.
From Coq Require Import Reals.

Inductive phase := Build | Link | Connect | Failure.

Section Kprm.
Variables C P : Type.
Variable ceqb : C -> C -> bool.
Variable dist : C -> C -> Q.
Variable prev : P -> P.
Variable E : env C P.
Variable sel : list dn -> option (dn * list dn).
(* lines 104-114: constraints->apply succeeds and the result, which becomes
   qrand, passes the configuration validations *)
Variable valid : C -> option C.
(* numberNodes_, numberNeighbors_ and the maximal number of trials (10000) *)
Variables N K maxTry : nat.

Notation rmS := (rm C P).
Notation addNode := (addNode C P ceqb dist).
Notation addEdges := (addEdges C P prev).

(* linkingNodeIt_ and itNeighbor_ are the lists of what is left to visit *)
Record kst := mkK { ph : phase; kr : rmS; left_nodes : list nat; left_neigh : list nat }.

(* Roadmap::nearestNodes(q, K), src/roadmap.cc:238-241 *)
Definition nearest (s : rmS) (n : nat) : res (list nat) :=
  bind (cfgN C P s n) (fun q => bind (knn_roadmap dist sel s q K) (fun r => Ok (fst r))).

(* startSolve, lines 60-75, after PathPlanner::startSolve *)
Definition kprm_start (s : rmS) : res kst :=
  if N =? 0 then Throw
  else Ok (mkK (if N <=? length (nodes s) then Connect else Build) s [] []).

(* lines 101-119: the successive random configurations of one call *)
Fixpoint first_valid (k : nat) (shots : nat -> C) : option C :=
  match k with
  | O => None
  | S k' => match valid (shots 0) with
            | Some q => Some q
            | None => first_valid k' (fun i => shots (S i))
            end
  end.
(* lines 99-129 *)
Definition gen (k : kst) (shots : nat -> C) : res kst :=
  if length (nodes (kr k)) <? N then
    match first_valid maxTry shots with
    | None => Throw
    | Some q => bind (addNode (kr k) q) (fun '(_, s) => Ok (mkK Build s (left_nodes k) (left_neigh k)))
    end
  else
    match nodes (kr k) with
    | [] => UB
    | n :: _ => bind (nearest (kr k) n) (fun l => Ok (mkK Link (kr k) (nodes (kr k)) l))
    end.
(* lines 165-189: a path from the node to the neighbour. isOutNeighbor reads
   the edges of the neighbour. *)
Definition connect_one (s : rmS) (n m : nat) : res rmS :=
  match ninfo s m, ninfo s n with
  | Some nm, Some nn =>
    if (isOutNeighbor nm n || (n =? m))%bool then Ok s
    else
      match e_sm E (ncfg nn) (ncfg nm) with
      | None => Ok s
      | Some p =>
        match (match e_proj E with None => (true, Some p) | Some f => f p end) with
        | (false, _) => Ok s
        | (true, None) => UB
        | (true, Some p') => if fst (e_val E p' false) then addEdges s n m p' else Ok s
        end
      end
  | _, _ => UB
  end.
(* lines 131-150, with connectNodeToClosestNeighbors, 152-195 *)
Definition link (k : kst) : res kst :=
  match left_nodes k with
  | [] => Ok (mkK Connect (kr k) [] (left_neigh k))
  | n :: rest =>
    match left_neigh k with
    | m :: l => bind (connect_one (kr k) n m) (fun s => Ok (mkK Link s (left_nodes k) l))
    | [] => match rest with
            | [] => Ok (mkK Link (kr k) [] [])
            | n' :: _ => bind (nearest (kr k) n') (fun l => Ok (mkK Link (kr k) rest l))
            end
    end
  end.
Fixpoint connect_all (s : rmS) (n : nat) (l : list nat) : res rmS :=
  match l with
  | [] => Ok s
  | m :: l' => bind (connect_one s n m) (fun s' => connect_all s' n l')
  end.
(* lines 209-221 *)
Fixpoint connect_goals (s : rmS) (gs : list nat) : res rmS :=
  match gs with
  | [] => Ok s
  | g :: gs' =>
    bind (nearest s g) (fun l =>
    match ninfo s g with
    | None => UB
    | Some ng => bind (match nin ng with [] => connect_all s g l | _ => Ok s end) (fun s' => connect_goals s' gs')
    end)
  end.
(* lines 197-222 *)
Definition connect_ends (s : rmS) : res rmS :=
  match initN s with
  | None => UB
  | Some i =>
    match ninfo s i with
    | None => UB
    | Some ni =>
      bind (match nout ni with
            | [] => bind (nearest s i) (fun l => connect_all s i l)
            | _ => Ok s
            end) (fun s' => connect_goals s' (goals s'))
    end
  end.
(* oneStep, lines 79-97 *)
Definition kprm_step (k : kst) (shots : nat -> C) : res kst :=
  match ph k with
  | Build => gen k shots
  | Link => link k
  | Connect => bind (connect_ends (kr k)) (fun s => Ok (mkK Failure s (left_nodes k) (left_neigh k)))
  | Failure => Throw
  end.
Fixpoint kprm_run (k : kst) (sh : list (nat -> C)) : res kst :=
  match sh with
  | [] => Ok k
  | x :: sh' => bind (kprm_step k x) (fun k' => kprm_run k' sh')
  end.
(* startSolve then the iterations; tryConnectInitAndGoals is empty, line 77 *)
Definition kprm_solve (s : rmS) (qi : C) (gs : list C) (sh : list (nat -> C)) : res kst :=
  bind (start_solve C P ceqb dist s qi gs) (fun s1 => bind (kprm_start s1) (fun k => kprm_run k sh)).
End Kprm.
Arguments mkK {C P}. Arguments ph {C P}. Arguments kr {C P}. Arguments left_nodes {C P}. Arguments left_neigh {C P}.

(* lines 68-69, kPRM = 2 e (line 45); real arithmetic instead of doubles *)
Definition number_neighbors (N : nat) : nat :=
  Z.to_nat (Int_part (2 * exp 1 * ln (INR N) + / 2)).
