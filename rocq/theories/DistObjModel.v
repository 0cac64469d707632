(* Distances between the robot and the obstacles:
   src/distance-between-objects.cc, include/hpp/core/distance-between-objects.hh.

   Simplifications.  A robot is the list of its joints, each with a body (the
   list of its inner objects) or without.  coal::distance is a function of the
   placements of the objects at the time of the call.  An uninitialized result
   is None. *)
From Verif Require Import Base.
Open Scope nat_scope.

Section DistObj.
Variables O D : Type.                              (* objects, results *)
Variable E : Type.                                 (* placements *)
Variable distance : E -> O -> O -> D.

Definition robot := list (option (list O)).
Record dbo := mkDbo { pairs : list (O * O); results : list (option D) }.
Definition dbo0 : dbo := mkDbo [] [].              (* lines 87-88 *)
(* lines 45-56: addObstacle *)
Fixpoint add_body (object : O) (inner : list O) (ps : list (O * O)) : list (O * O) :=
  match inner with
  | [] => ps
  | i :: r => add_body object r (ps ++ [(i, object)])
  end.
Fixpoint add_joints (object : O) (joints : robot) (ps : list (O * O)) : list (O * O) :=
  match joints with
  | [] => ps
  | None :: r => add_joints object r ps
  | Some body :: r => add_joints object r (add_body object body ps)
  end.
Definition add_obstacle (rb : robot) (object : O) (s : dbo) : dbo :=
  mkDbo (add_joints object rb (pairs s)) (results s).
(* lines 58-63: obstacles *)
Definition obstacles (rb : robot) (l : list O) (s : dbo) : dbo :=
  fold_left (fun s o => add_obstacle rb o s) l s.
(* std::vector::resize *)
Definition resize {A} (n : nat) (l : list (option A)) : list (option A) :=
  firstn n l ++ repeat None (n - length l).
Definition set_nth {A} (n : nat) (x : A) (l : list A) : list A := firstn n l ++ x :: skipn (S n) l.
(* lines 65-80: computeDistances; writing past the end is undefined *)
Fixpoint compute_loop (e : E) (ps : list (O * O)) (rank : nat) (rs : list (option D)) : res (list (option D)) :=
  match ps with
  | [] => Ok rs
  | (o1, o2) :: r =>
      if rank <? length rs then compute_loop e r (S rank) (set_nth rank (Some (distance e o1 o2)) rs) else UB
  end.
Definition compute_distances (e : E) (s : dbo) : res dbo :=
  bind (compute_loop e (pairs s) 0 (resize (length (pairs s)) (results s))) (fun rs => Ok (mkDbo (pairs s) rs)).

Inductive op := OpAdd (o : O) | OpObstacles (l : list O) | OpCompute (e : E).
Definition step (rb : robot) (s : dbo) (x : op) : res dbo :=
  match x with
  | OpAdd o => Ok (add_obstacle rb o s)
  | OpObstacles l => Ok (obstacles rb l s)
  | OpCompute e => compute_distances e s
  end.
Fixpoint run (rb : robot) (s : dbo) (l : list op) : res dbo :=
  match l with
  | [] => Ok s
  | x :: r => bind (step rb s x) (fun s' => run rb s' r)
  end.
End DistObj.
Arguments mkDbo {O D}. Arguments pairs {O D}. Arguments results {O D}.
Arguments OpAdd {O E}. Arguments OpObstacles {O E}. Arguments OpCompute {O E}.
