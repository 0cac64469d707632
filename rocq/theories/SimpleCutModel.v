(* Model of the simple shortcut optimizer:
   src/path-optimization/simple-shortcut.cc, on the roadmap of RoadmapModel,
   with the target of TargetModel.

   Simplifications:
   - PathOptimizer::steer (src/path-optimizer.cc 48-57: steering method then
     path projector, null when one of them fails) is the function [steer];
     [sm] is the steering method alone, which the target calls;
   - PathValidation::validate is the function [valid]; its report and valid
     part are not used by the code;
   - the input path vector is the list of its sub-paths; the assertion of the
     end of the function is left out. *)
From Verif Require Import Base RoadmapModel TargetModel PlannerModel.

Section SimpleCut.
Variables C P : Type.
Variable ceqb : C -> C -> bool.          (* Configuration_t::operator== *)
Variable dist : C -> C -> Q.             (* problem ()->distance () *)
Variable plen : P -> Q.                  (* Path::length *)
Variable pinit pend : P -> C.            (* Path::initial, Path::end *)
Variable steer sm : C -> C -> option P.
Variable valid : P -> bool.
Notation rmS := (rm C P).

(* lines 60-65: one node per way-point; returns the roadmap, the last node and
   the nodes pushed after the initial one *)
Fixpoint waypoints (s : rmS) (n : nat) (path : list P) : res (rmS * nat * list nat) :=
  match path with
  | [] => Ok (s, n, [])
  | p :: path' =>
      bind (addNodeAndEdge C P ceqb dist s n (pend p) p) (fun '(m, s1) =>
      bind (waypoints s1 m path') (fun '(s2, l, ns) => Ok (s2, l, m :: ns)))
  end.

(* lines 70-76 *)
Definition try_shortcut (s : rmS) (a b : nat) : res rmS :=
  bind (cfgN C P s a) (fun qa =>
  bind (cfgN C P s b) (fun qb =>
    match steer qa qb with
    | None => Ok s
    | Some p => if valid p then addEdge s a b p else Ok s
    end)).
(* lines 69-77: the nodes after the next one *)
Fixpoint from_node (s : rmS) (a : nat) (l : list nat) : res rmS :=
  match l with
  | [] => Ok s
  | b :: l' => bind (try_shortcut s a b) (fun s1 => from_node s1 a l')
  end.
(* lines 68-78 *)
Fixpoint shortcuts (s : rmS) (l : list nat) : res rmS :=
  match l with
  | [] => Ok s
  | a :: l' => bind (from_node s a (tl l')) (fun s1 => shortcuts s1 l')
  end.

(* lines 51-81: optimize; path->initial () of an empty vector is UB *)
Definition simple_optimize (path : list P) : res (list P) :=
  match path with
  | [] => UB
  | p0 :: _ =>
      bind (initNode C P ceqb dist empty (pinit p0)) (fun s0 =>
      match initN s0 with
      | None => UB
      | Some i =>
          bind (waypoints s0 i path) (fun '(s1, n, ns) =>
          bind (cfgN C P s1 n) (fun q =>
          bind (addGoalNode C P ceqb dist s1 q) (fun s2 =>
          bind (shortcuts s2 (i :: ns)) (fun s3 =>
          gc_computePath C P dist plen sm s3))))
      end)
  end.
End SimpleCut.
