(* Specification of constraint sets: the list of the constraints accepted so
   far, in order, sets being unfolded into their members. *)
From Verif Require Import Base ConsSetModel.

Definition is_proj (c : constraint) : bool := match c with CProj _ => true | _ => false end.
Fixpoint leaves (c : constraint) : list constraint :=
  match c with CSet l _ => flat_map leaves l | _ => [c] end.

(* offer the constraints of a list one by one; stop at the first projector
   that comes after another one *)
Fixpoint offer (accepted l : list constraint) : list constraint * bool :=
  match l with
  | [] => (accepted, false)
  | c :: r => if is_proj c && existsb is_proj accepted then (accepted, true) else offer (accepted ++ [c]) r
  end.
(* constraints accepted along a history of addConstraint *)
Fixpoint accepted_by (accepted : list constraint) (h : list constraint) : list constraint :=
  match h with
  | [] => accepted
  | c :: r => accepted_by (fst (offer accepted (leaves c))) r
  end.
(* the projector of a list *)
Definition the_proj (l : list constraint) : option nat :=
  match find is_proj l with Some (CProj id) => Some id | _ => None end.
