(* Independent vocabulary for the paths of a car with bounded curvature. *)
From Coq Require Import Reals List.
From Verif Require Import CurvModel CurvSpec DubinsModel.
Import ListNotations.
Open Scope R_scope.

(* A robot that rolls at unit speed with curvature k goes from the position
   and heading of q to those of q' over a distance l. *)
Definition drives (k l : R) (q q' : cfg) : Prop :=
  exists m, rolls 1 k m /\ same_place (m 0) q /\ same_place (m l) q'.

(* ... successively along the segments of a word, with turning radius rho *)
Fixpoint drives_word (rho : R) (ss : list seg) (ls : list R) (q q' : cfg) : Prop :=
  match ss, ls with
  | [], [] => same_place q q'
  | s :: ss', l :: ls' =>
      exists m, drives (match s with L_SEG => 1 / rho | S_SEG => 0 | R_SEG => - (1 / rho) end) l q m /\
                drives_word rho ss' ls' m q'
  | _, _ => False
  end.

(* The segments follow each other from q to q'. *)
Fixpoint linked (q : cfg) (ps : list cpath) (q' : cfg) : Prop :=
  match ps with
  | [] => q = q'
  | p :: ps' => p_init p = q /\ linked (p_end p) ps' q'
  end.

Definition total (f : cpath -> R) (ps : list cpath) : R := fold_right (fun p s => f p + s) 0 ps.

(* Value of a degree of freedom at the end of each segment, as a function of
   the length since the beginning. *)
Fixpoint along (len : cpath -> R) (g : R -> R) (k : nat) (s : R) (ps : list cpath) : Prop :=
  match ps with
  | [] => True
  | p :: ps' => cj (p_end p) k = g (s + len p) /\ along len g k (s + len p) ps'
  end.
