(* Vocabulary of the planner properties. *)
From Verif Require Import Base RoadmapModel RoadmapSpec PlannerModel.

Section Spec.
Context {C P : Type}.
Variable ceqb : C -> C -> bool.
Variable prev : P -> P.
Variable E : env C P.

(* What the planners may expect: a steering method path joins its arguments, a
   validated path is its own valid part and otherwise the valid part starts
   (ends, in reverse) with the path, a projection starts with the path and ends
   with it when it succeeds, a path cut from its start starts with it,
   reversing a path exchanges its ends. *)
Record honest : Prop := {
  h_sm : forall a b p, e_sm E a b = Some p -> e_init E p = a /\ e_end E p = b;
  h_val : forall p r v, e_val E p r = (true, Some v) -> e_init E v = e_init E p /\ e_end E v = e_end E p;
  h_val_fwd : forall p b v, e_val E p false = (b, Some v) -> e_init E v = e_init E p;
  h_val_bwd : forall p b v, e_val E p true = (b, Some v) -> e_end E v = e_end E p;
  h_proj : forall f p b p', e_proj E = Some f -> f p = (b, Some p') -> e_init E p' = e_init E p;
  h_proj_ok : forall f p p', e_proj E = Some f -> f p = (true, Some p') -> e_end E p' = e_end E p;
  h_cut : forall p x p', e_cut E p x = Ok p' -> e_init E p' = e_init E p;
  h_prev : forall p, e_init E (prev p) = e_end E p /\ e_end E (prev p) = e_init E p;
  h_eq : forall a b, ceqb a b = true -> a = b }.
(* validation always gives a valid part, a successful projection a path, and
   extraction does not crash *)
Record answers : Prop := {
  w_val : forall p r, snd (e_val E p r) <> None;
  w_proj : forall f p, e_proj E = Some f -> f p <> (true, None);
  w_cut : forall p x, e_cut E p x <> UB /\ e_cut E p x <> Fuel }.

(* Paths covered by a path validation: accepted, or the valid part it gave, or
   the beginning or the reverse of such a path. *)
Inductive certified : P -> Prop :=
| cert_whole p r v : e_val E p r = (true, v) -> certified p
| cert_part p r b v : e_val E p r = (b, Some v) -> certified v
| cert_cut p x v : certified p -> e_cut E p x = Ok v -> certified v
| cert_rev p : certified p -> certified (prev p).

(* Paths which come out of the path projector, up to the same operations. *)
Inductive projected : P -> Prop :=
| proj_out f p b p' : e_proj E = Some f -> f p = (b, Some p') -> projected p'
| proj_part p r b v : projected p -> e_val E p r = (b, Some v) -> projected v
| proj_cut p x v : projected p -> e_cut E p x = Ok v -> projected v
| proj_rev p : projected p -> projected (prev p).

(* each edge of the roadmap carries a path which satisfies Q, and which joins
   the configurations of its end nodes *)
Definition edges_ok (Q : P -> Prop) (s : rm C P) : Prop := forall e, In e (edges s) ->
  Q (epath e) /\ config_of s (efrom e) (e_init E (epath e)) /\ config_of s (eto e) (e_end E (epath e)).

(* a sequence of certified paths leading from a to b *)
Fixpoint joined (a : C) (l : list P) (b : C) : Prop :=
  match l with
  | [] => a = b
  | p :: l' => certified p /\ e_init E p = a /\ joined (e_end E p) l' b
  end.

(* the initial node and the goal nodes of the roadmap are those of the problem *)
Definition posed (s : rm C P) (qi : C) (gs : list C) : Prop :=
  exists i, initN s = Some i /\ config_of s i qi /\ Forall2 (config_of s) (goals s) gs.
(* the steering method may build an accepted path, the valid part of which
   ends where the path starts *)
Definition accepts_empty : Prop := exists a b p v,
  e_sm E a b = Some p /\ e_val E p false = (true, Some v) /\ (e_t1 E v == e_t0 E p)%Q.
(* the constraints project a configuration in one way, from every node *)
Definition same_projection : Prop := forall f a b q, e_con E = Some f -> f a q = f b q.
End Spec.
