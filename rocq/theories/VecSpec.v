(* What is assumed of the sub-paths of a path vector, and what a contiguous
   vector is. *)
From Verif Require Import Base QcTac VecModel.
Open Scope Qc_scope.

Section VecSpec.
Variables C P : Type.
Variable init fin : P -> C.
Variable rng : P -> Qc * Qc.
Variable ev : P -> Qc -> option C.
Variable cut : P -> Qc * Qc -> res P.

(* [G] is a class of paths that run forward, are evaluated at their ends to
   their end configurations, and whose extraction between two parameters of
   their range is in the class, lasts the requested time, and goes between the
   values at these parameters. *)
Record honest (G : P -> Prop) : Prop := {
  h_fwd : forall p, G p -> fst (rng p) <= snd (rng p);
  h_init : forall p, G p -> ev p (fst (rng p)) = Some (init p);
  h_fin : forall p, G p -> ev p (snd (rng p)) = Some (fin p);
  h_cut : forall p a b p', G p -> fst (rng p) <= a -> a <= b -> b <= snd (rng p) ->
    cut p (a, b) = Ok p' ->
    G p' /\ plen rng p' = b - a /\ ev p a = Some (init p') /\ ev p b = Some (fin p') }.

(* the extractions either succeed or throw projection_error *)
Definition cut_defined (G : P -> Prop) : Prop :=
  forall p a b, G p -> fst (rng p) <= a -> a <= b -> b <= snd (rng p) ->
    cut p (a, b) <> UB /\ cut p (a, b) <> Fuel.

(* consecutive paths, from q to q' *)
Fixpoint chained (q : C) (l : list P) (q' : C) : Prop :=
  match l with [] => q = q' | p :: r => init p = q /\ chained (fin p) r q' end.

(* sum of the distances between the ends of the elements *)
Fixpoint cost (dist : C -> C -> Qc) (l : list P) : Qc :=
  match l with [] => 0 | p :: r => dist (init p) (fin p) + cost dist r end.

End VecSpec.

Arguments honest {C P} init fin rng ev cut G.
Arguments cut_defined {P} rng cut G.
Arguments chained {C P} init fin q l q'.
Arguments cost {C P} init fin dist l.
Arguments h_fwd {C P init fin rng ev cut G} _.
Arguments h_init {C P init fin rng ev cut G} _.
Arguments h_fin {C P init fin rng ev cut G} _.
Arguments h_cut {C P init fin rng ev cut G} _.
