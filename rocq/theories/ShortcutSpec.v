(* Specification vocabulary for the shortcut optimizers. *)
From Verif Require Import Base QcTac VecModel VecSpec.
Open Scope Qc_scope.

Section ShortcutSpec.
Variables C P : Type.
Variable init fin : P -> C.
Variable rng : P -> Qc * Qc.
Variable cut : P -> Qc * Qc -> res P.
Variable dist : C -> C -> Qc.
Variable steer : C -> C -> option P.
Variable valid : P -> bool.

(* A piece of the input, a path found by the steering method (and projector)
   and accepted by the validation, or a part of such a path. *)
Inductive piece (input : list P) : P -> Prop :=
| piece_input p : In p input -> piece input p
| piece_shortcut q q' p : steer q q' = Some p -> valid p = true -> piece input p
| piece_part p a b p' : piece input p -> fst (rng p) <= a -> a <= b -> b <= snd (rng p) ->
    cut p (a, b) = Ok p' -> piece input p'.

(* what the steering method returns joins the configurations it was given *)
Definition steers (G : P -> Prop) : Prop :=
  forall q q' p, steer q q' = Some p -> G p /\ init p = q /\ fin p = q'.

Definition metric : Prop :=
  (forall q, dist q q = 0) /\ (forall a b c, dist a c <= dist a b + dist b c).

End ShortcutSpec.

Arguments piece {C P} rng cut steer valid input p.
Arguments steers {C P} init fin steer G.
Arguments metric {C} dist.
