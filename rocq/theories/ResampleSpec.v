(* What sampling a path means. *)
From Verif Require Import Base QcTac PathModel PathSpec.
Open Scope Qc_scope.

Section ResampleSpec.
Variable conf : Type.
Variable interp : conf -> conf -> Qc -> conf.
Notation path := (path conf).

(* the times which divide the range of the path into n + 1 equal parts,
   k = 0 ... n + 1 *)
Definition instant (p : path) (n k : nat) : Qc :=
  start p + (stop p - start p) * Q2Qc (Z.of_nat k # Pos.of_succ_nat n).
(* the configuration the path goes through at these times *)
Definition through (p : path) (n k : nat) : res (option conf) :=
  if (k =? 0)%nat then initial conf interp p
  else if (k =? S n)%nat then end_ conf interp p
  else eval conf interp p (instant p n k).

(* a distance along which interpolation is proportional *)
Definition metric (d : conf -> conf -> Qc) : Prop :=
  (forall a b, d a b = d b a) /\ (forall a b c, d a c <= d a b + d b c) /\
  (forall a b u, 0 <= u -> u <= 1 -> d a (interp a b u) <= u * d a b /\ d (interp a b u) b <= (1 - u) * d a b).
(* the path moves at velocity at most L *)
Definition slow (d : conf -> conf -> Qc) (L : Qc) (p : path) : Prop :=
  forall s t a b, start p <= s -> s <= t -> t <= stop p ->
    eval conf interp p s = Ok (Some a) -> eval conf interp p t = Ok (Some b) -> d a b <= L * (t - s).
(* a configuration obtained by projection is left where it is *)
Definition idempotent (c : constr conf) : Prop :=
  forall s q q', c_apply c s q = Some q' -> c_apply c s q' = Some q'.
End ResampleSpec.

Arguments instant {conf} p n k.
Arguments idempotent {conf} c.
