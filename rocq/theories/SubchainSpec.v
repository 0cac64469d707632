(* Selection of coordinates. *)
From Verif Require Import Base SubchainModel.

(* the coordinates that a list of blocks selects, in order *)
Definition indices (l : list segment) : list nat := flat_map (fun '(s, n) => seq s n) l.
(* v holds the selected coordinates of q *)
Definition selects {A} (l : list segment) (q v : list A) : Prop :=
  length v = length (indices l) /\
  forall k i, nth_error (indices l) k = Some i -> nth_error v k = nth_error q i.
(* all the blocks are in a vector of size n *)
Definition within (l : list segment) (n : nat) : Prop := forall i, In i (indices l) -> i < n.
(* empty blocks must begin in the vector too *)
Definition starts_in (l : list segment) (n : nat) : Prop := forall s k, In (s, k) l -> s <= n.
