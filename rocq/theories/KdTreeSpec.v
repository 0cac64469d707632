(* What a nearest neighbour structure must answer. *)
From Coq Require Import Reals.
From Verif Require Import Base XReal KdTreeModel.
Open Scope R_scope.

(* the nodes present and the component of each node after a history *)
Fixpoint present (ops : list op) (ns : list node) : list node :=
  match ops with
  | [] => ns
  | Add n :: ops' => present ops' (n :: ns)
  | Clear :: ops' => present ops' []
  | _ :: ops' => present ops' ns
  end.
Fixpoint component (ops : list op) (comp : nat -> nat) : nat -> nat :=
  match ops with
  | [] => comp
  | KMerge c1 c2 :: ops' | RMerge c1 c2 :: ops' =>
      component ops' (fun i => if (comp i =? c2)%nat then c1 else comp i)
  | _ :: ops' => component ops' comp
  end.

(* (m, r) is a right answer to: which element of [S] is closest to q *)
Definition is_nearest (d : (nat -> R) -> (nat -> R) -> R) (S : node -> Prop) (q : nat -> R) (a : xr * option node) : Prop :=
  match snd a with
  | None => fst a = PInf /\ forall n, ~ S n
  | Some n => S n /\ fst a = Fin (d (ncfg n) q) /\ forall n', S n' -> d (ncfg n) q <= d (ncfg n') q
  end.

(* within bounds which may be infinite *)
Definition in_bounds (dim : nat) (blo bhi : nat -> xr) (x : nat -> R) : Prop :=
  forall k, (k < dim)%nat ->
    match blo k with Fin r => r <= x k | MInf => True | _ => False end /\
    match bhi k with Fin r => x k <= r | PInf => True | _ => False end.

(* the distance is at least the weighted Euclidean distance *)
Fixpoint weighted_square (dim : nat) (wt : nat -> R) (x y : nat -> R) : R :=
  match dim with
  | O => 0
  | S k => weighted_square k wt x y + (wt k * (x k - y k)) * (wt k * (x k - y k))
  end.
Definition dominates (dim : nat) (wt : nat -> R) (d : (nat -> R) -> (nat -> R) -> R) : Prop :=
  forall x y, 0 <= d x y /\ weighted_square dim wt x y <= d x y * d x y.

(* two nodes differ in a coordinate which counts *)
Definition differ (dim : nat) (wt : nat -> R) (a b : node) : Prop :=
  exists k, (k < dim)%nat /\ 0 < wt k /\ ncfg a k <> ncfg b k.
