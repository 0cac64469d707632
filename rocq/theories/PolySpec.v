(* Independent vocabulary: polynomials, derivatives in the sense of real
   analysis, sorted lists of instants, time laws. *)
From Coq Require Import Reals List.
Import ListNotations.
Open Scope R_scope.

(* c0 + c1 t + c2 t^2 + ... *)
Fixpoint poly (a : list R) (t : R) : R :=
  match a with [] => 0 | c :: a' => c + t * poly a' t end.

(* g is the k-th derivative of f on the real line *)
Fixpoint nth_derivative (k : nat) (f g : R -> R) : Prop :=
  match k with
  | O => forall t, f t = g t
  | S k' => exists f1, (forall t, derivable_pt_lim f t (f1 t)) /\ nth_derivative k' f1 g
  end.

Fixpoint increasing (l : list R) : Prop :=
  match l with
  | x :: ((y :: _) as l') => x < y /\ increasing l'
  | _ => True
  end.

(* [f] maps [0,T] increasingly onto [s0,s1]; its speed is at most B; it starts
   and stops with zero derivatives up to [order]; its acceleration is at most
   C when order is 2 and C is positive. *)
Record good_law (order : nat) (B C s0 s1 T : R) (f : R -> R) : Prop := {
  gl_pos : 0 < T;
  gl_init : f 0 = s0;
  gl_end : f T = s1;
  gl_incr : forall t u, 0 <= t -> t < u -> u <= T -> f t < f u;
  gl_onto : forall s, s0 <= s <= s1 -> exists t, 0 <= t <= T /\ f t = s;
  gl_der : exists f1 f2,
    (forall t, derivable_pt_lim f t (f1 t)) /\ (forall t, derivable_pt_lim f1 t (f2 t)) /\
    (forall t, 0 <= t <= T -> 0 <= f1 t <= B) /\
    ((1 <= order)%nat -> f1 0 = 0 /\ f1 T = 0) /\
    ((2 <= order)%nat -> f2 0 = 0 /\ f2 T = 0) /\
    ((2 <= order)%nat -> 0 < C -> forall t, 0 <= t <= T -> Rabs (f2 t) <= C)
}.
