(* Vocabulary of C108. *)
From Coq Require Import Reals.
From Verif Require Import Base XReal.
Open Scope R_scope.

(* [f] maps the time interval [0, T] increasingly onto [0, len] *)
Record timed_onto (f : R -> res R) (T len : R) : Prop := {
  to_T_nonneg : 0 <= T;
  to_start : f 0 = Ok 0;
  to_end : f T = Ok len;
  to_onto : forall s, 0 <= s <= len -> exists t, 0 <= t <= T /\ f t = Ok s;
  to_inside : forall t, 0 <= t <= T -> exists s, f t = Ok s /\ 0 <= s <= len;
  to_incr : forall t t' s s', 0 <= t -> t < t' -> t' <= T -> f t = Ok s -> f t' = Ok s' -> s < s'
}.

(* [v2] : value at [s] of the function which is linear between two samples
   [(g k, x k)]; negative values of x count as 0 *)
Definition pos (v : R) : R := Rmax v 0.
Definition profile (g x : list R) (s v2 : R) : Prop :=
  exists k, (S k < length g)%nat /\ nth k g 0 <= s <= nth (S k) g 0 /\
  v2 * (nth (S k) g 0 - nth k g 0) =
    pos (nth k x 0) * (nth (S k) g 0 - s) + pos (nth (S k) x 0) * (s - nth k g 0).

(* the samples start at 0, increase, are at most [h] apart *)
Record good_grid (g : list R) (h : R) : Prop := {
  gg_first : nth 0 g 1 = 0;
  gg_incr : forall k, (S k < length g)%nat -> nth k g 0 < nth (S k) g 0;
  gg_step : forall k, (S k < length g)%nat -> nth (S k) g 0 - nth k g 0 <= h
}.

(* travel time of a sampled profile *)
Fixpoint travel (g x : list R) : R :=
  match g, x with
  | g0 :: ((g1 :: _) as g'), x0 :: ((x1 :: _) as x') =>
      2 * (g1 - g0) / (sqrt (pos x0) + sqrt (pos x1)) + travel g' x'
  | _, _ => 0
  end.
(* no two consecutive samples where the speed vanishes *)
Definition moving (x : list R) : Prop :=
  forall k, (S k < length x)%nat -> 0 < nth k x 0 \/ 0 < nth (S k) x 0.

(* sum of [f] over the first [j] elements *)
Definition upto {A} (f : A -> R) (l : list A) (j : nat) : R := fold_right (fun p s => f p + s) 0 (firstn j l).
