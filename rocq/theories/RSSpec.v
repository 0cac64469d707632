(* Independent vocabulary for the paths of a car that drives both ways. *)
From Coq Require Import Reals List.
From Verif Require Import CurvModel CurvSpec DubinsModel DubinsSpec.
Import ListNotations.
Open Scope R_scope.

(* length driven, forward and backward *)
Definition travel (ps : list cpath) : R := total (fun p => Rabs (p_cl p)) ps.

(* distance between the positions *)
Definition gap (q q' : cfg) : R := sqrt ((cx q' - cx q) * (cx q' - cx q) + (cy q' - cy q) * (cy q' - cy q)).

(* The goal is not in the immediate neighbourhood of the start: positions and
   headings, the unit of length being the turning radius. *)
Definition apart (rho : R) (q q' : cfg) : Prop :=
  forall a a', cc q = cos a -> cs q = sin a -> cc q' = cos a' -> cs q' = sin a' ->
  / 100000000 <= (gap q q' / rho) ^ 2 + (a' - a) ^ 2.

(* position up to e, heading up to f *)
Definition close_place (e f : R) (q q' : cfg) : Prop :=
  Rabs (cx q - cx q') <= e /\ Rabs (cy q - cy q') <= e /\ Rabs (cc q - cc q') <= f /\ Rabs (cs q - cs q') <= f.

(* length of a word whose lengths are negative when it is driven backward *)
Definition word_length (ls : list R) : R := fold_right (fun l n => Rabs l + n) 0 ls.

(* Words of Reeds and Shepp: [C] stands for an arc to the left or to the
   right, [S] for a straight segment, [x] for a change of direction.  The
   length of an arc is at most half a circle. *)
Inductive rs_word : list seg -> list R -> Prop :=
| word_CSC a b t u v : a <> S_SEG -> b <> S_SEG -> 0 <= t < PI -> 0 < u -> 0 <= v < PI ->
    rs_word [a; S_SEG; b] [t; u; v]
| word_CxCC a b t u v : a <> S_SEG -> b <> S_SEG -> a <> b -> 0 <= t < PI -> 0 < u <= PI -> - PI < v < PI ->
    rs_word [a; b; a] [t; - u; v]
| word_CCxC a b t u v : a <> S_SEG -> b <> S_SEG -> a <> b -> 0 <= t < PI -> 0 < u <= PI -> - PI < v < PI ->
    rs_word [a; b; a] [v; - u; t]
| word_CCxCC a b t u v : a <> S_SEG -> b <> S_SEG -> a <> b -> 0 <= t < PI -> 0 <= u < PI / 3 -> - PI < v <= 0 ->
    rs_word [a; b; a; b] [t; u; - u; v]
| word_CxCCxC a b t u v : a <> S_SEG -> b <> S_SEG -> a <> b -> 0 <= t < PI -> - (PI / 2) <= u <= 0 -> 0 <= v < PI ->
    rs_word [a; b; a; b] [t; u; u; v]
| word_CxCSC a b c t u v : a <> S_SEG -> b <> S_SEG -> a <> b -> c <> S_SEG -> 0 <= t < PI -> u <= 0 -> - PI < v <= 0 ->
    rs_word [a; b; S_SEG; c] [t; - (PI / 2); u; v]
| word_CSCxC a b c t u v : a <> S_SEG -> b <> S_SEG -> a <> b -> c <> S_SEG -> 0 <= t < PI -> u <= 0 -> - PI < v <= 0 ->
    rs_word [c; S_SEG; b; a] [v; u; - (PI / 2); t]
| word_CxCSCxC a b t u v : a <> S_SEG -> b <> S_SEG -> a <> b -> 0 <= t < PI -> u <= 0 -> 0 <= v < PI ->
    rs_word [a; b; S_SEG; a; b] [t; - (PI / 2); u; - (PI / 2); v]
| word_reverse ss ls : rs_word ss ls -> rs_word ss (map Ropp ls).
