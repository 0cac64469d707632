(* src/continuous-validation/intervals.hh: class Intervals. *)
From Verif Require Import Base Ext.

Definition interval := (ext * ext)%type.   (* interval_t = pair of value_type *)
Definition intervals := list interval.     (* intervals_, line 182 *)

Section Union.
Variable iv : interval.

(* lines 68-90, cas 1: the list from [it] on.  The elements put in toErase
   are dropped. *)
Fixpoint cas1 (l : intervals) : intervals :=
  match l with
  | [] => [iv]
  | (a, b) :: r =>
      if eltb (snd iv) a then iv :: l
      else if eltb (snd iv) b then (fst iv, b) :: r
      else cas1 r
  end.

(* lines 91-124, cas 2: loop over the elements after [it]; [cur] is
   it->second.  Returns the final it->second and the elements kept.  The
   first branch (lines 96-99) does not break. *)
Fixpoint cas2 (cur : ext) (l : intervals) : ext * intervals :=
  match l with
  | [] => (cur, [])
  | (c, d) :: r =>
      if eltb (snd iv) c then let '(cur', r') := cas2 (snd iv) r in (cur', (c, d) :: r')
      else if eltb (snd iv) d then (d, r)
      else match r with
           | [] => (snd iv, [])
           | _ => cas2 cur r
           end
  end.
(* first turn of the same loop, it1 = it = (a, b) *)
Definition cas2_first (a b : ext) (r : intervals) : ext * intervals :=
  if eltb (snd iv) a then cas2 (snd iv) r
  else if eltb (snd iv) b then (b, r)
  else match r with
       | [] => (snd iv, [])
       | _ => cas2 b r
       end.

(* lines 53-132: unionInterval *)
Fixpoint union_interval (l : intervals) : intervals :=
  match l with
  | [] => [iv]
  | (a, b) :: r =>
      if eltb (fst iv) a then cas1 l
      else if eleb (fst iv) b then let '(b', r') := cas2_first a b r in (a, b') :: r'
      else (a, b) :: union_interval r
  end.
End Union.

(* lines 134-142 *)
Definition contains_interval (l : intervals) (iv : interval) : bool :=
  existsb (fun '(a, b) => eleb a (fst iv) && eleb (snd iv) b) l.
(* lines 144-162 *)
Definition contains_value (l : intervals) (v : ext) (reverse : bool) : bool :=
  existsb (fun '(a, b) => eleb a v && eleb v b) (if reverse then l else rev l).
