(* Continuous validation of a path: the loops of Dichotomy and Progressive,
   the interval computation of a pair of bodies, and the conjunction over
   pairs.
   Sources: src/continuous-validation/dichotomy.cc, progressive.cc,
   body-pair-collision.cc, helper.hh,
   include/hpp/core/continuous-validation.hh (validateIntervals),
   src/continuous-validation.cc (validateConfiguration).
   Doubles are rationals extended with infinities, without rounding. *)
From Verif Require Import Base Ext IntervalsModel.

(* helper.hh 36-41 *)
Definition first_ (I : interval) (reverse : bool) : ext := if reverse then snd I else fst I.
Definition second_ (I : interval) (reverse : bool) : ext := first_ I (negb reverse).

(* What validateStraightPath returns: the boolean, the bounds of the valid
   part (path->extract(lo, hi)) and the parameter in the report. *)
Inductive vres := Valid | Invalid (lo hi : ext) (param : Q).

Section Loops.
Variable S : Type.                               (* state of the validators *)
Variable ev : Q -> bool.                         (* path->eval(q, t) succeeds *)
Variable vc : S -> Q -> S * option interval.     (* validateConfiguration *)
Variable reverse : bool.
Variables ta tb : Q.                             (* path->timeRange() *)
Definition tr : interval := (Fin ta, Fin tb).
Definition tstart : Q := if reverse then tb else ta.

(* dichotomy.cc 88-101: evaluate and validate at t *)
Definition check (s : S) (t : Q) : S * option interval := if ev t then vc s t else (s, None).

(* dichotomy.cc 103-109: middle of the first non validated interval.  None
   stands for an infinite or missing bound. *)
Definition next_param (l : intervals) : option Q :=
  match (if reverse then rev l else l) with
  | [] => None
  | i0 :: rest =>
      let t0 := second_ i0 reverse in
      let t1 := match rest with [] => second_ tr reverse | i1 :: _ => first_ i1 reverse end in
      match t0, t1 with Fin p, Fin q => Some ((1 # 2) * (p + q))%Q | _, _ => None end
  end.
(* dichotomy.cc 111-121: bounds of the valid part of an invalid path *)
Definition valid_part (l : intervals) : ext * ext :=
  match (if reverse then rev l else l) with
  | [] => (Fin ta, Fin ta)
  | i0 :: _ => if reverse then (fst i0, Fin tb) else (Fin ta, snd i0)
  end.
(* dichotomy.cc 86-110: the while loop.  The next parameter is also computed,
   and not used, when the loop stops; it is not here. *)
Fixpoint dich (fuel : nat) (s : S) (l : intervals) (t : Q) : S * res vres :=
  match fuel with
  | 0 => (s, Fuel)
  | Datatypes.S k =>
      match check s t with
      | (s', None) => (s', Ok (Invalid (fst (valid_part l)) (snd (valid_part l)) t))
      | (s', Some iv) =>
          let l' := union_interval iv l in
          if contains_interval l' tr then (s', Ok Valid)
          else match next_param l' with
               | None => (s', UB)
               | Some t' => dich k s' l' t'
               end
      end
  end.
(* dichotomy.cc 68-132, after setPath *)
Definition dichotomy (fuel : nat) (s : S) : S * res vres :=
  dich fuel s (union_interval (Fin tstart, Fin tstart) []) tstart.

(* progressive.cc 100, 116-119: the end of the range is reached *)
Definition past_end (t : ext) : bool :=
  if reverse then eleb t (Fin ta) else eleb (Fin tb) t.
Definition tend : Q := if reverse then ta else tb.
(* progressive.cc 101-120: the while loop, lines 121-128 for the result *)
Fixpoint prog (fuel : nat) (s : S) (last t : Q) (finished : nat) : S * res vres :=
  if 2 <=? finished then (s, Ok Valid)
  else match fuel with
       | 0 => (s, Fuel)
       | Datatypes.S k =>
           match check s t with
           | (s', None) =>
               (s', Ok (if reverse then Invalid (Fin last) (Fin tb) t else Invalid (Fin ta) (Fin last) t))
           | (s', Some iv) =>
               let t' := second_ iv reverse in
               if past_end t' then prog k s' t tend (finished + 1)
               else match t' with
                    | Fin q => prog k s' t q finished
                    | _ => (s', UB)
                    end
           end
       end.
Definition progressive (fuel : nat) (s : S) : S * res vres :=
  prog fuel s tstart tstart (if past_end (Fin tstart) then 1 else 0).
End Loops.

(* ------------------------------------------------------------------ *)
(* A pair of bodies: class BodyPairCollision                           *)

(* division of a positive distance, or of twice the tolerance, by a velocity *)
Definition ediv (d : Q) (v : ext) : ext :=
  match v with
  | Fin q => if Qeq_bool q 0 then PInf else Fin (d / q)%Q
  | _ => Fin 0
  end.
Definition eadd (a b : ext) : ext :=
  match a, b with Fin p, Fin q => Fin (p + q)%Q | _, _ => PInf end. (* of nonnegative lengths *)
Definition minus_ (t : Q) (h : ext) : ext := match h with Fin q => Fin (t - q)%Q | _ => NInf end.
Definition plus_ (t : Q) (h : ext) : ext := match h with Fin q => Fin (t + q)%Q | _ => PInf end.

(* static part: pairs of objects, given by the outcome of
   prs[i].collide at parameter t (None: collision; Some d: no collision,
   distance lower bound d), and the velocity bound
   computeMaximalVelocity(path_->velocityBound(tm, tM)). *)
Record pair := mkPair {
  p_objs : nat;                          (* number of pairs of objects *)
  p_coll : nat -> Q -> option ext;
  p_vel : ext -> ext -> Q;
  p_straight : bool                      (* the path is a StraightPath *) }.
(* interval-validation.hh 108-109: valid_, validInterval_.  The
   boost::icl::interval_set is the Intervals model. *)
Record pstate := mkPs { p_valid : bool; p_set : intervals }.
(* interval-validation.hh 84-90: path(path, reverse) *)
Definition pinit : pstate := mkPs false [].

(* body-pair-collision.cc 175-198: computeDistanceLowerBound *)
Fixpoint dist_bound (p : pair) (t : Q) (n : nat) : option ext :=
  match n with
  | 0 => Some PInf
  | S k => match dist_bound p t k with
           | None => None
           | Some b => match p_coll p k t with
                       | None => None
                       | Some d => Some (if eltb d b then d else b)
                       end
           end
  end.

Section Pair.
Variables ta tb tol : Q.
(* body-pair-collision.cc 101-117: setupPath *)
Definition max_vel (p : pair) : ext :=
  if Qeq_bool (tb - ta) 0 then PInf else Fin (p_vel p (Fin ta) (Fin tb)).
Definition refine (p : pair) : bool :=
  if Qeq_bool (tb - ta) 0 then false else negb (p_straight p).
(* body-pair-collision.cc 119-173: collisionFreeInterval, Nrefine = 2.
   Returns the half length and maxVelocity. *)
Definition refine_step (p : pair) (t d : Q) (left right : bool) (T : ext) : ext * ext :=
  let tm := minus_ t (if left then Fin 0 else T) in
  let tM := plus_ t (if right then Fin 0 else T) in
  let V := Fin (p_vel p tm tM) in (ediv d V, V).
Definition collision_free_interval (p : pair) (t d : Q) : ext * ext :=
  let T0 := ediv d (max_vel p) in
  if negb (refine p) then (T0, max_vel p)
  else
    let left := eltb (minus_ t T0) (Fin ta) in
    let right := eltb (Fin tb) (plus_ t T0) in
    if left && right then (T0, max_vel p)
    else
      let '(T1, _) := refine_step p t d left right T0 in
      let '(T2, _) := refine_step p t d left right T1 in
      let '(T3, _) := refine_step p t d left right T2 in
      refine_step p t d left right T3.

(* body-pair-collision.cc 45-99: validateConfiguration(t, interval) *)
Definition pair_validate (p : pair) (st : pstate) (t : Q) (iv : interval) : pstate * option interval :=
  if p_valid st then (st, Some (Fin ta, Fin tb))
  else if contains_interval (p_set st) iv then (st, Some iv)
  else match dist_bound p t (p_objs p) with
       | None => (st, None)
       | Some d =>
           let '(hd, ht) := match d with
                            | Fin q => let '(hd, V) := collision_free_interval p t q in
                                       (hd, match V with
                                            | Fin v => if Qeq_bool v 0 then PInf else ediv (2 * tol)%Q V
                                            | _ => Fin 0
                                            end)
                            | _ => (PInf, Fin 0)
                            end in
           let h := eadd hd ht in
           let iv' := (minus_ t h, plus_ t h) in
           let set' := union_interval iv' (p_set st) in
           (mkPs (contains_interval set' (Fin ta, Fin tb)) set', Some iv')
       end.

(* include/hpp/core/continuous-validation.hh 267-298: validateIntervals.
   Returns the interval and the rank of smallestInterval. *)
Fixpoint validate_intervals (l : list (pair * pstate)) (t : Q) (iv : interval) (i small : nat)
  : list (pair * pstate) * option (interval * nat) :=
  match l with
  | [] => ([], Some (iv, small))
  | (p, st) :: r =>
      match pair_validate p st t iv with
      | (st', None) => ((p, st') :: r, None)
      | (st', Some tmp) =>
          let small' := if eltb (snd tmp) (snd iv) then i else small in
          let iv' := (emax (fst iv) (fst tmp), emin (snd iv) (snd tmp)) in
          let '(r', o) := validate_intervals r t iv' (i + 1) small' in
          ((p, st') :: r', o)
      end
  end.
(* std::iter_swap(begin, begin + k) *)
Definition swap0 {A} (l : list A) (k : nat) : list A :=
  match l, nth_error l k with
  | x :: r, Some y => match k with 0 => l | S k' => y :: firstn k' r ++ x :: skipn k r end
  | _, _ => l
  end.
(* src/continuous-validation.cc 125-148: validateConfiguration *)
Definition validate_configuration (l : list (pair * pstate)) (t : Q) : list (pair * pstate) * option interval :=
  match validate_intervals l t (NInf, PInf) 0 0 with
  | (l', None) => (l', None)
  | (l', Some (iv, k)) => (if (1 <? length l') && negb (k =? 0) then swap0 l' k else l', Some iv)
  end.
End Pair.

(* setPath, then the loop: validateStraightPath of the two methods *)
Definition init_pairs (l : list pair) : list (pair * pstate) := map (fun p => (p, pinit)) l.
Definition dichotomy_validate (fuel : nat) (ev : Q -> bool) (l : list pair) (reverse : bool) (ta tb : Q) :=
  dichotomy _ ev (validate_configuration ta tb 0) reverse ta tb fuel (init_pairs l).
Definition progressive_validate (fuel : nat) (ev : Q -> bool) (tol : Q) (l : list pair) (reverse : bool) (ta tb : Q) :=
  progressive _ ev (validate_configuration ta tb tol) reverse ta tb fuel (init_pairs l).
