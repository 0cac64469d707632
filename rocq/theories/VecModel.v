(* Model of a PathVector seen from the optimizers: src/path-vector.cc.

   A path vector is the list of its sub-paths (paths_, path-vector.hh 176).
   The sub-paths are elements of an abstract type [P], known by what the
   vector calls on them.

   Simplifications.
   - value_type is Qc: no rounding.
   - the vector has neither constraints nor time parameterization and its time
     range is that given by appendPath: [0, sum of the lengths].
   - pathAtRank and copy return the sub-path itself (paths are immutable).
   - extract is modelled for increasing intervals only (the reversed ones are
     in PathModel.v); a decreasing interval gives UB here.
   - eval of a sub-path does not throw; extract of a sub-path may throw
     projection_error, which is the only meaning of Throw for [cut]. *)
From Verif Require Import Base QcTac PathModel.
Open Scope Qc_scope.

Section VecModel.
Variables C P : Type.
Variable init fin : P -> C.             (* Path::initial, Path::end *)
Variable rng : P -> Qc * Qc.            (* Path::timeRange *)
Variable ev : P -> Qc -> option C.      (* Path::eval; None: the constraints could not be applied *)
Variable cut : P -> Qc * Qc -> res P.   (* Path::extract *)

(* path.hh 193-195: length *)
Definition plen (p : P) : Qc := snd (rng p) - fst (rng p).

(* time range of the vector, after the calls to appendPath:
   src/path-vector.cc 71-77 *)
Fixpoint vlen (l : list P) : Qc :=
  match l with [] => 0 | p :: r => plen p + vlen r end.

(* path-vector.hh 129-132: initial and end; front () and back () of an empty
   vector are undefined *)
Definition vinit (l : list P) : res C :=
  match l with [] => UB | p :: _ => Ok (init p) end.
Definition vfin (l : list P) : res C :=
  match rev l with [] => UB | p :: _ => Ok (fin p) end.

(* src/path-vector.cc 40-69: rankAtParam *)
Definition vrank (l : list P) (t : Qc) : res (nat * Qc) := rank_at_param (map rng l) t.

(* src/path-vector.cc 116-126: impl_compute *)
Definition veval (l : list P) (t : Qc) : res (option C) :=
  bind (vrank l t) (fun il =>
    match nth_error l (fst il) with Some p => Ok (ev p (snd il)) | None => UB end).

(* src/path-vector.cc 174-195: impl_extract, increasing interval *)
Definition vextract (l : list P) (a b : Qc) : res (list P) :=
  if qltb b a then UB
  else
    bind (vrank l a) (fun ra =>
    bind (vrank l b) (fun rb =>
      let (ii, ti) := ra in
      let (ie, te) := rb in
      match nth_error l ii, nth_error l ie with
      | Some pi, Some pe =>
          if (ii =? ie)%nat then bind (cut pi (ti, te)) (fun x => Ok [x])
          else bind (cut pi (ti, snd (rng pi))) (fun x =>
               bind (cut pe (fst (rng pe), te)) (fun y =>
               Ok (x :: firstn (ie - ii - 1) (skipn (ii + 1) l) ++ [y])))
      | _, _ => UB
      end)).

End VecModel.

Arguments plen {P} rng p.
Arguments vlen {P} rng l.
Arguments vinit {C P} init l.
Arguments vfin {C P} fin l.
Arguments vrank {P} rng l t.
Arguments veval {C P} rng ev l t.
Arguments vextract {P} rng cut l a b.
