(* Model of the path classes: include/hpp/core/path.hh, src/path.cc,
   src/extracted-path.hh, src/straight-path.cc, src/interpolated-path.cc,
   src/path-vector.cc.

   Simplifications.
   - value_type is Qc (rationals with Leibniz equality): no rounding.
   - a configuration is an element of an abstract type [conf]; the Lie group
     interpolation is a parameter [interp].
   - a constraint set is the pair of its effect on a configuration once the
     right hand side has been set at a parameter (ConfigProjector::
     rightHandSideAt followed by ConstraintSet::apply; None = failure) and of
     its satisfaction test.
   - shared pointers are replaced by values: the paths are immutable once
     built, so that copy() is the identity.
   - assert()s are not executed (release build).
   - [Gen] stands for any path class that does not redefine impl_extract and
     reverse (path::Spline, path::Hermite, SubchainPath): only its
     impl_compute is known, as a function of the parameter. *)
From Verif Require Import Base QcTac.
Open Scope Qc_scope.

Section PathModel.
Variable conf : Type.
(* hpp::pinocchio::LiegroupSpace::interpolate (q0, q1, u) *)
Variable interp : conf -> conf -> Qc -> conf.

(* ConstraintSet, seen from Path::applyConstraints and Path::checkPath
   (src/path.cc 140-146, 235-270) *)
Record constr := mkC { c_apply : Qc -> conf -> option conf; c_sat : Qc -> conf -> bool }.

Definition itv := (Qc * Qc)%type.

(* data members of class Path: path.hh 270 (paramRange_), 338-359 *)
Record hdr := mkH { tr : itv; pr : itv; cs : option constr; tp : option (Qc -> Qc) }.

(* src/path.cc 88-109: constructors; paramRange_ = timeRange_ = interval *)
Definition mk_hdr (I : itv) (c : option constr) : hdr := mkH I I c None.

(* path.hh 283-290: timeRange (timeRange) *)
Definition set_tr (h : hdr) (I : itv) : hdr :=
  match tp h with
  | Some f => mkH I (f (fst I), f (snd I)) (cs h) (tp h)
  | None => mkH I I (cs h) None
  end.
(* path.hh 225-229: timeParameterization (tp, tr) *)
Definition set_tp (h : hdr) (f : option (Qc -> Qc)) (I : itv) : hdr :=
  set_tr (mkH (tr h) (pr h) (cs h) f) I.

Inductive path : Type :=
| Straight (h : hdr) (q0 q1 : conf)             (* StraightPath *)
| Interp (h : hdr) (ks : list (Qc * conf))      (* InterpolatedPath: configs_, sorted by key *)
| Gen (h : hdr) (f : Qc -> option conf)         (* any class using Path::impl_extract *)
| Extr (h : hdr) (o : path) (rv : bool)         (* ExtractedPath: original_, reversed_ *)
| PV (h : hdr) (subs : list path).              (* PathVector: paths_ *)

Definition hd_of (p : path) : hdr :=
  match p with
  | Straight h _ _ => h | Interp h _ => h | Gen h _ => h | Extr h _ _ => h | PV h _ => h
  end.
Definition with_hd (p : path) (h : hdr) : path :=
  match p with
  | Straight _ a b => Straight h a b | Interp _ k => Interp h k | Gen _ f => Gen h f
  | Extr _ o r => Extr h o r | PV _ s => PV h s
  end.
Definition timeRange (p : path) : itv := tr (hd_of p).
Definition paramRange (p : path) : itv := pr (hd_of p).

(* path.hh 193-195: length () *)
Definition ilen (I : itv) : Qc := snd I - fst I.
Definition plength (p : path) : Qc := ilen (timeRange p).

(* path.hh 340-345: paramAtTime *)
Definition param_at (h : hdr) (t : Qc) : Qc :=
  match tp h with Some f => f t | None => t end.

(* src/path.cc 140-146: applyConstraints *)
Definition apply_cs (h : hdr) (s : Qc) (r : res (option conf)) : res (option conf) :=
  match r with
  | Ok (Some q) => match cs h with None => Ok (Some q) | Some c => Ok (c_apply c s q) end
  | other => other
  end.

(* src/path-vector.cc 44-55: search loop of rankAtParam, on the time ranges of
   the sub-paths; returns rank, local parameter and range of the sub-path *)
Fixpoint rank_loop (rs : list itv) (param : Qc) (i : nat) : option (nat * Qc * itv) :=
  match rs with
  | [] => None
  | r :: rest =>
      match rest with
      | [] => Some (i, param, r)
      | _ => if qltb (ilen r) param then rank_loop rest (param - ilen r) (S i)
             else Some (i, param, r)
      end
  end.
(* src/path-vector.cc 40-69: rankAtParam *)
Definition rank_at_param (rs : list itv) (param : Qc) : res (nat * Qc) :=
  match rank_loop rs param 0%nat with
  | None => Throw
  | Some (i, lp, r) =>
      if qltb (ilen r) lp then
        if negb (i =? (length rs - 1))%nat then Throw else Ok (i, snd r)
      else Ok (i, lp + fst r)
  end.

(* std::map::lower_bound with the preceding element; None when lower_bound is
   begin () (decrementing it is undefined) or end () *)
Fixpoint lb_prev (prev : option (Qc * conf)) (ks : list (Qc * conf)) (s : Qc)
  : option ((Qc * conf) * (Qc * conf)) :=
  match ks with
  | [] => None
  | k :: r => if qleb s (fst k) then match prev with Some a => Some (a, k) | None => None end
              else lb_prev (Some k) r s
  end.

Definition klast (ks : list (Qc * conf)) : option (Qc * conf) :=
  match rev ks with [] => None | k :: _ => Some k end.

(* src/interpolated-path.cc 124-150: impl_compute *)
Definition interp_compute (h : hdr) (ks : list (Qc * conf)) (s : Qc) : res (option conf) :=
  match ks with
  | [] => UB
  | k0 :: _ =>
      if qeqb s (fst (pr h)) || qeqb (ilen (pr h)) 0 then Ok (Some (snd k0))
      else match klast ks with
      | None => UB
      | Some kl =>
          if qleb (fst kl) s then Ok (Some (snd kl))
          else match lb_prev None ks s with
          | None => UB
          | Some (b, a) =>
              Ok (Some (interp (snd b) (snd a) ((s - fst b) / (fst a - fst b))))
          end
      end
  end.

(* src/straight-path.cc 91-110: impl_compute *)
Definition straight_compute (h : hdr) (q0 q1 : conf) (s : Qc) : conf :=
  let L := ilen (pr h) in
  if qeqb s (fst (pr h)) || qeqb L 0 then q0
  else if qeqb s (snd (pr h)) then q1
  else interp q0 q1 ((s - fst (pr h)) / L).

(* src/extracted-path.hh 188-192: sInOriginalPath *)
Definition s_in_original (h : hdr) (rv : bool) (s : Qc) : Qc :=
  if rv then snd (pr h) - s else s.

(* impl_compute: src/straight-path.cc 91-110, src/interpolated-path.cc 124-150,
   src/extracted-path.hh 79-82, src/path-vector.cc 116-126; the call
   subpath->eval is path.hh 135-140 *)
Fixpoint compute (p : path) (s : Qc) : res (option conf) :=
  match p with
  | Straight h q0 q1 => Ok (Some (straight_compute h q0 q1 s))
  | Interp h ks => interp_compute h ks s
  | Gen _ f => Ok (f s)
  | Extr h o rv => compute o (s_in_original h rv s)
  | PV h subs =>
      bind (rank_at_param (map timeRange subs) s) (fun il =>
        match nth_error (map (fun x t => apply_cs (hd_of x) (param_at (hd_of x) t)
                                           (compute x (param_at (hd_of x) t))) subs) (fst il) with
        | Some e => e (snd il)
        | None => UB
        end)
  end.

(* path.hh 296-302: configAtParam *)
Definition config_at (p : path) (s : Qc) : res (option conf) :=
  apply_cs (hd_of p) s (compute p s).
(* path.hh 130-140: eval (time) *)
Definition eval (p : path) (t : Qc) : res (option conf) :=
  config_at p (param_at (hd_of p) t).

(* initial () and end (): straight-path.hh 166-169, interpolated-path.hh
   172-175, extracted-path.hh 120-131 (the success flag is ignored there),
   path-vector.hh 129-132.  For [Gen] the value at the bounds of the parameter
   range. *)
Fixpoint initial (p : path) : res (option conf) :=
  match p with
  | Straight _ q0 _ => Ok (Some q0)
  | Interp _ ks => match ks with [] => UB | k :: _ => Ok (Some (snd k)) end
  | Gen h f => Ok (f (fst (pr h)))
  | Extr h o rv => eval o (if rv then snd (tr h) else fst (tr h))
  | PV _ subs => match subs with [] => UB | x :: _ => initial x end
  end.
Fixpoint end_ (p : path) : res (option conf) :=
  match p with
  | Straight _ _ q1 => Ok (Some q1)
  | Interp _ ks => match klast ks with None => UB | Some k => Ok (Some (snd k)) end
  | Gen h f => Ok (f (snd (pr h)))
  | Extr h o rv => eval o (if rv then fst (tr h) else snd (tr h))
  | PV _ subs => last (map end_ subs) UB
  end.

(* src/path.cc 235-270: checkPath, for the classes that call it *)
Definition check_ends (h : hdr) (qi qe : conf) : bool :=
  match cs h with
  | None => true
  | Some c => c_sat c (fst (pr h)) qi && c_sat c (snd (pr h)) qe
  end.

(* straight-path.hh 62-75: create *)
Definition straight_create (q0 q1 : conf) (I : itv) (c : option constr) : res path :=
  let h := mk_hdr I c in
  if check_ends h q0 q1 then Ok (Straight h q0 q1) else Throw.

(* interpolated-path.hh 167-169: insert; std::map::insert does not overwrite *)
Fixpoint kinsert (k : Qc) (q : conf) (ks : list (Qc * conf)) : list (Qc * conf) :=
  match ks with
  | [] => [(k, q)]
  | (k', q') :: r =>
      if qltb k k' then (k, q) :: ks
      else if qeqb k k' then ks
      else (k', q') :: kinsert k q r
  end.
(* src/interpolated-path.cc 39-64, 112-116: constructor and init *)
Definition interp_create (q0 q1 : conf) (I : itv) (c : option constr) : res path :=
  let h := mk_hdr I c in
  let ks := kinsert (snd I) q1 (kinsert (fst I) q0 []) in
  match ks, klast ks with
  | k0 :: _, Some k1 => if check_ends h (snd k0) (snd k1) then Ok (Interp h ks) else Throw
  | _, _ => UB
  end.
Definition path_insert (k : Qc) (q : conf) (p : path) : path :=
  match p with Interp h ks => Interp h (kinsert k q ks) | _ => p end.

(* configAtParam followed by "if (!success) throw projection_error" *)
Definition config_or_throw (r : res (option conf)) : res conf :=
  bind r (fun o => match o with Some q => Ok q | None => Throw end).

(* src/straight-path.cc 142-158: impl_extract *)
Definition straight_extract (h : hdr) (q0 q1 : conf) (I : itv) : res path :=
  let p := Straight h q0 q1 in
  let l := if qleb (fst I) (snd I) then snd I - fst I else fst I - snd I in
  bind (config_or_throw (config_at p (fst I))) (fun a =>
  bind (config_or_throw (config_at p (snd I))) (fun b =>
  straight_create a b (0, l) (cs h))).

(* src/interpolated-path.cc 239-244: insertion loops of impl_extract; reading
   end () ([] here) is undefined *)
Fixpoint extract_loop (ks : list (Qc * conf)) (tmax : Qc) (key : Qc -> Qc) (acc : path)
  : res path :=
  match ks with
  | [] => UB
  | k :: r => if qltb (fst k) tmax
              then extract_loop r tmax key (path_insert (key (fst k)) (snd k) acc)
              else Ok acc
  end.
(* std::map::upper_bound *)
Fixpoint upper (ks : list (Qc * conf)) (t : Qc) : list (Qc * conf) :=
  match ks with
  | [] => []
  | k :: r => if qltb t (fst k) then ks else upper r t
  end.
(* src/interpolated-path.cc 213-247: impl_extract *)
Definition interp_extract (h : hdr) (ks : list (Qc * conf)) (I : itv) : res path :=
  let p := Interp h ks in
  let rv := qltb (snd I) (fst I) in
  let tmin := if rv then snd I else fst I in
  let tmax := if rv then fst I else snd I in
  let l := tmax - tmin in
  bind (config_or_throw (config_at p (fst I))) (fun q1 =>
  bind (config_or_throw (config_at p (snd I))) (fun q2 =>
  bind (interp_create q1 q2 (0, l) (cs h)) (fun r =>
  extract_loop (upper ks tmin) tmax
    (fun k => if rv then l - (k - tmin) else k - tmin) r))).

(* src/interpolated-path.cc 249-264: reverse *)
Definition interp_reverse (h : hdr) (ks : list (Qc * conf)) : res path :=
  let l := ilen (pr h) in
  match ks, klast ks with
  | k0 :: _, Some kl =>
      bind (interp_create (snd kl) (snd k0) (0, l) (cs h)) (fun r =>
        Ok (if (2 <? length ks)%nat then
              fold_left (fun acc k => path_insert (l - fst k) (snd k) acc)
                        (tl (rev (tl ks))) r
            else r))
  | _, _ => UB
  end.

(* src/path.cc 223-226: impl_extract of the base class, and constructor of
   ExtractedPath (src/extracted-path.hh 149-164) *)
Definition base_extract (p : path) (I : itv) : res path :=
  if qeqb (fst I) (fst (paramRange p)) && qeqb (snd I) (snd (paramRange p)) then Ok p
  else
    let rv := negb (qleb (fst I) (snd I)) in
    Ok (Extr (mk_hdr (if rv then (snd I, fst I) else I) (cs (hd_of p))) p rv).

(* src/extracted-path.hh 102-117: impl_extract *)
Definition extr_extract (h : hdr) (o : path) (rv : bool) (I : itv) : res path :=
  let t0 := s_in_original h rv (fst I) in
  let t1 := s_in_original h rv (snd I) in
  let rv' := qltb t1 t0 in
  Ok (Extr (set_tp h None (if rv' then (t1, t0) else (t0, t1))) o rv').

(* src/path.cc 175-221: extract; the value of Shift::createWithCheck is
   discarded by the code *)
Definition ext_wrap (p : path) (impl : itv -> res path) (I : itv) : res path :=
  match tp (hd_of p) with
  | None => impl I
  | Some f =>
      let PI := (f (fst I), f (snd I)) in
      bind (impl PI) (fun r =>
        let TI :=
          if qltb (snd I) (fst I) then
            if qeqb (fst (paramRange r) - snd PI) 0 then (snd I, fst I)
            else (0, fst I - snd I)
          else
            if qeqb (fst (paramRange r) - fst PI) 0 then I
            else (0, snd I - fst I) in
        Ok (with_hd r (set_tp (hd_of r) (Some f) TI)))
  end.

(* path-vector.hh 50-67: create *)
Definition pv_create (c : option constr) : path := PV (mk_hdr (0, 0) c) [].
(* src/path-vector.cc 71-77: appendPath *)
Definition append (pv x : path) : path :=
  match pv with
  | PV h subs => PV (set_tr h (fst (tr h), snd (tr h) + plength x)) (subs ++ [x])
  | _ => pv
  end.

Fixpoint sequence {A} (l : list (res A)) : res (list A) :=
  match l with
  | [] => Ok []
  | r :: rest => bind r (fun a => bind (sequence rest) (fun t => Ok (a :: t)))
  end.

Definition Iinit (I : itv) (rv : bool) : Qc := if rv then snd I else fst I.
Definition Iend (I : itv) (rv : bool) : Qc := if rv then fst I else snd I.

(* src/path-vector.cc 140-145, 174-195: impl_extract.  [ex] and [rvs] are the extract
   and reverse methods of the sub-paths.  The index loop runs from iinit + one
   to the last index before iend; the order of the ranks is that of the
   parameters. *)
Definition pv_extract (subs : list path) (ex : list (itv -> res path)) (rvs : list (res path))
  (I : itv) : res path :=
  let rv := qltb (snd I) (fst I) in
  bind (rank_at_param (map timeRange subs) (fst I)) (fun a =>
  bind (rank_at_param (map timeRange subs) (snd I)) (fun b =>
  let (ii, ti) := a in
  let (ie, te) := b in
  let call i J := match nth_error ex i with Some e => e J | None => UB end in
  let range i := match nth_error subs i with Some x => timeRange x | None => (0, 0) end in
  if (ii =? ie)%nat then
    bind (call ii (ti, te)) (fun x => Ok (append (pv_create None) x))
  else
    bind (call ii (ti, Iend (range ii) rv)) (fun first =>
    bind (sequence (map (fun i =>
            if rv then match nth_error rvs i with Some r => r | None => UB end
            else match nth_error subs i with Some x => Ok x | None => UB end)
          (if rv then rev (seq (ie + 1) (ii - ie - 1)) else seq (ii + 1) (ie - ii - 1))))
      (fun mid =>
    bind (call ie (Iinit (range ie) rv, te)) (fun last =>
    Ok (fold_left append (first :: mid ++ [last]) (pv_create None))))))).

(* extract (virtual impl_extract wrapped by Path::extract) and reverse:
   src/path.cc 175-233, src/path-vector.cc 174-204 *)
Fixpoint ops (p : path) : (itv -> res path) * res path :=
  let generic (impl : itv -> res path) :=
    (ext_wrap p impl, ext_wrap p impl (snd (timeRange p), fst (timeRange p))) in
  match p with
  | Straight h q0 q1 => generic (straight_extract h q0 q1)
  | Interp h ks => (ext_wrap p (interp_extract h ks), interp_reverse h ks)
  | Gen h f => generic (base_extract p)
  | Extr h o rv => generic (extr_extract h o rv)
  | PV h subs =>
      (ext_wrap p (pv_extract subs (map (fun x => fst (ops x)) subs)
                                   (map (fun x => snd (ops x)) subs)),
       bind (sequence (rev (map (fun x => snd (ops x)) subs))) (fun l =>
         Ok (fold_left append l (pv_create None))))
  end.
Definition extract (p : path) (I : itv) : res path := fst (ops p) I.
Definition reverse (p : path) : res path := snd (ops p).

(* copy (constraints): the copy constructors with constraints, followed by
   checkPath for StraightPath and InterpolatedPath *)
Definition copy_cs (c : constr) (p : path) : res path :=
  let h := hd_of p in
  let h' := mkH (tr h) (pr h) (Some c) (tp h) in
  match p with
  | Straight _ a b => if check_ends h' a b then Ok (Straight h' a b) else Throw
  | Interp _ ks =>
      match ks, klast ks with
      | k0 :: _, Some kl => if check_ends h' (snd k0) (snd kl) then Ok (Interp h' ks) else Throw
      | _, _ => UB
      end
  | _ => Ok (with_hd p h')
  end.

(* src/path-vector.cc 79-96: pathAtRank *)
Definition path_at_rank (h : hdr) (subs : list path) (i : nat) : res path :=
  match nth_error subs i with
  | None => UB
  | Some x =>
      match cs h with
      | None => Ok x
      | Some c => match cs (hd_of x) with Some _ => Throw | None => copy_cs c x end
      end
  end.

Fixpoint fold_res {A} (f : A -> nat -> res A) (l : list nat) (a : A) : res A :=
  match l with [] => Ok a | i :: r => bind (f a i) (fun b => fold_res f r b) end.

(* src/path-vector.cc 98-102: concatenate (this = [pv]) *)
Definition concatenate (pv p : path) : res path :=
  match p with
  | PV h subs =>
      fold_res (fun acc i => bind (path_at_rank h subs i) (fun x => Ok (append acc x)))
               (seq 0 (length subs)) pv
  | _ => UB
  end.

(* src/path-vector.cc 104-114: flatten (into [p]).  The recursion goes through
   the copies made by pathAtRank, hence the fuel: [depth] bounds the nesting. *)
Fixpoint flatten (depth : nat) (self p : path) : res path :=
  match depth with
  | O => Fuel
  | S d =>
      match self with
      | PV h subs =>
          fold_res (fun acc i =>
            bind (path_at_rank h subs i) (fun x =>
              match x with PV _ _ => flatten d x acc | _ => Ok (append acc x) end))
            (seq 0 (length subs)) p
      | _ => UB
      end
  end.

(* nesting depth of path vectors *)
Fixpoint nesting (p : path) : nat :=
  match p with PV _ subs => S (fold_right max 0%nat (map nesting subs)) | _ => 0%nat end.

End PathModel.

Arguments Straight {conf} h q0 q1.
Arguments Interp {conf} h ks.
Arguments Gen {conf} h f.
Arguments Extr {conf} h o rv.
Arguments PV {conf} h subs.
Arguments mkC {conf} c_apply c_sat.
Arguments c_apply {conf} c _ _.
Arguments c_sat {conf} c _ _.
Arguments mkH {conf} tr pr cs tp.
Arguments tr {conf} h.
Arguments pr {conf} h.
Arguments cs {conf} h.
Arguments tp {conf} h.
Arguments mk_hdr {conf} I c.
Arguments set_tr {conf} h I.
Arguments set_tp {conf} h f I.
Arguments hd_of {conf} p.
Arguments with_hd {conf} p h.
Arguments timeRange {conf} p.
Arguments paramRange {conf} p.
Arguments plength {conf} p.
Arguments param_at {conf} h t.
Arguments apply_cs {conf} h s r.
Arguments lb_prev {conf} prev ks s.
Arguments klast {conf} ks.
Arguments kinsert {conf} k q ks.
Arguments check_ends {conf} h qi qe.
Arguments straight_create {conf} q0 q1 I c.
Arguments interp_create {conf} q0 q1 I c.
Arguments path_insert {conf} k q p.
Arguments config_or_throw {conf} r.
Arguments extract_loop {conf} ks tmax key acc.
Arguments upper {conf} ks t.
Arguments interp_reverse {conf} h ks.
Arguments base_extract {conf} p I.
Arguments extr_extract {conf} h o rv I.
Arguments ext_wrap {conf} p impl I.
Arguments s_in_original {conf} h rv s.
Arguments pv_create {conf} c.
Arguments append {conf} pv x.
Arguments pv_extract {conf} subs ex rvs I.
Arguments copy_cs {conf} c p.
Arguments path_at_rank {conf} h subs i.
Arguments concatenate {conf} pv p.
Arguments flatten {conf} depth self p.
Arguments nesting {conf} p.
