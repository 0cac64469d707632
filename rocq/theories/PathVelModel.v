(* Velocity bounds and first order derivatives of paths.
   Sources: include/hpp/core/path.hh, src/path.cc, src/straight-path.cc,
   src/interpolated-path.cc, src/extracted-path.hh, src/path-vector.cc.

   Simplifications (besides those of PathModel).
   - The configuration space is a vector space and the functions are
     component-wise: one component is modelled, conf := Qc, with the linear
     interpolation and the difference of the vector space.
   - A time law is a function; [tpb f t0 t1] is TimeParameterization::
     derivativeBound and [tpd f t] its derivative of order 1.
   - Classes that do not redefine the functions throw "not implemented". *)
From Verif Require Import Base QcTac PathModel.
Open Scope Qc_scope.

Definition lerp (a b u : Qc) : Qc := a + u * (b - a).
Definition qabs (x : Qc) : Qc := if qleb 0 x then x else - x.

Section PathVelModel.
Variable tpb : (Qc -> Qc) -> Qc -> Qc -> Qc.
Variable tpd : (Qc -> Qc) -> Qc -> Qc.

(* src/straight-path.cc 132-140: impl_velocityBound *)
Definition straight_vb (h : hdr Qc) (q0 q1 : Qc) : Qc :=
  if qeqb (fst (pr h)) (snd (pr h)) then 0 else qabs (q1 - q0) / ilen (pr h).

(* src/interpolated-path.cc 203-210: loop; reading past the end is undefined *)
Fixpoint interp_vb_loop (ks : list (Qc * Qc)) (t1 acc : Qc) : res Qc :=
  match ks with
  | [] => UB
  | c :: r =>
      if qltb (fst c) t1 then
        match r with
        | [] => UB
        | n :: _ => interp_vb_loop r t1 (qmax acc (qabs (snd n - snd c) / (fst n - fst c)))
        end
      else Ok acc
  end.
(* std::map::lower_bound *)
Fixpoint lower (ks : list (Qc * Qc)) (t : Qc) : list (Qc * Qc) :=
  match ks with [] => [] | k :: r => if qltb (fst k) t then lower r t else ks end.
(* src/interpolated-path.cc 194-211: impl_velocityBound *)
Definition interp_vb (ks : list (Qc * Qc)) (t0 t1 : Qc) : res Qc :=
  interp_vb_loop (lower ks t0) t1 0.

(* src/path-vector.cc 147-172: impl_velocityBound, for param0 <= param1 *)
Definition pv_vb (subs : list (path Qc)) (vbs : list (Qc -> Qc -> res Qc)) (s0 s1 : Qc) : res Qc :=
  bind (rank_at_param (map timeRange subs) s0) (fun a =>
  bind (rank_at_param (map timeRange subs) s1) (fun b =>
  let (ii, ti) := a in
  let (ie, te) := b in
  let call i u v := match nth_error vbs i with Some f => f u v | None => UB end in
  let range i := match nth_error subs i with Some x => timeRange x | None => (0, 0) end in
  if (ii =? ie)%nat then call ii ti te
  else
    bind (call ii ti (snd (range ii))) (fun first =>
    bind (sequence (map (fun i => call i (fst (range i)) (snd (range i))) (seq (ii + 1) (ie - ii - 1)))) (fun mid =>
    bind (call ie (fst (range ie)) te) (fun last =>
    Ok (fold_left qmax (mid ++ [last]) first)))))).

(* velocityBound: path.hh 171-178; t0 <= t1 is asserted, the result is
   undefined otherwise.  impl_velocityBound: the files above, and
   src/extracted-path.hh 95-100, path.hh 325-331 *)
Fixpoint vbound (p : path Qc) (t0 t1 : Qc) : res Qc :=
  if qltb t1 t0 then UB
  else
    let h := hd_of p in
    let s0 := param_at h (qmax t0 (fst (tr h))) in
    let s1 := param_at h (qmin t1 (snd (tr h))) in
    let r :=
      match p with
      | Straight h q0 q1 => Ok (straight_vb h q0 q1)
      | Interp h ks => interp_vb ks s0 s1
      | Gen _ _ => Throw
      | Extr h o rv =>
          let a := s_in_original h rv s0 in
          let b := s_in_original h rv s1 in
          if qltb b a then vbound o b a else vbound o a b
      | PV h subs => pv_vb subs (map vbound subs) s0 s1
      end in
    bind r (fun b => Ok (match tp h with Some f => b * tpb f t0 t1 | None => b end)).

(* src/straight-path.cc 112-130: impl_derivative, order 1 *)
Definition straight_d (h : hdr Qc) (q0 q1 : Qc) : Qc :=
  if qeqb (fst (pr h)) (snd (pr h)) then 0 else (q1 - q0) / ilen (pr h).

(* the two iterators of InterpolatedPath::impl_derivative, for a parameter
   below the last knot: the knot strictly after the parameter, and the knot at
   the parameter or the one before; at begin () the first segment *)
Fixpoint around (ks : list (Qc * Qc)) (s : Qc) : option ((Qc * Qc) * (Qc * Qc)) :=
  match ks with
  | [] => None
  | b :: r =>
      match r with
      | [] => None
      | a :: _ => if qltb s (fst a) then Some (b, a) else around r s
      end
  end.
(* src/interpolated-path.cc 152-192: impl_derivative, order 1 *)
Definition interp_d (h : hdr Qc) (ks : list (Qc * Qc)) (s : Qc) : res Qc :=
  if qeqb (fst (pr h)) (snd (pr h)) then Ok 0
  else
    let slope (x : (Qc * Qc) * (Qc * Qc)) :=
      let (b, a) := x in (snd a - snd b) / (fst a - fst b) in
    match rev ks with
    | a :: r =>
        if qleb (fst a) s then
          match r with b :: _ => Ok (slope (b, a)) | [] => UB end
        else match around ks s with Some x => Ok (slope x) | None => UB end
    | [] => UB
    end.

(* derivative: src/path.cc 148-173 (order 1); impl_derivative: the functions
   above, src/extracted-path.hh 84-93, src/path-vector.cc 128-138, path.hh
   314-320 *)
Fixpoint impl_d (p : path Qc) (s : Qc) : res Qc :=
  match p with
  | Straight h q0 q1 => Ok (straight_d h q0 q1)
  | Interp h ks => interp_d h ks s
  | Gen _ _ => Throw
  | Extr h o rv =>
      if rv then bind (impl_d o (snd (pr h) - s)) (fun d => Ok (- d)) else impl_d o s
  | PV h subs =>
      bind (rank_at_param (map timeRange subs) s) (fun il =>
        match nth_error (map (fun x t =>
                match tp (hd_of x) with
                | Some f => bind (impl_d x (f t)) (fun d => Ok (d * tpd f t))
                | None => impl_d x t
                end) subs) (fst il) with
        | Some d => d (snd il)
        | None => UB
        end)
  end.
Definition deriv (p : path Qc) (t : Qc) : res Qc :=
  match tp (hd_of p) with
  | Some f => bind (impl_d p (f t)) (fun d => Ok (d * tpd f t))
  | None => impl_d p t
  end.

End PathVelModel.
