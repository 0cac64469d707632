(* Model of the path projectors: src/path-projector/dichotomy.cc,
   src/path-projector/progressive.cc, and the loop over path vectors which
   src/path-projector/{dichotomy,progressive,global,recursive-hermite}.cc share.

   Simplifications.
   - value_type is Qc: no rounding.
   - assertions are left out.
   - constraints are what the projectors call on them: [c_sat r q] is
     isSatisfied and [c_apply r q] the result of apply with what it wrote, when
     the right hand side is that of configuration [r].
   - the paths built by the steering method have no constraints (path-projector
     .cc 51-53), so their evaluation [ev] succeeds.
   - copying or building a path with constraints checks its ends
     (src/path.cc 235-265) with the same right hand side. *)
From Coq Require Import QArith.Qround.
From Verif Require Import Base QcTac.
Open Scope Qc_scope.

(* a path, or a path vector of such *)
Inductive tree (X : Type) := L (x : X) | V (l : list (tree X)).
Arguments L {X} x. Arguments V {X} l.

Record cset (C : Type) := mkC {
  c_cp : bool;                         (* configProjector () is not null *)
  c_dim : bool;                        (* its dimension is positive *)
  c_sat : C -> C -> bool;
  c_apply : C -> C -> bool * C }.
Arguments mkC {C}. Arguments c_cp {C}. Arguments c_dim {C}. Arguments c_sat {C}. Arguments c_apply {C}.

(* what a projector returns for one path *)
Inductive out (C P : Type) :=
| Raw (p : P)                                    (* the input path *)
| Con (p : P) (k : cset C)                       (* copy (constraints) *)
| Interp (x : Qc * C) (l : list (Qc * C)) (k : cset C) (* InterpolatedPath: its points, in order *)
| Start (p : P).                                 (* extract at the first parameter *)
Arguments Raw {C P}. Arguments Con {C P}. Arguments Interp {C P}. Arguments Start {C P}.

Section PathProj.
Variables C P : Type.
Variable init fin : P -> C.
Variable start len : P -> Qc.            (* timeRange ().first, length () *)
Variable ev : P -> Qc -> C.              (* eval of an unconstrained path *)
Variable cons : P -> option (cset C).    (* constraints () *)
Variable dist : C -> C -> Qc.
Variable steer : C -> C -> option P.     (* path-projector.cc 64-70 *)
Notation outT := (out C P).

Definition oinit (o : outT) : C :=
  match o with Raw p | Con p _ | Start p => init p | Interp x _ _ => snd x end.
Definition ofin (o : outT) : C :=
  match o with Raw p | Con p _ => fin p | Interp x l _ => snd (last l x) | Start p => init p end.
Definition olen (o : outT) : Qc :=
  match o with Raw p | Con p _ => len p | Interp x l _ => fst (last l x) - fst x | Start _ => 0 end.
(* length of a path vector: src/path-vector.cc 71-77 *)
Fixpoint tlen (t : tree outT) : Qc :=
  match t with
  | L o => olen o
  | V l => fold_right (fun x r => tlen x + r) 0 l
  end.

(* ------------------------------------------------------------------ *)
(* The loop over path vectors: dichotomy.cc 46-76, progressive.cc 86-119,
   global.cc 88-124, recursive-hermite.cc 68-101.  [leaf p] projects one path;
   None: its output argument is left as it was.  [prev] is what the output
   argument holds before the call (None: null). *)
Section Loop.
Variable apply : tree P -> option (tree outT) -> res (bool * option (tree outT)).
Fixpoint vloop (l : list (tree P)) (i : nat) (part : option (tree outT)) (acc : list (tree outT)) : res (bool * option (tree outT)) :=
  match l with
  | [] => Ok (true, Some (V acc))
  | x :: l' =>
      bind (apply x part) (fun '(b, part') =>
        if b then
          match part' with
          | None => UB
          | Some r => vloop l' (S i) part' (acc ++ [r])
          end
        else
          Ok (false, Some (V (match part' with
                              | Some r => if qltb 0 (tlen r) || (i =? 0)%nat then acc ++ [r] else acc
                              | None => acc
                              end))))
  end.
End Loop.
Section Vector.
Variable leaf : P -> res (bool * option (tree outT)).
Fixpoint papply (t : tree P) (prev : option (tree outT)) : res (bool * option (tree outT)) :=
  match t with
  | L p => bind (leaf p) (fun '(b, o) => Ok (b, match o with Some r => Some r | None => prev end))
  | V l => vloop papply l 0 None []
  end.
End Vector.

(* copy (constraints): straight-path.hh 123-131, with the check of the ends *)
Definition con (r : C) (p : P) (k : cset C) : res outT :=
  if c_sat k r (init p) && c_sat k r (fin p) then Ok (Con p k) else Throw.

(* ------------------------------------------------------------------ *)
(* dichotomy.cc 78-142 *)
Section Dichotomy.
Variable maxl : Qc.                      (* maxPathLength_ *)
Variable straight : P -> bool.           (* the path is a StraightPath *)

(* lines 99-124: [st] is pathToSplit, its top first *)
Fixpoint dich_loop (fuel : nat) (r : C) (k : cset C) (st paths : list P) : res (bool * list P) :=
  match st with
  | [] => Ok (true, paths)
  | s :: st' =>
      match fuel with
      | O => Fuel
      | S f =>
          if qltb (len s) maxl then dich_loop f r k st' (paths ++ [s])
          else
            let (b, q) := c_apply k r (ev s (start s + len s / (1 + 1))) in
            if negb b then Ok (false, paths)
            else
              match steer (init s) q, steer q (fin s) with
              | Some s1, Some s2 =>
                  if qeqb (len s2) 0 || qeqb (len s1) 0 then Ok (false, paths)
                  else dich_loop f r k (s1 :: s2 :: st') paths
              | _, _ => UB
              end
      end
  end.
(* lines 133-136 *)
Fixpoint cons_all (r : C) (k : cset C) (l : list P) : res (list (tree outT)) :=
  match l with
  | [] => Ok []
  | p :: l' => bind (con r p k) (fun o => bind (cons_all r k l') (fun os => Ok (L o :: os)))
  end.
Definition dich_out (r : C) (k : cset C) (ok : bool) (paths : list P) : res (bool * option (tree outT)) :=
  match paths with
  | [] => Ok (false, None)
  | [p] => bind (con r p k) (fun o => Ok (ok, Some (L o)))
  | _ => bind (cons_all r k paths) (fun os => Ok (ok, Some (V os)))
  end.
(* lines 50-53, 78-142: applyToStraightPath *)
Definition dichotomy (fuel : nat) (p : P) : res (bool * option (tree outT)) :=
  if negb (straight p) then Throw
  else
    match cons p with
    | None => UB
    | Some k =>
        let r := init p in
        if negb (c_sat k r (init p)) || negb (c_sat k r (fin p)) then Ok (false, None)
        else if negb (c_cp k && c_dim k) then Ok (true, Some (L (Raw p)))
        else
          match steer (init p) (fin p) with
          | None => UB
          | Some s => bind (dich_loop fuel r k [s] []) (fun '(ok, paths) => dich_out r k ok paths)
          end
    end.
End Dichotomy.

(* ------------------------------------------------------------------ *)
(* progressive.cc 121-274.  The right hand side is the one the constraints
   have when the projector is called: [rhs]. *)
Section Progressive.
Variable rhs : C.
Variables step thrmin eps : Qc.          (* step_, thresholdMin_, epsilon *)
(* hessianBound_ when positive, and the smallest singular value at a
   configuration (cp->sigma () after oneStep) *)
Variable hess : option (Qc * (C -> Qc)).
Definition thr_at (q : C) : Qc :=
  match hess with Some (K, sigma) => sigma q / K | None => step end.

(* lines 184-191: [n] tries are left; 1e-3 is [mind].  None: dicC reached
   maxDichotomyTries *)
Definition mind : Qc := Q2Qc (1 # 1000).
Fixpoint tries (n : nat) (k : cset C) (s : P) (thr stp : Qc) (cur : option Qc) : option C :=
  match n with
  | O => None
  | S n' =>
      let (b, q) := c_apply k rhs (ev s stp) in
      let cur' := if b then Some (dist (init s) q) else cur in
      if (match cur' with None => true | Some c => qltb thr c || qltb c mind end)
      then tries n' k s thr (stp / (1 + 1)) cur'
      else match n' with O => None | S _ => Some q end
  end.

(* lines 157-216 *)
Fixpoint prog_loop (fuel : nat) (k : cset C) (q2 : C) (mx : nat) (s : P) (paths : list P) (c : nat) (thr : Qc)
    : res (bool * list P) :=
  match fuel with
  | O => Fuel
  | S f =>
      if qltb (len s) thr then Ok (true, paths ++ [s])
      else if qltb thr thrmin then Ok (false, paths)
      else
        match tries 10 k s thr (thr - eps) None with
        | None => Ok (false, paths)
        | Some q =>
            if (mx <? c)%nat then Ok (false, paths)
            else if negb (c_sat k rhs q) then Ok (false, paths)
            else
              match steer (init s) q, steer q q2 with
              | Some part, Some s' => prog_loop f k q2 mx s' (paths ++ [part]) (S c) (thr_at q)
              | _, _ => UB
              end
        end
  end.

(* std::map::insert *)
Fixpoint minsert (t : Qc) (q : C) (m : list (Qc * C)) : list (Qc * C) :=
  match m with
  | [] => [(t, q)]
  | (t', q') :: m' =>
      if qltb t t' then (t, q) :: m
      else if qltb t' t then (t', q') :: minsert t q m' else m
  end.
(* lines 236-247 *)
Fixpoint insert_all (t : Qc) (l : list P) (m : list (Qc * C)) : list (Qc * C) :=
  match l with [] => m | p :: l' => insert_all (t + len p) l' (minsert t (init p) m) end.
(* lines 224-250 *)
Definition prog_out (k : cset C) (p : P) (q1 : C) (ok : bool) (paths : list P) : res (bool * option (tree outT)) :=
  match paths with
  | [] => Ok (false, Some (L (Start p)))
  | [s] => bind (con rhs s k) (fun o => Ok (ok, Some (L o)))
  | s :: rest =>
      let total := fold_left (fun x p => x + len p) paths 0 in
      let qe := fin (last rest s) in
      match minsert total qe [(0, q1)] with
      | [] => UB
      | x :: m =>
          (* InterpolatedPath::create checks the ends *)
          if c_sat k rhs (snd x) && c_sat k rhs (snd (last m x)) then
            match insert_all (len s) rest (x :: m) with
            | [] => UB
            | x' :: m' => Ok (ok, Some (L (Interp x' m' k)))
            end
          else Throw
      end
  end.

(* lines 128-134; converting an infinite or negative value is undefined *)
Definition max_split (p : P) : option nat :=
  if qltb 0 step then Some (Z.to_nat (Qfloor (this (Q2Qc 10 * len p / step)))) else None.

(* lines 90-96, 121-274 *)
Definition progressive (fuel : nat) (p : P) : res (bool * option (tree outT)) :=
  match cons p with
  | None => Ok (true, Some (L (Raw p)))
  | Some k =>
      if negb (c_cp k) then Ok (true, Some (L (Raw p)))
      else
      match max_split p with
      | None => UB
      | Some mx =>
          if negb (c_sat k rhs (fin p)) then Ok (false, None)
          else if negb (c_dim k) then Ok (true, Some (L (Raw p)))
          else
            match steer (init p) (fin p) with
            | None => UB
            | Some s =>
                bind (prog_loop fuel k (fin p) mx s [] 0 (thr_at (init p))) (fun '(ok, paths) =>
                  prog_out k p (init p) ok paths)
            end
      end
  end.
End Progressive.
End PathProj.
