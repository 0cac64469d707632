(* Straight steering method, constraint sets held by steering methods and by
   paths, and evaluation of paths, with the sharing of constraint sets.

   Constraint sets are objects designated by shared pointers: a store (list) of
   constraint sets, pointers are indices. A set is copied deeply
   (src/constraint-set.cc l.55-60 copies each member,
   src/config-projector.cc l.101-107 copies the solver), so one cell holds a set
   with its projector.

   Simplifications: the numerical constraints are an abstract type [fn]; the
   right hand side is an abstract type [rhs]; the members of a set
   before and after its projector are of an abstract type [other], applied by
   [apply_other]. Projection is the arbitrary
   function [project] of the constraints, the right hand side, the line search
   and the configuration (statistics of projectors are in CProjModel.v). The
   Lie group interpolation is the arbitrary function [interpolate]. Sets hold
   at most one projector (see C36). *)
From Coq Require Import List Reals.
From Verif Require Import Base XReal.
Import ListNotations.
Open Scope R_scope.

(* include/hpp/core/config-projector.hh l.68 *)
Inductive line_search := Backtracking | ErrorNormBased | FixedSequence | Constant.

Section Steer.
Variables config fn rhs other : Type.
Variable rhs_of : fn -> config -> rhs.               (* rightHandSideFromConfig *)
Variable rhs_at : fn -> R -> rhs -> rhs.             (* rightHandSideAt *)
Variable project : fn -> rhs -> line_search -> config -> bool * config.
Variable apply_other : other -> config -> bool * config.
Variable interpolate : config -> config -> R -> config.
Variable distance : config -> config -> R.

Record projector := { p_fn : fn; p_rhs : rhs; p_ls : line_search }.
Record cset := { c_proj : option projector; c_before : other; c_after : other }.
Definition store := list cset.
Definition ptr := nat.

Definition get (h : store) (i : ptr) : option cset := nth_error h i.
Fixpoint set (h : store) (i : ptr) (c : cset) : store :=
  match h, i with
  | [], _ => []
  | _ :: t, O => c :: t
  | x :: t, S i' => x :: set t i' c
  end.

(* ConstraintSet::copy: a new object with the same content. A null pointer is
   not copied (callers test it); a dangling one cannot exist (shared pointers). *)
Definition copy_set (h : store) (o : option ptr) : store * option ptr :=
  match o with
  | None => (h, None)
  | Some i => match get h i with
              | Some c => (h ++ [c], Some (length h))
              | None => (h, None)
              end
  end.

(* src/config-projector.cc l.285-287 and lineSearchType, on the projector of a
   set *)
Definition rhs_from_config (c : cset) (q : config) : cset :=
  match c_proj c with
  | Some p => {| c_proj := Some {| p_fn := p_fn p; p_rhs := rhs_of (p_fn p) q; p_ls := p_ls p |}; c_before := c_before c; c_after := c_after c |}
  | None => c
  end.
Definition set_line_search (c : cset) (l : line_search) : cset :=
  match c_proj c with
  | Some p => {| c_proj := Some {| p_fn := p_fn p; p_rhs := p_rhs p; p_ls := l |}; c_before := c_before c; c_after := c_after c |}
  | None => c
  end.
(* src/config-projector.cc l.324-326 *)
Definition rhs_at_param (c : cset) (s : R) : cset :=
  match c_proj c with
  | Some p => {| c_proj := Some {| p_fn := p_fn p; p_rhs := rhs_at (p_fn p) s (p_rhs p); p_ls := p_ls p |}; c_before := c_before c; c_after := c_after c |}
  | None => c
  end.
(* a caller sets the right hand side of a set it holds *)
Definition set_rhs (c : cset) (r : rhs) : cset :=
  match c_proj c with
  | Some p => {| c_proj := Some {| p_fn := p_fn p; p_rhs := r; p_ls := p_ls p |}; c_before := c_before c; c_after := c_after c |}
  | None => c
  end.
(* src/constraint-set.cc l.40-46: the members are applied in order until one
   fails *)
Definition apply_set (c : cset) (q : config) : bool * config :=
  let (b, q1) := apply_other (c_before c) q in
  if b then
    let (b2, q2) := match c_proj c with
                    | Some p => project (p_fn p) (p_rhs p) (p_ls p) q1
                    | None => (true, q1)
                    end in
    if b2 then apply_other (c_after c) q2 else (false, q2)
  else (false, q1).

(* src/path.cc l.89-100 and l.112-124: paths copy the constraints they are given.
   src/straight-path.cc l.64-79 *)
Record path := { s_init : config; s_end : config; s_first : R; s_last : R; s_cons : option ptr }.
Definition make_path (h : store) (q1 q2 : config) (t0 t1 : R) (c : option ptr) : store * path :=
  let (h', c') := copy_set h c in (h', {| s_init := q1; s_end := q2; s_first := t0; s_last := t1; s_cons := c' |}).
Definition copy_path (h : store) (p : path) : store * path :=
  let (h', c') := copy_set h (s_cons p) in
  (h', {| s_init := s_init p; s_end := s_end p; s_first := s_first p; s_last := s_last p; s_cons := c' |}).
(* src/path.cc l.126-135, src/straight-path.cc l.81-89: the copy with
   constraints stores the pointer itself *)
Definition copy_path_with (p : path) (c : ptr) : path :=
  {| s_init := s_init p; s_end := s_end p; s_first := s_first p; s_last := s_last p; s_cons := Some c |}.

(* src/straight-path.cc l.91-112 *)
Definition path_at (p : path) (s : R) : config :=
  let L := s_last p - s_first p in
  if orb (reqb s (s_first p)) (reqb L 0) then s_init p
  else if reqb s (s_last p) then s_end p
  else interpolate (s_init p) (s_end p) ((s - s_first p) / L).

(* include/hpp/core/path.hh l.135-140 and src/path.cc l.140-146: evaluation of
   a path; the right hand side of its own constraint set is modified. Paths
   without time parameterization. *)
Definition eval_path (h : store) (p : path) (s : R) : (bool * config) * store :=
  match s_cons p with
  | None => ((true, path_at p s), h)
  | Some i => match get h i with
              | None => ((true, path_at p s), h)
              | Some c => let c' := rhs_at_param c s in (apply_set c' (path_at p s), set h i c')
              end
  end.

(* src/steering-method/straight.cc l.38-53; [c] is the constraint set of the
   steering method *)
Definition straight (h : store) (c : option ptr) (q1 q2 : config) : store * path :=
  let len := distance q1 q2 in
  match c with
  | Some i =>
    match get h i with
    | Some x =>
      match c_proj x with
      | Some _ =>
        let (h1, c1) := copy_set h c in
        match c1 with
        | Some j =>
          match get h1 j with
          | Some y => make_path (set h1 j (set_line_search (rhs_from_config y q1) Backtracking)) q1 q2 0 len c1
          | None => make_path h1 q1 q2 0 len c1
          end
        | None => make_path h1 q1 q2 0 len c1
        end
      | None => make_path h q1 q2 0 len c
      end
    | None => make_path h q1 q2 0 len None
    end
  | None => make_path h q1 q2 0 len None
  end.

(* A session: steering methods (the pointer to their constraint set), and paths. *)
Record session := { heap : store; methods : list (option ptr); paths : list path }.
Inductive op :=
  | NewSet (c : cset)                                (* a new constraint set *)
  | SetRhs (i : ptr) (r : rhs)                       (* a caller modifies a set it holds *)
  | NewMethod                                        (* include/hpp/core/steering-method.hh l.94-95 *)
  | SetConstraints (m : nat) (c : option ptr)        (* l.84-86 *)
  | CopyMethod (m : nat)                             (* l.99-105 *)
  | Steer (m : nat) (q1 q2 : config)
  | CopyPath (k : nat)
  | CopyPathWith (k : nat) (c : ptr)
  | Eval (k : nat) (s : R).
Fixpoint replace {A} (l : list A) (i : nat) (x : A) : list A :=
  match l, i with
  | [], _ => []
  | _ :: t, O => x :: t
  | a :: t, S i' => a :: replace t i' x
  end.
Definition run (w : session) (o : op) : session :=
  match o with
  | NewSet c => {| heap := heap w ++ [c]; methods := methods w; paths := paths w |}
  | SetRhs i r => match get (heap w) i with
                  | Some c => {| heap := set (heap w) i (set_rhs c r); methods := methods w; paths := paths w |}
                  | None => w
                  end
  | NewMethod => {| heap := heap w; methods := methods w ++ [None]; paths := paths w |}
  | SetConstraints m c => {| heap := heap w; methods := replace (methods w) m c; paths := paths w |}
  | CopyMethod m => match nth_error (methods w) m with
                    | Some c => let (h, c') := copy_set (heap w) c in {| heap := h; methods := methods w ++ [c']; paths := paths w |}
                    | None => w
                    end
  | Steer m q1 q2 => match nth_error (methods w) m with
                     | Some c => let (h, p) := straight (heap w) c q1 q2 in {| heap := h; methods := methods w; paths := paths w ++ [p] |}
                     | None => w
                     end
  | CopyPath k => match nth_error (paths w) k with
                  | Some p => let (h, p') := copy_path (heap w) p in {| heap := h; methods := methods w; paths := paths w ++ [p'] |}
                  | None => w
                  end
  | CopyPathWith k c => match nth_error (paths w) k with
                        | Some p => {| heap := heap w; methods := methods w; paths := paths w ++ [copy_path_with p c] |}
                        | None => w
                        end
  | Eval k s => match nth_error (paths w) k with
                | Some p => {| heap := snd (eval_path (heap w) p s); methods := methods w; paths := paths w |}
                | None => w
                end
  end.
(* what evaluating a path of the session answers *)
Definition value (w : session) (k : nat) (s : R) : option (bool * config) :=
  match nth_error (paths w) k with
  | Some p => Some (fst (eval_path (heap w) p s))
  | None => None
  end.
End Steer.
