(* Model of class ConstraintSet (include/hpp/core/constraint-set.hh,
   src/constraint-set.cc). *)
From Verif Require Import Base.

(* hpp::core::Constraint objects, told apart by dynamic_cast: a
   ConfigProjector, a ConstraintSet (its vector constraints_ and its index
   configProjI_, -1 as None), or another constraint.  Numbers are pointers.
   A set that contains itself is not modelled. *)
Inductive constraint :=
| CProj (id : nat)
| COther (id : nat)
| CSet (members : list constraint) (projI : option nat).

Record cset := { constraints : list constraint; configProjI : option nat }.

(* constructor, constraint-set.cc:50-53; [trivial] is the pointer of the
   projector without constraint created there *)
Definition create (trivial : nat) : cset := {| constraints := [CProj trivial]; configProjI := None |}.

(* addConstraint, constraint-set.cc:62-78.  The boolean tells that an
   exception was thrown; the set is the one left behind.  erase(begin()) of an
   empty vector is UB. *)
Fixpoint addConstraint (s : cset) (c : constraint) {struct c} : res (cset * bool) :=
  match c with
  | CProj _ =>
    match configProjI s with
    | Some _ => Ok (s, true)
    | None =>
      match constraints s with
      | [] => UB
      | _ :: r => Ok ({| constraints := r ++ [c]; configProjI := Some (length r) |}, false)
      end
    end
  | CSet l _ =>
    (fix loop (l : list constraint) (s : cset) {struct l} : res (cset * bool) :=
       match l with
       | [] => Ok (s, false)
       | x :: r => bind (addConstraint s x) (fun st => if snd st then Ok st else loop r (fst st))
       end) l s
  | COther _ => Ok ({| constraints := constraints s ++ [c]; configProjI := configProjI s |}, false)
  end.

(* a set seen as a Constraint *)
Definition as_constraint (s : cset) : constraint := CSet (constraints s) (configProjI s).

(* static cast to ConfigProjector: using another object is UB *)
Definition as_proj (c : option constraint) : res nat :=
  match c with Some (CProj id) => Ok id | _ => UB end.
(* configProjector, constraint-set.cc:80-84: None is the null pointer *)
Definition configProjector (s : cset) : res (option nat) :=
  match configProjI s with
  | Some i => bind (as_proj (nth_error (constraints s) i)) (fun id => Ok (Some id))
  | None => Ok None
  end.
(* _configProj, constraint-set.cc:144-147, used by numberNonLockedDof,
   compressVector, uncompressVector, compressMatrix and uncompressMatrix *)
Definition configProj_ (s : cset) : res nat :=
  as_proj (nth_error (constraints s) (match configProjI s with Some i => i | None => 0 end)).

Section Behaviour.
  Variable config : Type.
  (* impl_compute of a projector or other constraint: the projected
     configuration and success *)
  Variable app : constraint -> config -> config * bool.
  (* isSatisfied of a projector or other constraint, and its error *)
  Variable sat : constraint -> config -> bool.
  Variable err : constraint -> config -> list nat.

  (* impl_compute, constraint-set.cc:40-46, on the members *)
  Fixpoint compute_list (l : list constraint) (q : config) : config * bool :=
    match l with
    | [] => (q, true)
    | c :: r => let (q', ok) := app c q in if ok then compute_list r q' else (q', false)
    end.
  Definition apply (s : cset) (q : config) : config * bool := compute_list (constraints s) q.
  (* isSatisfied (config), constraint-set.cc:86-94 *)
  Fixpoint sat_list (l : list constraint) (q : config) : bool :=
    match l with [] => true | c :: r => if negb (sat c q) then false else sat_list r q end.
  Definition isSatisfied (s : cset) (q : config) : bool := sat_list (constraints s) q.
  (* isSatisfied (config, error), constraint-set.cc:96-110 *)
  Fixpoint sat_err_list (l : list constraint) (q : config) (result : bool) (error : list nat) : bool * list nat :=
    match l with
    | [] => (result, error)
    | c :: r => sat_err_list r q (if negb (sat c q) then false else result) (error ++ err c q)
    end.
  Definition isSatisfiedError (s : cset) (q : config) : bool * list nat := sat_err_list (constraints s) q true [].
End Behaviour.
Arguments apply {config}. Arguments isSatisfied {config}. Arguments isSatisfiedError {config}.
Arguments compute_list {config}. Arguments sat_list {config}. Arguments sat_err_list {config}.
