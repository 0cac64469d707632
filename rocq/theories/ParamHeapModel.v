(* Allocations behind hpp::core::Parameter: each non-empty parameter owns one
   object allocated with new, through an untyped pointer.

   Simplifications: an address is the rank of the allocation, addresses are
   not reused; reading or deleting through the wrong type, or an object which
   is not allocated any more, is undefined behaviour. Allocation does not
   fail. The caller keeps its parameters in numbered places. *)
From Verif Require Import Base ParamModel.

Definition heap := list (option raw).
(* type_ and value_, include/hpp/core/parameter.hh:123-125 *)
Record pobj := mkP { otype : ptype; ovalue : option nat }.
Record pmem := mkM { hp : heap; slot : nat -> option pobj }.
Definition m0 : pmem := mkM [] (fun _ => None).

Definition hget (h : heap) (a : nat) : option raw :=
  match nth_error h a with Some (Some r) => Some r | _ => None end.
Definition hnew (h : heap) (r : raw) : heap * nat := (h ++ [Some r], length h).
Fixpoint hfree (h : heap) (a : nat) : heap :=
  match h, a with
  | [], _ => []
  | _ :: h', O => None :: h'
  | c :: h', S a' => c :: hfree h' a'
  end.

(* delete (const T* )value_ for the T of type_ *)
Definition delete_as (h : heap) (t : ptype) (v : option nat) : res heap :=
  match v with
  | None => Ok h
  | Some a =>
    match hget h a with
    | None => UB
    | Some r => if ptype_eqb (raw_type r) t then Ok (hfree h a) else UB
    end
  end.
(* Parameter::deleteValue, src/parameter.cc:87-109 *)
Definition deleteValue (h : heap) (o : pobj) : res heap :=
  match otype o with
  | NONE => Ok h
  | t => delete_as h t (ovalue o)
  end.
(* check and dereference, parameter.cc:183-217 *)
Definition read_as (h : heap) (o : pobj) (t : ptype) : res raw :=
  if ptype_eqb (otype o) t then
    match ovalue o with
    | None => UB
    | Some a =>
      match hget h a with
      | None => UB
      | Some r => if ptype_eqb (raw_type r) t then Ok r else UB
      end
    end
  else Throw.
(* copyValue, parameter.cc:133-162 *)
Definition copyValue (h : heap) (o : pobj) : res (heap * option nat) :=
  match otype o with
  | NONE => Ok (h, None)
  | t => bind (read_as h o t) (fun r => match hnew h r with (h', a) => Ok (h', Some a) end)
  end.
(* copy constructor, parameter.cc:130-131 *)
Definition copyCtor (h : heap) (o : pobj) : res (heap * pobj) :=
  bind (copyValue h o) (fun x => match x with (h', v) => Ok (h', mkP (otype o) v) end).

(* Parameter::operator=, parameter.cc:166-174, from place j to place i. The
   result is returned by value: a temporary copy is made and destroyed. *)
Definition assign (m : pmem) (i j : nat) : res pmem :=
  match slot m i, slot m j with
  | Some oi, Some oj =>
    bind (if Nat.eqb j i then Ok m
          else
            bind (match ovalue oi with None => Ok (hp m) | Some _ => deleteValue (hp m) oi end) (fun h1 =>
            bind (copyValue h1 oj) (fun x =>
            match x with (h2, v) => Ok (mkM h2 (upd (slot m) i (Some (mkP (otype oj) v)))) end)))
      (fun m1 =>
         match slot m1 i with
         | None => UB
         | Some o => bind (copyCtor (hp m1) o) (fun x =>
             match x with (h3, tmp) =>
               bind (deleteValue h3 tmp) (fun h4 => Ok (mkM h4 (slot m1)))
             end)
         end)
  | _, _ => UB
  end.

Inductive hop :=
| HEmpty (i : nat)            (* Parameter(), parameter.cc:164 *)
| HNew (i : nat) (r : raw)    (* Parameter(value), parameter.cc:113-128 *)
| HCopy (i j : nat)           (* Parameter(const Parameter&) from place j *)
| HAssign (i j : nat)         (* operator= *)
| HDestroy (i : nat).         (* ~Parameter, parameter.cc:111 *)
Definition h_step (m : pmem) (o : hop) : res pmem :=
  match o with
  | HEmpty i => Ok (mkM (hp m) (upd (slot m) i (Some (mkP NONE None))))
  | HNew i r => match hnew (hp m) r with (h, a) =>
      Ok (mkM h (upd (slot m) i (Some (mkP (raw_type r) (Some a))))) end
  | HCopy i j =>
    match slot m j with
    | None => UB
    | Some o => bind (copyCtor (hp m) o) (fun x =>
        match x with (h, o') => Ok (mkM h (upd (slot m) i (Some o'))) end)
    end
  | HAssign i j => assign m i j
  | HDestroy i =>
    match slot m i with
    | None => UB
    | Some o => bind (deleteValue (hp m) o) (fun h => Ok (mkM h (upd (slot m) i None)))
    end
  end.
Fixpoint h_run (m : pmem) (l : list hop) : res pmem :=
  match l with
  | [] => Ok m
  | o :: l' => bind (h_step m o) (fun m' => h_run m' l')
  end.

(* what the typed accessors of place i return *)
Definition read (m : pmem) (i : nat) (t : ptype) : res raw :=
  match slot m i with None => UB | Some o => read_as (hp m) o t end.
