(* Parameters of a problem: typed values, their declarations, and access.

   Simplifications: names are natural numbers ordered as such (only equality
   of names matters here); floats, vectors and matrices are represented by
   rationals, lists and lists of lists of rationals; documentation strings
   are left out. The declarations are global (static), the parameters belong
   to a problem, designated by a number. *)
From Verif Require Import Base ContainerModel.

(* Parameter::Type, include/hpp/core/parameter.hh:65-78 *)
Inductive ptype := NONE | BOOL | INT | FLOAT | STRING | VECTOR | MATRIX.
Definition ptype_eqb (a b : ptype) : bool :=
  match a, b with
  | NONE, NONE | BOOL, BOOL | INT, INT | FLOAT, FLOAT | STRING, STRING
  | VECTOR, VECTOR | MATRIX, MATRIX => true
  | _, _ => false
  end.

(* what value_ points to *)
Inductive raw :=
| RBool (b : bool) | RInt (z : Z) | RFloat (q : Q) | RString (s : list nat)
| RVector (v : list Q) | RMatrix (m : list (list Q)).
Definition raw_type (r : raw) : ptype :=
  match r with
  | RBool _ => BOOL | RInt _ => INT | RFloat _ => FLOAT | RString _ => STRING
  | RVector _ => VECTOR | RMatrix _ => MATRIX
  end.

(* Parameter: the constructors of src/parameter.cc:113-128,164 set type_ and
   value_ together. See ParamHeapModel for the allocations. *)
Inductive param := PNone | PVal (r : raw).
(* Parameter::type, parameter.cc:181 *)
Definition ptype_of (p : param) : ptype :=
  match p with PNone => NONE | PVal r => raw_type r end.

(* Parameter::boolValue ... matrixValue, parameter.cc:183-217: check, then
   dereference value_ as the expected type. *)
Definition deref_bool (p : param) : res bool := match p with PVal (RBool b) => Ok b | _ => UB end.
Definition deref_int (p : param) : res Z := match p with PVal (RInt z) => Ok z | _ => UB end.
Definition deref_float (p : param) : res Q := match p with PVal (RFloat q) => Ok q | _ => UB end.
Definition deref_string (p : param) : res (list nat) := match p with PVal (RString s) => Ok s | _ => UB end.
Definition deref_vector (p : param) : res (list Q) := match p with PVal (RVector v) => Ok v | _ => UB end.
Definition deref_matrix (p : param) : res (list (list Q)) := match p with PVal (RMatrix m) => Ok m | _ => UB end.
Definition checked {A} (p : param) (expected : ptype) (d : param -> res A) : res A :=
  if ptype_eqb (ptype_of p) expected then d p else Throw.
Definition boolValue (p : param) : res bool := checked p BOOL deref_bool.
Definition intValue (p : param) : res Z := checked p INT deref_int.
Definition floatValue (p : param) : res Q := checked p FLOAT deref_float.
Definition stringValue (p : param) : res (list nat) := checked p STRING deref_string.
Definition vectorValue (p : param) : res (list Q) := checked p VECTOR deref_vector.
Definition matrixValue (p : param) : res (list (list Q)) := checked p MATRIX deref_matrix.

(* ParameterDescription, parameter.hh:128-147 *)
Record desc := mkDesc { dname : nat; dtype : ptype; ddefault : param }.
(* ParameterDescription::defaultValue, parameter.cc:238-244 *)
Definition defaultValue (d : desc) : res param :=
  if ptype_eqb (ptype_of (ddefault d)) (dtype d) then Ok (ddefault d) else Throw.

Record world := mkW {
  descs : cmap (K := nat) (V := desc);            (* pds() *)
  pbs : nat -> cmap (K := nat) (V := param) }.    (* Problem::parameters *)
Definition w0 : world := mkW [] (fun _ => []).

(* Problem::declareParameter, src/problem.cc:55-60 *)
Definition declareParameter (w : world) (d : desc) : world :=
  mkW (match minsert Nat.ltb (dname d) d (descs w) with
       | (m, b) => if b then m else massign Nat.ltb (dname d) d m
       end) (pbs w).
(* Problem::parameterDescription, problem.cc:70-74 *)
Definition parameterDescription (w : world) (n : nat) : res desc :=
  if c_has Nat.ltb (descs w) n then c_get Nat.ltb (descs w) n else Throw.
(* Problem::setParameter, problem.cc:321-327. The boolean tells that an
   exception was thrown. *)
Definition setParameter (w : world) (pb n : nat) (v : param) : world * bool :=
  match parameterDescription w n with
  | Ok d =>
    if negb (ptype_eqb (dtype d) (ptype_of v)) then (w, true)
    else (mkW (descs w) (upd (pbs w) pb (c_add Nat.ltb (pbs w pb) n v)), false)
  | _ => (w, true)
  end.
(* Problem::getParameter, include/hpp/core/problem.hh:242-247 *)
Definition getParameter (w : world) (pb n : nat) : res param :=
  if c_has Nat.ltb (pbs w pb) n then c_get Nat.ltb (pbs w pb) n
  else bind (parameterDescription w n) defaultValue.

(* a history of calls, the caller catching the exceptions *)
Inductive pop := PDeclare (d : desc) | PSet (pb n : nat) (v : param).
Definition p_step (w : world) (o : pop) : world :=
  match o with
  | PDeclare d => declareParameter w d
  | PSet pb n v => fst (setParameter w pb n v)
  end.
Definition p_run (l : list pop) : world := fold_left p_step l w0.
