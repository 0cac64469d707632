(* Value semantics of parameters: a place holds a value of its own. *)
From Verif Require Import Base ParamModel ParamHeapModel.

Definition store := nat -> option param.
Definition s0 : store := fun _ => None.
Definition v_step (s : store) (o : hop) : store :=
  match o with
  | HEmpty i => upd s i (Some PNone)
  | HNew i r => upd s i (Some (PVal r))
  | HCopy i j | HAssign i j => upd s i (s j)
  | HDestroy i => upd s i None
  end.
(* C++ object lifetimes: construct in a free place, use and destroy live
   objects *)
Definition lifetime_ok (s : store) (o : hop) : Prop :=
  match o with
  | HEmpty i | HNew i _ => s i = None
  | HCopy i j => s i = None /\ s j <> None
  | HAssign i j => s i <> None /\ s j <> None
  | HDestroy i => s i <> None
  end.
Fixpoint lifetimes_ok (s : store) (l : list hop) : Prop :=
  match l with
  | [] => True
  | o :: l' => lifetime_ok s o /\ lifetimes_ok (v_step s o) l'
  end.
Definition v_run (s : store) (l : list hop) : store := fold_left v_step l s.
(* an allocation which has not been freed *)
Definition allocated (m : pmem) (a : nat) : Prop := hget (hp m) a <> None.
(* the parameter at place i points to allocation a *)
Definition owns (m : pmem) (i a : nat) : Prop := exists t, slot m i = Some (mkP t (Some a)).
