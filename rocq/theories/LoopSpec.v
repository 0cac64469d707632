(* Vocabulary of the solving loop. *)
From Verif Require Import Base Ext LoopModel.

Section Spec.
Context {St : Type}.
Variable start : res St.
Variable oneStep : St -> res St.
Variable reached : St -> bool.
Variable clock : nat -> Z.
Variable intr : nat -> bool.
Variable c : settings.

(* the planner state after n steps *)
Inductive after : nat -> St -> Prop :=
| after_0 s : start = Ok s -> after 0 s
| after_S n s t : after n s -> oneStep s = Ok t -> after (S n) t.

(* after n steps a limit is reached; 0 means no limit on iterations *)
Definition limit (n : nat) : Prop :=
  (maxI c <> 0 /\ maxI c <= n) \/
  match tmo c with
  | DNaN | DExt PInf => False
  | DExt NInf => True
  | DExt (Fin q) => (q * 1000 < inject_Z (clock n))%Q
  end.
(* nobody has called interrupt() up to the end of the n-th step *)
Definition quiet (n : nat) : Prop := forall j, j <= n -> intr j = false.
(* solve looks at the target after n steps even when no limit is reached *)
Definition looks (n : nat) : Prop := n = 0 \/ stopS c = true.
(* one more step is due after the n-th one *)
Definition goes_on (n : nat) : Prop :=
  quiet n /\ ~ limit n /\ (looks n -> forall s, after n s -> reached s = false).
Definition arrives (n : nat) (s : St) : Prop := after n s /\ forall j, j < n -> goes_on j.

End Spec.
(* the number of steps executed by solve *)
Definition steps {A} (e : ending A) : option nat :=
  match e with
  | Solved n _ | LimitHit n | Interrupted n | StepRaised n => Some n
  | StartRaised => Some 0
  | NoFuel => None
  end.
(* no time out set to NaN *)
Definition no_nan (l : list setop) : Prop := ~ In (SetTime DNaN) l.
