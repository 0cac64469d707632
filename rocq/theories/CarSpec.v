(* Independent vocabulary for lists of wheels. *)
From Coq Require Import Reals List Ascii.
From Verif Require Import Base XReal CurvModel CarModel.
Import ListNotations.

(* text is the names, separated by commas *)
Inductive listed : list name -> name -> Prop :=
| listed_one n : ~ In ","%char n -> listed [n] n
| listed_more n ns t : ~ In ","%char n -> listed ns t -> listed (n :: ns) (n ++ ","%char :: t).
(* the wheels among the joints that have this name, in order *)
Inductive named (n : name) : list joint -> list wheel -> Prop :=
| named_nil : named n [] []
| named_take j js ws : j_name j = n -> named n js ws -> named n (j :: js) (j_wheel j :: ws)
| named_skip j js ws : j_name j <> n -> named n js ws -> named n (j :: js) ws.
(* all the wheels asked for: those of each name that is not empty *)
Inductive gathers (js : list joint) : list name -> list wheel -> Prop :=
| gathers_nil : gathers js [] []
| gathers_empty ns ws : gathers js ns ws -> gathers js ([] :: ns) ws
| gathers_name n ns w ws : n <> [] -> named n js w -> gathers js ns ws -> gathers js (n :: ns) (w ++ ws).
(* a name that cannot be used: of no joint, or of a joint that is not of
   dimension 1 *)
Definition bad (js : list joint) (n : name) : Prop :=
  n <> [] /\ ((forall j, In j js -> j_name j <> n) \/ exists j, In j js /\ j_name j = n /\ j_size j <> 1%nat).
