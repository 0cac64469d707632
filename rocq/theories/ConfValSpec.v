(* Which configurations a path validation should accept. *)
From Verif Require Import Base Ext ConfValModel.

Section Spec.
Context {C : Type}.
(* no pair of objects is in collision *)
Definition free (q : C) (b : body_pair C) : Prop := forall o, In o (b q) -> o <> None.

Inductive acceptable (q : C) : pval C -> Prop :=
| acc_dich l : (forall b, In b l -> free q b) -> acceptable q (VDich l)
| acc_prog tol l : (forall b, In b l -> free q b) -> acceptable q (VProg tol l)
| acc_disc ms : (forall m, In m ms -> m q = true) -> acceptable q (VDisc ms)
| acc_none : acceptable q VNone
| acc_all vs : (forall v, In v vs -> acceptable q v) -> acceptable q (VAll vs).
End Spec.
