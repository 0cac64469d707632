(* Rational numbers with Leibniz equality (Qc): decidable comparisons and a
   linear arithmetic tactic.  They stand for the value_type (double) of the
   C++ code; rounding is not modelled. *)
From Coq Require Export QArith Qcanon.
From Coq Require Import Lqa Bool.
Open Scope Qc_scope.

Lemma this_eq (a b : Qc) : a = b -> (this a == this b)%Q.
Proof. intros ->; reflexivity. Qed.

(* linear arithmetic over Qc *)
Ltac qc :=
  intros;
  repeat match goal with
         | H : @eq Qc _ _ |- _ => apply this_eq in H
         | H : ?T |- _ => match T with
             | Qcle _ _ => fail 1 | Qclt _ _ => fail 1 | Qeq _ _ => fail 1
             | _ => match type of T with Prop => clear H end
             end
         end;
  try apply Qc_is_canon;
  unfold Qcle, Qclt, Qcminus, Qcplus, Qcopp, Qcmult, Q2Qc in *; cbn [this] in *;
  repeat rewrite Qred_correct in *; lra.

Definition qleb (a b : Qc) : bool := Qle_bool a b.
Definition qltb (a b : Qc) : bool := negb (qleb b a).
Definition qeqb (a b : Qc) : bool := qleb a b && qleb b a.

Lemma qleb_spec a b : BoolSpec (a <= b) (b < a) (qleb a b).
Proof.
  unfold qleb. destruct (Qle_bool a b) eqn:E; constructor.
  - apply Qle_bool_iff in E. exact E.
  - apply Qcnot_le_lt. intros H. apply Qle_bool_iff in H. congruence.
Qed.
Lemma qltb_spec a b : BoolSpec (a < b) (b <= a) (qltb a b).
Proof. unfold qltb. destruct (qleb_spec b a); constructor; assumption. Qed.
Lemma qeqb_spec a b : BoolSpec (a = b) (a <> b) (qeqb a b).
Proof.
  unfold qeqb. destruct (qleb_spec a b) as [H|H]; cbn [andb].
  - destruct (qleb_spec b a) as [H'|H']; constructor; [apply Qcle_antisym; assumption|].
    intros ->. exact (Qclt_not_le _ _ H' (Qcle_refl _)).
  - constructor. intros ->. exact (Qclt_not_le _ _ H (Qcle_refl _)).
Qed.
Lemma qneq_lt (a b : Qc) : a <= b -> a <> b -> a < b.
Proof. intros H N. destruct (Qclt_le_dec a b) as [L|L]; [exact L|]. exfalso. apply N, Qcle_antisym; assumption. Qed.
Lemma qlt_neq (a b : Qc) : a < b -> a <> b.
Proof. intros H ->. exact (Qclt_not_le _ _ H (Qcle_refl _)). Qed.

Ltac qcase a b := let H := fresh "Hc" in destruct (qleb_spec a b) as [H|H].
Ltac qcaselt a b := let H := fresh "Hc" in destruct (qltb_spec a b) as [H|H].
Ltac qcaseeq a b := let H := fresh "Hc" in destruct (qeqb_spec a b) as [H|H].

Definition qmin (a b : Qc) : Qc := if qleb a b then a else b.
Definition qmax (a b : Qc) : Qc := if qleb a b then b else a.
