(* C10: the set of validated intervals *)
From Verif Require Import Base Ext IntervalsModel IntervalsProofs.
From Coq Require Import Lqa.

(* Specification: v belongs to one of the intervals of a list. *)
Definition member (l : list (ext * ext)) (v : ext) : Prop := exists a b, In (a, b) l /\ ele a v /\ ele v b.
(* Stored lists: each interval is non empty and ends before the next starts. *)
Definition sorted_disjoint (l : list (ext * ext)) : Prop :=
  (forall a b, In (a, b) l -> ele a b) /\
  forall i j a b c d, i < j -> nth_error l i = Some (a, b) -> nth_error l j = Some (c, d) -> elt b c.
(* the object after a history of insertions *)
Definition after (hist : list interval) : intervals := fold_left (fun l iv => union_interval iv l) hist [].
Definition proper (hist : list interval) : Prop := forall a b, In (a, b) hist -> ele a b.

Lemma isorted_disjoint l : isorted l -> sorted_disjoint l.
Proof.
  intros H. unfold isorted in H. revert H. generalize (@None ext) as lo.
  induction l as [|[a b] r IH]; intros lo H.
  - split; [intros a b []|]. intros i j a b c d _ Hi. destruct i; discriminate.
  - destruct H as [H1 [H2 H3]]. destruct (IH _ H3) as [I1 I2]. split.
    + intros x y [E|E]; [injection E as <- <-; exact H1|exact (I1 x y E)].
    + intros i j x y c d Hij Hi Hj. destruct j as [|j]; [lia|]. cbn in Hj. destruct i as [|i].
      * cbn in Hi. injection Hi as <- <-. apply (sorted_after b r c H3). exists c, d.
        apply nth_error_In in Hj. split; [exact Hj|split; [apply ele_refl|exact (I1 c d Hj)]].
      * cbn in Hi. apply (I2 i j x y c d); auto; lia.
Qed.
Lemma after_spec hist : proper hist -> isorted (after hist) /\ forall v, covered (after hist) v <-> member hist v.
Proof.
  unfold after. assert (G : forall hist l, proper hist -> isorted l ->
    isorted (fold_left (fun l iv => union_interval iv l) hist l) /\
    forall v, covered (fold_left (fun l iv => union_interval iv l) hist l) v <-> covered l v \/ member hist v).
  { clear. induction hist as [|[a b] r IH]; intros l Hp Hl; cbn [fold_left].
    - split; [exact Hl|]. intros v. split; [auto|]. intros [H|[a [b [[] _]]]]; exact H.
    - destruct (union_interval_spec l a b Hl (Hp a b (or_introl eq_refl))) as [U1 U2].
      destruct (IH (union_interval (a, b) l)) as [I1 I2]; [intros x y H; apply Hp; right; exact H|exact U1|].
      split; [exact I1|]. intros v. rewrite I2, U2. unfold member. split.
      + intros [[H|H]|[x [y [H1 H2]]]]; [auto|right; exists a, b; simpl; auto|right; exists x, y; simpl; auto].
      + intros [H|[x [y [[E|H1] H2]]]]; [auto|injection E as <- <-; auto|right; exists x, y; auto]. }
  intros Hp. destruct (G hist [] Hp I) as [G1 G2]. split; [exact G1|]. intros v. rewrite G2, covered_nil. tauto.
Qed.

(* C10: after any sequence of insertions, exactly the union is stored, as a
   sorted list of disjoint intervals. *)
Theorem C10_union_exact : forall hist, proper hist ->
  sorted_disjoint (after hist) /\ forall v, member (after hist) v <-> member hist v.
Proof. intros hist H. destruct (after_spec hist H) as [H1 H2]. split; [exact (isorted_disjoint _ H1)|exact H2]. Qed.
(* C10: the query on a value, in both directions of traversal *)
Theorem C10_contains_value : forall hist v reverse, proper hist ->
  (contains_value (after hist) v reverse = true <-> member hist v).
Proof. intros hist v rv H. rewrite contains_value_spec. apply (after_spec hist H). Qed.
(* C10: the query on an interval *)
Theorem C10_contains_interval : forall hist p q, proper hist -> (p <= q)%Q ->
  (contains_interval (after hist) (Fin p, Fin q) = true <->
   forall v, (p <= v)%Q -> (v <= q)%Q -> member hist (Fin v)).
Proof.
  intros hist p q H Hpq. destruct (after_spec hist H) as [H1 H2].
  rewrite (contains_interval_covered _ p q H1 Hpq). split; intros K v V1 V2; apply H2, K; assumption.
Qed.

Definition f (z : Z) : ext := Fin (inject_Z z).
Example C10_ex_hist := [(f 0, f 1); (f 4, f 6); (f 8, f 9); (f 5, f 8); (f 1, f 2); (NInf, f (-3))].
Example C10_ex_proper : proper C10_ex_hist.
Proof.
  intros a b H. cbn in H.
  repeat match goal with H : _ \/ _ |- _ => destruct H as [H|H] end; try (destruct H; fail);
  injection H as <- <-; apply eleb_iff; reflexivity.
Qed.
Example C10_ex_list : after C10_ex_hist = [(NInf, f (-3)); (f 0, f 2); (f 4, f 9)].
Proof. vm_compute. reflexivity. Qed.
Example C10_ex_gap : contains_interval (after C10_ex_hist) (f 1, f 5) = false /\
  contains_interval (after C10_ex_hist) (f 5, f 9) = true.
Proof. split; reflexivity. Qed.

Print Assumptions C10_union_exact.
Print Assumptions C10_contains_value.
Print Assumptions C10_contains_interval.
