(* Rational numbers extended with the two infinities: the values of the double
   comparisons of the continuous validation code (NaN excluded). *)
From Verif Require Import Base.
From Coq Require Import Lqa.

Inductive ext := NInf | Fin (q : Q) | PInf.
Definition ele (a b : ext) : Prop :=
  match a, b with
  | NInf, _ => True
  | _, PInf => True
  | Fin p, Fin q => (p <= q)%Q
  | _, _ => False
  end.
Definition elt (a b : ext) : Prop := ~ ele b a.
Definition eleb (a b : ext) : bool :=
  match a, b with
  | NInf, _ => true
  | _, PInf => true
  | Fin p, Fin q => Qle_bool p q
  | _, _ => false
  end.
Definition eltb (a b : ext) : bool := negb (eleb b a).
Definition emin (a b : ext) : ext := if eleb a b then a else b.
Definition emax (a b : ext) : ext := if eleb a b then b else a.

Lemma eleb_iff a b : eleb a b = true <-> ele a b.
Proof. destruct a, b; simpl; rewrite ?Qle_bool_iff; intuition discriminate. Qed.
Lemma eltb_iff a b : eltb a b = true <-> elt a b.
Proof. unfold eltb, elt; rewrite <- eleb_iff. destruct (eleb b a); simpl; intuition discriminate. Qed.
Lemma ele_dec a b : {ele a b} + {elt b a}.
Proof. unfold elt. destruct a, b; simpl; try (left; exact I); try (right; tauto). destruct (Qlt_le_dec q0 q); [right; lra|left; assumption]. Qed.
Lemma ele_refl a : ele a a.
Proof. destruct a; simpl; [exact I|apply Qle_refl|exact I]. Qed.
Lemma ele_trans a b c : ele a b -> ele b c -> ele a c.
Proof. destruct a, b, c; simpl; try tauto. apply Qle_trans. Qed.
Lemma elt_ele a b : elt a b -> ele a b.
Proof. unfold elt; destruct a, b; simpl; try tauto. lra. Qed.
Lemma nele a b : ~ ele a b -> elt b a.
Proof. auto. Qed.
Lemma nelt a b : ~ elt a b -> ele b a.
Proof. intros H. destruct (ele_dec b a); [assumption|contradiction]. Qed.
Lemma elt_ele_trans a b c : elt a b -> ele b c -> elt a c.
Proof. unfold elt; intros H1 H2 H3; apply H1; eapply ele_trans; eauto. Qed.
Lemma ele_elt_trans a b c : ele a b -> elt b c -> elt a c.
Proof. unfold elt; intros H1 H2 H3; apply H2; eapply ele_trans; eauto. Qed.
Lemma elt_irr a : elt a a -> False.
Proof. intros H; apply H, ele_refl. Qed.
Lemma ele_fin p q : ele (Fin p) (Fin q) <-> (p <= q)%Q.
Proof. simpl; tauto. Qed.
Lemma elt_fin p q : elt (Fin p) (Fin q) <-> (p < q)%Q.
Proof. unfold elt; simpl. split; intros; lra. Qed.
Global Opaque ele elt.

(* decide order facts by saturation *)
Ltac ord_prep :=
  intros;
  repeat match goal with
  | H : _ /\ _ |- _ => destruct H
  | H : eleb _ _ = true |- _ => apply eleb_iff in H
  | H : eltb _ _ = true |- _ => apply eltb_iff in H
  | H : eleb ?a ?b = false |- _ =>
      assert (elt b a) by (apply nele; rewrite <- eleb_iff, H; discriminate); clear H
  | H : eltb ?a ?b = false |- _ =>
      assert (ele b a) by (apply nelt; rewrite <- eltb_iff, H; discriminate); clear H
  | H : ~ ele ?a ?b |- _ => apply nele in H
  | H : ~ elt ?a ?b |- _ => apply nelt in H
  end.
Ltac ord_sat :=
  repeat match goal with
  | H : elt ?a ?a |- _ => exfalso; exact (elt_irr a H)
  | H1 : elt ?a ?b, H2 : ele ?b ?c |- _ =>
      lazymatch goal with H : elt a c |- _ => fail | _ => pose proof (elt_ele_trans a b c H1 H2) end
  | H1 : ele ?a ?b, H2 : elt ?b ?c |- _ =>
      lazymatch goal with H : elt a c |- _ => fail | _ => pose proof (ele_elt_trans a b c H1 H2) end
  | H1 : elt ?a ?b, H2 : elt ?b ?c |- _ =>
      lazymatch goal with H : elt a c |- _ => fail | _ => pose proof (elt_ele_trans a b c H1 (elt_ele b c H2)) end
  | H1 : ele ?a ?b, H2 : ele ?b ?c |- _ =>
      lazymatch goal with H : ele a c |- _ => fail | H : elt a c |- _ => fail | _ => pose proof (ele_trans a b c H1 H2) end
  end.
Ltac ord1 :=
  lazymatch goal with
  | |- ele ?a ?b => destruct (ele_dec a b); [assumption|exfalso]
  | |- elt ?a ?b => destruct (ele_dec b a); [exfalso|assumption]
  | |- False => idtac
  | |- _ => exfalso
  end; ord_sat.
Ltac ord := ord_prep; try apply ele_refl; solve [ord1].
