(* Reflexive transitive closure and directed reachability. *)
From Verif Require Import Base.

Inductive reach {A : Type} (R : A -> A -> Prop) : A -> A -> Prop :=
| reach_refl : forall x, reach R x x
| reach_step : forall x y z, R x y -> reach R y z -> reach R x z.

Section Facts.
Context {A : Type}.
Implicit Types R S : A -> A -> Prop.

Lemma reach_one R x y : R x y -> reach R x y.
Proof. intros H; eapply reach_step; [exact H|apply reach_refl]. Qed.
Lemma reach_trans R x y z : reach R x y -> reach R y z -> reach R x z.
Proof. induction 1; [auto|intros; eapply reach_step; eauto]. Qed.
Lemma reach_snoc R x y z : reach R x y -> R y z -> reach R x z.
Proof. intros H1 H2; eapply reach_trans; [exact H1|apply reach_one; exact H2]. Qed.
Lemma reach_mono R S x y : (forall a b, R a b -> S a b) -> reach R x y -> reach S x y.
Proof. intros HM; induction 1; [apply reach_refl|eapply reach_step; eauto]. Qed.
Lemma reach_incl R S x y : (forall a b, R a b -> reach S a b) -> reach R x y -> reach S x y.
Proof. intros HM; induction 1; [apply reach_refl|eapply reach_trans; eauto]. Qed.
Lemma reach_inv_r R x z : reach R x z -> x = z \/ exists y, reach R x y /\ R y z.
Proof.
  induction 1 as [x|x y z H1 H2 IH]; [left; reflexivity|right].
  destruct IH as [->|[w [Hw1 Hw2]]].
  - exists x; split; [apply reach_refl|exact H1].
  - exists w; split; [eapply reach_step; eauto|exact Hw2].
Qed.
Lemma reach_flip R x y : reach R x y <-> reach (fun a b => R b a) y x.
Proof.
  split.
  - induction 1; [apply reach_refl|eapply reach_snoc; eauto].
  - induction 1; [apply reach_refl|eapply reach_snoc; eauto].
Qed.
Lemma reach_ext R S x y : (forall a b, R a b <-> S a b) -> (reach R x y <-> reach S x y).
Proof. intros H; split; apply reach_mono; intros; apply H; assumption. Qed.

(* Adding one arc *)
Definition plus R (u v : A) : A -> A -> Prop := fun a b => R a b \/ (a = u /\ b = v).
Lemma reach_plus R u v a b :
  reach (plus R u v) a b <-> reach R a b \/ (reach R a u /\ reach R v b).
Proof.
  split.
  - induction 1 as [x|x y z H1 H2 IH]; [left; apply reach_refl|].
    destruct H1 as [H1|[-> ->]].
    + destruct IH as [IH|[IH1 IH2]].
      * left; eapply reach_step; eauto.
      * right; split; [eapply reach_step; eauto|exact IH2].
    + destruct IH as [IH|[IH1 IH2]]; right; split; auto; apply reach_refl.
  - intros [H|[H1 H2]].
    + eapply reach_mono; [|exact H]; intros; left; assumption.
    + eapply reach_trans; [eapply reach_mono; [|exact H1]; intros; left; assumption|].
      eapply reach_step; [right; split; reflexivity|].
      eapply reach_mono; [|exact H2]; intros; left; assumption.
Qed.

(* Reachability without leaving [stop] *)
Definition noexp R (stop : A) : A -> A -> Prop := fun a b => a <> stop /\ R a b.
Lemma reach_noexp_split R stop a x (dec : forall y : A, y = stop \/ y <> stop) :
  reach R a x -> reach (noexp R stop) a x \/ (reach (noexp R stop) a stop /\ reach R stop x).
Proof.
  induction 1 as [x|x y z H1 H2 IH]; [left; apply reach_refl|].
  destruct (dec x) as [->|Hx].
  - right; split; [apply reach_refl|eapply reach_step; eauto].
  - destruct IH as [IH|[IH1 IH2]].
    + left; eapply reach_step; [split; eauto|exact IH].
    + right; split; [eapply reach_step; [split; eauto|exact IH1]|exact IH2].
Qed.
Lemma reach_noexp_sub R stop a x : reach (noexp R stop) a x -> reach R a x.
Proof. apply reach_mono; intros ? ? [_ H]; exact H. Qed.
Lemma reach_noexp_stop R stop a (dec : forall y : A, y = stop \/ y <> stop) :
  reach R a stop <-> reach (noexp R stop) a stop.
Proof.
  split; [|apply reach_noexp_sub].
  intros H; destruct (reach_noexp_split R stop a stop dec H) as [H1|[H1 _]]; exact H1.
Qed.
End Facts.

Lemma nat_dec_or (s : nat) : forall y : nat, y = s \/ y <> s.
Proof. intros y; destruct (Nat.eq_dec y s); auto. Qed.
