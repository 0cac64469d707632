(* Shared vocabulary: outcomes of C++ calls, finite maps, sets as lists. *)
From Coq Require Export List Arith Bool Lia QArith.
Export ListNotations.
Open Scope nat_scope.

(* Result of a C++ call.  [Throw] : an exception leaves the function.
   [UB] : null dereference, out of range access, invalid iterator.
   [Fuel] : the model ran out of fuel (no C++ counterpart). *)
Inductive res (A : Type) : Type :=
| Ok (a : A)
| Throw
| UB
| Fuel.
Arguments Ok {A} a.
Arguments Throw {A}.
Arguments UB {A}.
Arguments Fuel {A}.

Definition bind {A B} (r : res A) (f : A -> res B) : res B :=
  match r with Ok a => f a | Throw => Throw | UB => UB | Fuel => Fuel end.

(* Total maps indexed by object identifiers (pointers). *)
Definition upd {A} (f : nat -> A) (k : nat) (v : A) : nat -> A :=
  fun x => if x =? k then v else f x.

(* Sets of identifiers, as lists. *)
Definition mem (x : nat) (l : list nat) : bool := existsb (Nat.eqb x) l.
(* std::set::insert / erase and std::set_union / set_intersection *)
Definition ins (x : nat) (l : list nat) : list nat := if mem x l then l else l ++ [x].
Definition ers (x : nat) (l : list nat) : list nat := filter (fun y => negb (y =? x)) l.
Definition uni (a b : list nat) : list nat := a ++ filter (fun y => negb (mem y a)) b.
Definition inter (a b : list nat) : list nat := filter (fun y => mem y b) a.
Definition minus (a b : list nat) : list nat := filter (fun y => negb (mem y b)) a.

Lemma upd_eq {A} (f : nat -> A) k v : upd f k v k = v.
Proof. unfold upd; rewrite Nat.eqb_refl; reflexivity. Qed.
Lemma upd_neq {A} (f : nat -> A) k v x : x <> k -> upd f k v x = f x.
Proof. intros H; unfold upd; destruct (Nat.eqb_spec x k); [contradiction|reflexivity]. Qed.

Lemma mem_In x l : mem x l = true <-> In x l.
Proof.
  unfold mem; rewrite existsb_exists; split.
  - intros [y [Hy He]]; apply Nat.eqb_eq in He; subst; exact Hy.
  - intros H; exists x; split; [exact H | apply Nat.eqb_refl].
Qed.
Lemma mem_nIn x l : mem x l = false <-> ~ In x l.
Proof. rewrite <- mem_In; destruct (mem x l); split; congruence. Qed.

Lemma In_ins x y l : In x (ins y l) <-> x = y \/ In x l.
Proof.
  unfold ins; destruct (mem y l) eqn:E.
  - apply mem_In in E; split; [auto | intros [->|H]; auto].
  - rewrite in_app_iff; simpl; split; [intros [H|[H|[]]]; auto | intros [->|H]; auto].
Qed.
Lemma In_ers x y l : In x (ers y l) <-> In x l /\ x <> y.
Proof.
  unfold ers; rewrite filter_In; split; intros [H1 H2]; split; auto.
  - destruct (Nat.eqb_spec x y); [discriminate|assumption].
  - destruct (Nat.eqb_spec x y); [contradiction|reflexivity].
Qed.
Lemma In_uni x a b : In x (uni a b) <-> In x a \/ In x b.
Proof.
  unfold uni; rewrite in_app_iff, filter_In; split.
  - intros [H|[H _]]; auto.
  - intros [H|H]; auto. destruct (mem x a) eqn:E; [left; apply mem_In; exact E|right; split; auto].
Qed.
Lemma In_inter x a b : In x (inter a b) <-> In x a /\ In x b.
Proof. unfold inter; rewrite filter_In, mem_In; tauto. Qed.
Lemma In_minus x a b : In x (minus a b) <-> In x a /\ ~ In x b.
Proof.
  unfold minus; rewrite filter_In; split; intros [H1 H2]; split; auto.
  - destruct (mem x b) eqn:E; [discriminate|apply mem_nIn; exact E].
  - apply mem_nIn in H2; rewrite H2; reflexivity.
Qed.

Lemma NoDup_filter {A} (f : A -> bool) l : NoDup l -> NoDup (filter f l).
Proof.
  induction 1 as [|x l Hx Hl IH]; simpl; [constructor|].
  destruct (f x); [constructor; [rewrite filter_In; tauto|exact IH]|exact IH].
Qed.
Lemma NoDup_ers x l : NoDup l -> NoDup (ers x l).
Proof. apply NoDup_filter. Qed.
Lemma NoDup_snoc {A} (x : A) l : NoDup l -> ~ In x l -> NoDup (l ++ [x]).
Proof.
  intros Hl Hx; induction Hl as [|y l Hy Hl IH]; simpl; [repeat constructor; auto|].
  constructor.
  - rewrite in_app_iff; simpl; intros [H|[H|[]]]; [auto|subst; apply Hx; left; reflexivity].
  - apply IH; intros H; apply Hx; right; exact H.
Qed.
Lemma NoDup_app_intro {A} (a b : list A) :
  NoDup a -> NoDup b -> (forall x, In x a -> ~ In x b) -> NoDup (a ++ b).
Proof.
  intros Ha Hb; induction Ha as [|y l Hy Hl IH]; simpl; intros Hd; [exact Hb|].
  constructor.
  - rewrite in_app_iff; intros [H|H]; [auto|exact (Hd y (or_introl eq_refl) H)].
  - apply IH; intros x Hx; apply Hd; right; exact Hx.
Qed.

Lemma filter_length_le {A} (f : A -> bool) l : length (filter f l) <= length l.
Proof. induction l as [|x l IH]; simpl; [lia|destruct (f x); simpl; lia]. Qed.

Lemma NoDup_app_l {A} (l1 l2 : list A) : NoDup (l1 ++ l2) -> NoDup l1.
Proof.
  induction l1 as [|x l1 IH]; simpl; intros H; [constructor|].
  inversion H; subst; constructor; [rewrite in_app_iff in *; tauto|auto].
Qed.
Lemma NoDup_app_r {A} (l1 l2 : list A) : NoDup (l1 ++ l2) -> NoDup l2.
Proof. induction l1 as [|x l1 IH]; simpl; intros H; [exact H|]. inversion H; auto. Qed.
Lemma NoDup_app_disj {A} (l1 l2 : list A) x : NoDup (l1 ++ l2) -> In x l1 -> In x l2 -> False.
Proof.
  induction l1 as [|y l1 IH]; simpl; intros H H1 H2; [exact H1|].
  inversion H; subst. destruct H1 as [->|H1]; [rewrite in_app_iff in *; tauto|auto].
Qed.
