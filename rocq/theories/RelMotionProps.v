(* Property theorems for C34: the relative motion matrix. *)
From Coq Require Import Permutation.
From Verif Require Import Base Reach RelMotionModel RelMotionSpec RelMotionProofs RelMotionProofs2.

(* After fromConstraint on the matrix of a robot, the entry of two joints is
   Constrained iff a chain of constraints with constant right hand side joins
   them, Parameterized iff only a chain with a parameterized constraint does,
   Unconstrained iff no chain does; the matrix is symmetric. *)
Theorem C34_matrix_exact :
  forall n l m, Forall (on_robot n) l ->
    fromConstraint n n initial_matrix (Some l) = Ok m ->
    forall a b, a < n -> b < n ->
      m a b = m b a /\
      (m a b = Constrained <-> chain true l a b) /\
      (m a b = Parameterized <-> ~ chain true l a b /\ chain false l a b) /\
      (m a b = Unconstrained <-> ~ chain false l a b).
Proof.
  intros n l m Hl H a b Ha Hb. unfold fromConstraint in H. rewrite Nat.eqb_refl in H. cbn [negb] in H.
  injection H as <-. apply exact_values with (n := n); try assumption.
  apply (exact_fold n l []); [apply exact_initial|exact Hl].
Qed.

(* several constraint sets processed one after the other: as their union *)
Fixpoint from_all (n : nat) (m : matrix) (sets : list (option (list num_constraint))) : res matrix :=
  match sets with
  | [] => Ok m
  | p :: r => bind (fromConstraint n n m p) (fun m' => from_all n m' r)
  end.
Definition members (p : option (list num_constraint)) : list num_constraint :=
  match p with None => [] | Some l => l end.
Theorem C34_incremental :
  forall n sets, Forall (on_robot n) (concat (map members sets)) ->
    exists m, from_all n initial_matrix sets = Ok m /\
      forall a b, a < n -> b < n ->
        m a b = m b a /\
        (m a b = Constrained <-> chain true (concat (map members sets)) a b) /\
        (m a b = Parameterized <-> ~ chain true (concat (map members sets)) a b /\
                                     chain false (concat (map members sets)) a b) /\
        (m a b = Unconstrained <-> ~ chain false (concat (map members sets)) a b).
Proof.
  intros n sets Hr.
  assert (G : forall sets l0 m0, exact n l0 m0 -> Forall (on_robot n) (concat (map members sets)) ->
              exists m, from_all n m0 sets = Ok m /\ exact n (l0 ++ concat (map members sets)) m).
  { clear. induction sets as [|p sets IH]; intros l0 m0 He Hr; cbn [from_all map concat].
    - exists m0. rewrite app_nil_r. auto.
    - cbn [map concat] in Hr. apply Forall_app in Hr. destruct Hr as [H1 H2].
      unfold fromConstraint. rewrite Nat.eqb_refl. cbn [negb]. destruct p as [l|]; cbn [members bind] in *.
      + destruct (IH (l0 ++ l) _ (exact_fold n l l0 m0 He H1) H2) as (m & E & Hm).
        exists m. rewrite app_assoc. auto.
      + destruct (IH l0 m0 He H2) as (m & E & Hm). exists m. auto. }
  destruct (G sets [] initial_matrix (exact_initial n) Hr) as (m & E & Hm).
  exists m. split; [exact E|]. intros a b Ha Hb. apply exact_values with (n := n); assumption.
Qed.

(* the order of the constraints does not matter *)
Theorem C34_order_independent :
  forall n l l' m m', Forall (on_robot n) l -> Permutation l l' ->
    fromConstraint n n initial_matrix (Some l) = Ok m ->
    fromConstraint n n initial_matrix (Some l') = Ok m' ->
    forall a b, a < n -> b < n -> m a b = m' a b.
Proof.
  intros n l l' m m' Hl Hp H H' a b Ha Hb.
  assert (Hl' : Forall (on_robot n) l') by (apply (Permutation_Forall Hp); exact Hl).
  destruct (C34_matrix_exact n l m Hl H a b Ha Hb) as (_ & C & P & U).
  destruct (C34_matrix_exact n l' m' Hl' H' a b Ha Hb) as (_ & C' & P' & U').
  assert (E : forall f, chain f l a b <-> chain f l' a b).
  { intros f. apply reach_ext. intros x y. split; intros (nc & Hin & Hk); exists nc; split; try exact Hk.
    - apply (Permutation_in _ Hp Hin).
    - apply (Permutation_in _ (Permutation_sym Hp) Hin). }
  pose proof (E true) as Et. pose proof (E false) as Ef.
  destruct (m' a b); [apply C, Et, C'; reflexivity| |apply U; rewrite Ef; apply U'; reflexivity].
  apply P. rewrite Et, Ef. apply P'. reflexivity.
Qed.

(* a matrix of the wrong size is refused *)
Theorem C34_wrong_size_throws :
  forall n rows m p, rows <> n -> fromConstraint n rows m p = Throw.
Proof. intros n rows m p H. unfold fromConstraint. destruct (Nat.eqb_spec rows n); [contradiction|reflexivity]. Qed.

(* ---- a concrete case: 6 joints; 1-2 fixed, 3-4 fixed, then 2-3 parameterized
   joins the two groups; 5 stays free ---- *)
Definition nc (a b p : nat) := {| nc_joints := (a, b); nc_parameterSize := p |}.
Definition ex_l := [nc 1 2 0; nc 4 3 0; nc 0 0 3; nc 2 3 6].
Example C34_ex_on_robot : Forall (on_robot 6) ex_l.
Proof. repeat constructor; cbn; lia. Qed.
Example C34_ex_matrix : exists m, fromConstraint 6 6 initial_matrix (Some ex_l) = Ok m /\
  m 1 2 = Constrained /\ m 3 4 = Constrained /\ m 1 4 = Parameterized /\ m 4 1 = Parameterized /\
  m 2 4 = Parameterized /\ m 1 5 = Unconstrained /\ m 0 1 = Unconstrained.
Proof. eexists. split; [reflexivity|]. repeat split; vm_compute; reflexivity. Qed.

Print Assumptions C34_matrix_exact.
Print Assumptions C34_incremental.
Print Assumptions C34_order_independent.
Print Assumptions C34_wrong_size_throws.
