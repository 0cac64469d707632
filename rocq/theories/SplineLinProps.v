(* C75: what the rows of the linearised collision functions say. *)
From Coq Require Import Reals List Arith Bool Lia Lra.
From Verif Require Import Base XReal SplineModel SplineProofs LinConsModel LinConsSpec LinConsProofs LinConsProofs2
  PolyProofs SplineOptModel SplineOptSpec SplineOptProofs SplineGradModel SplineGradSpec SplineGradProofs5 SplineGradProps SplineCollProps.
Import ListNotations.
Open Scope R_scope.

(* Each function being that of the spline of its rank, its row is satisfied by
   the paths whose configuration on this spline, at the parameter of the
   collision, leaves the linearised function at its value on the path x. *)
Theorem C75_equation_partial Rep Fn (w : @sgb Rep Fn) x fs coll :
  proper (g_n w) (g_nv w) (g_ss w) -> (forall s, In s (g_ss w) -> sp_t0 s = 0) ->
  (length fs <= length (g_ss w))%nat -> (forall i c, nth_error fs i = Some c -> cf_id c = i /\ cf_row c = i /\ 0 <= cf_ratio c <= 1) ->
  exists coll', linearize_all w x fs coll = Ok coll' /\
  forall i c, nth_error fs i = Some c ->
    let q := fun y => sp_compute (sp_at w y i) (sp_len (nth_spline (g_ss w) i) * cf_ratio c) in
    exists b, lc_b coll' i = Some b /\
    forall v, dot (w_size w) (lc_J coll' i) v = b <->
      rsum (fun d => g_jac w i (cf_f c) (q x) d * (q v d - q x d)) (g_nv w) = 0.
Proof.
  intros Hp H0 Hlen Hid. destruct (C75_linearize_partial _ _ w x fs coll Hlen) as (coll' & E & _ & _ & Hrow & _).
  { intros i c Hc. destruct (Hid i c Hc) as (A & B & _). auto. }
  exists coll'. split; [exact E|]. intros j c Hc q. destruct (Hid j c Hc) as (Ei & Er & Hu). destruct (Hrow j c Hc) as [HJ Hb]. rewrite Er in HJ, Hb.
  assert (Hj : (j < length (g_ss w))%nat) by (assert (j < length fs)%nat by (apply nth_error_Some; congruence); lia).
  eexists. split; [exact Hb|]. intros v. rewrite (dot_ext _ _ v (lin_row w (cf_id c) x c) v) by (intros k Hk; auto).
  destruct Hp as (_ & _ & Hp). assert (Hin : In (nth_spline (g_ss w) j) (g_ss w)) by (apply nth_In; exact Hj).
  destruct (Hp _ Hin) as (Hdeg & _ & Ht). pose proof (H0 _ Hin) as Hz.
  set (s := nth_spline (g_ss w) j) in *. assert (Hl : 0 < sp_len s) by (unfold sp_len; lra).
  assert (Hlen' : forall y, sp_len (sp_at w y j) = sp_len s) by (intros y; rewrite sp_at_nth by exact Hj; reflexivity).
  assert (Hq : forall y d, q y d =
    sp_base s d + rsum (fun i => y (pidx (g_n w) (g_nv w) j i d) * bern_der (g_n w) 0 (cf_ratio c) i) (S (g_n w))).
  { intros y d. unfold q, sp_compute. rewrite Hlen'. destruct (reqb_spec (sp_len s) 0); [lra|].
    rewrite sp_at_nth by exact Hj. fold s. cbn [set_par sp_t0 sp_deg]. rewrite Hz, Rminus_0_r.
    replace (sp_len s * cf_ratio c / sp_len s) with (cf_ratio c) by (field; lra).
    destruct (rltb_spec (cf_ratio c) 0); [lra|]. destruct (rltb_spec 1 (cf_ratio c)); [lra|].
    unfold sp_value, combine_par. cbn [set_par sp_base sp_deg sp_par]. rewrite Hdeg. reflexivity. }
  rewrite !lin_row_dot by (rewrite Ei; exact Hj). rewrite Ei, !Hlen'.
  set (J := g_jac w j (cf_f c) (q x)).
  change (g_jac w j (cf_f c) (fun d => sp_compute (sp_at w x j) (sp_len s * cf_ratio c) d)) with J.
  rewrite (rsum_ext (fun d => J d * (q v d - q x d))
     (fun d => J d * rsum (fun i => v (pidx (g_n w) (g_nv w) j i d) * bern_der (g_n w) 0 (cf_ratio c) i) (S (g_n w)) -
               J d * rsum (fun i => x (pidx (g_n w) (g_nv w) j i d) * bern_der (g_n w) 0 (cf_ratio c) i) (S (g_n w)))).
  2:{ intros d _. rewrite !Hq. ring. }
  rewrite rsum_minus. split; intros F; lra.
Qed.
(* two functions, one for each of the splines of [two_sgb] *)
Example C75_equation_ex : let fs := [mkCF tt 0 0 (/ 2); mkCF tt 1 1 (/ 3)] in
  proper (g_n two_sgb) (g_nv two_sgb) (g_ss two_sgb) /\ (forall s, In s (g_ss two_sgb) -> sp_t0 s = 0) /\
  (length fs <= length (g_ss two_sgb))%nat /\
  (forall i c, nth_error fs i = Some c -> cf_id c = i /\ cf_row c = i /\ 0 <= cf_ratio c <= 1).
Proof.
  destruct C112_equation_ex as (A & B & _). split; [exact A|]. split; [exact B|]. split; [cbn; lia|].
  intros [|[|[|i]]] c H; cbn in H; try discriminate; injection H as <-; cbn; repeat split; lra.
Qed.

Print Assumptions C75_equation_partial.
