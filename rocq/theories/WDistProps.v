(* C45: the weighted distance. *)
From Coq Require Import Reals ZArith Lra Lia.
From Verif Require Import Base XReal WDistModel WDistSpec PolyProofs WDistProofs.
Open Scope R_scope.

(* two configurations with the same joint values and extra coordinates *)
Definition same_config {X} (njoints nextra : nat) (a b : config X) : Prop :=
  (forall k, (k < njoints)%nat -> joint a k = joint b k) /\ (forall k, (k < nextra)%nat -> extra a k = extra b k).

(* For any joint spaces with their own metrics, any finite weights. *)
Theorem C45_distance_is_a_pseudometric X njoints nextra (jdist : nat -> X -> X -> R) rot ws :
  (njoints <= length ws)%nat -> (forall k, (k < njoints)%nat -> is_metric eq (jdist k)) ->
  exists d, is_pseudometric (same_config njoints nextra) d /\
    forall q1 q2, impl_distance X njoints nextra jdist rot (map Fin ws) q1 q2 = Ok (Fin (d q1 q2)).
Proof.
  intros Hs Hm. exists (D X njoints nextra jdist rot ws). split.
  - apply D_pseudo; assumption.
  - intros q1 q2. apply impl_distance_ok; assumption.
Qed.

(* When all weights are non zero it is a metric. *)
Theorem C45_distance_is_a_metric X njoints nextra (jdist : nat -> X -> X -> R) rot ws :
  (njoints <= length ws)%nat -> (forall k, (k < njoints)%nat -> is_metric eq (jdist k)) ->
  Forall (fun w => w <> 0) ws ->
  exists d, is_metric (same_config njoints nextra) d /\
    forall q1 q2, impl_distance X njoints nextra jdist rot (map Fin ws) q1 q2 = Ok (Fin (d q1 q2)).
Proof.
  intros Hs Hm Hw. exists (D X njoints nextra jdist rot ws). split.
  - destruct (D_pseudo X njoints nextra jdist rot ws Hs Hm) as [P1 P2 P3 P4].
    constructor; [exact P1|exact P2|exact P3| |exact P4].
    intros a b. apply D_zero; [exact Hs|exact Hm|]. intros k Hk _. rewrite Forall_forall in Hw. apply Hw. apply nth_In. lia.
  - intros q1 q2. apply impl_distance_ok; assumption.
Qed.

(* The real line is a joint space (prismatic and bounded revolute joints). *)
Lemma line_metric : is_metric eq (fun a b : R => Rabs (a - b)).
Proof.
  constructor.
  - intros; apply Rabs_pos.
  - intros; apply Rabs_minus_sym.
  - intros a b ->. rewrite Rminus_diag_eq by reflexivity. apply Rabs_R0.
  - intros a b H. destruct (Req_dec (a - b) 0) as [E|E]; [lra|]. exfalso. exact (Rabs_no_R0 _ E H).
  - intros a b c. replace (a - c) with ((a - b) + (b - c)) by ring. apply Rabs_triang.
Qed.
Example C45_ex : exists d, is_metric (same_config 2 1) d /\
  forall q1 q2, impl_distance R 2 1 (fun _ a b => Rabs (a - b)) (fun _ => true) (map Fin [2; 3]) q1 q2 = Ok (Fin (d q1 q2)).
Proof. apply C45_distance_is_a_metric; [cbn; lia|intros; apply line_metric|repeat constructor; lra]. Qed.

(* Setters: the whole vector. *)
Theorem C45_set_weights cur ws :
  (length ws = length cur -> set_weights cur ws = (ws, Ok tt)) /\
  (length ws <> length cur -> set_weights cur ws = (cur, Throw)).
Proof. unfold set_weights. split; intros H; destruct (Nat.eqb_spec (length ws) (length cur)); congruence. Qed.
(* One weight: only that weight changes; a rank beyond the end throws. *)
Theorem C45_set_weight_partial cur rank w :
  (0 <= rank)%Z ->
  let '(ws, out) := set_weight cur rank w in
  ((rank < Z.of_nat (length cur))%Z ->
     out = Ok tt /\ length ws = length cur /\ nth_error ws (Z.to_nat rank) = Some w /\
     forall k, k <> Z.to_nat rank -> nth_error ws k = nth_error cur k) /\
  ((Z.of_nat (length cur) <= rank)%Z -> out = Throw /\ ws = cur).
Proof.
  intros H0. unfold set_weight. destruct (Z.ltb_spec rank (Z.of_nat (length cur))) as [L|L].
  - destruct (Z.ltb_spec rank 0); [lia|]. split; [intros _|intros; lia].
    assert (K : (Z.to_nat rank < length cur)%nat) by lia.
    set (r := Z.to_nat rank) in *. clearbody r. clear L H H0 rank.
    repeat split.
    + rewrite app_length, firstn_length_le by lia. cbn [length]. rewrite skipn_length. lia.
    + rewrite nth_error_app2; rewrite firstn_length_le by lia; [|lia]. rewrite Nat.sub_diag. reflexivity.
    + intros k Hk. destruct (Nat.lt_ge_cases k r) as [A|A].
      * rewrite nth_error_app1 by (rewrite firstn_length_le by lia; exact A).
        clear Hk. revert r cur K A. induction k as [|k IH]; intros [|r] [|c cur] K A; try (cbn in *; lia); [reflexivity|].
        cbn [firstn nth_error]. apply IH; cbn in K; lia.
      * rewrite nth_error_app2 by (rewrite firstn_length_le by lia; exact A). rewrite firstn_length_le by lia.
        destruct (k - r)%nat as [|m] eqn:E; [lia|]. cbn [nth_error].
        replace k with (S r + m)%nat by lia. clear.
        revert cur. induction (S r) as [|n IH]; intros cur; [reflexivity|]. destruct cur as [|c cur]; [destruct m; reflexivity|]. cbn. apply IH.
  - split; [intros; lia|intros _; auto].
Qed.
(* A negative rank (the type is signed) is not rejected. *)
Theorem C45_negative_rank_refuted cur rank w : (rank < 0)%Z -> set_weight cur rank w = (cur, UB).
Proof.
  intros H. unfold set_weight. destruct (Z.ltb_spec rank (Z.of_nat (length cur))); [|lia]. destruct (Z.ltb_spec rank 0); [reflexivity|lia].
Qed.
(* A vector of weights given at construction is not checked: if it is shorter
   than the number of joints every distance reads beyond its end. *)
Theorem C45_short_weights_refuted X njoints nextra (jdist : nat -> X -> X -> R) rot ws q1 q2 :
  (length ws < njoints)%nat -> impl_distance X njoints nextra jdist rot ws q1 q2 = UB.
Proof. intros H. unfold impl_distance. rewrite dist_loop_short by (cbn; lia). reflexivity. Qed.

(* Weights computed from the robot: one per joint, none is zero; they are all
   finite as soon as the first joint has a positive length. *)
Theorem C45_computed_weights_partial lengths :
  Forall (fun x => 0 <= x) lengths ->
  length (compute_weights lengths) = length lengths /\
  Forall (fun w => match w with Fin r => 0 < r | PInf => True | _ => False end) (compute_weights lengths) /\
  (0 < hd 0 lengths -> exists ws, compute_weights lengths = map Fin ws /\ Forall (fun w => 0 < w) ws).
Proof.
  intros H. unfold compute_weights. split; [|split].
  - rewrite weights_loop_length. reflexivity.
  - apply (weights_loop_pos lengths PInf []); [exact H|exact I|constructor].
  - intros Hh. assert (F : Forall pos_fin (weights_loop lengths PInf [])).
    { destruct lengths as [|x l]; cbn in Hh; [lra|]. inversion H; subst. cbn [weights_loop andb].
      destruct (rltb_spec 0 x); [|lra]. apply weights_loop_fin; [assumption|assumption|].
      repeat constructor. cbn [is_zero]. destruct (reqb_spec x 0); [lra|exact Hh]. }
    clear -F. induction (weights_loop lengths PInf []) as [|w l IH]; [exists []; split; [reflexivity|constructor]|].
    inversion F; subst. destruct (IH H2) as (ws & -> & P). destruct w as [r| | |]; cbn in H1; try contradiction.
    exists (r :: ws). split; [reflexivity|constructor; assumption].
Qed.
(* If the first joint has length 0 its weight is infinite, whatever the other
   joints, and the distance between equal configurations is NaN. *)
Theorem C45_computed_weights_refuted lengths X njoints nextra (jdist : nat -> X -> X -> R) rot q :
  Forall (fun x => 0 <= x) lengths -> length lengths = njoints -> (0 < njoints)%nat -> hd 0 lengths = 0 ->
  (forall k, (k < njoints)%nat -> is_metric eq (jdist k)) -> rot 0%nat = true ->
  hd_error (compute_weights lengths) = Some PInf /\
  impl_distance X njoints nextra jdist rot (compute_weights lengths) q q = Ok NaN.
Proof.
  intros H L N Hh Hm Hr.
  assert (E : hd_error (compute_weights lengths) = Some PInf).
  { destruct lengths as [|x l]; [cbn in L; lia|]. cbn in Hh. subst x. unfold compute_weights. cbn [weights_loop].
    cbn [andb]. destruct (rltb_spec 0 0); [lra|]. cbn [app map is_zero]. destruct (reqb_spec 0 0); [|congruence].
    apply weights_loop_keeps. reflexivity. }
  split; [exact E|].
  assert (Lw : length (compute_weights lengths) = njoints) by (rewrite <- L; apply weights_loop_length).
  destruct (compute_weights lengths) as [|w ws]; [discriminate|]. cbn in E. injection E as ->.
  unfold impl_distance. destruct njoints as [|m]; [lia|]. cbn [dist_loop nth_error].
  assert (Z : jdist 0%nat (joint q 0) (joint q 0) = 0) by (apply (m_same _ _ (Hm 0%nat ltac:(lia))); reflexivity).
  unfold squared_distance at 1. rewrite Hr, Z. cbn [xmul xadd]. unfold xsign_inf.
  destruct (rltb_spec 0 (0 * 0)); [lra|]. destruct (rltb_spec (0 * 0) 0); [lra|]. cbn [xadd].
  assert (G : forall fuel k, (k + fuel <= length (PInf :: ws))%nat -> dist_loop X jdist rot fuel k (PInf :: ws) q q NaN = Ok NaN).
  { induction fuel as [|f IH]; intros k Hk; [reflexivity|]. cbn [dist_loop].
    destruct (nth_error (PInf :: ws) k) eqn:En; [|apply nth_error_None in En; cbn in *; lia].
    replace (xadd NaN _) with NaN by (destruct (squared_distance X jdist rot k (joint q k) (joint q k) (xmul x x)); reflexivity). apply IH. lia. }
  rewrite G by lia. reflexivity.
Qed.
Example C45_weights_ex : exists ws, compute_weights [2; 0; 1] = map Fin ws /\ Forall (fun w => 0 < w) ws.
Proof. apply C45_computed_weights_partial; [repeat constructor; lra|cbn; lra]. Qed.
Example C45_weights_bad_ex : hd_error (compute_weights [0; 1]) = Some PInf.
Proof.
  apply (C45_computed_weights_refuted [0; 1] R 2 0 (fun _ a b => Rabs (a - b)) (fun _ => true) (mkConf (fun _ => 0) (fun _ => 0)));
    [repeat constructor; lra|reflexivity|lia|reflexivity|intros; apply line_metric|reflexivity].
Qed.

Print Assumptions C45_distance_is_a_pseudometric.
Print Assumptions C45_distance_is_a_metric.
Print Assumptions C45_set_weights.
Print Assumptions C45_set_weight_partial.
Print Assumptions C45_negative_rank_refuted.
Print Assumptions C45_short_weights_refuted.
Print Assumptions C45_computed_weights_partial.
Print Assumptions C45_computed_weights_refuted.
