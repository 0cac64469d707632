From Coq Require Import Reals ZArith Lra Lia.
From Verif Require Import Base PartialCutReal XReal WDistModel WDistSpec PolyProofs.
Open Scope R_scope.

(* ------------------------------------------------------------- Minkowski *)
Section Minkowski.
Variable n : nat.
Variable c : nat -> R.
Hypothesis c_nonneg : forall k, (k < n)%nat -> 0 <= c k.
Notation nrm f := (sqrt (ip n c f f)).
Lemma ip_mono f g : (forall k, (k < n)%nat -> 0 <= f k <= g k) -> ip n c f f <= ip n c g g.
Proof.
  intros H. apply sumf_le. intros k Hk. pose proof (H k Hk). pose proof (c_nonneg k Hk).
  rewrite !Rmult_assoc. apply Rmult_le_compat_l; [assumption|]. apply Rmult_le_compat; lra.
Qed.
Lemma minkowski f g h : (forall k, (k < n)%nat -> 0 <= h k <= f k + g k) -> nrm h <= nrm f + nrm g.
Proof.
  intros H. apply Rle_trans with (nrm (fun k => 1 * f k + 1 * g k)).
  - apply sqrt_le_1_alt. apply ip_mono. intros k Hk. pose proof (H k Hk). lra.
  - pose proof (ip_self n c c_nonneg f) as F. pose proof (ip_self n c c_nonneg g) as G.
    pose proof (ip_self n c c_nonneg (fun k => 1 * f k + 1 * g k)) as S.
    pose proof (cauchy n c c_nonneg f g) as C.
    pose proof (sqrt_pos (ip n c f f)) as Pf. pose proof (sqrt_pos (ip n c g g)) as Pg.
    apply Rsqr_incr_0; [|apply sqrt_pos|lra]. rewrite Rsqr_sqrt by exact S. rewrite ip_lin.
    unfold Rsqr. pose proof (sqrt_sqrt _ F). pose proof (sqrt_sqrt _ G). 
    replace ((nrm f + nrm g) * (nrm f + nrm g)) with (nrm f * nrm f + 2 * (nrm f * nrm g) + nrm g * nrm g) by ring.
    lra.
Qed.
End Minkowski.

(* ---------------------------------------------------------- the distance *)
Section D.
Variable X : Type.
Variables njoints nextra : nat.
Variable jdist : nat -> X -> X -> R.
Variable rot : nat -> bool.
Variable ws : list R.
Hypothesis ws_size : (njoints <= length ws)%nat.
Hypothesis jm : forall k, (k < njoints)%nat -> is_metric eq (jdist k).
Notation conf := (config X).

Definition coef (k : nat) : R :=
  if (k <? njoints)%nat then (if rot k then nth k ws 0 * nth k ws 0 else 1) else 1.
Definition comp_dist (a b : conf) (k : nat) : R :=
  if (k <? njoints)%nat then jdist k (joint a k) (joint b k)
  else Rabs (extra a (k - njoints) - extra b (k - njoints)).
Definition D (a b : conf) : R := sqrt (ip (njoints + nextra) coef (comp_dist a b) (comp_dist a b)).

Lemma coef_nonneg k : 0 <= coef k.
Proof. unfold coef. destruct (k <? njoints)%nat; [|lra]. destruct (rot k); [|lra]. apply (Rle_0_sqr (nth k ws 0)). Qed.
Lemma comp_nonneg a b k : 0 <= comp_dist a b k.
Proof. unfold comp_dist. destruct (Nat.ltb_spec k njoints); [apply (m_nonneg _ _ (jm k H))|apply Rabs_pos]. Qed.
Lemma comp_sym a b k : comp_dist a b k = comp_dist b a k.
Proof. unfold comp_dist. destruct (Nat.ltb_spec k njoints); [apply (m_sym _ _ (jm k H))|apply Rabs_minus_sym]. Qed.
Lemma comp_tri a b c k : comp_dist a c k <= comp_dist a b k + comp_dist b c k.
Proof.
  unfold comp_dist. destruct (Nat.ltb_spec k njoints); [apply (m_tri _ _ (jm k H))|].
  replace (extra a (k - njoints) - extra c (k - njoints)) with
    ((extra a (k - njoints) - extra b (k - njoints)) + (extra b (k - njoints) - extra c (k - njoints))) by ring.
  apply Rabs_triang.
Qed.
Definition same (a b : conf) : Prop :=
  (forall k, (k < njoints)%nat -> joint a k = joint b k) /\ (forall k, (k < nextra)%nat -> extra a k = extra b k).
Lemma comp_zero a b : same a b <-> forall k, (k < njoints + nextra)%nat -> comp_dist a b k = 0.
Proof.
  unfold comp_dist. split.
  - intros [S1 S2] k Hk. destruct (Nat.ltb_spec k njoints) as [L|L].
    + apply (m_same _ _ (jm k L)). apply S1. exact L.
    + rewrite S2 by lia. rewrite Rminus_diag_eq by reflexivity. apply Rabs_R0.
  - intros H. split.
    + intros k Hk. specialize (H k ltac:(lia)). destruct (Nat.ltb_spec k njoints); [|lia]. apply (m_diff _ _ (jm k Hk)). exact H.
    + intros k Hk. specialize (H (njoints + k)%nat ltac:(lia)). destruct (Nat.ltb_spec (njoints + k) njoints); [lia|].
      replace (njoints + k - njoints)%nat with k in H by lia.
      destruct (Req_dec (extra a k - extra b k) 0) as [E|E]; [lra|]. exfalso. apply (Rabs_no_R0 _ E). exact H.
Qed.
Lemma D_pseudo : is_pseudometric same D.
Proof.
  constructor.
  - intros; apply sqrt_pos.
  - intros a b. unfold D. f_equal. apply sumf_ext. intros k _. rewrite (comp_sym a b k). reflexivity.
  - intros a b S. pose proof (proj1 (comp_zero a b) S) as Z. unfold D. replace (ip _ _ _ _) with 0; [apply sqrt_0|].
    unfold ip. transitivity (sumf (njoints + nextra) (fun k => 0 * 0)); [rewrite sumf_scale; ring|].
    apply sumf_ext. intros k Hk. rewrite Z by exact Hk. ring.
  - intros a b c. apply minkowski; [intros; apply coef_nonneg|]. intros k _. split; [apply comp_nonneg|apply comp_tri].
Qed.
Lemma D_zero a b : (forall k, (k < njoints)%nat -> rot k = true -> nth k ws 0 <> 0) -> D a b = 0 -> same a b.
Proof.
  intros W H. apply comp_zero. unfold D in H.
  assert (Q : 0 <= ip (njoints + nextra) coef (comp_dist a b) (comp_dist a b)) by (apply ip_self; intros; apply coef_nonneg).
  apply sqrt_eq_0 in H; [|exact Q].
  intros k Hk. unfold ip in H.
  assert (Z : coef k * comp_dist a b k * comp_dist a b k = 0).
  { apply (sumf_zero (njoints + nextra) (fun k => coef k * comp_dist a b k * comp_dist a b k)); [|lra|exact Hk].
    intros j _. pose proof (coef_nonneg j). pose proof (comp_nonneg a b j). apply Rmult_le_pos; [apply Rmult_le_pos|]; assumption. }
  assert (C : 0 < coef k).
  { unfold coef. destruct (Nat.ltb_spec k njoints) as [L|L]; [|lra]. destruct (rot k) eqn:Er; [|lra].
    apply (Rsqr_pos_lt (nth k ws 0)). apply W; assumption. }
  destruct (Rmult_integral _ _ Z) as [Z1|Z1]; [|exact Z1]. destruct (Rmult_integral _ _ Z1); lra.
Qed.

Lemma dist_loop_ok q1 q2 : forall fuel k acc, (k + fuel = njoints)%nat ->
  dist_loop X jdist rot fuel k (map Fin ws) q1 q2 (Fin acc) =
  Ok (Fin (acc + (sumf njoints (fun k => coef k * comp_dist q1 q2 k * comp_dist q1 q2 k) -
                  sumf k (fun k => coef k * comp_dist q1 q2 k * comp_dist q1 q2 k)))).
Proof.
  induction fuel as [|fuel IH]; intros k acc Hk; cbn [dist_loop].
  - rewrite Nat.add_0_r in Hk. subst k. f_equal. f_equal. ring.
  - rewrite nth_error_map. rewrite (nth_error_nth' ws 0) by lia. cbn [option_map].
    assert (E : xadd (Fin acc) (squared_distance X jdist rot k (joint q1 k) (joint q2 k) (xmul (Fin (nth k ws 0)) (Fin (nth k ws 0))))
      = Fin (acc + coef k * comp_dist q1 q2 k * comp_dist q1 q2 k)).
    { unfold squared_distance, coef, comp_dist. destruct (Nat.ltb_spec k njoints); [|lia]. destruct (rot k); cbn; f_equal; ring. }
    rewrite E, IH by lia. f_equal. f_equal. cbn [sumf]. ring.
Qed.
Lemma sumf_split n m f : sumf (n + m) f = sumf n f + sumf m (fun k => f (n + k)%nat).
Proof. induction m as [|m IH]; cbn; [rewrite Nat.add_0_r; lra|]. rewrite Nat.add_succ_r. cbn. rewrite IH. lra. Qed.
Lemma extra_norm_ok q1 q2 m : extra_norm X m q1 q2 =
  sumf m (fun k => coef (njoints + k) * comp_dist q1 q2 (njoints + k) * comp_dist q1 q2 (njoints + k)).
Proof.
  induction m as [|m IH]; cbn; [reflexivity|]. rewrite IH. f_equal.
  unfold coef, comp_dist. destruct (Nat.ltb_spec (njoints + m) njoints); [lia|].
  replace (njoints + m - njoints)%nat with m by lia.
  rewrite Rmult_1_l, <- Rabs_mult, Rabs_right; [reflexivity|]. apply Rle_ge. apply (Rle_0_sqr (extra q1 m - extra q2 m)).
Qed.
Lemma impl_distance_ok q1 q2 : impl_distance X njoints nextra jdist rot (map Fin ws) q1 q2 = Ok (Fin (D q1 q2)).
Proof.
  unfold impl_distance. rewrite dist_loop_ok by lia. cbn [sumf xadd]. f_equal.
  replace (0 + (sumf njoints (fun k => coef k * comp_dist q1 q2 k * comp_dist q1 q2 k) - 0) + extra_norm X nextra q1 q2)
    with (ip (njoints + nextra) coef (comp_dist q1 q2) (comp_dist q1 q2))
    by (unfold ip; rewrite sumf_split, extra_norm_ok; ring).
  pose proof (ip_self (njoints + nextra) coef (fun k _ => coef_nonneg k) (comp_dist q1 q2)) as P.
  unfold xsqrt. destruct (rltb_spec (ip (njoints + nextra) coef (comp_dist q1 q2) (comp_dist q1 q2)) 0); [lra|]. reflexivity.
Qed.
End D.
Lemma dist_loop_short X (jdist : nat -> X -> X -> R) rot q1 q2 (w : list xr) : forall fuel k acc, (k <= length w)%nat -> (length w < k + fuel)%nat ->
  dist_loop X jdist rot fuel k w q1 q2 acc = UB.
Proof.
  induction fuel as [|fuel IH]; intros k acc Hk Hl; [lia|]. cbn [dist_loop].
  destruct (nth_error w k) eqn:E; [|reflexivity]. apply IH; [|lia].
  assert (k < length w)%nat by (apply nth_error_Some; congruence). lia.
Qed.

(* --------------------------------------------------- computed weights *)
Definition pos_or_inf (x : xr) : Prop := match x with Fin r => 0 < r | PInf => True | _ => False end.
Lemma weights_loop_pos : forall l m done, Forall (fun x => 0 <= x) l -> pos_or_inf m -> Forall pos_or_inf done ->
  Forall pos_or_inf (weights_loop l m done).
Proof.
  induction l as [|x l IH]; intros m done Hl Hm Hd; [exact Hd|]. inversion Hl; subst. cbn [weights_loop].
  set (m' := if _ && _ then _ else _).
  assert (Pm : pos_or_inf m').
  { unfold m'. destruct (match m with Fin m0 => rltb x m0 | PInf => true | _ => false end); [|exact Hm]. cbn [andb].
    destruct (rltb_spec 0 x); [cbn; assumption|exact Hm]. }
  apply IH; [assumption|exact Pm|].
  rewrite Forall_map, Forall_app. split.
  - eapply Forall_impl; [|exact Hd]. intros w Hw. destruct (is_zero w); [exact Pm|exact Hw].
  - repeat constructor. cbn [is_zero]. destruct (reqb_spec x 0); [exact Pm|cbn; lra].
Qed.
Lemma weights_loop_length : forall l m done, length (weights_loop l m done) = (length done + length l)%nat.
Proof.
  induction l as [|x l IH]; intros m done; cbn [weights_loop length]; [lia|].
  rewrite IH, map_length, app_length. cbn. lia.
Qed.
Definition pos_fin (x : xr) : Prop := match x with Fin r => 0 < r | _ => False end.
Lemma weights_loop_fin : forall l m done, Forall (fun x => 0 <= x) l -> 0 < m -> Forall pos_fin done ->
  Forall pos_fin (weights_loop l (Fin m) done).
Proof.
  induction l as [|x l IH]; intros m done Hl Hm Hd; [exact Hd|]. inversion Hl; subst. cbn [weights_loop].
  assert (Q : exists m', 0 < m' /\ (if rltb x m && rltb 0 x then Fin x else Fin m) = Fin m').
  { destruct (rltb x m); cbn [andb]; [|exists m; auto]. destruct (rltb_spec 0 x); [exists x; auto|exists m; auto]. }
  destruct Q as (m' & Pm & ->). apply IH; [assumption|exact Pm|].
  rewrite Forall_map, Forall_app. split.
  - eapply Forall_impl; [|exact Hd]. intros w Hw. destruct (is_zero w); [exact Pm|exact Hw].
  - repeat constructor. cbn [is_zero]. destruct (reqb_spec x 0); [exact Pm|cbn; lra].
Qed.
Lemma weights_loop_keeps : forall l m a done, is_zero a = false -> hd_error (weights_loop l m (a :: done)) = Some a.
Proof.
  induction l as [|x l IH]; intros m a done Ha; [reflexivity|]. cbn [weights_loop app map]. rewrite Ha. apply IH. exact Ha.
Qed.
