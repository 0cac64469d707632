(* The cost of the spline optimisers, and the joint bounds. *)
From Coq Require Import Reals Lra Lia List Arith Bool.
From Verif Require Import Base XReal PolySpec PolyProofs SplineModel SplineSpec SplineProofs SplineProofs2 SplineProofs3 SplineProofs4 SplineProofs5
  LinConsModel LinConsSpec LinConsProofs LinConsProofs2 SplineOptModel SplineOptSpec SplineOptProofs SplineOptProofs2.
Import ListNotations.
Open Scope R_scope.

(* ------------------------------------------------------------------ cost *)
Lemma integral_nonneg f a b I : a <= b -> (forall t, 0 <= f t) -> integral_is f a b I -> 0 <= I.
Proof.
  intros Hab Hf (pr & <-). pose proof (RiemannInt_P15 (RiemannInt_P14 a b 0)) as E.
  rewrite <- (Rmult_0_l (b - a)), <- E. apply RiemannInt_P19; [exact Hab|]. intros t _. apply Hf.
Qed.
Lemma sq_norm_nonneg nv D t : 0 <= sq_norm nv D t.
Proof. apply rsum_nonneg. intros d _. apply Rle_0_sqr. Qed.
Lemma energy_nonneg s k : sp_t0 s < sp_t1 s -> 0 <= sp_norm_integral s k.
Proof.
  intro H. destruct (le_lt_dec k (sp_deg s)) as [Hk|Hk].
  - pose proof (integral_nonneg _ _ _ _ (Rlt_le _ _ H) (sq_norm_nonneg _ _) (energy_integral s k H Hk)) as E.
    pose proof (ratio_pos (sp_deg s) k) as P. destruct (Rle_or_lt 0 (sp_norm_integral s k)) as [|N]; [assumption|].
    assert (0 < ratio (sp_deg s) k * - sp_norm_integral s k) by (apply Rmult_lt_0_compat; lra). lra.
  - rewrite energy_out by exact Hk. lra.
Qed.

Section COST.
  Variables (n nv : nat) (ss : list spline) (lambda : nat -> R) (order : nat).
  Hypothesis HP : proper n nv ss.
  Let N := (length ss * bsize n nv)%nat.
  Let H := cost_hessian n nv lambda order ss.
  Let NI j := norm_integral (nth_spline ss j) order.

  Lemma hess_at j i d j' i' d' : (i <= n)%nat -> (d < nv)%nat -> (i' <= n)%nat -> (d' < nv)%nat ->
    H (pidx n nv j i d) (pidx n nv j' i' d') = if (j =? j')%nat then if (d =? d')%nat then 2 * NI j i i' * lambda j else 0 else 0.
  Proof.
    intros Hi Hd Hi' Hd'. unfold H, cost_hessian. cbv zeta. rewrite !pidx_div, !pidx_mod by assumption.
    rewrite !div_block, !mod_block by assumption. reflexivity.
  Qed.
  Lemma hess_mv x j i d : (j < length ss)%nat -> (i <= n)%nat -> (d < nv)%nat ->
    mv N H x (pidx n nv j i d) = lambda j * (2 * rsum (fun i' => NI j i i' * x (pidx n nv j i' d)) (S n)).
  Proof.
    intros Hj Hi Hd. unfold mv, N. rewrite rsum_params. rewrite (rsum_single _ _ j Hj).
    - rewrite <- rsum_scal, <- rsum_scal. apply rsum_ext. intros i' Hi'. rewrite (rsum_single _ _ d Hd).
      + rewrite hess_at by (assumption || lia). rewrite !Nat.eqb_refl. ring.
      + intros d' Hd' Hn. rewrite hess_at by (assumption || lia). rewrite Nat.eqb_refl. destruct (Nat.eqb_spec d d'); [congruence|ring].
    - intros j' Hj' Hn. apply rsum_zero. intros i' Hi'. apply rsum_zero. intros d' Hd'. rewrite hess_at by (assumption || lia).
      destruct (Nat.eqb_spec j j'); [congruence|ring].
  Qed.

  Lemma energy_update x j : (j < length ss)%nat ->
    sp_norm_integral (nth_spline (update_splines n nv x ss) j) order =
    rsum (fun i => rsum (fun i' => rsum (fun d => x (pidx n nv j i d) * x (pidx n nv j i' d)) nv * NI j i i') (S n)) (S n).
  Proof.
    intro Hj. rewrite update_nth by exact Hj. destruct (nth_proper n nv ss HP j Hj) as (En & Ev & _).
    unfold sp_norm_integral. cbn [set_par sp_deg sp_nv sp_par]. rewrite En, Ev. reflexivity.
  Qed.
  Lemma quad_cost x : / 2 * dot N x (mv N H x) = cost_value lambda order (update_splines n nv x ss).
  Proof.
    unfold cost_value. rewrite update_length. unfold dot. unfold N at 2. rewrite rsum_params. rewrite <- rsum_scal. apply rsum_ext. intros j Hj.
    rewrite energy_update by exact Hj. rewrite <- !rsum_scal. apply rsum_ext. intros i Hi.
    rewrite (rsum_ext _ (fun d => lambda j * (2 * rsum (fun i' => x (pidx n nv j i d) * (NI j i i' * x (pidx n nv j i' d))) (S n)))).
    - rewrite rsum_scal, rsum_scal, rsum_swap.
      rewrite (rsum_ext (fun i' => rsum _ nv) (fun i' => rsum (fun d => x (pidx n nv j i d) * x (pidx n nv j i' d)) nv * NI j i i')).
      + field.
      + intros i' _. rewrite <- rsum_scal_r. apply rsum_ext. intros; ring.
    - intros d Hd. rewrite hess_mv by (assumption || lia). rewrite rsum_scal. ring.
  Qed.
  Lemma grad_hess x a : (a < N)%nat -> cost_gradient n nv lambda order (update_splines n nv x ss) a = mv N H x a.
  Proof.
    intro Ha. destruct HP as (_ & Hnv & _). destruct (pidx_surj n nv _ a Hnv Ha) as (j & i & d & Hj & Hi & Hd & ->).
    rewrite hess_mv by assumption. unfold cost_gradient. cbv zeta. rewrite pidx_div, pidx_mod by assumption.
    rewrite update_nth by exact Hj. destruct (nth_proper n nv ss HP j Hj) as (En & Ev & _).
    unfold sp_norm_gradient. cbv zeta. cbn [set_par sp_deg sp_nv sp_par]. rewrite En, Ev. rewrite div_block, mod_block by exact Hd.
    rewrite Rmult_comm. f_equal. f_equal. apply rsum_ext. intros i' Hi'.
    change (norm_integral (set_par (nth_spline ss j) _) order i' i) with (NI j i' i).
    unfold NI. rewrite (norm_integral_sym _ _ i' i) by (rewrite En; lia). ring.
  Qed.
  Lemma hess_sym : symmetric N H.
  Proof.
    intros a b Ha Hb. destruct HP as (_ & Hnv & _).
    destruct (pidx_surj n nv _ a Hnv Ha) as (j & i & d & Hj & Hi & Hd & ->).
    destruct (pidx_surj n nv _ b Hnv Hb) as (j' & i' & d' & Hj' & Hi' & Hd' & ->).
    rewrite !hess_at by assumption. rewrite (Nat.eqb_sym j' j), (Nat.eqb_sym d' d).
    destruct (Nat.eqb_spec j j') as [E|]; [|reflexivity]. destruct (Nat.eqb_spec d d'); [|reflexivity]. subst.
    destruct (nth_proper n nv ss HP j' Hj') as (En & _ & _). unfold NI. rewrite (norm_integral_sym _ _ i i') by (rewrite En; lia). reflexivity.
  Qed.
  Lemma cost_nonneg x : (forall j, (j < length ss)%nat -> 0 <= lambda j) -> 0 <= cost_value lambda order (update_splines n nv x ss).
  Proof.
    intro Hl. unfold cost_value. rewrite update_length. apply rsum_nonneg. intros j Hj. apply Rmult_le_pos; [apply Hl; exact Hj|].
    apply energy_nonneg. rewrite update_nth by exact Hj. cbn [set_par sp_t0 sp_t1]. apply (nth_proper n nv ss HP j Hj).
  Qed.
  Lemma hess_psd : (forall j, (j < length ss)%nat -> 0 <= lambda j) -> psd N H.
  Proof. intros Hl x. pose proof (cost_nonneg x Hl) as E. rewrite <- quad_cost in E. lra. Qed.
End COST.
