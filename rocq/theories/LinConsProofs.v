(* Proofs about linear constraints. *)
From Coq Require Import Reals Lra Lia List Arith FinFun.
From Verif Require Import Base XReal PolyProofs SplineModel SplineProofs LinConsModel LinConsSpec.
Import ListNotations.
Open Scope R_scope.

Lemma mv_ext n A x y i : same n x y -> mv n A x i = mv n A y i.
Proof. intro H. unfold mv. apply rsum_ext. intros k Hk. rewrite (H k Hk). reflexivity. Qed.
Lemma mv_mat_ext n A B x i : (forall k, (k < n)%nat -> A i k = B i k) -> mv n A x i = mv n B x i.
Proof. intro H. unfold mv. apply rsum_ext. intros k Hk. rewrite (H k Hk). reflexivity. Qed.
Lemma mv_plus n A x y i : mv n A (fun k => x k + y k) i = mv n A x i + mv n A y i.
Proof. unfold mv. rewrite <- rsum_plus. apply rsum_ext. intros k _. ring. Qed.
Lemma mv_minus n A x y i : mv n A (fun k => x k - y k) i = mv n A x i - mv n A y i.
Proof. unfold mv. rewrite <- rsum_minus. apply rsum_ext. intros k _. ring. Qed.
Lemma mv_scal n A c x i : mv n A (fun k => c * x k) i = c * mv n A x i.
Proof. unfold mv. rewrite <- rsum_scal. apply rsum_ext. intros k _. ring. Qed.
Lemma mv_mm n k A B v i : mv k (mm n A B) v i = mv n A (mv k B v) i.
Proof.
  unfold mv, mm.
  rewrite (rsum_ext _ (fun j => rsum (fun p => A i p * B p j * v j) n)) by (intros; rewrite <- rsum_scal_r; reflexivity).
  rewrite rsum_swap. apply rsum_ext. intros p _. rewrite <- rsum_scal. apply rsum_ext. intros; ring.
Qed.
Lemma mm_assoc n m A B C_ i j : mm n A (mm m B C_) i j = mm m (mm n A B) C_ i j.
Proof. exact (eq_sym (mv_mm n m A B (fun k => C_ k j) i)). Qed.

Lemma rsum_mid f n i : (i < n)%nat -> rsum (fun k => mid i k * f k) n = f i.
Proof.
  intro H. rewrite (rsum_single _ n i H).
  - unfold mid. rewrite Nat.eqb_refl. ring.
  - intros p _ Hp. unfold mid. destruct (Nat.eqb_spec i p); [congruence|ring].
Qed.
Lemma mv_mid n x i : (i < n)%nat -> mv n mid x i = x i.
Proof. intro H. unfold mv. rewrite rsum_mid by exact H. reflexivity. Qed.

(* Qt (Q y) = y and Q (Qt x) = x *)
Lemma orth_l n Q y i : orthogonal n Q -> (i < n)%nat -> mv n (mt Q) (mv n Q y) i = y i.
Proof.
  intros HQ Hi. rewrite <- mv_mm.
  rewrite (mv_mat_ext n _ mid).
  - apply mv_mid. exact Hi.
  - intros k Hk. unfold mm, mt. exact (proj1 (HQ i k Hi Hk)).
Qed.
Lemma orth_r n Q x i : orthogonal n Q -> (i < n)%nat -> mv n Q (mv n (mt Q) x) i = x i.
Proof.
  intros HQ Hi. rewrite <- mv_mm.
  rewrite (mv_mat_ext n _ mid).
  - apply mv_mid. exact Hi.
  - intros k Hk. unfold mm, mt. exact (proj2 (HQ i k Hi Hk)).
Qed.

(* forward substitution *)
Lemma fsub_stable R_ rhs : forall r i j, (j < i)%nat -> (i <= r)%nat -> fsub R_ rhs r j = fsub R_ rhs i j.
Proof.
  induction r as [|r IH]; intros i j Hj Hi; [lia|].
  destruct (Nat.eq_dec i (S r)) as [->|Hn]; [reflexivity|].
  cbn [fsub]. destruct (Nat.eqb_spec j r); [lia|]. apply IH; lia.
Qed.
Lemma fsub_last R_ rhs i : fsub R_ rhs (S i) i = (rhs i - rsum (fun k => R_ k i * fsub R_ rhs i k) i) / R_ i i.
Proof. cbn [fsub]. rewrite Nat.eqb_refl. reflexivity. Qed.
Lemma fsub_spec R_ rhs r : (forall k, (k < r)%nat -> R_ k k <> 0) ->
  forall i, (i < r)%nat -> rsum (fun k => R_ k i * fsub R_ rhs r k) (S i) = rhs i.
Proof.
  intros Hd i Hi. cbn [rsum].
  rewrite (rsum_ext _ (fun k => R_ k i * fsub R_ rhs i k))
    by (intros p Hp; rewrite (fsub_stable R_ rhs r i p) by lia; reflexivity).
  rewrite (fsub_stable R_ rhs r (S i) i) by lia. rewrite fsub_last. field. apply Hd, Hi.
Qed.
Lemma fsub_unique R_ rhs r y : (forall k, (k < r)%nat -> R_ k k <> 0) ->
  (forall i, (i < r)%nat -> rsum (fun k => R_ k i * y k) (S i) = rhs i) ->
  forall i, (i < r)%nat -> y i = fsub R_ rhs r i.
Proof.
  intros Hd Hy. intro i. induction i as [i IH] using lt_wf_ind. intro Hi.
  pose proof (Hy i Hi) as E1. pose proof (fsub_spec R_ rhs r Hd i Hi) as E2. cbn [rsum] in E1, E2.
  rewrite (rsum_ext _ (fun k => R_ k i * fsub R_ rhs r k)) in E1
    by (intros p Hp; rewrite (IH p) by lia; reflexivity).
  assert (E : R_ i i * y i = R_ i i * fsub R_ rhs r i) by lra.
  apply Rmult_eq_reg_l in E; [exact E|apply Hd, Hi].
Qed.

Lemma perm_surj m p : (forall j, (j < m)%nat -> (p j < m)%nat) ->
  (forall i j, (i < m)%nat -> (j < m)%nat -> p i = p j -> i = j) ->
  forall i, (i < m)%nat -> exists j, (j < m)%nat /\ p j = i.
Proof.
  intros H1 H2 i Hi.
  assert (S : bSurjective m p).
  { apply bInjective_bSurjective; [intros x Hx; apply H1, Hx|]. intros x y Hx Hy E. apply H2; assumption. }
  destruct (S i Hi) as (j & Hj & E). exists j. split; assumption.
Qed.

Lemma rsum_cut f n r : (r <= n)%nat -> (forall k, (r <= k < n)%nat -> f k = 0) -> rsum f n = rsum f r.
Proof.
  intros Hr H. replace n with (r + (n - r))%nat by lia. rewrite rsum_app.
  rewrite (rsum_zero (fun p => f (r + p)%nat)); [ring|]. intros p Hp. apply H. lia.
Qed.

Section QR.
  Variables (n m : nat) (J : mat) (q : qr_result).
  Hypothesis HQ : is_qr n m (mt J) q.
  Let r := qr_rank q.

  (* J x, read through the decomposition *)
  Lemma J_perm x j : (j < m)%nat -> mv n J x (qr_perm q j) = rsum (fun k => qr_R q k j * mv n (mt (qr_Q q)) x k) r.
  Proof.
    intro Hj. unfold mv at 1.
    rewrite (rsum_ext _ (fun i => rsum (fun k => qr_R q k j * (qr_Q q i k * x i)) n)).
    2:{ intros i Hi. change (J (qr_perm q j) i) with (mt J i (qr_perm q j)).
        rewrite (qr_prod _ _ _ _ HQ i j Hi Hj). unfold mm. rewrite <- rsum_scal_r. apply rsum_ext. intros; ring. }
    rewrite rsum_swap.
    rewrite (rsum_ext _ (fun k => qr_R q k j * mv n (mt (qr_Q q)) x k)).
    2:{ intros k Hk. unfold mv, mt. rewrite <- rsum_scal. reflexivity. }
    apply rsum_cut; [apply (qr_rank_n _ _ _ _ HQ)|].
    intros k Hk. rewrite (qr_low _ _ _ _ HQ k j) by (try lia; left; unfold r in *; lia). ring.
  Qed.

  Lemma upto_S f j : (j < r)%nat -> (forall k, (j < k < r)%nat -> f k = 0) -> rsum f r = rsum f (S j).
  Proof. intros Hj H. apply rsum_cut; [lia|]. intros k Hk. apply H. lia. Qed.

  Variable b : vec.
  Let z := fsub (qr_R q) (fun j => b (qr_perm q j)) r.
  Let z' := fun i => if (i <? r)%nat then z i else 0.
  Let xStar := mv n (qr_Q q) z'.
  Let PK := fun i j => qr_Q q i (r + j)%nat.

  (* Q applied to (y, v) *)
  Lemma Q_split y v i : (i < n)%nat ->
    mv n (qr_Q q) (fun k => if (k <? r)%nat then y k else v (k - r)%nat) i =
    mv n (qr_Q q) (fun k => if (k <? r)%nat then y k else 0) i + mv (n - r) PK v i.
  Proof.
    intro Hi. unfold mv.
    assert (Hr : (r <= n)%nat) by apply (qr_rank_n _ _ _ _ HQ).
    replace n with (r + (n - r))%nat at 1 2 by lia. rewrite !rsum_app.
    rewrite (rsum_zero (fun p => qr_Q q i (r + p)%nat * (if (r + p <? r)%nat then y (r + p)%nat else 0))).
    2:{ intros p _. destruct (Nat.ltb_spec (r + p) r); [lia|ring]. }
    rewrite Rplus_0_r. f_equal.
    - apply rsum_ext. intros p Hp. destruct (Nat.ltb_spec p r); [reflexivity|lia].
    - apply rsum_ext. intros p _. unfold PK. destruct (Nat.ltb_spec (r + p) r); [lia|].
      replace (r + p - r)%nat with p by lia. reflexivity.
  Qed.

  Lemma sol_coord v k : (k < n)%nat ->
    mv n (mt (qr_Q q)) (fun i => xStar i + mv (n - r) PK v i) k = if (k <? r)%nat then z k else v (k - r)%nat.
  Proof.
    intro Hk.
    rewrite (mv_ext n _ _ (mv n (qr_Q q) (fun k => if (k <? r)%nat then z k else v (k - r)%nat))).
    - rewrite orth_l by (try exact Hk; apply (qr_orth _ _ _ _ HQ)). reflexivity.
    - intros i Hi. rewrite Q_split by exact Hi. reflexivity.
  Qed.

  Lemma tri j : (j < r)%nat -> forall y, rsum (fun k => qr_R q k j * y k) r = rsum (fun k => qr_R q k j * y k) (S j).
  Proof.
    intros Hj y. apply upto_S; [exact Hj|]. intros k Hk.
    pose proof (qr_rank_n _ _ _ _ HQ). pose proof (qr_rank_m _ _ _ _ HQ). unfold r in *.
    rewrite (qr_low _ _ _ _ HQ k j) by lia. ring.
  Qed.

  (* a solution has z as its first coordinates *)
  Lemma sat_coord x : (forall i, (i < m)%nat -> mv n J x i = b i) ->
    forall k, (k < r)%nat -> mv n (mt (qr_Q q)) x k = z k.
  Proof.
    intros Hx k Hk. unfold z. apply fsub_unique with (r := r); [apply (qr_diag _ _ _ _ HQ)| |exact Hk].
    intros i Hi. rewrite <- tri by exact Hi.
    assert (Him : (i < m)%nat) by (pose proof (qr_rank_m _ _ _ _ HQ); unfold r in *; lia).
    rewrite <- J_perm by exact Him. apply Hx. apply (qr_perm_lt _ _ _ _ HQ), Him.
  Qed.

  Lemma sat_form x : (forall i, (i < m)%nat -> mv n J x i = b i) ->
    same n x (fun i => xStar i + mv (n - r) PK (fun j => mv n (mt (qr_Q q)) x (r + j)) i).
  Proof.
    intros Hx i Hi. rewrite <- (orth_r n (qr_Q q) x i (qr_orth _ _ _ _ HQ) Hi) at 1.
    unfold xStar, z'. rewrite <- Q_split by exact Hi. apply mv_ext. intros k Hk.
    destruct (Nat.ltb_spec k r).
    - apply sat_coord; assumption.
    - replace (r + (k - r))%nat with k by lia. reflexivity.
  Qed.

  Lemma J_sol v j : (j < m)%nat ->
    mv n J (fun i => xStar i + mv (n - r) PK v i) (qr_perm q j) = rsum (fun k => qr_R q k j * z k) r.
  Proof.
    intro Hj. rewrite J_perm by exact Hj. apply rsum_ext. intros k Hk.
    rewrite sol_coord by (pose proof (qr_rank_n _ _ _ _ HQ); unfold r in *; lia).
    destruct (Nat.ltb_spec k r); [reflexivity|lia].
  Qed.

  Lemma form_sat x v : (forall i, (i < m)%nat -> mv n J x i = b i) ->
    forall i, (i < m)%nat -> mv n J (fun i => xStar i + mv (n - r) PK v i) i = b i.
  Proof.
    intros Hx i Hi.
    destruct (perm_surj m _ (qr_perm_lt _ _ _ _ HQ) (qr_perm_inj _ _ _ _ HQ) i Hi) as (j & Hj & <-).
    rewrite J_sol by exact Hj. rewrite <- (Hx _ Hi), J_perm by exact Hj.
    apply rsum_ext. intros k Hk. rewrite (sat_coord x Hx k Hk). reflexivity.
  Qed.

  Lemma star_sat x : (forall i, (i < m)%nat -> mv n J x i = b i) ->
    forall i, (i < m)%nat -> mv n J xStar i = b i.
  Proof.
    intros Hx i Hi. rewrite <- (form_sat x (fun _ => 0) Hx i Hi). apply mv_ext. intros k _.
    unfold mv at 1. rewrite rsum_zero; [ring|intros; ring].
  Qed.

  Lemma param_inj v w : same n (fun i => xStar i + mv (n - r) PK v i) (fun i => xStar i + mv (n - r) PK w i) ->
    same (n - r) v w.
  Proof.
    intros H j Hj.
    assert (E : mv n (mt (qr_Q q)) (fun i => xStar i + mv (n - r) PK v i) (r + j) =
                mv n (mt (qr_Q q)) (fun i => xStar i + mv (n - r) PK w i) (r + j)) by (apply mv_ext; exact H).
    rewrite !sol_coord in E by lia. destruct (Nat.ltb_spec (r + j) r); [lia|].
    replace (r + j - r)%nat with j in E by lia. exact E.
  Qed.

  (* norms are those of the coordinates *)
  Lemma sqnorm_coord x : sqnorm n x = sqnorm n (mv n (mt (qr_Q q)) x).
  Proof.
    unfold sqnorm, dot. symmetry.
    rewrite (rsum_ext _ (fun k => rsum (fun i => x i * (qr_Q q i k * mv n (mt (qr_Q q)) x k)) n)).
    2:{ intros k _. unfold mv at 1, mt. rewrite <- rsum_scal_r. apply rsum_ext. intros; ring. }
    rewrite rsum_swap. apply rsum_ext. intros i Hi. rewrite rsum_scal. f_equal.
    change (mv n (qr_Q q) (mv n (mt (qr_Q q)) x) i = x i). apply orth_r; [apply (qr_orth _ _ _ _ HQ)|exact Hi].
  Qed.

  Lemma star_min x : (forall i, (i < m)%nat -> mv n J x i = b i) -> sqnorm n xStar <= sqnorm n x.
  Proof.
    intro Hx. rewrite (sqnorm_coord xStar), (sqnorm_coord x).
    unfold sqnorm, dot. apply rsum_le. intros k Hk.
    assert (E : mv n (mt (qr_Q q)) xStar k = if (k <? r)%nat then z k else 0).
    { unfold xStar. rewrite orth_l by (try exact Hk; apply (qr_orth _ _ _ _ HQ)). reflexivity. }
    rewrite E. destruct (Nat.ltb_spec k r).
    - rewrite (sat_coord x Hx k) by assumption. lra.
    - pose proof (Rle_0_sqr (mv n (mt (qr_Q q)) x k)). unfold Rsqr in *. lra.
  Qed.
End QR.

Lemma read_b_ok c : written c -> exists b, read_b c = Ok b /\ forall i, (i < lc_rows c)%nat -> lc_b c i = Some (b i).
Proof.
  intro H. unfold read_b.
  assert (E : forallb (fun i => defined (lc_b c i)) (seq 0 (lc_rows c)) = true).
  { apply forallb_forall. intros i Hi. apply in_seq in Hi. pose proof (H i ltac:(lia)). destruct (lc_b c i); [reflexivity|congruence]. }
  rewrite E. exists (fun i => val (lc_b c i)). split; [reflexivity|].
  intros i Hi. pose proof (H i Hi). destruct (lc_b c i); [reflexivity|congruence].
Qed.
Lemma read_b_inv c b : read_b c = Ok b -> forall i, (i < lc_rows c)%nat -> lc_b c i = Some (b i).
Proof.
  unfold read_b. destruct (forallb _ _) eqn:E; [|discriminate]. intros [= <-] i Hi.
  rewrite forallb_forall in E. specialize (E i). rewrite in_seq in E. specialize (E ltac:(lia)).
  destruct (lc_b c i); [reflexivity|discriminate].
Qed.
Lemma read_b_not_written c : ~ written c -> read_b c = UB.
Proof.
  intro H. unfold read_b. destruct (forallb _ _) eqn:E; [|reflexivity]. exfalso. apply H. intros i Hi.
  rewrite forallb_forall in E. specialize (E i). rewrite in_seq in E. specialize (E ltac:(lia)).
  destruct (lc_b c i); [congruence|discriminate].
Qed.
Lemma sat_written c x : sat c x -> written c.
Proof. intros H i Hi. rewrite (H i Hi). discriminate. Qed.
Lemma sat_b c x b : (forall i, (i < lc_rows c)%nat -> lc_b c i = Some (b i)) ->
  sat c x <-> forall i, (i < lc_rows c)%nat -> mv (lc_cols c) (lc_J c) x i = b i.
Proof.
  intro H. unfold sat. split; intros Hs i Hi; specialize (Hs i Hi); rewrite (H i Hi) in *; congruence.
Qed.

Lemma is_zero_iff n prec x : is_zero n prec x = true <-> forall i, (i < n)%nat -> Rabs (x i) <= prec.
Proof.
  unfold is_zero. rewrite forallb_forall. split; intros H i Hi.
  - specialize (H i). rewrite in_seq in H. specialize (H ltac:(lia)).
    destruct (rleb_spec (Rabs (x i)) prec); [assumption|discriminate].
  - apply in_seq in Hi. destruct (rleb_spec (Rabs (x i)) prec); [reflexivity|]. specialize (H i ltac:(lia)). lra.
Qed.
