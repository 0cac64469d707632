(* The step directions, and the invariant of the dual method. *)
From Coq Require Import Reals Lra Lia Arith List Bool.
From Verif Require Import Base XReal SplineModel SplineProofs LinConsModel LinConsSpec LinConsProofs LinConsProofs2 GiModel GiSpec GiProofs.
Open Scope R_scope.

Lemma bsub_spec Rm d iq c : forall r, (c <= iq)%nat -> (forall k, (k < iq)%nat -> Rm k k <> 0) ->
  (forall i, (c <= i)%nat -> bsub Rm d iq c r i = r i) /\
  (forall i, (i < c)%nat -> rsum (fun q => Rm i (i + q)%nat * bsub Rm d iq c r (i + q)%nat) (iq - i) = d i).
Proof.
  induction c as [|c IH]; intros r Hc Hd; [split; intros; [reflexivity|lia]|]. cbn [bsub].
  destruct (IH (updv r c ((d c - rsum (fun p => Rm c (S c + p)%nat * r (S c + p)%nat) (iq - S c)) / Rm c c)) ltac:(lia) Hd) as [A B].
  split.
  - intros i Hi. rewrite A by lia. apply updv_ne. lia.
  - intros i Hi. destruct (Nat.eq_dec i c) as [->|]; [|apply B; lia].
    assert (X : (iq - c)%nat = S (iq - S c)) by lia. rewrite X, rsum_first. rewrite Nat.add_0_r, A by lia. rewrite updv_eq.
    set (v := rsum (fun p => Rm c (S c + p)%nat * r (S c + p)%nat) (iq - S c)) in *.
    match goal with |- _ + ?y = _ => assert (Ey : y = v) end.
    2: { rewrite Ey. field. apply Hd. lia. }
    apply rsum_ext. intros q Hq. assert (Eq : (c + S q)%nat = (S c + q)%nat) by lia. rewrite Eq, A by lia. rewrite updv_ne by lia. reflexivity.
Qed.

Section Direction.
Variables (n : nat) (G H0 J Rm N : mat) (iq : nat) (np : vec).
Hypothesis GH : forall i l, (i < n)%nat -> (l < n)%nat -> rsum (fun k => G i k * H0 k l) n = mid i l.
Hypothesis F : fact n H0 J Rm iq N.
Let d := compute_d n J np.
Let z := update_z n J d iq.
Let r := update_r Rm d iq.

Lemma r_solve i : (i < iq)%nat -> rsum (fun k => Rm i k * r k) iq = d i.
Proof.
  intros Hi. destruct (bsub_spec Rm d iq iq (fun _ => 0) (le_n _) (f_diag _ _ _ _ _ _ F)) as [_ B]. specialize (B i Hi).
  rewrite <- B. replace iq with (i + (iq - i))%nat at 1 by lia. rewrite rsum_app.
  rewrite (rsum_zero (fun k => Rm i k * r k)); [unfold r, update_r; ring|].
  intros k Hk. rewrite (f_zero _ _ _ _ _ _ F) by lia. ring.
Qed.
Lemma compute_d_minus v w i : compute_d n J (fun k => v k - w k) i = compute_d n J v i - compute_d n J w i.
Proof. unfold compute_d. apply mv_minus. Qed.
Lemma compute_d_sum q (r' : vec) (N' : mat) i : compute_d n J (fun k => rsum (fun a => r' a * N' a k) q) i = rsum (fun a => r' a * compute_d n J (N' a) i) q.
Proof.
  unfold compute_d, mv. rewrite (rsum_ext _ (fun k => rsum (fun a => mt J i k * (r' a * N' a k)) q)) by (intros; symmetry; apply rsum_scal).
  rewrite rsum_swap. apply rsum_ext. intros a _. rewrite <- rsum_scal. apply rsum_ext. intros k _. ring.
Qed.
Let w : vec := fun k => np k - rsum (fun a => r a * N a k) iq.
Lemma d_w i : (i < n)%nat -> compute_d n J w i = if (i <? iq)%nat then 0 else d i.
Proof.
  intros Hi. unfold w. rewrite (compute_d_minus np), compute_d_sum. fold d.
  rewrite (rsum_ext _ (fun a => Rm i a * r a)) by (intros a Ha; rewrite (f_jn _ _ _ _ _ _ F) by assumption; ring).
  destruct (Nat.ltb_spec i iq) as [L|L].
  - rewrite r_solve by exact L. ring.
  - rewrite rsum_zero; [ring|]. intros a Ha. rewrite (f_zero _ _ _ _ _ _ F) by lia. ring.
Qed.
Lemma z_gram k : z k = mv n (gram n J) w k.
Proof.
  assert (E : mv n (gram n J) w k = rsum (fun j => J k j * compute_d n J w j) n).
  { unfold mv, gram, compute_d, mv, mt.
    rewrite (rsum_ext _ (fun l => rsum (fun j => J k j * J l j * w l) n)) by (intros; symmetry; apply rsum_scal_r).
    rewrite rsum_swap. apply rsum_ext. intros j _. rewrite <- rsum_scal. apply rsum_ext. intros l _. ring. }
  rewrite E. pose proof (f_le _ _ _ _ _ _ F). replace n with (iq + (n - iq))%nat at 1 by lia. rewrite rsum_app.
  rewrite (rsum_zero (fun j => J k j * _)).
  - unfold z, update_z. rewrite Rplus_0_l. apply rsum_ext. intros q Hq. rewrite d_w by lia.
    assert (X : (iq + q <? iq)%nat = false) by (apply Nat.ltb_ge; lia). rewrite X. reflexivity.
  - intros j Hj. rewrite d_w by lia. apply Nat.ltb_lt in Hj. rewrite Hj. ring.
Qed.
Lemma G_z i : (i < n)%nat -> mv n G z i = np i - rsum (fun a => r a * N a i) iq.
Proof.
  intros Hi. change (np i - rsum (fun a => r a * N a i) iq) with (w i).
  rewrite (mv_ext n G z (mv n (gram n J) w)) by (intros k _; apply z_gram). rewrite <- mv_mm.
  rewrite (mv_mat_ext n _ mid) by (intros k Hk; unfold mm; rewrite (rsum_ext _ (fun a => G i a * H0 a k)); [apply GH; assumption|
    intros a Ha; rewrite (f_gram _ _ _ _ _ _ F) by assumption; reflexivity]).
  apply mv_mid. exact Hi.
Qed.
Lemma dot_z v : dot n v z = rsum (fun q => d (iq + q)%nat * compute_d n J v (iq + q)%nat) (n - iq).
Proof.
  unfold dot, z, update_z, compute_d, mv, mt.
  rewrite (rsum_ext _ (fun k => rsum (fun q => v k * (J k (iq + q)%nat * d (iq + q)%nat)) (n - iq))) by (intros; symmetry; apply rsum_scal).
  rewrite rsum_swap. apply rsum_ext. intros q _. rewrite <- rsum_scal. apply rsum_ext. intros k _. ring.
Qed.
Lemma N_z k : (k < iq)%nat -> dot n (N k) z = 0.
Proof.
  intros Hk. rewrite dot_z. apply rsum_zero. intros q Hq. rewrite (f_jn _ _ _ _ _ _ F) by lia.
  rewrite (f_zero _ _ _ _ _ _ F) by lia. ring.
Qed.
Lemma z_np : dot n z np = rsum (fun q => d (iq + q)%nat * d (iq + q)%nat) (n - iq).
Proof. rewrite dot_sym, dot_z. reflexivity. Qed.
Lemma z_np_nonneg : 0 <= dot n z np.
Proof. rewrite z_np. apply rsum_nonneg. intros q _. pose proof (Rle_0_sqr (d (iq + q)%nat)). assumption. Qed.
Lemma zz_zero : dot n z z = 0 -> forall k, (k < n)%nat -> z k = 0.
Proof. apply rsum_sq_zero. Qed.
Lemma zz_np : dot n z z = 0 -> dot n z np = 0.
Proof. intros H. unfold dot. apply rsum_zero. intros k Hk. rewrite (zz_zero H k Hk). ring. Qed.
Lemma np_zz : dot n z np = 0 -> dot n z z = 0.
Proof.
  intros H. rewrite z_np in H. pose proof (rsum_sq_zero (fun q => d (iq + q)%nat) _ H) as K. cbv beta in K.
  unfold dot. apply rsum_zero. intros k _. replace (z k) with 0; [ring|]. symmetry. unfold z, update_z. apply rsum_zero.
  intros q Hq. rewrite K by exact Hq. ring.
Qed.
Lemma zz_pos : rltb 0 (Rabs (dot n z z)) = true -> 0 < dot n z np.
Proof.
  intros H. apply rltb_t in H. pose proof z_np_nonneg. destruct (Req_dec (dot n z np) 0) as [E|]; [|lra].
  apply np_zz in E. rewrite E, Rabs_R0 in H. lra.
Qed.
Lemma zz_nil : rltb 0 (Rabs (dot n z z)) = false -> dot n z z = 0.
Proof. intros H. apply rltb_f in H. pose proof (Rabs_pos (dot n z z)). destruct (Req_dec (dot n z z) 0) as [|E]; [assumption|]. apply Rabs_pos_lt in E. lra. Qed.
Lemma iq_lt : 0 < dot n z np -> (iq < n)%nat.
Proof. intros H. destruct (Nat.lt_ge_cases iq n) as [|L]; [assumption|]. rewrite z_np in H. replace (n - iq)%nat with 0%nat in H by lia. cbn in H. lra. Qed.
End Direction.

Lemma rsum_shift f qq iq : (qq <= iq)%nat -> f qq = 0 ->
  rsum f (S iq) = rsum (fun k => if (qq <=? k)%nat then f (S k) else f k) iq.
Proof.
  intros H E. induction iq as [|iq IH].
  - replace qq with 0%nat in E by lia. cbn. rewrite E. ring.
  - destruct (Nat.eq_dec qq (S iq)) as [->|Hne].
    + change (rsum f (S (S iq))) with (rsum f (S iq) + f (S iq)). rewrite E, Rplus_0_r. apply rsum_ext. intros k Hk.
      assert (X : (S iq <=? k)%nat = false) by (apply Nat.leb_gt; lia). rewrite X. reflexivity.
    + change (rsum f (S (S iq))) with (rsum f (S iq) + f (S iq)). rewrite IH by lia. cbn [rsum].
      assert (X : (qq <=? iq)%nat = true) by (apply Nat.leb_le; lia). rewrite X. reflexivity.
Qed.

Lemma partial_step_spec A u r c : forall k t1 l t1' l', partial_step A u r k c t1 l = (t1', l') ->
  (t1' = None -> t1 = None /\ forall j, (k <= j < k + c)%nat -> r j <= 0) /\
  (forall t, t1' = Some t -> ((t1 = Some t /\ l' = l) \/ exists j, (k <= j < k + c)%nat /\ 0 < r j /\ t = u j / r j /\ l' = A j) /\
     (forall a, t1 = Some a -> t <= a) /\ forall j, (k <= j < k + c)%nat -> 0 < r j -> t <= u j / r j).
Proof.
  induction c as [|c IH]; intros k t1 l t1' l' E; cbn [partial_step] in E.
  - injection E as <- <-. split; [intros ->; split; [reflexivity|intros; lia]|]. intros t ->.
    split; [left; split; reflexivity|]. split; [intros a [= ->]; lra|intros; lia].
  - destruct (rltb 0 (r k)) eqn:E0; cbn [andb] in E.
    + apply rltb_t in E0. destruct (match t1 with None => true | Some t => rltb (u k / r k) t end) eqn:Eb.
      * apply IH in E. destruct E as [E1 E2]. split.
        { intros X. destruct (E1 X) as [Y _]. discriminate. }
        intros t Ht. destruct (E2 t Ht) as (X1 & X2 & X3). split; [|split].
        -- right. destruct X1 as [[X1 ->]|(j & J1 & J2 & J3 & J4)].
           ++ exists k. injection X1 as <-. repeat split; try lia; try assumption.
           ++ exists j. repeat split; try lia; assumption.
        -- intros a ->. apply rltb_t in Eb. specialize (X2 _ eq_refl). lra.
        -- intros j Hj Hr. destruct (Nat.eq_dec j k) as [->|]; [apply X2; reflexivity|apply X3; [lia|assumption]].
      * destruct t1 as [a0|]; [|discriminate]. apply rltb_f in Eb. apply IH in E. destruct E as [E1 E2]. split.
        { intros X. destruct (E1 X) as [Y _]. discriminate. }
        intros t Ht. destruct (E2 t Ht) as (X1 & X2 & X3). split; [|split].
        -- destruct X1 as [X1|(j & J1 & J2 & J3 & J4)]; [left; exact X1|right; exists j; repeat split; try lia; assumption].
        -- exact X2.
        -- intros j Hj Hr. destruct (Nat.eq_dec j k) as [->|]; [specialize (X2 _ eq_refl); lra|apply X3; [lia|assumption]].
    + apply rltb_f in E0. apply IH in E. destruct E as [E1 E2]. split.
      { intros X. destruct (E1 X) as [Y1 Y2]. split; [exact Y1|]. intros j Hj. destruct (Nat.eq_dec j k) as [->|]; [exact E0|apply Y2; lia]. }
      intros t Ht. destruct (E2 t Ht) as (X1 & X2 & X3). split; [|split].
      -- destruct X1 as [X1|(j & J1 & J2 & J3 & J4)]; [left; exact X1|right; exists j; repeat split; try lia; assumption].
      -- exact X2.
      -- intros j Hj Hr. destruct (Nat.eq_dec j k) as [->|]; [lra|apply X3; [lia|assumption]].
Qed.
