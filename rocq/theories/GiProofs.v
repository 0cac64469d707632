(* Givens rotations, insertion and removal of constraints. *)
From Coq Require Import Reals Lra Lia Arith List Bool.
From Verif Require Import Base XReal SplineModel SplineProofs LinConsModel LinConsSpec LinConsProofs LinConsProofs2 GiModel GiSpec.
Open Scope R_scope.

Lemma rltb_t a b : rltb a b = true <-> a < b.
Proof. unfold rltb. destruct (Rlt_dec a b); split; intros; auto; try discriminate; contradiction. Qed.
Lemma rltb_f a b : rltb a b = false <-> b <= a.
Proof. unfold rltb. destruct (Rlt_dec a b); split; intros; auto; try discriminate; lra. Qed.
Lemma rleb_t a b : rleb a b = true <-> a <= b.
Proof. unfold rleb. destruct (Rle_dec a b); split; intros; auto; try discriminate; contradiction. Qed.
Lemma rleb_f a b : rleb a b = false <-> b < a.
Proof. unfold rleb. destruct (Rle_dec a b); split; intros; auto; try discriminate; lra. Qed.
Lemma reqb_t a b : reqb a b = true <-> a = b.
Proof. unfold reqb. destruct (Req_EM_T a b); split; intros; auto; try discriminate; contradiction. Qed.
Lemma reqb_f a b : reqb a b = false <-> a <> b.
Proof. unfold reqb. destruct (Req_EM_T a b); split; intros; auto; try discriminate; contradiction. Qed.

Lemma hyp2_aux a b : 0 < a -> (a * sqrt (1 + b / a * (b / a))) * (a * sqrt (1 + b / a * (b / a))) = a * a + b * b.
Proof.
  intros H. set (q := 1 + b / a * (b / a)).
  assert (0 <= q) by (unfold q; pose proof (Rle_0_sqr (b / a)) as X; unfold Rsqr in X; lra).
  replace (a * sqrt q * (a * sqrt q)) with (a * a * (sqrt q * sqrt q)) by ring. rewrite sqrt_sqrt by assumption.
  unfold q. field. lra.
Qed.
Lemma abs_sq a : Rabs a * Rabs a = a * a.
Proof. rewrite <- Rabs_mult. apply Rabs_pos_eq. pose proof (Rle_0_sqr a). exact H. Qed.
Lemma hyp2_sq a b : hyp2 a b * hyp2 a b = a * a + b * b.
Proof.
  unfold hyp2. pose proof (Rabs_pos a). pose proof (Rabs_pos b). rewrite <- (abs_sq a), <- (abs_sq b).
  destruct (rltb (Rabs b) (Rabs a)) eqn:E1.
  - apply rltb_t in E1. apply hyp2_aux. lra.
  - apply rltb_f in E1. destruct (rltb (Rabs a) (Rabs b)) eqn:E2.
    + apply rltb_t in E2. rewrite hyp2_aux by lra. ring.
    + apply rltb_f in E2. assert (E : Rabs b = Rabs a) by lra. rewrite E.
      replace (Rabs a * sqrt 2 * (Rabs a * sqrt 2)) with (Rabs a * Rabs a * (sqrt 2 * sqrt 2)) by ring.
      rewrite sqrt_sqrt by lra. ring.
Qed.
Lemma givens_spec a b cc ss g : hyp2 a b <> 0 -> givens a b (hyp2 a b) = (cc, ss, g) ->
  0 <= cc /\ cc * cc + ss * ss = 1 /\ cc * a + ss * b = g /\ ss * a - cc * b = 0 /\ g * g = a * a + b * b.
Proof.
  intros Hh E. pose proof (hyp2_sq a b) as Q. set (h := hyp2 a b) in *. unfold givens in E.
  assert (K : a / h * (a / h) + b / h * (b / h) = 1).
  { replace (a / h * (a / h) + b / h * (b / h)) with ((a * a + b * b) / (h * h)) by (field; exact Hh). rewrite <- Q. field. exact Hh. }
  destruct (rltb (a / h) 0) eqn:E1; injection E as <- <- <-.
  - apply rltb_t in E1. split; [lra|]. split; [lra|]. split; [|split].
    + replace (- (a / h) * a + - (b / h) * b) with (- ((a * a + b * b) / h)) by (field; exact Hh). rewrite <- Q. field. exact Hh.
    + field. exact Hh.
    + lra.
  - apply rltb_f in E1. split; [lra|]. split; [lra|]. split; [|split].
    + replace (a / h * a + b / h * b) with ((a * a + b * b) / h) by (field; exact Hh). rewrite <- Q. field. exact Hh.
    + field. exact Hh.
    + lra.
Qed.
Lemma rot_alg cc ss t1 t2 : 0 <= cc -> cc * cc + ss * ss = 1 ->
  ss / (1 + cc) * (t1 + (t1 * cc + t2 * ss)) - t2 = ss * t1 - cc * t2.
Proof.
  intros H1 H2. replace (ss / (1 + cc) * (t1 + (t1 * cc + t2 * ss)) - t2) with
    (ss * t1 + t2 * (ss * ss / (1 + cc) - 1)) by (field; lra).
  replace (ss * ss) with ((1 - cc) * (1 + cc)) by lra. replace ((1 - cc) * (1 + cc) / (1 + cc)) with (1 - cc) by (field; lra). ring.
Qed.
Lemma rot_cols_spec cc ss j0 j1 J k j : 0 <= cc -> cc * cc + ss * ss = 1 ->
  rot_cols cc ss j0 j1 J k j = if (j =? j0)%nat then cc * J k j0 + ss * J k j1
    else if (j =? j1)%nat then ss * J k j0 - cc * J k j1 else J k j.
Proof. intros H1 H2. unfold rot_cols. cbv zeta. rewrite rot_alg by assumption. destruct (j =? j0)%nat; [ring|reflexivity]. Qed.
Lemma rsum_two f n a b : (a < n)%nat -> (b < n)%nat -> a <> b ->
  (forall q, (q < n)%nat -> q <> a -> q <> b -> f q = 0) -> rsum f n = f a + f b.
Proof.
  intros Ha Hb Hab H. rewrite (rsum_ext f (fun q => (if (q =? a)%nat then f a else 0) + (if (q =? b)%nat then f b else 0))).
  - rewrite rsum_plus, (rsum_single _ n a Ha), (rsum_single _ n b Hb), !Nat.eqb_refl; [reflexivity| |];
      intros q _ Hq; apply Nat.eqb_neq in Hq; rewrite Hq; reflexivity.
  - intros q Hq. destruct (q =? a)%nat eqn:E1, (q =? b)%nat eqn:E2; try apply Nat.eqb_eq in E1; try apply Nat.eqb_eq in E2; subst; try lia; try ring.
    apply Nat.eqb_neq in E1. apply Nat.eqb_neq in E2. rewrite H by assumption. ring.
Qed.
Definition gram (n : nat) (J : mat) (k l : nat) : R := rsum (fun j => J k j * J l j) n.
Lemma rot_gram n cc ss j0 j1 J k l : 0 <= cc -> cc * cc + ss * ss = 1 -> (j0 < n)%nat -> (j1 < n)%nat -> j0 <> j1 ->
  gram n (rot_cols cc ss j0 j1 J) k l = gram n J k l.
Proof.
  intros H1 H2 L0 L1 Hne. unfold gram. apply Rminus_diag_uniq. rewrite <- rsum_minus.
  rewrite (rsum_two _ n j0 j1 L0 L1 Hne).
  - rewrite !rot_cols_spec by assumption. rewrite !Nat.eqb_refl.
    assert (E : (j1 =? j0)%nat = false) by (apply Nat.eqb_neq; lia). rewrite E.
    replace (_ + _) with ((cc * cc + ss * ss - 1) * (J k j0 * J l j0 + J k j1 * J l j1)) by ring. rewrite H2. ring.
  - intros q _ Q1 Q2. rewrite !rot_cols_spec by assumption. apply Nat.eqb_neq in Q1, Q2. rewrite Q1, Q2. ring.
Qed.
Lemma rot_d n cc ss j0 j1 J v j : 0 <= cc -> cc * cc + ss * ss = 1 ->
  compute_d n (rot_cols cc ss j0 j1 J) v j = if (j =? j0)%nat then cc * compute_d n J v j0 + ss * compute_d n J v j1
    else if (j =? j1)%nat then ss * compute_d n J v j0 - cc * compute_d n J v j1 else compute_d n J v j.
Proof.
  intros H1 H2. unfold compute_d, mv, mt. rewrite <- !rsum_scal, <- rsum_plus, <- rsum_minus.
  destruct (j =? j0)%nat eqn:E0; [|destruct (j =? j1)%nat eqn:E1]; apply rsum_ext; intros k _; rewrite rot_cols_spec by assumption; rewrite E0, ?E1; ring.
Qed.

Lemma updv_eq {T} (f : nat -> T) i v : updv f i v i = v.
Proof. unfold updv. rewrite Nat.eqb_refl. reflexivity. Qed.
Lemma updv_ne {T} (f : nat -> T) i v k : k <> i -> updv f i v k = f k.
Proof. intros H. unfold updv. apply Nat.eqb_neq in H. rewrite H. reflexivity. Qed.

Lemma add_loop_spec n iq np c : forall d J d' J', (iq + c < n)%nat -> same n d (compute_d n J np) ->
  (forall i, (iq + c < i < n)%nat -> d i = 0) -> add_loop iq c d J = (d', J') ->
  same n d' (compute_d n J' np) /\ (forall i, (iq < i < n)%nat -> d' i = 0) /\ (forall i, (i < iq)%nat -> d' i = d i) /\
  (forall k l, gram n J' k l = gram n J k l) /\
  (forall v, (forall i, (iq <= i < n)%nat -> compute_d n J v i = 0) -> forall i, (i < n)%nat -> compute_d n J' v i = compute_d n J v i) /\
  d' iq * d' iq = rsum (fun q => d (iq + q)%nat * d (iq + q)%nat) (S c).
Proof.
  induction c as [|c IH]; intros d J d' J' Hn Hd Hz E; cbn [add_loop] in E.
  - injection E as <- <-. split; [exact Hd|]. split; [intros i Hi; apply Hz; lia|]. split; [reflexivity|]. split; [reflexivity|]. split; [reflexivity|].
    cbn [rsum]. rewrite Nat.add_0_r. ring.
  - destruct (reqb (hyp2 (d (iq + c)%nat) (d (iq + S c)%nat)) 0) eqn:Eh.
    + apply reqb_t in Eh. pose proof (hyp2_sq (d (iq + c)%nat) (d (iq + S c)%nat)) as Q. rewrite Eh in Q.
      assert (Z : d (iq + S c)%nat = 0) by (clear - Q; pose proof (Rle_0_sqr (d (iq + c)%nat)) as X1; unfold Rsqr in X1; nra).
      destruct (IH d J d' J' ltac:(lia) Hd) as (A1 & A2 & A3 & A4 & A5 & A6); [|exact E|].
      { intros i Hi. destruct (Nat.eq_dec i (iq + S c)) as [->|]; [exact Z|apply Hz; lia]. }
      repeat (split; [assumption|]). rewrite A6. change (rsum ?f (S (S c))) with (rsum f (S c) + f (S c)). cbv beta. rewrite Z. ring.
    + apply reqb_f in Eh. destruct (givens (d (iq + c)%nat) (d (iq + S c)%nat) _) as [[cc ss] g] eqn:Eg.
      destruct (givens_spec _ _ _ _ _ Eh Eg) as (G1 & G2 & G3 & G4 & G5).
      apply IH in E; [|lia| |].
      * destruct E as (A1 & A2 & A3 & A4 & A5 & A6). split; [exact A1|]. split; [exact A2|]. split.
        { intros i Hi. rewrite A3 by exact Hi. rewrite !updv_ne by lia. reflexivity. }
        split. { intros k l. rewrite A4. apply rot_gram; try assumption; lia. }
        split.
        { intros v Hv. assert (K : forall i, (i < n)%nat -> compute_d n (rot_cols cc ss (iq + c) (iq + S c) J) v i = compute_d n J v i).
          { intros i Hi. rewrite rot_d by assumption. rewrite (Hv (iq + c)%nat), (Hv (iq + S c)%nat) by lia.
            destruct (i =? iq + c)%nat eqn:E0; [apply Nat.eqb_eq in E0; subst; rewrite Hv by lia; ring|].
            destruct (i =? iq + S c)%nat eqn:E1; [apply Nat.eqb_eq in E1; subst; rewrite Hv by lia; ring|]. reflexivity. }
          intros i Hi. rewrite A5; [apply K, Hi| |exact Hi]. intros q Hq. rewrite K by lia. apply Hv, Hq. }
        rewrite A6. cbn [rsum]. rewrite updv_eq. rewrite G5. rewrite Rplus_assoc. f_equal.
        apply rsum_ext. intros q Hq. rewrite !updv_ne by lia. reflexivity.
      * intros i Hi. rewrite rot_d by assumption. rewrite <- (Hd (iq + c)%nat), <- (Hd (iq + S c)%nat) by lia. unfold updv.
        destruct (i =? iq + c)%nat eqn:E0; [symmetry; exact G3|].
        destruct (i =? iq + S c)%nat eqn:E1; [symmetry; exact G4|]. apply Hd, Hi.
      * intros i Hi. destruct (Nat.eq_dec i (iq + S c)) as [->|N1].
        { rewrite updv_ne by lia. apply updv_eq. }
        rewrite !updv_ne by lia. apply Hz. lia.
Qed.

(* The factorization: J J^T is a given matrix, J^T maps the normals of the
   active constraints to the columns of R, which is upper triangular. *)
Record fact (n : nat) (H0 : mat) (J Rm : mat) (iq : nat) (N : mat) : Prop := {
  f_le : (iq <= n)%nat;
  f_gram : forall k l, (k < n)%nat -> (l < n)%nat -> gram n J k l = H0 k l;
  f_jn : forall k i, (k < iq)%nat -> (i < n)%nat -> compute_d n J (N k) i = Rm i k;
  f_zero : forall i k, (k < i \/ iq <= k)%nat -> Rm i k = 0;
  f_diag : forall k, (k < iq)%nat -> Rm k k <> 0
}.
Lemma compute_d_ext n J v w i : same n v w -> compute_d n J v i = compute_d n J w i.
Proof. intros H. unfold compute_d. apply mv_ext. exact H. Qed.
Lemma fact_ext n H0 J Rm iq N N' : (forall k i, (k < iq)%nat -> (i < n)%nat -> N k i = N' k i) ->
  fact n H0 J Rm iq N -> fact n H0 J Rm iq N'.
Proof.
  intros E [A1 A2 A3 A4 A5]. split; try assumption. intros k i Hk Hi. rewrite <- A3 by assumption.
  apply compute_d_ext. intros j Hj. symmetry. apply E; assumption.
Qed.
Lemma rsum_sq_zero f n : rsum (fun q => f q * f q) n = 0 -> forall q, (q < n)%nat -> f q = 0.
Proof.
  induction n as [|n IH]; intros H q Hq; [lia|]. cbn [rsum] in H.
  assert (0 <= rsum (fun q => f q * f q) n) by (apply rsum_nonneg; intros; pose proof (Rle_0_sqr (f p)); assumption).
  assert (0 <= f n * f n) by (pose proof (Rle_0_sqr (f n)); assumption).
  destruct (Nat.eq_dec q n) as [->|]; [nra|]. apply IH; [lra|lia].
Qed.

Lemma add_fact n H0 J Rm iq N np Rn : fact n H0 J Rm iq N -> (iq < n)%nat ->
  let d := compute_d n J np in let w := rsum (fun q => d (iq + q)%nat * d (iq + q)%nat) (n - iq) in
  (w = 0 -> exists R' J' Rn', add_constraint n 0 Rm J d iq Rn = Ok (false, R', J', Rn')) /\
  (w <> 0 -> exists R' J' Rn', add_constraint n 0 Rm J d iq Rn = Ok (true, R', J', Rn') /\ fact n H0 J' R' (S iq) (updv N iq np)).
Proof.
  intros [F1 F2 F3 F4 F5] Hlt d w. unfold add_constraint.
  assert (En : (n <=? iq)%nat = false) by (apply Nat.leb_gt; exact Hlt). rewrite En.
  destruct (add_loop iq (n - 1 - iq) d J) as [d' J'] eqn:E.
  apply (add_loop_spec n iq np) in E; [|lia|intros i _; reflexivity|intros i Hi; lia].
  destruct E as (A1 & A2 & A3 & A4 & A5 & A6). replace (S (n - 1 - iq)) with (n - iq)%nat in A6 by lia. fold w in A6.
  assert (Hz : rleb (Rabs (d' iq)) (0 * Rn) = true <-> d' iq = 0).
  { rewrite rleb_t, Rmult_0_l. split; [|intros ->; rewrite Rabs_R0; lra]. intros X. pose proof (Rabs_pos (d' iq)).
    destruct (Req_dec (d' iq) 0) as [|Hn]; [assumption|]. apply Rabs_pos_lt in Hn. lra. }
  split; intros Hw.
  - assert (d' iq = 0) by (rewrite Hw in A6; nra). rewrite (proj2 Hz H). eauto.
  - assert (Hd : d' iq <> 0) by (intros X; rewrite X in A6; lra).
    destruct (rleb (Rabs (d' iq)) (0 * Rn)) eqn:Eb; [exfalso; apply Hd, Hz, eq_refl|].
    eexists _, _, _. split; [reflexivity|]. split.
    + lia.
    + intros k l Hk Hl. rewrite A4. apply F2; assumption.
    + intros k i Hk Hi. cbv beta. destruct (Nat.eq_dec k iq) as [->|Hne].
      * rewrite updv_eq, Nat.eqb_refl. cbn [andb]. rewrite <- (A1 i Hi). destruct (i <=? iq)%nat eqn:El; [reflexivity|].
        apply Nat.leb_gt in El. rewrite A2 by lia. symmetry. apply F4. right. lia.
      * rewrite updv_ne by exact Hne. apply Nat.eqb_neq in Hne. rewrite Hne. cbn [andb]. apply Nat.eqb_neq in Hne.
        rewrite A5; [apply F3; lia| |exact Hi]. intros q Hq. rewrite F3 by lia. apply F4. left. lia.
    + intros i k Hik. cbv beta. destruct (k =? iq)%nat eqn:Ek; [apply Nat.eqb_eq in Ek; subst|].
      * assert (E : (i <=? iq)%nat = false) by (apply Nat.leb_gt; lia). rewrite E. cbn [andb]. apply F4. right. lia.
      * cbn [andb]. apply Nat.eqb_neq in Ek. apply F4. lia.
    + intros k Hk. cbv beta. destruct (k =? iq)%nat eqn:Ek; [apply Nat.eqb_eq in Ek; subst|].
      * rewrite Nat.leb_refl. exact Hd.
      * cbn [andb]. apply Nat.eqb_neq in Ek. apply F5. lia.
Qed.

Record hess (n : nat) (H0 : mat) (J Rm : mat) (iq : nat) (N : mat) (j : nat) : Prop := {
  h_le : (iq < n)%nat;
  h_gram : forall k l, (k < n)%nat -> (l < n)%nat -> gram n J k l = H0 k l;
  h_jn : forall k i, (k < iq)%nat -> (i < n)%nat -> compute_d n J (N k) i = Rm i k;
  h_zero : forall i k, (iq <= k \/ (k < j /\ k < i) \/ (S k < i))%nat -> Rm i k = 0;
  h_diag : forall k, (k < j)%nat -> (k < iq)%nat -> Rm k k <> 0;
  h_sub : forall k, (j <= k)%nat -> (k < iq)%nat -> Rm (S k) k <> 0
}.
Lemma del_loop_spec n H0 iq N c : forall j Rm J R' J', hess n H0 J Rm iq N j -> (j + c = iq)%nat ->
  del_loop iq j c Rm J = (R', J') -> hess n H0 J' R' iq N iq.
Proof.
  induction c as [|c IH]; intros j Rm J R' J' HH Hc E; cbn [del_loop] in E.
  - injection E as <- <-. replace iq with j at 2 by lia. exact HH.
  - destruct HH as [F1 F2 F3 F4 F5 F6]. assert (Hs : Rm (S j) j <> 0) by (apply F6; lia).
    destruct (reqb (hyp2 (Rm j j) (Rm (S j) j)) 0) eqn:Eh.
    { exfalso. apply reqb_t in Eh. pose proof (hyp2_sq (Rm j j) (Rm (S j) j)) as Q. rewrite Eh in Q.
      apply Hs. pose proof (Rle_0_sqr (Rm j j)) as X. unfold Rsqr in X. nra. }
    apply reqb_f in Eh. destruct (givens (Rm j j) (Rm (S j) j) _) as [[cc ss] g] eqn:Eg.
    destruct (givens_spec _ _ _ _ _ Eh Eg) as (G1 & G2 & G3 & G4 & G5).
    apply IH in E; [exact E| |lia]. clear IH E. split.
    + exact F1.
    + intros k l Hk Hl. rewrite rot_gram by (assumption || lia). apply F2; assumption.
    + intros k i Hk Hi. rewrite rot_d by assumption. rewrite !F3 by lia. cbv beta zeta.
      destruct (Nat.eqb_spec k j) as [->|Nk].
      * destruct (Nat.eqb_spec i j) as [->|Ni]; [exact G3|]. destruct (Nat.eqb_spec i (S j)) as [->|Ni']; [exact G4|]. reflexivity.
      * assert (Ek : (k <? iq)%nat = true) by (apply Nat.ltb_lt; exact Hk). rewrite Ek, andb_true_r.
        destruct (Nat.ltb_spec j k) as [Lk|Lk].
        -- destruct (Nat.eqb_spec i j) as [->|Ni]; [ring|]. destruct (Nat.eqb_spec i (S j)) as [->|Ni']; [rewrite rot_alg by assumption; ring|]. reflexivity.
        -- assert (Z1 : Rm j k = 0) by (apply F4; right; left; lia). assert (Z2 : Rm (S j) k = 0) by (apply F4; right; left; lia).
           rewrite Z1, Z2. destruct (Nat.eqb_spec i j) as [->|Ni]; [rewrite Z1; ring|].
           destruct (Nat.eqb_spec i (S j)) as [->|Ni']; [rewrite Z2; ring|]. reflexivity.
    + intros i k Hik. cbv beta zeta. destruct (Nat.eqb_spec k j) as [->|Nk].
      * destruct (Nat.eqb_spec i j) as [->|Ni]; [lia|]. destruct (Nat.eqb_spec i (S j)) as [->|Ni']; [reflexivity|]. apply F4. lia.
      * destruct (Nat.ltb_spec j k) as [Lk|Lk]; cbn [andb]; [|apply F4; lia].
        destruct (Nat.ltb_spec k iq) as [Mk|Mk]; [|apply F4; lia].
        destruct (Nat.eqb_spec i j) as [->|Ni]; [lia|]. destruct (Nat.eqb_spec i (S j)) as [->|Ni']; [lia|]. apply F4. lia.
    + intros k Hk Hk'. cbv beta zeta. destruct (Nat.eqb_spec k j) as [->|Nk].
      * intros X. rewrite X in G5. apply Hs. pose proof (Rle_0_sqr (Rm j j)) as Y. unfold Rsqr in Y. nra.
      * destruct (Nat.ltb_spec j k) as [Lk|Lk]; [lia|]. cbn [andb]. apply F5; lia.
    + intros k Hk Hk'. cbv beta zeta. destruct (Nat.eqb_spec k j) as [->|Nk]; [lia|].
      destruct (Nat.ltb_spec j k) as [Lk|Lk]; [|lia]. destruct (Nat.ltb_spec k iq) as [Mk|Mk]; [|lia]. cbn [andb].
      destruct (Nat.eqb_spec (S k) j) as [Ni|Ni]; [lia|]. destruct (Nat.eqb_spec (S k) (S j)) as [Ni'|Ni']; [lia|]. apply F6; lia.
Qed.

Lemma find_qq_spec A l c : forall i, (exists k, (i <= k < i + c)%nat /\ A k = l) ->
  exists k, find_qq A l i c = Some k /\ (i <= k < i + c)%nat /\ A k = l.
Proof.
  induction c as [|c IH]; intros i (k & Hk & E); [lia|]. cbn [find_qq]. destruct (Nat.eqb_spec (A i) l) as [X|X].
  - exists i. split; [reflexivity|]. split; [lia|exact X].
  - destruct (IH (S i)) as (q & Q1 & Q2 & Q3).
    { exists k. split; [|exact E]. destruct (Nat.eq_dec k i) as [->|]; [contradiction|lia]. }
    exists q. split; [exact Q1|]. split; [lia|exact Q3].
Qed.
Lemma del_fact n H0 J Rm p A u iq N l : fact n H0 J Rm iq N -> (exists k, (p <= k < iq)%nat /\ A k = l) ->
  exists qq R' J', (p <= qq < iq)%nat /\ A qq = l /\
    delete_constraint p Rm J A u iq l = Ok (R', J', shifted 0%nat A qq iq, shifted 0 u qq iq) /\
    fact n H0 J' R' (iq - 1) (fun k => if (qq <=? k)%nat then N (S k) else N k).
Proof.
  intros [F1 F2 F3 F4 F5] (k & Hk & E). unfold delete_constraint.
  destruct (find_qq_spec A l (iq - p) p) as (qq & Q1 & Q2 & Q3); [exists k; split; [lia|exact E]|]. rewrite Q1.
  set (R1 := fun i k0 => _). destruct (del_loop (iq - 1) qq (iq - 1 - qq) R1 J) as [R2 J2] eqn:Ed.
  exists qq, R2, J2. split; [lia|]. split; [exact Q3|]. split; [reflexivity|].
  apply (del_loop_spec n H0 _ (fun k => if (qq <=? k)%nat then N (S k) else N k)) in Ed; [| |lia].
  - destruct Ed as [D1 D2 D3 D4 D5 D6]. split; [lia|exact D2|exact D3| |intros q Hq; apply D5; lia].
    intros i q [Hq|Hq]; apply D4; lia.
  - split.
    + lia.
    + exact F2.
    + intros q i Hq Hi. unfold R1. destruct (Nat.leb_spec qq q) as [L|L]; cbn [andb].
      * assert (X : (q <? iq - 1)%nat = true) by (apply Nat.ltb_lt; lia). rewrite X. apply F3; lia.
      * assert (X : (q =? iq - 1)%nat = false) by (apply Nat.eqb_neq; lia). rewrite X. cbn [andb]. apply F3; lia.
    + intros i q Hq. unfold R1. destruct (Nat.leb_spec qq q) as [L|L]; cbn [andb].
      * destruct (Nat.ltb_spec q (iq - 1)) as [M|M]; [apply F4; lia|].
        destruct (Nat.eqb_spec q (iq - 1)) as [->|M']; cbn [andb]; [|apply F4; lia].
        destruct (Nat.ltb_spec i iq); [reflexivity|apply F4; lia].
      * assert (X : (q =? iq - 1)%nat = false) by (apply Nat.eqb_neq; lia). rewrite X. cbn [andb]. apply F4. lia.
    + intros q Hq Hq'. unfold R1. destruct (Nat.leb_spec qq q) as [L|L]; [lia|]. cbn [andb].
      assert (X : (q =? iq - 1)%nat = false) by (apply Nat.eqb_neq; lia). rewrite X. cbn [andb]. apply F5. lia.
    + intros q Hq Hq'. unfold R1. destruct (Nat.leb_spec qq q) as [L|L]; [|lia]. cbn [andb].
      assert (X : (q <? iq - 1)%nat = true) by (apply Nat.ltb_lt; lia). rewrite X. apply F5. lia.
Qed.
