(* Integrals of products of basis derivatives, and the energy of a spline. *)
From Coq Require Import Reals Arith Lia Lra List Bool.
From Verif Require Import Base XReal PolySpec PolyProofs SplineModel SplineSpec SplineProofs.
Import ListNotations.
Open Scope R_scope.

(* ------------------------------------------------------ antiderivatives *)
Definition anti (f : R -> R) (a b I : R) : Prop :=
  exists F, (forall t, derivable_pt_lim F t (f t)) /\ F b - F a = I.
Lemma anti_ext f g a b I : (forall t, f t = g t) -> anti f a b I -> anti g a b I.
Proof. intros H (F & D & E). exists F. split; [intros t; rewrite <- H; apply D|exact E]. Qed.
Lemma anti_eq f a b I J : I = J -> anti f a b I -> anti f a b J.
Proof. intros ->. auto. Qed.
Lemma anti_0 a b : anti (fun _ => 0) a b 0.
Proof. exists (fun _ => 0). split; [intros; apply derivable_pt_lim_const|ring]. Qed.
Lemma anti_scal c f a b I : anti f a b I -> anti (fun t => c * f t) a b (c * I).
Proof. intros (F & D & E). exists (fun t => c * F t). split; [intros; apply derivable_scal, D|rewrite <- E; ring]. Qed.
Lemma anti_rsum f g a b n : (forall p, (p < n)%nat -> anti (f p) a b (g p)) -> anti (fun t => rsum (fun p => f p t) n) a b (rsum g n).
Proof.
  induction n as [|n IH]; intros H; cbn [rsum]; [apply anti_0|].
  destruct (IH ltac:(intros; apply H; lia)) as (F & D & E). destruct (H n ltac:(lia)) as (F' & D' & E').
  exists (fun t => F t + F' t). split; [intros; apply (derivable_pt_lim_plus F F'); auto|rewrite <- E, <- E'; ring].
Qed.
Lemma anti_subst f a T I : T <> 0 -> anti f 0 1 I -> anti (fun t => f ((t - a) / T)) a (a + T) (T * I).
Proof.
  intros HT (F & D & E). exists (fun t => T * F ((t - a) / T)). split.
  - intros t. apply (derivable_eq _ _ (T * (f ((t - a) / T) * / T))); [field; exact HT|]. apply derivable_scal.
    apply (derivable_pt_lim_comp (fun x => (x - a) / T) F); [|apply D].
    apply (derivable_ext (fun x => / T * (x - a))); [intros; field; exact HT|].
    apply (derivable_eq _ _ (/ T * (1 - 0))); [ring|]. apply derivable_scal.
    apply (derivable_pt_lim_minus (fun x => x) (fun _ => a)); [apply derivable_pt_lim_id|apply derivable_pt_lim_const].
  - replace ((a + T - a) / T) with 1 by (field; exact HT). replace ((a - a) / T) with 0 by (field; exact HT). rewrite <- E. ring.
Qed.

Lemma anti_integral f f' a b I : a <= b -> (forall t, derivable_pt_lim f t (f' t)) -> anti f a b I -> integral_is f a b I.
Proof.
  intros Hab Df (F & D & E).
  assert (continuity f) as Cf.
  { intros t. apply derivable_continuous_pt. exists (f' t). apply Df. }
  set (dF := fun t => exist (fun l => derivable_pt_abs F t l) (f t) (D t) : derivable_pt F t).
  assert (forall t, derive F dF t = f t) as EF by reflexivity.
  assert (continuity (derive F dF)) as CF by (intros t; exact (Cf t)).
  set (G := @mkC1 F dF CF).
  assert (Riemann_integrable f a b) as pr by (apply continuity_implies_RiemannInt; [exact Hab|intros; apply Cf]).
  exists pr. rewrite <- E. exact (FTC_Riemann G pr).
Qed.

Lemma integral_unique f a b I J : integral_is f a b I -> integral_is f a b J -> I = J.
Proof. intros (p & <-) (q & <-). apply RiemannInt_P5. Qed.

(* ------------------------------------------------------ basis integrals *)
Lemma cell_shift m i t : cell m (S i) 1 t = cell m i 0 t.
Proof. unfold cell. replace (S i - 1)%nat with i by lia. rewrite Nat.sub_0_r. bool_nat; reflexivity. Qed.
Lemma cell_at_0 m i : (0 < i)%nat -> cell m i 0 0 = 0.
Proof. intros H. unfold cell. rewrite Nat.sub_0_r. bool_nat; [|reflexivity]. rewrite pow_0_l by lia. unfold Rdiv. ring. Qed.
Lemma cell_at_1 m i : (i < m)%nat -> cell m i 0 1 = 0.
Proof. intros H. unfold cell. rewrite Nat.sub_0_r. bool_nat. replace (1 - 1) with 0 by ring. rewrite (pow_0_l (m - i)) by lia. unfold Rdiv. ring. Qed.
Lemma cell_last_1 m : cell m m 0 1 = / INR (fact m).
Proof. unfold cell. rewrite Nat.sub_0_r, Nat.sub_diag. bool_nat. rewrite pow1. change (fact 0) with 1%nat. change (INR 1) with 1. cbn [pow]. field. apply INR_fact_neq_0. Qed.
Lemma cell_out m i t : (m < i)%nat -> cell m i 0 t = 0.
Proof. intros H. unfold cell. rewrite Nat.sub_0_r. bool_nat; reflexivity. Qed.

Lemma rsum_telescope (f : nat -> R) n : rsum (fun l => f l - f (S l)) n = f 0%nat - f n.
Proof. induction n as [|n IH]; cbn [rsum]; [ring|]. rewrite IH. ring. Qed.

Lemma anti_cell m i : (i <= m)%nat -> anti (cell m i 0) 0 1 (/ INR (fact (S m))).
Proof.
  intros Hi. exists (fun t => rsum (fun l => cell (S m) (S (i + l)) 0 t) (S (m - i))). split.
  - intros t. apply (derivable_eq _ _ (rsum (fun l => cell m (i + l) 0 t - cell m (i + S l) 0 t) (S (m - i)))).
    { rewrite (rsum_telescope (fun l => cell m (i + l) 0 t)). rewrite Nat.add_0_r, (cell_out m (i + S (m - i))) by lia. ring. }
    apply (derivable_rsum (fun l x => cell (S m) (S (i + l)) 0 x)). intros l Hl.
    replace (i + S l)%nat with (S (i + l)) by lia. rewrite <- (cell_shift m (i + l)). apply cell_derivable.
  - rewrite (rsum_zero (fun l => cell (S m) (S (i + l)) 0 0)) by (intros; apply cell_at_0; lia).
    cbn [rsum]. rewrite (rsum_zero (fun l => cell (S m) (S (i + l)) 0 1)) by (intros; apply cell_at_1; lia).
    replace (i + (m - i))%nat with m by lia. rewrite cell_last_1. ring.
Qed.

(* The value alpha_0 of the code, zero out of range. *)
Definition inr (m i p : nat) : bool := ((p <=? i) && (i - p <=? m))%nat.
Definition alpha (m i p j q : nat) : R :=
  if (inr m i p && inr m j q)%bool
  then C m (i - p) * C m (j - q) / (C (2 * m) (i - p + (j - q)) * (2 * INR m + 1)) else 0.

Lemma anti_cell2 m i p j q : anti (fun t => cell m i p t * cell m j q t) 0 1 (alpha m i p j q / (INR (fact m) * INR (fact m))).
Proof.
  unfold alpha. destruct (inr m i p) eqn:E1.
  2:{ cbn [andb]. eapply anti_eq; [|eapply anti_ext; [|apply anti_0]]; [unfold Rdiv; ring|].
      intros t. unfold cell at 1. fold (inr m i p). rewrite E1. ring. }
  destruct (inr m j q) eqn:E2.
  2:{ cbn [andb]. eapply anti_eq; [|eapply anti_ext; [|apply anti_0]]; [unfold Rdiv; ring|].
      intros t. unfold cell at 2. fold (inr m j q). rewrite E2. ring. }
  cbn [andb].
  assert (i - p <= m)%nat as H1 by (apply andb_true_iff in E1; destruct E1 as [_ E1]; apply Nat.leb_le in E1; exact E1).
  assert (j - q <= m)%nat as H2 by (apply andb_true_iff in E2; destruct E2 as [_ E2]; apply Nat.leb_le in E2; exact E2).
  set (a := (i - p)%nat) in *. set (b := (j - q)%nat) in *.
  set (K := INR (fact (a + b)) * INR (fact (2 * m - (a + b))) / (INR (fact a) * INR (fact (m - a)) * (INR (fact b) * INR (fact (m - b))))).
  eapply anti_eq; [|eapply anti_ext; [|apply (anti_scal K), (anti_cell (2 * m) (a + b)); lia]].
  - unfold K, C. change (fact (S (2 * m))) with (S (2 * m) * fact (2 * m))%nat. rewrite mult_INR, S_INR, mult_INR. change (INR 2) with 2.
    field. pose proof (pos_INR m). repeat split; try apply INR_fact_neq_0; lra.
  - intros t. unfold cell. fold (inr m i p) (inr m j q) a b. rewrite E1, E2, !Nat.sub_0_r. bool_nat.
    replace (t ^ (a + b)) with (t ^ a * t ^ b) by (symmetry; apply pow_add).
    replace (2 * m - (a + b))%nat with ((m - a) + (m - b))%nat by lia. rewrite pow_add. unfold K.
    replace (2 * m - (a + b))%nat with ((m - a) + (m - b))%nat by lia. field. repeat split; apply INR_fact_neq_0.
Qed.

(* The coded integral, with the zero terms. *)
Lemma bern_integral_sum n k i j : (k <= n)%nat -> (i <= n)%nat -> (j <= n)%nat ->
  bern_integral n k i j = INR (fact n) / INR (fact (n - k)) *
    rsum (fun p => rsum (fun q => (-1) ^ (k - p) * (-1) ^ (k - q) * (C k p * C k q) * alpha (n - k) i p j q) (S k)) (S k).
Proof.
  intros Hk Hi Hj. unfold bern_integral. destruct (Nat.ltb_spec n k); [lia|]. cbn zeta. rewrite fact_div by exact Hk. rewrite Rmult_comm. f_equal.
  set (g := fun p q => (-1) ^ (k - p) * (-1) ^ (k - q) * (C k p * C k q) * alpha (n - k) i p j q).
  transitivity (rsum (fun p => rsum (fun q => g p q) (S k)) (S k)); [|reflexivity].
  rewrite <- (rsum_between_all (k + i - n) (Nat.min i k) (fun p => rsum (fun q => g p q) (S k)) (S k)).
  - unfold rsum_between at 1 3. apply rsum_ext. intros p0 Hp. set (p := (k + i - n + p0)%nat).
    assert (p <= i /\ p <= k /\ k + i - n <= p)%nat as (H1 & H2 & H3) by (subst p; lia).
    rewrite <- (rsum_between_all (k + j - n) (Nat.min j k) (fun q => g p q) (S k)).
    + unfold rsum_between. apply rsum_ext. intros q0 Hq. set (q := (k + j - n + q0)%nat).
      assert (q <= j /\ q <= k /\ k + j - n <= q)%nat as (H4 & H5 & H6) by (subst q; lia).
      rewrite signed_pow. replace (2 * k - p - q)%nat with ((k - p) + (k - q))%nat by lia. rewrite pow_add.
      rewrite !mult_INR, !INR_binom by lia. unfold g, alpha, inr. bool_nat. rewrite plus_INR, mult_INR. change (INR 2) with 2. change (INR 1) with 1. reflexivity.
    + lia.
    + intros q Hq Ho. unfold g, alpha, inr. destruct (p <=? i)%nat, (i - p <=? n - k)%nat; cbn [andb]; try ring. bool_nat; ring.
  - lia.
  - intros p Hp Ho. apply rsum_zero. intros q Hq. unfold g, alpha, inr. bool_nat; ring.
Qed.

Lemma anti_bern n k i j : (k <= n)%nat -> (i <= n)%nat -> (j <= n)%nat ->
  anti (fun u => bern_der n k u i * bern_der n k u j) 0 1 (INR (fact n) / INR (fact (n - k)) * bern_integral n k i j).
Proof.
  intros Hk Hi Hj. rewrite bern_integral_sum by assumption. set (m := (n - k)%nat).
  eapply anti_eq; [|eapply anti_ext; [|apply (anti_scal (INR (fact n) * INR (fact n)));
    apply (anti_rsum (fun p t => rsum (fun q => (-1) ^ (k - p) * (-1) ^ (k - q) * (C k p * C k q) * (cell m i p t * cell m j q t)) (S k))
      (fun p => rsum (fun q => (-1) ^ (k - p) * (-1) ^ (k - q) * (C k p * C k q) * (alpha m i p j q / (INR (fact m) * INR (fact m)))) (S k)));
    intros p Hp; apply (anti_rsum (fun q t => (-1) ^ (k - p) * (-1) ^ (k - q) * (C k p * C k q) * (cell m i p t * cell m j q t)));
    intros q Hq; apply anti_scal, anti_cell2]].
  - rewrite <- Rmult_assoc. rewrite <- !rsum_scal.
    apply rsum_ext. intros p Hp. rewrite <- !rsum_scal. apply rsum_ext. intros q Hq. field. apply INR_fact_neq_0.
  - intros t. rewrite !bern_der_dsum by exact Hk. unfold dsum. fold m.
    replace (INR (fact n) * rsum (fun p => (-1) ^ (k - p) * C k p * cell m i p t) (S k) * (INR (fact n) * rsum (fun p => (-1) ^ (k - p) * C k p * cell m j p t) (S k)))
      with (INR (fact n) * INR (fact n) * (rsum (fun p => (-1) ^ (k - p) * C k p * cell m i p t) (S k) * rsum (fun p => (-1) ^ (k - p) * C k p * cell m j p t) (S k))) by ring.
    f_equal. rewrite <- rsum_scal_r. apply rsum_ext. intros p Hp. rewrite <- rsum_scal. apply rsum_ext. intros q Hq. ring.
Qed.
