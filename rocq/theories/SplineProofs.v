(* Sums, binomials and Bernstein basis functions. *)
From Coq Require Import Reals Arith Lia Lra List Bool.
From Verif Require Import Base XReal PolySpec SplineModel SplineSpec.
Import ListNotations.
Open Scope R_scope.

(* ---------------------------------------------------------------- sums *)
Lemma rsum_ext f g n : (forall p, (p < n)%nat -> f p = g p) -> rsum f n = rsum g n.
Proof. induction n as [|n IH]; intros H; cbn [rsum]; [reflexivity|]. rewrite IH by (intros; apply H; lia). rewrite H by lia. reflexivity. Qed.
Lemma rsum_0 n : rsum (fun _ => 0) n = 0.
Proof. induction n as [|n IH]; cbn [rsum]; [reflexivity|]. rewrite IH. ring. Qed.
Lemma rsum_zero f n : (forall p, (p < n)%nat -> f p = 0) -> rsum f n = 0.
Proof. intros H. rewrite (rsum_ext _ (fun _ => 0) n H). apply rsum_0. Qed.
Lemma rsum_plus f g n : rsum (fun p => f p + g p) n = rsum f n + rsum g n.
Proof. induction n as [|n IH]; cbn [rsum]; [ring|]. rewrite IH. ring. Qed.
Lemma rsum_minus f g n : rsum (fun p => f p - g p) n = rsum f n - rsum g n.
Proof. induction n as [|n IH]; cbn [rsum]; [ring|]. rewrite IH. ring. Qed.
Lemma rsum_scal c f n : rsum (fun p => c * f p) n = c * rsum f n.
Proof. induction n as [|n IH]; cbn [rsum]; [ring|]. rewrite IH. ring. Qed.
Lemma rsum_scal_r c f n : rsum (fun p => f p * c) n = rsum f n * c.
Proof. induction n as [|n IH]; cbn [rsum]; [ring|]. rewrite IH. ring. Qed.
Lemma rsum_swap f n m : rsum (fun i => rsum (fun j => f i j) m) n = rsum (fun j => rsum (fun i => f i j) n) m.
Proof.
  induction n as [|n IH]; cbn [rsum]; [symmetry; apply rsum_0|]. rewrite IH, <- rsum_plus. reflexivity.
Qed.
Lemma rsum_app f n m : rsum f (n + m) = rsum f n + rsum (fun p => f (n + p)%nat) m.
Proof.
  induction m as [|m IH]; [rewrite Nat.add_0_r; cbn [rsum]; ring|].
  rewrite Nat.add_succ_r. cbn [rsum]. rewrite IH. ring.
Qed.
Lemma rsum_first f n : rsum f (S n) = f 0%nat + rsum (fun p => f (S p)) n.
Proof. change (S n) with (1 + n)%nat. rewrite rsum_app. cbn [rsum]. rewrite (rsum_ext (fun p => f (1 + p)%nat) (fun p => f (S p))) by reflexivity. ring. Qed.
Lemma rsum_le f g n : (forall p, (p < n)%nat -> f p <= g p) -> rsum f n <= rsum g n.
Proof.
  induction n as [|n IH]; intros H; cbn [rsum]; [lra|]. pose proof (IH ltac:(intros; apply H; lia)). pose proof (H n ltac:(lia)). lra.
Qed.
Lemma rsum_nonneg f n : (forall p, (p < n)%nat -> 0 <= f p) -> 0 <= rsum f n.
Proof. intros H. rewrite <- (rsum_0 n). apply rsum_le. exact H. Qed.
Lemma rsum_abs f n : Rabs (rsum f n) <= rsum (fun p => Rabs (f p)) n.
Proof. induction n as [|n IH]; cbn [rsum]; [rewrite Rabs_R0; lra|]. pose proof (Rabs_triang (rsum f n) (f n)). lra. Qed.
(* only one term *)
Lemma rsum_single f n a : (a < n)%nat -> (forall p, (p < n)%nat -> p <> a -> f p = 0) -> rsum f n = f a.
Proof.
  intros Ha H. replace n with (a + (1 + (n - a - 1)))%nat by lia. rewrite !rsum_app. cbn [rsum].
  rewrite (rsum_zero f a) by (intros; apply H; lia).
  rewrite (rsum_zero _ (n - a - 1)) by (intros; apply H; lia). rewrite Nat.add_0_r. ring.
Qed.
Lemma rsum_sum_f f n : rsum f (S n) = sum_f_R0 f n.
Proof. induction n as [|n IH]; [cbn [rsum sum_f_R0]; ring|]. cbn [sum_f_R0]. rewrite <- IH. reflexivity. Qed.

(* A loop on an interval, extended with zero terms. *)
Lemma rsum_between_all lo hi f n : (hi < n)%nat ->
  (forall p, (p < n)%nat -> (p < lo \/ hi < p)%nat -> f p = 0) ->
  rsum_between lo hi f = rsum f n.
Proof.
  intros Hn H. unfold rsum_between. destruct (le_lt_dec lo hi) as [L|L].
  - replace n with (lo + ((S hi - lo) + (n - S hi)))%nat by lia. rewrite !rsum_app.
    rewrite (rsum_zero f lo) by (intros; apply H; lia).
    rewrite (rsum_zero _ (n - S hi)) by (intros; apply H; lia). ring.
  - replace (S hi - lo)%nat with 0%nat by lia. cbn [rsum]. symmetry. apply rsum_zero. intros; apply H; lia.
Qed.

Lemma derivable_rsum f g n t : (forall p, (p < n)%nat -> derivable_pt_lim (f p) t (g p)) ->
  derivable_pt_lim (fun x => rsum (fun p => f p x) n) t (rsum g n).
Proof.
  induction n as [|n IH]; intros H; cbn [rsum].
  - apply derivable_pt_lim_const.
  - apply (derivable_pt_lim_plus (fun x => rsum (fun p => f p x) n) (f n)); [apply IH; intros; apply H; lia|apply H; lia].
Qed.

(* ---------------------------------------------------------- binomials *)
Lemma factors_fact i : factors i = fact i.
Proof. induction i as [|i IH]; [reflexivity|]. cbn [factors fact]. rewrite IH. lia. Qed.
Lemma INR_fact_pos n : 0 < INR (fact n).
Proof. apply INR_fact_lt_0. Qed.

Fixpoint pasc (n k : nat) : nat :=
  match n, k with
  | _, O => 1%nat
  | O, S _ => 0%nat
  | S n', S k' => (pasc n' k' + pasc n' k)%nat
  end.
Lemma pasc_gt n : forall k, (n < k)%nat -> pasc n k = 0%nat.
Proof. induction n as [|n IH]; intros [|k] H; try lia; cbn [pasc]; [reflexivity|]. rewrite !IH by lia. reflexivity. Qed.
Lemma pasc_fact n : forall k, (k <= n)%nat -> (pasc n k * (fact k * fact (n - k)) = fact n)%nat.
Proof.
  induction n as [|n IH]; intros k Hk.
  - replace k with 0%nat by lia. reflexivity.
  - destruct k as [|k]; [cbn [pasc]; rewrite Nat.sub_0_r; cbn [fact]; lia|].
    cbn [pasc]. replace (S n - S k)%nat with (n - k)%nat by lia.
    pose proof (IH k ltac:(lia)) as E1. destruct (Nat.eq_dec k n) as [->|Hn].
    + rewrite (pasc_gt n (S n)) by lia. rewrite Nat.sub_diag in *. change (fact (S n)) with (S n * fact n)%nat.
      change (fact 0) with 1%nat in *. nia.
    + pose proof (IH (S k) ltac:(lia)) as E2. clear IH. assert (exists j, n = k + S j)%nat as [j Ej] by (exists (n - k - 1)%nat; lia).
      replace (n - k)%nat with (S j) in * by lia. replace (n - S k)%nat with j in E2 by lia.
      change (fact (S n)) with (S n * fact n)%nat. change (fact (S k)) with (S k * fact k)%nat in *.
      change (fact (S j)) with (S j * fact j)%nat in *. replace (S n) with (S k + S j)%nat by lia.
      set (P := pasc n k) in *. set (Q := pasc n (S k)) in *. set (a := fact k) in *. set (b := fact j) in *.
      transitivity (S k * (P * (a * (S j * b))) + S j * (Q * (S k * a * b)))%nat; [ring|]. rewrite E1, E2. ring.
Qed.
Lemma binom_pasc n k : (k <= n)%nat -> binom n k = pasc n k.
Proof.
  intros H. unfold binom. rewrite !factors_fact, <- (pasc_fact n k H). apply Nat.div_mul.
  pose proof (fact_neq_0 k). pose proof (fact_neq_0 (n - k)). nia.
Qed.
Lemma INR_binom n k : (k <= n)%nat -> INR (binom n k) = C n k.
Proof.
  intros H. rewrite binom_pasc by exact H. unfold C.
  rewrite <- (pasc_fact n k H) at 1. rewrite !mult_INR. field. split; apply INR_fact_neq_0.
Qed.
Lemma fact_div n k : (k <= n)%nat -> INR (factors n / factors (n - k)) = INR (fact n) / INR (fact (n - k)).
Proof.
  intros H. rewrite !factors_fact. rewrite <- (pasc_fact n k H).
  replace (pasc n k * (fact k * fact (n - k)))%nat with (pasc n k * fact k * fact (n - k))%nat by lia.
  rewrite Nat.div_mul by apply fact_neq_0. rewrite !mult_INR. field. apply INR_fact_neq_0.
Qed.
Lemma C_pos n k : 0 < C n k.
Proof. unfold C. apply Rdiv_lt_0_compat; [apply INR_fact_pos|]. apply Rmult_lt_0_compat; apply INR_fact_pos. Qed.
Lemma C_0 n : C n 0 = 1.
Proof. unfold C. rewrite Nat.sub_0_r. change (fact 0) with 1%nat. cbn [INR]. field. apply INR_fact_neq_0. Qed.
Lemma C_n n : C n n = 1.
Proof. unfold C. rewrite Nat.sub_diag. change (fact 0) with 1%nat. cbn [INR]. field. apply INR_fact_neq_0. Qed.

Lemma signed_pow e b : signed e b = (-1) ^ e * INR b.
Proof.
  unfold signed. destruct (Nat.even e) eqn:E.
  - apply Nat.even_spec in E. destruct E as [c ->]. rewrite pow_1_even. ring.
  - assert (Nat.odd e = true) as O by (unfold Nat.odd; rewrite E; reflexivity).
    apply Nat.odd_spec in O. destruct O as [c ->]. replace (2 * c + 1)%nat with (S (2 * c)) by lia. rewrite pow_1_odd. ring.
Qed.

(* -------------------------------------------------------- basis cells *)
(* t^(i-p) (1-t)^(m-(i-p)) / ((i-p)! (m-(i-p))!), zero out of range. *)
Definition cell (m i p : nat) (t : R) : R :=
  if ((p <=? i) && (i - p <=? m))%nat
  then t ^ (i - p) * (1 - t) ^ (m - (i - p)) / (INR (fact (i - p)) * INR (fact (m - (i - p))))
  else 0.

Lemma derivable_pow_1mt j t : derivable_pt_lim (fun x => (1 - x) ^ S j) t (- (INR (S j) * (1 - t) ^ j)).
Proof.
  replace (- (INR (S j) * (1 - t) ^ j)) with ((INR (S j) * (1 - t) ^ pred (S j)) * (0 - 1)) by (cbn [pred]; ring).
  apply (derivable_pt_lim_comp (fun x => 1 - x) (fun y => y ^ S j)).
  - apply (derivable_pt_lim_minus (fun _ => 1) (fun x => x)); [apply derivable_pt_lim_const|apply derivable_pt_lim_id].
  - apply derivable_pt_lim_pow.
Qed.
Lemma derivable_ext f g t l : (forall x, f x = g x) -> derivable_pt_lim f t l -> derivable_pt_lim g t l.
Proof. intros H D e He. destruct (D e He) as [d Hd]. exists d. intros h H0 H1. rewrite <- !H. apply Hd; assumption. Qed.
Lemma derivable_eq f t l l' : l = l' -> derivable_pt_lim f t l -> derivable_pt_lim f t l'.
Proof. intros ->. auto. Qed.
Lemma derivable_scal c f t l : derivable_pt_lim f t l -> derivable_pt_lim (fun x => c * f x) t (c * l).
Proof. apply derivable_pt_lim_scal. Qed.
Lemma derivable_mult f g t l m : derivable_pt_lim f t l -> derivable_pt_lim g t m ->
  derivable_pt_lim (fun x => f x * g x) t (l * g t + f t * m).
Proof. apply derivable_pt_lim_mult. Qed.

Ltac bool_nat :=
  repeat match goal with
  | |- context [(?a <=? ?b)%nat] => destruct (Nat.leb_spec a b); try lia
  end; cbn [andb].

Lemma cell_derivable m i p t : derivable_pt_lim (cell (S m) i p) t (cell m i (S p) t - cell m i p t).
Proof.
  destruct (le_lt_dec p i) as [Hp|Hp].
  2:{ apply (derivable_ext (fun _ => 0)); [intros x; unfold cell; bool_nat; reflexivity|].
      apply (derivable_eq _ _ 0); [unfold cell; bool_nat; ring|]. apply derivable_pt_lim_const. }
  destruct (le_lt_dec (i - p) (S m)) as [Hj|Hj].
  2:{ apply (derivable_ext (fun _ => 0)); [intros x; unfold cell; bool_nat; reflexivity|].
      apply (derivable_eq _ _ 0); [unfold cell; bool_nat; ring|]. apply derivable_pt_lim_const. }
  destruct (i - p)%nat as [|j] eqn:Ej.
  - assert (i = p) by lia. subst i.
    apply (derivable_ext (fun x => / INR (fact (S m)) * (1 - x) ^ S m)).
    { intros x. unfold cell. rewrite Nat.sub_diag, Nat.sub_0_r. bool_nat. change (fact 0) with 1%nat. cbn [INR pow]. field. apply INR_fact_neq_0. }
    eapply derivable_eq; [|apply derivable_scal, derivable_pow_1mt].
    unfold cell. rewrite Nat.sub_diag, Nat.sub_0_r. bool_nat. change (fact (S m)) with (S m * fact m)%nat. change (fact 0) with 1%nat. rewrite mult_INR.
    change (t ^ 0) with 1. change (INR 1) with 1. field. split; [apply INR_fact_neq_0|apply not_0_INR; lia].
  - assert (i - S p = j)%nat as Ej' by lia.
    destruct (Nat.eq_dec j m) as [->|Hm].
    + apply (derivable_ext (fun x => / INR (fact (S m)) * x ^ S m)).
      { intros x. unfold cell. rewrite Ej, Nat.sub_diag. bool_nat. change (fact 0) with 1%nat. change (INR 1) with 1. change ((1 - x) ^ 0) with 1. field. apply INR_fact_neq_0. }
      eapply derivable_eq; [|apply derivable_scal, derivable_pt_lim_pow].
      unfold cell. rewrite Ej, Ej', Nat.sub_diag. bool_nat. change (pred (S m)) with m. change (fact (S m)) with (S m * fact m)%nat. change (fact 0) with 1%nat. rewrite mult_INR.
      change ((1 - t) ^ 0) with 1. change (INR 1) with 1. field. split; [apply INR_fact_neq_0|apply not_0_INR; lia].
    + assert (S m - S j = S (m - S j))%nat as E1 by lia.
      apply (derivable_ext (fun x => / (INR (fact (S j)) * INR (fact (S (m - S j)))) * (x ^ S j * (1 - x) ^ S (m - S j)))).
      { intros x. unfold cell. rewrite Ej, E1. bool_nat. field. split; apply INR_fact_neq_0. }
      eapply derivable_eq; [|apply derivable_scal, derivable_mult; [apply derivable_pt_lim_pow|apply derivable_pow_1mt]].
      unfold cell. rewrite Ej, Ej'. bool_nat. replace (m - j)%nat with (S (m - S j)) by lia.
      set (l := (m - S j)%nat). cbn [pred]. change (fact (S j)) with (S j * fact j)%nat. change (fact (S l)) with (S l * fact l)%nat. rewrite !mult_INR.
      field. repeat split; try apply INR_fact_neq_0; apply not_0_INR; lia.
Qed.
Lemma cell_0_derivable i p t : derivable_pt_lim (cell 0 i p) t 0.
Proof.
  apply (derivable_ext (fun _ => cell 0 i p 0)); [|apply derivable_pt_lim_const].
  intros x. unfold cell. destruct (p <=? i)%nat; [|reflexivity]. destruct (Nat.leb_spec (i - p) 0); [|reflexivity].
  cbn [andb]. replace (i - p)%nat with 0%nat by lia. reflexivity.
Qed.

(* The coded derivative, with the zero terms. *)
Definition dsum (n k i : nat) (t : R) : R :=
  INR (fact n) * rsum (fun p => (-1) ^ (k - p) * C k p * cell (n - k) i p t) (S k).
Lemma bern_der_dsum n k i t : (k <= n)%nat -> bern_der n k t i = dsum n k i t.
Proof.
  intros Hk. unfold bern_der, dsum. destruct (Nat.ltb_spec n k); [lia|]. rewrite Rmult_comm, factors_fact. f_equal.
  set (f := fun p => (-1) ^ (k - p) * C k p * cell (n - k) i p t).
  rewrite <- (rsum_between_all (k + i - n) (Nat.min i k) f (S k)).
  - unfold rsum_between. apply rsum_ext. intros p Hp. cbn zeta. set (q := (k + i - n + p)%nat).
    assert (q <= i /\ q <= k /\ k + i - n <= q)%nat as (H1 & H2 & H3) by (subst q; lia).
    rewrite signed_pow, INR_binom by exact H2. subst f. cbn beta. unfold cell. bool_nat.
    rewrite !factors_fact, mult_INR. field. split; apply INR_fact_neq_0.
  - lia.
  - intros p Hp Ho. subst f. cbn beta. unfold cell. bool_nat; ring.
Qed.

(* Pascal's rule turns the derivative of order k into that of order k + 1. *)
Lemma dsum_pascal (k : nat) (a : nat -> R) :
  rsum (fun p => (-1) ^ (k - p) * C k p * (a (S p) - a p)) (S k) = rsum (fun p => (-1) ^ (S k - p) * C (S k) p * a p) (S (S k)).
Proof.
  transitivity (rsum (fun p => (-1) ^ (k - p) * C k p * a (S p)) (S k) - rsum (fun p => (-1) ^ (k - p) * C k p * a p) (S k)).
  { rewrite <- rsum_minus. apply rsum_ext. intros; ring. }
  rewrite (rsum_first (fun p => (-1) ^ (S k - p) * C (S k) p * a p)).
  rewrite (rsum_first (fun p => (-1) ^ (k - p) * C k p * a p)).
  change (rsum (fun p => (-1) ^ (k - p) * C k p * a (S p)) (S k)) with
    (rsum (fun p => (-1) ^ (k - p) * C k p * a (S p)) k + (-1) ^ (k - k) * C k k * a (S k)).
  change (rsum (fun p => (-1) ^ (S k - S p) * C (S k) (S p) * a (S p)) (S k)) with
    (rsum (fun p => (-1) ^ (S k - S p) * C (S k) (S p) * a (S p)) k + (-1) ^ (S k - S k) * C (S k) (S k) * a (S k)).
  rewrite (rsum_ext (fun p => (-1) ^ (S k - S p) * C (S k) (S p) * a (S p))
             (fun p => (-1) ^ (k - p) * C k p * a (S p) - (-1) ^ (k - S p) * C k (S p) * a (S p)) k).
  - rewrite rsum_minus, !Nat.sub_diag, !Nat.sub_0_r, !C_n, !C_0. cbn [pow]. ring.
  - intros p Hp. rewrite <- pascal by exact Hp. replace (S k - S p)%nat with (S (k - S p)) by lia. replace (k - p)%nat with (S (k - S p)) by lia.
    cbn [pow]. ring.
Qed.

Lemma bern_der_derivable n k i t : derivable_pt_lim (fun x => bern_der n k x i) t (bern_der n (S k) t i).
Proof.
  destruct (le_lt_dec k n) as [Hk|Hk].
  2:{ apply (derivable_ext (fun _ => 0)); [intros x; unfold bern_der; destruct (Nat.ltb_spec n k); [reflexivity|lia]|].
      apply (derivable_eq _ _ 0); [unfold bern_der; destruct (Nat.ltb_spec n (S k)); [reflexivity|lia]|]. apply derivable_pt_lim_const. }
  apply (derivable_ext (dsum n k i)); [intros x; symmetry; apply bern_der_dsum; exact Hk|].
  unfold dsum. destruct (Nat.eq_dec k n) as [->|Hn].
  - apply (derivable_eq _ _ (INR (fact n) * rsum (fun p => (-1) ^ (n - p) * C n p * 0) (S n))).
    { rewrite rsum_zero by (intros; ring). unfold bern_der. destruct (Nat.ltb_spec n (S n)); [ring|lia]. }
    apply derivable_scal. apply (derivable_rsum (fun p x => (-1) ^ (n - p) * C n p * cell (n - n) i p x)). intros p Hp. apply derivable_scal.
    rewrite Nat.sub_diag. apply cell_0_derivable.
  - rewrite bern_der_dsum by lia. unfold dsum. rewrite <- dsum_pascal.
    apply derivable_scal. apply (derivable_rsum (fun p x => (-1) ^ (k - p) * C k p * cell (n - k) i p x)). intros p Hp. apply derivable_scal.
    replace (n - k)%nat with (S (n - S k)) by lia. apply cell_derivable.
Qed.

Lemma nth_derivative_seq (F : nat -> R -> R) : (forall k t, derivable_pt_lim (F k) t (F (S k) t)) ->
  forall k j, nth_derivative k (F j) (F (j + k)%nat).
Proof.
  intros H. induction k as [|k IH]; intros j; cbn [nth_derivative]; [intros t; rewrite Nat.add_0_r; reflexivity|].
  exists (F (S j)). split; [apply H|]. replace (j + S k)%nat with (S j + k)%nat by lia. apply IH.
Qed.

Lemma bern_eval_bernstein n i t : (i <= n)%nat -> bern_eval n t i = bernstein n i t.
Proof.
  intros Hi. unfold bern_eval. rewrite bern_der_dsum by lia. unfold dsum, bernstein. cbn [rsum]. rewrite Nat.sub_0_r.
  unfold cell. rewrite Nat.sub_0_r. bool_nat. rewrite C_0. unfold C. cbn [pow Nat.sub]. rewrite !Nat.sub_0_r. field. split; apply INR_fact_neq_0.
Qed.
Lemma nth_derivative_ext k : forall f g h, (forall t, f t = g t) -> nth_derivative k f h -> nth_derivative k g h.
Proof.
  destruct k as [|k]; intros f g h E; cbn [nth_derivative]; [intros H t; rewrite <- E; apply H|].
  intros (f1 & D & N). exists f1. split; [|exact N]. intros t. apply (derivable_ext f); [exact E|apply D].
Qed.
Lemma bern_nth n i k : (i <= n)%nat -> nth_derivative k (bernstein n i) (fun t => bern_der n k t i).
Proof.
  intros Hi. apply (nth_derivative_ext _ (fun t => bern_der n 0 t i)); [intros t; apply bern_eval_bernstein; exact Hi|].
  apply (nth_derivative_seq (fun k t => bern_der n k t i) (fun k t => bern_der_derivable n k i t) k 0%nat).
Qed.

Lemma bernstein_unity n t : rsum (fun i => bernstein n i t) (S n) = 1.
Proof.
  rewrite rsum_sum_f. unfold bernstein. rewrite <- binomial. replace (t + (1 - t)) with 1 by ring. apply pow1.
Qed.
Lemma pow_0_l k : (0 < k)%nat -> 0 ^ k = 0.
Proof. destruct k; [lia|]. intros _. cbn [pow]. ring. Qed.
Lemma bernstein_0 n i : (i <= n)%nat -> bernstein n i 0 = if (i =? 0)%nat then 1 else 0.
Proof.
  intros Hi. unfold bernstein. destruct (Nat.eqb_spec i 0) as [->|H].
  - rewrite C_0, Rminus_0_r, pow1. cbn [pow]. ring.
  - rewrite pow_0_l by lia. ring.
Qed.
Lemma bernstein_1 n i : (i <= n)%nat -> bernstein n i 1 = if (i =? n)%nat then 1 else 0.
Proof.
  intros Hi. unfold bernstein. replace (1 - 1) with 0 by ring. destruct (Nat.eqb_spec i n) as [->|H].
  - rewrite C_n, pow1, Nat.sub_diag. cbn [pow]. ring.
  - rewrite (pow_0_l (n - i)) by lia. ring.
Qed.
Lemma bernstein_nonneg n i t : 0 <= t <= 1 -> 0 <= bernstein n i t.
Proof.
  intros H. unfold bernstein. apply Rmult_le_pos; [apply Rmult_le_pos; [left; apply C_pos|]|]; apply pow_le; lra.
Qed.
