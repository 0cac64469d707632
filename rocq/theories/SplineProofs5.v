(* The spline steering method. *)
From Coq Require Import Reals Arith Lia Lra List Bool.
From Verif Require Import Base XReal PolySpec PolyProofs SplineModel SplineSpec SplineProofs SplineProofs2 SplineProofs3 SplineProofs4.
Import ListNotations.
Open Scope R_scope.

(* ------------------------------------------ basis derivatives at the ends *)
Lemma pow_m1_sq k : (-1) ^ k * (-1) ^ k = 1.
Proof. rewrite <- Rpow_mult_distr. replace (-1 * -1) with 1 by ring. apply pow1. Qed.
Lemma pow_m1_sub k i : (i <= k)%nat -> (-1) ^ (k - i) = (-1) ^ k * (-1) ^ i.
Proof.
  intros H. replace ((-1) ^ k) with ((-1) ^ ((k - i) + i)) by (f_equal; lia). rewrite pow_add, Rmult_assoc, pow_m1_sq. ring.
Qed.
Lemma cell_0 m i p : cell m i p 0 = if (i =? p)%nat then / INR (fact m) else 0.
Proof.
  destruct (Nat.eqb_spec i p) as [->|H].
  - unfold cell. rewrite Nat.sub_diag, Nat.sub_0_r, Rminus_0_r, pow1. bool_nat. change (fact 0) with 1%nat. change (INR 1) with 1. cbn [pow]. field. apply INR_fact_neq_0.
  - unfold cell. bool_nat; try reflexivity. rewrite pow_0_l by lia. unfold Rdiv. ring.
Qed.
Lemma cell_1 m i p : cell m i p 1 = if (i =? p + m)%nat then / INR (fact m) else 0.
Proof.
  destruct (Nat.eqb_spec i (p + m)) as [->|H].
  - unfold cell. replace (p + m - p)%nat with m by lia. rewrite Nat.sub_diag, pow1. bool_nat. change (fact 0) with 1%nat. change (INR 1) with 1. cbn [pow]. field. apply INR_fact_neq_0.
  - unfold cell. bool_nat; try reflexivity. replace (1 - 1) with 0 by ring. rewrite (pow_0_l (m - (i - p))) by lia. unfold Rdiv. ring.
Qed.
Lemma der_at_0 n k i : (k <= n)%nat -> bern_der n k 0 i = if (i <=? k)%nat then ratio n k * ((-1) ^ k * ((-1) ^ i * C k i)) else 0.
Proof.
  intros Hk. rewrite bern_der_dsum by exact Hk. unfold dsum, ratio. destruct (Nat.leb_spec i k) as [Hi|Hi].
  - rewrite (rsum_single _ _ i); [|lia|].
    + rewrite cell_0, Nat.eqb_refl, pow_m1_sub by exact Hi. field. apply INR_fact_neq_0.
    + intros p Hp Hn. rewrite cell_0. destruct (Nat.eqb_spec i p); [lia|ring].
  - rewrite rsum_zero; [ring|]. intros p Hp. rewrite cell_0. destruct (Nat.eqb_spec i p); [lia|ring].
Qed.
Lemma der_at_1 n k i : (k <= n)%nat -> (i <= n)%nat -> bern_der n k 1 i = if (n - i <=? k)%nat then ratio n k * ((-1) ^ (n - i) * C k (n - i)) else 0.
Proof.
  intros Hk Hi. rewrite bern_der_dsum by exact Hk. unfold dsum, ratio. destruct (Nat.leb_spec (n - i) k) as [Hj|Hj].
  - rewrite (rsum_single _ _ (k - (n - i))%nat); [|lia|].
    + rewrite cell_1. destruct (Nat.eqb_spec i (k - (n - i) + (n - k))); [|lia].
      replace (k - (k - (n - i)))%nat with (n - i)%nat by lia. rewrite <- (pascal_step1 k (n - i)) by lia. field. apply INR_fact_neq_0.
    + intros p Hp Hn. rewrite cell_1. destruct (Nat.eqb_spec i (p + (n - k))); [lia|ring].
  - rewrite rsum_zero; [ring|]. intros p Hp. rewrite cell_1. destruct (Nat.eqb_spec i (p + (n - k))); [lia|ring].
Qed.

Lemma rsum_rev f n : rsum f (S n) = rsum (fun l => f (n - l)%nat) (S n).
Proof.
  induction n as [|n IH]; [reflexivity|]. rewrite (rsum_first (fun l => f (S n - l)%nat)). rewrite Nat.sub_0_r.
  change (rsum f (S (S n))) with (rsum f (S n) + f (S n)). rewrite IH. rewrite Rplus_comm. f_equal.
Qed.
Lemma rsum_cut f k n : (k <= n)%nat -> (forall i, (k < i <= n)%nat -> f i = 0) -> rsum f (S n) = rsum f (S k).
Proof.
  intros Hk H. replace (S n) with (S k + (n - k))%nat by lia. rewrite rsum_app. rewrite (rsum_zero (fun p => f (S k + p)%nat)); [ring|].
  intros p Hp. apply H. lia.
Qed.

(* Alternating binomial sums: the rows of the system are triangular. *)
Definition tri (k : nat) (x : nat -> R) : R := rsum (fun l => (-1) ^ l * C k l * x l) (S k).
Lemma ratio_pos n k : 0 < ratio n k.
Proof. unfold ratio. apply Rdiv_lt_0_compat; apply INR_fact_pos. Qed.
Lemma row_0 n k x : (k <= n)%nat -> rsum (fun i => bern_der n k 0 i * x i) (S n) = ratio n k * (-1) ^ k * tri k x.
Proof.
  intros Hk. rewrite (rsum_cut _ k n Hk).
  - unfold tri. rewrite <- rsum_scal. apply rsum_ext. intros i Hi. rewrite der_at_0 by exact Hk. destruct (Nat.leb_spec i k); [ring|lia].
  - intros i Hi. rewrite der_at_0 by exact Hk. destruct (Nat.leb_spec i k); [lia|ring].
Qed.
Lemma row_1 n k x : (k <= n)%nat -> rsum (fun i => bern_der n k 1 i * x i) (S n) = ratio n k * tri k (fun l => x (n - l)%nat).
Proof.
  intros Hk. rewrite rsum_rev. rewrite (rsum_cut _ k n Hk).
  - unfold tri. rewrite <- rsum_scal. apply rsum_ext. intros l Hl. rewrite der_at_1 by lia. replace (n - (n - l))%nat with l by lia. destruct (Nat.leb_spec l k); [ring|lia].
  - intros l Hl. rewrite der_at_1 by lia. replace (n - (n - l))%nat with l by lia. destruct (Nat.leb_spec l k); [lia|ring].
Qed.
Lemma tri_unique x : forall h, (forall k, (k <= h)%nat -> tri k x = 0) -> forall k, (k <= h)%nat -> x k = 0.
Proof.
  induction h as [|h IH]; intros H k Hk.
  - replace k with 0%nat by lia. pose proof (H 0%nat (le_n _)) as E. unfold tri in E. cbn [rsum] in E. rewrite C_0 in E. cbn [pow] in E. lra.
  - assert (forall j, (j <= h)%nat -> x j = 0) as Z by (apply IH; intros; apply H; lia).
    destruct (Nat.eq_dec k (S h)) as [->|]; [|apply Z; lia]. pose proof (H (S h) (le_n _)) as E. unfold tri in E.
    change (rsum ?f (S (S h))) with (rsum f (S h) + f (S h)) in E. cbn beta in E. rewrite rsum_zero in E by (intros p Hp; rewrite Z by lia; ring).
    rewrite C_n in E. assert ((-1) ^ S h <> 0) by (apply pow_nonzero; lra). rewrite Rmult_1_r, Rplus_0_l in E.
    apply Rmult_integral in E. destruct E; [contradiction|assumption].
Qed.
Lemma tri_const k c : tri k (fun _ => c) = if (k =? 0)%nat then c else 0.
Proof.
  unfold tri. destruct (Nat.eqb_spec k 0) as [->|H]; [cbn [rsum]; rewrite C_0; cbn [pow]; ring|].
  rewrite (rsum_ext _ (fun l => (C k l * (-1) ^ l * 1 ^ (k - l)) * c)) by (intros; rewrite pow1; ring).
  rewrite rsum_scal_r, rsum_sum_f, <- binomial. replace (-1 + 1) with 0 by ring. rewrite pow_0_l by lia. ring.
Qed.
Lemma tri_ext k x y : (forall l, (l <= k)%nat -> x l = y l) -> tri k x = tri k y.
Proof. intros H. apply rsum_ext. intros l Hl. rewrite H by lia. reflexivity. Qed.
Lemma tri_minus k x y : tri k (fun l => x l - y l) = tri k x - tri k y.
Proof. unfold tri. rewrite <- rsum_minus. apply rsum_ext. intros; ring. Qed.
Fixpoint tri_solve (r : nat -> R) (h : nat) : nat -> R :=
  match h with
  | O => fun _ => r 0%nat
  | S g => let x := tri_solve r g in
           fun l => if (l =? h)%nat then (-1) ^ h * (r h - rsum (fun j => (-1) ^ j * C h j * x j) h) else x l
  end.
Lemma tri_solve_ok r : forall h k, (k <= h)%nat -> tri k (tri_solve r h) = r k.
Proof.
  induction h as [|h IH]; intros k Hk.
  - replace k with 0%nat by lia. unfold tri. cbn [rsum tri_solve]. rewrite C_0. cbn [pow]. ring.
  - destruct (Nat.eq_dec k (S h)) as [->|Hn].
    + unfold tri. change (rsum ?f (S (S h))) with (rsum f (S h) + f (S h)). cbn beta. rewrite C_n.
      cbn [tri_solve]. rewrite Nat.eqb_refl.
      rewrite (rsum_ext (fun l => (-1) ^ l * C (S h) l * (if (l =? S h)%nat then _ else tri_solve r h l)) (fun l => (-1) ^ l * C (S h) l * tri_solve r h l)).
      2:{ intros p Hp. destruct (Nat.eqb_spec p (S h)); [lia|reflexivity]. }
      rewrite Rmult_1_r, <- Rmult_assoc, pow_m1_sq. ring.
    + rewrite <- (IH k) by lia. apply tri_ext. intros l Hl. cbn [tri_solve]. destruct (Nat.eqb_spec l (S h)); [lia|reflexivity].
Qed.

(* ----------------------------------------------------- the linear system *)
Lemma orders_nth l a o v : orders l a -> In (o, v) l -> (1 <= o <= a)%nat /\ snd (nth (o - 1) l (0%nat, fun _ => 0)) = v.
Proof.
  intros H Hin. apply In_nth with (d := (0%nat, fun _ => 0)) in Hin. destruct Hin as (i & Hi & E).
  assert (length l = a) as L by (rewrite <- (map_length fst), H, seq_length; reflexivity).
  assert (o = S i) as ->.
  { change o with (fst (o, v)). rewrite <- E. rewrite <- (map_nth fst). rewrite H. rewrite seq_nth by lia. reflexivity. }
  split; [lia|]. replace (S i - 1)%nat with i by lia. rewrite E. reflexivity.
Qed.

Section System.
Variables (n nv : nat) (q1 q2 : nat -> R) (T : R).
Hypothesis T_pos : 0 < T.
Variable par0 : nat -> nat -> R.
Let p := mkSpline n nv q1 par0 0 T.
Lemma p_len : reqb (sp_len p) 0 = false /\ sp_len p = T.
Proof. unfold sp_len. cbn. rewrite Rminus_0_r. destruct (reqb_spec T 0); [lra|]. split; reflexivity. Qed.
Lemma basis_der_p k u i : basis_der p k u i = bern_der n k u i / T ^ k.
Proof. unfold basis_der. destruct p_len as [-> ->]. reflexivity. Qed.
Lemma T_pow k : T ^ k <> 0.
Proof. apply pow_nonzero. lra. Qed.
Lemma basis_row k u x : rsum (fun i => basis_der p k u i * x i) (S n) = rsum (fun i => bern_der n k u i * x i) (S n) / T ^ k.
Proof. unfold Rdiv. rewrite <- rsum_scal_r. apply rsum_ext. intros i Hi. rewrite basis_der_p. unfold Rdiv. ring. Qed.

Lemma rows_in d1 d2 r : In r (sm_rows p q1 d1 q2 d2) <->
  r = (basis_der p 0 0, fun d => q1 d - q1 d) \/ (exists o v, In (o, v) d1 /\ r = (basis_der p o 0, v)) \/
  r = (basis_der p 0 1, fun d => q2 d - q1 d) \/ (exists o v, In (o, v) d2 /\ r = (basis_der p o 1, v)).
Proof.
  unfold sm_rows. rewrite !in_app_iff, !in_map_iff. cbn [In]. split.
  - intros [[<-|[]]|[((o, v) & <- & H)|[[<-|[]]|((o, v) & <- & H)]]]; eauto 10.
  - intros [->|[(o & v & H & ->)|[->|(o & v & H & ->)]]]; auto.
    + right. left. exists (o, v). auto.
    + right. right. right. exists (o, v). auto.
Qed.

Lemma solvable d1 d2 a b : orders d1 a -> orders d2 b -> (a + b + 2 <= n + 1)%nat -> exists P, solves n nv (sm_rows p q1 d1 q2 d2) P.
Proof.
  intros O1 O2 Hab. set (v1 := fun k d => snd (nth (k - 1) d1 (0%nat, fun _ => 0)) d). set (v2 := fun k d => snd (nth (k - 1) d2 (0%nat, fun _ => 0)) d).
  set (r1 := fun d k => if (k =? 0)%nat then 0 else (-1) ^ k * (v1 k d * T ^ k / ratio n k)).
  set (r2 := fun d k => if (k =? 0)%nat then q2 d - q1 d else v2 k d * T ^ k / ratio n k).
  set (P := fun i d => if (i <=? a)%nat then tri_solve (r1 d) a i else tri_solve (r2 d) b (n - i)%nat).
  assert (forall d k, (k <= a)%nat -> tri k (fun i => P i d) = r1 d k) as E1.
  { intros d k Hk. rewrite <- (tri_solve_ok (r1 d) a k Hk). apply tri_ext. intros l Hl. unfold P. destruct (Nat.leb_spec l a); [reflexivity|lia]. }
  assert (forall d k, (k <= b)%nat -> tri k (fun l => P (n - l)%nat d) = r2 d k) as E2.
  { intros d k Hk. rewrite <- (tri_solve_ok (r2 d) b k Hk). apply tri_ext. intros l Hl. unfold P. destruct (Nat.leb_spec (n - l) a); [lia|].
    replace (n - (n - l))%nat with l by lia. reflexivity. }
  assert (forall k, ratio n k <> 0) as Rn by (intros k; pose proof (ratio_pos n k); lra).
  exists P. intros r Hr d Hd. apply rows_in in Hr. destruct Hr as [->|[(o & v & Hin & ->)|[->|(o & v & Hin & ->)]]]; cbn [fst snd].
  - rewrite (basis_row 0 0 (fun i => P i d)), row_0, E1 by lia. unfold r1. cbn [Nat.eqb]. unfold Rdiv. ring.
  - destruct (orders_nth d1 a o v O1 Hin) as [Ho Ev]. rewrite (basis_row o 0 (fun i => P i d)), row_0, E1 by lia. unfold r1, v1. rewrite Ev.
    destruct (Nat.eqb_spec o 0); [lia|]. replace (ratio n o * (-1) ^ o * ((-1) ^ o * (v d * T ^ o / ratio n o)) / T ^ o) with (v d * ((-1) ^ o * (-1) ^ o)) by (field; split; [apply Rn|apply T_pow]).
    rewrite pow_m1_sq. ring.
  - rewrite (basis_row 0 1 (fun i => P i d)), row_1, E2 by lia. unfold r2. cbn [Nat.eqb]. assert (ratio n 0 = 1) as -> by (unfold ratio; rewrite Nat.sub_0_r; field; apply INR_fact_neq_0). cbn [pow]. field.
  - destruct (orders_nth d2 b o v O2 Hin) as [Ho Ev]. rewrite (basis_row o 1 (fun i => P i d)), row_1, E2 by lia. unfold r2, v2. rewrite Ev.
    destruct (Nat.eqb_spec o 0); [lia|]. field. split; [apply Rn|apply T_pow].
Qed.

Lemma derivative_sum P t k d : 0 <= t <= T ->
  sp_derivative (mkSpline n nv q1 P 0 T) t k d = rsum (fun i => basis_der p k (t / T) i * P i d) (S n).
Proof.
  intros Ht. rewrite sp_derivative_val by (cbn; lra). cbn [sp_deg sp_par]. apply rsum_ext. intros i Hi. rewrite basis_der_p. unfold sp_len. cbn [sp_t0 sp_t1]. rewrite !Rminus_0_r. ring.
Qed.
Lemma compute_sum P t d : 0 <= t <= T -> sp_compute (mkSpline n nv q1 P 0 T) t d = q1 d + rsum (fun i => basis_der p 0 (t / T) i * P i d) (S n).
Proof.
  intros Ht. rewrite sp_compute_curve by (cbn; lra). rewrite <- sp_derivative_0 by (cbn; lra). cbn [sp_base]. f_equal. apply derivative_sum. exact Ht.
Qed.

Lemma meets d1 d2 P : solves n nv (sm_rows p q1 d1 q2 d2) P ->
  let s := mkSpline n nv q1 P 0 T in
  forall d, (d < nv)%nat ->
    sp_compute s 0 d = q1 d /\ sp_compute s T d = q2 d /\
    (forall o v, In (o, v) d1 -> sp_derivative s 0 o d = v d) /\ (forall o v, In (o, v) d2 -> sp_derivative s T o d = v d).
Proof.
  intros H s d Hd. unfold s. rewrite !compute_sum by lra.
  replace (0 / T) with 0 by (field; lra). replace (T / T) with 1 by (field; lra). repeat split.
  - pose proof (H (basis_der p 0 0, fun d => q1 d - q1 d) ltac:(apply rows_in; auto) d Hd) as E. cbn [fst snd] in E. rewrite E. ring.
  - pose proof (H (basis_der p 0 1, fun d => q2 d - q1 d) ltac:(apply rows_in; auto) d Hd) as E. cbn [fst snd] in E. rewrite E. ring.
  - intros o v Hin. rewrite derivative_sum by lra. replace (0 / T) with 0 by (field; lra).
    exact (H (basis_der p o 0, v) ltac:(apply rows_in; eauto 10) d Hd).
  - intros o v Hin. rewrite derivative_sum by lra. replace (T / T) with 1 by (field; lra).
    exact (H (basis_der p o 1, v) ltac:(apply rows_in; eauto 10) d Hd).
Qed.

(* null derivatives up to order h, degree 2 h + 1: a single solution *)
Lemma null_solution h P d : n = (2 * h + 1)%nat -> solves n nv (sm_rows p q1 (sm_null n) q2 (sm_null n)) P -> (d < nv)%nat ->
  forall i, (i <= n)%nat -> P i d = if (i <=? h)%nat then 0 else q2 d - q1 d.
Proof.
  intros Hn H Hd. assert (((n + 1 - 2) / 2 = h)%nat) as Eh by (rewrite Hn; replace (2 * h + 1 + 1 - 2)%nat with (h * 2)%nat by lia; apply Nat.div_mul; lia).
  assert (forall k, (1 <= k <= h)%nat -> In (k, fun _ : nat => 0) (sm_null n)) as Hin.
  { intros k Hk. unfold sm_null. rewrite Eh. apply in_map_iff. exists (k - 1)%nat. split; [f_equal; lia|]. apply in_seq. lia. }
  assert (forall k, ratio n k / T ^ k <> 0) as Rn.
  { intros k. pose proof (ratio_pos n k). apply Rmult_integral_contrapositive. split; [lra|apply Rinv_neq_0_compat, T_pow]. }
  assert (forall k, (k <= h)%nat -> tri k (fun i => P i d) = 0) as Z0.
  { intros k Hk. assert (rsum (fun i => basis_der p k 0 i * P i d) (S n) = 0) as E.
    { destruct (Nat.eq_dec k 0) as [->|].
      - pose proof (H (basis_der p 0 0, fun d => q1 d - q1 d) ltac:(apply rows_in; auto) d Hd) as E. cbn [fst snd] in E. rewrite E. ring.
      - exact (H (basis_der p k 0, fun _ => 0) ltac:(apply rows_in; right; left; exists k, (fun _ => 0); split; [apply Hin; lia|reflexivity]) d Hd). }
    rewrite (basis_row k 0 (fun i => P i d)), row_0 in E by lia.
    assert ((ratio n k / T ^ k) * ((-1) ^ k * tri k (fun i => P i d)) = 0) as E' by (rewrite <- E; field; apply T_pow).
    apply Rmult_integral in E'. destruct E' as [E'|E']; [exfalso; exact (Rn k E')|]. apply Rmult_integral in E'.
    destruct E' as [E'|E']; [|exact E']. exfalso. revert E'. apply pow_nonzero. lra. }
  assert (forall k, (k <= h)%nat -> tri k (fun l => P (n - l)%nat d - (q2 d - q1 d)) = 0) as Z1.
  { intros k Hk. assert (rsum (fun i => basis_der p k 1 i * P i d) (S n) = if (k =? 0)%nat then q2 d - q1 d else 0) as E.
    { destruct (Nat.eqb_spec k 0) as [->|].
      - exact (H (basis_der p 0 1, fun d => q2 d - q1 d) ltac:(apply rows_in; auto) d Hd).
      - exact (H (basis_der p k 1, fun _ => 0) ltac:(apply rows_in; right; right; right; exists k, (fun _ => 0); split; [apply Hin; lia|reflexivity]) d Hd). }
    rewrite (basis_row k 1 (fun i => P i d)), row_1 in E by lia.
    rewrite (tri_minus k (fun l => P (n - l)%nat d) (fun _ => q2 d - q1 d)), tri_const.
    assert (tri k (fun l => P (n - l)%nat d) = (if (k =? 0)%nat then q2 d - q1 d else 0) / (ratio n k / T ^ k)) as ->.
    { rewrite <- E. pose proof (ratio_pos n k). field. split; try apply T_pow; lra. }
    destruct (Nat.eqb_spec k 0) as [->|]; [|unfold Rdiv; ring].
    assert (ratio n 0 = 1) as -> by (unfold ratio; rewrite Nat.sub_0_r; field; apply INR_fact_neq_0). cbn [pow]. field. }
  intros i Hi. destruct (Nat.leb_spec i h) as [L|L].
  - exact (tri_unique (fun i => P i d) h Z0 i L).
  - pose proof (tri_unique _ h Z1 (n - i)%nat ltac:(lia)) as E. cbn beta in E. replace (n - (n - i))%nat with i in E by lia. lra.
Qed.
End System.

(* ------------------------------------------------ the default steering *)
Definition blend (h : nat) (u : R) : R := rsum (fun l => bernstein (2 * h + 1) (S h + l) u) (S h).
Lemma blend_ends h : blend h 0 = 0 /\ blend h 1 = 1.
Proof.
  unfold blend. split.
  - apply rsum_zero. intros l Hl. rewrite bernstein_0 by lia. destruct (Nat.eqb_spec (S h + l) 0); [lia|reflexivity].
  - rewrite (rsum_single _ _ h); [|lia|].
    + rewrite bernstein_1 by lia. destruct (Nat.eqb_spec (S h + h) (2 * h + 1)); [reflexivity|lia].
    + intros l Hl Hn. rewrite bernstein_1 by lia. destruct (Nat.eqb_spec (S h + l) (2 * h + 1)); [lia|reflexivity].
Qed.
Lemma blend_derivable h u : derivable_pt_lim (blend h) u (INR (fact (S (2 * h))) * cell (2 * h) h 0 u).
Proof.
  set (N := INR (fact (S (2 * h)))).
  apply (derivable_eq _ _ (rsum (fun l => bern_der (S (2 * h)) 1 u (S h + l)) (S h))).
  - rewrite (rsum_ext _ (fun l => N * cell (2 * h) (h + l) 0 u - N * cell (2 * h) (h + S l) 0 u)).
    + rewrite (rsum_telescope (fun l => N * cell (2 * h) (h + l) 0 u)). rewrite Nat.add_0_r, (cell_out (2 * h) (h + S h)) by lia. ring.
    + intros l Hl. rewrite bern_der_1. fold N. replace (S h + l)%nat with (S (h + l)) by lia. rewrite cell_shift. replace (h + S l)%nat with (S (h + l)) by lia. reflexivity.
  - apply (derivable_ext (fun x => rsum (fun l => bern_der (S (2 * h)) 0 x (S h + l)) (S h))).
    + intros x. unfold blend. apply rsum_ext. intros l Hl. replace (2 * h + 1)%nat with (S (2 * h)) by lia. apply bern_eval_bernstein. lia.
    + apply (derivable_rsum (fun l x => bern_der (S (2 * h)) 0 x (S h + l))). intros l Hl. apply bern_der_derivable.
Qed.

Lemma blend_mono h u v : 0 <= u -> u <= v -> v <= 1 -> blend h u <= blend h v.
Proof.
  intros Hu Huv Hv. destruct (Rle_lt_or_eq_dec _ _ Huv) as [L|E]; [|rewrite E; lra].
  destruct (MVT_cor2 (blend h) (fun x => INR (fact (S (2 * h))) * cell (2 * h) h 0 x) u v L) as (c & E & Hc).
  - intros c _. apply blend_derivable.
  - pose proof (cell_range (2 * h) h 0 c ltac:(lra)). assert (0 <= INR (fact (S (2 * h))) * cell (2 * h) h 0 c * (v - u)) by (apply Rmult_le_pos; lra). lra.
Qed.

Lemma default_straight h solve nv dist q1 q2 t d : exact (2 * h + 1) nv solve (system (2 * h + 1) nv dist q1 (sm_null (2 * h + 1)) q2 (sm_null (2 * h + 1))) -> 0 < dist -> (d < nv)%nat -> 0 <= t <= dist ->
  sp_compute (sm_default solve (2 * h + 1) nv dist q1 q2) t d = q1 d + blend h (t / dist) * (q2 d - q1 d).
Proof.
  intros Hs Hdist Hd Ht. unfold sm_default, sm_spline. destruct (rleb_spec (-1) 0); [|lra]. cbn zeta.
  set (n := (2 * h + 1)%nat). set (rows := sm_rows _ _ _ _ _).
  assert (orders (sm_null n) h) as O.
  { unfold orders, sm_null. rewrite map_map. cbn [fst]. replace ((n + 1 - 2) / 2)%nat with h.
    - rewrite <- seq_shift. reflexivity.
    - unfold n. replace (2 * h + 1 + 1 - 2)%nat with (h * 2)%nat by lia. symmetry. apply Nat.div_mul. lia. }
  assert (solves n nv rows (solve rows)) as Sol.
  { apply Hs. apply (solvable n nv q1 q2 dist Hdist (fun _ _ => 0) (sm_null n) (sm_null n) h h O O). lia. }
  rewrite (compute_sum n nv q1 dist Hdist (fun _ _ => 0)) by exact Ht. f_equal.
  pose proof (null_solution n nv q1 q2 dist Hdist (fun _ _ => 0) h (solve rows) d eq_refl Sol Hd) as PS.
  replace (S n) with (S h + S h)%nat by (unfold n; lia). rewrite rsum_app. rewrite rsum_zero.
  2:{ intros i Hi. rewrite PS by (unfold n; lia). destruct (Nat.leb_spec i h); [ring|lia]. }
  rewrite Rplus_0_l. unfold blend. rewrite <- rsum_scal_r. apply rsum_ext. intros l Hl. rewrite PS by (unfold n; lia). destruct (Nat.leb_spec (S h + l) h); [lia|].
  rewrite (basis_der_p n nv q1 dist Hdist). fold n. rewrite <- bern_eval_bernstein by (unfold n; lia). unfold bern_eval. cbn [pow]. field.
Qed.

Lemma steer_meets solve n nv dist q1 d1 q2 d2 len a b :
  exact n nv solve (system n nv (if Rle_dec len 0 then dist else len) q1 d1 q2 d2) -> orders d1 a -> orders d2 b -> (a + b + 2 <= n + 1)%nat ->
  0 < len \/ len <= 0 /\ 0 < dist ->
  let s := sm_spline solve n nv dist q1 d1 q2 d2 len in
  sp_t0 s = 0 /\ sp_t1 s = (if Rle_dec len 0 then dist else len) /\
  forall d, (d < nv)%nat ->
    sp_compute s (sp_t0 s) d = q1 d /\ sp_compute s (sp_t1 s) d = q2 d /\
    (forall o v, In (o, v) d1 -> sp_derivative s (sp_t0 s) o d = v d) /\ (forall o v, In (o, v) d2 -> sp_derivative s (sp_t1 s) o d = v d).
Proof.
  intros Hs O1 O2 Hab Hl s. unfold s, sm_spline, rleb. set (T := if (if Rle_dec len 0 then true else false) then dist else len).
  assert (T = if Rle_dec len 0 then dist else len) as ET by (unfold T; destruct (Rle_dec len 0); reflexivity).
  assert (0 < T) as HT by (rewrite ET; destruct (Rle_dec len 0); lra).
  rewrite <- ET in Hs. cbn [sp_t0 sp_t1]. split; [reflexivity|]. split; [exact ET|].
  apply (meets n nv q1 q2 T HT (fun _ _ => 0)). apply Hs. apply (solvable n nv q1 q2 T HT (fun _ _ => 0) d1 d2 a b); assumption.
Qed.
