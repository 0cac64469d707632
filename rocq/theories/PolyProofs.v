(* Proofs about polynomials and piecewise polynomials. *)
From Coq Require Import Reals Lra Lia FunctionalExtensionality.
From Verif Require Import Base XReal PolyModel PolySpec.
Open Scope R_scope.

Lemma rltb_spec a b : Bool.reflect (a < b) (rltb a b).
Proof. unfold rltb. destruct (Rlt_dec a b); constructor; assumption. Qed.
Lemma rleb_spec a b : Bool.reflect (a <= b) (rleb a b).
Proof. unfold rleb. destruct (Rle_dec a b); constructor; assumption. Qed.
Lemma reqb_spec a b : Bool.reflect (a = b) (reqb a b).
Proof. unfold reqb. destruct (Req_EM_T a b); constructor; assumption. Qed.

(* ------------------------------------------------------------- values *)
Lemma val_loop_poly a t : forall tn r, val_loop a t tn r = r + tn * t * poly a t.
Proof. induction a as [|c a IH]; intros tn r; cbn; [ring|]. rewrite IH. ring. Qed.
Lemma pval_poly a t : a <> [] -> pval a t = Ok (poly a t).
Proof. destruct a as [|c a]; intros H; [congruence|]. cbn. rewrite val_loop_poly. f_equal. ring. Qed.

(* --------------------------------------------------------- derivatives *)
Fixpoint pderi (i : nat) (a : list R) : list R :=
  match a with [] => [] | c :: a' => INR i * c :: pderi (S i) a' end.
Definition pder (a : list R) : list R := pderi 1 (tl a).

Lemma pderi_poly a : forall i t, poly (pderi i a) t = INR i * poly a t + t * poly (pder a) t.
Proof.
  induction a as [|c a IH]; intros i t; [cbn; ring|].
  cbn [pderi poly]. rewrite IH. unfold pder at 2. cbn [tl].
  rewrite (IH 1%nat). rewrite S_INR. change (INR 1) with 1. ring.
Qed.
Lemma poly_derivable a : forall t, derivable_pt_lim (poly a) t (poly (pder a) t).
Proof.
  induction a as [|c a IH]; intros t.
  - cbn. apply derivable_pt_lim_const.
  - unfold pder. cbn [tl]. rewrite pderi_poly. change (INR 1) with 1. rewrite Rmult_1_l.
    replace (poly a t + t * poly (pder a) t) with (0 + (1 * poly a t + t * poly (pder a) t)) by ring.
    change (poly (c :: a)) with (plus_fct (fct_cte c) (mult_fct id (poly a))).
    apply derivable_pt_lim_plus; [apply derivable_pt_lim_const|].
    apply derivable_pt_lim_mult; [apply derivable_pt_lim_id|apply IH].
Qed.

Fixpoint pders (k : nat) (a : list R) : list R :=
  match k with O => a | S k' => pders k' (pder a) end.
Lemma pders_nth k : forall a, nth_derivative k (poly a) (poly (pders k a)).
Proof.
  induction k as [|k IH]; intros a; cbn; [reflexivity|].
  exists (poly (pder a)). split; [apply poly_derivable|apply IH].
Qed.
Lemma pders_S k : forall a, pders (S k) a = pder (pders k a).
Proof. induction k as [|k IH]; intros a; [reflexivity|]. cbn in *. rewrite IH. reflexivity. Qed.

(* coefficients of the k-th derivative *)
Fixpoint fk (k j : nat) (l : list R) : list R :=
  match l with [] => [] | c :: l' => INR (factorial (j + k) / factorial j) * c :: fk k (S j) l' end.

Lemma factorial_pos n : (0 < factorial n)%nat.
Proof. induction n; cbn; lia. Qed.
Lemma factorial_divides j k : exists m, factorial (j + k) = (m * factorial j)%nat.
Proof.
  induction k as [|k [m IH]]; [exists 1%nat; rewrite Nat.add_0_r; lia|].
  rewrite Nat.add_succ_r. cbn [factorial]. rewrite IH. exists (m * S (j + k))%nat. lia.
Qed.
Lemma ratio_S j k :
  (factorial (S j + k) / factorial (S j) * S j = factorial (j + S k) / factorial j)%nat.
Proof.
  destruct (factorial_divides (S j) k) as [m E]. rewrite E, Nat.div_mul by (pose proof (factorial_pos (S j)); lia).
  rewrite Nat.add_succ_r. change (S (j + k)) with (S j + k)%nat. rewrite E.
  cbn [factorial]. replace (m * (factorial j * S j))%nat with (m * S j * factorial j)%nat by lia.
  rewrite Nat.div_mul by (pose proof (factorial_pos j); lia). reflexivity.
Qed.
Lemma pderi_fk k l : forall j, pderi (S j) (fk k (S j) l) = fk (S k) j l.
Proof.
  induction l as [|c l IH]; intros j; cbn [fk pderi]; [reflexivity|].
  rewrite IH. f_equal. rewrite <- Rmult_assoc, <- mult_INR. f_equal. f_equal.
  rewrite <- ratio_S. lia.
Qed.
Lemma pders_fk k : forall a, pders k a = fk k 0 (skipn k a).
Proof.
  induction k as [|k IH]; intros a.
  - cbn [pders skipn]. assert (G : forall l j, l = fk 0 j l).
    { induction l as [|c l IH]; intros j; cbn [fk]; [reflexivity|].
      rewrite <- IH. rewrite Nat.add_0_r, Nat.div_same by (pose proof (factorial_pos j); lia).
      change (INR 1) with 1. rewrite Rmult_1_l. reflexivity. }
    apply G.
  - rewrite pders_S, IH. unfold pder.
    assert (E : tl (fk k 0 (skipn k a)) = fk k 1 (skipn (S k) a)).
    { assert (G : forall m (l : list R), tl (skipn m l) = skipn (S m) l).
      { induction m as [|m IHm]; intros l; [destruct l; reflexivity|].
        destruct l as [|c l]; [reflexivity|]. exact (IHm l). }
      rewrite <- G. destruct (skipn k a); reflexivity. }
    rewrite E. apply pderi_fk.
Qed.
Lemma jac_loop_fk l : forall j k t tn r,
  jac_loop l (j + k) k t tn r = r + tn * poly (fk k j l) t.
Proof.
  induction l as [|c l IH]; intros j k t tn r; cbn [jac_loop fk poly]; [ring|].
  change (S (j + k)) with (S j + k)%nat. rewrite IH.
  replace (j + k - k)%nat with j by lia. ring.
Qed.
Lemma skipn_nil {A} k (a : list A) : (length a <= k)%nat -> skipn k a = [].
Proof. intros H. apply skipn_all2. exact H. Qed.
Lemma jac_poly a k t : ((length a <= 10)%nat \/ (length a <= k)%nat) -> jac a t k = Ok (poly (pders k a) t).
Proof.
  intros H. unfold jac. rewrite pders_fk. destruct (Nat.leb_spec (length a) k).
  - rewrite skipn_nil by assumption. reflexivity.
  - destruct (Nat.ltb_spec 10 (length a)); [lia|]. f_equal.
    pose proof (jac_loop_fk (skipn k a) 0 k t 1 0) as E. cbn [Nat.add] in E. rewrite E. ring.
Qed.

Lemma nth_derivative_shift k : forall f g d, nth_derivative k f g ->
  nth_derivative k (fun t => f (t - d)) (fun t => g (t - d)).
Proof.
  induction k as [|k IH]; intros f g d H; cbn in *; [intros; apply H|].
  destruct H as [f1 [H1 H2]]. exists (fun t => f1 (t - d)). split; [|apply IH; exact H2].
  intros t. replace (f1 (t - d)) with (f1 (t - d) * 1) by ring.
  change (fun t0 => f (t0 - d)) with (comp f (fun t0 => t0 - d)).
  apply derivable_pt_lim_comp; [|apply H1].
  change (fun t0 => t0 - d) with (minus_fct id (fct_cte d)). replace 1 with (1 - 0) by ring.
  apply derivable_pt_lim_minus; [apply derivable_pt_lim_id|apply derivable_pt_lim_const].
Qed.

(* --------------------------------------------------------- lower_bound *)
Lemma increasing_nth l : increasing l -> forall i j, (i < j < length l)%nat -> nth i l 0 < nth j l 0.
Proof.
  induction l as [|x l IH]; intros H i j Hij; [cbn in Hij; lia|].
  assert (T : increasing l) by (destruct l; [exact I|apply H]).
  assert (S1 : forall j, (j < length l)%nat -> x < nth j l 0).
  { clear i j Hij. intros j Hj. destruct l as [|y l]; [cbn in Hj; lia|]. destruct H as [H _].
    destruct j as [|j]; [exact H|]. pose proof (IH T 0%nat (S j) ltac:(lia)) as K. cbn in *. lra. }
  destruct j as [|j]; [lia|]. destruct i as [|i]; cbn.
  - apply S1. cbn in Hij. lia.
  - apply IH; [exact T|cbn in Hij; lia].
Qed.
Lemma lower_bound_spec l t : increasing l -> forall fuel first len,
  (len <= fuel)%nat -> (first + len <= length l)%nat ->
  (forall i, (i < first)%nat -> nth i l 0 <= t) ->
  (forall i, (first + len <= i < length l)%nat -> t < nth i l 0) ->
  let r := lower_bound fuel l t first len in
  (r <= length l)%nat /\ (forall i, (i < r)%nat -> nth i l 0 <= t) /\
  (forall i, (r <= i < length l)%nat -> t < nth i l 0).
Proof.
  intros Hs. induction fuel as [|fuel IH]; intros first len Hf Hl Ha Hb; cbn [lower_bound].
  - assert (len = 0)%nat by lia. subst len. split; [lia|]. split; [exact Ha|].
    intros i Hi. apply Hb. lia.
  - destruct (Nat.eqb_spec len 0) as [->|Hn].
    + split; [lia|]. split; [exact Ha|]. intros i Hi. apply Hb. lia.
    + assert (D : (Nat.div2 len < len)%nat) by (apply Nat.lt_div2; lia).
      destruct (rleb_spec (nth (first + Nat.div2 len) l 0) t) as [L|L].
      * apply IH; [lia|lia| |].
        -- intros i Hi. destruct (Nat.eq_dec i (first + Nat.div2 len)) as [->|]; [exact L|].
           pose proof (increasing_nth l Hs i (first + Nat.div2 len) ltac:(lia)). lra.
        -- intros i Hi. apply Hb. lia.
      * apply IH; [lia|lia|exact Ha|].
        intros i Hi. destruct (Nat.eq_dec i (first + Nat.div2 len)) as [->|]; [lra|].
        pose proof (increasing_nth l Hs (first + Nat.div2 len) i ltac:(lia)). lra.
Qed.

Lemma last_nth (l : list R) : l <> [] -> last l 0 = nth (length l - 1) l 0.
Proof.
  intros H. destruct (exists_last H) as [l' [x ->]]. rewrite last_last, app_length. cbn.
  replace (length l' + 1 - 1)%nat with (length l') by lia.
  rewrite app_nth2, Nat.sub_diag by lia. reflexivity.
Qed.

Section Piecewise.
Variable p : pwpoly.
Hypothesis Hsorted : increasing (pw_bp p).
Hypothesis Hsize : length (pw_bp p) = S (length (pw_cols p)).
Hypothesis Hne : pw_cols p <> [].
Notation b i := (nth i (pw_bp p) 0).
Notation NP := (length (pw_cols p)).
Definition loc (i : nat) (t : R) : R := if pw_zero p then t - b i else t.

Lemma n_pos : (0 < NP)%nat.
Proof. destruct (pw_cols p); [congruence|cbn; lia]. Qed.
Lemma bp_nonempty : pw_bp p <> [].
Proof. destruct (pw_bp p); [cbn in Hsize; lia|congruence]. Qed.

Lemma find_inside i t : (i < NP)%nat -> b i <= t < b (S i) -> pw_find p t = Ok (i, loc i t).
Proof.
  intros Hi Ht. unfold pw_find.
  destruct (lower_bound_spec (pw_bp p) t Hsorted (length (pw_bp p)) 0 (length (pw_bp p))
    ltac:(lia) ltac:(lia) ltac:(intros; lia) ltac:(intros; lia)) as (L & A & B).
  set (r := lower_bound _ _ _ _ _) in *.
  assert (E : r = S i).
  { destruct (Nat.lt_trichotomy r (S i)) as [K|[K|K]]; [|exact K|].
    - exfalso. specialize (B i ltac:(lia)). lra.
    - exfalso. specialize (A (S i) K). lra. }
  rewrite E. replace (S i =? 0)%nat with false by reflexivity. destruct (Nat.eqb_spec (S i) (length (pw_bp p))); [lia|].
  unfold loc. replace (S i - 1)%nat with i by lia. reflexivity.
Qed.
Lemma find_end : pw_find p (b NP) = Ok ((NP - 1)%nat, loc (NP - 1) (b NP)).
Proof.
  pose proof n_pos as Hn. unfold pw_find.
  destruct (lower_bound_spec (pw_bp p) (b NP) Hsorted (length (pw_bp p)) 0 (length (pw_bp p))
    ltac:(lia) ltac:(lia) ltac:(intros; lia) ltac:(intros; lia)) as (L & A & B).
  set (r := lower_bound _ _ _ _ _) in *.
  assert (E : r = length (pw_bp p)).
  { destruct (Nat.eq_dec r (length (pw_bp p))); [assumption|]. exfalso.
    specialize (B NP ltac:(lia)). lra. }
  rewrite E. destruct (Nat.eqb_spec (length (pw_bp p)) 0); [lia|]. rewrite Nat.eqb_refl.
  rewrite last_nth by apply bp_nonempty. rewrite Hsize. replace (S NP - 1)%nat with NP by lia.
  destruct (rltb_spec (b NP) (b NP)); [lra|]. destruct (Nat.ltb_spec (S NP) 2); [lia|].
  replace (S NP - 2)%nat with (NP - 1)%nat by lia. reflexivity.
Qed.
Lemma find_outside t : t < b 0 \/ b NP < t -> pw_find p t = Throw.
Proof.
  pose proof n_pos as Hn. intros Ht. unfold pw_find.
  destruct (lower_bound_spec (pw_bp p) t Hsorted (length (pw_bp p)) 0 (length (pw_bp p))
    ltac:(lia) ltac:(lia) ltac:(intros; lia) ltac:(intros; lia)) as (L & A & B).
  set (r := lower_bound _ _ _ _ _) in *. destruct Ht as [Ht|Ht].
  - assert (E : r = 0%nat).
    { destruct (Nat.eq_dec r 0); [assumption|]. exfalso. specialize (A 0%nat ltac:(lia)). lra. }
    rewrite E. cbn [Nat.eqb]. destruct (Nat.eqb_spec (length (pw_bp p)) 0); [lia|reflexivity].
  - assert (E : r = length (pw_bp p)).
    { destruct (Nat.eq_dec r (length (pw_bp p))); [assumption|]. exfalso.
      specialize (B NP ltac:(lia)). lra. }
    rewrite E. destruct (Nat.eqb_spec (length (pw_bp p)) 0); [lia|]. rewrite Nat.eqb_refl.
    rewrite last_nth by apply bp_nonempty. rewrite Hsize. replace (S NP - 1)%nat with NP by lia.
    destruct (rltb_spec (b NP) t); [reflexivity|lra].
Qed.
End Piecewise.

(* ----------------------------------------------------- derivative bound *)
Lemma jac1_size2 a0 a1 t : jac [a0; a1] t 1 = Ok a1.
Proof. rewrite jac_poly by (left; cbn; lia). f_equal. cbn. ring. Qed.
Lemma jac1_size3 a0 a1 a2 t : jac [a0; a1; a2] t 1 = Ok (a1 + 2 * a2 * t).
Proof. rewrite jac_poly by (left; cbn; lia). f_equal. cbn. ring. Qed.
Lemma jac1_size4 a0 a1 a2 a3 t : jac [a0; a1; a2; a3] t 1 = Ok (a1 + 2 * a2 * t + 3 * a3 * (t * t)).
Proof. rewrite jac_poly by (left; cbn; lia). f_equal. cbn. ring. Qed.

Lemma Rmax_abs x y m : Rmax (Rabs x) (Rabs y) = m -> (- m <= x <= m) /\ (- m <= y <= m).
Proof.
  intros <-. pose proof (Rmax_l (Rabs x) (Rabs y)). pose proof (Rmax_r (Rabs x) (Rabs y)).
  pose proof (Rle_abs x). pose proof (Rle_abs (- x)). pose proof (Rle_abs y). pose proof (Rle_abs (- y)).
  rewrite Rabs_Ropp in *. lra.
Qed.
Lemma linear_between c d l u t m : l <= t <= u -> - m <= c + d * l <= m -> - m <= c + d * u <= m ->
  - m <= c + d * t <= m.
Proof.
  intros Ht Hl Hu. destruct (Rle_dec 0 d) as [D|D].
  - pose proof (Rmult_le_compat_l d l t D ltac:(lra)). pose proof (Rmult_le_compat_l d t u D ltac:(lra)). lra.
  - pose proof (Rmult_le_compat_l (- d) l t ltac:(lra) ltac:(lra)). pose proof (Rmult_le_compat_l (- d) t u ltac:(lra) ltac:(lra)). lra.
Qed.
Lemma deriv_bound_2 a0 a1 l u m t : deriv_bound [a0; a1] l u = Ok m ->
  Rabs (poly (pder [a0; a1]) t) <= m.
Proof. cbn. intros H. injection H as <-. right. f_equal. ring. Qed.
Lemma deriv_bound_3 a0 a1 a2 l u m t : deriv_bound [a0; a1; a2] l u = Ok m -> l <= t <= u ->
  Rabs (poly (pder [a0; a1; a2]) t) <= m.
Proof.
  unfold deriv_bound. rewrite !jac1_size3. cbn [bind]. intros H Ht. injection H as H.
  destruct (Rmax_abs _ _ _ H) as [A B]. apply Rabs_le.
  replace (poly (pder [a0; a1; a2]) t) with (a1 + 2 * a2 * t) by (cbn; ring).
  apply (linear_between a1 (2 * a2) l u); lra.
Qed.
Lemma deriv_bound_4_value a0 a1 a2 a3 l u m : deriv_bound [a0; a1; a2; a3] l u = Ok m ->
  (- m <= a1 + 2 * a2 * l + 3 * a3 * (l * l) <= m) /\ (- m <= a1 + 2 * a2 * u + 3 * a3 * (u * u) <= m).
Proof.
  unfold deriv_bound. rewrite !jac1_size4. cbn [bind].
  set (M := Rmax _ _). assert (E : forall k, M <= k -> (- k <= a1 + 2 * a2 * l + 3 * a3 * (l * l) <= k) /\ (- k <= a1 + 2 * a2 * u + 3 * a3 * (u * u) <= k)).
  { intros k Hk. destruct (Rmax_abs _ _ M eq_refl). lra. }
  destruct (reqb a3 0); [|destruct (rltb l _ && rltb _ u)]; intros H; injection H as <-; apply E; try lra.
  apply Rmax_l.
Qed.
(* outside of the vertex the cubic case is right *)
Lemma deriv_bound_4 a0 a1 a2 a3 l u m t : deriv_bound [a0; a1; a2; a3] l u = Ok m -> l <= t <= u ->
  a3 = 0 \/ - a2 / (3 * a3) <= l \/ u <= - a2 / (3 * a3) ->
  Rabs (poly (pder [a0; a1; a2; a3]) t) <= m.
Proof.
  intros H Ht Hx. destruct (deriv_bound_4_value _ _ _ _ _ _ _ H) as [A B]. clear H.
  apply Rabs_le.
  replace (poly (pder [a0; a1; a2; a3]) t) with (a1 + 2 * a2 * t + 3 * a3 * (t * t)) by (cbn; ring).
  destruct (Req_dec a3 0) as [->|N].
  { replace (a1 + 2 * a2 * t + 3 * 0 * (t * t)) with (a1 + (2 * a2) * t) by ring.
    apply (linear_between _ _ l u); lra. }
  destruct Hx as [E|Hx]; [contradiction|].
  set (x := - a2 / (3 * a3)) in *.
  assert (E2 : a2 = - 3 * a3 * x) by (unfold x; field; exact N).
  (* derivative = c + 3 a3 (t-x)^2 *)
  set (c := a1 - 3 * a3 * (x * x)).
  assert (F : forall t, a1 + 2 * a2 * t + 3 * a3 * (t * t) = c + (3 * a3) * ((t - x) * (t - x))).
  { intros y. rewrite E2. unfold c. ring. }
  rewrite F in *. 
  assert (S : (l - x) * (l - x) <= (t - x) * (t - x) <= (u - x) * (u - x) \/
              (u - x) * (u - x) <= (t - x) * (t - x) <= (l - x) * (l - x)).
  { destruct Hx; [left|right]; split.
    - apply Rmult_le_compat; lra.
    - apply Rmult_le_compat; lra.
    - replace ((u - x) * (u - x)) with ((x - u) * (x - u)) by ring.
      replace ((t - x) * (t - x)) with ((x - t) * (x - t)) by ring. apply Rmult_le_compat; lra.
    - replace ((l - x) * (l - x)) with ((x - l) * (x - l)) by ring.
      replace ((t - x) * (t - x)) with ((x - t) * (x - t)) by ring. apply Rmult_le_compat; lra. }
  destruct S as [S|S].
  - eapply linear_between; [exact S|lra|lra].
  - eapply linear_between; [exact S|lra|lra].
Qed.
