(* Proofs about SimpleTimeParameterization. *)
From Coq Require Import Reals Lra Lia.
From Verif Require Import Base XReal PolyModel PolySpec PolyProofs.
Open Scope R_scope.

(* --------------------------------------------------------- good laws *)
Lemma deriv_continuous f f1 : (forall t, derivable_pt_lim f t (f1 t)) -> continuity f.
Proof.
  intros H. apply derivable_continuous. intros t. exists (f1 t). apply H.
Qed.
Lemma good_law_intro order B C s0 s1 T f f1 f2 :
  0 < T -> f 0 = s0 -> f T = s1 ->
  (forall t, derivable_pt_lim f t (f1 t)) -> (forall t, derivable_pt_lim f1 t (f2 t)) ->
  (forall t, 0 < t < T -> 0 < f1 t) ->
  (forall t, 0 <= t <= T -> 0 <= f1 t <= B) ->
  ((1 <= order)%nat -> f1 0 = 0 /\ f1 T = 0) ->
  ((2 <= order)%nat -> f2 0 = 0 /\ f2 T = 0) ->
  ((2 <= order)%nat -> 0 < C -> forall t, 0 <= t <= T -> Rabs (f2 t) <= C) ->
  good_law order B C s0 s1 T f.
Proof.
  intros HT H0 H1 D1 D2 P Bd Z1 Z2 Acc. constructor; try assumption.
  - intros t u Ht Htu Hu.
    destruct (MVT_cor2 f f1 t u Htu) as [c [E Hc]]; [intros; apply D1|].
    pose proof (P c ltac:(lra)). pose proof (Rmult_lt_0_compat (f1 c) (u - t) ltac:(lra) ltac:(lra)). lra.
  - intros s Hs.
    destruct (IVT_cor (fun t => f t - s) 0 T) as [z [Hz E]].
    + change (fun t => f t - s) with (minus_fct f (fct_cte s)). apply continuity_minus.
      * eapply deriv_continuous. exact D1.
      * apply continuity_const. intros a b. reflexivity.
    + lra.
    + rewrite H0, H1. pose proof (Rmult_le_pos (s - s0) (s1 - s) ltac:(lra) ltac:(lra)). lra.
    + exists z. split; [exact Hz|lra].
  - exists f1, f2. tauto.
Qed.

Lemma rdiv_ok x y r : rdiv x y = Ok r -> y <> 0 /\ r = x / y.
Proof. unfold rdiv. destruct (reqb_spec y 0); intros H; [discriminate|]. injection H as <-. auto. Qed.
Lemma rdiv_some x y : y <> 0 -> rdiv x y = Ok (x / y).
Proof. unfold rdiv. destruct (reqb_spec y 0); intros H; [contradiction|reflexivity]. Qed.

Section Laws.
Variables s0 s1 B : R.
Hypothesis Hs : s0 < s1.
Hypothesis HB : 0 < B.
Notation D := (s1 - s0).

(* order 0 *)
Lemma first_ok : tp_first s0 s1 B = Ok ([s0; B], D / B).
Proof. unfold tp_first. rewrite rdiv_some by lra. reflexivity. Qed.
Lemma div_pos x y : 0 < x -> 0 < y -> 0 < x / y.
Proof. intros. apply Rdiv_lt_0_compat; assumption. Qed.
Lemma first_law C : good_law 0 B C s0 s1 (D / B) (poly [s0; B]).
Proof.
  apply good_law_intro with (poly [B]) (poly []).
  - apply div_pos; lra.
  - cbn. ring.
  - cbn. field. lra.
  - intros t. pose proof (poly_derivable [s0; B] t) as K. replace (poly (pder [s0; B]) t) with (poly [B] t) in K by (cbn; ring). exact K.
  - intros t. exact (poly_derivable [B] t).
  - intros t _. cbn. lra.
  - intros t _. cbn. lra.
  - intros; lia.
  - intros; lia.
  - intros; lia.
Qed.

(* order 1 *)
Definition T3 := 3 * D / (2 * B).
Definition A2 := 3 * D / (T3 * T3).
Definition A3 := - 2 * A2 / (3 * T3).
Lemma T3_pos : 0 < T3. Proof. apply div_pos; lra. Qed.
Lemma third_ok : tp_third s0 s1 B = Ok ([s0; 0; A2; A3], T3).
Proof.
  unfold tp_third. pose proof T3_pos as P. pose proof (Rmult_lt_0_compat _ _ P P).
  rewrite rdiv_some by lra. cbn [bind]. fold T3. rewrite rdiv_some by lra. cbn [bind]. fold A2.
  rewrite rdiv_some by lra. reflexivity.
Qed.
Lemma third_f1 t : poly (pder [s0; 0; A2; A3]) t = 6 * D / (T3 * T3 * T3) * (t * (T3 - t)).
Proof. pose proof T3_pos. unfold A3, A2. cbn. field. lra. Qed.
Lemma quarter t T : t * (T - t) <= T * T / 4.
Proof. pose proof (Rle_0_sqr (T - 2 * t)) as K. unfold Rsqr in K. lra. Qed.
Lemma third_law C : good_law 1 B C s0 s1 T3 (poly [s0; 0; A2; A3]).
Proof.
  pose proof T3_pos as P. pose proof (Rmult_lt_0_compat _ _ P P) as P2. pose proof (Rmult_lt_0_compat _ _ P2 P) as P3.
  assert (K : 0 < 6 * D / (T3 * T3 * T3)) by (apply div_pos; lra).
  apply good_law_intro with (poly (pder [s0; 0; A2; A3])) (poly (pders 2 [s0; 0; A2; A3])).
  - exact P.
  - cbn. ring.
  - unfold A3, A2. cbn. field. lra.
  - apply poly_derivable.
  - apply poly_derivable.
  - intros t Ht. rewrite third_f1. apply Rmult_lt_0_compat; [exact K|]. apply Rmult_lt_0_compat; lra.
  - intros t Ht. rewrite third_f1. split.
    + apply Rmult_le_pos; [lra|]. apply Rmult_le_pos; lra.
    + replace B with (6 * D / (T3 * T3 * T3) * (T3 * T3 / 4)) by (unfold T3; field; lra).
      apply Rmult_le_compat_l; [lra|]. apply quarter.
  - intros _. rewrite !third_f1. split; ring.
  - intros; lia.
  - intros; lia.
Qed.

(* order 2 *)
Section Fifth.
Variable C : R.
Definition T5 := if rltb 0 C then Rmax (15 * D / (8 * B)) (sqrt (10 / sqrt 3) * sqrt (D / C)) else 15 * D / (8 * B).
Definition Q3 := 10 * D / (T5 * T5 * T5).
Definition Q4 := - 15 * D / (T5 * T5 * T5 * T5).
Definition Q5 := 6 * D / (T5 * T5 * T5 * T5 * T5).
Lemma T5_vel : 15 * D / (8 * B) <= T5.
Proof. unfold T5. destruct (rltb 0 C); [apply Rmax_l|lra]. Qed.
Lemma T5_pos : 0 < T5.
Proof. pose proof T5_vel. pose proof (div_pos (15 * D) (8 * B) ltac:(lra) ltac:(lra)). lra. Qed.
Lemma T5_pows : 0 < T5 * T5 /\ 0 < T5 * T5 * T5 /\ 0 < T5 * T5 * T5 * T5 /\ 0 < T5 * T5 * T5 * T5 * T5.
Proof. pose proof T5_pos. repeat split; repeat apply Rmult_lt_0_compat; assumption. Qed.
Lemma fifth_ok : tp_fifth s0 s1 B C = Ok ([s0; 0; 0; Q3; Q4; Q5], T5).
Proof.
  unfold tp_fifth. destruct T5_pows as (P2 & P3 & P4 & P5).
  rewrite rdiv_some by lra. cbn [bind]. change (if rltb 0 C then Rmax (15 * D / (8 * B)) (sqrt (10 / sqrt 3) * sqrt (D / C)) else 15 * D / (8 * B)) with T5.
  rewrite rdiv_some by lra. cbn [bind]. rewrite rdiv_some by lra. cbn [bind]. rewrite rdiv_some by lra. reflexivity.
Qed.
Lemma fifth_f1 t : poly (pder [s0; 0; 0; Q3; Q4; Q5]) t =
  30 * D / (T5 * T5 * T5 * T5 * T5) * ((t * (T5 - t)) * (t * (T5 - t))).
Proof. pose proof T5_pos. unfold Q3, Q4, Q5. cbn. field. lra. Qed.
Lemma fifth_f2 t : poly (pders 2 [s0; 0; 0; Q3; Q4; Q5]) t =
  60 * D / (T5 * T5 * T5 * T5 * T5) * (t * (T5 - t) * (T5 - 2 * t)).
Proof. pose proof T5_pos. unfold Q3, Q4, Q5. cbn. field. lra. Qed.

Lemma cubic_bound T w r : 0 <= T -> - T <= w <= T -> 0 < r -> 3 * (r * r) = 1 ->
  - (2 * (r * r * r) * (T * T * T)) <= (T * T - w * w) * w <= 2 * (r * r * r) * (T * T * T).
Proof.
  intros HT Hw Hr E.
  assert (R2 : 1 <= 2 * r).
  { destruct (Rle_dec 1 (2 * r)); [assumption|]. exfalso.
    pose proof (Rmult_le_0_lt_compat r (1/2) r (1/2) ltac:(lra) ltac:(lra) ltac:(lra) ltac:(lra)). lra. }
  assert (G : forall w, - T <= w <= T -> (T * T - w * w) * w <= 2 * (r * r * r) * (T * T * T)).
  { clear w Hw. intros w Hw. set (k := r * T).
    assert (Hk : T <= 2 * k) by (unfold k; pose proof (Rmult_le_compat_r T 1 (2 * r) HT R2); lra).
    assert (Tk : T * T = 3 * (k * k)) by (unfold k; replace (3 * (r * T * (r * T))) with (3 * (r * r) * (T * T)) by ring; rewrite E; ring).
    assert (S : 0 <= (w - k) * (w - k) * (w + 2 * k)) by (apply Rmult_le_pos; [apply (Rle_0_sqr (w - k))|lra]).
    replace (2 * (r * r * r) * (T * T * T)) with (2 * (k * k * k)) by (unfold k; ring).
    rewrite Tk. replace ((3 * (k * k) - w * w) * w) with (2 * (k * k * k) - (w - k) * (w - k) * (w + 2 * k)) by ring. lra. }
  split; [|apply G; exact Hw].
  pose proof (G (- w) ltac:(lra)) as K. replace ((T * T - - w * - w) * - w) with (- ((T * T - w * w) * w)) in K by ring. lra.
Qed.

Lemma fifth_acc t : 0 < C -> 0 <= t <= T5 -> Rabs (poly (pders 2 [s0; 0; 0; Q3; Q4; Q5]) t) <= C.
Proof.
  intros HC Ht. rewrite fifth_f2. pose proof T5_pos as P. destruct T5_pows as (P2 & P3 & P4 & P5).
  set (r := / sqrt 3).
  assert (S3 : 0 < sqrt 3) by (apply sqrt_lt_R0; lra).
  assert (Hr : 0 < r) by (apply Rinv_0_lt_compat; exact S3).
  assert (S3s : sqrt 3 * sqrt 3 = 3) by (apply sqrt_sqrt; lra).
  assert (E : 3 * (r * r) = 1).
  { unfold r. rewrite <- S3s at 1. field. lra. }
  (* T^2 >= 10 r D / C *)
  assert (TT : 10 * r * (D / C) <= T5 * T5).
  { set (m := sqrt (10 / sqrt 3) * sqrt (D / C)).
    assert (M0 : 0 <= m) by (apply Rmult_le_pos; apply sqrt_pos).
    assert (MT : m <= T5) by (unfold T5; destruct (rltb_spec 0 C); [apply Rmax_r|lra]).
    assert (DC : 0 <= D / C) by (left; apply div_pos; lra).
    assert (D3 : 0 <= 10 / sqrt 3) by (left; apply div_pos; lra).
    assert (MM : m * m = 10 * r * (D / C)).
    { unfold m. replace (sqrt (10 / sqrt 3) * sqrt (D / C) * (sqrt (10 / sqrt 3) * sqrt (D / C)))
        with ((sqrt (10 / sqrt 3) * sqrt (10 / sqrt 3)) * (sqrt (D / C) * sqrt (D / C))) by ring.
      rewrite !sqrt_sqrt by assumption. reflexivity. }
    rewrite <- MM. apply Rmult_le_compat; assumption. }
  pose proof (cubic_bound T5 (T5 - 2 * t) r ltac:(lra) ltac:(lra) Hr E) as CB.
  set (k := 60 * D / (T5 * T5 * T5 * T5 * T5)).
  assert (K0 : 0 < k) by (apply div_pos; lra).
  assert (EQ : t * (T5 - t) * (T5 - 2 * t) = (T5 * T5 - (T5 - 2 * t) * (T5 - 2 * t)) * (T5 - 2 * t) / 4) by field.
  rewrite EQ. set (x := (T5 * T5 - (T5 - 2 * t) * (T5 - 2 * t)) * (T5 - 2 * t)) in *.
  set (bd := 2 * (r * r * r) * (T5 * T5 * T5)) in *.
  assert (KB : k * (bd / 4) <= C).
  { unfold k, bd. replace (60 * D / (T5 * T5 * T5 * T5 * T5) * (2 * (r * r * r) * (T5 * T5 * T5) / 4))
      with ((10 * r * (D / C)) * (C / (T5 * T5)) * (3 * (r * r))) by (field; lra).
    rewrite E, Rmult_1_r.
    apply Rle_trans with (T5 * T5 * (C / (T5 * T5))).
    - apply Rmult_le_compat_r; [left; apply div_pos; lra|exact TT].
    - right. field. lra. }
  apply Rabs_le. split.
  - pose proof (Rmult_le_compat_l k (- (bd / 4)) (x / 4) ltac:(lra) ltac:(lra)). lra.
  - pose proof (Rmult_le_compat_l k (x / 4) (bd / 4) ltac:(lra) ltac:(lra)). lra.
Qed.

Lemma fifth_law : good_law 2 B C s0 s1 T5 (poly [s0; 0; 0; Q3; Q4; Q5]).
Proof.
  pose proof T5_pos as P. destruct T5_pows as (P2 & P3 & P4 & P5). 
  assert (K : 0 < 30 * D / (T5 * T5 * T5 * T5 * T5)) by (apply div_pos; lra).
  apply good_law_intro with (poly (pder [s0; 0; 0; Q3; Q4; Q5])) (poly (pders 2 [s0; 0; 0; Q3; Q4; Q5])).
  - exact P.
  - cbn. ring.
  - unfold Q3, Q4, Q5. cbn. field. lra.
  - apply poly_derivable.
  - apply poly_derivable.
  - intros t Ht. rewrite fifth_f1. apply Rmult_lt_0_compat; [exact K|].
    apply Rmult_lt_0_compat; apply Rmult_lt_0_compat; lra.
  - intros t Ht. rewrite fifth_f1.
    assert (X : 0 <= t * (T5 - t)) by (apply Rmult_le_pos; lra). split.
    + apply Rmult_le_pos; [lra|]. apply Rmult_le_pos; exact X.
    + pose proof (quarter t T5) as Qr.
      apply Rle_trans with (30 * D / (T5 * T5 * T5 * T5 * T5) * ((T5 * T5 / 4) * (T5 * T5 / 4))).
      * apply Rmult_le_compat_l; [lra|]. apply Rmult_le_compat; assumption.
      * replace (30 * D / (T5 * T5 * T5 * T5 * T5) * (T5 * T5 / 4 * (T5 * T5 / 4)))
          with (15 * D / (8 * B) * (B / T5)) by (field; lra).
        apply Rle_trans with (T5 * (B / T5)); [|right; field; lra].
        apply Rmult_le_compat_r; [left; apply div_pos; lra|apply T5_vel].
  - intros _. rewrite !fifth_f1. split; ring.
  - intros _. rewrite !fifth_f2. split; ring.
  - intros _ HC t Ht. apply fifth_acc; assumption.
Qed.
End Fifth.

(* ------------------------------------------ the final check never throws *)
Lemma thr_pos : 0 < thr. Proof. unfold thr. lra. Qed.
Lemma far_false x y : x = y -> far x y = false.
Proof.
  intros ->. unfold far. rewrite Rminus_diag_eq by reflexivity. rewrite Rabs_R0.
  destruct (rltb_spec thr 0); [pose proof thr_pos; lra|reflexivity].
Qed.
Lemma check_ok a order C T : a <> [] -> (length a <= 10)%nat ->
  poly a 0 = s0 -> poly a T = s1 ->
  ((1 <= order)%nat -> poly (pder a) 0 = 0 /\ poly (pder a) T = 0 /\ (C <= 0 -> poly (pder a) (T / 2) = B)) ->
  ((2 <= order)%nat -> poly (pders 2 a) 0 = 0 /\ poly (pders 2 a) T = 0) ->
  check_law a order s0 s1 B C T = Ok tt.
Proof.
  intros Ha La H0 H1 HD HE. unfold check_law. rewrite !pval_poly by assumption. cbn [bind]. rewrite H0, H1.
  rewrite !(jac_poly) by (left; assumption). cbn [bind].
  change (pders 1 a) with (pder a).
  assert (Z : forall x, rleb thr (Rabs (x - x)) = false).
  { intros x. rewrite Rminus_diag_eq by reflexivity. rewrite Rabs_R0.
    destruct (rleb_spec thr 0); [pose proof thr_pos; lra|reflexivity]. }
  rewrite !Z. cbn [orb].
  assert (Y : ((1 <=? order)%nat && (far (poly (pder a) 0) 0 || far (poly (pder a) T) 0 || (rleb C 0 && far (poly (pder a) (T / 2)) B))) = false).
  { destruct (Nat.leb_spec 1 order) as [L|L]; [|reflexivity]. destruct (HD L) as (E1 & E2 & E3).
    rewrite !far_false by assumption. cbn [andb orb]. destruct (rleb_spec C 0) as [c|]; [|reflexivity].
    rewrite far_false by (apply E3; exact c). reflexivity. }
  rewrite Y.
  destruct (Nat.leb_spec 2 order) as [L|L]; [|reflexivity]. destruct (HE L) as (E1 & E2).
  rewrite !far_false by assumption. reflexivity.
Qed.

Lemma time_law_ok order C : (order <= 2)%nat -> exists a T,
  time_law order C s0 s1 B = Ok (a, T) /\ a <> [] /\ good_law order B C s0 s1 T (poly a).
Proof.
  intros Ho. destruct order as [|[|[|o]]]; [| | |lia]; unfold time_law.
  - rewrite first_ok. cbn [bind]. exists [s0; B], (D / B). split; [|split; [discriminate|apply first_law]].
    rewrite check_ok; [reflexivity|discriminate|cbn; lia|apply (gl_init _ _ _ _ _ _ _ (first_law C))|apply (gl_end _ _ _ _ _ _ _ (first_law C))|intros; lia|intros; lia].
  - rewrite third_ok. cbn [bind]. exists [s0; 0; A2; A3], T3. split; [|split; [discriminate|apply third_law]].
    rewrite check_ok; [reflexivity|discriminate|cbn; lia|apply (gl_init _ _ _ _ _ _ _ (third_law C))|apply (gl_end _ _ _ _ _ _ _ (third_law C))| |intros; lia].
    intros _. rewrite !third_f1. pose proof T3_pos. split; [ring|]. split; [ring|]. intros _. unfold T3. field. lra.
  - rewrite fifth_ok. cbn [bind]. exists [s0; 0; 0; Q3 C; Q4 C; Q5 C], (T5 C). split; [|split; [discriminate|apply fifth_law]].
    rewrite check_ok; [reflexivity|discriminate|cbn; lia|apply (gl_init _ _ _ _ _ _ _ (fifth_law C))|apply (gl_end _ _ _ _ _ _ _ (fifth_law C))| |].
    + intros _. rewrite !fifth_f1. pose proof (T5_pos C). split; [ring|]. split; [ring|]. intros c.
      assert (E : T5 C = 15 * D / (8 * B)) by (unfold T5; destruct (rltb_spec 0 C); [lra|reflexivity]).
      rewrite E. field. lra.
    + intros _. rewrite !fifth_f2. split; ring.
Qed.
End Laws.

(* ------------------------------------------------------- speed bounds *)
Lemma scaled_fin s r : scaled s (Fin r) = (Fin (- (s * r)), Fin (s * r)).
Proof. unfold scaled. cbn. f_equal; f_equal; field. Qed.
Lemma scaled_nan s x : is_nan (fst (scaled s x)) || is_nan (snd (scaled s x)) = false.
Proof. destruct x; [rewrite scaled_fin; reflexivity|reflexivity..]. Qed.
Lemma scaled_other s x : (forall r, x <> Fin r) -> scaled s x = (MInf, PInf).
Proof. destruct x; intros H; [exfalso; eapply H; reflexivity|reflexivity..]. Qed.

Definition xle (b : R) (x : xr) : Prop := match x with Fin y => b <= y | PInf => True | _ => False end.
Lemma xmin_le b x y : xle b (xmin x y) <-> xle b x /\ xle b y.
Proof.
  destruct x as [x| | |], y as [y| | |]; cbn; try tauto.
  split; [|intros [? ?]; apply Rmin_glb; assumption].
  intros H. pose proof (Rmin_l x y). pose proof (Rmin_r x y). lra.
Qed.
Lemma fold_xmin_le b l : forall x, xle b (fold_left xmin l x) <-> xle b x /\ Forall (xle b) l.
Proof.
  induction l as [|y l IH]; intros x; cbn.
  - split; [intros; split; [assumption|constructor]|tauto].
  - rewrite IH, xmin_le. split.
    + intros [[? ?] ?]. split; [assumption|constructor; assumption].
    + intros [? F]. inversion F; subst. tauto.
Qed.
Lemma min_coeff_le b l m : min_coeff l = Ok m -> (xle b m <-> Forall (xle b) l).
Proof.
  destruct l as [|x l]; cbn; intros H; [discriminate|]. injection H as <-. rewrite fold_xmin_le.
  split; [intros [? ?]; constructor; assumption|]. intros F; inversion F; subst; tauto.
Qed.
Lemma zip_mul_nth l : forall v i x y, nth_error l i = Some x -> nth_error v i = Some y ->
  nth_error (zip_mul l v) i = Some (xmul x y).
Proof.
  induction l as [|a l IH]; intros [|b v] [|i] x y; cbn; try discriminate.
  - intros H K. injection H as ->. injection K as ->. reflexivity.
  - apply IH.
Qed.
Lemma speed_bound_le bounds v B i lb u vi : speed_bound bounds v = Ok (Fin B) ->
  nth_error bounds i = Some (lb, Fin u) -> nth_error v i = Some vi -> vi <> 0 -> B <= u * / vi.
Proof.
  unfold speed_bound. destruct (length bounds =? length v)%nat; cbn [negb]; [|discriminate].
  intros H Hb Hv Hvi.
  destruct (min_coeff (zip_mul (map snd bounds) (map inv_or_inf v))) as [m1| | |] eqn:E1; try discriminate. cbn [bind] in H.
  destruct (min_coeff (map xneg (zip_mul (map fst bounds) (map inv_or_inf v)))) as [m2| | |] eqn:E2; try discriminate. cbn [bind] in H.
  injection H as H. assert (K : xle B (xmin m1 m2)) by (rewrite H; cbn; lra).
  apply xmin_le in K. destruct K as [K _]. apply (min_coeff_le _ _ _ E1) in K.
  rewrite Forall_forall in K.
  assert (N : nth_error (zip_mul (map snd bounds) (map inv_or_inf v)) i = Some (xmul (Fin u) (Fin (/ vi)))).
  { apply zip_mul_nth.
    - rewrite nth_error_map, Hb. reflexivity.
    - rewrite nth_error_map, Hv. cbn. unfold inv_or_inf. destruct (reqb_spec vi 0); [contradiction|reflexivity]. }
  apply nth_error_In in N. apply K in N. exact N.
Qed.

(* --------------------------------------------------------- the loop *)
Definition moving (p : gpath) : bool := negb (reqb (g_s0 p) (g_s1 p)).
Lemma time_loop_spec order C bounds : forall l out, time_loop order C bounds l = Ok out ->
  map fst out = filter moving l /\
  (forall p a T, In (p, (a, T)) out -> g_s0 p <> g_s1 p /\
    exists B, speed_bound bounds (g_vb p) = Ok (Fin B) /\ 0 < B /\ time_law order C (g_s0 p) (g_s1 p) B = Ok (a, T)).
Proof.
  induction l as [|p l IH]; intros out; cbn [time_loop].
  - intros H. injection H as <-. split; [reflexivity|]. intros ? ? ? [].
  - cbn [filter]. unfold moving at 1. destruct (reqb_spec (g_s0 p) (g_s1 p)) as [E|E]; cbn [negb]; [apply IH|].
    destruct (speed_bound bounds (g_vb p)) as [[B| | |]| | |] eqn:EB; cbn [bind]; try discriminate.
    destruct (rleb_spec B 0) as [|HB]; [discriminate|].
    destruct (time_law order C (g_s0 p) (g_s1 p) B) as [[a T]| | |] eqn:EL; cbn [bind]; try discriminate.
    destruct (time_loop order C bounds l) as [o| | |] eqn:EO; cbn [bind]; try discriminate.
    intros H. injection H as <-. destruct (IH o eq_refl) as [M K]. split.
    + cbn [map fst]. rewrite M. reflexivity.
    + intros q b U [Q|Q]; [|apply K; exact Q]. injection Q as -> -> ->. split; [exact E|].
      exists B. repeat split; try assumption. lra.
Qed.

Lemma nth_error_ex {A} (l : list A) (f : A -> bool) i x : nth_error l i = Some x -> f x = true -> existsb f l = true.
Proof. intros H F. apply existsb_exists. exists x. split; [eapply nth_error_In; exact H|exact F]. Qed.

Lemma optimize_inv safety order C limits l out : optimize safety order C limits l = Ok (Timed out) ->
  ((order <= 1)%nat -> C <= 0) /\
  (forall i r, nth_error limits i = Some (Fin r) -> 0 < safety * r) /\
  time_loop order C (map (scaled safety) limits) l = Ok out.
Proof.
  unfold optimize. destruct (reqb _ 0); [discriminate|].
  destruct ((order <=? 1)%nat && rltb 0 C) eqn:E1; [discriminate|].
  destruct (existsb (fun b => is_nan (fst b) || is_nan (snd b)) _) ; [discriminate|].
  destruct (existsb (fun b => xle0 (snd b)) (map (scaled safety) limits)
    && existsb (fun b => xge0 (fst b)) (map (scaled safety) limits)) eqn:E3; [discriminate|].
  destruct (time_loop _ _ _ _) as [o| | |] eqn:EO; cbn [bind]; try discriminate.
  intros H. injection H as ->. split; [|split; [|reflexivity]].
  - intros L. apply Nat.leb_le in L. rewrite L in E1. cbn in E1. destruct (rltb_spec 0 C); [discriminate|lra].
  - intros i r Hr. destruct (Rlt_dec 0 (safety * r)) as [|N]; [assumption|]. exfalso.
    assert (Hi : nth_error (map (scaled safety) limits) i = Some (Fin (- (safety * r)), Fin (safety * r)))
      by (rewrite nth_error_map, Hr; cbn [option_map]; rewrite scaled_fin; reflexivity).
    rewrite (nth_error_ex _ (fun b => xle0 (snd b)) i _ Hi) in E3
      by (cbn; destruct (rleb_spec (safety * r) 0); [reflexivity|lra]).
    rewrite (nth_error_ex _ (fun b => xge0 (fst b)) i _ Hi) in E3
      by (cbn; destruct (rleb_spec 0 (- (safety * r))); [reflexivity|lra]).
    discriminate.
Qed.

Lemma joint_velocity B dq v u s0 s1 f f1 t q T :
  0 < u -> (v <> 0 -> B <= u * / v) -> 
  (forall s, s0 <= s <= s1 -> derivable_pt_lim q s (dq s) /\ Rabs (dq s) <= v) ->
  derivable_pt_lim f t (f1 t) -> 0 <= f1 t <= B -> 0 <= t <= T -> s0 <= f t <= s1 ->
  exists d, derivable_pt_lim (fun t => q (f t)) t d /\ Rabs d <= u.
Proof.
  intros Hu HB Hq Hf Hf1 Ht Hs. destruct (Hq _ Hs) as [Dq Aq].
  exists (dq (f t) * f1 t). split.
  - change (fun t0 => q (f t0)) with (comp q f). apply derivable_pt_lim_comp; assumption.
  - rewrite Rabs_mult. rewrite (Rabs_right (f1 t)) by lra.
    pose proof (Rabs_pos (dq (f t))) as P0.
    destruct (Req_dec v 0) as [->|N].
    + replace (Rabs (dq (f t))) with 0 by lra. lra.
    + pose proof (HB N) as HB'. assert (V : 0 < v) by lra.
      apply Rle_trans with (v * B); [apply Rmult_le_compat; lra|].
      apply Rle_trans with (v * (u * / v)); [apply Rmult_le_compat_l; lra|]. right. field. lra.
Qed.

(* ------------------------------------------------ it does not fail *)
Lemma min_coeff_fin l i r : nth_error l i = Some (Fin r) -> Forall (fun x => match x with Fin y => 0 < y | PInf => True | _ => False end) l ->
  exists m, min_coeff l = Ok (Fin m) /\ 0 < m.
Proof.
  set (P := fun x => match x with Fin y => 0 < y | PInf => True | _ => False end).
  intros H F. destruct l as [|x l]; [destruct i; discriminate|]. cbn.
  assert (G : forall l x, P x -> Forall P l -> P (fold_left xmin l x) /\
     ((exists y, x = Fin y) \/ (exists y, In (Fin y) l) -> exists m, fold_left xmin l x = Fin m)).
  { clear. induction l as [|y l IH]; intros x Hx F; cbn.
    - split; [exact Hx|]. intros [[y ->]|[y []]]. exists y. reflexivity.
    - inversion F; subst. assert (Pm : P (xmin x y)).
      { destruct x as [a| | |], y as [b| | |]; cbn in *; try tauto. apply Rmin_glb_lt; assumption. }
      destruct (IH (xmin x y) Pm H2) as [K1 K2]. split; [exact K1|]. intros E. apply K2.
      destruct E as [[z ->]|[z [->|Hz]]].
      + left. destruct y as [b| | |]; cbn in *; try tauto; eexists; reflexivity.
      + left. destruct x as [b| | |]; cbn in *; try tauto; eexists; reflexivity.
      + right. exists z. exact Hz. }
  inversion F; subst. destruct (G l x H2 H3) as [K1 K2].
  destruct K2 as [m Hm].
  { destruct i as [|i]; cbn in H; [injection H as ->; left; eexists; reflexivity|].
    right. exists r. eapply nth_error_In. exact H. }
  exists m. rewrite Hm in *. split; [reflexivity|exact K1].
Qed.

Definition good_limit (x : xr) : Prop := match x with Fin r => 0 < r | PInf => True | _ => False end.
Lemma products safety limits v : 0 < safety -> Forall good_limit limits -> Forall (fun x => 0 <= x) v ->
  length limits = length v ->
  map xneg (zip_mul (map fst (map (scaled safety) limits)) (map inv_or_inf v)) =
    zip_mul (map snd (map (scaled safety) limits)) (map inv_or_inf v) /\
  Forall (fun x => match x with Fin y => 0 < y | PInf => True | _ => False end)
    (zip_mul (map snd (map (scaled safety) limits)) (map inv_or_inf v)).
Proof.
  intros Hs. revert v. induction limits as [|x limits IH]; intros [|y v] HL HV HE; cbn in HE; try discriminate; [split; [reflexivity|constructor]|].
  inversion HL; subst. inversion HV; subst. destruct (IH v H2 H4 ltac:(lia)) as [I1 I2].
  cbn [map zip_mul]. rewrite I1.
  assert (E : xneg (xmul (fst (scaled safety x)) (inv_or_inf y)) = xmul (snd (scaled safety x)) (inv_or_inf y) /\
    match xmul (snd (scaled safety x)) (inv_or_inf y) with Fin y => 0 < y | PInf => True | _ => False end).
  { unfold inv_or_inf. destruct x as [r| | |]; cbn in H1; try tauto.
    - rewrite scaled_fin. cbn [fst snd]. pose proof (Rmult_lt_0_compat _ _ Hs H1) as P.
      destruct (reqb_spec y 0) as [->|N].
      + cbn. unfold xsign_inf. destruct (rltb_spec 0 (safety * r)); [|lra].
        destruct (rltb_spec 0 (- (safety * r))); [lra|]. destruct (rltb_spec (- (safety * r)) 0); [split; [reflexivity|exact I]|lra].
      + cbn. split; [f_equal; ring|]. apply Rmult_lt_0_compat; [exact P|]. apply Rinv_0_lt_compat. lra.
    - rewrite scaled_other by discriminate. cbn [fst snd]. destruct (reqb_spec y 0) as [->|N]; cbn; [split; [reflexivity|exact I]|].
      unfold xsign_inf. assert (0 < / y) by (apply Rinv_0_lt_compat; lra).
      destruct (rltb_spec 0 (/ y)); [split; [reflexivity|exact I]|lra]. }
  destruct E as [E1 E2]. rewrite E1. split; [reflexivity|]. constructor; assumption.
Qed.
Lemma speed_bound_ok safety limits v i r : 0 < safety -> Forall good_limit limits -> Forall (fun x => 0 <= x) v ->
  length limits = length v -> nth_error limits i = Some (Fin r) -> nth i v 0 <> 0 ->
  exists B, speed_bound (map (scaled safety) limits) v = Ok (Fin B) /\ 0 < B.
Proof.
  intros Hs HL HV HE Hi Hv. destruct (products safety limits v Hs HL HV HE) as [P1 P2].
  unfold speed_bound. rewrite map_length, HE, Nat.eqb_refl. cbn [negb]. rewrite P1.
  assert (Hn : nth_error v i = Some (nth i v 0)).
  { apply nth_error_nth'. rewrite <- HE. apply nth_error_Some. rewrite Hi. discriminate. }
  assert (Hm : nth_error (zip_mul (map snd (map (scaled safety) limits)) (map inv_or_inf v)) i = Some (Fin (safety * r * / nth i v 0))).
  { assert (Es : nth_error (map snd (map (scaled safety) limits)) i = Some (Fin (safety * r)))
      by (rewrite !nth_error_map, Hi; cbn [option_map]; rewrite scaled_fin; reflexivity).
    assert (Ev : nth_error (map inv_or_inf v) i = Some (Fin (/ nth i v 0))).
    { rewrite nth_error_map, Hn. cbn [option_map]. unfold inv_or_inf. destruct (reqb_spec (nth i v 0) 0); [contradiction|reflexivity]. }
    exact (zip_mul_nth _ _ _ _ _ Es Ev). }
  destruct (min_coeff_fin _ _ _ Hm P2) as [m [Em Pm]].
  rewrite Em. cbn [bind xmin]. exists (Rmin m m). split; [reflexivity|]. apply Rmin_glb_lt; assumption.
Qed.

(* a path has a usable velocity bound *)
Definition usable (limits : list xr) (p : gpath) : Prop :=
  g_s0 p <= g_s1 p /\ length limits = length (g_vb p) /\ Forall (fun x => 0 <= x) (g_vb p) /\
  (g_s0 p < g_s1 p -> exists i r, nth_error limits i = Some (Fin r) /\ nth i (g_vb p) 0 <> 0).
Lemma time_loop_ok safety order C limits : 0 < safety -> (order <= 2)%nat -> Forall good_limit limits ->
  forall l, Forall (usable limits) l -> exists out, time_loop order C (map (scaled safety) limits) l = Ok out.
Proof.
  intros Hs Ho HL. induction l as [|p l IH]; intros F; [exists []; reflexivity|].
  inversion F; subst. destruct (IH H2) as [out Eo]. cbn [time_loop].
  destruct (reqb_spec (g_s0 p) (g_s1 p)) as [E|E]; [exists out; exact Eo|].
  destruct H1 as (U1 & U2 & U3 & U4). destruct (U4 ltac:(lra)) as (i & r & Ui & Uv).
  destruct (speed_bound_ok safety limits (g_vb p) i r Hs HL U3 U2 Ui Uv) as [B [EB PB]].
  rewrite EB. cbn [bind]. destruct (rleb_spec B 0); [lra|].
  destruct (time_law_ok (g_s0 p) (g_s1 p) B ltac:(lra) PB order C Ho) as (a & T & ET & _ & _).
  rewrite ET. cbn [bind]. rewrite Eo. cbn [bind]. eexists. reflexivity.
Qed.
Lemma optimize_ok safety order C limits l : 0 < safety -> (order <= 2)%nat -> ((order <= 1)%nat -> C <= 0) ->
  Forall good_limit limits -> Forall (usable limits) l -> exists r, optimize safety order C limits l = Ok r.
Proof.
  intros Hs Ho HC HL Hl. destruct (time_loop_ok safety order C limits Hs Ho HL l Hl) as [out Eo].
  unfold optimize. destruct (reqb _ 0); [eexists; reflexivity|].
  assert (E1 : ((order <=? 1)%nat && rltb 0 C) = false).
  { destruct (Nat.leb_spec order 1) as [L|L]; [|reflexivity]. specialize (HC L). cbn. destruct (rltb_spec 0 C); [lra|reflexivity]. }
  rewrite E1.
  assert (E2 : existsb (fun b => is_nan (fst b) || is_nan (snd b)) (map (scaled safety) limits) = false).
  { clear. induction limits as [|x l IH]; [reflexivity|]. cbn [map existsb]. rewrite IH, scaled_nan. reflexivity. }
  rewrite E2.
  assert (E3 : existsb (fun b => xle0 (snd b)) (map (scaled safety) limits) = false).
  { clear - Hs HL. induction HL as [|x l Hx HL IH]; [reflexivity|]. cbn [map existsb]. rewrite IH.
    destruct x as [r| | |]; cbn in Hx; try contradiction; [|rewrite scaled_other by discriminate; reflexivity].
    rewrite scaled_fin. cbn. pose proof (Rmult_lt_0_compat _ _ Hs Hx). destruct (rleb_spec (safety * r) 0); [lra|reflexivity]. }
  rewrite E3. cbn [andb]. rewrite Eo. cbn [bind]. eexists. reflexivity.
Qed.
