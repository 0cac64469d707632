(* Proofs about linear constraints and quadratic programs, continued. *)
From Coq Require Import Reals Lra Lia List Arith.
From Verif Require Import Base XReal PolyProofs SplineModel SplineProofs LinConsModel LinConsSpec LinConsProofs.
Import ListNotations.
Open Scope R_scope.

Lemma dot_ext n x y x' y' : same n x x' -> same n y y' -> dot n x y = dot n x' y'.
Proof. intros H1 H2. unfold dot. apply rsum_ext. intros k Hk. rewrite (H1 k Hk), (H2 k Hk). reflexivity. Qed.
Lemma dot_sym n x y : dot n x y = dot n y x.
Proof. unfold dot. apply rsum_ext. intros; ring. Qed.
Lemma dot_plus_l n x y w : dot n (fun k => x k + y k) w = dot n x w + dot n y w.
Proof. unfold dot. rewrite <- rsum_plus. apply rsum_ext. intros; ring. Qed.
Lemma dot_plus_r n x y w : dot n w (fun k => x k + y k) = dot n w x + dot n w y.
Proof. unfold dot. rewrite <- rsum_plus. apply rsum_ext. intros; ring. Qed.
Lemma dot_minus_l n x y w : dot n (fun k => x k - y k) w = dot n x w - dot n y w.
Proof. unfold dot. rewrite <- rsum_minus. apply rsum_ext. intros; ring. Qed.
Lemma dot_minus_r n x y w : dot n w (fun k => x k - y k) = dot n w x - dot n w y.
Proof. unfold dot. rewrite <- rsum_minus. apply rsum_ext. intros; ring. Qed.
Lemma dot_scal_l n c x w : dot n (fun k => c * x k) w = c * dot n x w.
Proof. unfold dot. rewrite <- rsum_scal. apply rsum_ext. intros; ring. Qed.
Lemma dot_scal_r n c x w : dot n w (fun k => c * x k) = c * dot n w x.
Proof. unfold dot. rewrite <- rsum_scal. apply rsum_ext. intros; ring. Qed.
(* x . (A y) = (At x) . y *)
Lemma dot_adj n m A x y : dot n x (mv m A y) = dot m (mv n (mt A) x) y.
Proof.
  unfold dot, mv, mt.
  rewrite (rsum_ext _ (fun k => rsum (fun j => x k * (A k j * y j)) m)) by (intros; rewrite <- rsum_scal; reflexivity).
  rewrite rsum_swap. apply rsum_ext. intros j _. rewrite <- rsum_scal_r. apply rsum_ext. intros; ring.
Qed.
Lemma mv_sym n H x y : symmetric n H -> dot n x (mv n H y) = dot n y (mv n H x).
Proof.
  intro HS. rewrite dot_adj, dot_sym. apply dot_ext; [intros k _; reflexivity|].
  intros k Hk. apply mv_mat_ext. intros j Hj. unfold mt. apply HS; assumption.
Qed.

(* independence and surjectivity *)
Lemma classic_ex n (f : nat -> R) : (exists j, (j < n)%nat /\ f j <> 0) \/ (forall j, (j < n)%nat -> f j = 0).
Proof.
  induction n as [|n [(j & Hj & H)|H]].
  - right. intros; lia.
  - left. exists j. split; [lia|exact H].
  - destruct (Req_EM_T (f n) 0) as [E|E].
    + right. intros j Hj. destruct (Nat.eq_dec j n) as [->|]; [exact E|apply H; lia].
    + left. exists n. split; [lia|exact E].
Qed.
Lemma rsum_e f n j : (j < n)%nat -> rsum (fun k => f k * (if (k =? j)%nat then 1 else 0)) n = f j.
Proof.
  intro Hj. rewrite (rsum_single _ n j Hj).
  - rewrite Nat.eqb_refl. ring.
  - intros p _ Hp. destruct (Nat.eqb_spec p j); [congruence|ring].
Qed.
Lemma indep_dual n J : forall m, independent_rows m n J ->
  exists V : nat -> vec, forall i k, (i < m)%nat -> (k < m)%nat -> mv n J (V i) k = mid k i.
Proof.
  induction m as [|m IH]; intro HI.
  - exists (fun _ _ => 0). intros i k Hi. lia.
  - destruct IH as (V & HV).
    { intros c Hc i Hi.
      pose proof (HI (fun i => if (i <? m)%nat then c i else 0)) as E. cbv beta in E.
      assert (E0 : (if (i <? m)%nat then c i else 0) = 0).
      { apply E; [|lia]. intros j Hj. cbn [rsum]. destruct (Nat.ltb_spec m m); [lia|].
        rewrite (rsum_ext _ (fun i => c i * J i j)); [rewrite (Hc j Hj); ring|].
        intros p Hp. destruct (Nat.ltb_spec p m); [reflexivity|lia]. }
      destruct (Nat.ltb_spec i m); [exact E0|lia]. }
    (* the last row is not a combination of the others *)
    set (t := fun i => mv n J (V i) m).
    destruct (classic_ex n (fun j => J m j - rsum (fun i => t i * J i j) m)) as [(j & Hj & Hne)|Hall].
    + set (d := J m j - rsum (fun i => t i * J i j) m) in *.
      set (w := fun k => (if (k =? j)%nat then 1 else 0) - rsum (fun i => J i j * V i k) m).
      assert (Hw : forall k, (k < m)%nat -> mv n J w k = 0).
      { intros k Hk. unfold w. rewrite mv_minus. unfold mv at 1. rewrite rsum_e by exact Hj.
        unfold mv. rewrite (rsum_ext _ (fun p => rsum (fun i => J i j * (J k p * V i p)) m))
          by (intros; rewrite <- rsum_scal; apply rsum_ext; intros; ring).
        rewrite rsum_swap.
        rewrite (rsum_ext _ (fun i => mid k i * J i j)).
        - rewrite rsum_mid by exact Hk. ring.
        - intros i Hi. rewrite rsum_scal. pose proof (HV i k Hi Hk) as E. unfold mv in E. rewrite E. ring. }
      assert (Hm : mv n J w m = d).
      { unfold w. rewrite mv_minus. unfold mv at 1. rewrite rsum_e by exact Hj. unfold d. f_equal.
        unfold mv. rewrite (rsum_ext _ (fun p => rsum (fun i => J i j * (J m p * V i p)) m))
          by (intros; rewrite <- rsum_scal; apply rsum_ext; intros; ring).
        rewrite rsum_swap. apply rsum_ext. intros i Hi. rewrite rsum_scal. unfold t, mv. ring. }
      exists (fun i => if (i =? m)%nat then (fun k => / d * w k) else (fun k => V i k - t i * (/ d * w k))).
      intros i k Hi Hk. destruct (Nat.eqb_spec i m) as [Ei|Ei].
      * subst i. rewrite mv_scal. destruct (Nat.eq_dec k m) as [->|Hkm].
        -- rewrite Hm. unfold mid. rewrite Nat.eqb_refl. field. exact Hne.
        -- rewrite Hw by lia. unfold mid. destruct (Nat.eqb_spec k m); [congruence|ring].
      * rewrite mv_minus. rewrite (mv_scal n J (t i) (fun k => / d * w k)), mv_scal.
        destruct (Nat.eq_dec k m) as [->|Hkm].
        -- rewrite Hm. fold (t i). unfold mid. destruct (Nat.eqb_spec m i); [congruence|]. field. exact Hne.
        -- rewrite Hw, HV by lia. ring.
    + exfalso.
      pose proof (HI (fun i => if (i =? m)%nat then 1 else - t i)) as E. cbv beta in E.
      assert (E0 : (if (m =? m)%nat then 1 else - t m) = 0).
      { apply E; [|lia]. intros j Hj. cbn [rsum]. rewrite Nat.eqb_refl.
        rewrite (rsum_ext _ (fun i => (-1) * (t i * J i j))).
        - rewrite rsum_scal. pose proof (Hall j Hj). lra.
        - intros p Hp. destruct (Nat.eqb_spec p m); [lia|ring]. }
      rewrite Nat.eqb_refl in E0. lra.
Qed.

Lemma indep_onto m n J b : independent_rows m n J -> exists v, forall k, (k < m)%nat -> mv n J v k = b k.
Proof.
  intro HI. destruct (indep_dual n J m HI) as (V & HV).
  exists (fun p => rsum (fun i => b i * V i p) m). intros k Hk. unfold mv.
  rewrite (rsum_ext _ (fun p => rsum (fun i => b i * (J k p * V i p)) m))
    by (intros; rewrite <- rsum_scal; apply rsum_ext; intros; ring).
  rewrite rsum_swap. rewrite (rsum_ext _ (fun i => mid k i * b i)); [apply rsum_mid; exact Hk|].
  intros i Hi. rewrite rsum_scal. pose proof (HV i k Hi Hk) as E. unfold mv in E. rewrite E. ring.
Qed.

(* what decompose computes *)
Lemma decompose_inv qr check thr c c' ok : exact_qr qr c -> lc_decompose qr check thr c = Ok (c', ok) ->
  lc_rows c' = lc_rows c /\ lc_cols c' = lc_cols c /\ lc_J c' = lc_J c /\ lc_b c' = lc_b c /\
  exists k PK xs, lc_dec c' = Some (k, PK, xs) /\ written c /\
  ((exists x, sat c x) ->
     (forall x, sat c x <-> exists v, same (lc_cols c) x (fun i => xs i + mv k PK v i)) /\
     sat c xs /\ (forall x, sat c x -> sqnorm (lc_cols c) xs <= sqnorm (lc_cols c) x)) /\
  (forall v w, same (lc_cols c) (fun i => xs i + mv k PK v i) (fun i => xs i + mv k PK w i) -> same k v w) /\
  (check = true -> exists b, (forall i, (i < lc_rows c)%nat -> lc_b c i = Some (b i)) /\
     (ok = true <-> forall i, (i < lc_rows c)%nat -> Rabs (mv (lc_cols c) (lc_J c) xs i - b i) <= / 10000000)) /\
  (check = false -> ok = true).
Proof.
  intros HQ. unfold lc_decompose. destruct (Nat.eqb_spec (lc_rows c) 0) as [E0|E0].
  - intros [= <- <-]. cbn [lc_rows lc_cols lc_J lc_b lc_dec]. repeat split; auto.
    exists (lc_cols c), mid, (fun _ => 0).
    split; [reflexivity|]. split; [intros i Hi; lia|]. split; [|split; [|split]].
    + intros _. split; [|split].
      * intro x. split; [|intros _ i Hi; lia]. intros _. exists x. intros i Hi. rewrite mv_mid by exact Hi. ring.
      * intros i Hi. lia.
      * intros x _. unfold sqnorm, dot. rewrite rsum_zero by (intros; ring).
        apply rsum_nonneg. intros k _. pose proof (Rle_0_sqr (x k)). unfold Rsqr in *. lra.
    + intros v w H i Hi. specialize (H i Hi). cbv beta in H. rewrite !mv_mid in H by exact Hi. lra.
    + intros _. exists (fun _ => 0). split; [intros i Hi; lia|]. split; [intros _ i Hi; lia|reflexivity].
    + reflexivity.
  - specialize (HQ E0). set (q := qr (lc_cols c) (lc_rows c) (mt (lc_J c))) in *.
    destruct (read_b c) as [b| | |] eqn:Eb; cbn [bind]; try discriminate.
    pose proof (read_b_inv c b Eb) as Hb.
    set (n := lc_cols c) in *. set (m := lc_rows c) in *. set (J := lc_J c) in *.
    set (xs := mv n (qr_Q q) (fun i => if (i <? qr_rank q)%nat then fsub (qr_R q) (fun j => b (qr_perm q j)) (qr_rank q) i else 0)).
    set (PK := fun i j => qr_Q q i (qr_rank q + j)%nat).
    set (c1 := mkLC m n J (lc_b c) (Some (qr_rank q)) (Some ((n - qr_rank q)%nat, PK, xs))).
    intro H.
    assert (Hc : c' = c1 /\ (check = true -> ok = is_zero m (/ 10000000) (fun i => mv n J xs i - b i)) /\ (check = false -> ok = true)).
    { destruct check.
      - destruct (is_zero m (/ 10000000) (fun i => mv n J xs i - b i)) eqn:Ez.
        + injection H as <- <-. repeat split; congruence.
        + destruct thr; [discriminate|]. injection H as <- <-. repeat split; congruence.
      - injection H as <- <-. repeat split; congruence. }
    destruct Hc as (-> & Hok & Hnc). clear H.
    unfold c1. cbn [lc_rows lc_cols lc_J lc_b lc_dec]. repeat split; auto.
    exists (n - qr_rank q)%nat, PK, xs.
    split; [reflexivity|]. split; [intros i Hi; rewrite (Hb i Hi); discriminate|]. split; [|split; [|split]].
    + intros (x0 & Hx0). pose proof (proj1 (sat_b c x0 b Hb) Hx0) as H0. split; [|split].
      * intro x. rewrite (sat_b c x b Hb). split.
        -- intro Hx. exists (fun j => mv n (mt (qr_Q q)) x (qr_rank q + j)%nat).
           exact (sat_form n m J q HQ b x Hx).
        -- intros (v & Hv) i Hi. rewrite (mv_ext _ _ _ _ i Hv). exact (form_sat n m J q HQ b x0 v H0 i Hi).
      * apply (sat_b c xs b Hb). exact (star_sat n m J q HQ b x0 H0).
      * intros x Hx. apply (star_min n m J q HQ b). apply (sat_b c x b Hb). exact Hx.
    + exact (param_inj n m J q HQ b).
    + intro Hc. exists b. split; [exact Hb|]. rewrite (Hok Hc). apply is_zero_iff.
    + exact Hnc.
Qed.

Lemma decompose_feasible qr check thr c x : exact_qr qr c -> sat c x -> exists c', lc_decompose qr check thr c = Ok (c', true).
Proof.
  intros HQ Hx.
  destruct (lc_decompose qr false thr c) as [[c' ok]| | |] eqn:E.
  - destruct (decompose_inv qr false thr c c' ok HQ E) as (_ & _ & _ & _ & k & PK & xs & Hd & _ & Hsol & _ & _ & _).
    destruct (Hsol (ex_intro _ x Hx)) as (_ & Hxs & _).
    revert E Hd. unfold lc_decompose. destruct (Nat.eqb_spec (lc_rows c) 0) as [E0|E0]; [eauto|].
    destruct (read_b c) as [b| | |] eqn:Eb; cbn [bind]; try discriminate.
    intros [= <- <-]. cbn [lc_dec]. intros [= <- <- <-].
    destruct check; [|eauto].
    match goal with |- context[is_zero ?a ?b ?d] => assert (Ez : is_zero a b d = true) end.
    { apply is_zero_iff. intros i Hi. pose proof (Hxs i Hi) as E1. rewrite (read_b_inv c b Eb i Hi) in E1.
      injection E1 as E1. rewrite E1. rewrite Rminus_diag_eq by reflexivity. rewrite Rabs_R0. lra. }
    rewrite Ez. eauto.
  - exfalso. revert E. unfold lc_decompose. destruct (lc_rows c =? 0)%nat; [discriminate|].
    destruct (read_b_ok c (sat_written c x Hx)) as (b & -> & _). cbn [bind]. discriminate.
  - exfalso. revert E. unfold lc_decompose. destruct (lc_rows c =? 0)%nat; [discriminate|].
    destruct (read_b_ok c (sat_written c x Hx)) as (b & -> & _). cbn [bind]. discriminate.
  - exfalso. revert E. unfold lc_decompose. destruct (lc_rows c =? 0)%nat; [discriminate|].
    destruct (read_b_ok c (sat_written c x Hx)) as (b & -> & _). cbn [bind]. discriminate.
Qed.

(* reduced constraints *)
Lemma mv_sol n k A xs PK v i : mv n A (fun i => xs i + mv k PK v i) i = mv n A xs i + mv k (mm n A PK) v i.
Proof. rewrite mv_plus, mv_mm. reflexivity. Qed.

Lemma reduce_inv lu c lc lcr comp lcr' full : lc_reduce lu c lc lcr comp = Ok (lcr', full) ->
  exists k PK xs, lc_dec c = Some (k, PK, xs) /\ lc_cols lc = lc_cols c /\ lc_rows lcr' = lc_rows lc /\ lc_cols lcr' = k /\
  lc_J lcr' = mm (lc_cols c) (lc_J lc) PK /\
  (forall i, lc_b lcr' i = match lc_b lc i with Some v => Some (v - mv (lc_cols c) (lc_J lc) xs i) | None => None end) /\
  (comp = true -> full = (lc_compute_rank lu lcr' =? Nat.min (lc_rows lc) k)%nat /\ lc_rank lcr' = Some (lc_compute_rank lu lcr')).
Proof.
  unfold lc_reduce. destruct (lc_dec c) as [[[k PK] xs]|]; [|discriminate].
  destruct (Nat.eqb_spec (lc_cols lc) (lc_cols c)) as [Ec|]; [|discriminate].
  intro H. exists k, PK, xs. destruct comp; injection H as <- <-; cbn [lc_rows lc_cols lc_J lc_b lc_rank]; repeat split; auto; try discriminate.
Qed.

Lemma reduce_sat lu c lc lcr comp lcr' full v s : lc_reduce lu c lc lcr comp = Ok (lcr', full) -> lc_solution c v = Ok s ->
  (sat lcr' v <-> sat lc s) /\ (sat_ineq lcr' v <-> sat_ineq lc s).
Proof.
  intros H Hs. destruct (reduce_inv _ _ _ _ _ _ _ H) as (k & PK & xs & Hd & Ec & Er & Ek & EJ & Eb & _).
  unfold lc_solution in Hs. rewrite Hd in Hs. injection Hs as <-.
  assert (E : forall i, mv (lc_cols lc) (lc_J lc) (fun i => xs i + mv k PK v i) i =
                        mv (lc_cols c) (lc_J lc) xs i + mv k (lc_J lcr') v i).
  { intro i. rewrite Ec, EJ. apply mv_sol. }
  unfold sat, sat_ineq. rewrite Er, Ek.
  split; split; intros Hx i Hi; specialize (Hx i Hi); rewrite (Eb i) in *; rewrite (E i) in *;
    destruct (lc_b lc i) as [w|]; try discriminate.
  - injection Hx as Hx. f_equal. lra.
  - injection Hx as Hx. f_equal. lra.
  - destruct Hx as (b & [= <-] & Hx). exists w. split; [reflexivity|lra].
  - destruct Hx as (b & Hx & _). discriminate.
  - destruct Hx as (b & [= <-] & Hx). exists (w - mv (lc_cols c) (lc_J lc) xs i). split; [reflexivity|lra].
  - destruct Hx as (b & Hx & _). discriminate.
Qed.

Lemma mn0 m n : (m * n =? 0)%nat = true -> m = 0%nat \/ n = 0%nat.
Proof. intro H. apply Nat.eqb_eq in H. apply Nat.eq_mul_0. exact H. Qed.

Lemma reduce_full lu c lc lcr lcr' : written lc -> exact_rank lu (lc_rows lcr') (lc_cols lcr') (lc_J lcr') ->
  lc_reduce lu c lc lcr true = Ok (lcr', true) -> (lc_rows lcr' <= lc_cols lcr')%nat -> exists v, sat lcr' v.
Proof.
  intros Hw (_ & Hrk) H Hle. destruct (reduce_inv _ _ _ _ _ _ _ H) as (k & PK & xs & Hd & Ec & Er & Ek & EJ & Eb & Hf).
  destruct (Hf eq_refl) as (Hf' & _). symmetry in Hf'. apply Nat.eqb_eq in Hf'. rewrite <- Er, <- Ek in Hf'.
  rewrite Nat.min_l in Hf' by exact Hle.
  destruct (Nat.eq_dec (lc_rows lcr') 0) as [E0|E0].
  { exists (fun _ => 0). intros i Hi. lia. }
  unfold lc_compute_rank in Hf'. destruct ((lc_rows lcr' * lc_cols lcr' =? 0)%nat) eqn:Ez; [lia|].
  destruct (indep_onto (lc_rows lcr') (lc_cols lcr') (lc_J lcr') (fun i => val (lc_b lcr' i)) (proj1 Hrk Hf')) as (v & Hv).
  exists v. intros i Hi. rewrite (Hv i Hi). rewrite Er in Hi. pose proof (Hw i Hi). rewrite (Eb i) in *.
  destruct (lc_b lc i); [reflexivity|congruence].
Qed.

(* reduced programs *)
Lemma mt_mm n A B i j : mt (mm n A B) i j = mm n (mt B) (mt A) i j.
Proof. unfold mt, mm. apply rsum_ext. intros; ring. Qed.

Lemma reduced_cost q c q' v s : symmetric (qp_n q) (qp_H q) -> (qp_b0 q = true -> forall i, (i < qp_n q)%nat -> qp_b q i = 0) ->
  qp_reduced q c = Ok q' -> lc_solution c v = Ok s ->
  exists x0, lc_solution c (fun _ => 0) = Ok x0 /\
  quad (qp_n q) (qp_H q) (qp_b q) s = quad (qp_n q') (qp_H q') (qp_b q') v + quad (qp_n q) (qp_H q) (qp_b q) x0.
Proof.
  intros HS H0. unfold qp_reduced, lc_solution. destruct (lc_dec c) as [[[k PK] xs]|]; [|discriminate].
  destruct (lc_cols c =? qp_n q)%nat; [|discriminate]. intros [= <-] [= <-]. cbn [qp_n qp_H qp_b].
  eexists. split; [reflexivity|].
  set (n := qp_n q) in *. set (H := qp_H q) in *. set (b := qp_b q) in *. set (y := mv k PK v).
  assert (E0 : forall w, quad n H b (fun i => xs i + mv k PK (fun _ => 0) i) = quad n H b xs + 0 * w).
  { intro w. unfold quad. rewrite Rmult_0_l, Rplus_0_r.
    assert (Es : same n (fun i => xs i + mv k PK (fun _ => 0) i) xs).
    { intros i _. unfold mv. rewrite rsum_zero; [ring|intros; ring]. }
    f_equal.
    - f_equal. apply dot_ext; [exact Es|]. intros i _. apply mv_ext. exact Es.
    - apply dot_ext; [intros i _; reflexivity|exact Es]. }
  rewrite (E0 0). clear E0.
  assert (Eh : dot k v (mv k (mm n (mt PK) (mm n H PK)) v) = dot n y (mv n H y)).
  { rewrite (dot_ext k v _ v (mv n (mt PK) (mv n H y))).
    - rewrite dot_adj. apply dot_ext; [intros i _; reflexivity|intros i _; reflexivity].
    - intros i _; reflexivity.
    - intros i _. rewrite mv_mm. apply mv_ext. intros p _. rewrite mv_mm. reflexivity. }
  assert (Eb : dot k (fun i => mv n (mt (mm n H PK)) xs i + (if qp_b0 q then 0 else mv n (mt PK) b i)) v = dot n xs (mv n H y) + dot n b y).
  { rewrite dot_plus_l. f_equal.
    - rewrite <- dot_adj. apply dot_ext; [intros i _; reflexivity|]. intros i _. apply mv_mm.
    - destruct (qp_b0 q).
      + unfold dot. rewrite !rsum_zero; [reflexivity| |intros; ring]. intros p Hp. rewrite (H0 eq_refl p Hp). ring.
      + unfold y. rewrite dot_adj. reflexivity. }
  unfold quad. rewrite Eh, Eb.
  rewrite (dot_ext n (fun i => xs i + y i) (mv n H (fun i => xs i + y i)) (fun i => xs i + y i) (fun i => mv n H xs i + mv n H y i))
    by (try (intros i _; reflexivity); intros i _; apply mv_plus).
  rewrite dot_plus_l, !dot_plus_r. rewrite (mv_sym n H y xs HS). lra.
Qed.

(* stationary points of a convex quadratic cost *)
Lemma quad_diff n H b x y : symmetric n H ->
  quad n H b y = quad n H b x + dot n (fun i => mv n H x i + b i) (fun i => y i - x i)
                 + / 2 * dot n (fun i => y i - x i) (mv n H (fun i => y i - x i)).
Proof.
  intro HS. unfold quad.
  assert (Hm : dot n (fun i => y i - x i) (mv n H (fun i => y i - x i)) = dot n y (mv n H y) - 2 * dot n y (mv n H x) + dot n x (mv n H x)).
  { rewrite (dot_ext n _ (mv n H (fun i => y i - x i)) (fun i => y i - x i) (fun i => mv n H y i - mv n H x i))
      by (try (intros i _; reflexivity); intros i _; apply mv_minus).
    rewrite dot_minus_l, !dot_minus_r. rewrite (mv_sym n H x y HS). lra. }
  rewrite Hm. rewrite dot_plus_l, !dot_minus_r. rewrite (dot_sym n (mv n H x) y), (dot_sym n (mv n H x) x). lra.
Qed.
Lemma quad_min n H b x : symmetric n H -> psd n H -> (forall i, (i < n)%nat -> mv n H x i = - b i) ->
  forall y, quad n H b x <= quad n H b y.
Proof.
  intros HS HP Hx y. rewrite (quad_diff n H b x y HS).
  assert (E : dot n (fun i => mv n H x i + b i) (fun i => y i - x i) = 0).
  { unfold dot. apply rsum_zero. intros p Hp. rewrite (Hx p Hp). ring. }
  rewrite E. pose proof (HP (fun i => y i - x i)). lra.
Qed.
Lemma quad_min_unique n H b x y : symmetric n H -> pd n H -> (forall i, (i < n)%nat -> mv n H x i = - b i) ->
  quad n H b y <= quad n H b x -> same n y x.
Proof.
  intros HS HP Hx Hle i Hi. rewrite (quad_diff n H b x y HS) in Hle.
  assert (E : dot n (fun i => mv n H x i + b i) (fun i => y i - x i) = 0).
  { unfold dot. apply rsum_zero. intros p Hp. rewrite (Hx p Hp). ring. }
  rewrite E in Hle.
  destruct (Req_EM_T (y i) (x i)) as [|Hn]; [assumption|].
  pose proof (HP (fun i => y i - x i) ltac:(exists i; split; [exact Hi|cbv beta; lra])). lra.
Qed.
Lemma reduced_psd n k H PK : psd n H -> psd k (mm n (mt PK) (mm n H PK)).
Proof.
  intros HP v. pose proof (HP (mv k PK v)) as Hv.
  rewrite (dot_ext k v _ v (mv n (mt PK) (mv n H (mv k PK v)))).
  - rewrite dot_adj. exact Hv.
  - intros i _; reflexivity.
  - intros i _. rewrite mv_mm. apply mv_ext. intros p _. apply mv_mm.
Qed.
Lemma reduced_symmetric n k H PK : symmetric n H -> symmetric k (mm n (mt PK) (mm n H PK)).
Proof.
  intros HS i j _ _. unfold mm, mt.
  rewrite (rsum_ext _ (fun p => rsum (fun r => PK p i * (H p r * PK r j)) n)) by (intros; rewrite <- rsum_scal; reflexivity).
  rewrite rsum_swap. apply rsum_ext. intros p Hp. rewrite <- rsum_scal. apply rsum_ext. intros r Hr. rewrite (HS p r Hp Hr). ring.
Qed.
