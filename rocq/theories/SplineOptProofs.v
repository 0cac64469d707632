(* Proofs about the constraints of the spline optimisers. *)
From Coq Require Import Reals Lra Lia List Arith Bool.
From Verif Require Import Base XReal PolySpec PolyProofs SplineModel SplineSpec SplineProofs SplineProofs2 SplineProofs3
  LinConsModel LinConsSpec LinConsProofs LinConsProofs2 SplineOptModel SplineOptSpec.
Import ListNotations.
Open Scope R_scope.

Lemma rsum_blocks f a b : rsum f (a * b) = rsum (fun i => rsum (fun j => f (i * b + j)%nat) b) a.
Proof.
  induction a as [|a IH]; [reflexivity|].
  replace (S a * b)%nat with (a * b + b)%nat by lia. rewrite rsum_app, IH. reflexivity.
Qed.
Lemma rsum_params n nv ns f :
  rsum f (ns * bsize n nv) = rsum (fun j => rsum (fun i => rsum (fun d => f (pidx n nv j i d)) nv) (S n)) ns.
Proof.
  rewrite rsum_blocks. apply rsum_ext. intros j _. unfold bsize. rewrite rsum_blocks. reflexivity.
Qed.

Lemma bs_pos n nv : (0 < nv)%nat -> (0 < bsize n nv)%nat.
Proof. unfold bsize. intro. apply Nat.mul_pos_pos; lia. Qed.
Lemma in_bs n nv i d : (i <= n)%nat -> (d < nv)%nat -> (i * nv + d < bsize n nv)%nat.
Proof.
  unfold bsize. intros Hi Hd. assert (i * nv <= n * nv)%nat by (apply Nat.mul_le_mono_r; exact Hi).
  replace (S n * nv)%nat with (n * nv + nv)%nat by lia. lia.
Qed.
Lemma div_block b j c : (c < b)%nat -> ((j * b + c) / b = j)%nat.
Proof. intro H. rewrite Nat.div_add_l by lia. rewrite Nat.div_small by exact H. lia. Qed.
Lemma mod_block b j c : (c < b)%nat -> ((j * b + c) mod b = c)%nat.
Proof. intro H. rewrite Nat.add_comm, Nat.mod_add by lia. apply Nat.mod_small, H. Qed.
Lemma pidx_div n nv j i d : (i <= n)%nat -> (d < nv)%nat -> (pidx n nv j i d / bsize n nv = j)%nat.
Proof. intros Hi Hd. unfold pidx. apply div_block. apply in_bs; assumption. Qed.
Lemma pidx_mod n nv j i d : (i <= n)%nat -> (d < nv)%nat -> (pidx n nv j i d mod bsize n nv = i * nv + d)%nat.
Proof. intros Hi Hd. unfold pidx. apply mod_block. apply in_bs; assumption. Qed.
Lemma pidx_inj n nv j i d j' i' d' : (i <= n)%nat -> (d < nv)%nat -> (i' <= n)%nat -> (d' < nv)%nat ->
  pidx n nv j i d = pidx n nv j' i' d' -> j = j' /\ i = i' /\ d = d'.
Proof.
  intros Hi Hd Hi' Hd' E.
  assert (j = j') by (rewrite <- (pidx_div n nv j i d), <- (pidx_div n nv j' i' d') by assumption; rewrite E; reflexivity).
  assert (E1 : (i * nv + d = i' * nv + d')%nat)
    by (rewrite <- (pidx_mod n nv j i d), <- (pidx_mod n nv j' i' d') by assumption; rewrite E; reflexivity).
  assert (i = i') by (rewrite <- (div_block nv i d), <- (div_block nv i' d') by assumption; rewrite E1; reflexivity).
  subst. repeat split. lia.
Qed.
Lemma pidx_lt n nv ns j i d : (j < ns)%nat -> (i <= n)%nat -> (d < nv)%nat -> (pidx n nv j i d < ns * bsize n nv)%nat.
Proof.
  intros Hj Hi Hd. unfold pidx. pose proof (in_bs n nv i d Hi Hd).
  assert (S j * bsize n nv <= ns * bsize n nv)%nat by (apply Nat.mul_le_mono_r; lia). cbn [Nat.mul] in *. lia.
Qed.
Lemma pidx_surj n nv ns c : (0 < nv)%nat -> (c < ns * bsize n nv)%nat ->
  exists j i d, (j < ns)%nat /\ (i <= n)%nat /\ (d < nv)%nat /\ c = pidx n nv j i d.
Proof.
  intros Hnv Hc. pose proof (bs_pos n nv Hnv) as Hb.
  exists (c / bsize n nv)%nat, ((c mod bsize n nv) / nv)%nat, ((c mod bsize n nv) mod nv)%nat.
  pose proof (Nat.mod_upper_bound c (bsize n nv) ltac:(lia)) as Hm.
  split; [apply Nat.div_lt_upper_bound; lia|]. split.
  - apply Nat.lt_succ_r. apply Nat.div_lt_upper_bound; [lia|]. unfold bsize in Hm at 2. lia.
  - split; [apply Nat.mod_upper_bound; lia|]. unfold pidx.
    pose proof (Nat.div_mod (c mod bsize n nv) nv ltac:(lia)). pose proof (Nat.div_mod c (bsize n nv) ltac:(lia)). lia.
Qed.

Lemma params_pidx n nv ss j i d : (i <= n)%nat -> (d < nv)%nat -> params n nv ss (pidx n nv j i d) = sp_par (nth_spline ss j) i d.
Proof.
  intros Hi Hd. unfold params. rewrite pidx_div, pidx_mod by assumption. rewrite div_block, mod_block by assumption. reflexivity.
Qed.

Lemma mapi_length {A B} (f : nat -> A -> B) l : forall j, length (mapi f j l) = length l.
Proof. induction l as [|a t IH]; intro j; cbn [mapi length]; [reflexivity|]. rewrite IH. reflexivity. Qed.
Lemma mapi_nth {A B} (f : nat -> A -> B) l d d' : forall j k, (k < length l)%nat -> nth k (mapi f j l) d' = f (j + k)%nat (nth k l d).
Proof.
  induction l as [|a t IH]; intros j k Hk; cbn [length] in Hk; [lia|].
  destruct k as [|k]; cbn [mapi nth]; [rewrite Nat.add_0_r; reflexivity|].
  rewrite IH by lia. f_equal. lia.
Qed.
Lemma update_length n nv x ss : length (update_splines n nv x ss) = length ss.
Proof. apply mapi_length. Qed.
Lemma update_nth n nv x ss j : (j < length ss)%nat ->
  nth_spline (update_splines n nv x ss) j = set_par (nth_spline ss j) (fun i d => x (pidx n nv j i d)).
Proof. intro H. unfold nth_spline, update_splines. rewrite (mapi_nth _ _ spline0) by exact H. reflexivity. Qed.

(* dot product with the coefficients of one dof of one spline *)
Lemma dot_block n nv ns j r B x : (j < ns)%nat -> (r < nv)%nat ->
  dot (ns * bsize n nv) (block n nv (j * bsize n nv) r B) x = rsum (fun i => B i * x (pidx n nv j i r)) (S n).
Proof.
  intros Hj Hr. unfold dot. rewrite rsum_params. rewrite (rsum_single _ ns j Hj).
  - apply rsum_ext. intros i Hi. rewrite (rsum_single _ nv r Hr).
    + f_equal. unfold block, pidx. pose proof (in_bs n nv i r ltac:(lia) Hr).
      destruct (Nat.leb_spec (j * bsize n nv) (j * bsize n nv + (i * nv + r))); [|lia].
      destruct (Nat.ltb_spec (j * bsize n nv + (i * nv + r)) (j * bsize n nv + bsize n nv)); [|lia]. cbn [andb].
      replace (j * bsize n nv + (i * nv + r) - j * bsize n nv)%nat with (i * nv + r)%nat by lia.
      rewrite mod_block, div_block, Nat.eqb_refl by exact Hr. reflexivity.
    + intros d Hd Hne. unfold block, pidx. pose proof (in_bs n nv i d ltac:(lia) Hd).
      destruct (Nat.leb_spec (j * bsize n nv) (j * bsize n nv + (i * nv + d))); [|lia].
      destruct (Nat.ltb_spec (j * bsize n nv + (i * nv + d)) (j * bsize n nv + bsize n nv)); [|lia]. cbn [andb].
      replace (j * bsize n nv + (i * nv + d) - j * bsize n nv)%nat with (i * nv + d)%nat by lia.
      rewrite mod_block by exact Hd. destruct (Nat.eqb_spec d r); [congruence|ring].
  - intros p Hp Hne. apply rsum_zero. intros i Hi. apply rsum_zero. intros d Hd. unfold block, pidx.
    pose proof (in_bs n nv i d ltac:(lia) Hd).
    assert (Hc : (p * bsize n nv + (i * nv + d) < j * bsize n nv \/ j * bsize n nv + bsize n nv <= p * bsize n nv + (i * nv + d))%nat).
    { destruct (Nat.lt_total p j) as [L|[L|L]]; [left|congruence|right].
      - assert (S p * bsize n nv <= j * bsize n nv)%nat by (apply Nat.mul_le_mono_r; lia). cbn [Nat.mul] in *. lia.
      - assert (S j * bsize n nv <= p * bsize n nv)%nat by (apply Nat.mul_le_mono_r; lia). cbn [Nat.mul] in *. lia. }
    destruct (Nat.leb_spec (j * bsize n nv) (p * bsize n nv + (i * nv + d)));
      destruct (Nat.ltb_spec (p * bsize n nv + (i * nv + d)) (j * bsize n nv + bsize n nv)); cbn [andb]; try ring. lia.
Qed.

Lemma sat_rows N rows x : sat (lc_of_rows N rows) x <-> forall r, In r rows -> dot N (fst r) x = snd r.
Proof.
  unfold sat, lc_of_rows. cbn [lc_rows lc_cols lc_J lc_b]. split.
  - intros H r Hr. destruct (In_nth rows r row0 Hr) as (i & Hi & E). specialize (H i Hi). rewrite E in H. injection H as ->.
    unfold mv, dot. rewrite E. reflexivity.
  - intros H i Hi. f_equal. rewrite <- (H (nth i rows row0) (nth_In rows row0 Hi)). reflexivity.
Qed.
Lemma sat_ineq_rows N rows x : sat_ineq (lc_of_rows N rows) x <-> forall r, In r rows -> snd r <= dot N (fst r) x.
Proof.
  unfold sat_ineq, lc_of_rows. cbn [lc_rows lc_cols lc_J lc_b]. split.
  - intros H r Hr. destruct (In_nth rows r row0 Hr) as (i & Hi & E). destruct (H i Hi) as (b & [= <-] & H1). rewrite E in H1.
    unfold mv in H1. rewrite E in H1. exact H1.
  - intros H i Hi. eexists. split; [reflexivity|]. exact (H (nth i rows row0) (nth_In rows row0 Hi)).
Qed.

Lemma in_selected nv a d : In d (selected nv a) <-> (d < nv)%nat /\ a d = true.
Proof. unfold selected. rewrite filter_In, in_seq. split; intros (H1 & H2); split; try assumption; lia. Qed.

(* combination of the parameters x of spline j *)
Definition comb (n nv j d : nat) (B x : vec) : R := rsum (fun i => B i * x (pidx n nv j i d)) (S n).

Lemma dot_unit N c x : (c < N)%nat -> dot N (fun k => if (k =? c)%nat then 1 else 0) x = x c.
Proof.
  intro H. unfold dot. rewrite (rsum_single _ N c H).
  - rewrite Nat.eqb_refl. ring.
  - intros p _ Hp. destruct (Nat.eqb_spec p c); [congruence|ring].
Qed.

Lemma comb_neg n nv j d B x : rsum (fun i => - B i * x (pidx n nv j i d)) (S n) = - comb n nv j d B x.
Proof. unfold comb. rewrite (rsum_ext _ (fun i => (-1) * (B i * x (pidx n nv j i d)))) by (intros; ring). rewrite rsum_scal. ring. Qed.
Lemma par_neg s r B n : rsum (fun i => sp_par s i r * - B i) (S n) = - rsum (fun i => B i * sp_par s i r) (S n).
Proof. rewrite (rsum_ext _ (fun i => (-1) * (B i * sp_par s i r))) by (intros; ring). rewrite rsum_scal. ring. Qed.
Lemma par_comb n nv ss j r B : (r < nv)%nat -> rsum (fun i => B i * sp_par (nth_spline ss j) i r) (S n) = comb n nv j r B (params n nv ss).
Proof. intro Hr. unfold comb. apply rsum_ext. intros i Hi. rewrite params_pidx by lia. reflexivity. Qed.
Lemma par_comb' n nv ss j r B : (r < nv)%nat -> rsum (fun i => sp_par (nth_spline ss j) i r * B i) (S n) = comb n nv j r B (params n nv ss).
Proof. intro Hr. rewrite <- (par_comb n nv) by exact Hr. apply rsum_ext. intros; ring. Qed.

(* the three kinds of continuity rows *)
Lemma row_start n nv ns ss B cz r x : (0 < ns)%nat -> (r < nv)%nat ->
  let w := continuity_row n nv 0 None (Some (nth_spline ss 0)) (fun _ => 0) B cz r in
  dot (ns * bsize n nv) (fst w) x = snd w <-> comb n nv 0 r B x = (if cz then comb n nv 0 r B (params n nv ss) else 0).
Proof.
  intros Hns Hr w. unfold w, continuity_row. cbn [fst snd].
  rewrite (dot_ext _ _ _ (block n nv (0 * bsize n nv) r B) x) by (intros i _; cbn [Nat.mul]; ring).
  rewrite dot_block by assumption. fold (comb n nv 0 r B x). rewrite (par_comb' n nv) by exact Hr.
  destruct cz; split; intro H; rewrite H; ring.
Qed.
Lemma row_end n nv ns ss j B cz r x : (j < ns)%nat -> (r < nv)%nat ->
  let w := continuity_row n nv (j * bsize n nv) (Some (nth_spline ss j)) None B (fun _ => 0) cz r in
  dot (ns * bsize n nv) (fst w) x = snd w <-> comb n nv j r B x = (if cz then comb n nv j r B (params n nv ss) else 0).
Proof.
  intros Hj Hr w. unfold w, continuity_row. cbn [fst snd].
  rewrite (dot_ext _ _ _ (block n nv (j * bsize n nv) r (fun i => - B i)) x) by (intros i _; ring).
  rewrite dot_block by assumption. rewrite comb_neg, par_neg, (par_comb n nv) by exact Hr.
  destruct cz; split; intro H; lra.
Qed.
Lemma row_meet n nv ns ss j Bl Br cz r x : (S j < ns)%nat -> (r < nv)%nat ->
  let w := continuity_row n nv (j * bsize n nv) (Some (nth_spline ss j)) (Some (nth_spline ss (S j))) Bl Br cz r in
  dot (ns * bsize n nv) (fst w) x = snd w <->
  comb n nv (S j) r Br x - comb n nv j r Bl x =
    (if cz then comb n nv (S j) r Br (params n nv ss) - comb n nv j r Bl (params n nv ss) else 0).
Proof.
  intros Hj Hr w. unfold w, continuity_row. cbn [fst snd].
  replace (j * bsize n nv + bsize n nv)%nat with (S j * bsize n nv)%nat by (cbn [Nat.mul]; lia).
  rewrite dot_plus_l, !dot_block by (assumption || lia). rewrite comb_neg, par_neg, (par_comb n nv), (par_comb' n nv) by exact Hr.
  fold (comb n nv (S j) r Br x). destruct cz; split; intro H; lra.
Qed.

(* all the rows *)
Lemma continuity_sat n nv ss act m x : (0 < length ss)%nat ->
  (forall r, In r (continuity_rows n nv ss act m) -> dot (length ss * bsize n nv) (fst r) x = snd r) <->
  forall k, (k <= m)%nat ->
    let l := (length ss - 1)%nat in
    (forall d, (d < nv)%nat -> act 0%nat d = true ->
       comb n nv 0 d (basis_der (nth_spline ss 0) k 0) x = if (k =? 0)%nat then comb n nv 0 d (basis_der (nth_spline ss 0) k 0) (params n nv ss) else 0) /\
    (forall j d, (S j < length ss)%nat -> (d < nv)%nat -> act j d = true \/ act (S j) d = true ->
       comb n nv (S j) d (basis_der (nth_spline ss (S j)) k 0) x - comb n nv j d (basis_der (nth_spline ss j) k 1) x =
       if (k =? 0)%nat then comb n nv (S j) d (basis_der (nth_spline ss (S j)) k 0) (params n nv ss) - comb n nv j d (basis_der (nth_spline ss j) k 1) (params n nv ss) else 0) /\
    (forall d, (d < nv)%nat -> act l d = true ->
       comb n nv l d (basis_der (nth_spline ss l) k 1) x = if (k =? 0)%nat then comb n nv l d (basis_der (nth_spline ss l) k 1) (params n nv ss) else 0).
Proof.
  intro Hl. unfold continuity_rows. split.
  - intros H k Hk. cbv zeta. set (l := (length ss - 1)%nat) in *.
    assert (Hin : forall r, (In r (map (continuity_row n nv 0 None (Some (nth_spline ss 0)) (fun _ => 0) (basis_der (nth_spline ss 0) k 0) (k =? 0)%nat) (selected nv (act 0%nat)))
       \/ In r (flat_map (fun j =>
         map (continuity_row n nv (j * bsize n nv) (Some (nth_spline ss j)) (Some (nth_spline ss (S j)))
                (basis_der (nth_spline ss j) k 1) (basis_der (nth_spline ss (S j)) k 0) (k =? 0)%nat)
             (selected nv (fun d => act j d || act (S j) d)%bool)) (seq 0 l))
       \/ In r (map (continuity_row n nv (l * bsize n nv) (Some (nth_spline ss l)) None
              (basis_der (nth_spline ss l) k 1) (fun _ => 0) (k =? 0)%nat) (selected nv (act l)))) -> dot (length ss * bsize n nv) (fst r) x = snd r).
    { intros r Hr. apply H. apply in_flat_map. exists k. split; [apply in_seq; lia|]. rewrite !in_app_iff. exact Hr. }
    split; [|split].
    + intros d Hd Ha. apply (row_start n nv (length ss) ss); [exact Hl|exact Hd|].
      apply Hin. left. apply in_map. apply in_selected. split; assumption.
    + intros j d Hj Hd Ha. apply (row_meet n nv (length ss) ss); [exact Hj|exact Hd|].
      apply Hin. right. left. apply in_flat_map. exists j. split; [apply in_seq; unfold l; lia|].
      apply in_map. apply in_selected. split; [exact Hd|]. apply orb_true_iff. exact Ha.
    + intros d Hd Ha. apply (row_end n nv (length ss) ss); [unfold l; lia|exact Hd|].
      apply Hin. right. right. apply in_map. apply in_selected. split; assumption.
  - intros H r Hr. apply in_flat_map in Hr. destruct Hr as (k & Hk & Hr). apply in_seq in Hk.
    destruct (H k ltac:(lia)) as (H1 & H2 & H3). rewrite !in_app_iff in Hr. destruct Hr as [Hr|[Hr|Hr]].
    + apply in_map_iff in Hr. destruct Hr as (d & <- & Hd). apply in_selected in Hd. destruct Hd as (Hd & Ha).
      apply row_start; [exact Hl|exact Hd|]. apply H1; assumption.
    + apply in_flat_map in Hr. destruct Hr as (j & Hj & Hr). apply in_seq in Hj.
      apply in_map_iff in Hr. destruct Hr as (d & <- & Hd). apply in_selected in Hd. destruct Hd as (Hd & Ha).
      apply row_meet; [lia|exact Hd|]. apply H2; [lia|exact Hd|]. apply orb_true_iff. exact Ha.
    + apply in_map_iff in Hr. destruct Hr as (d & <- & Hd). apply in_selected in Hd. destruct Hd as (Hd & Ha).
      apply row_end; [lia|exact Hd|]. apply H3; assumption.
Qed.

Lemma problem_sat n nv ss act x :
  (forall r, In r (problem_rows n nv ss act) -> dot (length ss * bsize n nv) (fst r) x = snd r) <->
  forall j i d, (j < length ss)%nat -> (i <= n)%nat -> (d < nv)%nat -> act j d = false ->
    x (pidx n nv j i d) = sp_par (nth_spline ss j) i d.
Proof.
  unfold problem_rows. split.
  - intros H j i d Hj Hi Hd Ha.
    rewrite <- (dot_unit (length ss * bsize n nv) (pidx n nv j i d) x) by (apply pidx_lt; assumption).
    apply (H ((fun c => if (c =? pidx n nv j i d)%nat then 1 else 0), sp_par (nth_spline ss j) i d)).
    apply in_flat_map. exists j. split; [apply in_seq; lia|]. apply in_flat_map. exists i. split; [apply in_seq; lia|].
    apply in_map_iff. exists d. split; [reflexivity|]. apply in_selected. split; [exact Hd|]. rewrite Ha. reflexivity.
  - intros H r Hr. apply in_flat_map in Hr. destruct Hr as (j & Hj & Hr). apply in_seq in Hj.
    apply in_flat_map in Hr. destruct Hr as (i & Hi & Hr). apply in_seq in Hi.
    apply in_map_iff in Hr. destruct Hr as (d & <- & Hd). apply in_selected in Hd. destruct Hd as (Hd & Ha). cbn [fst snd].
    rewrite dot_unit by (apply pidx_lt; lia). apply H; try lia. destruct (act j d); [discriminate|reflexivity].
Qed.
