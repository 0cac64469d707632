(* Proofs of C108: the time law. *)
From Coq Require Import Reals Lra Lia Psatz.
From Verif Require Import Base XReal PolyModel PolySpec PolyProofs PolyProofs2 PolyProps TopModel TopSpec.
Open Scope R_scope.

Lemma rleb_false a b : rleb a b = false <-> b < a.
Proof. unfold rleb. destruct (Rle_dec a b); split; intros; try lra; try discriminate; reflexivity. Qed.

(* ------------------------------------------------------------------ times *)
Lemma times_cons s0 s1 s d0 d1 sd t : times (s0 :: s1 :: s) (d0 :: d1 :: sd) t =
  if rleb ((d0 + d1) * / 2) 0 then UB
  else bind (times (s1 :: s) (d1 :: sd) (t + (s1 - s0) / ((d0 + d1) * / 2)))
         (fun r => Ok (t + (s1 - s0) / ((d0 + d1) * / 2) :: r)).
Proof. reflexivity. Qed.
Lemma times_spec : forall s sd t r, length s = length sd -> times s sd t = Ok r ->
  (s <> [] -> length (t :: r) = length s) /\
  forall k, (S k < length s)%nat ->
    0 < nth k sd 0 + nth (S k) sd 0 /\
    nth (S k) (t :: r) 0 = nth k (t :: r) 0 + (nth (S k) s 0 - nth k s 0) / ((nth k sd 0 + nth (S k) sd 0) * / 2).
Proof.
  induction s as [|s0 s IH]; intros sd t r L E.
  - split; [congruence|]. cbn. lia.
  - destruct sd as [|d0 sd]; [discriminate|]. destruct s as [|s1 s].
    + destruct sd; [|discriminate]. cbn [times] in E. assert (r = []) by congruence. subst r. split; [reflexivity|cbn; lia].
    + destruct sd as [|d1 sd]; [discriminate|]. rewrite times_cons in E.
      destruct (rleb ((d0 + d1) * / 2) 0) eqn:Ea; [discriminate|]. apply rleb_false in Ea.
      set (t' := t + (s1 - s0) / ((d0 + d1) * / 2)) in *.
      destruct (times (s1 :: s) (d1 :: sd) t') as [r'| | |] eqn:E'; try discriminate. cbn [bind] in E. assert (r = t' :: r') by congruence. subst r.
      destruct (IH (d1 :: sd) t' r' ltac:(cbn in L |- *; lia) E') as [I1 I2]. split.
      * intros _. specialize (I1 ltac:(discriminate)). cbn [length] in *. lia.
      * intros [|k] Hk.
        -- cbn [nth]. split; [lra|reflexivity].
        -- cbn [length] in Hk. destruct (I2 k ltac:(cbn [length]; lia)) as [J1 J2].
           cbn [nth] in *. split; assumption.
Qed.
Lemma times_ok : forall s sd t, length s = length sd ->
  (forall k, (S k < length s)%nat -> 0 < nth k sd 0 + nth (S k) sd 0) -> exists r, times s sd t = Ok r.
Proof.
  induction s as [|s0 s IH]; intros sd t L H.
  - eexists; reflexivity.
  - destruct sd as [|d0 sd]; [discriminate|]. destruct s as [|s1 s].
    + destruct sd; [|discriminate]. eexists; reflexivity.
    + destruct sd as [|d1 sd]; [discriminate|]. rewrite times_cons.
      pose proof (H 0%nat ltac:(cbn; lia)) as H0. cbn in H0.
      destruct (rleb ((d0 + d1) * / 2) 0) eqn:Ea.
      { exfalso. unfold rleb in Ea. destruct (Rle_dec ((d0 + d1) * / 2) 0); [lra|discriminate]. }
      destruct (IH (d1 :: sd) (t + (s1 - s0) / ((d0 + d1) * / 2)) ltac:(cbn in L |- *; lia)) as [r Er].
      { intros k Hk. specialize (H (S k) ltac:(cbn [length] in *; lia)). exact H. }
      rewrite Er. cbn [bind]. eexists; reflexivity.
Qed.
Lemma columns_spec : forall t s sd, length t = length s -> length sd = length s ->
  length (columns t s sd) = (length s - 1)%nat /\
  forall k, (S k < length s)%nat ->
    nth k (columns t s sd) [] = column (nth k t 0) (nth (S k) t 0) (nth k s 0) (nth (S k) s 0) (nth k sd 0) (nth (S k) sd 0).
Proof.
  induction t as [|t0 t IH]; intros s sd L1 L2.
  - destruct s; [|discriminate]. split; [reflexivity|cbn; lia].
  - destruct s as [|s0 s]; [discriminate|]. destruct sd as [|d0 sd]; [discriminate|].
    destruct t as [|t1 t].
    + destruct s; [|discriminate]. split; [reflexivity|cbn; lia].
    + destruct s as [|s1 s]; [discriminate|]. destruct sd as [|d1 sd]; [discriminate|].
      destruct (IH (s1 :: s) (d1 :: sd) ltac:(cbn in *; lia) ltac:(cbn in *; lia)) as [I1 I2].
      split.
      * change (S (length (columns (t1 :: t) (s1 :: s) (d1 :: sd))) = (length (s0 :: s1 :: s) - 1)%nat).
        rewrite I1. cbn [length]. lia.
      * intros [|k] Hk; [reflexivity|].
        change (nth (S k) (columns (t0 :: t1 :: t) (s0 :: s1 :: s) (d0 :: d1 :: sd)) [])
          with (nth k (columns (t1 :: t) (s1 :: s) (d1 :: sd)) []).
        rewrite I2 by (cbn [length] in *; lia). reflexivity.
Qed.

(* ------------------------------------------------ one piece of the time law *)
Section Piece.
Variables t0 t1 s0 s1 d0 d1 : R.
Hypothesis Hd : 0 < d0 + d1.
Hypothesis Hs : s0 < s1.
Hypothesis Ht : t1 = t0 + (s1 - s0) / ((d0 + d1) * / 2).
Let dt := t1 - t0.
Lemma dt_eq : dt * (d0 + d1) = 2 * (s1 - s0).
Proof. unfold dt. rewrite Ht. field. lra. Qed.
Lemma dt_pos : 0 < dt.
Proof. pose proof dt_eq. nra. Qed.

Definition pos_in (t : R) : R := s0 + d0 * (t - t0) + (d1 - d0) / (2 * dt) * (t - t0) * (t - t0).
Definition spd_in (t : R) : R := d0 + (d1 - d0) / dt * (t - t0).

Lemma ds_eq : s1 - s0 = dt * (d0 + d1) / 2.
Proof. pose proof dt_eq. lra. Qed.
Lemma column_poly t : poly (column t0 t1 s0 s1 d0 d1) t = pos_in t.
Proof.
  pose proof dt_pos as P. unfold pos_in, column, poly. cbn -[Rplus]. fold dt. rewrite ds_eq.
  field. lra.
Qed.
Lemma column_jac1 t : jac_loop (skipn 1 (column t0 t1 s0 s1 d0 d1)) 1 1 t 1 0 = spd_in t.
Proof.
  pose proof dt_pos as P. unfold spd_in, column. cbn. fold dt. rewrite ds_eq. field. lra.
Qed.
Lemma column_jac2 t : jac_loop (skipn 2 (column t0 t1 s0 s1 d0 d1)) 2 2 t 1 0 = (d1 - d0) / dt.
Proof.
  pose proof dt_pos as P. unfold column. cbn. fold dt. rewrite ds_eq. field. lra.
Qed.

Lemma spd_dt t : spd_in t * dt = d0 * (t1 - t) + d1 * (t - t0).
Proof. pose proof dt_pos as P. unfold spd_in. unfold dt in *. field. lra. Qed.
Hypothesis D0 : 0 <= d0.
Hypothesis D1 : 0 <= d1.
Lemma spd_between t : t0 <= t <= t1 -> Rmin d0 d1 <= spd_in t <= Rmax d0 d1.
Proof.
  intros H. pose proof dt_pos as P. pose proof (spd_dt t) as E.
  pose proof (Rmin_l d0 d1). pose proof (Rmin_r d0 d1). pose proof (Rmax_l d0 d1). pose proof (Rmax_r d0 d1).
  split; apply (Rmult_le_reg_r dt); try exact P; rewrite E; unfold dt; nra.
Qed.
Lemma spd_nonneg t : t0 <= t <= t1 -> 0 <= spd_in t.
Proof. intros H. pose proof (spd_between t H) as [B _]. pose proof (Rmin_glb d0 d1 0 D0 D1). lra. Qed.
Lemma pos_diff t t' : pos_in t' - pos_in t = (t' - t) * (spd_in t + spd_in t') / 2.
Proof. pose proof dt_pos. unfold pos_in, spd_in. field. lra. Qed.
Lemma spd_sum t t' : t0 <= t -> t < t' -> t' <= t1 -> 0 < spd_in t + spd_in t'.
Proof.
  intros A B C. pose proof dt_pos as P. pose proof (spd_dt t) as E. pose proof (spd_dt t') as E'.
  assert (0 < (spd_in t + spd_in t') * dt).
  { rewrite Rmult_plus_distr_r, E, E'. nra. }
  nra.
Qed.
Lemma pos_strict t t' : t0 <= t -> t < t' -> t' <= t1 -> pos_in t < pos_in t'.
Proof. intros A B C. pose proof (pos_diff t t'). pose proof (spd_sum t t' A B C). nra. Qed.
Lemma pos_t0 : pos_in t0 = s0.
Proof. unfold pos_in. ring. Qed.
Lemma pos_t1 : pos_in t1 = s1.
Proof. pose proof dt_pos. pose proof ds_eq. unfold pos_in. fold dt. replace s1 with (s0 + (s1 - s0)) at 1 by ring. rewrite H0. field. lra. Qed.
Lemma spd_t0 : spd_in t0 = d0.
Proof. unfold spd_in. ring. Qed.
Lemma spd_t1 : spd_in t1 = d1.
Proof. pose proof dt_pos. unfold spd_in. fold dt. field. lra. Qed.
Lemma t0_lt : t0 < t1.
Proof. pose proof dt_pos. unfold dt in *. lra. Qed.
Lemma pos_range t : t0 <= t <= t1 -> s0 <= pos_in t <= s1.
Proof.
  intros [A B]. pose proof t0_lt. split.
  - destruct (Req_dec t t0) as [->|N]; [rewrite pos_t0; lra|].
    pose proof (pos_strict t0 t). rewrite pos_t0 in H0. lra.
  - destruct (Req_dec t t1) as [->|N]; [rewrite pos_t1; lra|].
    pose proof (pos_strict t t1). rewrite pos_t1 in H0. lra.
Qed.
Lemma spd_profile t : spd_in t * spd_in t * (s1 - s0) =
  d0 * d0 * (s1 - pos_in t) + d1 * d1 * (pos_in t - s0).
Proof.
  pose proof dt_pos as P. pose proof ds_eq as E. replace (s1 - pos_in t) with ((s1 - s0) - (pos_in t - s0)) by ring.
  rewrite E. unfold pos_in, spd_in. field. lra.
Qed.
Lemma pos_onto a : s0 <= a <= s1 -> exists x, t0 <= x <= t1 /\ pos_in x = a.
Proof.
  intros Ha. pose proof t0_lt as L. pose proof pos_t0 as P0. pose proof pos_t1 as P1.
  destruct (IVT_cor (fun x => pos_in x - a) t0 t1) as (z & Hz & Ez).
  - unfold pos_in. reg.
  - lra.
  - cbv beta. rewrite P0, P1. nra.
  - exists z. split; [exact Hz|lra].
Qed.
End Piece.

(* ------------------------------------------------------------ the whole law *)
Lemma increasing_of_nth : forall l, (forall k, (S k < length l)%nat -> nth k l 0 < nth (S k) l 0) -> increasing l.
Proof.
  induction l as [|a l IH]; intros H; [exact Logic.I|]. destruct l as [|b l]; [exact Logic.I|].
  split.
  - exact (H 0%nat ltac:(cbn; lia)).
  - apply IH. intros k Hk. exact (H (S k) ltac:(cbn [length] in *; lia)).
Qed.

Section Law.
Variables s sd ts : list R.
Hypothesis Ls : length s = length sd.
Hypothesis L2 : (2 <= length s)%nat.
Hypothesis Hinc : forall k, (S k < length s)%nat -> nth k s 0 < nth (S k) s 0.
Hypothesis Hnn : forall k, 0 <= nth k sd 0.
Hypothesis Ht : times s sd 0 = Ok ts.
Let t := 0 :: ts.
Definition law : pwpoly := mkPW (columns t s sd) t false.
Let M := (length s - 1)%nat.

Lemma law_len : length t = length s.
Proof. apply (times_spec s sd 0 ts Ls Ht). intros E. rewrite E in L2. cbn in L2. lia. Qed.
Lemma law_step k : (k < M)%nat -> 0 < nth k sd 0 + nth (S k) sd 0 /\
  nth (S k) t 0 = nth k t 0 + (nth (S k) s 0 - nth k s 0) / ((nth k sd 0 + nth (S k) sd 0) * / 2).
Proof. intros H. apply (times_spec s sd 0 ts Ls Ht). unfold M in H. lia. Qed.
Lemma law_inc k : (k < M)%nat -> nth k t 0 < nth (S k) t 0.
Proof.
  intros H. destruct (law_step k H) as [A B]. refine (t0_lt _ _ _ _ _ _ A _ B). apply Hinc. unfold M in H. lia.
Qed.
Lemma law_wf : well_formed 4 law.
Proof.
  destruct (columns_spec t s sd law_len (eq_sym Ls)) as [C1 C2].
  repeat split.
  - apply increasing_of_nth. cbn [law pw_bp]. rewrite law_len. intros k Hk. apply law_inc. unfold M. lia.
  - cbn [law pw_bp pw_cols]. rewrite C1, law_len. lia.
  - cbn [law pw_cols]. intros E. rewrite E in C1. cbn in C1. lia.
  - lia.
  - cbn [law pw_cols]. apply Forall_forall. intros c Hc. destruct (In_nth _ _ [] Hc) as (k & Hk & <-).
    rewrite C1 in Hk. rewrite C2 by lia. reflexivity.
Qed.
Lemma law_cols : length (pw_cols law) = M.
Proof. apply (columns_spec t s sd law_len (eq_sym Ls)). Qed.

Definition lpos k := pos_in (nth k t 0) (nth (S k) t 0) (nth k s 0) (nth k sd 0) (nth (S k) sd 0).
Definition lspd k := spd_in (nth k t 0) (nth (S k) t 0) (nth k sd 0) (nth (S k) sd 0).
Lemma law_at k x : in_piece law k x ->
  pw_val law x = Ok (lpos k x) /\ pw_jac 4 law x 1 = Ok (lspd k x) /\
  pw_jac 4 law x 2 = Ok ((nth (S k) sd 0 - nth k sd 0) / (nth (S k) t 0 - nth k t 0)).
Proof.
  intros H. pose proof law_wf as W. pose proof (proj1 H) as Hk. rewrite law_cols in Hk.
  destruct (law_step k Hk) as [A B].
  assert (Hs : nth k s 0 < nth (S k) s 0) by (apply Hinc; unfold M in Hk; lia).
  destruct (columns_spec t s sd law_len (eq_sym Ls)) as [C1 C2].
  specialize (C2 k ltac:(unfold M in Hk; lia)).
  destruct (col_in 4 law k W (proj1 H)) as (E & _).
  pose proof (in_piece_find 4 law k x W H) as F. cbn [pw_zero law] in F.
  split; [|split].
  - rewrite (C41_value_is_the_piece_of_its_interval 4 law k x W H). f_equal. unfold piece. cbn [pw_zero pw_cols law].
    rewrite C2. apply column_poly; assumption.
  - unfold pw_jac. cbn [Nat.leb Nat.ltb]. rewrite F. cbn [bind]. rewrite E. cbn [pw_cols law]. rewrite C2. f_equal.
    apply column_jac1; assumption.
  - unfold pw_jac. cbn [Nat.leb Nat.ltb]. rewrite F. cbn [bind]. rewrite E. cbn [pw_cols law]. rewrite C2. f_equal.
    apply column_jac2; assumption.
Qed.

Lemma piece_bounds k x : in_piece law k x -> (k < M)%nat /\ nth k t 0 <= x <= nth (S k) t 0.
Proof.
  intros [H C]. rewrite law_cols in H. split; [exact H|]. cbn [pw_bp law] in C. pose proof (law_inc k H).
  destruct C as [C|[_ ->]]; lra.
Qed.
Lemma s_mono i j : (i <= j)%nat -> (j < length s)%nat -> nth i s 0 <= nth j s 0.
Proof.
  intros Hij. induction Hij as [|m Hm IH]; intros Hj; [lra|]. pose proof (Hinc m Hj). specialize (IH ltac:(lia)). lra.
Qed.
Lemma t_mono i j : (i <= j)%nat -> (j < length s)%nat -> nth i t 0 <= nth j t 0.
Proof.
  intros Hij. induction Hij as [|m Hm IH]; intros Hj; [lra|]. pose proof (law_inc m ltac:(unfold M; lia)). specialize (IH ltac:(lia)). lra.
Qed.
(* everything about an instant of the range *)
Lemma law_total x : 0 <= x <= nth M t 0 -> exists k, in_piece law k x.
Proof.
  intros H. destruct (C41_pieces_cover_the_range 4 law x law_wf) as (k & Hk & _).
  - rewrite law_cols. cbn [pw_bp law nth]. exact H.
  - exists k. exact Hk.
Qed.
(* the grid points are reached at the computed instants *)
Lemma law_node k : (k <= M)%nat -> pw_val law (nth k t 0) = Ok (nth k s 0) /\ pw_jac 4 law (nth k t 0) 1 = Ok (nth k sd 0).
Proof.
  intros Hk. destruct (Nat.eq_dec k M) as [->|N].
  - assert (M0 : (0 < M)%nat) by (unfold M; lia).
    assert (P : in_piece law (M - 1) (nth M t 0)).
    { split; [rewrite law_cols; lia|]. right. rewrite law_cols. cbn [pw_bp law]. replace (S (M - 1)) with M by lia. split; reflexivity. }
    destruct (law_at _ _ P) as (V & J & _). rewrite V, J. unfold lpos, lspd.
    destruct (law_step (M - 1) ltac:(lia)) as [A B]. replace (S (M - 1)) with M in * by lia.
    assert (Hs : nth (M - 1) s 0 < nth M s 0) by (pose proof (Hinc (M - 1) ltac:(unfold M; lia)) as Q; replace (S (M - 1)) with M in Q by lia; exact Q).
    split; f_equal; [eapply pos_t1; eassumption|eapply spd_t1; eassumption].
  - assert (P : in_piece law k (nth k t 0)).
    { split; [rewrite law_cols; lia|]. left. cbn [pw_bp law]. pose proof (law_inc k ltac:(lia)). lra. }
    destruct (law_at _ _ P) as (V & J & _). rewrite V, J. unfold lpos, lspd.
    split; f_equal; [apply pos_t0|apply spd_t0].
Qed.
Lemma law_strict x y a b : 0 <= x -> x < y -> y <= nth M t 0 -> pw_val law x = Ok a -> pw_val law y = Ok b -> a < b.
Proof.
  intros Hx Hxy Hy Ea Eb.
  destruct (law_total x ltac:(lra)) as [i Hi]. destruct (law_total y ltac:(lra)) as [j Hj].
  pose proof (proj1 (law_at _ _ Hi)) as Vx. pose proof (proj1 (law_at _ _ Hj)) as Vy.
  assert (Ea' : a = lpos i x) by congruence. assert (Eb' : b = lpos j y) by congruence. subst a b. clear Ea Eb.
  destruct (piece_bounds _ _ Hi) as [Bi Ri]. destruct (piece_bounds _ _ Hj) as [Bj Rj].
  destruct (law_step i Bi) as [Ai Ti]. destruct (law_step j Bj) as [Aj Tj].
  assert (Si : nth i s 0 < nth (S i) s 0) by (apply Hinc; unfold M in Bi; lia).
  assert (Sj : nth j s 0 < nth (S j) s 0) by (apply Hinc; unfold M in Bj; lia).
  destruct (Nat.lt_trichotomy i j) as [K|[K|K]].
  - assert (U : lpos i x < nth (S i) s 0).
    { destruct Hi as [_ [Ci|[Ci _]]]; [|rewrite law_cols in Ci; lia]. cbn [pw_bp law] in Ci.
      pose proof (pos_t1 _ _ _ _ _ _ Ai Si Ti) as Q. rewrite <- Q. unfold lpos.
      apply (pos_strict _ _ _ _ _ _ Ai Si Ti (Hnn _) (Hnn _)); lra. }
    pose proof (pos_range _ _ _ _ _ _ Aj Sj Tj (Hnn _) (Hnn _) y Rj) as V. fold (lpos j y) in V.
    pose proof (s_mono (S i) j ltac:(lia) ltac:(unfold M in Bj; lia)). lra.
  - subst j. unfold lpos. apply (pos_strict _ _ _ _ _ _ Ai Si Ti (Hnn _) (Hnn _)); lra.
  - exfalso. pose proof (t_mono (S j) i ltac:(lia) ltac:(unfold M in Bi; lia)) as Q.
    destruct (Nat.eq_dec (S j) (length (pw_cols law))) as [E|E]; [rewrite law_cols in E; lia|].
    destruct Hj as [_ [Cj|[Cj _]]]; [|contradiction]. cbn [pw_bp law] in Cj. lra.
Qed.
Lemma law_onto i j a : (i <= j)%nat -> (j <= M)%nat -> nth i s 0 <= a <= nth j s 0 ->
  exists x, nth i t 0 <= x <= nth j t 0 /\ pw_val law x = Ok a.
Proof.
  intros Hij. induction Hij as [|m Hm IH]; intros Hj Ha.
  - exists (nth i t 0). split; [lra|]. rewrite (proj1 (law_node i Hj)). f_equal. lra.
  - pose proof (law_inc m ltac:(lia)) as Lm.
    destruct (Rle_dec a (nth m s 0)) as [K|K].
    + destruct (IH ltac:(lia) ltac:(lra)) as (x & Hx & Ex). exists x. split; [lra|exact Ex].
    + destruct (law_step m ltac:(lia)) as [A B].
      assert (Sm : nth m s 0 < nth (S m) s 0) by (apply Hinc; unfold M in Hj; lia).
      destruct (pos_onto _ _ _ _ _ _ A Sm B a ltac:(lra)) as (x & Hx & Ex).
      pose proof (t_mono i m Hm ltac:(unfold M in Hj; lia)).
      exists x. split; [lra|]. destruct (Req_dec x (nth (S m) t 0)) as [->|N].
      * rewrite (proj1 (law_node (S m) Hj)). f_equal. rewrite <- Ex. symmetry. eapply pos_t1; eassumption.
      * assert (P : in_piece law m x) by (split; [rewrite law_cols; lia|left; cbn [pw_bp law]; fold t; lra]).
        rewrite (proj1 (law_at _ _ P)). f_equal. exact Ex.
Qed.
(* speed at an instant *)
Lemma law_speed x : 0 <= x <= nth M t 0 -> exists a v k, pw_val law x = Ok a /\ pw_jac 4 law x 1 = Ok v /\ 0 <= v /\
  (S k < length s)%nat /\ nth k s 0 <= a <= nth (S k) s 0 /\
  v * v * (nth (S k) s 0 - nth k s 0) =
    nth k sd 0 * nth k sd 0 * (nth (S k) s 0 - a) + nth (S k) sd 0 * nth (S k) sd 0 * (a - nth k s 0).
Proof.
  intros H. destruct (law_total x H) as [k Hk]. destruct (law_at _ _ Hk) as (V & J & _).
  destruct (piece_bounds _ _ Hk) as [B Rk]. destruct (law_step k B) as [A T].
  assert (Si : nth k s 0 < nth (S k) s 0) by (apply Hinc; unfold M in B; lia).
  exists (lpos k x), (lspd k x), k. split; [exact V|split; [exact J|]]. split; [|split; [unfold M in B; lia|split]].
  - apply (spd_nonneg _ _ _ _ _ _ A Si T (Hnn _) (Hnn _)). exact Rk.
  - apply (pos_range _ _ _ _ _ _ A Si T (Hnn _) (Hnn _)). exact Rk.
  - apply (spd_profile _ _ _ _ _ _ A Si T).
Qed.
End Law.
