(* C40, C41, C58, C59: time parameterizations. *)
From Coq Require Import Reals Lra Lia.
From Verif Require Import Base XReal PolyModel PolySpec PolyProofs PolyProofs2.
Open Scope R_scope.

(* ================================================================= C41 *)
(* b i : i-th breakpoint; the piece i is evaluated at t, or at t - b i when
   the polynomials start at zero. *)
Definition piece (p : pwpoly) (i : nat) : R -> R :=
  fun t => poly (nth i (pw_cols p) []) (if pw_zero p then t - nth i (pw_bp p) 0 else t).
Definition well_formed (rows : nat) (p : pwpoly) : Prop :=
  increasing (pw_bp p) /\ length (pw_bp p) = S (length (pw_cols p)) /\ pw_cols p <> [] /\
  (0 < rows)%nat /\ Forall (fun c => length c = rows) (pw_cols p).

Lemma col_in rows p i : well_formed rows p -> (i < length (pw_cols p))%nat ->
  nth_error (pw_cols p) i = Some (nth i (pw_cols p) []) /\ length (nth i (pw_cols p) []) = rows /\ nth i (pw_cols p) [] <> [].
Proof.
  intros (_ & _ & _ & Hr & F) Hi. pose proof (nth_error_nth' (pw_cols p) [] Hi) as E. split; [exact E|].
  rewrite Forall_forall in F. pose proof (F _ (nth_error_In _ _ E)) as L. split; [exact L|].
  intros Z. rewrite Z in L. cbn in L. lia.
Qed.

(* the piece used at time t: the interval containing t, the last one at the
   final breakpoint *)
Definition in_piece (p : pwpoly) (i : nat) (t : R) : Prop :=
  (i < length (pw_cols p))%nat /\
  (nth i (pw_bp p) 0 <= t < nth (S i) (pw_bp p) 0 \/
   S i = length (pw_cols p) /\ t = nth (S i) (pw_bp p) 0).

Lemma in_piece_find rows p i t : well_formed rows p -> in_piece p i t ->
  pw_find p t = Ok (i, if pw_zero p then t - nth i (pw_bp p) 0 else t).
Proof.
  intros (S1 & S2 & S3 & _) [Hi [Ht|[El ->]]].
  - apply find_inside; assumption.
  - rewrite El. rewrite find_end by assumption. replace (length (pw_cols p) - 1)%nat with i by lia. reflexivity.
Qed.

Theorem C41_value_is_the_piece_of_its_interval rows p i t :
  well_formed rows p -> in_piece p i t -> pw_val p t = Ok (piece p i t).
Proof.
  intros W Hp. unfold pw_val. rewrite (in_piece_find rows p i t W Hp). cbn [bind].
  destruct (col_in rows p i W (proj1 Hp)) as (E & _ & N). rewrite E. apply pval_poly. exact N.
Qed.

Theorem C41_derivative_is_the_derivative_of_the_piece rows p i t k :
  well_formed rows p -> (rows <= 10)%nat -> in_piece p i t ->
  exists g, nth_derivative k (piece p i) g /\ pw_jac rows p t k = Ok (g t).
Proof.
  intros W R Hp. destruct (col_in rows p i W (proj1 Hp)) as (E & L & N).
  set (a := nth i (pw_cols p) []) in *.
  exists (fun t => poly (pders k a) (if pw_zero p then t - nth i (pw_bp p) 0 else t)). split.
  - unfold piece. fold a. destruct (pw_zero p).
    + apply (nth_derivative_shift k (poly a) (poly (pders k a))). apply pders_nth.
    + apply pders_nth.
  - pose proof (jac_poly a k (if pw_zero p then t - nth i (pw_bp p) 0 else t)) as J.
    unfold jac in J. unfold pw_jac. rewrite L in J.
    destruct (rows <=? k)%nat eqn:Ek; [apply J; left; lia|].
    destruct (10 <? rows)%nat eqn:Er; [apply Nat.ltb_lt in Er; lia|].
    rewrite (in_piece_find rows p i t W Hp). cbn [bind]. rewrite E. apply J. left. lia.
Qed.

Theorem C41_outside_throws rows p t k :
  well_formed rows p ->
  t < nth 0 (pw_bp p) 0 \/ nth (length (pw_cols p)) (pw_bp p) 0 < t ->
  pw_val p t = Throw /\ ((k < rows)%nat -> pw_jac rows p t k = Throw).
Proof.
  intros (S1 & S2 & S3 & _) Ht. pose proof (find_outside p S1 S2 S3 t Ht) as F. split.
  - unfold pw_val. rewrite F. reflexivity.
  - intros Hk. unfold pw_jac. destruct (Nat.leb_spec rows k); [lia|]. destruct (10 <? rows)%nat; [reflexivity|].
    rewrite F. reflexivity.
Qed.

(* every instant of the range belongs to exactly one piece *)
Theorem C41_pieces_cover_the_range rows p t :
  well_formed rows p -> nth 0 (pw_bp p) 0 <= t <= nth (length (pw_cols p)) (pw_bp p) 0 ->
  exists i, in_piece p i t /\ forall j, in_piece p j t -> j = i.
Proof.
  intros W Ht. destruct W as (S1 & S2 & S3 & _).
  assert (G : forall m, (m <= length (pw_cols p))%nat -> nth m (pw_bp p) 0 <= t \/
              exists i, (i < m)%nat /\ nth i (pw_bp p) 0 <= t < nth (S i) (pw_bp p) 0).
  { induction m as [|m IH]; intros Hm; [left; lra|].
    destruct (IH ltac:(lia)) as [L|(i & Hi & Li)]; [|right; exists i; split; [lia|exact Li]].
    destruct (Rle_dec (nth (S m) (pw_bp p) 0) t); [left; assumption|right; exists m; split; [lia|lra]]. }
  assert (N0 : (0 < length (pw_cols p))%nat) by (destruct (pw_cols p); [congruence|cbn; lia]).
  assert (Q : exists i, in_piece p i t).
  { destruct (G (length (pw_cols p)) ltac:(lia)) as [L|(i & Hi & Li)].
    - exists (length (pw_cols p) - 1)%nat. split; [lia|]. right.
      replace (S (length (pw_cols p) - 1)) with (length (pw_cols p)) by lia. split; [reflexivity|lra].
    - exists i. split; [exact Hi|]. left. exact Li. }
  destruct Q as [i Hi]. exists i. split; [exact Hi|]. intros j Hj.
  assert (A : forall x y, in_piece p x t -> in_piece p y t -> (x < y)%nat -> False).
  { intros x y [Hx Cx] [Hy Cy] Hxy.
    assert (B1 : t < nth (S x) (pw_bp p) 0) by (destruct Cx as [Cx|[Cx _]]; [lra|lia]).
    assert (B2 : nth y (pw_bp p) 0 <= t).
    { destruct Cy as [Cy|[_ Cy]]; [lra|]. pose proof (increasing_nth _ S1 y (S y) ltac:(lia)). lra. }
    destruct (Nat.eq_dec (S x) y) as [<-|]; [lra|].
    pose proof (increasing_nth _ S1 (S x) y ltac:(lia)). lra. }
  destruct (Nat.lt_trichotomy i j) as [K|[K|K]]; [exfalso; eapply A; [exact Hi|exact Hj|exact K]|lia|exfalso; eapply A; [exact Hj|exact Hi|exact K]].
Qed.

Definition pw_ex := mkPW [[0; 1]; [1; 2]] [0; 1; 3] true.
Example C41_ex_wf : well_formed 2 pw_ex.
Proof. repeat split; cbn; try lra; try lia; try discriminate. repeat constructor. Qed.
Example C41_ex_val : pw_val pw_ex 2 = Ok 3 /\ pw_val pw_ex 3 = Ok 5 /\ pw_val pw_ex 4 = Throw.
Proof.
  pose proof C41_ex_wf as W. repeat split.
  - rewrite (C41_value_is_the_piece_of_its_interval 2 pw_ex 1 2 W) by (split; [cbn; lia|left; cbn; lra]).
    unfold piece. cbn. f_equal. ring.
  - rewrite (C41_value_is_the_piece_of_its_interval 2 pw_ex 1 3 W) by (split; [cbn; lia|right; cbn; split; [reflexivity|lra]]).
    unfold piece. cbn. f_equal. ring.
  - apply (C41_outside_throws 2 pw_ex 4 0 W). right. cbn. lra.
Qed.

(* ================================================================= C40 *)
(* coordinate i of the path p follows a curve whose derivative is at most the
   bound given by velocityBound *)
Definition bounded_coordinate (p : gpath) (i : nat) : Prop :=
  exists dq v, nth_error (g_vb p) i = Some v /\
    forall s, g_s0 p <= s <= g_s1 p -> derivable_pt_lim (g_q p i) s (dq s) /\ Rabs (dq s) <= v.

Theorem C40_time_laws_respect_bounds safety order maxAcc limits l out :
  optimize safety order maxAcc limits l = Ok (Timed out) ->
  Forall (fun p => g_s0 p <= g_s1 p) l ->
  (* same geometric paths, in the same order, those of zero length dropped *)
  map fst out = filter (fun p => negb (reqb (g_s0 p) (g_s1 p))) l /\
  forall p a T, In (p, (a, T)) out ->
    (forall t, pval a t = Ok (poly a t)) /\
    (exists B, 0 < B /\ good_law order B maxAcc (g_s0 p) (g_s1 p) T (poly a)) /\
    (* joint velocities stay within the scaled limits *)
    (forall i lim, nth_error limits i = Some (Fin lim) -> bounded_coordinate p i ->
       forall t, 0 <= t <= T ->
         exists d, derivable_pt_lim (fun t => g_q p i (poly a t)) t d /\ Rabs d <= safety * lim).
Proof.
  intros H Hl. destruct (optimize_inv _ _ _ _ _ _ H) as (HC & HP & HL).
  destruct (time_loop_spec _ _ _ _ _ HL) as [M K]. split; [exact M|].
  intros p a T Hin. destruct (K p a T Hin) as (Ne & B & EB & PB & ET).
  assert (Hp : g_s0 p < g_s1 p).
  { rewrite Forall_forall in Hl. assert (I : In p (map fst out)) by (apply in_map_iff; exists (p, (a, T)); auto).
    rewrite M in I. apply filter_In in I. pose proof (Hl p (proj1 I)). lra. }
  assert (Ho : (order <= 2)%nat).
  { destruct order as [|[|[|o]]]; [lia|lia|lia|]. cbn in ET. discriminate. }
  destruct (time_law_ok _ _ _ Hp PB order maxAcc Ho) as (a' & T' & E' & N & G).
  rewrite E' in ET. injection ET as -> ->. split; [|split].
  - intros t. apply pval_poly. exact N.
  - exists B. auto.
  - intros i lim Hi (dq & v & Hv & Hq) t Ht. destruct (gl_der _ _ _ _ _ _ _ G) as (f1 & f2 & D1 & _ & Bd & _).
    apply (joint_velocity B dq v (safety * lim) (g_s0 p) (g_s1 p) (poly a) f1 t (g_q p i) T).
    + eapply HP. exact Hi.
    + intros Nv. eapply speed_bound_le; [exact EB| |exact Hv|exact Nv].
      rewrite nth_error_map, Hi. cbn [option_map]. rewrite scaled_fin. reflexivity.
    + exact Hq.
    + apply D1.
    + apply Bd. exact Ht.
    + exact Ht.
    + pose proof (gl_init _ _ _ _ _ _ _ G). pose proof (gl_end _ _ _ _ _ _ _ G). pose proof (gl_incr _ _ _ _ _ _ _ G) as Inc.
      split.
      * destruct (Req_dec t 0) as [->|]; [lra|]. pose proof (Inc 0 t ltac:(lra) ltac:(lra) ltac:(lra)). lra.
      * destruct (Req_dec t T) as [->|]; [lra|]. pose proof (Inc t T ltac:(lra) ltac:(lra) ltac:(lra)). lra.
Qed.

(* With bounded velocities and no extra degree of freedom it does not fail. *)
Theorem C40_always_succeeds safety order maxAcc limits l :
  0 < safety -> (order <= 2)%nat -> ((order <= 1)%nat -> maxAcc <= 0) ->
  Forall (fun x => match x with Fin r => 0 < r | PInf => True | _ => False end) limits ->
  Forall (fun p => g_s0 p <= g_s1 p /\ length limits = length (g_vb p) /\ Forall (fun x => 0 <= x) (g_vb p) /\
    (g_s0 p < g_s1 p -> exists i r, nth_error limits i = Some (Fin r) /\ nth i (g_vb p) 0 <> 0)) l ->
  exists r, optimize safety order maxAcc limits l = Ok r.
Proof. exact (optimize_ok safety order maxAcc limits l). Qed.

(* With extra degrees of freedom (the velocity has more coordinates than the
   robot model has velocity limits) the first path that moves makes the
   program combine vectors of different sizes. *)
Theorem C40_extra_degrees_of_freedom_refuted safety order maxAcc limits p l :
  0 < safety -> (order <= 2)%nat -> ((order <= 1)%nat -> maxAcc <= 0) ->
  Forall (fun x => match x with Fin r => 0 < r | PInf => True | _ => False end) limits ->
  fold_right (fun p s => g_len p + s) 0 (p :: l) <> 0 ->
  g_s0 p < g_s1 p -> (length limits < length (g_vb p))%nat ->
  optimize safety order maxAcc limits (p :: l) = UB.
Proof.
  intros Hs Ho HC HL Hlen Hp Hx. destruct (optimize_ok safety order maxAcc limits [] Hs Ho HC HL ltac:(constructor)) as [r E].
  unfold optimize in *. destruct (reqb_spec (fold_right (fun p s => g_len p + s) 0 (p :: l)) 0); [contradiction|].
  destruct ((order <=? 1)%nat && rltb 0 maxAcc) eqn:E1.
  { exfalso. apply andb_true_iff in E1. destruct E1 as [E1 E2]. apply Nat.leb_le in E1. specialize (HC E1). destruct (rltb_spec 0 maxAcc); [lra|discriminate]. }
  assert (E2 : existsb (fun b => is_nan (fst b) || is_nan (snd b)) (map (scaled safety) limits) = false).
  { clear. induction limits as [|x l IH]; [reflexivity|]. cbn [map existsb]. rewrite IH, scaled_nan. reflexivity. }
  rewrite E2.
  assert (E3 : existsb (fun b => xle0 (snd b)) (map (scaled safety) limits) = false).
  { clear - Hs HL. induction HL as [|x l Hx HL IH]; [reflexivity|]. cbn [map existsb]. rewrite IH.
    destruct x as [r| | |]; cbn in Hx; try contradiction; [|rewrite scaled_other by discriminate; reflexivity].
    rewrite scaled_fin. cbn. pose proof (Rmult_lt_0_compat _ _ Hs Hx). destruct (rleb_spec (safety * r) 0); [lra|reflexivity]. }
  rewrite E3. cbn [andb time_loop]. destruct (reqb_spec (g_s0 p) (g_s1 p)); [lra|].
  unfold speed_bound. rewrite map_length. destruct (Nat.eqb_spec (length limits) (length (g_vb p))); [lia|]. reflexivity.
Qed.

Definition gp_ex := mkGP 0 1 (fun _ s => 10 * s) [10] 1.
Example C40_ex : exists out, optimize 1 2 1 [Fin 100] [gp_ex] = Ok (Timed out) /\ length out = 1%nat /\ bounded_coordinate gp_ex 0.
Proof.
  destruct (C40_always_succeeds 1 2 1 [Fin 100] [gp_ex]) as [r E]; [lra|lia|lia|repeat constructor; lra| |].
  { constructor; [|constructor]. cbn. repeat split; [lra|repeat constructor; lra|]. intros _. exists 0%nat, 100. cbn. split; [reflexivity|lra]. }
  destruct r as [|out].
  - exfalso. unfold optimize in E. destruct (reqb_spec (fold_right (fun p s => g_len p + s) 0 [gp_ex]) 0) as [Z|Z]; [cbn in Z; lra|].
    destruct (_ && _); [discriminate|]. destruct (existsb _ _); [discriminate|]. destruct (_ && _); [discriminate|].
    destruct (time_loop _ _ _ _); discriminate.
  - exists out. split; [exact E|]. split.
    + destruct (C40_time_laws_respect_bounds _ _ _ _ _ _ E) as [M _]; [repeat constructor; cbn; lra|].
      rewrite <- (map_length fst), M. cbn. destruct (reqb_spec 0 1); [lra|reflexivity].
    + exists (fun _ => 10), 10. split; [reflexivity|]. intros s _. split; [|rewrite Rabs_right; lra].
      pose proof (derivable_pt_lim_scal id 10 s 1 (derivable_pt_lim_id s)) as K. rewrite Rmult_1_r in K. exact K.
Qed.
Example C40_extra_ex : optimize 1 0 (-1) [Fin 1] [mkGP 0 1 (fun _ s => s) [1; 1] 1] = UB.
Proof. apply C40_extra_degrees_of_freedom_refuted; cbn; try lra; try lia. repeat constructor; lra. Qed.

(* ================================================================= C58 *)
(* The velocity bound of a path with a polynomial time law on [0,T] bounds
   the velocity, when the law has at most 3 coefficients, or 4 and its
   derivative has no vertex inside the interval. *)
Definition vertex_outside (a : list R) (t0 t1 : R) : Prop :=
  match a with
  | [_; _; a2; a3] => a3 = 0 \/ - a2 / (3 * a3) <= t0 \/ t1 <= - a2 / (3 * a3)
  | _ => True
  end.
Theorem C58_velocity_bound_partial vb a T t0 t1 bs q dq i :
  velocity_bound vb a T t0 t1 = Ok bs -> vertex_outside a t0 t1 ->
  0 <= t0 -> t1 <= T ->
  (* the time law is monotone on the interval *)
  (forall t, t0 <= t <= t1 -> poly a t0 <= poly a t <= poly a t1) ->
  (* vb bounds the derivative of coordinate i of the curve *)
  (forall s0 s1 s, s0 <= s <= s1 -> derivable_pt_lim q s (dq s) /\ Rabs (dq s) <= nth i (vb s0 s1) 0) ->
  (forall s0 s1, (i < length (vb s0 s1))%nat) ->
  forall t, t0 <= t <= t1 ->
    exists d, derivable_pt_lim (fun t => q (poly a t)) t d /\ Rabs d <= nth i bs 0.
Proof.
  intros H Hv H0 H1 Hm Hq Hlen t Ht. unfold velocity_bound in H.
  rewrite (Rmax_left t0 0) in H by lra. rewrite (Rmin_left t1 T) in H by lra.
  assert (Na : a <> []) by (intros ->; discriminate).
  rewrite !pval_poly in H by exact Na. cbn [bind] in H.
  destruct (deriv_bound a t0 t1) as [m| | |] eqn:Em; cbn [bind] in H; try discriminate. injection H as <-.
  assert (Bd : Rabs (poly (pder a) t) <= m).
  { destruct a as [|a0 [|a1 [|a2 [|a3 [|a4 a]]]]]; try discriminate.
    - eapply deriv_bound_2. exact Em.
    - eapply deriv_bound_3; [exact Em|exact Ht].
    - eapply deriv_bound_4; [exact Em|exact Ht|exact Hv]. }
  pose proof (Hm t Ht) as Hs. destruct (Hq _ _ _ Hs) as [D A].
  exists (dq (poly a t) * poly (pder a) t). split.
  - change (fun t => q (poly a t)) with (comp q (poly a)). apply derivable_pt_lim_comp; [apply poly_derivable|exact D].
  - rewrite (nth_indep _ 0 (0 * m)) by (rewrite map_length; apply Hlen).
    rewrite (map_nth (fun v => v * m)), Rabs_mult. apply Rmult_le_compat; try apply Rabs_pos; assumption.
Qed.

(* The third order law computed by the optimizer for the path q(s) = s on
   [0,1] with speed bound 1: the claimed bound of the velocity on the whole
   duration is 64/243, the velocity in the middle is 1. *)
Theorem C58_velocity_bound_refuted : exists a T bs,
  time_law 1 (-1) 0 1 1 = Ok (a, T) /\
  velocity_bound (fun _ _ => [1]) a T 0 T = Ok bs /\
  bs = [64 / 243] /\
  derivable_pt_lim (fun t => poly a t) (T / 2) 1.
Proof.
  destruct (time_law_ok 0 1 1 ltac:(lra) ltac:(lra) 1 (-1) ltac:(lia)) as (a & T & E & N & G).
  assert (S : a = [0; 0; A2 0 1 1; A3 0 1 1] /\ T = T3 0 1 1).
  { unfold time_law in E. rewrite (third_ok 0 1 1) in E by lra. cbn [bind] in E.
    destruct (check_law _ _ _ _ _ _ _); cbn [bind] in E; try discriminate. injection E as <- <-. auto. }
  assert (ET : T3 0 1 1 = 3 / 2) by (unfold T3; field).
  assert (E2 : A2 0 1 1 = 4 / 3) by (unfold A2; rewrite ET; field).
  assert (E3 : A3 0 1 1 = - 16 / 27) by (unfold A3; rewrite ET, E2; field).
  rewrite ET, E2, E3 in S. destruct S as [-> ->].
  exists [0; 0; 4 / 3; -16 / 27], (3 / 2), [64 / 243]. split; [exact E|]. split; [|split; [reflexivity|]].
  - unfold velocity_bound. rewrite !pval_poly by discriminate. cbn [bind].
    unfold deriv_bound. rewrite !jac1_size4. cbn [bind].
    destruct (reqb_spec (-16 / 27) 0); [lra|].
    replace (- (4 / 3) / (3 * (-16 / 27))) with (3 / 4) by field.
    destruct (rltb_spec 0 (3 / 4)); [|lra]. destruct (rltb_spec (3 / 4) (3 / 2)); [|lra]. cbn [andb bind map].
    f_equal. f_equal. rewrite Rmult_1_l.
    replace (0 + 2 * (4 / 3) * 0 + 3 * (-16 / 27) * (0 * 0)) with 0 by ring.
    replace (0 + 2 * (4 / 3) * (3 / 2) + 3 * (-16 / 27) * (3 / 2 * (3 / 2))) with 0 by field.
    rewrite Rabs_R0. rewrite (Rmax_left 0 0) by lra.
    replace (0 - 4 / 3 / 3 * (-16 / 27)) with (64 / 243) by field.
    rewrite Rabs_right by lra. apply Rmax_right. lra.
  - pose proof (poly_derivable [0; 0; 4 / 3; -16 / 27] (3 / 2 / 2)) as D.
    replace (poly (pder [0; 0; 4 / 3; -16 / 27]) (3 / 2 / 2)) with 1 in D by (cbn; field). exact D.
Qed.

(* With the fifth order law the bound cannot be computed at all. *)
Theorem C58_fifth_order_has_no_bound vb maxAcc s0 s1 B a T t0 t1 :
  time_law 2 maxAcc s0 s1 B = Ok (a, T) -> velocity_bound vb a T t0 t1 = Throw.
Proof.
  unfold time_law, tp_fifth. 
  destruct (rdiv _ (8 * B)) as [T1| | |]; cbn [bind]; try discriminate.
  destruct (rdiv _ _) as [x3| | |]; cbn [bind]; try discriminate.
  destruct (rdiv _ _) as [x4| | |]; cbn [bind]; try discriminate.
  destruct (rdiv _ _) as [x5| | |]; cbn [bind]; try discriminate.
  destruct (check_law _ _ _ _ _ _ _); cbn [bind]; try discriminate.
  intros H. injection H as <- <-. reflexivity.
Qed.

Example C58_ex : exists bs, velocity_bound (fun _ _ => [2]) [0; 3] 1 0 1 = Ok bs /\ bs = [2 * Rabs 3].
Proof. eexists. split; reflexivity. Qed.

(* ================================================================= C59 *)
(* Parameter maxAcceleration: for a coordinate that is an affine function of
   the parameter (straight paths), of slope at most v, the acceleration of
   that coordinate is at most v * maxAcc... *)
Theorem C59_joint_acceleration_partial safety maxAcc limits l out p a T k c t :
  optimize safety 2 maxAcc limits l = Ok (Timed out) -> 0 < maxAcc ->
  Forall (fun p => g_s0 p <= g_s1 p) l -> In (p, (a, T)) out -> 0 <= t <= T ->
  exists d1 d2, (forall t, derivable_pt_lim (fun t => c + k * poly a t) t (d1 t)) /\
    derivable_pt_lim d1 t d2 /\ Rabs d2 <= Rabs k * maxAcc.
Proof.
  intros H HC Hl Hin Ht. destruct (C40_time_laws_respect_bounds _ _ _ _ _ _ H Hl) as [_ K].
  destruct (K _ _ _ Hin) as (_ & (B & PB & G) & _).
  destruct (gl_der _ _ _ _ _ _ _ G) as (f1 & f2 & D1 & D2 & _ & _ & _ & A).
  exists (fun t => k * f1 t), (k * f2 t). split; [|split].
  - intros u. replace (k * f1 u) with (0 + (0 * poly a u + k * f1 u)) by ring.
    change (fun t => c + k * poly a t) with (plus_fct (fct_cte c) (mult_fct (fct_cte k) (poly a))).
    apply derivable_pt_lim_plus; [apply derivable_pt_lim_const|].
    apply derivable_pt_lim_mult; [apply derivable_pt_lim_const|apply D1].
  - replace (k * f2 t) with (0 * f1 t + k * f2 t) by ring.
    change (fun t => k * f1 t) with (mult_fct (fct_cte k) f1).
    apply derivable_pt_lim_mult; [apply derivable_pt_lim_const|apply D2].
  - rewrite Rabs_mult. apply Rmult_le_compat_l; [apply Rabs_pos|]. apply A; [lia|exact HC|exact Ht].
Qed.

(* ... and it does exceed maxAcc: q(s) = 10 s on [0,1], velocity limit 100,
   maxAcceleration 1, the acceleration of the only joint exceeds 9. *)
Theorem C59_joint_acceleration_refuted : exists a T t d1 d2,
  optimize 1 2 1 [Fin 100] [gp_ex] = Ok (Timed [(gp_ex, (a, T))]) /\ 0 <= t <= T /\
  (forall t, derivable_pt_lim (fun t => g_q gp_ex 0 (poly a t)) t (d1 t)) /\
  derivable_pt_lim d1 t d2 /\ 9 < d2.
Proof.
  destruct C40_ex as (out & E & L & _).
  destruct out as [|[p [a T]] [|]]; try discriminate. 
  destruct (optimize_inv _ _ _ _ _ _ E) as (_ & _ & TL).
  cbn [time_loop] in TL. cbn [gp_ex g_s0 g_s1 g_vb] in TL.
  destruct (reqb_spec 0 1); [lra|]. cbn [map] in TL. rewrite scaled_fin in TL.
  unfold speed_bound in TL. cbn [length Nat.eqb negb map fst snd zip_mul] in TL.
  unfold inv_or_inf in TL. destruct (reqb_spec 10 0); [lra|]. cbn [xmul xneg min_coeff fold_left bind xmin] in TL.
  replace (1 * 100 * / 10) with 10 in TL by field. replace (- (- (1 * 100) * / 10)) with 10 in TL by field.
  rewrite Rmin_left in TL by lra. destruct (rleb_spec 10 0); [lra|].
  destruct (time_law 2 1 0 1 10) as [[a' T']| | |] eqn:ET; cbn [bind] in TL; try discriminate.
  injection TL as <- -> ->.
  unfold time_law in ET. rewrite (fifth_ok 0 1 10) in ET by lra. cbn [bind] in ET.
  destruct (check_law _ _ _ _ _ _ _); cbn [bind] in ET; try discriminate. injection ET as <- <-.
  set (TT := T5 0 1 10 1).
  assert (P : 0 < TT) by (apply T5_pos; lra).
  (* TT^2 = 10/sqrt 3 < 6 *)
  assert (S3 : 1.7 < sqrt 3).
  { apply Rsqr_incrst_0; [|lra|apply sqrt_pos]. rewrite Rsqr_sqrt by lra. unfold Rsqr. lra. }
  assert (Q : TT * TT < 5.9).
  { assert (X : sqrt (10 / sqrt 3) * sqrt ((1 - 0) / 1) = sqrt (10 / sqrt 3)).
    { replace ((1 - 0) / 1) with 1 by field. rewrite sqrt_1. ring. }
    assert (X0 : 0 <= 10 / sqrt 3) by (left; apply Rdiv_lt_0_compat; lra).
    assert (X1 : 10 / sqrt 3 < 5.9).
    { apply Rmult_lt_reg_r with (sqrt 3); [lra|]. unfold Rdiv. rewrite Rmult_assoc, Rinv_l by lra. lra. }
    unfold TT, T5. destruct (rltb_spec 0 1); [|lra]. rewrite X.
    unfold Rmax. destruct (Rle_dec _ _); [rewrite sqrt_sqrt by exact X0; exact X1|].
    replace (15 * (1 - 0) / (8 * 10)) with (3 / 16) by field. lra. }
  exists [0; 0; 0; Q3 0 1 10 1; Q4 0 1 10 1; Q5 0 1 10 1], TT, (TT / 4).
  exists (fun t => 10 * poly (pder [0; 0; 0; Q3 0 1 10 1; Q4 0 1 10 1; Q5 0 1 10 1]) t).
  exists (10 * poly (pders 2 [0; 0; 0; Q3 0 1 10 1; Q4 0 1 10 1; Q5 0 1 10 1]) (TT / 4)).
  set (a := [0; 0; 0; Q3 0 1 10 1; Q4 0 1 10 1; Q5 0 1 10 1]) in *.
  split; [exact E|]. split; [lra|]. split; [|split].
  - intros t. cbn [gp_ex g_q]. replace (10 * poly (pder a) t) with (0 * poly a t + 10 * poly (pder a) t) by ring.
    change (fun t => 10 * poly a t) with (mult_fct (fct_cte 10) (poly a)).
    apply derivable_pt_lim_mult; [apply derivable_pt_lim_const|apply poly_derivable].
  - replace (10 * poly (pders 2 a) (TT / 4)) with (0 * poly (pder a) (TT / 4) + 10 * poly (pders 2 a) (TT / 4)) by ring.
    change (fun t => 10 * poly (pder a) t) with (mult_fct (fct_cte 10) (poly (pder a))).
    apply derivable_pt_lim_mult; [apply derivable_pt_lim_const|apply poly_derivable].
  - unfold a. rewrite (fifth_f2 0 1 10) by lra. fold TT.
    replace (10 * (60 * (1 - 0) / (TT * TT * TT * TT * TT) * (TT / 4 * (TT - TT / 4) * (TT - 2 * (TT / 4)))))
      with ((225 / 4) / (TT * TT)) by (field; lra).
    clearbody TT. assert (P2 : 0 < TT * TT) by (apply Rmult_lt_0_compat; assumption).
    apply Rmult_lt_reg_r with (TT * TT); [exact P2|].
    replace ((225 / 4) / (TT * TT) * (TT * TT)) with (225 / 4) by (field; lra). lra.
Qed.

Print Assumptions C41_value_is_the_piece_of_its_interval.
Print Assumptions C41_derivative_is_the_derivative_of_the_piece.
Print Assumptions C41_outside_throws.
Print Assumptions C41_pieces_cover_the_range.
Print Assumptions C40_time_laws_respect_bounds.
Print Assumptions C40_always_succeeds.
Print Assumptions C40_extra_degrees_of_freedom_refuted.
Print Assumptions C58_velocity_bound_partial.
Print Assumptions C58_velocity_bound_refuted.
Print Assumptions C58_fifth_order_has_no_bound.
Print Assumptions C59_joint_acceleration_partial.
Print Assumptions C59_joint_acceleration_refuted.
