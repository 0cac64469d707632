(* Property theorems for paths (C18, C19, C20, C21, C23, C24). *)
From Coq Require Import Sorting.Sorted.
From Verif Require Import Base QcTac PathModel PathSpec PathProofs PathProofs2 PathProofs3 PathProofs4
  PathProofs5 PathProofs6 PathProofs7.
Open Scope Qc_scope.

(* ------------------------------------------------------------------ *)
(* A concrete configuration space: one real coordinate. *)
Definition lerp (a b u : Qc) : Qc := a + u * (b - a).
Lemma lerp_geodesic : geodesic lerp.
Proof. split; [|split]; intros; unfold lerp; ring. Qed.

Definition qn (z : Z) : Qc := Q2Qc (inject_Z z).
(* reading a result as plain rationals *)
Definition show (r : res (option Qc)) : res (option Q) :=
  match r with Ok (Some q) => Ok (Some (this q)) | Ok None => Ok None
  | Throw => Throw | UB => UB | Fuel => Fuel end.
Lemma show_inj a b : show a = show b -> a = b.
Proof.
  destruct a as [[x|]| | |], b as [[y|]| | |]; cbn; intros E; try discriminate; try reflexivity.
  injection E as E. do 2 f_equal. apply Qc_is_canon. rewrite E. reflexivity.
Qed.
Ltac by_show := apply show_inj; vm_compute; reflexivity.
Ltac differ E := apply (f_equal show) in E; vm_compute in E; discriminate E.

Definition line (I : itv) (a b : Z) : path Qc := Straight (mk_hdr I None) (qn a) (qn b).
Definition S1 := line (qn 0, qn 2) 0 4.        (* 0 -> 4 in 2 *)
Definition S2 := line (qn 5, qn 8) 4 10.       (* 4 -> 10 in 3, range starting at 5 *)
Definition I1 : path Qc := Interp (mk_hdr (qn 0, qn 3) None) [(qn 0, qn 10); (qn 1, qn 6); (qn 3, qn 8)].
Definition V := fold_left append [S1; S2; I1] (@pv_create Qc None).

Ltac qdec := vm_compute; try discriminate; try reflexivity.

Lemma S1_ranged : ranged S1. Proof. qdec. Qed.
Lemma S2_ranged : ranged S2. Proof. qdec. Qed.
Lemma I1_ranged : ranged I1. Proof. qdec. Qed.
Lemma qn0 : qn 0 = 0. Proof. apply Qc_is_canon; reflexivity. Qed.
Lemma I1_knots : knots_ok (tr (hd_of I1)) [(qn 0, qn 10); (qn 1, qn 6); (qn 3, qn 8)].
Proof.
  split.
  - repeat constructor.
  - eexists _, _. split; [reflexivity|]. split; [reflexivity|]. split; reflexivity.
Qed.
Lemma V_shape : V = PV (mk_hdr (0, total [S1; S2; I1]) None) [S1; S2; I1].
Proof. unfold V. apply fold_append_create. Qed.
Lemma V_continuous : continuous_list Qc lerp [S1; S2; I1].
Proof. split; [by_show|]. split; [by_show|exact I]. Qed.
Lemma V_plain : plain V.
Proof.
  rewrite V_shape. split; [qdec|]. split; [apply bare_mk|].
  split; [discriminate|]. split; [reflexivity|].
  apply fold_and_Forall. constructor; [split; [qdec|apply bare_mk]|].
  constructor; [split; [qdec|apply bare_mk]|]. constructor; [|constructor].
  split; [qdec|]. split; [apply bare_mk|exact I1_knots].
Qed.
Lemma V_reversible : reversible Qc lerp V.
Proof.
  rewrite V_shape. split; [qdec|]. split; [apply bare_mk|].
  split; [discriminate|]. split; [reflexivity|]. split; [exact V_continuous|].
  apply fold_and_Forall. constructor.
  { split; [qdec|]. split; [apply bare_mk|]. intros E. apply this_eq in E. vm_compute in E. discriminate. }
  constructor.
  { split; [qdec|]. split; [apply bare_mk|]. intros E. apply this_eq in E. vm_compute in E. discriminate. }
  constructor; [|constructor].
  split; [qdec|]. split; [apply bare_mk|]. split; [exact I1_knots|]. exact qn0.
Qed.
Lemma V_no_generic : no_generic V.
Proof. rewrite V_shape. cbn. auto. Qed.

Theorem C23_create_total : forall conf (q0 q1 : conf) I, fst I <= snd I ->
  exists p0, interp_create q0 q1 I None = Ok p0.
Proof.
  intros conf q0 q1 I HI. unfold interp_create. cbn [kinsert].
  qcaselt (snd I) (fst I); [exfalso; exact (Qclt_not_le _ _ Hc HI)|].
  qcaseeq (snd I) (fst I); cbn; eauto.
Qed.
(* ------------------------------------------------------------------ *)
(* C18 *)
Theorem C18_plays_in_order : forall conf interp (l : list (path conf)),
  l <> [] -> Forall ranged l ->
  plays_in_order conf interp (fold_left append l (pv_create None)) l.
Proof.
  intros conf interp l Hne Hr. rewrite fold_append_create.
  apply plays_in_order_PV; [apply bare_mk|reflexivity|exact Hne|exact Hr].
Qed.
(* with constraints on the vector itself: the value of the sub-path is
   projected at the parameter of the vector *)
Theorem C18_constrained_vector : forall conf interp (c : constr conf) (l : list (path conf)) t,
  l <> [] -> Forall ranged l -> 0 <= t -> t <= total l ->
  exists pre x post, l = pre ++ x :: post /\
    total pre <= t /\ t <= total pre + plength x /\
    eval conf interp (fold_left append l (pv_create (Some c))) t =
    match eval conf interp x (start x + (t - total pre)) with
    | Ok (Some q) => Ok (c_apply c t q)
    | r => r
    end.
Proof.
  intros conf interp c l t Hne Hr H0 H1. rewrite fold_append_create.
  destruct (locate_exists conf l t Hne H0 H1) as (pre & x & post & L).
  exists pre, x, post. pose proof (locate_le _ _ _ _ _ _ L Hr H0) as Hle.
  pose proof L as (E & _ & Hx). repeat split; try assumption.
  rewrite eval_no_tp by reflexivity.
  rewrite (compute_locate conf interp _ l t pre x post Hr L).
  unfold apply_cs. cbn [hd_of mk_hdr cs]. destruct (eval conf interp x _) as [[q|]| | |]; reflexivity.
Qed.
Theorem C18_rank_in_range : forall conf (l : list (path conf)) t,
  l <> [] -> Forall ranged l -> 0 <= t ->
  exists i lt x, rank_at_param (map timeRange l) t = Ok (i, lt) /\
    nth_error l i = Some x /\ start x <= lt /\ lt <= stop x.
Proof.
  intros conf l t Hne Hr H0.
  destruct (Qclt_le_dec (total l) t) as [Hgt|Hle].
  - (* beyond the end: last sub-path, last parameter *)
    destruct (exists_last Hne) as (m & x & ->).
    exists (length m), (stop x), x.
    assert (Hm : Forall ranged m /\ ranged x).
    { apply Forall_app in Hr. destruct Hr as [A B]. inversion B; subst. auto. }
    destruct Hm as [Hm Hx].
    rewrite total_app in Hgt. cbn [total] in Hgt.
    split; [|split; [apply nth_error_mid|split; [exact Hx|apply Qcle_refl]]].
    unfold rank_at_param.
    assert (G : forall i u, plength x < u - total m ->
      rank_loop (map timeRange (m ++ [x])) u i = Some ((i + length m)%nat, u - total m, timeRange x)).
    { clear - Hm Hx. induction Hm as [|y m Hy Hm IH]; intros i u Hu.
      - cbn. rewrite Nat.add_0_r. do 2 f_equal. f_equal. cbn [total]. qc.
      - cbn [app map length]. cbn [total] in Hu.
        assert (E : exists z zs, map timeRange (m ++ [x]) = z :: zs).
        { destruct m; cbn; eauto. }
        destruct E as (z & zs & E). cbn [rank_loop]. rewrite E.
        pose proof (total_nonneg conf m Hm). pose proof (ranged_len conf x Hx).
        fold (plength y). change (ilen (timeRange y)) with (plength y).
        qcaselt (plength y) u; [|exfalso; apply (Qclt_not_le _ _ Hu); qc].
        rewrite <- E, (IH (S i) (u - plength y)) by qc. f_equal. f_equal. f_equal; [lia|].
        cbn [total]. qc. }
    rewrite (G 0%nat t) by qc. cbn [Nat.add].
    change (ilen (timeRange x)) with (plength x).
    qcaselt (plength x) (t - total m); [|exfalso; apply (Qclt_not_le _ _ Hgt); qc].
    rewrite map_length, app_length. cbn [length]. rewrite Nat.add_sub, Nat.eqb_refl. reflexivity.
  - destruct (locate_exists conf l t Hne H0 Hle) as (pre & x & post & L).
    exists (length pre), (start x + (t - total pre)), x.
    rewrite (rank_at_locate conf l t pre x post Hr L).
    pose proof (locate_le _ _ _ _ _ _ L Hr H0) as Hp. destruct L as (-> & _ & Hx).
    split; [reflexivity|]. split; [apply nth_error_mid|].
    unfold start, stop, plength, ilen in *. split; qc.
Qed.
Theorem C18_ends : forall conf interp (l : list (path conf)) x y m m',
  l = x :: m -> l = m' ++ [y] ->
  initial conf interp (fold_left append l (pv_create None)) = initial conf interp x /\
  end_ conf interp (fold_left append l (pv_create None)) = end_ conf interp y.
Proof.
  intros conf interp l x y m m' E1 E2. rewrite fold_append_create. cbn [initial end_]. split.
  - rewrite E1. reflexivity.
  - rewrite E2, map_app. cbn [map]. apply last_last.
Qed.
Example C18_ex : Forall ranged [S1; S2; I1] /\ plength V = qn 8 /\
  eval Qc lerp V (qn 3) = Ok (Some (qn 6)) /\ eval Qc lerp V (qn 7) = Ok (Some (qn 7)).
Proof.
  split; [repeat constructor; [exact S1_ranged|exact S2_ranged|exact I1_ranged]|].
  split; [apply Qc_is_canon; reflexivity|]. split; by_show.
Qed.

(* ------------------------------------------------------------------ *)
(* C19 *)
Theorem C19_concatenate : forall conf interp (l m : list (path conf)),
  l <> [] -> m <> [] -> Forall ranged l -> Forall ranged m ->
  let a := fold_left append l (pv_create None) in
  let b := fold_left append m (pv_create None) in
  exists r, concatenate a b = Ok r /\ plength r = plength a + plength b /\
    (forall t, 0 <= t -> t <= plength a -> eval conf interp r t = eval conf interp a t) /\
    (forall t, 0 < t -> t <= plength b -> eval conf interp r (plength a + t) = eval conf interp b t).
Proof.
  intros conf interp l m Hl Hm Rl Rm. cbn zeta. rewrite !fold_append_create.
  eexists. split; [apply concatenate_free; reflexivity|].
  rewrite fold_append by reflexivity. cbn [mk_hdr tr fst snd cs].
  assert (EL : forall l : list (path conf), plength (PV (mk_hdr (0, total l) None) l) = total l).
  { intros k. unfold plength, timeRange, ilen. cbn [hd_of mk_hdr tr fst snd]. qc. }
  rewrite !EL. set (h := mkH _ _ _ _).
  assert (Hb : bare h) by (repeat split).
  split; [unfold h, plength, timeRange, ilen; cbn [hd_of tr fst snd]; qc|]. split.
  - intros t H0 H1. apply eval_first; auto. apply bare_mk.
  - intros t H0 H1.
    destruct (eval_second conf interp h l m t Hb Rl Rm Hm H0 H1) as (pre & x & post & L & E).
    rewrite E. symmetry. apply (eval_locate conf interp _ m t pre x post); [apply bare_mk|exact Rm|exact L].
Qed.
(* with constraints on the appended vector that do not depend on the parameter *)
Theorem C19_concatenate_constrained : forall conf interp c (l m : list (path conf)) r,
  l <> [] -> m <> [] -> Forall ranged l -> Forall ranged m ->
  steady c -> Forall (fun x => cs (hd_of x) = None) m ->
  let a := fold_left append l (pv_create None) in
  let b := fold_left append m (pv_create (Some c)) in
  concatenate a b = Ok r ->
  plength r = plength a + plength b /\
  (forall t, 0 <= t -> t <= plength a -> eval conf interp r t = eval conf interp a t) /\
  (forall t, 0 < t -> t <= plength b -> eval conf interp r (plength a + t) = eval conf interp b t).
Proof.
  intros conf interp c l m r Hl Hm Rl Rm Hst Hf. cbn zeta. rewrite !fold_append_create. intros H.
  destruct (concatenate_constrained conf interp c _ (mk_hdr (0, total m) (Some c)) m r eq_refl Hst Hf H) as (m' & F & ->).
  rewrite fold_append by reflexivity. cbn [mk_hdr tr fst snd cs].
  assert (EL : forall o (l : list (path conf)), plength (PV (mk_hdr (0, total l) o) l) = total l).
  { intros o k. unfold plength, timeRange, ilen. cbn [hd_of mk_hdr tr fst snd]. qc. }
  rewrite !EL. set (h := mkH _ _ _ _).
  assert (Hb : bare h) by (repeat split).
  pose proof (copied_total _ _ _ _ _ F) as Ft. pose proof (copied_ranged _ _ _ _ _ F Rm) as Rm'.
  split; [unfold h, plength, timeRange, ilen; cbn [hd_of tr fst snd]; rewrite Ft; qc|]. split.
  - intros t H0 H1. apply eval_first; auto. apply bare_mk.
  - intros t H0 H1.
    assert (Hm' : m' <> []) by (intros ->; inversion F; subst; contradiction).
    rewrite <- Ft in H1.
    destruct (eval_second conf interp h l m' t Hb Rl Rm' Hm' H0 H1) as (pre & x & post & L & E).
    rewrite E. destruct (locate_copied _ _ _ _ _ _ _ _ _ F L) as (pre0 & x0 & post0 & L0 & Ep & Hx).
    rewrite (eval_PV_constrained conf interp c _ m t pre0 x0 post0 Hst); [|reflexivity|reflexivity|exact Rm|exact L0].
    destruct Hx as (Hx1 & Hx2). rewrite Hx2. do 2 f_equal. rewrite Ep.
    unfold start. rewrite Hx1. reflexivity.
Qed.
Theorem C19_flatten : forall conf interp (p : path conf) depth,
  nested p -> is_vector p -> (nesting p <= depth)%nat ->
  exists h subs, flatten depth p (pv_create None) = Ok (PV h subs) /\
    subs = elementary p /\
    Forall (fun x => ~ is_vector x) subs /\
    same_trajectory conf interp p (PV h subs).
Proof.
  intros conf interp p d Hn Hv Hd.
  destruct (flatten_same conf interp d p Hn Hv Hd) as (r & E & -> & H).
  eexists _, _. split; [exact E|]. split; [reflexivity|]. split; [|exact H].
  clear. induction p as [h q0 q1|h ks|h f|h o rv IHo|h subs IH] using path_ind';
    try (constructor; [cbn; tauto|constructor]).
  cbn [elementary]. induction IH as [|x l Hx _ IHl]; [constructor|].
  cbn [map concat]. apply Forall_app. split; assumption.
Qed.
Definition W := fold_left append [V; S1; V] (@pv_create Qc None).
Lemma W_nested : nested W.
Proof.
  assert (NV : nested V).
  { rewrite V_shape. split; [qdec|]. split; [apply bare_mk|]. split; [discriminate|].
    split; [reflexivity|]. apply fold_and_Forall.
    repeat constructor; [exact S1_ranged|exact S2_ranged|exact I1_ranged]. }
  assert (EW : W = PV (mk_hdr (0, total [V; S1; V]) None) [V; S1; V]) by apply fold_append_create.
  rewrite EW. split; [qdec|]. split; [apply bare_mk|]. split; [discriminate|]. split; [reflexivity|].
  apply fold_and_Forall. constructor; [exact NV|].
  constructor; [split; [exact S1_ranged|exact I]|]. constructor; [exact NV|constructor].
Qed.
Example C19_ex : nested W /\ is_vector W /\ nesting W = 2%nat /\ length (elementary W) = 7%nat.
Proof. split; [exact W_nested|]. split; [exact I|]. split; reflexivity. Qed.

(* A parameter-dependent constraint is not preserved: in the vector it is
   applied at the parameter of the vector, in the copies made by concatenate
   and flatten at the parameter of the sub-path. *)
Definition drift : constr Qc := mkC (fun s q => Some (q + s)) (fun _ _ => true).
Definition VC := fold_left append [S1; line (qn 0, qn 3) 4 10] (pv_create (Some drift)).
Theorem C19_flatten_refuted : exists r t, flatten 1 VC (pv_create None) = Ok r /\
  0 <= t /\ t <= plength VC /\ eval Qc lerp r t <> eval Qc lerp VC t.
Proof.
  eexists _, (qn 3). split; [reflexivity|]. split; [discriminate|]. split; [discriminate|].
  intros E. differ E.
Qed.
Theorem C19_concatenate_refuted : exists r t, concatenate (pv_create None) VC = Ok r /\
  0 <= t /\ t <= plength VC /\ eval Qc lerp r t <> eval Qc lerp VC t.
Proof.
  eexists _, (qn 3). split; [reflexivity|]. split; [discriminate|]. split; [discriminate|].
  intros E. differ E.
Qed.
(* constraints both on the vector and on a sub-path: exception *)
Definition keep : constr Qc := mkC (fun _ q => Some q) (fun _ _ => true).
Theorem C19_both_constrained_throws : forall conf (c c' : constr conf) (h : hdr conf) q0 q1,
  flatten 1 (fold_left append [Straight (mkH (tr h) (pr h) (Some c) (tp h)) q0 q1] (pv_create (Some c')))
    (pv_create None) = Throw.
Proof. reflexivity. Qed.

(* ------------------------------------------------------------------ *)
(* C20 *)
Theorem C20_extract_partial : forall conf interp (p p' : path conf) a b, geodesic interp ->
  plain p -> start p <= a -> a <= b -> b <= stop p ->
  extract conf interp p (a, b) = Ok p' -> restricts conf interp p a b p'.
Proof. intros. eapply extract_restricts; eassumption. Qed.
(* the extraction cannot fail unless an interpolated path is involved *)
Theorem C20_extract_total_partial : forall conf interp (p : path conf) a b, geodesic interp ->
  plain p -> no_interp p -> start p <= a -> a <= b -> b <= stop p ->
  exists p', extract conf interp p (a, b) = Ok p'.
Proof. intros. eapply extract_total; eassumption. Qed.
(* generic paths with a time parameterization *)
Theorem C20_generic_time_partial : forall conf interp I (tp0 : Qc -> Qc) (c : option (constr conf)) f a b p',
  let p := Gen (mkH I (tp0 (fst I), tp0 (snd I)) c (Some tp0)) f in
  tp0 a <= tp0 b -> a <= b ->
  extract conf interp p (a, b) = Ok p' -> restricts conf interp p a b p'.
Proof.
  intros conf interp I tp0 c f a b p'. cbn zeta. intros Ht Hab H.
  unfold extract in H. cbn [ops fst snd] in H. unfold ext_wrap in H. cbn [hd_of tp] in H.
  unfold base_extract in H. cbn [paramRange hd_of pr fst snd] in H.
  assert (Hlt : qltb b a = false) by (destruct (qltb_spec b a) as [C|C]; [exfalso; exact (Qclt_not_le _ _ C Hab)|reflexivity]).
  rewrite Hlt in H.
  assert (Hrv : negb (qleb (tp0 a) (tp0 b)) = false)
    by (destruct (qleb_spec (tp0 a) (tp0 b)) as [C|C]; [reflexivity|exfalso; exact (Qclt_not_le _ _ C Ht)]).
  rewrite Hrv in H.
  assert (Z : qeqb (tp0 a - tp0 a) 0 = true)
    by (destruct (qeqb_spec (tp0 a - tp0 a) 0) as [C|C]; [reflexivity|exfalso; apply C; qc]).
  destruct (qeqb (tp0 a) (tp0 (fst I)) && qeqb (tp0 b) (tp0 (snd I))) eqn:Eq.
  - apply andb_prop in Eq. destruct Eq as [E1 E2].
    assert (E1' : tp0 a = tp0 (fst I)) by (destruct (qeqb_spec (tp0 a) (tp0 (fst I))); [assumption|discriminate]).
    cbn [bind] in H. cbn [paramRange hd_of pr fst snd] in H.
    assert (Z' : qeqb (tp0 (fst I) - tp0 a) 0 = true) by (rewrite <- E1'; exact Z).
    rewrite Z' in H. injection H as <-. unfold with_hd, set_tp, set_tr. cbn [hd_of tp tr cs pr fst snd].
    split; [unfold plength, timeRange, ilen; cbn; reflexivity|]. intros t _ _. reflexivity.
  - cbn [bind] in H. cbn [paramRange hd_of mk_hdr pr fst snd] in H. rewrite Z in H.
    injection H as <-. unfold with_hd, set_tp, set_tr. cbn [hd_of mk_hdr tp tr cs pr fst snd].
    split; [unfold plength, timeRange, ilen; cbn; reflexivity|]. intros t _ _. reflexivity.
Qed.
Example C20_ex : plain V /\ exists p', extract Qc lerp V (qn 1, qn 6) = Ok p' /\
  plength p' = qn 5 /\ eval Qc lerp p' (qn 2) = Ok (Some (qn 6)).
Proof.
  split; [exact V_plain|]. eexists. split; [vm_compute; reflexivity|].
  split; [apply Qc_is_canon; reflexivity|by_show].
Qed.
Example C20_generic_ex : exists p', let sq := fun t : Qc => t * t in
  extract Qc lerp (Gen (mkH (qn 0, qn 3) (sq (qn 0), sq (qn 3)) None (Some sq)) (fun s => Some (s + qn 1))) (qn 1, qn 2) = Ok p'
  /\ sq (qn 1) <= sq (qn 2) /\ eval Qc lerp p' (qn 2) = Ok (Some (qn 5)).
Proof. eexists. split; [reflexivity|]. split; [discriminate|by_show]. Qed.

(* an interpolated path cut before its end *)
Theorem C20_interp_total_partial : forall conf interp h (ks : list (Qc * conf)) a b, geodesic interp ->
  plain (Interp h ks) -> fst (tr h) <= a -> a <= b -> b <= snd (tr h) -> a < snd (tr h) ->
  exists p', extract conf interp (Interp h ks) (a, b) = Ok p'.
Proof.
  intros conf interp h ks a b Hg [_ [Hb Hk]] H1 H2 H3 H4. unfold extract. cbn [ops fst].
  unfold ext_wrap. cbn [hd_of]. pose proof Hb as (Ht & Hc & _). rewrite Ht.
  unfold interp_extract. cbn [fst snd].
  assert (Hlt : qltb b a = false)
    by (destruct (qltb_spec b a) as [C|C]; [exfalso; exact (Qclt_not_le _ _ C H2)|reflexivity]).
  rewrite Hlt. destruct Hk as (Hs & k0 & kl & E0 & El & F0 & Fl).
  destruct ks as [|k r]; [discriminate|].
  assert (Hok : knots_ok (tr h) (k :: r)) by (split; [exact Hs|exists k0, kl; auto]).
  rewrite !(interp_config conf interp Hg h k r _ (snd k) Hb Hok);
    [|eapply Qcle_trans; eassumption|exact H3|exact H1|eapply Qcle_trans; eassumption].
  cbn [config_or_throw bind]. rewrite Hc.
  destruct (C23_create_total conf (pl conf interp (k :: r) (snd k) a) (pl conf interp (k :: r) (snd k) b) (0, b - a)) as [p0 Ep].
  { cbn [fst snd]. qc. }
  rewrite Ep. cbn [bind].
  assert (Hin : exists x, In x (upper (k :: r) a) /\ b <= fst x).
  { exists kl. split; [|rewrite Fl; exact H3].
    assert (G : forall l : list (Qc * conf), In kl l -> In kl (upper l a)).
    { induction l as [|y l IH]; intros Hy; [destruct Hy|]. cbn [upper].
      qcaselt a (fst y); [exact Hy|]. destruct Hy as [->|Hy]; [|exact (IH Hy)].
      exfalso. rewrite Fl in Hc0. exact (Qclt_not_le _ _ H4 Hc0). }
    apply G. apply klast_In. exact El. }
  revert Hin p0 Ep. clear. generalize (upper (k :: r) a) as l. intros l Hin p0 _. revert p0.
  induction l as [|y l IH]; intros p0; [destruct Hin as (x & [] & _)|].
  cbn [extract_loop]. qcaselt (fst y) b; [|eauto].
  apply IH. destruct Hin as (x & [->|Hx] & Ex); [exfalso; exact (Qclt_not_le _ _ Hc Ex)|eauto].
Qed.
(* extracting the end point of an interpolated path reads past the last knot *)
Theorem C20_interp_end_refuted : exists p : path Qc, plain p /\ ranged p /\
  extract Qc lerp p (stop p, stop p) = UB.
Proof.
  exists I1. split; [|split; [exact I1_ranged|vm_compute; reflexivity]].
  split; [qdec|]. split; [apply bare_mk|exact I1_knots].
Qed.
(* the same happens when a vector is cut exactly where such a sub-path ends *)
Theorem C20_vector_end_refuted : exists (p : path Qc) a b, plain p /\ start p < a /\ a < b /\ b < stop p /\
  extract Qc lerp p (a, b) = UB.
Proof.
  exists (fold_left append [I1; S1] (@pv_create Qc None)), (qn 3), (qn 4).
  split; [|split; [reflexivity|split; [reflexivity|split; [reflexivity|vm_compute; reflexivity]]]].
  rewrite fold_append_create. split; [qdec|]. split; [apply bare_mk|].
  split; [discriminate|]. split; [reflexivity|]. apply fold_and_Forall.
  constructor; [split; [qdec|split; [apply bare_mk|exact I1_knots]]|].
  constructor; [split; [qdec|apply bare_mk]|constructor].
Qed.
(* time-parameterized straight path: the shifted time law is computed and
   dropped, the extracted path restarts the time law from 0 *)
Theorem C20_straight_time_refuted : exists (p p' : path Qc) a b t,
  start p <= a /\ a <= b /\ b <= stop p /\
  extract Qc lerp p (a, b) = Ok p' /\ plength p' = b - a /\ 0 <= t /\ t <= b - a /\
  eval Qc lerp p' (start p' + t) <> eval Qc lerp p (a + t).
Proof.
  pose (sq := fun t : Qc => t * t).
  exists (Straight (mkH (qn 0, qn 2) (sq (qn 0), sq (qn 2)) None (Some sq)) (qn 0) (qn 4)).
  eexists _, (qn 1), (qn 2), (Q2Qc (1 # 2)).
  split; [discriminate|]. split; [discriminate|]. split; [discriminate|].
  split; [reflexivity|]. split; [apply Qc_is_canon; reflexivity|].
  split; [discriminate|]. split; [discriminate|]. intros E. differ E.
Qed.
(* the constraints of a path vector are not kept by extract *)
Theorem C20_vector_constraints_refuted : exists (p p' : path Qc) a b t,
  start p <= a /\ a <= b /\ b <= stop p /\
  extract Qc lerp p (a, b) = Ok p' /\ plength p' = b - a /\ 0 <= t /\ t <= b - a /\
  eval Qc lerp p' (start p' + t) <> eval Qc lerp p (a + t).
Proof.
  pose (snap := mkC (fun (_ : Qc) (_ : Qc) => Some (qn 0)) (fun _ _ => true)).
  exists (fold_left append [S1] (pv_create (Some snap))). eexists _, (qn 0), (qn 2), (qn 1).
  split; [discriminate|]. split; [discriminate|]. split; [discriminate|].
  split; [reflexivity|]. split; [apply Qc_is_canon; reflexivity|].
  split; [discriminate|]. split; [discriminate|]. intros E. differ E.
Qed.

(* ------------------------------------------------------------------ *)
(* C21 *)
Theorem C21_reverse_partial : forall conf interp (p : path conf), geodesic interp ->
  reversible conf interp p ->
  exists p', reverse conf interp p = Ok p' /\
    plays_back conf interp p (stop p) (start p) p' /\
    initial conf interp p' = end_ conf interp p /\
    end_ conf interp p' = initial conf interp p.
Proof.
  intros conf interp p Hg Hp. destruct (reverse_ok conf interp Hg p Hp) as (p' & E & (H1 & _ & H2 & H3)).
  exists p'. auto.
Qed.
Theorem C21_twice_partial : forall conf interp (p : path conf), geodesic interp ->
  reversible conf interp p ->
  exists p' p'', reverse conf interp p = Ok p' /\ reverse conf interp p' = Ok p'' /\
    same_trajectory conf interp p p''.
Proof.
  intros conf interp p Hg Hp. destruct (reverse_ok conf interp Hg p Hp) as (p' & E & (B1 & R & _)).
  destruct (reverse_ok conf interp Hg p' R) as (p'' & E' & (B2 & _)).
  exists p', p''. split; [exact E|]. split; [exact E'|].
  pose proof (back_len _ _ _ _ B1) as L1. pose proof (back_len _ _ _ _ B2) as L2. split.
  - rewrite L2, L1. reflexivity.
  - intros t H0 H1. rewrite (back_at _ _ _ _ t B2 H0) by (rewrite L1; exact H1).
    rewrite (back_at _ _ _ _ _ B1) by (rewrite ?L1; qc).
    f_equal. rewrite L1. qc.
Qed.
(* a sub-interval given in decreasing order plays the piece backwards *)
Theorem C21_extract_back_partial : forall conf interp (p p' : path conf) a b, geodesic interp ->
  reversible conf interp p -> no_generic p ->
  start p <= b -> b <= a -> a <= stop p ->
  extract conf interp p (a, b) = Ok p' -> plays_back conf interp p a b p'.
Proof. intros. eapply extract_back; eassumption. Qed.
Example C21_ex : reversible Qc lerp V /\ no_generic V /\
  (exists p', reverse Qc lerp V = Ok p' /\ eval Qc lerp p' (qn 1) = Ok (Some (qn 7))) /\
  (exists p', extract Qc lerp V (qn 7, qn 1) = Ok p' /\ eval Qc lerp p' (qn 4) = Ok (Some (qn 6))).
Proof.
  split; [exact V_reversible|]. split; [exact V_no_generic|]. split.
  - eexists. split; [vm_compute; reflexivity|by_show].
  - eexists. split; [vm_compute; reflexivity|by_show].
Qed.
Example C21_generic_ex : exists p' p'',
  reversible Qc lerp (Gen (mk_hdr (0, qn 3) None) (fun s => Some (s * s))) /\
  reverse Qc lerp (Gen (mk_hdr (0, qn 3) None) (fun s => Some (s * s))) = Ok p' /\
  reversible Qc lerp p' /\ reverse Qc lerp p' = Ok p'' /\ eval Qc lerp p'' (qn 2) = Ok (Some (qn 4)).
Proof.
  eexists _, _. split; [split; [discriminate|split; [apply bare_mk|reflexivity]]|].
  split; [reflexivity|]. split.
  - split; [discriminate|]. split; [apply bare_mk|]. split; [apply bare_mk|reflexivity].
  - split; [reflexivity|by_show].
Qed.

(* a generic path whose range does not start at 0 is reversed wrongly *)
Theorem C21_generic_offset_refuted : exists p p' : path Qc, bare (hd_of p) /\ ranged p /\
  reverse Qc lerp p = Ok p' /\ plength p' = plength p /\
  eval Qc lerp p' (start p') <> eval Qc lerp p (stop p).
Proof.
  exists (Gen (mk_hdr (qn 1, qn 3) None) (fun s => Some s)). eexists.
  split; [apply bare_mk|]. split; [discriminate|]. split; [reflexivity|].
  split; [apply Qc_is_canon; reflexivity|]. intros E. differ E.
Qed.
(* backward extraction of a part that does not start at 0, from a path that does *)
Theorem C21_generic_part_refuted : exists (p p' : path Qc) a b, reversible Qc lerp p /\
  start p <= b /\ b <= a /\ a <= stop p /\ extract Qc lerp p (a, b) = Ok p' /\
  eval Qc lerp p' (start p') <> eval Qc lerp p a.
Proof.
  exists (Gen (mk_hdr (0, qn 3) None) (fun s => Some s)). eexists _, (qn 2), (qn 1).
  split; [split; [discriminate|split; [apply bare_mk|reflexivity]]|].
  split; [discriminate|]. split; [discriminate|]. split; [discriminate|]. split; [reflexivity|].
  intros E. differ E.
Qed.
(* an interpolated path whose range does not start at 0: the inner waypoints
   are inserted at wrong parameters *)
Theorem C21_interp_offset_refuted : exists (p p' : path Qc) t, bare (hd_of p) /\ ranged p /\
  reverse Qc lerp p = Ok p' /\ plength p' = plength p /\ 0 <= t /\ t <= plength p /\
  eval Qc lerp p' (start p' + t) <> eval Qc lerp p (stop p - t).
Proof.
  exists (Interp (mk_hdr (qn 1, qn 4) None) [(qn 1, qn 0); (qn 2, qn 9); (qn 4, qn 0)]).
  eexists _, (qn 2). split; [apply bare_mk|]. split; [discriminate|]. split; [reflexivity|].
  split; [apply Qc_is_canon; reflexivity|]. split; [discriminate|]. split; [discriminate|].
  intros E. differ E.
Qed.
(* a time-parameterized path: the time law is kept increasing from the wrong end *)
Theorem C21_time_refuted : exists (p p' : path Qc) t, ranged p /\ start p = 0 /\
  reverse Qc lerp p = Ok p' /\ 0 <= t /\ t <= plength p /\
  eval Qc lerp p' (start p' + t) <> eval Qc lerp p (stop p - t).
Proof.
  pose (sq := fun t : Qc => t * t).
  exists (Straight (mkH (0, qn 2) (sq 0, sq (qn 2)) None (Some sq)) (qn 0) (qn 4)).
  eexists _, (qn 1). split; [discriminate|]. split; [reflexivity|]. split; [reflexivity|].
  split; [discriminate|]. split; [discriminate|]. intros E. differ E.
Qed.

(* ------------------------------------------------------------------ *)
(* C23 *)
Theorem C23_waypoints : forall conf interp (q0 q1 : conf) I ins p0, geodesic interp ->
  fst I <= snd I -> Forall (fun k => fst I <= fst k /\ fst k <= snd I) ins ->
  interp_create q0 q1 I None = Ok p0 ->
  let p := inserted ins p0 in
  let l := given q0 q1 I ins in
  timeRange p = I /\
  (forall k, waypoint l k -> eval conf interp p (fst k) = Ok (Some (snd k))) /\
  (forall a b t, consecutive l a b -> fst a <= t -> t <= fst b ->
     eval conf interp p t = Ok (Some (interp (snd a) (snd b) ((t - fst a) / (fst b - fst a))))) /\
  (forall t, fst I <= t -> t <= snd I ->
     (exists k, waypoint l k /\ fst k = t) \/ (exists a b, consecutive l a b /\ fst a <= t /\ t <= fst b)) /\
  initial conf interp p = Ok (Some q0) /\
  (fst I < snd I -> end_ conf interp p = Ok (Some q1)).
Proof.
  intros conf interp q0 q1 I ins p0 Hg HI Hins H. cbn zeta.
  destruct (built_eval conf interp Hg q0 q1 I ins p0 HI Hins H) as (A & B & C & D).
  split; [|split; [exact A|split; [exact B|split; [|split; [exact C|exact D]]]]].
  - destruct (built conf q0 q1 I ins p0 H) as (ks & E & _). rewrite E. reflexivity.
  - intros t H1 H2. apply waypoints_cover; assumption.
Qed.
Example C23_ex : exists p0, interp_create (qn 10) (qn 8) (qn 0, qn 3) None = Ok p0 /\
  eval Qc lerp (inserted [(qn 2, qn 4); (qn 1, qn 6); (qn 2, qn 5)] p0) (qn 2) = Ok (Some (qn 4)) /\
  consecutive (given (qn 10) (qn 8) (qn 0, qn 3) [(qn 2, qn 4); (qn 1, qn 6); (qn 2, qn 5)]) (qn 1, qn 6) (qn 2, qn 4) /\
  eval Qc lerp (inserted [(qn 2, qn 4); (qn 1, qn 6); (qn 2, qn 5)] p0) (Q2Qc (3 # 2)) = Ok (Some (qn 5)).
Proof.
  eexists. split; [vm_compute; reflexivity|]. split; [by_show|]. split; [|by_show].
  assert (N : forall a b, (a =? b)%Z = false -> qn a <> qn b).
  { intros a b Hab E. apply this_eq in E. unfold qn, Q2Qc in E. cbn [this] in E. rewrite !Qred_correct in E.
    unfold inject_Z, Qeq in E. cbn in E. apply Z.eqb_neq in Hab. lia. }
  split; [|split; [|split]].
  - exists [(qn 0, qn 10); (qn 3, qn 8); (qn 2, qn 4)], [(qn 2, qn 5)]. split; [reflexivity|].
    repeat constructor; cbn [fst]; apply N; reflexivity.
  - exists [(qn 0, qn 10); (qn 3, qn 8)], [(qn 1, qn 6); (qn 2, qn 5)]. split; [reflexivity|].
    repeat constructor; cbn [fst]; apply N; reflexivity.
  - reflexivity.
  - intros w Hw. apply waypoint_In in Hw. cbn in Hw.
    destruct Hw as [<-|[<-|[<-|[<-|[<-|[]]]]]]; cbn [fst].
    + left. discriminate.
    + right. discriminate.
    + right. discriminate.
    + left. discriminate.
    + right. discriminate.
Qed.

(* ------------------------------------------------------------------ *)
(* C24 *)
Theorem C24_straight : forall conf interp (q0 q1 : conf) I p, geodesic interp ->
  fst I <= snd I -> (fst I = snd I -> q0 = q1) ->
  straight_create q0 q1 I None = Ok p ->
  timeRange p = I /\
  eval conf interp p (fst I) = Ok (Some q0) /\ eval conf interp p (snd I) = Ok (Some q1) /\
  initial conf interp p = Ok (Some q0) /\ end_ conf interp p = Ok (Some q1) /\
  (fst I < snd I -> forall t, fst I <= t -> t <= snd I ->
     eval conf interp p t = Ok (Some (interp q0 q1 ((t - fst I) / (snd I - fst I))))).
Proof.
  intros conf interp q0 q1 I p Hg HI Hz H. unfold straight_create in H. cbn [check_ends mk_hdr cs] in H.
  injection H as <-. fold (@mk_hdr conf I None).
  destruct (sval_ends conf interp Hg I q0 q1 HI Hz) as [E1 E0].
  assert (B : bare (mk_hdr I (@None (constr conf)))) by apply bare_mk.
  split; [reflexivity|].
  rewrite !(straight_eval conf interp Hg (mk_hdr I None) q0 q1 _ B). cbn [mk_hdr tr].
  split; [rewrite E0; reflexivity|]. split; [rewrite E1; reflexivity|].
  split; [reflexivity|]. split; [reflexivity|].
  intros Hlt t _ _. rewrite (straight_eval conf interp Hg (mk_hdr I None) q0 q1 _ B). cbn [mk_hdr tr].
  unfold sval, ilen. qcaseeq (snd I - fst I) 0; [|reflexivity].
  exfalso. apply (Qclt_not_le _ _ Hlt). qc.
Qed.
(* constant velocity: equal fractions of time are equal fractions of the way *)
Theorem C24_constant_speed : forall conf interp (q0 q1 : conf) I p a b qa qb, geodesic interp ->
  straight_create q0 q1 I None = Ok p ->
  fst I < snd I -> fst I <= a -> a <= snd I -> fst I <= b -> b <= snd I ->
  eval conf interp p a = Ok (Some qa) -> eval conf interp p b = Ok (Some qb) ->
  forall w, unit_itv w -> eval conf interp p (a + w * (b - a)) = Ok (Some (interp qa qb w)).
Proof.
  intros conf interp q0 q1 I p a b qa qb Hg H HI A1 A2 B1 B2 Ea Eb w Hw.
  unfold straight_create in H. cbn [check_ends mk_hdr cs] in H. injection H as <-. fold (@mk_hdr conf I None) in *.
  assert (B : bare (mk_hdr I (@None (constr conf)))) by apply bare_mk.
  rewrite (straight_eval conf interp Hg (mk_hdr I None) q0 q1 _ B) in Ea.
  rewrite (straight_eval conf interp Hg (mk_hdr I None) q0 q1 _ B) in Eb.
  rewrite (straight_eval conf interp Hg (mk_hdr I None) q0 q1 _ B). cbn [mk_hdr tr] in *.
  unfold sval, ilen in *.
  assert (Hne : snd I - fst I <> 0) by (intros E; apply (Qclt_not_le _ _ HI); qc).
  assert (Hq : qeqb (snd I - fst I) 0 = false)
    by (destruct (qeqb_spec (snd I - fst I) 0); [contradiction|reflexivity]).
  rewrite Hq in *.
  injection Ea as <-. injection Eb as <-. do 2 f_equal. symmetry.
  destruct Hg as (_ & _ & G). rewrite G; [|apply Qcdiv_le_1; qc|apply Qcdiv_le_1; qc|exact Hw].
  f_equal. field. exact Hne.
Qed.
(* extraction, in either direction, gives the straight path between the
   evaluated ends, of the same duration *)
Theorem C24_extract : forall conf interp (q0 q1 : conf) I p a b, geodesic interp ->
  straight_create q0 q1 I None = Ok p ->
  exists qa qb l p', eval conf interp p a = Ok (Some qa) /\ eval conf interp p b = Ok (Some qb) /\
    l = (if qleb a b then b - a else a - b) /\
    extract conf interp p (a, b) = Ok p' /\ straight_create qa qb (0, l) None = Ok p'.
Proof.
  intros conf interp q0 q1 I p a b Hg H.
  unfold straight_create in H. cbn [check_ends mk_hdr cs] in H. injection H as <-. fold (@mk_hdr conf I None).
  assert (B : bare (mk_hdr I (@None (constr conf)))) by apply bare_mk.
  destruct (straight_extract_total conf interp (mk_hdr I None) q0 q1 (a, b) B) as [p' E].
  pose proof (straight_extract_ok conf interp Hg _ _ _ _ _ B E) as E'.
  eexists _, _, _, p'. rewrite !(straight_eval conf interp Hg (mk_hdr I None) q0 q1 _ B).
  split; [reflexivity|]. split; [reflexivity|]. split; [reflexivity|].
  split; [exact E|]. rewrite E'. reflexivity.
Qed.
Example C24_ex : exists p, straight_create (qn 4) (qn 10) (qn 5, qn 8) None = Ok p /\
  eval Qc lerp p (qn 6) = Ok (Some (qn 6)).
Proof. eexists. split; [reflexivity|by_show]. Qed.

Print Assumptions C18_plays_in_order.
Print Assumptions C18_constrained_vector.
Print Assumptions C18_rank_in_range.
Print Assumptions C18_ends.
Print Assumptions C19_concatenate.
Print Assumptions C19_concatenate_constrained.
Print Assumptions C19_flatten.
Print Assumptions C19_flatten_refuted.
Print Assumptions C19_concatenate_refuted.
Print Assumptions C19_both_constrained_throws.
Print Assumptions C20_extract_partial.
Print Assumptions C20_extract_total_partial.
Print Assumptions C20_generic_time_partial.
Print Assumptions C20_interp_total_partial.
Print Assumptions C20_interp_end_refuted.
Print Assumptions C20_vector_end_refuted.
Print Assumptions C20_straight_time_refuted.
Print Assumptions C20_vector_constraints_refuted.
Print Assumptions C21_reverse_partial.
Print Assumptions C21_twice_partial.
Print Assumptions C21_extract_back_partial.
Print Assumptions C21_generic_offset_refuted.
Print Assumptions C21_generic_part_refuted.
Print Assumptions C21_interp_offset_refuted.
Print Assumptions C21_time_refuted.
Print Assumptions C23_waypoints.
Print Assumptions C23_create_total.
Print Assumptions C24_straight.
Print Assumptions C24_constant_speed.
Print Assumptions C24_extract.
