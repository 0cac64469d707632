(* The partial shortcut optimizer on real numbers: joints with real
   coordinates, weighted Euclidean distance, straight paths whose duration is
   their length. *)
From Coq Require Import Lia Reals Lra FunctionalExtensionality.
From Verif Require Import Base VecSpec VecProofs PartialCutModel PartialCutProofs.
Open Scope R_scope.

Definition rltb (a b : R) : bool := if Rlt_dec a b then true else false.

(* -------------------------------------------------- weighted Euclidean *)
Fixpoint sumf (n : nat) (f : nat -> R) : R :=
  match n with O => 0 | S k => sumf k f + f k end.
Lemma sumf_ext n f g : (forall k, (k < n)%nat -> f k = g k) -> sumf n f = sumf n g.
Proof. induction n as [|n IH]; intros H; cbn; [reflexivity|]. rewrite IH by (intros; apply H; lia). rewrite H by lia. reflexivity. Qed.
Lemma sumf_le n f g : (forall k, (k < n)%nat -> f k <= g k) -> sumf n f <= sumf n g.
Proof.
  induction n as [|n IH]; intros H; cbn; [lra|]. pose proof (IH ltac:(intros; apply H; lia)). pose proof (H n ltac:(lia)). lra.
Qed.
Lemma sumf_plus n f g : sumf n (fun k => f k + g k) = sumf n f + sumf n g.
Proof. induction n as [|n IH]; cbn; [lra|]. rewrite IH. lra. Qed.
Lemma sumf_scale n c f : sumf n (fun k => c * f k) = c * sumf n f.
Proof. induction n as [|n IH]; cbn; [lra|]. rewrite IH. lra. Qed.
Lemma sumf_nonneg n f : (forall k, (k < n)%nat -> 0 <= f k) -> 0 <= sumf n f.
Proof. intros H. rewrite <- (Rmult_0_l (sumf n (fun _ => 0))). rewrite <- sumf_scale. apply sumf_le. intros k Hk. rewrite Rmult_0_l. auto. Qed.
Lemma sumf_zero n f : (forall k, (k < n)%nat -> 0 <= f k) -> sumf n f <= 0 -> forall k, (k < n)%nat -> f k = 0.
Proof.
  induction n as [|n IH]; intros H L k Hk; [lia|]. cbn in L.
  pose proof (sumf_nonneg n f ltac:(intros; apply H; lia)). pose proof (H n ltac:(lia)).
  destruct (Nat.eq_dec k n) as [->|]; [lra|]. apply IH; [intros; apply H; lia|lra|lia].
Qed.

Section Euclid.
Variable n : nat.                     (* number of coordinates *)
Variable c : nat -> R.                (* squared weights *)
Hypothesis c_nonneg : forall k, (k < n)%nat -> 0 <= c k.
Notation conf := (nat -> R).

Definition ip (f g : conf) : R := sumf n (fun k => c k * f k * g k).
Definition vsub (a b : conf) : conf := fun k => a k - b k.
Definition edist (a b : conf) : R := sqrt (ip (vsub b a) (vsub b a)).

Lemma ip_self f : 0 <= ip f f.
Proof. apply sumf_nonneg. intros k Hk. pose proof (c_nonneg k Hk). nra. Qed.
Lemma edist_nonneg a b : 0 <= edist a b. Proof. apply sqrt_pos. Qed.
Lemma edist_sq a b : edist a b * edist a b = ip (vsub b a) (vsub b a).
Proof. apply sqrt_sqrt. apply ip_self. Qed.
Lemma ip_zero f g : ip f f <= 0 -> ip f g = 0.
Proof.
  intros H. unfold ip in *. 
  assert (Z : forall k, (k < n)%nat -> c k * f k * f k = 0).
  { apply sumf_zero; [|exact H]. intros k Hk. pose proof (c_nonneg k Hk). nra. }
  transitivity (sumf n (fun k => 0 * 0)); [|rewrite sumf_scale; ring].
  apply sumf_ext. intros k Hk. specialize (Z k Hk).
  assert (c k * f k = 0) by (destruct (Req_dec (f k) 0) as [E|E]; [rewrite E; ring|apply Rmult_eq_reg_r with (f k); lra]).
  rewrite H0. ring.
Qed.
Lemma ip_lin a b f g : ip (fun k => a * f k + b * g k) (fun k => a * f k + b * g k) =
  a * a * ip f f + 2 * a * b * ip f g + b * b * ip g g.
Proof.
  unfold ip. rewrite <- !sumf_scale, <- !sumf_plus. apply sumf_ext. intros k _. ring.
Qed.
Lemma ip_comm f g : ip f g = ip g f.
Proof. apply sumf_ext. intros. ring. Qed.
Lemma cauchy f g : ip f g <= sqrt (ip f f) * sqrt (ip g g).
Proof.
  pose proof (ip_self f) as Hf. pose proof (ip_self g) as Hg.
  set (x := sqrt (ip f f)). set (y := sqrt (ip g g)).
  assert (X : x * x = ip f f) by (apply sqrt_sqrt; exact Hf).
  assert (Y : y * y = ip g g) by (apply sqrt_sqrt; exact Hg).
  assert (X0 : 0 <= x) by apply sqrt_pos. assert (Y0 : 0 <= y) by apply sqrt_pos.
  destruct (Rle_lt_dec (ip f f) 0) as [L|L]; [rewrite (ip_zero f g L); nra|].
  destruct (Rle_lt_dec (ip g g) 0) as [L'|L']; [rewrite ip_comm, (ip_zero g f L'); nra|].
  pose proof (ip_self (fun k => y * f k + (- x) * g k)) as K. rewrite ip_lin, <- X, <- Y in K.
  assert (x > 0) by nra. assert (y > 0) by nra.
  assert (0 < x * y) by nra.
  apply Rmult_le_reg_l with (2 * (x * y)); nra.
Qed.
Lemma edist_tri a b d : edist a d <= edist a b + edist b d.
Proof.
  pose proof (edist_nonneg a b) as A. pose proof (edist_nonneg b d) as B. pose proof (edist_nonneg a d) as D.
  apply Rsqr_incr_0; [|exact D|lra]. unfold Rsqr. rewrite edist_sq.
  pose proof (cauchy (vsub b a) (vsub d b)) as K. fold (edist a b) in K. fold (edist b d) in K.
  replace (ip (vsub d a) (vsub d a)) with (ip (fun k => 1 * vsub b a k + 1 * vsub d b k) (fun k => 1 * vsub b a k + 1 * vsub d b k))
    by (apply sumf_ext; intros; unfold vsub; ring).
  rewrite ip_lin. pose proof (edist_sq a b). pose proof (edist_sq b d). nra.
Qed.
Lemma edist_refl a : edist a a = 0.
Proof.
  unfold edist. replace (ip (vsub a a) (vsub a a)) with 0; [apply sqrt_0|].
  symmetry. rewrite ip_zero; [reflexivity|]. unfold ip. right.
  transitivity (sumf n (fun k => 0 * 0)); [|rewrite sumf_scale; ring].
  apply sumf_ext. intros. unfold vsub. ring.
Qed.

(* -------------------------------------------------- straight paths *)
Record seg := mkSeg { g_init : conf; g_fin : conf; g_rng : R * R }.
Definition gsteer (a b : conf) : option (list seg) := Some [mkSeg a b (0, edist a b)].
(* no constraint: apply always succeeds and changes nothing *)
Definition gcons (p : seg) : option (conf -> option conf) := Some (fun q => Some q).
(* a joint is the set of its coordinates *)
Definition gmix (j : nat -> bool) (q1 q2 : conf) (u : R) (q : conf) : conf :=
  fun k => if j k then q1 k + u * (q2 k - q1 k) else q k.

Notation glen := (len seg R Rminus g_rng).
Notation gvlen := (vlen seg R 0 Rplus Rminus g_rng).
Notation grank_loop := (rank_loop seg R Rplus Rminus rltb g_rng).
Notation ggen_loop := (gen_loop conf seg (nat -> bool) R Rplus Rminus Rdiv g_fin g_rng gcons gsteer gmix).
Notation ggenerate := (generate conf seg (nat -> bool) R 0 Rplus Rminus Rdiv rltb g_fin g_rng gcons gsteer gmix).
Notation gfull_loop valid := (full_loop conf seg (nat -> bool) R 0 Rplus Rminus Rdiv rltb g_fin g_rng gcons gsteer valid gmix).
Notation gpath_length := (path_length conf seg R 0 Rplus g_init g_fin edist).

(* the duration of each path is the distance between its ends *)
Definition unit_speed (l : list seg) : Prop :=
  Forall (fun p => glen p = edist (g_init p) (g_fin p)) l.
Definition starts_at_0 (l : list seg) : Prop :=
  match l with [] => True | p :: _ => fst (g_rng p) = 0 end.

Fixpoint elen (l : list seg) : R :=
  match l with [] => 0 | p :: r => edist (g_init p) (g_fin p) + elen r end.
Lemma fold_elen l : forall x, fold_left (fun r p => r + edist (g_init p) (g_fin p)) l x = x + elen l.
Proof. induction l as [|p l IH]; intros x; cbn; [ring|]. rewrite IH. ring. Qed.
Lemma path_length_elen l : gpath_length l = elen l.
Proof. unfold path_length. rewrite fold_elen. ring. Qed.
Lemma elen_app l m : elen (l ++ m) = elen l + elen m.
Proof. induction l as [|p l IH]; cbn; [ring|]. rewrite IH. ring. Qed.
Lemma vlen_elen l : unit_speed l -> gvlen l = elen l.
Proof. induction 1 as [|p l H _ IH]; cbn [vlen elen]; [reflexivity|]. rewrite IH, H. reflexivity. Qed.
Lemma elen_nonneg l : 0 <= elen l.
Proof. induction l as [|p l IH]; cbn; [lra|]. pose proof (edist_nonneg (g_init p) (g_fin p)). lra. Qed.
Lemma chained_elen l : forall a b, chained g_init g_fin a l b -> edist a b <= elen l.
Proof.
  induction l as [|p l IH]; cbn; intros a b; [intros ->; rewrite edist_refl; lra|].
  intros (<- & H). pose proof (edist_tri (g_init p) (g_fin p) b). specialize (IH _ _ H). lra.
Qed.

(* masks *)
Section Joint.
Variable j : nat -> bool.
Variables q1 q2 : conf.
Variable L : R.
Hypothesis L_pos : 0 < L.
Definition mask (f : conf) : conf := fun k => if j k then f k else 0.
Definition del : conf := fun k => (q2 k - q1 k) / L.

(* one segment: from a (at time t) to b (at time t + d), |b - a| <= d *)
Lemma one_segment a b t d : 0 <= d -> edist a b <= d ->
  edist (gmix j q1 q2 (t / L) a) (gmix j q1 q2 ((t + d) / L) b) <=
  d - ip (mask (vsub b a)) (mask del) + d * ip (mask del) (mask del).
Proof.
  intros D H. set (y0 := gmix j q1 q2 (t / L) a). set (y1 := gmix j q1 q2 ((t + d) / L) b).
  pose proof (edist_nonneg y0 y1) as N0. pose proof (edist_nonneg a b) as N1.
  pose proof (edist_sq y0 y1) as N2. pose proof (edist_sq a b) as N3.
  set (X := ip (mask (vsub b a)) (mask del)). set (Y := ip (mask del) (mask del)).
  assert (HY : 0 <= Y) by apply ip_self.
  assert (K : ip (vsub y1 y0) (vsub y1 y0) <= ip (vsub b a) (vsub b a) - 2 * d * X + 2 * (d * d) * Y).
  { unfold X, Y, ip.
    replace (sumf n (fun k => c k * vsub b a k * vsub b a k) - 2 * d * sumf n (fun k => c k * mask (vsub b a) k * mask del k) +
       2 * (d * d) * sumf n (fun k => c k * mask del k * mask del k)) with
      (sumf n (fun k => c k * vsub b a k * vsub b a k) + ((- (2 * d)) * sumf n (fun k => c k * mask (vsub b a) k * mask del k) +
       2 * (d * d) * sumf n (fun k => c k * mask del k * mask del k))) by ring.
    rewrite <- !sumf_scale, <- !sumf_plus. apply sumf_le. intros k Hk. pose proof (c_nonneg k Hk) as Ck.
    unfold vsub, y0, y1, gmix, mask, del. destruct (j k).
    - replace (q1 k + (t + d) / L * (q2 k - q1 k) - (q1 k + t / L * (q2 k - q1 k))) with (d * ((q2 k - q1 k) / L)) by (field; lra).
      set (e := (q2 k - q1 k) / L). set (v := b k - a k).
      pose proof (Rle_0_sqr (v - d * e)) as S. unfold Rsqr in S. nra.
    - nra. }
  destruct (Rle_lt_dec d 0) as [Z|Z].
  - assert (d = 0) by lra. subst d. assert (E0 : ip (vsub b a) (vsub b a) <= 0) by nra.
    assert (X = 0).
    { unfold X. apply ip_zero. unfold ip in *. eapply Rle_trans; [|exact E0]. apply sumf_le. intros k Hk.
      pose proof (c_nonneg k Hk). unfold mask. destruct (j k); nra. }
    assert (Sq : edist y0 y1 * edist y0 y1 <= 0) by (rewrite N2; nra).
    assert (edist y0 y1 = 0) by (apply Rsqr_0_uniq; unfold Rsqr; nra). lra.
  - assert (edist a b * edist a b <= d * d) by nra.
    apply Rmult_le_reg_l with d; [exact Z|].
    pose proof (Rle_0_sqr (edist y0 y1 - d)) as S. unfold Rsqr in S.
    rewrite <- N2 in K. rewrite <- N3 in K.
    clearbody X Y. generalize dependent (edist y0 y1). generalize dependent (edist a b). intros; lra.
Qed.

(* the whole loop, from the way-point a at time t *)
Lemma gen_bound l : forall a t b qe r, unit_speed l -> chained g_init g_fin a l b ->
  ggen_loop j q1 q2 L l (gmix j q1 q2 (t / L) a) t = Some (qe, r) ->
  qe = gmix j q1 q2 ((t + elen l) / L) b /\
  elen r <= elen l - ip (mask (vsub b a)) (mask del) + elen l * ip (mask del) (mask del) /\ unit_speed r /\
  Forall (fun p => fst (g_rng p) = 0) r.
Proof.
  induction l as [|p l IH]; intros a t b qe r HU HC; cbn [gen_loop].
  - intros E. injection E as <- <-. cbn in HC. subst b. cbn [elen].
    rewrite Rplus_0_r. split; [reflexivity|]. split; [|split; constructor].
    assert (Z : ip (mask (vsub a a)) (mask del) = 0).
    { apply ip_zero. unfold ip. right. transitivity (sumf n (fun k => 0 * 0)); [|rewrite sumf_scale; ring].
      apply sumf_ext. intros k _. unfold mask, vsub. destruct (j k); ring. }
    rewrite Z. lra.
  - cbv zeta. cbn [gcons]. unfold gsteer at 1. cbn in HC. destruct HC as (<- & HC).
    inversion HU as [|? ? H1 H2]; subst.
    destruct (ggen_loop j q1 q2 L l _ _) as [[qe' r']|] eqn:E; [|discriminate].
    intros Eq. injection Eq as <- <-. rewrite H1 in E.
    destruct (IH (g_fin p) _ b qe' r' H2 HC E) as (I1 & I2 & I3 & I4).
    pose proof (one_segment (g_init p) (g_fin p) t _ (edist_nonneg _ _) (Rle_refl _)) as S.
    cbn [elen app g_init g_fin]. split; [rewrite I1; f_equal; f_equal; lra|]. split; [|split].
    + try rewrite H1.
      assert (Sp : ip (mask (vsub b (g_init p))) (mask del) = ip (mask (vsub (g_fin p) (g_init p))) (mask del) + ip (mask (vsub b (g_fin p))) (mask del)).
      { unfold ip. rewrite <- sumf_plus. apply sumf_ext. intros k _. unfold mask, vsub. destruct (j k); ring. }
      rewrite Sp. cbn [g_init g_fin]. lra.
    + constructor; [cbn; unfold len; cbn; ring|exact I3].
    + constructor; [reflexivity|exact I4].
Qed.
End Joint.

Lemma firstn_chained l : forall r a b, chained g_init g_fin a l b ->
  exists m, chained g_init g_fin a (firstn r l) m /\ chained g_init g_fin m (skipn r l) b.
Proof.
  intros r a b H. rewrite <- (firstn_skipn r l) in H. apply chained_app in H. exact H.
Qed.
Lemma firstn_unit l r : unit_speed l -> unit_speed (firstn r l).
Proof. intros H. rewrite <- (firstn_skipn r l) in H. apply Forall_app in H. apply H. Qed.

Lemma rank_0 l y i : unit_speed l -> starts_at_0 l -> l <> [] -> grank_loop l 0 0 = Ok (i, y) -> i = 0%nat /\ y = 0.
Proof.
  intros HU HS N. destruct l as [|p l]; [contradiction|]. cbn [rank_loop]. inversion HU as [|? ? H1 _]; subst.
  rewrite H1. unfold rltb at 1. destruct (Rlt_dec _ 0) as [X|X].
  - pose proof (edist_nonneg (g_init p) (g_fin p)). lra.
  - intros E. injection E as <- <-. cbn in HS. rewrite HS. split; [reflexivity|ring].
Qed.

Lemma generate_shorter j l q1 q2 r : l <> [] -> unit_speed l -> starts_at_0 l -> chained g_init g_fin q1 l q2 ->
  ggenerate l j 0 q1 (gvlen l) q2 = Ok (Some r) ->
  elen r <= elen l /\ unit_speed r /\ starts_at_0 r.
Proof.
  intros N HU HS HC. unfold generate, rank. rewrite (vlen_elen l HU).
  destruct (grank_loop l 0 0) as [[r1 lt1]| | |] eqn:E1; cbn [bind]; try discriminate.
  destruct (rank_0 l lt1 r1 HU HS N E1) as (-> & ->).
  destruct (grank_loop l (elen l) 0) as [[r2 lt2]| | |] eqn:E2; cbn [bind]; try discriminate.
  destruct (Nat.eqb_spec 0 r2) as [|NE]; [discriminate|]. rewrite Nat.sub_0_r. cbn [skipn].
  destruct (Rle_lt_dec (elen l) 0) as [Z|Z].
  { exfalso. destruct l as [|p l]; [contradiction|]. inversion HU as [|? ? H1 _]; subst. cbn [rank_loop] in E2.
    rewrite H1 in E2. unfold rltb at 1 in E2. destruct (Rlt_dec _ _) as [X|X].
    - pose proof (edist_nonneg (g_init p) (g_fin p)). lra.
    - injection E2 as E2 _. congruence. }
  destruct (firstn_chained l r2 q1 q2 HC) as (m & C1 & C2).
  pose proof (firstn_unit l r2 HU) as U1.
  set (L := elen l). replace (L - 0) with L by ring. replace (0 - 0) with 0 by ring.
  destruct (ggen_loop j q1 q2 L (firstn r2 l) q1 0) as [[qe r']|] eqn:Eg; [|discriminate].
  unfold gsteer at 1. intros E. injection E as <-.
  assert (M0 : gmix j q1 q2 (0 / L) q1 = q1).
  { apply functional_extensionality. intros k. unfold gmix. destruct (j k); [|reflexivity]. field. unfold L; lra. }
  rewrite <- M0 in Eg at 2.
  destruct (gen_bound j q1 q2 L Z (firstn r2 l) q1 0 m qe r' U1 C1 Eg) as (I1 & I2 & I3 & I4).
  set (T1 := elen (firstn r2 l)) in *. set (T2 := elen (skipn r2 l)).
  assert (ET : T1 + T2 = L) by (unfold T1, T2, L; rewrite <- elen_app, firstn_skipn; reflexivity).
  pose proof (one_segment j q1 q2 L Z m q2 T1 T2 (elen_nonneg _) (chained_elen _ _ _ C2)) as S.
  assert (M1 : gmix j q1 q2 ((T1 + T2) / L) q2 = q2).
  { apply functional_extensionality. intros k. unfold gmix. destruct (j k); [|reflexivity]. rewrite ET. field. unfold L; lra. }
  rewrite M1 in S. rewrite Rplus_0_l in I1. rewrite <- I1 in S.
  split; [|split].
  - rewrite elen_app. cbn [elen g_init g_fin].
    assert (Sp : ip (mask j (vsub q2 q1)) (mask j (del q1 q2 L)) =
      ip (mask j (vsub m q1)) (mask j (del q1 q2 L)) + ip (mask j (vsub q2 m)) (mask j (del q1 q2 L))).
    { unfold ip. rewrite <- sumf_plus. apply sumf_ext. intros k _. unfold mask, vsub. destruct (j k); ring. }
    assert (Sq : ip (mask j (vsub q2 q1)) (mask j (del q1 q2 L)) = L * ip (mask j (del q1 q2 L)) (mask j (del q1 q2 L))).
    { unfold ip. rewrite <- sumf_scale. apply sumf_ext. intros k _. unfold mask, vsub, del. destruct (j k); [|ring].
      field. unfold L; lra. }
    fold T1 in I2. fold L. set (Y := ip (mask j (del q1 q2 L)) (mask j (del q1 q2 L))) in *.
    assert (L * Y = T1 * Y + T2 * Y) by (rewrite <- ET; ring). lra.
  - apply Forall_app. split; [exact I3|]. constructor; [unfold len; cbn; ring|constructor].
  - destruct r' as [|p0 r']; [reflexivity|]. inversion I4; subst. cbn. assumption.
Qed.

Lemma gsteer_joins a b ps : gsteer a b = Some ps -> ps <> [] /\ chained g_init g_fin a ps b.
Proof. intros E. injection E as <-. split; [discriminate|cbn; auto]. Qed.

Lemma full_shorter valid q0 q3 js : forall l r out, l <> [] -> unit_speed l -> starts_at_0 l -> chained g_init g_fin q0 l q3 ->
  gfull_loop valid q0 q3 js l = Ok (r, out) -> elen r <= elen l.
Proof.
  induction js as [|j js IH]; intros l r out N HU HS HC; cbn [full_loop].
  - intros E. injection E as <- <-. lra.
  - destruct (ggenerate l j 0 q0 (gvlen l) q3) as [o| | |] eqn:E; cbn [bind]; try discriminate.
    assert (Fl : bind (gfull_loop valid q0 q3 js l) (fun '(r, out) => Ok (r, j :: out)) = Ok (r, out) -> elen r <= elen l).
    { destruct (gfull_loop valid q0 q3 js l) as [[r1 o1]| | |] eqn:E'; cbn [bind]; try discriminate.
      intros X. injection X as <- _. eapply IH; [exact N|exact HU|exact HS|exact HC|exact E']. }
    destruct o as [r1|]; [|exact Fl]. destruct (valid r1); [|exact Fl]. intros E'.
    destruct (generate_shorter j l q0 q3 r1 N HU HS HC E) as (G1 & G2 & G3).
    destruct (generate_chained _ _ _ _ _ _ _ _ _ _ _ gsteer_joins _ _ _ _ _ _ _ E) as (G4 & G5).
    pose proof (IH r1 r out G4 G2 G3 G5 E'). lra.
Qed.
End Euclid.
