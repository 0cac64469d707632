(* Invariant of the dual method in exact arithmetic (eps = 0). *)
From Coq Require Import Reals Lra Lia Arith List Bool.
From Verif Require Import Base XReal SplineModel SplineProofs LinConsModel LinConsSpec LinConsProofs LinConsProofs2 GiModel GiSpec GiProofs GiProofs2.
Open Scope R_scope.

Section Dual.
Variables (n p m : nat) (c1 c2 : R) (G H0 : mat) (g : vec) (ceJ ciJ : mat) (ceb cib : vec).
Hypothesis GH : forall i l, (i < n)%nat -> (l < n)%nat -> rsum (fun k => G i k * H0 k l) n = mid i l.
Hypothesis Gsym : symmetric n G.
Hypothesis Gpsd : psd n G.
Notation cost := (cost n G g).
Notation feasible := (feasible n p m ceJ ciJ ceb cib).
Notation cd := (compute_d n).
Notation uz := (update_z n).

Definition nrm (A : nat -> nat) (k : nat) : vec := if (k <? p)%nat then ceJ k else ciJ (A k).
Definition rh (A : nat -> nat) (k : nat) : R := if (k <? p)%nat then ceb k else cib (A k).

Lemma cost_move x z t a : (forall i, (i < n)%nat -> True) -> dot n (fun i => mv n G x i + g i) z = a ->
  cost (fun k => x k + t * z k) = cost x + t * a + 1 / 2 * t * t * dot n z (mv n G z).
Proof.
  intros _ E. unfold GiSpec.cost.
  rewrite (dot_ext n _ (mv n G (fun k => x k + t * z k)) (fun k => x k + t * z k) (fun k => mv n G x k + t * mv n G z k))
    by (try (intros k _; reflexivity); intros k _; rewrite (mv_plus n G x), (mv_scal n G t z); reflexivity).
  rewrite (dot_plus_l n x (fun k => t * z k)), !(dot_plus_r n (mv n G x) (fun k => t * mv n G z k)).
  rewrite (dot_plus_r n x (fun k => t * z k)). rewrite !(dot_scal_l n t z), !(dot_scal_r n t).
  rewrite (dot_plus_l n (mv n G x) g) in E. rewrite (mv_sym n G x z Gsym). rewrite (dot_sym n (mv n G x) z) in E. rewrite <- E. field.
Qed.

Record core (st : gi) (q : nat) : Prop := {
  k_fact : fact n H0 (gJ st) (gR st) (giq st) (nrm (gA st));
  k_p : (p <= giq st)%nat;
  k_A : forall k, (p <= k < giq st)%nat -> (gA st k < m)%nat;
  k_inj : forall k k', (p <= k < giq st)%nat -> (p <= k' < giq st)%nat -> gA st k = gA st k' -> k = k';
  k_act : forall k, (k < giq st)%nat -> dot n (nrm (gA st) k) (gx st) = rh (gA st) k;
  k_dual : forall k, (p <= k < q)%nat -> 0 <= gu st k;
  k_stat : forall i, (i < n)%nat -> mv n G (gx st) i + g i = rsum (fun k => gu st k * nrm (gA st) k i) q;
  k_cost : gf st = cost (gx st)
}.

Lemma dot_rsum q (u : vec) (N : mat) v : dot n (fun i => rsum (fun k => u k * N k i) q) v = rsum (fun k => u k * dot n (N k) v) q.
Proof.
  unfold dot. rewrite (rsum_ext _ (fun i => rsum (fun k => u k * N k i * v i) q)) by (intros; symmetry; apply rsum_scal_r).
  rewrite rsum_swap. apply rsum_ext. intros k _. rewrite <- rsum_scal. apply rsum_ext. intros i _. ring.
Qed.

(* stationarity and complementarity give optimality *)
Lemma kkt_optimal st y : core st (giq st) -> feasible y -> cost (gx st) <= cost y.
Proof.
  intros HC [Y1 Y2]. pose proof (cost_move (gx st) (fun k => y k - gx st k) 1 _ (fun _ _ => Logic.I) eq_refl) as E.
  assert (Ey : cost (fun k => gx st k + 1 * (y k - gx st k)) = cost y).
  { unfold GiSpec.cost. rewrite !(dot_ext n (fun k => gx st k + 1 * (y k - gx st k)) _ y (mv n G y));
      try (intros k _; ring); [|intros k _; apply mv_ext; intros j _; ring].
    f_equal. apply dot_ext; intros k _; [reflexivity|ring]. }
  cbv beta in E. rewrite Ey in E. rewrite E. pose proof (Gpsd (fun k => y k - gx st k)).
  enough (0 <= dot n (fun i => mv n G (gx st) i + g i) (fun k => y k - gx st k)) by lra.
  rewrite (dot_ext n _ (fun k => y k - gx st k) (fun i => rsum (fun k => gu st k * nrm (gA st) k i) (giq st)) (fun k => y k - gx st k));
    [|intros i Hi; apply (k_stat _ _ HC i Hi)|intros i _; reflexivity].
  rewrite dot_rsum. apply rsum_nonneg. intros k Hk. rewrite (dot_minus_r n y (gx st)). rewrite (k_act _ _ HC k Hk).
  unfold nrm, rh. destruct (Nat.ltb_spec k p) as [L|L].
  - rewrite Y1 by exact L. right. ring.
  - apply Rmult_le_pos; [apply (k_dual _ _ HC); lia|]. pose proof (Y2 _ (k_A _ _ HC k ltac:(lia))). lra.
Qed.

(* ------------------------------------------------- equality constraints *)
Lemma core_nrm_eq A k : (k < p)%nat -> nrm A k = ceJ k.
Proof. intros H. unfold nrm. apply Nat.ltb_lt in H. rewrite H. reflexivity. Qed.
Record ecore (st : gi) : Prop := {
  e_fact : fact n H0 (gJ st) (gR st) (giq st) ceJ;
  e_act : forall k, (k < giq st)%nat -> dot n (ceJ k) (gx st) = ceb k;
  e_stat : forall i, (i < n)%nat -> mv n G (gx st) i + g i = rsum (fun k => gu st k * ceJ k i) (giq st);
  e_cost : gf st = cost (gx st)
}.
Lemma eq_phase_spec c : forall i st, ecore st -> giq st = i -> (i + c = p)%nat -> (p <= n)%nat ->
  (exists st', eq_phase n 0 ceJ ceb i c st = Ok (inl st') /\ ecore st' /\ giq st' = p) \/
  (exists st', eq_phase n 0 ceJ ceb i c st = Ok (inr st') /\ dependent n p ceJ).
Proof.
  induction c as [|c IH]; intros i st HC Hi Hp Hn.
  - left. exists st. cbn [eq_phase]. split; [reflexivity|]. split; [exact HC|lia].
  - cbn [eq_phase]. destruct HC as [F1 F2 F3 F4]. rewrite Hi in *.
    set (np := ceJ i). set (d := cd (gJ st) np). set (z := uz (gJ st) d i). set (r := update_r (gR st) d i).
    destruct (add_fact n H0 (gJ st) (gR st) i ceJ np (gRn st) F1 ltac:(lia)) as [B1 B2]. fold d in B1, B2.
    pose proof (z_np n (gJ st) i np) as Ew. fold d z in Ew. rewrite <- Ew in B1, B2.
    pose proof (G_z n G H0 (gJ st) (gR st) ceJ i np GH F1) as Gz. fold d z r in Gz.
    pose proof (fun k => N_z n H0 (gJ st) (gR st) ceJ i np F1 k) as Nz. fold d z in Nz.
    destruct (rltb 0 (Rabs (dot n z z))) eqn:Ez.
    + pose proof (zz_pos n (gJ st) i np) as Zp. fold d z in Zp.
      specialize (Zp Ez).
      destruct (B2 ltac:(lra)) as (R' & J' & Rn' & Ea & Fa). rewrite Ea.
      set (t2 := (- dot n np (gx st) - - ceb i) / dot n z np).
      apply IH; [|cbn [giq]; reflexivity|lia|lia]. split; cbn [gx gu gA giq gR gJ gRn gf].
      * eapply fact_ext; [|exact Fa]. intros k j Hk Hj. unfold updv. destruct (Nat.eqb_spec k i) as [->|]; reflexivity.
      * intros k Hk. rewrite (dot_plus_r n (gx st) (fun k => t2 * z k)), (dot_scal_r n t2 z).
        destruct (Nat.eq_dec k i) as [->|].
        -- fold np. rewrite (dot_sym n np z). unfold t2. field. lra.
        -- rewrite Nz by lia. rewrite F2 by lia. ring.
      * intros j Hj. rewrite (mv_plus n G (gx st)), (mv_scal n G t2 z), Gz by exact Hj.
        replace (mv n G (gx st) j + t2 * (np j - rsum (fun a => r a * ceJ a j) i) + g j) with
          ((mv n G (gx st) j + g j) - t2 * rsum (fun a => r a * ceJ a j) i + t2 * np j) by ring.
        rewrite F3 by exact Hj. rewrite <- rsum_scal, <- rsum_minus. cbn [rsum].
        rewrite Nat.ltb_irrefl, Nat.eqb_refl. fold np. f_equal. apply rsum_ext. intros k Hk.
        assert (X : (k <? i)%nat = true) by (apply Nat.ltb_lt; exact Hk). rewrite X. ring.
      * rewrite (cost_move (gx st) z t2 0); [|auto|].
        -- rewrite F4. rewrite (dot_ext n z (mv n G z) z (fun j => np j - rsum (fun a => r a * ceJ a j) i)) by (try (intros k _; reflexivity); exact Gz).
           rewrite (dot_minus_r n np). rewrite (dot_sym n z (fun j => rsum _ _)), dot_rsum.
           rewrite (rsum_zero (fun k => r k * _)); [field|]. intros k Hk. rewrite Nz by exact Hk. ring.
        -- rewrite (dot_ext n _ z (fun j => rsum (fun k => gu st k * ceJ k j) i) z); [|exact F3|intros k _; reflexivity].
           rewrite dot_rsum. apply rsum_zero. intros k Hk. rewrite Nz by exact Hk. ring.
    + pose proof (zz_nil n (gJ st) i np) as Zn. fold d z in Zn. specialize (Zn Ez).
      pose proof (zz_np n (gJ st) i np) as Zz. fold d z in Zz. specialize (Zz Zn).
      destruct (B1 Zz) as (R' & J' & Rn' & Ea). rewrite Ea. right. eexists. split; [reflexivity|].
      exists i, r. split; [lia|]. intros j Hj. specialize (Gz j Hj).
      pose proof (zz_zero n (gJ st) i np) as Z0. fold d z in Z0. specialize (Z0 Zn).
      unfold mv in Gz. rewrite rsum_zero in Gz; [unfold np in Gz; lra|]. intros k Hk. rewrite Z0 by exact Hk. ring.
Qed.

(* ------------------------------------------------------- the three labels *)
Definition known (f : full) : Prop := forall i, (i < m)%nat -> fiai f i = false ->
  exists k, (p <= k < giq (fst_ f))%nat /\ gA (fst_ f) k = i.
Definition slack (x : vec) (i : nat) : R := dot n (ciJ i) x + - cib i.
Definition inv1 (f : full) : Prop := core (fst_ f) (giq (fst_ f)) /\ known f.
Definition inv2 (f : full) : Prop := core (fst_ f) (giq (fst_ f)) /\ known f /\ fss f = 0 /\
  (forall i, (i < m)%nat -> fs f i = slack (gx (fst_ f)) i) /\ (forall i, fex f i = true).
Definition inv3 (f : full) : Prop := core (fst_ f) (S (giq (fst_ f))) /\ known f /\
  gA (fst_ f) (giq (fst_ f)) = fip f /\ (fip f < m)%nat /\ fs f (fip f) = slack (gx (fst_ f)) (fip f) /\ fs f (fip f) < 0.
Definition inv (l : pc) : full -> Prop := match l with L1 => inv1 | L2 => inv2 | L2a => inv3 end.
(* what the answers mean *)
Definition good (s : qpstatus) (c : option R) (st : gi) : Prop :=
  match s with
  | CONVERGED => feasible (gx st) /\ c = Some (cost (gx st)) /\ (forall y, feasible y -> cost (gx st) <= cost y) /\
    (p <= giq st)%nat /\ (forall k, (p <= k < giq st)%nat -> (gA st k < m)%nat /\ slack (gx st) (gA st k) = 0) /\
    (forall k k', (p <= k < giq st)%nat -> (p <= k' < giq st)%nat -> gA st k = gA st k' -> k = k')
  | UNBOUNDED => (forall y, ~ feasible y) /\ c = None
  | DEPENDENT => dependent n p ceJ
  end.
Definition goes (o : res out) : Prop :=
  match o with Ok (Done s c st) => good s c st | Ok (Next l f) => inv l f | _ => False end.

Lemma act_eq st q i : core st q -> (i < p)%nat -> dot n (ceJ i) (gx st) = ceb i.
Proof.
  intros HC Hi. pose proof (k_p _ _ HC). pose proof (k_act _ _ HC i ltac:(lia)) as X. unfold nrm, rh in X.
  apply Nat.ltb_lt in Hi. rewrite Hi in X. exact X.
Qed.
Lemma act_in st q k : core st q -> (p <= k < giq st)%nat -> slack (gx st) (gA st k) = 0.
Proof.
  intros HC Hk. pose proof (k_act _ _ HC k ltac:(lia)) as X. unfold nrm, rh in X. unfold slack.
  assert (E : (k <? p)%nat = false) by (apply Nat.ltb_ge; lia). rewrite E in X. lra.
Qed.
Lemma done_good st : core st (giq st) -> (forall i, (i < m)%nat -> 0 <= slack (gx st) i) -> good CONVERGED (Some (gf st)) st.
Proof.
  intros HC Hs. split; [|split; [|split; [|split; [exact (k_p _ _ HC)|split; [intros k Hk; split; [apply (k_A _ _ HC k Hk)|apply (act_in _ _ _ HC Hk)]|exact (k_inj _ _ HC)]]]]].
  - split; [intros i Hi; apply (act_eq _ _ _ HC Hi)|]. intros i Hi. specialize (Hs i Hi). unfold slack in Hs. lra.
  - rewrite (k_cost _ _ HC). reflexivity.
  - intros y Hy. apply kkt_optimal; assumption.
Qed.
Lemma l1_goes f : inv1 f -> goes (at_l1 n p m 0 c1 ciJ cib c2 f).
Proof.
  intros [HC HK]. unfold at_l1. cbv zeta. set (s := fun i => dot n (ciJ i) (gx (fst_ f)) + - cib i).
  set (psi := rsum (fun i => Rmin 0 (s i)) m). change (rsum (fun i => Rmin 0 (dot n (ciJ i) (gx (fst_ f)) + - cib i)) m) with psi.
  destruct (rleb (Rabs psi) (INR m * 0 * c1 * c2 * 100)) eqn:E; cbn [goes].
  - apply rleb_t in E. replace (INR m * 0 * c1 * c2 * 100) with 0 in E by ring.
    assert (psi = 0) by (pose proof (Rabs_pos psi); destruct (Req_dec psi 0) as [|X]; [assumption|apply Rabs_pos_lt in X; lra]).
    apply done_good; [exact HC|]. intros i Hi. change (0 <= s i).
    assert (K : forall q, (q <= m)%nat -> rsum (fun i => Rmin 0 (s i)) q = 0 -> forall i, (i < q)%nat -> 0 <= s i).
    { induction q as [|q IH]; intros Hq E0 j Hj; [lia|]. cbn [rsum] in E0.
      assert (Y : rsum (fun i => Rmin 0 (s i)) q <= 0).
      { pose proof (rsum_le (fun i => Rmin 0 (s i)) (fun _ => 0) q (fun _ _ => Rmin_l _ _)) as X. rewrite rsum_0 in X. exact X. }
      pose proof (Rmin_l 0 (s q)). assert (Rmin 0 (s q) = 0) by lra.
      destruct (Nat.eq_dec j q) as [->|]; [pose proof (Rmin_r 0 (s q)); lra|]. apply IH; [lia|lra|lia]. }
    apply (K m (le_n _) H i Hi).
  - split; [exact HC|]. cbn [fst_ fss fs fex fiai]. split; [|split; [reflexivity|split; [intros; reflexivity|reflexivity]]].
    intros i Hi X. cbn [fiai fst_] in *. apply andb_false_iff in X. destruct X as [X|X]; [apply HK; assumption|].
    apply negb_false_iff, existsb_exists in X. destruct X as (k & K1 & K2). apply in_seq in K1. apply Nat.eqb_eq in K2.
    exists k. split; [pose proof (k_p _ _ HC); lia|exact K2].
Qed.
Lemma choose_spec s iai ex c : forall i ss ip ss' ip', choose s iai ex i c ss ip = (ss', ip') ->
  ((ss' = ss /\ ip' = ip) \/ ((i <= ip' < i + c)%nat /\ ss' = s ip')) /\ ss' <= ss /\
  forall j, (i <= j < i + c)%nat -> iai j = true -> ex j = true -> ss' <= s j.
Proof.
  induction c as [|c IH]; intros i ss ip ss' ip' E; cbn [choose] in E.
  - injection E as <- <-. split; [left; auto|]. split; [lra|intros; lia].
  - destruct (rltb (s i) ss && iai i && ex i) eqn:Eb; apply IH in E; destruct E as (E1 & E2 & E3).
    + apply andb_prop in Eb. destruct Eb as [Eb _]. apply andb_prop in Eb. destruct Eb as [Eb _]. apply rltb_t in Eb.
      split; [right; destruct E1 as [[-> ->]|[E1 E1']]; [split; [lia|reflexivity]|split; [lia|exact E1']]|]. split; [lra|].
      intros j Hj Ha Hb. destruct (Nat.eq_dec j i) as [->|]; [exact E2|apply E3; try lia; assumption].
    + split; [destruct E1 as [E1|[E1 E1']]; [left; exact E1|right; split; [lia|exact E1']]|]. split; [exact E2|].
      intros j Hj Ha Hb. destruct (Nat.eq_dec j i) as [->|]; [|apply E3; try lia; assumption].
      rewrite Ha, Hb, !andb_true_r in Eb. apply rltb_f in Eb. lra.
Qed.
Lemma nrm_upd A k q v : (k <> q)%nat -> nrm (updv A q v) k = nrm A k.
Proof. intros H. unfold nrm. rewrite updv_ne by exact H. reflexivity. Qed.
Lemma rh_upd A k q v : (k <> q)%nat -> rh (updv A q v) k = rh A k.
Proof. intros H. unfold rh. rewrite updv_ne by exact H. reflexivity. Qed.
Lemma l2_goes f : inv2 f -> goes (at_l2 m f).
Proof.
  intros (HC & HK & Hss & Hs & Hex). unfold at_l2. cbv zeta.
  destruct (choose (fs f) (fiai f) (fex f) 0 m (fss f) (fip f)) as [ss ip] eqn:Ec. apply choose_spec in Ec. destruct Ec as (E1 & E2 & E3).
  rewrite Hss in *. destruct (rleb 0 ss) eqn:E; cbn [goes].
  - apply rleb_t in E. assert (ss = 0) by lra. apply done_good; [exact HC|]. intros i Hi.
    destruct (fiai f i) eqn:Ei.
    + rewrite <- Hs by exact Hi. specialize (E3 i ltac:(lia) Ei (Hex i)). lra.
    + destruct (HK i Hi Ei) as (k & K1 & <-). rewrite (act_in _ _ _ HC K1). lra.
  - apply rleb_f in E. destruct E1 as [[-> _]|[L1 L2]]; [lra|].
    pose proof HC as [F1 F2 F3 F4 F5 F6 F7 F8]. unfold inv, inv3, known. cbn [fst_ fss fs fex fiai fip giq gx gu gA gR gJ gf].
    split; [|split; [|split; [apply updv_eq|split; [lia|split; [rewrite <- Hs by lia; reflexivity|lra]]]]].
    + split; cbn [giq gx gu gA gR gJ gf].
      * eapply fact_ext; [|exact F1]. intros k j Hk _. rewrite nrm_upd by lia. reflexivity.
      * exact F2.
      * intros k Hk. rewrite updv_ne by lia. apply F3, Hk.
      * intros k k' Hk Hk'. rewrite !updv_ne by lia. apply F4; assumption.
      * intros k Hk. rewrite nrm_upd, rh_upd by lia. apply F5, Hk.
      * intros k Hk. destruct (Nat.eq_dec k (giq (fst_ f))) as [->|]; [rewrite updv_eq; lra|]. rewrite updv_ne by assumption. apply F6. lia.
      * intros i Hi. rewrite F7 by exact Hi. cbn [rsum]. rewrite updv_eq. rewrite Rmult_0_l, Rplus_0_r. apply rsum_ext. intros k Hk.
        rewrite updv_ne, nrm_upd by lia. reflexivity.
      * exact F8.
    + intros i Hi X. destruct (HK i Hi X) as (k & K1 & K2). exists k. split; [exact K1|]. rewrite updv_ne by lia. exact K2.
Qed.

(* moving along the directions *)
Section Move.
Variable st : gi.
Hypothesis HC : core st (S (giq st)).
Variable ip : nat.
Hypothesis Aip : gA st (giq st) = ip.
Let iq := giq st.
Let np := ciJ ip.
Let d := cd (gJ st) np.
Let z := uz (gJ st) d iq.
Let r := update_r (gR st) d iq.
Let moved (t : R) : vec := fun k => if (k <? iq)%nat then gu st k - t * r k else if (k =? iq)%nat then gu st k + t else gu st k.

Lemma nrm_last : nrm (gA st) iq = np.
Proof. pose proof (k_p _ _ HC) as H. unfold nrm. assert (E : (iq <? p)%nat = false) by (apply Nat.ltb_ge; exact H). rewrite E. unfold iq. rewrite Aip. reflexivity. Qed.
Lemma move_Gz i : (i < n)%nat -> mv n G z i = np i - rsum (fun a => r a * nrm (gA st) a i) iq.
Proof. exact (G_z n G H0 _ _ _ _ np GH (k_fact _ _ HC) i). Qed.
Lemma move_Nz k : (k < iq)%nat -> dot n (nrm (gA st) k) z = 0.
Proof. exact (N_z n H0 _ _ _ _ np (k_fact _ _ HC) k). Qed.
Lemma move_zGz : dot n z (mv n G z) = dot n z np.
Proof.
  rewrite (dot_ext n z (mv n G z) z (fun j => np j - rsum (fun a => r a * nrm (gA st) a j) iq)) by (try (intros k _; reflexivity); exact move_Gz).
  rewrite (dot_minus_r n np), (dot_sym n z (fun j => rsum _ _)), dot_rsum.
  rewrite (rsum_zero (fun k => r k * _)); [ring|]. intros k Hk. rewrite move_Nz by exact Hk. ring.
Qed.
Lemma move_stat t i : (i < n)%nat -> mv n G (fun k => gx st k + t * z k) i + g i = rsum (fun k => moved t k * nrm (gA st) k i) (S iq).
Proof.
  intros Hi. rewrite (mv_plus n G (gx st)), (mv_scal n G t z), move_Gz by exact Hi.
  replace (mv n G (gx st) i + t * (np i - rsum (fun a => r a * nrm (gA st) a i) iq) + g i) with
    ((mv n G (gx st) i + g i) - t * rsum (fun a => r a * nrm (gA st) a i) iq + t * np i) by ring.
  rewrite (k_stat _ _ HC i Hi). fold iq. cbn [rsum]. rewrite nrm_last.
  rewrite (rsum_ext (fun k => moved t k * _) (fun k => gu st k * nrm (gA st) k i - t * (r k * nrm (gA st) k i))).
  - rewrite rsum_minus, rsum_scal. unfold moved. rewrite Nat.ltb_irrefl, Nat.eqb_refl. ring.
  - intros k Hk. unfold moved. apply Nat.ltb_lt in Hk. rewrite Hk. ring.
Qed.
Lemma move_cost t : cost (fun k => gx st k + t * z k) = gf st + t * dot n z np * (1 / 2 * t + gu st iq).
Proof.
  rewrite (cost_move (gx st) z t (gu st iq * dot n z np)); [|auto|].
  - rewrite move_zGz, (k_cost _ _ HC). field.
  - rewrite (dot_ext n _ z (fun j => rsum (fun k => gu st k * nrm (gA st) k j) (S iq)) z); [|exact (k_stat _ _ HC)|intros k _; reflexivity].
    rewrite dot_rsum. cbn [rsum]. rewrite nrm_last, (dot_sym n np z). rewrite rsum_zero; [ring|].
    intros k Hk. rewrite move_Nz by exact Hk. ring.
Qed.
Lemma move_act t k : (k < iq)%nat -> dot n (nrm (gA st) k) (fun k => gx st k + t * z k) = rh (gA st) k.
Proof. intros Hk. rewrite (dot_plus_r n (gx st)), (dot_scal_r n t z), move_Nz by exact Hk. rewrite (k_act _ _ HC k Hk). ring. Qed.
Lemma move_slack t : slack (fun k => gx st k + t * z k) ip = slack (gx st) ip + t * dot n z np.
Proof. unfold slack. rewrite (dot_plus_r n (gx st)), (dot_scal_r n t z), (dot_sym n (ciJ ip) z). fold np. ring. Qed.
Lemma move_dual t : 0 <= t -> (forall j, (p <= j < iq)%nat -> 0 < r j -> t <= gu st j / r j) ->
  forall k, (p <= k < S iq)%nat -> 0 <= moved t k.
Proof.
  intros Ht Hr k Hk. pose proof (k_dual _ _ HC k Hk) as U. unfold moved. destruct (Nat.ltb_spec k iq) as [L|L].
  - destruct (Rlt_dec 0 (r k)) as [P|P].
    + specialize (Hr k ltac:(lia) P). apply (Rmult_le_compat_r (r k)) in Hr; [|lra]. unfold Rdiv in Hr. rewrite Rmult_assoc, Rinv_l in Hr by lra. lra.
    + assert (t * r k <= 0) by nra. lra.
  - assert (X : (k =? iq)%nat = true) by (apply Nat.eqb_eq; lia). rewrite X. lra.
Qed.

(* a constraint whose multiplier has become zero is dropped *)
Lemma drop x u f' l (s : vec) ss iai ex xo uo Ao j :
  (p <= j < iq)%nat -> gA st j = l -> u j = 0 -> (forall k, (p <= k < S iq)%nat -> 0 <= u k) ->
  (forall i, (i < n)%nat -> mv n G x i + g i = rsum (fun k => u k * nrm (gA st) k i) (S iq)) ->
  (forall k, (k < iq)%nat -> dot n (nrm (gA st) k) x = rh (gA st) k) -> f' = cost x ->
  (ip < m)%nat -> s ip = slack x ip -> s ip < 0 ->
  (forall i, (i < m)%nat -> iai i = false -> exists k, (p <= k < iq)%nat /\ gA st k = i) ->
  exists R' J' A' u', delete_constraint p (gR st) (gJ st) (gA st) u iq l = Ok (R', J', A', u') /\
    inv3 (mkFull (mkGi x u' A' (iq - 1) R' J' (gRn st) f') s ss ip (updv iai l true) ex xo uo Ao).
Proof.
  intros Hj Ej Uj Hu Hst Hact Hf Him Es Hs Hk. pose proof HC as [F1 F2 F3 F4 F5 F6 F7 F8]. fold iq in F1, F2, F3, F4, F5, Aip.
  destruct (del_fact n H0 (gJ st) (gR st) p (gA st) u iq (nrm (gA st)) l F1) as (qq & R' & J' & Q1 & Q2 & Q3 & Q4); [exists j; split; assumption|].
  assert (qq = j) by (apply F4; [exact Q1|exact Hj|congruence]). subst qq.
  eexists _, _, _, _. split; [exact Q3|].
  assert (SA : forall k, (k < iq)%nat -> shifted 0%nat (gA st) j iq k = if (j <=? k)%nat then gA st (S k) else gA st k).
  { intros k Hk'. unfold shifted. assert (X : (k =? iq)%nat = false) by (apply Nat.eqb_neq; lia). rewrite X.
    apply Nat.ltb_lt in Hk'. rewrite Hk', andb_true_r. reflexivity. }
  assert (SU : forall k, (k < iq)%nat -> shifted 0 u j iq k = if (j <=? k)%nat then u (S k) else u k).
  { intros k Hk'. unfold shifted. assert (X : (k =? iq)%nat = false) by (apply Nat.eqb_neq; lia). rewrite X.
    apply Nat.ltb_lt in Hk'. rewrite Hk', andb_true_r. reflexivity. }
  assert (SN : forall k, (k < iq)%nat -> nrm (shifted 0%nat (gA st) j iq) k = if (j <=? k)%nat then nrm (gA st) (S k) else nrm (gA st) k).
  { intros k Hk'. unfold nrm. rewrite (SA k Hk'). destruct (Nat.leb_spec j k) as [L|L]; [|reflexivity].
    assert (X : (k <? p)%nat = false) by (apply Nat.ltb_ge; lia). assert (Y : (S k <? p)%nat = false) by (apply Nat.ltb_ge; lia). rewrite X, Y. reflexivity. }
  assert (SH : forall k, (k < iq)%nat -> rh (shifted 0%nat (gA st) j iq) k = if (j <=? k)%nat then rh (gA st) (S k) else rh (gA st) k).
  { intros k Hk'. unfold rh. rewrite (SA k Hk'). destruct (Nat.leb_spec j k) as [L|L]; [|reflexivity].
    assert (X : (k <? p)%nat = false) by (apply Nat.ltb_ge; lia). assert (Y : (S k <? p)%nat = false) by (apply Nat.ltb_ge; lia). rewrite X, Y. reflexivity. }
  unfold inv3, known. cbn [fst_ fs fip fiai giq gx gu gA gR gJ gf].
  split; [|split; [|split; [|split; [exact Him|split; [exact Es|exact Hs]]]]].
  - split; cbn [giq gx gu gA gR gJ gf].
    + eapply fact_ext; [|exact Q4]. intros k i Hk' Hi. cbv beta. rewrite (SN k ltac:(lia)). destruct (j <=? k)%nat; reflexivity.
    + lia.
    + intros k Hk'. rewrite SA by lia. destruct (Nat.leb_spec j k); apply F3; lia.
    + intros k k' Hk1 Hk2. rewrite !SA by lia. intros E.
      destruct (Nat.leb_spec j k), (Nat.leb_spec j k'); apply F4 in E; lia.
    + intros k Hk'. rewrite SN, SH by lia. destruct (Nat.leb_spec j k); apply Hact; lia.
    + intros k Hk'. rewrite SU by lia. destruct (Nat.leb_spec j k); apply Hu; lia.
    + intros i Hi. rewrite Hst by exact Hi. rewrite (rsum_shift _ j iq) by (try lia; rewrite Uj; ring).
      replace (S (iq - 1)) with iq by lia. apply rsum_ext. intros k Hk'. rewrite SU, SN by exact Hk'. destruct (j <=? k)%nat; reflexivity.
    + exact Hf.
  - intros i Hi X. destruct (Nat.eq_dec i l) as [->|Hne]; [rewrite updv_eq in X; discriminate|]. rewrite updv_ne in X by exact Hne.
    destruct (Hk i Hi X) as (k & K1 & K2).
    assert (k <> j) by congruence. destruct (Nat.lt_ge_cases k j) as [L|L].
    + exists k. split; [lia|]. rewrite SA by lia. assert (Y : (j <=? k)%nat = false) by (apply Nat.leb_gt; exact L). rewrite Y. exact K2.
    + exists (k - 1)%nat. split; [lia|]. rewrite SA by lia. assert (Y : (j <=? k - 1)%nat = true) by (apply Nat.leb_le; lia). rewrite Y.
      replace (S (k - 1)) with k by lia. exact K2.
  - rewrite SA by lia. assert (Y : (j <=? iq - 1)%nat = true) by (apply Nat.leb_le; lia). rewrite Y. replace (S (iq - 1)) with iq by lia. exact Aip.
Qed.
End Move.
End Dual.
