(* Proofs about velocity bounds. *)
From Coq Require Import Sorting.Sorted.
From Verif Require Import Base QcTac PathModel PathSpec PathProofs PathProofs2 PathProofs3 PathProofs4
  PathProofs5 PathVelModel PathVelSpec.
Open Scope Qc_scope.

Lemma lerp_geodesic : geodesic lerp.
Proof.
  unfold geodesic, lerp. split; [|split]; intros; ring.
Qed.

Definition near (x y d : Qc) : Prop := y - x <= d /\ x - y <= d.

Lemma near_trans x y z d e : near x y d -> near y z e -> near x z (d + e).
Proof. unfold near. intros [A B] [C D]. split; qc. Qed.
Lemma near_le x y d e : near x y d -> d <= e -> near x y e.
Proof. unfold near. intros [A B] H. split; qc. Qed.
Lemma near_sym x y d : near x y d -> near y x d.
Proof. unfold near. tauto. Qed.
Lemma near_refl x d : 0 <= d -> near x x d.
Proof. unfold near. intros H. split; qc. Qed.

Lemma qmul_nonneg a b : 0 <= a -> 0 <= b -> 0 <= a * b.
Proof.
  intros Ha Hb. replace 0 with (0 * b) by ring. apply Qcmult_le_compat_r; assumption.
Qed.
Lemma qmul_le_r a b c : a <= b -> 0 <= c -> a * c <= b * c.
Proof. intros. apply Qcmult_le_compat_r; assumption. Qed.

Lemma qabs_near a b : near a b (qabs (b - a)).
Proof. unfold near, qabs. qcase 0 (b - a); split; qc. Qed.
Lemma qabs_nonneg a : 0 <= qabs a.
Proof. unfold qabs. qcase 0 a; qc. Qed.
Lemma qabs_mul_near a b k : 0 <= k -> near a (a + k * (b - a)) (k * qabs (b - a)).
Proof.
  intros Hk. unfold near, qabs. 
  assert (G : 0 <= k * (b - a) \/ b - a < 0).
  { destruct (Qclt_le_dec (b - a) 0) as [L|L]; [right; exact L|left; apply qmul_nonneg; assumption]. }
  qcase 0 (b - a).
  - pose proof (qmul_nonneg _ _ Hk Hc) as M. split; [replace (a + k * (b - a) - a) with (k * (b - a)) by ring; apply Qcle_refl|].
    replace (a - (a + k * (b - a))) with (- (k * (b - a))) by ring. qc.
  - assert (Hn : 0 <= - (b - a)) by qc. pose proof (qmul_nonneg _ _ Hk Hn) as M.
    split; [replace (a + k * (b - a) - a) with (- (k * - (b - a))) by ring; qc|].
    replace (a - (a + k * (b - a))) with (k * - (b - a)) by ring. apply Qcle_refl.
Qed.
Lemma qdiv_nonneg a b : 0 <= a -> 0 < b -> 0 <= a / b.
Proof.
  intros Ha Hb. unfold Qcdiv. apply qmul_nonneg; [exact Ha|].
  destruct (Qclt_le_dec (/ b) 0) as [L|L]; [|exact L]. exfalso.
  pose proof (qmul_nonneg (- / b) b ltac:(qc) ltac:(qc)) as M.
  replace (- / b * b) with (- (1)) in M by (field; apply not_eq_sym, qlt_neq; exact Hb).
  revert M. vm_compute. intros M. apply M. reflexivity.
Qed.
Lemma qmax_l a b : a <= qmax a b.
Proof. unfold qmax. qcase a b; [exact Hc|apply Qcle_refl]. Qed.
Lemma qmax_r a b : b <= qmax a b.
Proof. unfold qmax. qcase a b; [apply Qcle_refl|qc]. Qed.
Lemma qmax_id a b : b <= a -> qmax a b = a.
Proof. unfold qmax. intros H. qcase a b; [apply Qcle_antisym; assumption|reflexivity]. Qed.
Lemma qmin_id a b : a <= b -> qmin a b = a.
Proof. unfold qmin. intros H. qcase a b; [reflexivity|qc]. Qed.

(* ---- Lipschitz functions ---- *)
Definition lip (F : Qc -> res (option Qc)) (a b B : Qc) : Prop :=
  (forall t, a <= t -> t <= b -> exists x, F t = Ok (Some x)) /\
  forall u v x y, a <= u -> u <= v -> v <= b -> F u = Ok (Some x) -> F v = Ok (Some y) ->
    near x y (B * (v - u)).

Lemma lip_le F a b B C : lip F a b B -> B <= C -> lip F a b C.
Proof.
  intros [H0 H] HB. split; [exact H0|]. intros u v x y H1 H2 H3 Eu Ev.
  apply (near_le _ _ _ _ (H u v x y H1 H2 H3 Eu Ev)). apply qmul_le_r; [exact HB|qc].
Qed.
Lemma lip_join F a b c B : a <= b -> b <= c -> lip F a b B -> lip F b c B -> lip F a c B.
Proof.
  intros Hab Hbc [A0 A] [C0 C]. split.
  - intros t H1 H2. destruct (Qclt_le_dec t b) as [L|L]; [apply A0; qc|apply C0; assumption].
  - intros u v x y H1 H2 H3 Eu Ev.
    destruct (Qclt_le_dec v b) as [L|L]; [apply A; try assumption; qc|].
    destruct (Qclt_le_dec u b) as [M|M]; [|apply C; assumption].
    destruct (C0 b ltac:(apply Qcle_refl) Hbc) as (z & Ez).
    replace (B * (v - u)) with (B * (b - u) + B * (v - b)) by ring.
    apply (near_trans _ z).
    + apply A; try assumption; qc.
    + apply C; try assumption; qc.
Qed.
Lemma lip_ext F G a b B : (forall t, a <= t -> t <= b -> F t = G t) -> lip F a b B -> lip G a b B.
Proof.
  intros E [H0 H]. split.
  - intros t H1 H2. rewrite <- E by assumption. apply H0; assumption.
  - intros u v x y H1 H2 H3 Eu Ev. apply H; try assumption; rewrite E; try assumption; qc.
Qed.
Lemma lip_shift F a b c B : lip F a b B -> lip (fun t => F (t + c)) (a - c) (b - c) B.
Proof.
  intros [H0 H]. split.
  - intros t H1 H2. apply H0; qc.
  - intros u v x y H1 H2 H3 Eu Ev. replace (v - u) with ((v + c) - (u + c)) by ring.
    apply H; try assumption; qc.
Qed.
Lemma lip_flip F a b c B : lip F a b B -> lip (fun t => F (c - t)) (c - b) (c - a) B.
Proof.
  intros [H0 H]. split.
  - intros t H1 H2. apply H0; qc.
  - intros u v x y H1 H2 H3 Eu Ev. replace (v - u) with ((c - u) - (c - v)) by ring.
    apply near_sym. apply H; try assumption; qc.
Qed.
Lemma lip_law F (f : Qc -> Qc) a b B D : 0 <= B ->
  (forall u v, a <= u -> u <= v -> v <= b -> f u <= f v) ->
  (forall u v, a <= u -> u <= v -> v <= b -> f v - f u <= D * (v - u)) ->
  lip F (f a) (f b) B -> lip (fun t => F (f t)) a b (B * D).
Proof.
  intros HB Hm Hd [H0 H]. split.
  - intros t H1 H2. apply H0; apply Hm; try assumption; apply Qcle_refl.
  - intros u v x y H1 H2 H3 Eu Ev.
    apply (near_le x y (B * (f v - f u))).
    + apply H; try assumption; apply Hm; try assumption; try apply Qcle_refl; qc.
    + replace (B * D * (v - u)) with ((D * (v - u)) * B) by ring.
      replace (B * (f v - f u)) with ((f v - f u) * B) by ring. apply qmul_le_r; [apply Hd; assumption|exact HB].
Qed.

(* ---- straight paths ---- *)
Lemma straight_lip (h : hdr Qc) q0 q1 a b : fst (pr h) <= snd (pr h) ->
  0 <= straight_vb h q0 q1 /\ lip (compute Qc lerp (Straight h q0 q1)) a b (straight_vb h q0 q1).
Proof.
  intros Hr. cbn [compute].
  assert (E : forall s, straight_compute Qc lerp h q0 q1 s = sval Qc lerp (pr h) q0 q1 s)
    by (intros; apply straight_compute_val; exact lerp_geodesic).
  unfold straight_vb. destruct (qeqb_spec (fst (pr h)) (snd (pr h))) as [Hc|Hc].
  - split; [apply Qcle_refl|]. split; [intros; eexists; reflexivity|].
    intros u v x y H1 H2 H3 Eu Ev. rewrite E in Eu, Ev. unfold sval in *.
    destruct (qeqb_spec (ilen (pr h)) 0) as [Hz|Hz]; [|exfalso; apply Hz; unfold ilen; qc].
    injection Eu as <-. injection Ev as <-. replace (0 * (v - u)) with 0 by ring. apply near_refl, Qcle_refl.
  - assert (HL : 0 < ilen (pr h)) by (unfold ilen; pose proof (qneq_lt _ _ Hr Hc); qc).
    split; [apply qdiv_nonneg; [apply qabs_nonneg|exact HL]|].
    split; [intros; eexists; reflexivity|].
    intros u v x y H1 H2 H3 Eu Ev. rewrite E in Eu, Ev. unfold sval in *.
    destruct (qeqb_spec (ilen (pr h)) 0) as [Hz|Hz]; [rewrite Hz in HL; exfalso; apply (Qclt_not_le _ _ HL), Qcle_refl|].
    injection Eu as <-. injection Ev as <-. unfold lerp.
    assert (Hk : 0 <= (v - u) / ilen (pr h)) by (apply qdiv_nonneg; [qc|exact HL]).
    pose proof (qabs_mul_near q0 q1 _ Hk) as N.
    unfold near in *. destruct N as [N1 N2].
    replace (qabs (q1 - q0) / ilen (pr h) * (v - u)) with ((v - u) / ilen (pr h) * qabs (q1 - q0)) by (field; exact Hz).
    split.
    + refine (Qcle_trans _ _ _ _ N1). replace (q0 + (v - u) / ilen (pr h) * (q1 - q0) - q0) with
       (q0 + (v - fst (pr h)) / ilen (pr h) * (q1 - q0) - (q0 + (u - fst (pr h)) / ilen (pr h) * (q1 - q0))) by (field; exact Hz).
      apply Qcle_refl.
    + refine (Qcle_trans _ _ _ _ N2). replace (q0 - (q0 + (v - u) / ilen (pr h) * (q1 - q0))) with
       (q0 + (u - fst (pr h)) / ilen (pr h) * (q1 - q0) - (q0 + (v - fst (pr h)) / ilen (pr h) * (q1 - q0))) by (field; exact Hz).
      apply Qcle_refl.
Qed.

(* ---- interpolated paths ---- *)
Notation knot := (Qc * Qc)%type.
Notation kok := (kok Qc).
Notation pl := (pl Qc lerp).

Lemma loop_cons (a b : knot) r s1 acc :
  interp_vb_loop (a :: b :: r) s1 acc =
  if qltb (fst a) s1 then interp_vb_loop (b :: r) s1 (qmax acc (qabs (snd b - snd a) / (fst b - fst a)))
  else Ok acc.
Proof. reflexivity. Qed.

Lemma loop_acc (ks : list knot) s1 acc B : interp_vb_loop ks s1 acc = Ok B -> acc <= B.
Proof.
  revert acc. induction ks as [|a r IH]; intros acc H; cbn [interp_vb_loop] in H; [discriminate|].
  destruct (qltb (fst a) s1); [|injection H as <-; apply Qcle_refl].
  destruct r as [|b r']; [discriminate|]. apply IH in H. eapply Qcle_trans; [apply qmax_l|exact H].
Qed.

Lemma seg_near (a b : knot) u v B : fst a < fst b ->
  qabs (snd b - snd a) / (fst b - fst a) <= B -> u <= v ->
  near (seg Qc lerp a b u) (seg Qc lerp a b v) (B * (v - u)).
Proof.
  intros Hab HB Huv. assert (Hd : 0 < fst b - fst a) by qc.
  assert (Hz : fst b - fst a <> 0) by (apply not_eq_sym, qlt_neq; exact Hd).
  unfold seg, lerp.
  assert (Hk : 0 <= (v - u) / (fst b - fst a)) by (apply qdiv_nonneg; [qc|exact Hd]).
  destruct (qabs_mul_near (snd a) (snd b) _ Hk) as [N1 N2].
  apply (near_le _ _ ((v - u) / (fst b - fst a) * qabs (snd b - snd a))).
  - split.
    + refine (Qcle_trans _ _ _ _ N1). match goal with |- ?x <= ?y => replace x with y by (field; exact Hz) end. apply Qcle_refl.
    + refine (Qcle_trans _ _ _ _ N2). match goal with |- ?x <= ?y => replace x with y by (field; exact Hz) end. apply Qcle_refl.
  - replace ((v - u) / (fst b - fst a) * qabs (snd b - snd a)) with
      (qabs (snd b - snd a) / (fst b - fst a) * (v - u)) by (field; exact Hz).
    apply qmul_le_r; [exact HB|qc].
Qed.

Lemma pl_near (r : list knot) : forall a s1 acc B q u v, kok (a :: r) ->
  interp_vb_loop (a :: r) s1 acc = Ok B -> 0 <= acc ->
  fst a <= u -> u <= v -> v <= s1 -> near (pl (a :: r) q u) (pl (a :: r) q v) (B * (v - u)).
Proof.
  induction r as [|b r IH]; intros a s1 acc B q u v Hk H Hacc Hau Huv Hv.
  - cbn [interp_vb_loop] in H. destruct (qltb_spec (fst a) s1) as [L|L]; [discriminate|].
    apply ok_inj in H. subst B. cbn [PathProofs2.pl].
    apply near_refl. apply qmul_nonneg; [exact Hacc|qc].
  - pose proof (kok_cons _ _ _ Hk) as [Hk' Hf]. inversion Hf as [|? ? Hab _]; subst.
    rewrite loop_cons in H. destruct (qltb_spec (fst a) s1) as [L|L].
    + set (m := qmax acc (qabs (snd b - snd a) / (fst b - fst a))) in *.
      assert (HmB : m <= B) by (apply loop_acc in H; exact H).
      assert (Hm0 : 0 <= m) by (unfold m; eapply Qcle_trans; [exact Hacc|apply qmax_l]).
      assert (Hs : qabs (snd b - snd a) / (fst b - fst a) <= B) by (eapply Qcle_trans; [apply qmax_r|exact HmB]).
      assert (E1 : forall t, t <= fst b -> pl (a :: b :: r) q t = seg Qc lerp a b t).
      { intros t Ht. cbn [PathProofs2.pl]. destruct (qleb_spec t (fst b)) as [X|X]; [reflexivity|qc]. }
      assert (E2 : forall t, fst b <= t -> pl (a :: b :: r) q t = pl (b :: r) q t).
      { intros t Ht. cbn [PathProofs2.pl]. destruct (qleb_spec t (fst b)) as [X|X]; [|reflexivity].
        assert (t = fst b) by (apply Qcle_antisym; assumption). subst t.
        rewrite (seg_right Qc lerp lerp_geodesic) by exact Hab. symmetry. apply (pl_first Qc lerp lerp_geodesic r q b Hk'). }
      destruct (Qclt_le_dec (fst b) v) as [Lv|Lv].
      * destruct (Qclt_le_dec u (fst b)) as [Lu|Lu].
        -- replace (B * (v - u)) with (B * (fst b - u) + B * (v - fst b)) by ring.
           apply (near_trans _ (pl (a :: b :: r) q (fst b))).
           ++ rewrite !E1 by (try apply Qcle_refl; qc). apply seg_near; [exact Hab|exact Hs|qc].
           ++ rewrite !E2 by (try apply Qcle_refl; qc). apply (IH b s1 m B q (fst b) v Hk' H Hm0); try assumption; try apply Qcle_refl; qc.
        -- rewrite !E2 by qc. apply (IH b s1 m B q u v Hk' H Hm0); try assumption; qc.
      * rewrite !E1 by qc. apply seg_near; [exact Hab|exact Hs|qc].
    + apply ok_inj in H. subst B. assert (u = v) by qc. subst v.
      apply near_refl. apply qmul_nonneg; [exact Hacc|qc].
Qed.

Lemma lower_at (ks : list knot) k : kok ks -> In k ks ->
  exists pre post, ks = pre ++ k :: post /\ lower ks (fst k) = k :: post.
Proof.
  induction ks as [|a r IH]; intros Hk Hin; [destruct Hin|].
  pose proof (kok_cons _ _ _ Hk) as [Hk' Hf]. cbn [lower]. destruct Hin as [->|Hin].
  - exists [], r. split; [reflexivity|]. destruct (qltb_spec (fst k) (fst k)) as [X|X]; [qc|reflexivity].
  - rewrite Forall_forall in Hf. specialize (Hf k Hin).
    destruct (qltb_spec (fst a) (fst k)) as [X|X]; [|qc].
    destruct (IH Hk' Hin) as (pre & post & E & L). exists (a :: pre), post. split; [rewrite E; reflexivity|exact L].
Qed.

Lemma loop_total (r : list knot) : forall a s1 acc, kok (a :: r) ->
  (exists kl, klast (a :: r) = Some kl /\ s1 <= fst kl) -> exists B, interp_vb_loop (a :: r) s1 acc = Ok B.
Proof.
  induction r as [|b r IH]; intros a s1 acc Hk (kl & El & Hl).
  - cbn [interp_vb_loop]. cbn in El. injection El as <-. destruct (qltb_spec (fst a) s1) as [L|L]; [qc|eexists; reflexivity].
  - rewrite loop_cons. destruct (qltb (fst a) s1); [|eexists; reflexivity].
    apply kok_cons in Hk. destruct Hk as [Hk _]. apply IH; [exact Hk|]. exists kl. rewrite klast_cons in El. split; assumption.
Qed.
Lemma klast_suffix (pre : list knot) k post : klast (pre ++ k :: post) = klast (k :: post).
Proof.
  unfold klast. rewrite rev_app_distr. cbn [rev]. destruct (rev post ++ [k]) as [|z zs] eqn:E.
  - destruct (rev post); discriminate.
  - cbn [app]. reflexivity.
Qed.
Lemma kok_suffix (pre : list knot) l : kok (pre ++ l) -> kok l.
Proof. induction pre as [|a pre IH]; intros H; [exact H|]. apply kok_cons in H. apply IH, H. Qed.

Lemma interp_lip (h : hdr Qc) ks k s1 : knots_ok (pr h) ks -> In k ks -> fst k <= s1 -> s1 <= snd (pr h) ->
  exists B, interp_vb ks (fst k) s1 = Ok B /\ 0 <= B /\ lip (compute Qc lerp (Interp h ks)) (fst k) s1 B.
Proof.
  intros Hok Hin H1 H2. pose proof Hok as (Hk & k0 & kl & E0 & El & F0 & Fl).
  change (kok ks) in Hk.
  destruct (lower_at ks k Hk Hin) as (pre & post & E & L). unfold interp_vb. rewrite L.
  assert (Hks : kok (k :: post)) by (rewrite E in Hk; apply kok_suffix in Hk; exact Hk).
  destruct (loop_total post k s1 0 Hks) as (B & HB).
  { exists kl. rewrite E, klast_suffix in El. split; [exact El|rewrite Fl; exact H2]. }
  exists B. split; [exact HB|]. split; [apply loop_acc in HB; exact HB|].
  destruct ks as [|a r]; [destruct Hin|].
  assert (Hak : fst a <= fst k).
  { pose proof (kok_cons _ _ _ Hk) as [_ Hf]. rewrite Forall_forall in Hf.
    destruct Hin as [->|Hin]; [apply Qcle_refl|apply Qclt_le_weak, Hf, Hin]. }
  cbn in E0. injection E0 as <-.
  set (q := snd k).
  assert (Hpl : forall t, fst k <= t -> t <= s1 -> compute Qc lerp (Interp h (a :: r)) t = Ok (Some (pl (k :: post) q t))).
  { intros t T1 T2. cbn [compute].
    rewrite (interp_compute_pl Qc lerp lerp_geodesic h a r t q Hok) by qc. do 2 f_equal.
    destruct pre as [|a' pre]; cbn [app] in E; [rewrite E; reflexivity|].
    injection E as <- E. subst r.
    rewrite (pl_app Qc lerp pre a k post q t Hk) by qc.
    destruct (qleb_spec t (fst k)) as [X|X]; [|reflexivity].
    assert (t = fst k) by (apply Qcle_antisym; assumption). subst t.
    rewrite (pl_first Qc lerp lerp_geodesic post q k Hks).
    apply (pl_last Qc lerp lerp_geodesic a (pre ++ [k]) q).
    - clear - Hk. change (kok ((a :: pre) ++ k :: post)) in Hk. change (kok ((a :: pre) ++ [k])).
      apply kok_snoc.
      + induction (a :: pre) as [|z zs IH]; [constructor|]. cbn [app] in Hk. apply kok_cons in Hk.
        destruct Hk as [K1 K2]. constructor; [apply IH; exact K1|]. apply Forall_app in K2. apply K2.
      + intros x Hx. apply (kok_app_lt Qc _ _ x k Hk Hx). left; reflexivity.
    - change (a :: pre ++ [k]) with ((a :: pre) ++ [k]). apply klast_app. }
  split.
  - intros t T1 T2. eexists. apply Hpl; assumption.
  - intros u v x y U1 U2 U3 Eu Ev. rewrite Hpl in Eu by qc. rewrite Hpl in Ev by qc.
    injection Eu as <-. injection Ev as <-.
    apply (pl_near post k s1 0 B q u v Hks HB); try assumption. apply Qcle_refl.
Qed.
